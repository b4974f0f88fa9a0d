(** C84: derived predicates and metrics of PDDL files (io/pddl) *)
From Verif Require Import Base Syntax Semantics SemLemmas ListUtil ModelState ModelProofs SubstProofs FreeVars Lang LangSpec LangProofs Theories RddlRead RddlInitProofs2 PddlInstance PddlInstanceSpec PropsPddlInstance PddlInstanceProofs5 PddlExpr PddlExprSpec PddlExprProofs PddlExprProofs2 PddlExprProofs3 PddlExprProofs4 PddlExprProofs5 PddlExprProofs6 PropsPddlExpr PddlDerived PddlDerivedSpec.
#[local] Open Scope string_scope.
#[local] Open Scope list_scope.

Lemma keys_In ds n : In n (predicate_keys ds) <-> exists args, In (DPred n args) ds.
Proof.
  unfold predicate_keys. rewrite in_flat_map. split.
  - intros (d & H & Q). destruct d as [|m args|]; cbn in Q; try destruct Q as [<-|[]]; try destruct Q. exists args. exact H.
  - intros (args & H). exists (DPred n args). split; [exact H|now left].
Qed.
Lemma check_head_ok dom : forall xs, check_head dom xs = Ok tt <-> exists more, map snd xs = dom ++ more.
Proof.
  induction dom as [|s dom IH]; intros xs; cbn [check_head].
  - split; [intros _; exists (map snd xs); reflexivity|reflexivity].
  - destruct xs as [|x xs]; [split; [discriminate|intros (m & Q); discriminate Q]|]. cbn [map app]. destruct (String.eqb_spec s (snd x)) as [Q|Q].
    + rewrite IH. split; intros (m & E); exists m; [rewrite E, Q; reflexivity|injection E as _ E; exact E].
    + split; [discriminate|]. intros (m & E). injection E as E _. congruence.
Qed.
Lemma check_head_unit dom xs u : check_head dom xs = Ok u -> check_head dom xs = Ok tt.
Proof. destruct u. trivial. Qed.

Section Domain.
Variable parse : bool -> string -> option Z.
Variable es : list tentry.
Variable ds : list decl.
Variable i : pinst.
Hypothesis R : read_domain parse es ds = Ok i.
Notation P := (predicate_names ds).
Lemma head_declared n dom : head_predicate ds i n = Ok dom <-> declares ds n dom.
Proof.
  assert (F := read_facts parse es ds i R).
  assert (G : forall args, In (DPred n args) ds -> lget (pi_lang i) (CStr n) = Ok (EFun n (map snd (typed_variables args) ++ ["Bool"]))).
  { intros args H. apply (fa_sym _ _ _ F). right. unfold signatures. apply in_flat_map. exists (DPred n args). split; [exact H|now left]. }
  unfold head_predicate. destruct (str_mem n (predicate_keys ds)) eqn:M.
  - assert (K : In n (predicate_keys ds)) by (apply str_mem_In; exact M). apply keys_In in K as (args & H). assert (L := G args H). rewrite L. rewrite removelast_last. split.
    + intros Q. injection Q as <-. exists args. split; [exact H|reflexivity].
    + intros (args' & H' & ->). assert (L' := G args' H'). rewrite L in L'. injection L' as L'. apply app_inj_tail in L' as [L' _]. f_equal. exact L'.
  - split; [discriminate|]. intros (args & H & _). exfalso. assert (K : str_mem n (predicate_keys ds) = true) by (apply str_mem_In; apply keys_In; eauto). congruence.
Qed.
(** A definition is read like the parameters and the precondition of an action, and has a head. *)
Lemma derived_action fuel n args g x d : read_derived parse fuel ds i [] n args g = Ok (x, d) <->
  exists a, read_action parse fuel i [] n args (Some g) None = Ok (a, d) /\ pa_pre a = Some (de_body x) /\ pa_parameters a = de_parameters x /\ de_head x = n /\ declares ds n (de_domain x) /\ check_head (de_domain x) (typed_variables args) = Ok tt.
Proof.
  unfold read_derived, read_action. split.
  - intros H. apply bind_some in H as (ys & X & H). apply bind_some in H as ([f d1] & G & H). apply bind_some in H as (dom & D & H). apply bind_some in H as (u & C & H). apply bind_some in H as (d2 & L & H). injection H as <- <-. cbn [fst snd] in *. rewrite X. cbn [bind]. rewrite G. cbn [bind fst snd]. rewrite L. cbn [bind].
    apply head_declared in D. apply check_head_unit in C. apply normalize_typed in X. cbn [map app] in X. subst ys. eexists. split; [reflexivity|]. cbn [pa_pre pa_parameters de_head de_domain de_parameters de_body]. split; [reflexivity|]. split; [reflexivity|]. split; [reflexivity|]. split; [exact D|exact C].
  - intros (a & H & B & Q & N & D & C). apply bind_some in H as (ys & X & H). apply bind_some in H as ([of d1] & G & H). apply bind_some in G as ([f d1'] & G & G'). injection G' as <- <-. apply bind_some in H as (oes & E & H). apply bind_some in H as (d2 & L & H). injection H as <- <-. cbn [fst snd pa_pre pa_parameters] in *. injection B as B. rewrite X. cbn [bind]. rewrite G. cbn [bind fst snd]. apply head_declared in D. rewrite D. cbn [bind].
    apply normalize_typed in X. cbn [map app] in X. subst ys. rewrite C. cbn [bind]. rewrite L. cbn [bind]. destruct x as [h dm ps bd]. cbn [de_head de_domain de_parameters de_body] in B, Q, N |- *. rewrite B, Q, N. reflexivity.
Qed.
(** A derived predicate can be read, with enough steps, exactly when its body is a condition over the variables of its head and the variables begin with those of the declared predicate. *)
Theorem C84_accepted : exists n0, forall fuel n args g, n0 <= fuel ->
  (exists x d, read_derived parse fuel ds i [] n args g = Ok (x, d)) <-> body_ok es ds args g /\ head_starts ds n args.
Proof.
  destruct (C67_actions parse es ds i R) as (n0 & A). exists n0. intros fuel n args g Hf. assert (B := A fuel n args (Some g) None Hf). split.
  - intros (x & d & H). apply derived_action in H as (a & H & _ & _ & _ & D & C). destruct (proj1 B (ex_intro _ a (ex_intro _ d H))) as (V & N & G & _). destruct (G g eq_refl) as [G1 G2]. split; [exact (conj V (conj N (conj G1 G2)))|]. apply check_head_ok in C as (more & C). exists (de_domain x), more. split; [exact D|exact C].
  - intros [(V & N & G1 & G2) (tys & more & D & E)]. destruct (proj2 B) as (a & d & H).
    { split; [exact V|]. split; [exact N|]. split; [intros g' Q; injection Q as <-; exact (conj G1 G2)|discriminate]. }
    destruct (C67_preconditions parse es ds i R fuel n args g None a d H) as (f & Q & _). exists {| de_head := n; de_domain := tys; de_parameters := pa_parameters a; de_body := f |}, d. apply derived_action. exists a. cbn [pa_pre pa_parameters de_head de_domain de_parameters de_body]. split; [exact H|]. split; [exact Q|]. split; [reflexivity|]. split; [reflexivity|]. split; [exact D|]. apply check_head_ok. exists more. exact E.
Qed.
(** In particular the definitions of PDDL are read. *)
Theorem C84_pddl_accepted : exists n0, forall fuel n args g, n0 <= fuel -> body_ok es ds args g -> head_ok ds n args -> exists x, read_derived parse fuel ds i [] n args g = Ok (x, []).
Proof.
  destruct C84_accepted as (n0 & A). exists n0. intros fuel n args g Hf B H. destruct (proj2 (A fuel n args g Hf)) as (x & d & X). { split; [exact B|]. exists (map snd (typed_variables args)), []. split; [exact H|now rewrite app_nil_r]. }
  exists x. assert (Y := X). apply derived_action in Y as (a & Y & _). destruct (C67_parameters parse i fuel n args (Some g) None a d Y) as (_ & _ & -> & _). exact X.
Qed.
(** The head is the predicate declared under the name, the parameters are those of the text, and no variable stays in scope. *)
Theorem C84_head fuel n args g x d : read_derived parse fuel ds i [] n args g = Ok (x, d) -> de_head x = n /\ declares ds n (de_domain x) /\ de_parameters x = typed_variables args /\ d = [].
Proof.
  intros H. apply derived_action in H as (a & H & _ & B & N & D & _). destruct (C67_parameters parse i fuel n args (Some g) None a d H) as (_ & Q & E & _). split; [exact N|]. split; [exact D|]. split; [congruence|exact E].
Qed.
Lemma names_distinct fuel n args g x d : read_derived parse fuel ds i [] n args g = Ok (x, d) -> NoDup (map fst (typed_variables args)).
Proof.
  unfold read_derived. intros H. apply bind_some in H as (ys & X & H). apply bind_some in H as ([f d1] & G & H). apply bind_some in H as (dom & D & H). apply bind_some in H as (u & C & H). apply bind_some in H as (d2 & L & H). cbn [fst snd] in *. apply normalize_typed in X. cbn [map app] in X. subst ys.
  destruct (gd_scope _ _ _ _ _ _ _ (enter_distinct (typed_variables args) [] distinct_nil) G) as [_ S]. exact (proj1 (proj2 (leave_spec _ _ _ (proj1 S) L))).
Qed.
(** The facts that a definition derives in a world are those that the text derives. *)
Theorem C84_facts fuel n args g x d : read_derived parse fuel ds i [] n args g = Ok (x, d) -> (forall p, In p (atom_symbols g) -> In p P) ->
  forall (W : world) vs, derives_read W x vs <-> derives W P args g vs.
Proof.
  intros H Pr W vs. assert (N := names_distinct _ _ _ _ _ _ H). destruct (C84_head _ _ _ _ _ _ H) as (_ & _ & Q & _). apply derived_action in H as (a & H & B & _ & _ & _ & _). destruct (C67_preconditions parse es ds i R fuel n args g None a d H) as (f & Q' & M). rewrite B in Q'. injection Q' as <-.
  unfold derives_read, derives. rewrite Q. split.
  - intros (en & -> & T & S). set (e := fun y : string => match sget (typed_variables args) y with Some s => en (y, s) | None => en (y, "") end).
    assert (G : gives W args en e). { intros y s Hy. unfold e. replace (sget (typed_variables args) y) with (Some s); [reflexivity|]. symmetry. unfold sget. clear - N Hy. induction (typed_variables args) as [|[k v] l IH]; [destruct Hy|]. cbn [dget]. cbn [map fst] in N. inversion N as [|? ? N1 N2]; subst. destruct Hy as [Hy|Hy]; [injection Hy as -> ->; now rewrite String.eqb_refl|]. destruct (String.eqb_spec k y) as [E|E]; [|now apply IH]. exfalso. subst k. apply N1. apply in_map_iff. exists (y, s). split; [reflexivity|exact Hy]. }
    exists e. split; [|split].
    + apply map_ext_in. intros [y s] Hy. exact (G y s Hy).
    + intros y s Hy. rewrite <- (G y s Hy). exact (T (y, s) Hy).
    + rewrite <- (M W en e G Pr). exact S.
  - intros (e & -> & T & S). set (en := (fun v => e (fst v)) : env (structure_of W)). assert (G : gives W args en e) by (intros y s _; reflexivity). exists en. split; [reflexivity|]. split; [intros [y s] Hy; exact (T y s Hy)|]. rewrite (M W en e G Pr). exact S.
Qed.
(** A file with several definitions: every one is read on its own, in the order of the text. *)
Lemma all_read fuel ps : forall l d, read_derived_all parse fuel ds i ps = Ok (l, d) <-> d = [] /\ Forall2 (fun (p : derived_def) x => read_derived parse fuel ds i [] (fst (fst p)) (snd (fst p)) (snd p) = Ok (x, [])) ps l.
Proof.
  unfold read_derived_all. induction ps as [|p ps IH]; intros l d; cbn [read_list].
  - split; [intros Q; injection Q as <- <-; split; [reflexivity|constructor]|intros [-> F]; inversion F; reflexivity].
  - split.
    + intros H. apply bind_some in H as ([x d1] & X & H). apply bind_some in H as ([r d2] & Y & H). injection H as <- <-. cbn [fst snd] in *. assert (d1 = []) by exact (proj2 (proj2 (proj2 (C84_head _ _ _ _ _ _ X)))). subst d1. apply IH in Y as [-> Y]. split; [reflexivity|]. constructor; [exact X|exact Y].
    + intros [-> F]. inversion F as [|? x ? r X Y]; subst. rewrite X. cbn [bind fst snd]. rewrite (proj2 (IH r [])); [reflexivity|]. split; [reflexivity|exact Y].
Qed.
Theorem C84_file : exists n0, forall fuel ps, n0 <= fuel ->
  (exists l d, read_derived_all parse fuel ds i ps = Ok (l, d)) <-> Forall (fun p : derived_def => body_ok es ds (snd (fst p)) (snd p) /\ head_starts ds (fst (fst p)) (snd (fst p))) ps.
Proof.
  destruct C84_accepted as (n0 & A). exists n0. intros fuel ps Hf. split.
  - intros (l & d & H). apply all_read in H as [_ H]. induction H as [|p x ps l X _ IH]; constructor; [|exact IH]. apply (A fuel _ _ _ Hf). eauto.
  - intros F. assert (E : exists l, Forall2 (fun (p : derived_def) x => read_derived parse fuel ds i [] (fst (fst p)) (snd (fst p)) (snd p) = Ok (x, [])) ps l).
    { induction F as [|p ps X _ (l & IH)]; [exists []; constructor|]. apply (A fuel _ _ _ Hf) in X as (x & d & X). exists (x :: l). constructor; [|exact IH]. rewrite X. assert (d = []) by exact (proj2 (proj2 (proj2 (C84_head _ _ _ _ _ _ X)))). now subst d. }
    destruct E as (l & E). exists l, []. apply all_read. split; [reflexivity|exact E].
Qed.
Theorem C84_file_order fuel ps l d : read_derived_all parse fuel ds i ps = Ok (l, d) -> d = [] /\ map (fun x => (de_head x, de_parameters x)) l = map (fun p : derived_def => (fst (fst p), typed_variables (snd (fst p)))) ps /\
  Forall2 (fun (p : derived_def) x => (forall q, In q (atom_symbols (snd p)) -> In q P) -> forall (W : world) vs, derives_read W x vs <-> derives W P (snd (fst p)) (snd p) vs) ps l.
Proof.
  intros H. apply all_read in H as [-> H]. split; [reflexivity|]. split.
  - induction H as [|p x ps l X _ IH]; [reflexivity|]. cbn [map]. rewrite IH. destruct (C84_head _ _ _ _ _ _ X) as (-> & _ & -> & _). reflexivity.
  - induction H as [|p x ps l X _ IH]; constructor; [|exact IH]. intros Pr. exact (C84_facts _ _ _ _ _ _ X Pr).
Qed.
(** A head that is not declared is never accepted, but the exception is AttributeError, not the SemanticError that the code means to raise. *)
Theorem C84_undeclared fuel n args g xs f d : normalize i [] args = Ok xs -> read_gd parse fuel i (enter [] xs) g = Ok (f, d) -> (forall args', ~ In (DPred n args') ds) -> read_derived parse fuel ds i [] n args g = Err AttributeError.
Proof.
  intros X G H. unfold read_derived. rewrite X. cbn [bind]. rewrite G. cbn [bind]. unfold head_predicate. destruct (str_mem n (predicate_keys ds)) eqn:M; [|reflexivity]. exfalso. assert (K : In n (predicate_keys ds)) by (apply str_mem_In; exact M). apply keys_In in K as (args' & K). exact (H args' K).
Qed.
(** A head with another type at some place is a SemanticError; a head with too few variables is an IndexError. *)
Theorem C84_wrong_head fuel n args g xs f d tys : normalize i [] args = Ok xs -> read_gd parse fuel i (enter [] xs) g = Ok (f, d) -> declares ds n tys -> forall same rest rest', tys = same ++ rest -> map snd (typed_variables args) = same ++ rest' -> match rest, rest' with
  | s :: _, t :: _ => s <> t -> read_derived parse fuel ds i [] n args g = Err SemanticError
  | _ :: _, [] => read_derived parse fuel ds i [] n args g = Err IndexError
  | [], _ => True end.
Proof.
  intros X G D same rest rest' E E'. apply head_declared in D. assert (Q := normalize_typed _ _ _ _ X). cbn [map app] in Q. unfold read_derived. rewrite X. cbn [bind]. rewrite G. cbn [bind]. rewrite D. cbn [bind].
  assert (C : forall ys, map snd ys = same ++ rest' -> match rest, rest' with s :: _, t :: _ => s <> t -> check_head tys ys = Err SemanticError | _ :: _, [] => check_head tys ys = Err IndexError | [], _ => True end).
  { rewrite E. clear. induction same as [|s same IH]; intros ys Y.
    - cbn [app] in *. destruct rest as [|s rest]; [exact I|]. destruct rest' as [|t rest']; destruct ys as [|y ys]; try discriminate Y; [reflexivity|]. injection Y as Y _. intros Ne. cbn [check_head]. match goal with |- context [String.eqb ?a ?b] => destruct (String.eqb_spec a b) as [E0|_] end; [exfalso; apply Ne; exact (eq_trans E0 Y)|reflexivity].
    - destruct ys as [|y ys]; [discriminate Y|]. injection Y as Y1 Y2. specialize (IH ys Y2). cbn [app check_head]. match goal with |- context [String.eqb ?a ?b] => destruct (String.eqb_spec a b) as [_|E0] end; [exact IH|exfalso; apply E0; exact (eq_sym Y1)]. }
  rewrite <- Q in E'. specialize (C xs E'). destruct rest as [|s rest]; [exact I|]. destruct rest' as [|t rest']; [rewrite C; reflexivity|]. intros Ne. rewrite (C Ne). reflexivity.
Qed.
End Domain.

(** ** Metrics *)
Section MexpInd.
  Variable K : mexp -> Prop.
  Hypothesis H1 : forall o a b, K a -> K b -> K (MBinary o a b).
  Hypothesis H2 : forall o a r, K a -> Forall K r -> K (MMulti o a r).
  Hypothesis H3 : forall a, K a -> K (MMinus a).
  Hypothesis H4 : forall c, K (MReal c).
  Hypothesis H5 : forall f ns, K (MApp f ns).
  Hypothesis H6 : forall n, K (MName n).
  Hypothesis H7 : K MTime.
  Hypothesis H8 : K MCost.
  Hypothesis H9 : forall n, K (MViolated n).
  Fixpoint mexp_induction (m : mexp) : K m :=
    match m with
    | MBinary o a b => H1 o a b (mexp_induction a) (mexp_induction b)
    | MMulti o a r => H2 o a r (mexp_induction a) ((fix go l : Forall K l := match l with [] => Forall_nil K | x :: l' => Forall_cons x (mexp_induction x) (go l') end) r)
    | MMinus a => H3 a (mexp_induction a) | MReal c => H4 c | MApp f ns => H5 f ns | MName n => H6 n | MTime => H7 | MCost => H8 | MViolated n => H9 n
    end.
End MexpInd.
Lemma mexp_bare m : (exists t, read_mexp m = Ok t) <-> ~ bare m.
Proof.
  induction m as [o a b IHa IHb|o a r IHa IHr|a IHa|c|f ns|n| | |n] using mexp_induction; cbn [read_mexp].
  - split.
    + intros (t & H) B. apply bind_some in H as (ta & A & H). apply bind_some in H as (tb & Bb & _). inversion B; subst; [apply (proj1 IHa); eauto|apply (proj1 IHb); eauto].
    + intros H. destruct (proj2 IHa) as (ta & ->); [intros B; apply H; now constructor|]. destruct (proj2 IHb) as (tb & ->); [intros B; apply H; now apply b_right|]. eexists; reflexivity.
  - split.
    + intros (t & H) B. apply bind_some in H as (ta & A & H). apply bind_some in H as (tr & Rr & _). inversion B as [| | | | ? ? ? B'|? ? ? m Hm B'|]; subst; [apply (proj1 IHa); eauto|]. rewrite Forall_forall in IHr. apply (proj1 (IHr m Hm)); [|exact B']. exact (mapM_ok_all _ _ _ Rr m Hm).
    + intros H. destruct (proj2 IHa) as (ta & ->); [intros B; apply H; now apply b_first|]. cbn [bind].
      assert (E : exists tr, mapM read_mexp r = Ok tr). { assert (Nr : forall m, In m r -> ~ bare m) by (intros m Hm B; apply H; exact (b_rest _ _ _ m Hm B)). clear H. induction IHr as [|m r Hm _ IH]; [eexists; reflexivity|]. cbn [mapM]. destruct (proj2 Hm (Nr m (or_introl eq_refl))) as (t & ->). cbn [bind]. destruct IH as (tr & ->); [intros k Hk; apply Nr; now right|]. eexists; reflexivity. }
      destruct E as (tr & ->). eexists; reflexivity.
  - split.
    + intros (t & H) B. apply bind_some in H as (ta & A & H). inversion B; subst. apply (proj1 IHa); eauto.
    + intros H. destruct (proj2 IHa) as (ta & ->); [intros B; apply H; now constructor|]. eexists; reflexivity.
  - split; [intros (t & H); discriminate H|intros H; destruct H; constructor].
  - split; [intros _ B; inversion B|eexists; reflexivity].
  - split; [intros (t & H); discriminate H|intros H; destruct H; constructor].
  - split; [intros _ B; inversion B|eexists; reflexivity].
  - split; [intros _ B; inversion B|eexists; reflexivity].
  - split; [intros _ B; inversion B|eexists; reflexivity].
Qed.
Lemma mexp_error m e : read_mexp m = Err e -> e = IndexError.
Proof.
  revert e. induction m as [o a b IHa IHb|o a r IHa IHr|a IHa|c|f ns|n| | |n] using mexp_induction; intros e; cbn [read_mexp].
  - destruct (read_mexp a); [|intros H; injection H as <-; now apply IHa]. destruct (read_mexp b); [discriminate|intros H; injection H as <-; now apply IHb].
  - destruct (read_mexp a); [|intros H; injection H as <-; now apply IHa]. cbn [bind]. destruct (mapM read_mexp r) as [l|e'] eqn:M; [discriminate|]. intros H. cbn [bind] in H. injection H as H. subst e'. revert e M. induction IHr as [|m r Hm _ IH]; intros e M; cbn [mapM] in M; [discriminate M|]. destruct (read_mexp m); [|injection M as <-; now apply Hm]. cbn [bind] in M. destruct (mapM read_mexp r); [discriminate M|]. injection M as <-. now apply IH.
  - destruct (read_mexp a); [discriminate|intros H; injection H as <-; now apply IHa].
  - intros H; now injection H as <-.
  - discriminate.
  - intros H; now injection H as <-.
  - discriminate.
  - discriminate.
  - discriminate.
Qed.
(** A metric is read unless a number or a name without parentheses is in it; then the exception is IndexError. *)
Theorem C84_metric_accepted o m : (exists x, read_metric (Some (o, m)) = Ok x) <-> ~ bare m.
Proof.
  rewrite <- mexp_bare. cbn [read_metric]. split.
  - intros (x & H). apply bind_some in H as (t & H & _). eauto.
  - intros (t & ->). eexists; reflexivity.
Qed.
Theorem C84_metric_refused o m : bare m -> read_metric (Some (o, m)) = Err IndexError.
Proof.
  intros B. cbn [read_metric]. destruct (read_mexp m) as [t|e] eqn:M; [|apply mexp_error in M; now subst e]. exfalso. apply (proj1 (mexp_bare m)); [eauto|exact B].
Qed.
(** What is read: the mode of the text; cost or time exactly for the total cost and the total time, and nothing else is remembered. A file without a metric minimizes something unspecified. *)
Theorem C84_metric_meaning o m mode t : In o ["minimize"; "maximize"] -> operators_ok m -> read_metric (Some (o, m)) = Ok (mode, t) ->
  (mode = Minimize <-> o = "minimize") /\ (mode = Maximize <-> o = "maximize") /\ (t = TotalCost <-> is_cost m) /\ (t = TotalTime <-> is_time m) /\ (t = Unspecified <-> ~ is_cost m /\ ~ is_time m).
Proof.
  intros Ho Op H. cbn [read_metric] in H. apply bind_some in H as (t' & M & H). injection H as <- <-.
  assert (A : (optimization o = Minimize <-> o = "minimize") /\ (optimization o = Maximize <-> o = "maximize")). { destruct Ho as [<-|[<-|[]]]; vm_compute; split; split; intros Q; try reflexivity; discriminate Q. }
  split; [exact (proj1 A)|]. split; [exact (proj2 A)|].
  assert (B : (t' = TotalCost /\ is_cost m /\ ~ is_time m) \/ (t' = TotalTime /\ is_time m /\ ~ is_cost m) \/ (t' = Unspecified /\ ~ is_time m /\ ~ is_cost m)).
  { assert (U : forall k, t' = keyword k -> (forall ns, m <> MApp "total-cost" ns) -> (forall ns, m <> MApp "total-time" ns) -> m <> MCost -> m <> MTime -> ~ In k ["total-cost"; "total-time"] -> t' = Unspecified /\ ~ is_time m /\ ~ is_cost m).
    { intros k -> N1 N2 N3 N4 Nk. split; [|split; [intros [Q|(ns & Q)]; [exact (N4 Q)|exact (N2 ns Q)]|intros [Q|(ns & Q)]; [exact (N3 Q)|exact (N1 ns Q)]]]. unfold keyword. destruct (String.eqb_spec k "total-time") as [->|_]; [exfalso; apply Nk; cbn; tauto|]. destruct (String.eqb_spec k "total-cost") as [->|_]; [exfalso; apply Nk; cbn; tauto|reflexivity]. }
    assert (Ops : forall k, In k ["+"; "-"; "*"; "/"] -> ~ In k ["total-cost"; "total-time"]). { intros k [<-|[<-|[<-|[<-|[]]]]] [Q|[Q|[]]]; discriminate Q. }
    destruct m as [op a b|op a r|a|c|f ns|n| | |n]; cbn [read_mexp operators_ok] in M, Op.
    - right. right. apply bind_some in M as (ta & _ & M). apply bind_some in M as (tb & _ & M). injection M as <-. apply (U op eq_refl); try (intros; discriminate). exact (Ops _ Op).
    - right. right. apply bind_some in M as (ta & _ & M). apply bind_some in M as (tb & _ & M). injection M as <-. apply (U op eq_refl); try (intros; discriminate). exact (Ops _ Op).
    - right. right. apply bind_some in M as (ta & _ & M). assert (Q : t' = keyword "-") by congruence. apply (U "-" Q); try (intros; discriminate). apply Ops. cbn. tauto.
    - discriminate M.
    - injection M as <-. destruct (String.eqb_spec f "total-cost") as [->|N1]; [left; split; [reflexivity|]; split; [right; exists ns; reflexivity|intros [Q|(k & Q)]; discriminate Q]|]. destruct (String.eqb_spec f "total-time") as [->|N2]; [right; left; split; [reflexivity|]; split; [right; exists ns; reflexivity|intros [Q|(k & Q)]; discriminate Q]|].
      right. right. apply (U f eq_refl); try (intros; congruence). intros [Q|[Q|[]]]; congruence.
    - discriminate M.
    - assert (Q : t' = TotalTime) by (vm_compute in M; congruence). right. left. split; [exact Q|]. split; [left; reflexivity|intros [E|(k & E)]; discriminate E].
    - assert (Q : t' = TotalCost) by (vm_compute in M; congruence). left. split; [exact Q|]. split; [left; reflexivity|intros [E|(k & E)]; discriminate E].
    - right. right. assert (Q : t' = keyword "is-violated") by congruence. apply (U "is-violated" Q); try (intros; discriminate). intros [E|[E|[]]]; discriminate E. }
  destruct B as [(-> & C & T)|[(-> & T & C)|(-> & T & C)]].
  - split; [split; [intros _; exact C|reflexivity]|]. split; [split; [discriminate|intros Q; destruct (T Q)]|]. split; [discriminate|intros [Q _]; destruct (Q C)].
  - split; [split; [discriminate|intros Q; destruct (C Q)]|]. split; [split; [intros _; exact T|reflexivity]|]. split; [discriminate|intros [_ Q]; destruct (Q T)].
  - split; [split; [discriminate|intros Q; destruct (C Q)]|]. split; [split; [discriminate|intros Q; destruct (T Q)]|]. split; [intros _; exact (conj C T)|reflexivity].
Qed.
Theorem C84_no_metric : read_metric None = Ok (Minimize, Unspecified).
Proof. reflexivity. Qed.

(** ** Examples *)
Definition der_decls : list decl := log_decls ++ [DPred "loaded" [VVar "?v"; VType "truck"]].
Definition loaded_args : list vtoken := [VVar "?v"; VType "truck"].
Definition loaded_body : gd := GEx [VVar "?p"; VType "package"] (GAnd [in_ "?p" "?v"; GNotEq (PVar "?v") (PId "t2")]).
Lemma loaded_ok args : typed_variables args = [("?v", "truck")] \/ typed_variables args = [("?v", "truck"); ("?w", "city")] -> gd_ok log_types der_decls (typed_variables args) loaded_body /\ no_rebinding (map fst (typed_variables args)) loaded_body.
Proof.
  intros [-> | ->]; (split; [apply ok_ex; [discriminate|intros t Ht; vm_compute in Ht |- *; tauto|]; apply ok_and; constructor; [|constructor; [|constructor]]; [apply ok_atom; exists ["package"; "vehicle"; "vehicle"; "object"], "Bool"; split; [listed|]; split; [listed|types]|apply (ok_neq _ _ _ _ _ "truck" "truck"); [apply ht_variable; listed|apply ht_object; listed]]|]);
    (apply nb_ex; [repeat constructor; intros []|vm_compute; intuition congruence|]; apply nb_and; constructor; [apply nb_atom|constructor; [apply nb_neq|constructor]]).
Qed.
Theorem C84_nonvacuous : body_ok log_types der_decls loaded_args loaded_body /\ head_ok der_decls "loaded" loaded_args /\ (forall p, In p (atom_symbols loaded_body) -> In p (predicate_names der_decls)) /\
  derives (log_world 3) (predicate_names der_decls) loaded_args loaded_body [101%Z] /\ ~ derives (log_world 3) (predicate_names der_decls) loaded_args loaded_body [102%Z] /\
  match (let! i := read_domain no_num log_types der_decls in read_derived no_num 100 der_decls i [] "loaded" loaded_args loaded_body) with
  | Ok (x, d) => d = [] /\ de_head x = "loaded" /\ de_domain x = ["truck"] /\ de_parameters x = [("?v", "truck")]
  | Err _ => False
  end.
Proof.
  split; [|split; [|split; [|split; [|split]]]].
  - split; [intros t Ht; vm_compute in Ht |- *; tauto|]. split; [repeat constructor; intros []|]. apply loaded_ok. left. reflexivity.
  - exists loaded_args. split; [|reflexivity]. unfold der_decls. apply in_app_iff. right. left. reflexivity.
  - intros p Hp. vm_compute in Hp |- *. tauto.
  - exists (fun _ => 101%Z). split; [reflexivity|]. split; [|vm_compute; reflexivity]. intros x s [H|[]]. injection H as <- <-. left. reflexivity.
  - intros (e & E & _ & G). cbn in E. injection E as E. assert (Q : gd_value (log_world 3) (predicate_names der_decls) e loaded_body = false); [|congruence]. cbn -[Z.eqb]. unfold bind_name. cbn. rewrite <- E. reflexivity.
  - vm_compute. split; [reflexivity|]. split; [reflexivity|]. split; reflexivity.
Qed.
(** The number of variables is not checked: a variable too many in the head is accepted, although the definition is not one of PDDL. *)
Definition wider_args : list vtoken := [VVar "?v"; VType "truck"; VVar "?w"; VType "city"].
Theorem C84_extra_variable : (match (let! i := read_domain no_num log_types der_decls in read_derived no_num 100 der_decls i [] "loaded" wider_args loaded_body) with
  | Ok (x, d) => List.length (de_domain x) = 1 /\ List.length (de_parameters x) = 2
  | Err _ => False
  end) /\ ~ head_ok der_decls "loaded" wider_args.
Proof.
  split; [vm_compute; split; reflexivity|]. intros (args & H & E). vm_compute in H. repeat (destruct H as [H|H]; [try discriminate H|]); [|destruct H]. injection H as <-. vm_compute in E. discriminate E.
Qed.
(** Heads that are refused *)
Definition refused_head (n : string) (args : list vtoken) (g : gd) : option exn := match (let! i := read_domain no_num log_types der_decls in read_derived no_num 100 der_decls i [] n args g) with Ok _ => None | Err x => Some x end.
Theorem C84_refused :
  refused_head "unloaded" loaded_args loaded_body = Some AttributeError /\ refused_head "total" [] (GAnd []) = Some AttributeError /\
  refused_head "loaded" [VVar "?v"; VType "vehicle"] (GAnd []) = Some SemanticError /\ refused_head "loaded" [] (GAnd []) = Some IndexError /\
  refused_head "loaded" loaded_args (in_ "?p" "?v") = Some SemanticError /\ refused_head "in" [VVar "?v"; VVar "?v"] (GAnd []) = Some SemanticError.
Proof. split; [vm_compute; reflexivity|]. split; [vm_compute; reflexivity|]. split; [vm_compute; reflexivity|]. split; [vm_compute; reflexivity|]. split; vm_compute; reflexivity. Qed.
(** Metrics: the total cost is recognised; twice the total cost, written with a number, is an IndexError; the cost of an action fluent is not remembered *)
Theorem C84_metric_examples :
  read_metric (Some ("maximize", MCost)) = Ok (Maximize, TotalCost) /\ read_metric (Some ("minimize", MApp "total-time" [])) = Ok (Minimize, TotalTime) /\ read_metric (Some ("minimize", MMulti "*" (MReal "2.0") [MCost])) = Err IndexError /\
  read_metric (Some ("minimize", MMulti "+" MCost [MTime; MApp "fuel" []])) = Ok (Minimize, Unspecified) /\ read_metric (Some ("minimize", MApp "fuel" [])) = read_metric (Some ("minimize", MApp "time" [])).
Proof. split; [reflexivity|]. split; [reflexivity|]. split; [reflexivity|]. split; reflexivity. Qed.
