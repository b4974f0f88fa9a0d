(** Property theorems about evaluation, references and models (C12-C15). Statements use the model ([Eval], [HashEq], [ModelState],
    [ModelText]) and the specifications ([Semantics], [EvalSpec], [ModelSpec], [ModelTextSpec]). *)
From Verif Require Import Base Syntax Semantics SubstSpec ModelState ModelSpec ModelText ModelTextSpec Eval EvalSpec HashEq.
From Verif Require Import ModelProofs ModelTextProofs EvalProofs HashEqProofs.
#[local] Open Scope string_scope.

(** Example vocabulary. *)
Definition k_ (s : string) : term := Cst (CStr s) "object".
Definition i_ (z : Z) : term := Cst (CInt z) "Integer".
Definition p1 : psym := PU "p" ["object"].
Definition q1 : psym := PU "q" ["object"; "object"].
Definition f1 : fsym := FU "f" ["object"] "Integer".
Definition any_sub (a b : sort) : bool := String.eqb a b || String.eqb b "object".
Definition ops1 : list mop :=
  [OAdd p1 [k_ "a"]; OAdd q1 [k_ "a"; k_ "b"]; OSet (App f1 [k_ "a"]) (i_ 3); OAdd p1 [k_ "b"]; ORemove p1 [k_ "b"];
   OSet (App f1 [k_ "a"]) (i_ 4); ORemove p1 [k_ "b"]; OAdd q1 [k_ "a"]; ODiscard q1 [k_ "b"; k_ "b"]; OAdd p1 [i_ 7]].
Definition m1 : model := snd (outcomes (mstep any_sub) ops1 empty_model).

(** ** C12 *)
(** A value returned by the evaluator is the Tarskian value in every structure agreeing with the model; models reachable through
    the API satisfy the hypothesis, and agreeing structures exist. *)
Theorem C12_evaluator_sound : forall sub ops f b, forallb op_constants ops = true -> wf f = true ->
  let m := snd (outcomes (mstep sub) ops empty_model) in
  eval_f m f = Ok b -> forall M e, agrees M m -> fsem M f e = b.
Proof. intros sub ops f b Hc Hw m H M e A. apply (proj2 (eval_sound_both m (reachable_constants sub ops Hc)) f Hw b H M e A). Qed.
Print Assumptions C12_evaluator_sound.
Theorem C12_term_evaluator_sound : forall sub ops t v, forallb op_constants ops = true -> wf_term t = true ->
  let m := snd (outcomes (mstep sub) ops empty_model) in
  evaluate_t m t = Ok v -> is_constant v /\ forall M e, agrees M m -> tsem M t e = value_in M v.
Proof.
  intros sub ops t v Hc Hw m H. apply evaluate_t_ok in H.
  exact (proj1 (eval_sound_both m (reachable_constants sub ops Hc)) t Hw v H).
Qed.
Print Assumptions C12_term_evaluator_sound.
Theorem C12_agreeing_structure_exists : forall sub ops, forallb op_constants ops = true ->
  exists M, agrees M (snd (outcomes (mstep sub) ops empty_model)).
Proof. intros sub ops Hc. eexists. apply herbrand_agrees. now apply reachable_constants. Qed.
Print Assumptions C12_agreeing_structure_exists.
(** Full claim: whenever all terms are defined a value is returned. Missing: if-then-else terms whose branch is itself an
    if-then-else ([evaluate_term] does not re-evaluate the chosen branch, simple.py:78-96). *)
Theorem C12_evaluator_complete : forall m f b, flat_ite f = true -> den m f = Some b -> eval_f m f = Ok b.
Proof. intros m f b H. exact (proj2 (eval_complete_both m) f H b). Qed.
Print Assumptions C12_evaluator_complete.
Theorem C12_nested_ite_refuted : exists m f b, wf f = true /\ den m f = Some b /\ eval_f m f = Err AssertionError.
Proof.
  exists m1, (Atom (PB PEq) [Ite Top (Ite Bot (k_ "a") (k_ "b")) (k_ "a"); k_ "b"]), true. repeat split.
Qed.
Print Assumptions C12_nested_ite_refuted.
Theorem C12_quantified_raises : forall m q vs f, eval_f m (Quant q vs f) = Err NotImplementedError.
Proof. reflexivity. Qed.
Print Assumptions C12_quantified_raises.
(** Equality atoms compare names only, while predicates see (name, sort): in the evaluator's reading equals cannot always be
    replaced by equals. *)
Theorem C12_equality_is_not_a_congruence : exists sub ops a b p,
  let m := snd (outcomes (mstep sub) ops empty_model) in
  forallb op_constants ops = true /\ eval_f m (Atom (PB PEq) [a; b]) = Ok true /\
  eval_f m (Atom p [a]) = Ok true /\ eval_f m (Atom p [b]) = Ok false.
Proof.
  exists (fun _ _ => true), [OAdd p1 [Cst (CInt 1) "Natural"]], (Cst (CInt 1) "Natural"), (Cst (CInt 1) "Integer"), p1.
  vm_compute. auto.
Qed.
Print Assumptions C12_equality_is_not_a_congruence.
Example C12_nonvacuous :
  let f := Comp And [Atom p1 [k_ "a"]; Comp Or [Comp Not [Atom q1 [k_ "a"; k_ "b"]];
             Atom (PB PLt) [App (FB BAdd) [App f1 [k_ "a"]; i_ 1]; Ite (Atom p1 [k_ "b"]) (i_ 0) (i_ 6)]]] in
  wf f = true /\ flat_ite f = true /\ den m1 f = Some true /\ eval_f m1 f = Ok true /\ forallb op_constants ops1 = true /\
  eval_f m1 (Atom (PB PEq) [App f1 [k_ "b"]; i_ 1]) = Err UndefinedTerm.
Proof. vm_compute. repeat split. Qed.

(** ** C13 *)
Theorem C13_reflexive : forall a, ref_eqb a a = true.
Proof. intros a. now apply ref_eqb_canon. Qed.
Print Assumptions C13_reflexive.
Theorem C13_symmetric : forall a b, ref_eqb a b = ref_eqb b a.
Proof.
  intros a b. apply Bool.eq_true_iff_eq. rewrite !ref_eqb_canon. split; congruence.
Qed.
Print Assumptions C13_symmetric.
Theorem C13_transitive : forall a b c, ref_eqb a b = true -> ref_eqb b c = true -> ref_eqb a c = true.
Proof. intros a b c. rewrite !ref_eqb_canon. congruence. Qed.
Print Assumptions C13_transitive.
(** Restriction: no constant is named by a float. *)
Theorem C13_equal_hash : forall a b, no_float a = true -> no_float b = true -> ref_eqb a b = true -> ref_hash a = ref_hash b.
Proof. intros a b Ha Hb H. apply ref_eqb_canon in H. rewrite (canon_id_ref a Ha), (canon_id_ref b Hb) in H. now subst. Qed.
Print Assumptions C13_equal_hash.
(** Without it two equal references hash different keys: constants 1 and 1.0 of a user sort. *)
Theorem C13_equal_hash_refuted : exists a b, ref_eqb a b = true /\ ref_hash a <> ref_hash b.
Proof. exists (RTerm (HCst (NInt 1) "object")), (RTerm (HCst (NFloat 1) "object")). split; [reflexivity|]. vm_compute. congruence. Qed.
Print Assumptions C13_equal_hash_refuted.
(** Equality sees the container of the subformulas. Hence walking a formula in place (collect_unique_nodes, all_variables, ...) makes it
    different from what it was exactly when some subformulas were stored in a tuple; its hash does not change. *)
Theorem C13_walk_changes_identity : forall r,
  let walked := match r with RTerm t => RTerm (walk_t t) | RFormula f => RFormula (walk_f f) end in
  ref_hash walked = ref_hash r /\
  (ref_eqb walked r = true <-> match r with RTerm t => has_tuple_t t | RFormula f => has_tuple_f f end = false).
Proof.
  intros r w. destruct walk_canon as [A B]. destruct walk_hash as [C D]. split.
  - destruct r; simpl; auto.
  - rewrite ref_eqb_canon. destruct r as [t|f]; simpl; [rewrite <- A|rewrite <- B]; split; congruence.
Qed.
Print Assumptions C13_walk_changes_identity.
Example C13_nonvacuous :
  let f := HComp And true [HAtom ["p"; "object"] [HVar "x" "object"]; HComp Not false [HAtom ["p"; "object"] [HCst (NInt 1) "object"]]] in
  ref_eqb (RFormula f) (RFormula f) = true /\ no_float (RFormula f) = true /\ ref_eqb (RFormula (walk_f f)) (RFormula f) = false.
Proof. vm_compute. repeat split. Qed.

(** ** C14 *)
(** For every history, the exceptions and all subsequent observations are those of a set of atoms and a last-write-wins map. *)
Theorem C14_model_history : forall sub ops, forallb op_constants ops = true -> separate ops ->
  let m := snd (outcomes (mstep sub) ops empty_model) in
  let s := snd (outcomes (s_step sub) ops s_empty) in
  fst (outcomes (mstep sub) ops empty_model) = fst (outcomes (s_step sub) ops s_empty) /\
  (forall p args, m_holds m p args = s_true s p args) /\
  (forall f args, m_value m f args = match s_val s f args with Some v => Ok v | None => Err KeyError end).
Proof. exact model_history. Qed.
Print Assumptions C14_model_history.
(** An operation never changes the truth of another atom or another value, and a failing one changes nothing; for arbitrary
    states, without any hypothesis. *)
Theorem C14_add_frame : forall sub m p args m', m_add sub m p args = Ok m' ->
  m_holds m' p args = true /\ (forall q a, (q, a) <> (p, args) -> m_holds m' q a = m_holds m q a) /\ (forall f a, m_value m' f a = m_value m f a).
Proof.
  intros sub m p args m' H. unfold m_add in H. destruct p as [b|n ss]; [discriminate|]. destruct (check_assignment sub ss args) as [u|]; [|discriminate].
  cbn [bind] in H. inversion H; subst. clear H.
  assert (G : forall q a, m_holds {| funs := funs m; preds := dset sig_eqb (preds m) (psig (PU n ss)) (pt_add args match dget sig_eqb (preds m) (psig (PU n ss)) with Some e => e | None => [] end) |} q a =
    if sig_eqb (psig (PU n ss)) (psig q) then points_eqb args a || m_holds m q a else m_holds m q a).
  { intros q a. unfold m_holds at 1. cbn [preds]. rewrite (dget_dset sig_eqb sig_eqb_eq). destruct (sig_eqb (psig (PU n ss)) (psig q)) eqn:E; [|reflexivity].
    apply sig_eqb_eq in E. rewrite pt_mem_add. unfold m_holds. rewrite E. destruct (dget sig_eqb (preds m) (psig q)); reflexivity. }
  split; [|split].
  - rewrite G, sig_refl. rewrite (proj2 (points_eqb_eq args args) eq_refl). reflexivity.
  - intros q a Hne. rewrite G. destruct (sig_eqb (psig (PU n ss)) (psig q)) eqn:E; [|reflexivity].
    apply sig_eqb_eq, psig_inj in E. subst q. destruct (points_eqb args a) eqn:E'; [|reflexivity]. apply points_eqb_eq in E'. congruence.
  - reflexivity.
Qed.
Print Assumptions C14_add_frame.
Theorem C14_failure_changes_nothing : forall sub m o e m', mstep sub m o = (Some e, m') -> m' = m.
Proof.
  intros sub m o e m'. destruct o as [p args|t v|p args|p args|p|f]; cbn [mstep]; try discriminate; unfold of_res.
  - destruct (m_add sub m p args); congruence.
  - destruct (m_set sub m t v); congruence.
  - destruct (m_remove m p args); congruence.
Qed.
Print Assumptions C14_failure_changes_nothing.
(** The hypothesis [separate] is needed: a predicate and a function with the same signature clash in remove_symbol. *)
Theorem C14_shared_signature_refuted : exists sub ops p args,
  forallb op_constants ops = true /\ In (ORemovePred p) ops /\
  m_holds (snd (outcomes (mstep sub) ops empty_model)) p args = true /\ s_true (snd (outcomes (s_step sub) ops s_empty)) p args = false.
Proof.
  exists (fun _ _ => true), [OAdd (PU "g" ["object"]) [k_ "a"]; OSet (App (FU "g" [] "object") []) (k_ "a"); ORemovePred (PU "g" ["object"])],
         (PU "g" ["object"]), [k_ "a"].
  vm_compute. auto 10.
Qed.
Print Assumptions C14_shared_signature_refuted.
Lemma separate_ops1 : separate ops1.
Proof.
  intros o o' p f H H' Hp Hf. unfold ops1 in H, H'. simpl in H, H'.
  repeat match goal with H : _ \/ _ |- _ => destruct H as [H|H] end; try contradiction; subst; simpl in *; try discriminate;
  inversion Hp; inversion Hf; subst; discriminate.
Qed.
Example C14_nonvacuous :
  forallb op_constants ops1 = true /\ separate ops1 /\
  fst (outcomes (mstep any_sub) ops1 empty_model) =
    [None; None; None; None; None; None; Some KeyError; Some ArityMismatch; None; None] /\
  m_holds m1 p1 [k_ "a"] = true /\ m_holds m1 p1 [k_ "b"] = false /\ m_value m1 f1 [k_ "a"] = Ok (i_ 4).
Proof. split; [reflexivity|]. split; [exact separate_ops1|]. vm_compute. repeat split. Qed.

(** ** C15 *)
(** Extensionally equal reachable models are equal (and hash equal, the hash being that of the same string). *)
Theorem C15_same_extensions_equal : forall sub ops ops', forallb op_constants ops = true -> forallb op_constants ops' = true ->
  let m := snd (outcomes (mstep sub) ops empty_model) in let m' := snd (outcomes (mstep sub) ops' empty_model) in
  same_extensions m m' -> model_eq m m' = true /\ model_str m = model_str m'.
Proof.
  intros sub ops ops' Hc Hc' m m' H.
  assert (St : forall os, forallb op_constants os = true -> stored (fun _ => True) (fun _ => True) (fun _ => True) (snd (outcomes (mstep sub) os empty_model))).
  { intros os Ho. apply stored_history; auto. apply stored_empty. }
  assert (E : model_str m = model_str m') by (eapply same_extensions_text; [apply St|apply St|]; eauto).
  split; [|exact E]. unfold model_eq. now rewrite E, String.eqb_refl.
Qed.
Print Assumptions C15_same_extensions_equal.
(** Full claim: equal models have the same extensions. Holds when printed names identify symbols and constants. *)
Theorem C15_equal_same_extensions : forall sub ops ops', forallb op_constants ops = true -> forallb op_constants ops' = true ->
  unambiguous (ops ++ ops') ->
  let m := snd (outcomes (mstep sub) ops empty_model) in let m' := snd (outcomes (mstep sub) ops' empty_model) in
  model_eq m m' = true -> same_extensions m m'.
Proof.
  intros sub ops ops' Hc Hc' U m m' H. apply String.eqb_eq in H. destruct U as [U1 U2 U3 U4 U5 U6].
  set (all := (ops ++ ops')%list) in *.
  assert (St : forall os, (forall o, In o os -> In o all) -> forallb op_constants os = true ->
     stored (fun t => exists o, In o all /\ In t (op_terms o)) (fun p => exists o, In o all /\ op_pred o = Some p) (fun f => exists o, In o all /\ op_fun o = Some f)
       (snd (outcomes (mstep sub) os empty_model))).
  { intros os Hin Ho. apply stored_history; eauto. apply stored_empty. }
  eapply (text_extensions (fun t => exists o, In o all /\ In t (op_terms o)) (fun p => exists o, In o all /\ op_pred o = Some p) (fun f => exists o, In o all /\ op_fun o = Some f)); auto.
  - intros n ss (o & Ho & E). exact (U1 o (PU n ss) Ho E).
  - intros n d c (o & Ho & E). exact (U2 o (FU n d c) Ho E).
  - intros n ss ss' (o & Ho & E) (o' & Ho' & E'). exact (U3 o o' n ss ss' Ho Ho' E E').
  - intros n d c d' c' (o & Ho & E) (o' & Ho' & E'). exact (U4 o o' n d c d' c' Ho Ho' E E').
  - intros t (o & Ho & E). exact (U5 o t Ho E).
  - intros t t' (o & Ho & E) (o' & Ho' & E'). exact (U6 o o' t t' Ho Ho' E E').
  - apply St; auto. intros o Ho. apply in_or_app. auto.
  - apply St; auto. intros o Ho. apply in_or_app. auto.
Qed.
Print Assumptions C15_equal_same_extensions.
(** Constants of different sorts with the same name print alike. *)
Theorem C15_equality_refuted : exists sub ops ops',
  let m := snd (outcomes (mstep sub) ops empty_model) in let m' := snd (outcomes (mstep sub) ops' empty_model) in
  forallb op_constants ops = true /\ forallb op_constants ops' = true /\ model_eq m m' = true /\ ~ same_extensions m m'.
Proof.
  exists (fun _ _ => true), [OAdd p1 [Cst (CInt 1) "Natural"]], [OAdd p1 [Cst (CInt 1) "Integer"]].
  repeat split. intros [H _]. specialize (H p1 [Cst (CInt 1) "Natural"]). vm_compute in H. discriminate.
Qed.
Print Assumptions C15_equality_refuted.
Example C15_nonvacuous :
  model_str m1 = "Model[(f(a), 4 (Integer)), p(7), p(a), q(a,b)]" /\ unambiguous (ops1 ++ [OAdd p1 [k_ "a"]]) /\ same_extensions m1 m1.
Proof.
  split; [reflexivity|]. split; [|split; reflexivity].
  pose (os := (ops1 ++ [OAdd p1 [k_ "a"]])%list).
  assert (G1 : forall o n ss, In o os -> op_pred o = Some (PU n ss) -> clean n = true /\ ss = if String.eqb n "p" then ["object"] else ["object"; "object"]).
  { intros o n ss Ho E. simpl in Ho. repeat destruct Ho as [<-|Ho]; try contradiction; inversion E; vm_compute; auto. }
  assert (G2 : forall o n d c, In o os -> op_fun o = Some (FU n d c) -> clean n = true /\ d = ["object"] /\ c = "Integer").
  { intros o n d c Ho E. simpl in Ho. repeat destruct Ho as [<-|Ho]; try contradiction; inversion E; vm_compute; auto. }
  assert (G3 : forall o t, In o os -> In t (op_terms o) -> In t [k_ "a"; k_ "b"; i_ 3; i_ 4; i_ 7]).
  { intros o t Ho E. simpl in Ho. repeat destruct Ho as [<-|Ho]; try contradiction; simpl in *; tauto. }
  constructor.
  - intros o [b|n ss] Ho E; [exact I|]. exact (proj1 (G1 o n ss Ho E)).
  - intros o [b|n d c] Ho E; [exact I|]. exact (proj1 (G2 o n d c Ho E)).
  - intros o o' n ss ss' Ho Ho' E E'. destruct (G1 o n ss Ho E) as [_ ->], (G1 o' n ss' Ho' E') as [_ ->]. reflexivity.
  - intros o o' n d c d' c' Ho Ho' E E'. destruct (G2 _ _ _ _ Ho E) as (_ & -> & ->), (G2 _ _ _ _ Ho' E') as (_ & -> & ->). auto.
  - intros o t Ho E. specialize (G3 o t Ho E). clear -G3. simpl in G3. repeat destruct G3 as [<-|G3]; try contradiction; vm_compute; auto.
  - intros o o' t t' Ho Ho' E E' Et. pose proof (G3 _ _ Ho E) as A. pose proof (G3 _ _ Ho' E') as B. clear -A B Et.
    simpl in A, B. repeat (destruct A as [<-|A]); try contradiction; repeat (destruct B as [<-|B]); try contradiction; vm_compute in Et; try discriminate; reflexivity.
Qed.
