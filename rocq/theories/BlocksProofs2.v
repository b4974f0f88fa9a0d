(** Proofs about blocksworld, part 2: plans are sequences of moves. *)
From Coq Require Import Permutation.
From Verif Require Import ListUtil Base Syntax SemLemmas Build ModelState ModelProofs Eval EvalProofs Subst SubstProofs QElim Effects ProgressSpec StateLemmas ProgressProofs PropsProgress FreeVars Represent RelaxSpec
  Blocks BlocksSpec BlocksProofs.
#[local] Open Scope string_scope.
#[local] Open Scope list_scope.

(** * Grounding the actions *)
Definition pick_up_pre (x : term) : formula := Comp And [Atom clear [x]; Atom ontable [x]; Atom handempty []].
Definition unstack_pre (x y : term) : formula := Comp And [Atom on [x; y]; Atom clear [x]; Atom handempty []].
Definition stack_pre (b : bool) (x y : term) : formula := Comp And ([Atom holding [x]; Atom clear [y]] ++ if b then [Atom (PB PNe) [x; y]] else []).

Lemma ground_pick_up s c r : sub_f s = [] -> get_t (sub_t s) vx = Some (Cst c r) ->
  ground_schema pick_up s = Ok (pick_up_pre (Cst c r), [EDel Top (Atom ontable [Cst c r]); EDel Top (Atom clear [Cst c r]); EDel Top (Atom handempty []); EAdd Top (Atom holding [Cst c r])]).
Proof.
  destruct s as [l f]. cbn [sub_f sub_t]. intros -> X. unfold ground_schema. cbn [forallb a_params pick_up sub_t]. rewrite X. cbn [andb].
  cbn [a_effs a_pre mapM subst_effect subst_formula map subst_term and2 vx vy pick_up put_down unstack stack]. unfold visit_f, visit_t. cbn [sub_f sub_t get_f]. unfold vx in X. rewrite !X. reflexivity.
Qed.
Lemma ground_put_down s c r : sub_f s = [] -> get_t (sub_t s) vx = Some (Cst c r) ->
  ground_schema put_down s = Ok (Atom holding [Cst c r], [EAdd Top (Atom ontable [Cst c r]); EAdd Top (Atom clear [Cst c r]); EAdd Top (Atom handempty []); EDel Top (Atom holding [Cst c r])]).
Proof.
  destruct s as [l f]. cbn [sub_f sub_t]. intros -> X. unfold ground_schema. cbn [forallb a_params put_down sub_t]. rewrite X. cbn [andb].
  cbn [a_effs a_pre mapM subst_effect subst_formula map subst_term and2 vx vy pick_up put_down unstack stack]. unfold visit_f, visit_t. cbn [sub_f sub_t get_f]. unfold vx in X. rewrite !X. reflexivity.
Qed.
Lemma ground_unstack s c r d q : sub_f s = [] -> get_t (sub_t s) vx = Some (Cst c r) -> get_t (sub_t s) vy = Some (Cst d q) ->
  ground_schema unstack s = Ok (unstack_pre (Cst c r) (Cst d q), [EDel Top (Atom on [Cst c r; Cst d q]); EAdd Top (Atom clear [Cst d q]); EDel Top (Atom clear [Cst c r]); EDel Top (Atom handempty []); EAdd Top (Atom holding [Cst c r])]).
Proof.
  destruct s as [l f]. cbn [sub_f sub_t]. intros -> X Y. unfold ground_schema. cbn [forallb a_params unstack sub_t]. rewrite X, Y. cbn [andb].
  cbn [a_effs a_pre mapM subst_effect subst_formula map subst_term and2 vx vy pick_up put_down unstack stack]. unfold visit_f, visit_t. cbn [sub_f sub_t get_f]. unfold vx in X. unfold vy in Y. rewrite !X, !Y. reflexivity.
Qed.
Lemma ground_stack b s c r d q : sub_f s = [] -> get_t (sub_t s) vx = Some (Cst c r) -> get_t (sub_t s) vy = Some (Cst d q) ->
  ground_schema (stack b) s = Ok (stack_pre b (Cst c r) (Cst d q), [EAdd Top (Atom on [Cst c r; Cst d q]); EDel Top (Atom clear [Cst d q]); EAdd Top (Atom clear [Cst c r]); EAdd Top (Atom handempty []); EDel Top (Atom holding [Cst c r])]).
Proof.
  destruct s as [l f]. cbn [sub_f sub_t]. intros -> X Y. unfold ground_schema. cbn [forallb a_params stack sub_t]. rewrite X, Y. cbn [andb].
  destruct b; cbn [a_effs a_pre mapM subst_effect subst_formula map subst_term and2 stack vx vy]; unfold visit_f, visit_t; cbn [sub_f sub_t get_f]; unfold vx in X; unfold vy in Y; rewrite !X, !Y; reflexivity.
Qed.
(** Grounding needs the parameters to be bound to constants. *)
Lemma ground_needs a s R x : ground_schema a s = Ok R -> In x (a_params a) -> exists c r, get_t (sub_t s) x = Some (Cst c r).
Proof.
  unfold ground_schema. destruct (forallb _ (a_params a)) eqn:E; [|discriminate]. intros _ Hi. rewrite forallb_forall in E. specialize (E _ Hi).
  destruct (get_t (sub_t s) x) as [[| c r | |]|]; try discriminate. eauto.
Qed.
(** The preconditions *)
Lemma eval_holds m n ss ts : forallb is_cst ts = true -> eval_f m (Atom (PU n ss) ts) = Ok (m_holds m (PU n ss) ts).
Proof.
  intros H. rewrite eval_atom. assert (E : mapM (evaluate_t m) ts = Ok ts); [|now rewrite E]. induction ts as [|t ts IH]; [reflexivity|]. cbn [forallb] in H. apply andb_true_iff in H as [H1 H2].
  destruct t; try discriminate. cbn [mapM evaluate_t eval_term bind]. rewrite (IH H2). reflexivity.
Qed.
Lemma eval_all_true m fs : eval_f m (Comp And fs) = Ok true <-> Forall (fun f => eval_f m f = Ok true) fs.
Proof.
  rewrite eval_and. induction fs as [|f fs IH]; [split; auto|]. cbn. split.
  - destruct (eval_f m f) as [[]|] eqn:E; [|discriminate|discriminate]. intros H. constructor; [auto|]. apply IH. exact H.
  - intros H. inversion H as [|? ? H1 H2]; subst. rewrite H1. apply IH. exact H2.
Qed.

(** * One step *)
Definition objects_are (sub : sort -> sort -> bool) := sub obj obj = true.
Lemma uncond_progress D sub m effs w w' m' : is_state sub m -> describes m w -> Forall unconditional effs -> next effs w w' -> progress D sub m effs = Ok m' -> describes m' w'.
Proof.
  intros Sm Dm U Nx H p pt. destruct (C23_delete_then_add D sub m effs m' Sm U H) as [A _]. rewrite A, (Nx p pt), (Dm p pt). tauto.
Qed.
Lemma progress_state D sub m effs m' : is_state sub m -> Forall unconditional effs -> progress D sub m effs = Ok m' -> is_state sub m'.
Proof.
  intros Sm U. unfold progress. assert (U' : Forall unconditional (filter is_del effs ++ filter (fun e => negb (is_del e)) effs)).
  { rewrite Forall_forall in *. intros e He. apply in_app_or in He as [He|He]; apply filter_In in He; apply U, He. }
  revert U'. generalize (filter is_del effs ++ filter (fun e => negb (is_del e)) effs). clear U. intros l U. revert m Sm. induction U as [|e l (p & ts & He) _ IH]; intros m Sm H.
  - cbn in H. now injection H as <-.
  - cbn [run_effects run_with] in H. destruct He as [-> | ->].
    + unfold apply_effect in H. cbn in H. destruct (m_add sub m p ts) as [m1|] eqn:E; [|discriminate]. cbn [bind] in H. eapply IH; [|exact H]. eapply state_add; eauto.
    + unfold apply_effect in H. cbn in H. eapply IH; [|exact H]. now apply state_discard.
Qed.
Ltac uncond := repeat (constructor; [eexists; eexists; (left; reflexivity) || (right; reflexivity)|]); constructor.
Lemma pick_up_uncond x : Forall unconditional (pick_up_effs x). Proof. unfold pick_up_effs. uncond. Qed.
Lemma put_down_uncond x : Forall unconditional (put_down_effs x). Proof. unfold put_down_effs. uncond. Qed.
Lemma unstack_uncond x y : Forall unconditional (unstack_effs x y). Proof. unfold unstack_effs. uncond. Qed.
Lemma stack_uncond x y : Forall unconditional (stack_effs x y). Proof. unfold stack_effs. uncond. Qed.

Lemma fact_on w s t : fact w on [s; t] -> exists x y u, s = block x /\ t = block y /\ In u (towers w) /\ directly_on x y u.
Proof. intros H. inversion H; subst. eauto 7. Qed.
Lemma fact_ontable w s : fact w ontable [s] -> exists x u, s = block x /\ In (u ++ [x]) (towers w).
Proof. intros H. inversion H; subst. eauto. Qed.
Lemma fact_clear w s : fact w clear [s] -> exists x u, s = block x /\ In (x :: u) (towers w).
Proof. intros H. inversion H; subst. eauto. Qed.
Lemma fact_holding w s : fact w holding [s] -> exists x, s = block x /\ hand w = Some x.
Proof. intros H. inversion H; subst. eauto. Qed.
Lemma fact_handempty w : fact w handempty [] -> hand w = None.
Proof. intros H. inversion H; subst. auto. Qed.
Lemma block_inj x y : block x = block y -> x = y. Proof. intros H. now injection H. Qed.

Lemma in_perm {A} (x : A) l : In x l -> exists l', Permutation l (x :: l').
Proof. intros H. apply in_split in H as (l1 & l2 & ->). exists (l1 ++ l2). apply Permutation_sym, Permutation_middle. Qed.
Lemma valid_NoDup blocks w : NoDup blocks -> valid blocks w -> NoDup (List.concat (towers w) ++ held w).
Proof. intros N [P _]. eapply Permutation_NoDup; [apply Permutation_sym|]; eauto. Qed.
Lemma nodup_front {A} (t : list A) ts l : NoDup (List.concat (t :: ts) ++ l) -> NoDup t /\ (forall x, In x t -> ~ In x (List.concat ts) /\ ~ In x l).
Proof.
  intros N. cbn [List.concat] in N. rewrite <- app_assoc in N. induction t as [|a t IH]; [split; [constructor|intros x []]|]. cbn in N. inversion N as [|? ? N1 N2]; subst. destruct (IH N2) as [I1 I2]. split.
  - constructor; [|auto]. intros K. apply N1. apply in_or_app. auto.
  - intros x [<-|Hx]; [|auto]. split; intros K; apply N1; rewrite !in_app_iff; auto.
Qed.

(** The moves and the effect lists *)
Inductive step_of : action -> bool -> list string -> formula -> list effect -> Prop :=
| so_pick_up b x : step_of pick_up b [x] (pick_up_pre (block x)) (pick_up_effs x)
| so_put_down b x : step_of put_down b [x] (Atom holding [block x]) (put_down_effs x)
| so_unstack b x y : step_of unstack b [x; y] (unstack_pre (block x) (block y)) (unstack_effs x y)
| so_stack b x y : step_of (stack b) b [x; y] (stack_pre b (block x) (block y)) (stack_effs x y).
Lemma step_ground a b s xs pre effs : step_of a b xs pre effs -> instantiates a s xs -> ground_schema a s = Ok (pre, effs).
Proof.
  intros H [F I]. destruct H; cbn in I.
  - injection I as I. now apply ground_pick_up.
  - injection I as I. now apply ground_put_down.
  - injection I as I1 I2. now apply ground_unstack.
  - injection I as I1 I2. now apply ground_stack.
Qed.
Lemma step_uncond a b xs pre effs : step_of a b xs pre effs -> Forall unconditional effs.
Proof. intros H. destruct H; [apply pick_up_uncond|apply put_down_uncond|apply unstack_uncond|apply stack_uncond]. Qed.
Lemma ne_true m c r d q : eval_f m (Atom (PB PNe) [Cst c r; Cst d q]) = Ok true <-> c <> d.
Proof. rewrite eval_batom. cbn. destruct (cname_eq_dec c d) as [E|E]; split; congruence. Qed.

(** From moves to steps *)
Lemma move_step D sub b blocks m w n xs w' : objects_are sub -> NoDup blocks -> is_state sub m -> describes m w -> valid blocks w -> move w n xs w' ->
  exists a pre effs m', In a (bw_actions b) /\ a_name a = n /\ step_of a b xs pre effs /\ is_applicable m pre = Ok true /\ progress D sub m effs = Ok m' /\ describes m' w'.
Proof.
  intros Ob ND Sm Dm V M. assert (OK : forall effs, Forall unconditional effs -> (forall p ts, In (EAdd Top (Atom p ts)) effs -> well_typed sub p ts) -> exists m', progress D sub m effs = Ok m').
  { intros effs U W. apply (C23_succeeds D sub m effs Sm U). exact W. }
  assert (W1 : forall p x, p = ontable \/ p = clear \/ p = holding -> well_typed sub p [block x]).
  { intros p x [-> | [-> | ->]]; (eexists; eexists; split; [reflexivity|]); (constructor; [exists (CStr x), obj; auto|constructor]). }
  assert (W2 : forall x y, well_typed sub on [block x; block y]).
  { intros x y. eexists; eexists; split; [reflexivity|]. constructor; [exists (CStr x), obj; auto|]. constructor; [exists (CStr y), obj; auto|constructor]. }
  assert (W0 : well_typed sub handempty []) by (eexists; eexists; split; [reflexivity|constructor]).
  assert (HH : forall n ss ts, forallb is_cst ts = true -> fact w (PU n ss) ts -> eval_f m (Atom (PU n ss) ts) = Ok true).
  { intros n0 ss ts K F. rewrite eval_holds by auto. f_equal. now apply Dm. }
  destruct M as [w x ts P E|w x E|w x y t ts P E|w x y t ts P E].
  - assert (S : same_world w {| towers := [x] :: ts; hand := None |}) by (split; auto). assert (V' := valid_same _ _ _ S V). apply (valid_NoDup _ _ ND) in V'. cbn [towers] in V'. apply nodup_front in V' as [_ V'].
    destruct (OK (pick_up_effs x) (pick_up_uncond x)) as [m' Hm']; [unfold pick_up_effs; intros p ts0; noin; injection Hd as <- <-; auto|].
    exists pick_up. eexists. eexists. exists m'. split; [cbn; tauto|]. split; [reflexivity|]. split; [apply so_pick_up|]. split; [|split; [exact Hm'|]].
    + unfold is_applicable, pick_up_pre. apply eval_all_true. repeat constructor; apply HH; try reflexivity; apply (fact_same _ _ _ _ (same_world_sym _ _ S)).
      * eapply f_clear. now left.
      * apply (f_ontable _ x []). now left.
      * now apply f_handempty.
    + eapply uncond_progress; [exact Sm|exact (describes_same _ _ _ S Dm)|apply pick_up_uncond| |exact Hm']. apply pick_up_next. apply (V' x). now left.
  - destruct (OK (put_down_effs x) (put_down_uncond x)) as [m' Hm']; [unfold put_down_effs; intros p ts0; noin; injection Hd as <- <-; auto|].
    exists put_down. eexists. eexists. exists m'. split; [cbn; tauto|]. split; [reflexivity|]. split; [apply so_put_down|]. split; [|split; [exact Hm'|]].
    + unfold is_applicable. apply HH; [reflexivity|]. now apply f_holding.
    + eapply uncond_progress; [exact Sm|exact Dm|apply put_down_uncond| |exact Hm']. destruct w as [ts h]. cbn in E. subst h. apply put_down_next.
  - assert (S : same_world w {| towers := (x :: y :: t) :: ts; hand := None |}) by (split; auto). assert (V' := valid_same _ _ _ S V). apply (valid_NoDup _ _ ND) in V'. cbn [towers] in V'. apply nodup_front in V' as [V0 V'].
    destruct (OK (unstack_effs x y) (unstack_uncond x y)) as [m' Hm']; [unfold unstack_effs; intros p ts0; noin; injection Hd as <- <-; auto|].
    exists unstack. eexists. eexists. exists m'. split; [cbn; tauto|]. split; [reflexivity|]. split; [apply so_unstack|]. split; [|split; [exact Hm'|]].
    + unfold is_applicable, unstack_pre. apply eval_all_true. repeat constructor; apply HH; try reflexivity; apply (fact_same _ _ _ _ (same_world_sym _ _ S)).
      * eapply f_on; [now left|]. exists [], t. reflexivity.
      * eapply f_clear. now left.
      * now apply f_handempty.
    + eapply uncond_progress; [exact Sm|exact (describes_same _ _ _ S Dm)|apply unstack_uncond| |exact Hm']. apply unstack_next. cbn [List.concat]. intros K. apply in_app_or in K as [K|K]; [|apply (proj1 (V' x (or_introl eq_refl)) K)].
      inversion V0; subst. auto.
  - assert (S : same_world w {| towers := (y :: t) :: ts; hand := Some x |}) by (split; auto). assert (V' := valid_same _ _ _ S V). apply (valid_NoDup _ _ ND) in V'. cbn [towers] in V'. apply nodup_front in V' as [V0 V'].
    destruct (OK (stack_effs x y) (stack_uncond x y)) as [m' Hm']; [unfold stack_effs; intros p ts0; noin; injection Hd as <- <-; auto|].
    exists (stack b). eexists. eexists. exists m'. split; [cbn; tauto|]. split; [reflexivity|]. split; [apply so_stack|]. split; [|split; [exact Hm'|]].
    + assert (Nxy : x <> y). { intros ->. destruct (V' y) as [_ K]; [now left|]. apply K. now left. }
      assert (C2 : eval_f m (Atom holding [block x]) = Ok true /\ eval_f m (Atom clear [block y]) = Ok true).
      { split; (apply HH; [reflexivity|]); apply (fact_same _ _ _ _ (same_world_sym _ _ S)); [now apply f_holding|eapply f_clear; now left]. }
      destruct C2 as [C1 C2]. unfold is_applicable, stack_pre. apply eval_all_true. destruct b; cbn [app]; constructor; auto; constructor; auto. constructor; [|constructor]. apply ne_true. congruence.
    + eapply uncond_progress; [exact Sm|exact (describes_same _ _ _ S Dm)|apply stack_uncond| |exact Hm']. apply stack_next. cbn [List.concat]. intros K. apply in_app_or in K as [K|K]; [|apply (proj1 (V' y (or_introl eq_refl)) K)].
      inversion V0; subst. auto.
Qed.

(** From steps to moves *)
Lemma split_on x y u : directly_on x y u -> forall v, u = x :: v -> NoDup u -> exists t, u = x :: y :: t.
Proof.
  intros (a & c & E) v E' N. destruct a as [|a0 a]; [exists c; exact E|]. exfalso. rewrite E in E', N. cbn in E'. injection E' as -> _. inversion N as [|? ? N1 _]; subst. apply N1. apply in_or_app. right. now left.
Qed.
Lemma nodup_unique {A} (x : A) t u ts : NoDup (List.concat ts) -> In t ts -> In u ts -> In x t -> In x u -> t = u.
Proof.
  induction ts as [|a ts IH]; intros N Ht Hu Xt Xu; [destruct Ht|]. cbn [List.concat] in N.
  assert (N2 : NoDup (List.concat ts)) by (clear - N; induction a; cbn in N; [auto|inversion N; auto]).
  assert (N3 : forall z, In z a -> ~ In z (List.concat ts)). { intros z Hz K. clear - N Hz K. induction a as [|b a IH]; [destruct Hz|]. cbn in N. inversion N as [|? ? N1 N']; subst. destruct Hz as [<-|Hz]; [apply N1, in_or_app; auto|auto]. }
  destruct Ht as [<-|Ht], Hu as [<-|Hu]; [auto| | |now apply IH].
  - exfalso. apply (N3 x Xt). eapply concat_in; eauto.
  - exfalso. apply (N3 x Xu). eapply concat_in; eauto.
Qed.
Lemma nodup_app_l {A} (l l' : list A) : NoDup (l ++ l') -> NoDup l.
Proof. induction l as [|a l IH]; intros N; [constructor|]. cbn in N. inversion N as [|? ? N1 N2]; subst. constructor; [|auto]. intros K. apply N1, in_or_app. auto. Qed.
Lemma nodup_tower {A} (t : list A) ts : NoDup (List.concat ts) -> In t ts -> NoDup t.
Proof. intros N H. apply in_split in H as (l1 & l2 & ->). rewrite concat_app in N. cbn in N. clear - N. induction (List.concat l1) as [|a l IH]; cbn in N; [now apply nodup_app_l in N|inversion N; auto]. Qed.

Lemma step_move D sub b blocks m w a s pre effs m' : NoDup blocks -> is_state sub m -> describes m w -> valid blocks w -> sub_f s = [] -> In a (bw_actions b) ->
  ground_schema a s = Ok (pre, effs) -> is_applicable m pre = Ok true -> progress D sub m effs = Ok m' ->
  exists xs w', step_of a b xs pre effs /\ instantiates a s xs /\ move w (a_name a) xs w' /\ describes m' w' /\ is_state sub m'.
Proof.
  intros ND Sm Dm V F Ha G A P. assert (N := valid_NoDup _ _ ND V). assert (Nt := nodup_app_l _ _ N).
  assert (HH : forall n ss ts, forallb is_cst ts = true -> eval_f m (Atom (PU n ss) ts) = Ok true -> fact w (PU n ss) ts).
  { intros n0 ss ts K E. rewrite eval_holds in E by auto. apply Dm. congruence. }
  assert (FIN : forall xs w', step_of a b xs pre effs -> instantiates a s xs -> move w (a_name a) xs w' ->
    exists xs w', step_of a b xs pre effs /\ instantiates a s xs /\ move w (a_name a) xs w' /\ describes m' w' /\ is_state sub m').
  { intros xs w' S I M. exists xs, w'. split; [auto|]. split; [auto|]. split; [auto|]. split; [|eapply progress_state; [exact Sm|eapply step_uncond; eauto|exact P]].
    remember (a_name a) as n eqn:En in M. destruct M as [w x ts Pm E|w x E|w x y t ts Pm E|w x y t ts Pm E].
    - assert (E0 : effs = pick_up_effs x). { clear - S En. inversion S; subst; reflexivity || (cbn in En; discriminate En). } subst effs.
      assert (S' : same_world w {| towers := [x] :: ts; hand := None |}) by (split; auto). assert (V' := valid_same _ _ _ S' V). apply (valid_NoDup _ _ ND) in V'. cbn [towers] in V'. apply nodup_front in V' as [V0 V'].
      eapply uncond_progress; [exact Sm|exact (describes_same _ _ _ S' Dm)|apply pick_up_uncond| |exact P]. apply pick_up_next. apply (V' x). now left.
    - assert (E0 : effs = put_down_effs x). { clear - S En. inversion S; subst; reflexivity || (cbn in En; discriminate En). } subst effs.
      eapply uncond_progress; [exact Sm|exact Dm|apply put_down_uncond| |exact P]. destruct w as [ts h]. cbn in E. subst h. apply put_down_next.
    - assert (E0 : effs = unstack_effs x y). { clear - S En. inversion S; subst; reflexivity || (cbn in En; discriminate En). } subst effs.
      assert (S' : same_world w {| towers := (x :: y :: t) :: ts; hand := None |}) by (split; auto). assert (V' := valid_same _ _ _ S' V). apply (valid_NoDup _ _ ND) in V'. cbn [towers] in V'. apply nodup_front in V' as [V0 V'].
      eapply uncond_progress; [exact Sm|exact (describes_same _ _ _ S' Dm)|apply unstack_uncond| |exact P]. apply unstack_next. cbn [List.concat]. intros K. apply in_app_or in K as [K|K]; [|apply (proj1 (V' x (or_introl eq_refl)) K)].
      inversion V0; subst. auto.
    - assert (E0 : effs = stack_effs x y). { clear - S En. inversion S; subst; reflexivity || (cbn in En; discriminate En). } subst effs.
      assert (S' : same_world w {| towers := (y :: t) :: ts; hand := Some x |}) by (split; auto). assert (V' := valid_same _ _ _ S' V). apply (valid_NoDup _ _ ND) in V'. cbn [towers] in V'. apply nodup_front in V' as [V0 V'].
      eapply uncond_progress; [exact Sm|exact (describes_same _ _ _ S' Dm)|apply stack_uncond| |exact P]. apply stack_next. cbn [List.concat]. intros K. apply in_app_or in K as [K|K]; [|apply (proj1 (V' y (or_introl eq_refl)) K)].
      inversion V0; subst. auto. }
  assert (G' := G). cbn in Ha. destruct Ha as [<-|[<-|[<-|[<-|[]]]]].
  - destruct (ground_needs _ _ _ vx G) as (c & r & X); [cbn; tauto|]. rewrite (ground_pick_up s c r F X) in G. injection G as <- <-. unfold is_applicable, pick_up_pre in A. apply eval_all_true in A.
    inversion A as [|? ? A1 A']; subst. inversion A' as [|? ? A2 A'']; subst. inversion A'' as [|? ? A3 _]; subst. apply HH in A1, A2, A3; try reflexivity.
    apply fact_clear in A1 as (x & u & E1 & I1). apply fact_ontable in A2 as (x2 & u2 & E2 & I2). apply fact_handempty in A3. rewrite E1 in *. apply block_inj in E2. subst x2.
    assert (E : x :: u = u2 ++ [x]). { eapply (nodup_unique x _ _ (towers w) Nt); eauto; [now left|]. apply in_or_app. right. now left. }
    assert (u = []) as ->. { destruct u2 as [|z u2]; [now injection E|]. injection E as -> ->. exfalso. apply (nodup_tower _ _ Nt) in I1. inversion I1 as [|? ? K _]; subst. apply K, in_or_app. right. now left. }
    apply in_perm in I1 as (ts & Pm). apply (FIN [x] {| towers := ts; hand := Some x |}); [apply so_pick_up|split; [auto|cbn; now rewrite X]|now apply m_pick_up].
  - destruct (ground_needs _ _ _ vx G) as (c & r & X); [cbn; tauto|]. rewrite (ground_put_down s c r F X) in G. injection G as <- <-. unfold is_applicable in A. apply HH in A; [|reflexivity].
    apply fact_holding in A as (x & E1 & E). rewrite E1 in *. apply (FIN [x] {| towers := [x] :: towers w; hand := None |}); [apply so_put_down|split; [auto|cbn; now rewrite X]|now apply m_put_down].
  - destruct (ground_needs _ _ _ vx G) as (c & r & X); [cbn; tauto|]. destruct (ground_needs _ _ _ vy G) as (d & q & Y); [cbn; tauto|]. rewrite (ground_unstack s c r d q F X Y) in G. injection G as <- <-. unfold is_applicable, unstack_pre in A. apply eval_all_true in A.
    inversion A as [|? ? A1 A']; subst. inversion A' as [|? ? A2 A'']; subst. inversion A'' as [|? ? A3 _]; subst. apply HH in A1, A2, A3; try reflexivity.
    apply fact_on in A1 as (x & y & u & E1 & E2 & I1 & O). apply fact_clear in A2 as (x2 & u2 & E3 & I2). apply fact_handempty in A3. rewrite E1, E2 in *. apply block_inj in E3. subst x2.
    assert (E : u = x :: u2). { eapply (nodup_unique x _ _ (towers w) Nt); eauto; [now apply on_in in O|now left]. }
    destruct (split_on x y u O u2 E (nodup_tower _ _ Nt I1)) as (t & Et). rewrite Et in I1. apply in_perm in I1 as (ts & Pm).
    apply (FIN [x; y] {| towers := (y :: t) :: ts; hand := Some x |}); [apply so_unstack|split; [auto|cbn; now rewrite X, Y]|now apply m_unstack].
  - destruct (ground_needs _ _ _ vx G) as (c & r & X); [cbn; tauto|]. destruct (ground_needs _ _ _ vy G) as (d & q & Y); [cbn; tauto|]. rewrite (ground_stack b s c r d q F X Y) in G. injection G as <- <-. unfold is_applicable, stack_pre in A. apply eval_all_true in A.
    apply Forall_app in A as [A _]. inversion A as [|? ? A1 A']; subst. inversion A' as [|? ? A2 _]; subst. apply HH in A1, A2; try reflexivity.
    apply fact_holding in A1 as (x & E1 & E). apply fact_clear in A2 as (y & u & E2 & I). rewrite E1, E2 in *. apply in_perm in I as (ts & Pm).
    apply (FIN [x; y] {| towers := (x :: y :: u) :: ts; hand := None |}); [apply so_stack|split; [auto|cbn; now rewrite X, Y]|now apply m_stack].
Qed.
