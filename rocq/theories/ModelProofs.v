From Verif Require Import Base Syntax Semantics SemLemmas Subst SubstSpec SubstProofs ModelState ModelSpec.

Section DictLemmas.
  Context {K V : Type} (eqb : K -> K -> bool) (Heq : forall a b, eqb a b = true <-> a = b).
  Lemma eqb_refl_ a : eqb a a = true. Proof. now apply Heq. Qed.
  Lemma dget_dset (d : list (K * V)) k v k' : dget eqb (dset eqb d k v) k' = if eqb k k' then Some v else dget eqb d k'.
  Proof.
    induction d as [|[a w] d IH]; simpl; [reflexivity|].
    destruct (eqb a k) eqn:E; simpl.
    - apply Heq in E. subst. destruct (eqb k k'); reflexivity.
    - destruct (eqb a k') eqn:E'; [|exact IH]. apply Heq in E'. subst.
      destruct (eqb k k') eqn:E2; [|reflexivity]. apply Heq in E2. subst. rewrite eqb_refl_ in E. discriminate.
  Qed.
  Lemma dget_In (d : list (K * V)) k v : dget eqb d k = Some v -> In (k, v) d.
  Proof. induction d as [|[a w] d IH]; simpl; [discriminate|]. destruct (eqb a k) eqn:E; intros H; auto. apply Heq in E. inversion H; subst; auto. Qed.
  Lemma dget_keys (d : list (K * V)) k : dget eqb d k = None <-> ~ In k (map fst d).
  Proof.
    induction d as [|[a w] d IH]; simpl; [tauto|]. destruct (eqb a k) eqn:E.
    - apply Heq in E. subst. split; [discriminate|tauto].
    - rewrite IH. split; [|tauto]. intros H [->|Hin]; [rewrite eqb_refl_ in E; discriminate|auto].
  Qed.
  Lemma dset_keys (d : list (K * V)) k v x : In x (map fst (dset eqb d k v)) <-> x = k \/ In x (map fst d).
  Proof.
    induction d as [|[a w] d IH]; simpl; [intuition|]. destruct (eqb a k) eqn:E; simpl.
    - apply Heq in E. subst. intuition.
    - rewrite IH. intuition.
  Qed.
  Lemma dset_NoDup (d : list (K * V)) k v : NoDup (map fst d) -> NoDup (map fst (dset eqb d k v)).
  Proof.
    induction d as [|[a w] d IH]; simpl; intros H; [constructor; [tauto|constructor]|].
    inversion H as [|? ? H1 H2]; subst. destruct (eqb a k) eqn:E; simpl; constructor; auto.
    rewrite dset_keys. intros [->|Hin]; [rewrite eqb_refl_ in E; discriminate|auto].
  Qed.
  Lemma ddel_keys (d : list (K * V)) k x : In x (map fst (ddel eqb d k)) -> In x (map fst d).
  Proof. induction d as [|[a w] d IH]; simpl; [tauto|]. destruct (eqb a k); simpl; [auto|]. intros [->|H]; auto. Qed.
  Lemma ddel_NoDup (d : list (K * V)) k : NoDup (map fst d) -> NoDup (map fst (ddel eqb d k)).
  Proof.
    induction d as [|[a w] d IH]; simpl; intros H; [constructor|].
    inversion H as [|? ? H1 H2]; subst. destruct (eqb a k); simpl; [auto|]. constructor; auto. intros Hin. apply ddel_keys in Hin. auto.
  Qed.
  Lemma dget_ddel (d : list (K * V)) k k' : NoDup (map fst d) -> dget eqb (ddel eqb d k) k' = if eqb k k' then None else dget eqb d k'.
  Proof.
    induction d as [|[a w] d IH]; simpl; intros H; [destruct (eqb k k'); reflexivity|].
    inversion H as [|? ? H1 H2]; subst. destruct (eqb a k) eqn:E.
    - apply Heq in E. subst. destruct (eqb k k') eqn:E'; [|reflexivity]. apply Heq in E'. subst. now apply dget_keys.
    - simpl. rewrite IH by auto. destruct (eqb a k') eqn:E'; [|reflexivity]. apply Heq in E'. subst.
      destruct (eqb k k') eqn:E2; [|reflexivity]. apply Heq in E2. subst. rewrite eqb_refl_ in E. discriminate.
  Qed.
End DictLemmas.

Lemma sig_eqb_eq a b : sig_eqb a b = true <-> a = b.
Proof.
  unfold sig_eqb. destruct a as [a1 a2], b as [b1 b2]; simpl. rewrite andb_true_iff, Bool.eqb_true_iff.
  destruct (list_eq_dec string_dec a2 b2) as [->|n]; split; intros H.
  - destruct H as [-> _]. reflexivity.
  - inversion H; auto.
  - destruct H; discriminate.
  - inversion H; congruence.
Qed.
Lemma sig_refl a : sig_eqb a a = true. Proof. now apply sig_eqb_eq. Qed.
Lemma points_eqb_eq a b : points_eqb a b = true <-> a = b.
Proof.
  revert b; induction a as [|x a IH]; intros [|y b]; simpl; try (split; [discriminate|congruence]); [tauto|].
  rewrite andb_true_iff, term_eqb_eq, IH. split; [intros [-> ->]; reflexivity | intros H; inversion H; auto].
Qed.
Lemma psig_inj p q : psig p = psig q -> p = q.
Proof. destruct p as [[]|], q as [[]|]; simpl; intros H; inversion H; auto. Qed.
Lemma sorts_last_inj (d d' : list sort) c c' : (d ++ [c])%list = (d' ++ [c'])%list -> d = d' /\ c = c'.
Proof. apply app_inj_tail. Qed.

Lemma pt_mem_In x l : pt_mem x l = true <-> In x l.
Proof.
  unfold pt_mem. rewrite existsb_exists. split.
  - intros (y & Hy & E). apply points_eqb_eq in E. now subst.
  - intros H. exists x. split; [auto|now apply points_eqb_eq].
Qed.
Lemma pt_mem_add x l y : pt_mem y (pt_add x l) = points_eqb x y || pt_mem y l.
Proof.
  unfold pt_add. destruct (pt_mem x l) eqn:E.
  - destruct (points_eqb x y) eqn:E'; [|reflexivity]. apply points_eqb_eq in E'. now subst.
  - unfold pt_mem. rewrite existsb_app. simpl. rewrite orb_false_r, orb_comm. reflexivity.
Qed.
Lemma pt_add_NoDup x l : NoDup l -> NoDup (pt_add x l).
Proof.
  intros H. unfold pt_add. destruct (pt_mem x l) eqn:E; [auto|].
  apply NoDup_Add with (a := x) (l := l); [rewrite <- (app_nil_r l) at 1; apply Add_app|].
  split; [auto|]. intros Hin. apply pt_mem_In in Hin. congruence.
Qed.
Lemma pt_del_In x l y : In y (pt_del x l) -> In y l.
Proof. induction l as [|z l IH]; simpl; [tauto|]. destruct (points_eqb z x); simpl; [auto|]. intros [->|H]; auto. Qed.
Lemma pt_del_NoDup x l : NoDup l -> NoDup (pt_del x l).
Proof. induction 1 as [|z l Hz Hl IH]; simpl; [constructor|]. destruct (points_eqb z x); [exact Hl|]. constructor; auto. intros H. apply pt_del_In in H. auto. Qed.
Lemma pt_mem_del x l y : NoDup l -> pt_mem y (pt_del x l) = negb (points_eqb x y) && pt_mem y l.
Proof.
  induction 1 as [|z l Hz _ IH]; [now rewrite andb_false_r|]. cbn [pt_del].
  change (pt_mem y (z :: l)) with (points_eqb z y || pt_mem y l).
  destruct (points_eqb z x) eqn:E.
  - apply points_eqb_eq in E. subst z. destruct (points_eqb x y) eqn:E'; [|reflexivity]. apply points_eqb_eq in E'. subst y. simpl.
    apply not_true_iff_false. intros H. apply pt_mem_In in H. auto.
  - change (pt_mem y (z :: pt_del x l)) with (points_eqb z y || pt_mem y (pt_del x l)). rewrite IH.
    destruct (points_eqb z y) eqn:E'; [|reflexivity]. apply points_eqb_eq in E'. subst z.
    destruct (points_eqb x y) eqn:E2; [|reflexivity]. apply points_eqb_eq in E2. subst.
    assert (points_eqb y y = true) by now apply points_eqb_eq. congruence.
Qed.

Definition is_user_fun (f : fsym) : bool := match f with FU _ _ _ => true | _ => false end.
(** Representation invariant, relative to the symbols [P], [F] of the history. *)
Definition minv (P : psym -> Prop) (F : fsym -> Prop) (m : model) : Prop :=
  NoDup (map fst (preds m)) /\ NoDup (map fst (funs m)) /\
  (forall s ext, In (s, ext) (preds m) -> NoDup ext) /\
  (forall s, In s (map fst (preds m)) -> exists p, P p /\ s = psig p) /\
  (forall s, In s (map fst (funs m)) -> exists f, F f /\ is_user_fun f = true /\ s = fsig f).
Definition refines (m : model) (s : smodel) : Prop :=
  (forall p args, m_holds m p args = s_true s p args) /\
  (forall f args, m_value m f args = match s_val s f args with Some v => Ok v | None => Err KeyError end).

Lemma fsig_inj f g : is_user_fun f = true -> fsig f = fsig g -> f = g.
Proof.
  destruct f as [|n d c]; [discriminate|]. intros _. destruct g as [|n' d' c']; simpl; intros H; inversion H as [[H1 H2]]; clear H.
  apply sorts_last_inj in H2 as [-> ->]. now subst.
Qed.

Lemma typing_check sub ss args : forallb is_cst args = true ->
  check_assignment sub ss args = match typing sub ss args with Some e => Err e | None => Ok tt end.
Proof.
  intros Hc. unfold check_assignment, typing. destruct (Nat.eqb (List.length ss) (List.length args)) eqn:E; simpl; [|reflexivity].
  apply Nat.eqb_eq in E. revert ss E. induction args as [|t args IH]; intros [|s ss] E; simpl in *; try discriminate; [reflexivity|].
  apply andb_true_iff in Hc as [Ht Hc]. destruct t as [|c r| |]; try discriminate. simpl.
  destruct (sub r s); simpl; [|reflexivity]. apply IH; auto.
Qed.
Lemma typing_err sub ss args e : typing sub ss args = Some e -> e = ArityMismatch \/ e = SortMismatch.
Proof. unfold typing. destruct (negb _); [intros H; inversion H; auto|]. destruct (forallb _ _); intros H; inversion H; auto. Qed.

Lemma dset_entries {K V} eqb (d : list (K * V)) k v s e : In (s, e) (dset eqb d k v) -> e = v \/ In (s, e) d.
Proof.
  induction d as [|[a w] d IH]; simpl.
  - intros [H|[]]. inversion H; auto.
  - destruct (eqb a k); simpl; intros [H|H]; [inversion H; auto | auto | auto |]. destruct (IH H); auto.
Qed.
Lemma ddel_entries {K V} eqb (d : list (K * V)) k s e : In (s, e) (ddel eqb d k) -> In (s, e) d.
Proof. induction d as [|[a w] d IH]; simpl; [tauto|]. destruct (eqb a k); simpl; [auto|]. intros [->|H]; auto. Qed.

Section Step.
  Context (sub : sort -> sort -> bool) (P : psym -> Prop) (F : fsym -> Prop) (Sep : forall p f, P p -> F f -> psig p <> fsig f).

  Lemma set_pred_refines m s p ext b args :
    minv P F m -> refines m s -> P p -> NoDup ext ->
    (forall a, pt_mem a ext = if points_eqb args a then b else s_true s p a) ->
    let m' := {| funs := funs m; preds := dset sig_eqb (preds m) (psig p) ext |} in
    minv P F m' /\ refines m' (upd_true s p args b).
  Proof.
    intros (I1 & I2 & I3 & I4 & I5) [R1 R2] Hp Hn He. split.
    - split; [apply dset_NoDup; [exact sig_eqb_eq|auto]|]. split; [auto|]. split; [|split].
      + intros r e Hin. apply dset_entries in Hin as [->|Hin]; eauto.
      + intros r Hin. apply (dset_keys sig_eqb sig_eqb_eq) in Hin as [->|Hin]; eauto.
      + auto.
    - split; [|exact R2]. intros q a. unfold m_holds. cbn [preds]. rewrite (dget_dset sig_eqb sig_eqb_eq).
      cbn [upd_true s_true]. destruct (sig_eqb (psig p) (psig q)) eqn:E.
      + apply sig_eqb_eq in E. apply psig_inj in E. subst q. destruct (psym_eq_dec p p); [|congruence]. cbn [andb]. apply He.
      + destruct (psym_eq_dec p q) as [->|]; [rewrite sig_refl in E; discriminate|].
        cbn [andb]. apply R1.
  Qed.

  Lemma step_refines m s o :
    minv P F m -> refines m s -> op_constants o = true ->
    (forall p, op_pred o = Some p -> P p) -> (forall f, op_fun o = Some f -> F f) ->
    fst (mstep sub m o) = fst (s_step sub s o) /\
    minv P F (snd (mstep sub m o)) /\ refines (snd (mstep sub m o)) (snd (s_step sub s o)).
  Proof.
    intros I R Hc HP HF. pose proof I as (I1 & I2 & I3 & I4 & I5). pose proof R as [R1 R2].
    destruct o as [p args|t v|p args|p args|p|f]; cbn [mstep s_step op_constants] in *.
    - (* add *)
      specialize (HP p eq_refl). destruct p as [b|n ss]; cbn [m_add]; [cbn [of_res fst snd]; auto|].
      rewrite typing_check by auto. destruct (typing sub ss args) as [e|] eqn:Et; cbn [bind of_res fst snd]; [auto|].
      split; [reflexivity|]. apply set_pred_refines; auto.
      + destruct (dget sig_eqb (preds m) (psig (PU n ss))) eqn:E; [|apply pt_add_NoDup; constructor].
        apply (dget_In sig_eqb sig_eqb_eq) in E. apply pt_add_NoDup. eauto.
      + intros a. rewrite pt_mem_add. rewrite <- R1. unfold m_holds.
        destruct (dget sig_eqb (preds m) (psig (PU n ss))); destruct (points_eqb args a); reflexivity.
    - (* set *)
      apply andb_true_iff in Hc as [Hv Hc].
      destruct t as [x r|c r|f args|c a b]; cbn [m_set of_res fst snd]; auto.
      destruct f as [b|n d c]; cbn [m_set of_res fst snd]; auto.
      specialize (HF (FU n d c) eq_refl). cbn [m_set]. rewrite Hc.
      rewrite typing_check by (rewrite forallb_app, Hc; simpl; now rewrite Hv).
      destruct (typing sub (d ++ [c]) (args ++ [v])) as [e|] eqn:Et; cbn [bind of_res fst snd]; [auto|].
      split; [reflexivity|]. split.
      + split; [auto|]. split; [apply dset_NoDup; [exact sig_eqb_eq|auto]|]. split; [auto|]. split; [auto|].
        intros r Hin. apply (dset_keys sig_eqb sig_eqb_eq) in Hin as [->|Hin]; eauto.
      + split; [exact R1|]. intros g a. unfold m_value. cbn [funs]. rewrite (dget_dset sig_eqb sig_eqb_eq).
        cbn [upd_val s_val]. destruct (sig_eqb (fsig (FU n d c)) (fsig g)) eqn:E.
        * apply sig_eqb_eq in E. apply fsig_inj in E; [|reflexivity]. subst g.
          destruct (fsym_eq_dec (FU n d c) (FU n d c)); [|congruence]. cbn [andb].
          rewrite (dget_dset points_eqb points_eqb_eq). destruct (points_eqb args a); [reflexivity|].
          rewrite <- R2. unfold m_value. destruct (dget sig_eqb (funs m) (fsig (FU n d c))); reflexivity.
        * destruct (fsym_eq_dec (FU n d c) g) as [<-|]; [rewrite sig_refl in E; discriminate|].
          cbn [andb]. rewrite <- R2. reflexivity.
    - (* remove *)
      specialize (HP p eq_refl). unfold m_remove. pose proof (R1 p args) as Hh. unfold m_holds in Hh.
      destruct (dget sig_eqb (preds m) (psig p)) as [ext|] eqn:E.
      + rewrite <- Hh. destruct (pt_mem args ext) eqn:Em; cbn [of_res fst snd]; [|auto]. split; [reflexivity|].
        assert (Hn : NoDup ext) by (apply (dget_In sig_eqb sig_eqb_eq) in E; eauto).
        apply set_pred_refines; auto using pt_del_NoDup.
        intros a. rewrite pt_mem_del by auto. rewrite <- R1. unfold m_holds. rewrite E. destruct (points_eqb args a); reflexivity.
      + rewrite <- Hh. cbn [of_res fst snd]. auto.
    - (* discard *)
      specialize (HP p eq_refl). cbn [fst snd]. split; [reflexivity|]. unfold m_discard.
      destruct (dget sig_eqb (preds m) (psig p)) as [ext|] eqn:E.
      + assert (Hn : NoDup ext) by (apply (dget_In sig_eqb sig_eqb_eq) in E; eauto).
        apply set_pred_refines; auto using pt_del_NoDup.
        intros a. rewrite pt_mem_del by auto. rewrite <- R1. unfold m_holds. rewrite E. destruct (points_eqb args a); reflexivity.
      + split; [auto|]. split; [|exact R2]. intros q a. cbn [upd_true s_true]. rewrite <- R1.
        destruct (psym_eq_dec p q) as [->|]; [|reflexivity]. cbn [andb]. unfold m_holds. rewrite E. destruct (points_eqb args a); reflexivity.
    - (* remove predicate symbol *)
      specialize (HP p eq_refl). cbn [fst snd]. split; [reflexivity|]. unfold remove_signature.
      destruct (dget sig_eqb (funs m) (psig p)) as [x|] eqn:Ef.
      { exfalso. apply (dget_In sig_eqb sig_eqb_eq) in Ef. apply (in_map fst) in Ef. apply I5 in Ef as (f & Hf & _ & E). simpl in E. exact (Sep p f HP Hf E). }
      destruct (dget sig_eqb (preds m) (psig p)) as [ext|] eqn:Ep.
      + split.
        * split; [apply ddel_NoDup; auto|]. split; [auto|]. split; [|split]; cbn [preds funs].
          -- intros r e Hin. apply ddel_entries in Hin. eauto.
          -- intros r Hin. apply ddel_keys in Hin. auto.
          -- auto.
        * split; [|exact R2]. intros q a. unfold m_holds. cbn [preds s_true]. rewrite (dget_ddel sig_eqb sig_eqb_eq) by auto.
          destruct (sig_eqb (psig p) (psig q)) eqn:E.
          -- apply sig_eqb_eq in E. apply psig_inj in E. subst. destruct (psym_eq_dec q q); [reflexivity|congruence].
          -- destruct (psym_eq_dec p q) as [->|]; [rewrite sig_refl in E; discriminate|]. apply R1.
      + split; [auto|]. split; [|exact R2]. intros q a. cbn [s_true]. destruct (psym_eq_dec p q) as [->|]; [|apply R1].
        unfold m_holds. rewrite Ep. reflexivity.
    - (* remove function symbol *)
      specialize (HF f eq_refl). cbn [fst snd]. split; [reflexivity|]. unfold remove_signature.
      destruct (dget sig_eqb (funs m) (fsig f)) as [x|] eqn:Ef.
      + split.
        * split; [auto|]. split; [apply ddel_NoDup; auto|]. split; [auto|]. split; [auto|]. cbn [funs].
          intros r Hin. apply ddel_keys in Hin. auto.
        * split; [exact R1|]. intros g a. unfold m_value. cbn [funs s_val]. rewrite (dget_ddel sig_eqb sig_eqb_eq) by auto.
          destruct (sig_eqb (fsig f) (fsig g)) eqn:E.
          -- apply sig_eqb_eq in E. destruct (fsym_eq_dec f g) as [->|n]; [reflexivity|].
             (* only user functions are stored; f and g then have different signatures unless equal *)
             destruct f as [bf|nf df cf].
             ++ destruct g as [bg|]; [|discriminate].
                exfalso. apply (dget_In sig_eqb sig_eqb_eq) in Ef. apply (in_map fst) in Ef. apply I5 in Ef as (f & _ & Hu & E2).
                destruct f; simpl in *; discriminate.
             ++ apply fsig_inj in E; [congruence|reflexivity].
          -- destruct (fsym_eq_dec f g) as [->|]; [rewrite sig_refl in E; discriminate|]. rewrite <- R2. reflexivity.
      + destruct (dget sig_eqb (preds m) (fsig f)) as [x|] eqn:Ep.
        { exfalso. apply (dget_In sig_eqb sig_eqb_eq) in Ep. apply (in_map fst) in Ep. apply I4 in Ep as (p & Hp & E). simpl in E. exact (Sep p f Hp HF (eq_sym E)). }
        split; [auto|]. split; [exact R1|]. intros g a. cbn [s_val]. destruct (fsym_eq_dec f g) as [->|]; [|apply R2].
        unfold m_value. rewrite Ef. reflexivity.
  Qed.

  Lemma history_refines ops m s :
    minv P F m -> refines m s -> forallb op_constants ops = true ->
    (forall o p, In o ops -> op_pred o = Some p -> P p) -> (forall o f, In o ops -> op_fun o = Some f -> F f) ->
    fst (outcomes (mstep sub) ops m) = fst (outcomes (s_step sub) ops s) /\
    refines (snd (outcomes (mstep sub) ops m)) (snd (outcomes (s_step sub) ops s)).
  Proof.
    revert m s. induction ops as [|o ops IH]; intros m s I R Hc HP HF; [split; auto|].
    cbn [forallb] in Hc. apply andb_true_iff in Hc as [Hc1 Hc2].
    destruct (step_refines m s o I R Hc1) as (E1 & I' & R').
    { intros p. apply HP. now left. } { intros f. apply HF. now left. }
    cbn [outcomes]. destruct (mstep sub m o) as [e m1]. destruct (s_step sub s o) as [e' s1]. cbn [fst snd] in *.
    destruct (IH m1 s1 I' R' Hc2) as [E2 R2].
    { intros o' p Hin. apply HP. now right. } { intros o' f Hin. apply HF. now right. }
    destruct (outcomes (mstep sub) ops m1). destruct (outcomes (s_step sub) ops s1). cbn [fst snd] in *. subst. auto.
  Qed.
End Step.

Lemma model_history sub ops :
  forallb op_constants ops = true -> separate ops ->
  fst (outcomes (mstep sub) ops empty_model) = fst (outcomes (s_step sub) ops s_empty) /\
  refines (snd (outcomes (mstep sub) ops empty_model)) (snd (outcomes (s_step sub) ops s_empty)).
Proof.
  intros Hc Hs.
  apply (history_refines sub (fun p => exists o, In o ops /\ op_pred o = Some p) (fun f => exists o, In o ops /\ op_fun o = Some f)); eauto.
  - intros p f (o & Ho & E) (o' & Ho' & E'). exact (Hs o o' p f Ho Ho' E E').
  - split; [constructor|]. split; [constructor|]. split; [intros ? ? []|]. split; intros ? [].
  - split; reflexivity.
Qed.
Print Assumptions model_history.
