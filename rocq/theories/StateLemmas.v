(** Elementary facts about states: frame lemmas, and locality of evaluation. *)
From Verif Require Import Base Syntax SemLemmas ModelState ModelProofs Eval Effects ProgressSpec.

Definition proper (m : model) : Prop := forall s ext, In (s, ext) (preds m) -> NoDup ext.
Lemma points_refl a : points_eqb a a = true. Proof. now apply points_eqb_eq. Qed.
Definition same_atom (p q : psym) (a b : list term) : bool := (if psym_eq_dec p q then true else false) && points_eqb a b.
Lemma same_atom_eq p q a b : same_atom p q a b = true <-> p = q /\ a = b.
Proof. unfold same_atom. rewrite andb_true_iff, points_eqb_eq. destruct (psym_eq_dec p q); intuition congruence. Qed.

Lemma add_spec sub m p a m' : m_add sub m p a = Ok m' -> proper m ->
  proper m' /\ (forall q b, m_holds m' q b = same_atom p q a b || m_holds m q b) /\ (forall f b, m_value m' f b = m_value m f b).
Proof.
  intros H Pm. unfold m_add in H. destruct p as [b0|n ss]; [discriminate|]. destruct (check_assignment sub ss a) as [u|]; [|discriminate].
  cbn [bind] in H. set (p := PU n ss) in *. match type of H with Ok ?x = _ => assert (Em : m' = x) by congruence end. subst m'. clear H. split; [|split].
  - intros s ext Hin. cbn [preds] in Hin. apply dset_entries in Hin as [->|Hin]; [|eauto].
    apply pt_add_NoDup. destruct (dget sig_eqb (preds m) (psig p)) eqn:E; [|constructor]. apply (dget_In sig_eqb sig_eqb_eq) in E. eauto.
  - intros q b. unfold m_holds at 1. cbn [preds]. rewrite (dget_dset sig_eqb sig_eqb_eq). unfold same_atom.
    destruct (sig_eqb (psig p) (psig q)) eqn:E.
    + apply sig_eqb_eq in E. assert (E' := psig_inj _ _ E). subst q. destruct (psym_eq_dec p p); [|congruence]. rewrite pt_mem_add. cbn [andb]. unfold m_holds.
      destruct (dget sig_eqb (preds m) (psig p)); reflexivity.
    + destruct (psym_eq_dec p q) as [<-|]; [rewrite sig_refl in E; discriminate|reflexivity].
  - reflexivity.
Qed.
Lemma discard_spec m p a : proper m -> proper (m_discard m p a) /\
  (forall q b, m_holds (m_discard m p a) q b = negb (same_atom p q a b) && m_holds m q b) /\ (forall f b, m_value (m_discard m p a) f b = m_value m f b).
Proof.
  intros Pm. unfold m_discard. destruct (dget sig_eqb (preds m) (psig p)) as [ext|] eqn:Ep.
  - assert (Hn : NoDup ext) by (apply (dget_In sig_eqb sig_eqb_eq) in Ep; eauto). split; [|split].
    + intros s e Hin. cbn [preds] in Hin. apply dset_entries in Hin as [->|Hin]; [apply pt_del_NoDup; auto|eauto].
    + intros q b. unfold m_holds at 1. cbn [preds]. rewrite (dget_dset sig_eqb sig_eqb_eq). unfold same_atom. destruct (sig_eqb (psig p) (psig q)) eqn:E.
      * apply sig_eqb_eq in E. assert (E' := psig_inj _ _ E). subst q. destruct (psym_eq_dec p p); [|congruence]. rewrite pt_mem_del by auto. unfold m_holds. rewrite Ep. reflexivity.
      * destruct (psym_eq_dec p q) as [<-|]; [rewrite sig_refl in E; discriminate|reflexivity].
    + reflexivity.
  - split; [auto|]. split; [|reflexivity]. intros q b. unfold same_atom. destruct (psym_eq_dec p q) as [<-|]; [|reflexivity]. unfold m_holds. rewrite Ep. now rewrite andb_false_r.
Qed.
Definition same_point (f g : fsym) (a b : list term) : bool := (if fsym_eq_dec f g then true else false) && points_eqb a b.
Lemma same_point_eq f g a b : same_point f g a b = true <-> f = g /\ a = b.
Proof. unfold same_point. rewrite andb_true_iff, points_eqb_eq. destruct (fsym_eq_dec f g); intuition congruence. Qed.
Lemma set_spec sub m t v m' : m_set sub m t v = Ok m' -> exists f a, t = App f a /\
  (proper m -> proper m') /\ (forall q b, m_holds m' q b = m_holds m q b) /\ (forall g b, m_value m' g b = if same_point f g a b then Ok v else m_value m g b).
Proof.
  intros H. destruct t as [| |f a|]; cbn [m_set] in H; try discriminate. destruct f as [|n d c]; [discriminate|]. destruct (forallb is_cst a); [|discriminate].
  destruct (check_assignment sub _ _) as [u|]; [|discriminate]. cbn [bind] in H. match type of H with Ok ?x = _ => assert (Em : m' = x) by congruence end. subst m'. clear H. exists (FU n d c), a. split; [auto|]. split; [auto|]. split; [reflexivity|].
  intros g b. unfold m_value at 1. cbn [funs]. rewrite (dget_dset sig_eqb sig_eqb_eq). unfold same_point. destruct (sig_eqb (fsig (FU n d c)) (fsig g)) eqn:E.
  - apply sig_eqb_eq in E. assert (E' : FU n d c = g) by (apply fsig_inj; auto). subst g. destruct (fsym_eq_dec (FU n d c) (FU n d c)); [|congruence]. cbn [andb].
    rewrite (dget_dset points_eqb points_eqb_eq). destruct (points_eqb a b); [reflexivity|]. unfold m_value. destruct (dget sig_eqb (funs m) (fsig (FU n d c))); reflexivity.
  - destruct (fsym_eq_dec (FU n d c) g) as [<-|]; [rewrite sig_refl in E; discriminate|]. reflexivity.
Qed.
Lemma state_proper sub m : is_state sub m -> proper m.
Proof.
  intros [ops ->]. unfold mrun. assert (G : forall ops m, proper m -> proper (fold_left (fun m o => snd (mstep sub m o)) ops m)).
  { clear. induction ops as [|o ops IH]; intros m Pm; [auto|]. cbn [fold_left]. apply IH. destruct o as [p a|t v|p a|p a|p|f]; cbn [mstep].
    - destruct (m_add sub m p a) as [m'|] eqn:E; cbn [of_res snd]; [|auto]. eapply add_spec; eauto.
    - destruct (m_set sub m t v) as [m'|] eqn:E; cbn [of_res snd]; [|auto]. destruct (set_spec _ _ _ _ _ E) as (f & a & _ & X & _). auto.
    - unfold m_remove. destruct (dget sig_eqb (preds m) (psig p)) as [ext|] eqn:Ep; [|auto]. destruct (pt_mem a ext); [|auto]. cbn [of_res snd].
      assert (Hn : NoDup ext) by (apply (dget_In sig_eqb sig_eqb_eq) in Ep; eauto). intros s e Hin. cbn [preds] in Hin. apply dset_entries in Hin as [->|Hin]; [apply pt_del_NoDup; auto|eauto].
    - apply discard_spec; auto.
    - unfold remove_signature. cbn [snd]. destruct (dget sig_eqb (funs m) (psig p)); [auto|]. destruct (dget sig_eqb (preds m) (psig p)); [|auto]. intros s e Hin. apply ddel_entries in Hin. eauto.
    - unfold remove_signature. cbn [snd]. destruct (dget sig_eqb (funs m) (fsig f)); [auto|]. destruct (dget sig_eqb (preds m) (fsig f)); [|auto]. intros s e Hin. apply ddel_entries in Hin. eauto. }
  apply G. intros s e [].
Qed.
(** States are closed under the operations that effects use. *)
Lemma state_step sub m o : is_state sub m -> is_state sub (snd (mstep sub m o)).
Proof. intros [ops ->]. exists (ops ++ [o]). unfold mrun. rewrite fold_left_app. reflexivity. Qed.
Lemma state_add sub m p a m' : is_state sub m -> m_add sub m p a = Ok m' -> is_state sub m'.
Proof. intros H E. assert (X := state_step sub m (OAdd p a) H). cbn [mstep] in X. rewrite E in X. exact X. Qed.
Lemma state_discard sub m p a : is_state sub m -> is_state sub (m_discard m p a).
Proof. intros H. exact (state_step sub m (ODiscard p a) H). Qed.
Lemma state_set sub m t v m' : is_state sub m -> m_set sub m t v = Ok m' -> is_state sub m'.
Proof. intros H E. assert (X := state_step sub m (OSet t v) H). cbn [mstep] in X. rewrite E in X. exact X. Qed.

(** Evaluation depends only on the symbols that occur. *)
Lemma eval_local m m' :
  (forall t, (forall p pt, In p (t_preds t) -> m_holds m p pt = m_holds m' p pt) -> (forall f pt, In f (t_funs t) -> m_value m f pt = m_value m' f pt) -> eval_term m t = eval_term m' t) /\
  (forall g, (forall p pt, In p (f_preds g) -> m_holds m p pt = m_holds m' p pt) -> (forall f pt, In f (f_funs g) -> m_value m f pt = m_value m' f pt) -> eval_f m g = eval_f m' g).
Proof.
  assert (ARGS : forall ts, Forall (fun t => (forall p pt, In p (t_preds t) -> m_holds m p pt = m_holds m' p pt) -> (forall f pt, In f (t_funs t) -> m_value m f pt = m_value m' f pt) -> eval_term m t = eval_term m' t) ts ->
    (forall p pt, In p (flat_map t_preds ts) -> m_holds m p pt = m_holds m' p pt) -> (forall f pt, In f (flat_map t_funs ts) -> m_value m f pt = m_value m' f pt) ->
    (fix args (ts : list term) : res (list term) := match ts with [] => Ok [] | u :: us => match (match u with Var _ _ => Err TypeError | _ => eval_term m u end) with Err e => Err e | Ok v => match args us with Err e => Err e | Ok vs => Ok (v :: vs) end end end) ts =
    (fix args (ts : list term) : res (list term) := match ts with [] => Ok [] | u :: us => match (match u with Var _ _ => Err TypeError | _ => eval_term m' u end) with Err e => Err e | Ok v => match args us with Err e => Err e | Ok vs => Ok (v :: vs) end end end) ts).
  { induction 1 as [|t ts Ht _ IH]; intros Hp Hf; [reflexivity|]. cbn [flat_map] in Hp, Hf.
    rewrite IH; [|intros; apply Hp; apply in_or_app; auto|intros; apply Hf; apply in_or_app; auto].
    rewrite Ht; [reflexivity|intros; apply Hp; apply in_or_app; auto|intros; apply Hf; apply in_or_app; auto]. }
  apply syntax_ind.
  - reflexivity.
  - reflexivity.
  - intros f ts IH Hp Hf. cbn [t_preds t_funs] in *. destruct f as [b|n d c]; cbn [eval_term].
    + destruct ts as [|x [|y [|]]]; try reflexivity. inversion IH as [|? ? I1 I2]; subst. inversion I2 as [|? ? I3 _]; subst. cbn [flat_map] in Hp, Hf.
      rewrite I1, I3; [reflexivity|..]; intros; (apply Hp || apply Hf); rewrite ?in_app_iff; cbn; rewrite ?in_app_iff; auto.
    + rewrite (ARGS ts IH); [|auto|intros; apply Hf; right; auto].
      match goal with |- match ?a with Ok _ => _ | Err _ => _ end = _ => destruct a; [|reflexivity] end. rewrite Hf by (left; auto). reflexivity.
  - intros c a b Hc Ha Hb Hp Hf. cbn [t_preds t_funs] in *. cbn [eval_term].
    rewrite Hc, Ha, Hb; [reflexivity|..]; intros; (apply Hp || apply Hf); rewrite !in_app_iff; auto.
  - reflexivity.
  - reflexivity.
  - intros p ts IH Hp Hf. cbn [f_preds f_funs] in *. destruct p as [b|n ss]; cbn [eval_f].
    + destruct ts as [|x [|y [|]]]; try reflexivity. rewrite (ARGS [x; y] IH); [reflexivity|intros; apply Hp; right; auto|auto].
    + rewrite (ARGS ts IH); [|intros; apply Hp; right; auto|auto]. match goal with |- match ?a with Ok _ => _ | Err _ => _ end = _ => destruct a; [|reflexivity] end.
      rewrite Hp by (left; auto). reflexivity.
  - intros c fs IH Hp Hf. cbn [f_preds f_funs] in *. destruct c; cbn [eval_f].
    + induction IH as [|g gs Hg _ IHs]; [reflexivity|]. cbn [flat_map] in Hp, Hf. rewrite IHs; [|intros; apply Hp; apply in_or_app; auto|intros; apply Hf; apply in_or_app; auto].
      rewrite Hg; [reflexivity|intros; apply Hp; apply in_or_app; auto|intros; apply Hf; apply in_or_app; auto].
    + induction IH as [|g gs Hg _ IHs]; [reflexivity|]. cbn [flat_map] in Hp, Hf. rewrite IHs; [|intros; apply Hp; apply in_or_app; auto|intros; apply Hf; apply in_or_app; auto].
      rewrite Hg; [reflexivity|intros; apply Hp; apply in_or_app; auto|intros; apply Hf; apply in_or_app; auto].
    + destruct fs as [|g gs]; [reflexivity|]. inversion IH; subst. cbn [flat_map] in Hp, Hf. rewrite H1; [reflexivity|intros; apply Hp; apply in_or_app; auto|intros; apply Hf; apply in_or_app; auto].
  - reflexivity.
Qed.
Lemma evaluate_local m m' t : (forall p pt, In p (t_preds t) -> m_holds m p pt = m_holds m' p pt) -> (forall f pt, In f (t_funs t) -> m_value m f pt = m_value m' f pt) -> evaluate_t m t = evaluate_t m' t.
Proof. intros Hp Hf. unfold evaluate_t. destruct t; try reflexivity; now apply eval_local. Qed.
