(** General lemmas about lists, results and the semantics. *)
From Verif Require Import Base Syntax Semantics.

Lemma mapM_Forall2 {A B} (f : A -> res B) l l' :
  mapM f l = Ok l' <-> Forall2 (fun x y => f x = Ok y) l l'.
Proof.
  revert l'; induction l as [|x l IH]; intros l'; simpl.
  - split; [intros H; inversion H; constructor | intros H; inversion H; reflexivity].
  - destruct (f x) as [y|e] eqn:Hx.
    + destruct (mapM f l) as [ys|e] eqn:Hl.
      * split.
        -- intros H; inversion H; subst. constructor; [exact Hx | apply IH; reflexivity].
        -- intros H; inversion H as [|a b c d H1 H2]; subst.
           apply IH in H2. rewrite Hx in H1. congruence.
      * split; [discriminate|]. intros H; inversion H as [|a b c d H1 H2]; subst.
        apply IH in H2. discriminate.
    + split; [discriminate|]. intros H; inversion H; subst. congruence.
Qed.

Lemma mapM_total {A B} (f : A -> res B) l :
  (forall x, In x l -> exists y, f x = Ok y) -> exists l', mapM f l = Ok l'.
Proof.
  induction l as [|x l IH]; intros H; simpl; [eexists; reflexivity|].
  destruct (H x) as [y Hy]; [now left|]. rewrite Hy.
  destruct IH as [l' Hl']; [intros z Hz; apply H; now right|]. rewrite Hl'. eexists; reflexivity.
Qed.

Lemma mapM_err {A B} (f : A -> res B) l e :
  mapM f l = Err e -> exists x, In x l /\ f x = Err e.
Proof.
  induction l as [|x l IH]; simpl; [discriminate|].
  destruct (f x) as [y|e'] eqn:Hx.
  - destruct (mapM f l) eqn:Hl; [discriminate|]. intros H; inversion H; subst.
    destruct (IH eq_refl) as (z & Hz & Hfz). exists z; auto.
  - intros H; inversion H; subst. exists x; auto.
Qed.

Lemma mapM_length {A B} (f : A -> res B) l l' : mapM f l = Ok l' -> List.length l' = List.length l.
Proof. intros H. apply mapM_Forall2 in H. induction H; simpl; auto. Qed.

Lemma mapM_id {A} (f : A -> res A) l : Forall (fun x => f x = Ok x) l -> mapM f l = Ok l.
Proof. induction 1 as [|x l Hx _ IH]; simpl; [reflexivity|]. now rewrite Hx, IH. Qed.

Lemma var_eqb_eq x y : var_eqb x y = true <-> x = y.
Proof.
  unfold var_eqb. destruct x as [x s], y as [y r]; simpl.
  rewrite andb_true_iff, !String.eqb_eq. split; [intros [-> ->]; reflexivity | intros H; inversion H; auto].
Qed.
Lemma var_eqb_refl x : var_eqb x x = true. Proof. now apply var_eqb_eq. Qed.
Lemma var_eqb_neq x y : var_eqb x y = false <-> x <> y.
Proof. rewrite <- var_eqb_eq. destruct (var_eqb x y); split; congruence. Qed.

Lemma forallb_ext_in {A} (f g : A -> bool) l : (forall x, In x l -> f x = g x) -> forallb f l = forallb g l.
Proof. induction l as [|x l IH]; simpl; intros H; [reflexivity|]. rewrite H, IH; auto. Qed.
Lemma existsb_ext_in {A} (f g : A -> bool) l : (forall x, In x l -> f x = g x) -> existsb f l = existsb g l.
Proof. induction l as [|x l IH]; simpl; intros H; [reflexivity|]. rewrite H, IH; auto. Qed.

Lemma existsb_negb {A} (f : A -> bool) l : existsb (fun x => negb (f x)) l = negb (forallb f l).
Proof. induction l as [|x l IH]; simpl; [reflexivity|]. rewrite IH. now destruct (f x). Qed.
Lemma forallb_negb {A} (f : A -> bool) l : forallb (fun x => negb (f x)) l = negb (existsb f l).
Proof. induction l as [|x l IH]; simpl; [reflexivity|]. rewrite IH. now destruct (f x). Qed.

Lemma forallb_Forall2 {A B} (f : A -> bool) (g : B -> bool) l l' :
  Forall2 (fun x y => g y = f x) l l' -> forallb g l' = forallb f l.
Proof. induction 1 as [|x y l l' H _ IH]; simpl; [reflexivity|]. now rewrite H, IH. Qed.
Lemma existsb_Forall2 {A B} (f : A -> bool) (g : B -> bool) l l' :
  Forall2 (fun x y => g y = f x) l l' -> existsb g l' = existsb f l.
Proof. induction 1 as [|x y l l' H _ IH]; simpl; [reflexivity|]. now rewrite H, IH. Qed.

Lemma Forall2_impl_In {A B} (R S : A -> B -> Prop) l l' :
  (forall x y, In x l -> In y l' -> R x y -> S x y) -> Forall2 R l l' -> Forall2 S l l'.
Proof.
  intros H HR. induction HR as [|x y l l' Hxy _ IH]; constructor.
  - apply H; auto; now left.
  - apply IH. intros; apply H; auto; now right.
Qed.
Lemma Forall2_In_l {A B} (R : A -> B -> Prop) l l' x : Forall2 R l l' -> In x l -> exists y, In y l' /\ R x y.
Proof.
  induction 1 as [|a b l l' Hab _ IH]; simpl; [tauto|].
  intros [->|H]; [eauto|]. destruct (IH H) as (y & ? & ?); eauto.
Qed.
Lemma Forall2_In_r {A B} (R : A -> B -> Prop) l l' y : Forall2 R l l' -> In y l' -> exists x, In x l /\ R x y.
Proof.
  induction 1 as [|a b l l' Hab _ IH]; simpl; [tauto|].
  intros [->|H]; [eauto|]. destruct (IH H) as (x & ? & ?); eauto.
Qed.

(** [qsem] depends only on the values of [k] on equal assignments. *)
Definition env_eq {M} (e e' : env M) : Prop := forall x, e x = e' x.
Lemma env_eq_refl {M} (e : env M) : env_eq e e. Proof. intros x; reflexivity. Qed.
Lemma upd_env_eq {M} (e e' : env M) x d : env_eq e e' -> env_eq (upd e x d) (upd e' x d).
Proof. intros H y. unfold upd. destruct (var_eqb x y); auto. Qed.

Lemma qsem_ext M q vs (k k' : env M -> bool) e e' :
  (forall a b, env_eq a b -> k a = k' b) -> env_eq e e' -> qsem M q vs k e = qsem M q vs k' e'.
Proof.
  intros Hk. revert e e'. induction vs as [|v vs IH]; intros e e' He; simpl; [auto|].
  destruct v; auto. destruct q; [apply existsb_ext_in | apply forallb_ext_in]; intros d _; apply IH; now apply upd_env_eq.
Qed.

Lemma sem_ext M :
  (forall t e e', env_eq e e' -> tsem M t e = tsem M t e') /\
  (forall f e e', env_eq e e' -> fsem M f e = fsem M f e').
Proof.
  apply syntax_ind; intros; simpl; auto.
  - f_equal. apply map_ext_in. rewrite Forall_forall in H. intros; eauto.
  - rewrite (H _ _ H2), (H0 _ _ H2), (H1 _ _ H2). reflexivity.
  - f_equal. apply map_ext_in. rewrite Forall_forall in H. intros; eauto.
  - rewrite Forall_forall in H. destruct c.
    + apply forallb_ext_in; intros; eauto.
    + apply existsb_ext_in; intros; eauto.
    + destruct fs as [|g [|g' fs]]; auto. f_equal. apply H; [now left|auto].
  - apply qsem_ext; auto.
Qed.
Definition tsem_ext M := proj1 (sem_ext M).
Definition fsem_ext M := proj2 (sem_ext M).

Lemma qsem_dual M q vs k e :
  qsem M (match q with QEx => QAll | QAll => QEx end) vs (fun x => negb (k x)) e = negb (qsem M q vs k e).
Proof.
  revert e; induction vs as [|v vs IH]; intros e; simpl; [reflexivity|].
  destruct v; auto. destruct q; simpl in *.
  - rewrite <- forallb_negb. apply forallb_ext_in; intros; apply IH.
  - rewrite <- existsb_negb. apply existsb_ext_in; intros; apply IH.
Qed.
