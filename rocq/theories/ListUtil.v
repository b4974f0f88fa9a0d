(** General facts about lists *)
From Coq Require Import List Lia Arith.
Import ListNotations.
Lemma NoDup_app_iff_simple {A} (a b : list A) : NoDup a -> NoDup b -> (forall x, In x a -> ~ In x b) -> NoDup (a ++ b).
Proof.
  induction a as [|x a IH]; cbn; intros Na Nb D; [auto|]. inversion Na; subst. constructor.
  - rewrite in_app_iff. intros [X|X]; [auto|]. eapply (D x); [left; reflexivity|exact X].
  - apply IH; auto.
Qed.
Lemma NoDup_app_r {A} (a b : list A) : NoDup (a ++ b) -> NoDup b.
Proof. induction a; cbn; auto. intros H. inversion H; auto. Qed.
Lemma NoDup_app_l {A} (a b : list A) : NoDup (a ++ b) -> NoDup a.
Proof. induction a; cbn; intros H; [constructor|]. inversion H; subst. constructor; auto. intros X. apply H2. apply in_or_app. auto. Qed.
Lemma NoDup_app_disj {A} (a b : list A) x : NoDup (a ++ b) -> In x a -> ~ In x b.
Proof. induction a; cbn; intros H X Y; [auto|]. inversion H; subst. destruct X as [->|X]; [apply H2; apply in_or_app; auto|]. apply IHa; auto. Qed.
Lemma flat_map_ext_in {A B} (f g : A -> list B) l : (forall a, In a l -> f a = g a) -> flat_map f l = flat_map g l.
Proof. induction l as [|a l IH]; cbn; intros H; [auto|]. rewrite (H a), IH; auto. Qed.
Lemma NoDup_flat_map {A B} (f : A -> list B) k : NoDup k -> (forall a, In a k -> NoDup (f a)) -> (forall a b x, In a k -> In b k -> In x (f a) -> In x (f b) -> a = b) -> NoDup (flat_map f k).
Proof.
  induction k as [|a k IH]; cbn; intros N H D; [constructor|]. inversion N; subst. apply NoDup_app_iff_simple; [auto|apply IH; auto; intros; eapply D; eauto|].
  intros x Hx Hy. apply in_flat_map in Hy as (b & Hb & Hy). assert (a = b) by (eapply D; eauto). subst. auto.
Qed.
Lemma NoDup_map_inj_in {A B} (f : A -> B) l : NoDup l -> (forall a b, In a l -> In b l -> f a = f b -> a = b) -> NoDup (map f l).
Proof.
  induction l as [|a l IH]; cbn; intros N H; [constructor|]. inversion N; subst. constructor; [|apply IH; auto].
  intros X. apply in_map_iff in X as (b & E & X). assert (b = a) by (apply H; auto). subst. auto.
Qed.
