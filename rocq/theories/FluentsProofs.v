(** Proofs about one pass of the fluent/static analysis *)
From Verif Require Import Base Syntax ListUtil Subst SubstProofs QElim Effects Represent Fluents FluentsSpec PropsFol2.

Lemma tref_eqb_eq a b : tref_eqb a b = true <-> a = b.
Proof.
  destruct a as [t|p ts], b as [u|q us]; cbn; try (split; [discriminate|discriminate]).
  - rewrite term_eqb_eq. split; [intros ->; auto|intros [= ->]; auto].
  - change (formula_eqb (Atom p ts) (Atom q us) = true <-> RP p ts = RP q us). rewrite formula_eqb_eq. split; intros E; inversion E; auto.
Qed.
Lemma tref_eqb_refl a : tref_eqb a a = true. Proof. now apply tref_eqb_eq. Qed.
Lemma rmem_In r l : rmem r l = true <-> In r l.
Proof. unfold rmem. rewrite existsb_exists. split; [intros (x & H & E); apply tref_eqb_eq in E; now subst|intros H; exists r; split; [auto|apply tref_eqb_refl]]. Qed.
Lemma rmem_not r l : rmem r l = false <-> ~ In r l.
Proof. rewrite <- rmem_In. destruct (rmem r l); split; intros; auto; try discriminate. destruct H; auto. Qed.
Lemma radd_In r x l : In r (radd x l) <-> In r l \/ r = x.
Proof. unfold radd. destruct (rmem x l) eqn:E. - apply rmem_In in E. split; [auto|intros [H| ->]; auto]. - rewrite in_app_iff. cbn. split; intros [H|H]; auto. destruct H as [->|[]]; auto. Qed.
Lemma radd_NoDup x l : NoDup l -> NoDup (radd x l).
Proof.
  unfold radd. destruct (rmem x l) eqn:E; [auto|]. apply rmem_not in E. intros H. apply NoDup_app_iff_simple; [auto|repeat constructor; auto|]. intros y H1 [<-|[]]. auto.
Qed.
Lemma fold_radd_In l : forall s r, In r (fold_left (fun fl r => radd r fl) l s) <-> In r s \/ In r l.
Proof. induction l as [|x l IH]; intros s r; cbn; [tauto|]. rewrite IH, radd_In. split; [intros [[H| ->]|H]; auto|intros [H|[<-|H]]; auto]. Qed.
Lemma fold_radd_NoDup l : forall s, NoDup s -> NoDup (fold_left (fun fl r => radd r fl) l s).
Proof. induction l as [|x l IH]; intros s H; cbn; [auto|]. apply IH. now apply radd_NoDup. Qed.
Lemma fold_In {A} (g : A -> list tref -> list tref) (P : A -> tref -> Prop) l : (forall x, In x l -> forall s r, In r (g x s) <-> In r s \/ P x r) ->
  forall s r, In r (fold_left (fun s x => g x s) l s) <-> In r s \/ exists x, In x l /\ P x r.
Proof.
  induction l as [|x l IH]; intros H s r; cbn [fold_left]; [split; [auto|intros [?|(x & [] & _)]; auto]|].
  rewrite IH by (intros; apply H; right; auto). rewrite (H x (or_introl eq_refl)). split.
  - intros [[?|?]|(y & Hy & ?)]; [auto|right; exists x; cbn; auto|right; exists y; cbn; auto].
  - intros [?|(y & [<-|Hy] & ?)]; [auto|auto|right; eauto].
Qed.
Lemma fold_inv {A B} (I : B -> Prop) (g : A -> B -> B) l : (forall x, In x l -> forall s, I s -> I (g x s)) -> forall s, I s -> I (fold_left (fun s x => g x s) l s).
Proof. induction l as [|x l IH]; intros H s Hs; cbn [fold_left]; [auto|]. apply IH; [intros; apply H; [right|]; auto|apply H; [left|]; auto]. Qed.

(** * Effects and preconditions *)
Lemma ev_term_In t : forall s r, In r (ev_term t s) <-> In r s \/ term_target t r.
Proof.
  induction t as [x o|c o|f ts IH|c a b _ _] using term_ind_simple; intros s r; cbn [ev_term]; try (split; [now auto|intros [?|H]; [now auto|now inversion H]]).
  destruct f as [b|n d cod]; cbn [f_builtin].
  - rewrite Forall_forall in IH. rewrite (fold_In ev_term term_target ts) by exact IH. split.
    + intros [?|(t & H1 & H2)]; [auto|right; econstructor; eauto].
    + intros [?|H]; [auto|]. inversion H; subst. right. eauto.
  - rewrite radd_In. split; [intros [?| ->]; [auto|right; constructor]|intros [?|H]; [auto|inversion H; auto]].
Qed.
Lemma ev_term_NoDup t : forall s, NoDup s -> NoDup (ev_term t s).
Proof.
  induction t as [x o|c o|f ts IH|c a b _ _] using term_ind_simple; intros s H; cbn [ev_term]; auto. destruct (f_builtin f); [|now apply radd_NoDup].
  rewrite Forall_forall in IH. now apply fold_inv.
Qed.
Lemma ev_formula_In f : forall s r, In r (ev_formula f s) <-> In r s \/ formula_target f r.
Proof.
  induction f as [| |p ts|k fs IH|q vs f IH] using formula_ind_simple; intros s r; cbn [ev_formula]; try (split; [now auto|intros [?|H]; [now auto|now inversion H]]).
  - destruct p as [b|n ss]; cbn [p_builtin].
    + rewrite (fold_In ev_term term_target ts) by (intros; apply ev_term_In). split.
      * intros [?|(t & H1 & H2)]; [auto|right; econstructor; eauto].
      * intros [?|H]; [auto|]. inversion H; subst. right. eauto.
    + rewrite radd_In. split; [intros [?| ->]; [auto|right; constructor]|intros [?|H]; [auto|inversion H; auto]].
  - rewrite Forall_forall in IH. rewrite (fold_In ev_formula formula_target fs) by exact IH. split.
    + intros [?|(t & H1 & H2)]; [auto|right; econstructor; eauto].
    + intros [?|H]; [auto|]. inversion H; subst. right. eauto.
  - rewrite IH. split; (intros [?|H]; [auto|right]); [constructor; auto|inversion H; auto].
Qed.
Lemma ev_formula_NoDup f : forall s, NoDup s -> NoDup (ev_formula f s).
Proof.
  induction f as [| |p ts|k fs IH|q vs f IH] using formula_ind_simple; intros s H; cbn [ev_formula]; auto.
  - destruct (p_builtin p); [|now apply radd_NoDup]. apply fold_inv; [|auto]. intros. now apply ev_term_NoDup.
  - rewrite Forall_forall in IH. now apply fold_inv.
Qed.
Lemma pv_formula_In f : forall s r, In r (pv_formula f s) <-> In r s \/ atom_of f r.
Proof.
  induction f as [| |p ts|k fs IH|q vs f IH] using formula_ind_simple; intros s r; cbn [pv_formula]; try (split; [now auto|intros [?|H]; [now auto|now inversion H]]).
  - rewrite radd_In. split; [intros [?| ->]; [auto|right; constructor]|intros [?|H]; [auto|inversion H; auto]].
  - rewrite Forall_forall in IH. rewrite (fold_In pv_formula atom_of fs) by exact IH. split.
    + intros [?|(t & H1 & H2)]; [auto|right; econstructor; eauto].
    + intros [?|H]; [auto|]. inversion H; subst. right. eauto.
  - rewrite IH. split; (intros [?|H]; [auto|right]); [constructor; auto|inversion H; auto].
Qed.
Lemma pv_formula_NoDup f : forall s, NoDup s -> NoDup (pv_formula f s).
Proof.
  induction f as [| |p ts|k fs IH|q vs f IH] using formula_ind_simple; intros s H; cbn [pv_formula]; auto.
  - now apply radd_NoDup.
  - rewrite Forall_forall in IH. now apply fold_inv.
Qed.

(** * Constraints *)
Section CformInd.
  Variable P : cform -> Prop.
  Hypotheses (H1 : P KTop) (H2 : P KBot) (H3 : forall p ts, P (KAtom p ts)) (H4 : forall k fs, Forall P fs -> P (KComp k fs)) (H5 : forall f, P f -> P (KNext f))
             (H6 : forall q vs f, P f -> P (KQuant q vs f)).
  Fixpoint cform_ind_nested (f : cform) : P f :=
    match f with
    | KTop => H1 | KBot => H2 | KAtom p ts => H3 p ts | KNext g => H5 g (cform_ind_nested g) | KQuant q vs g => H6 q vs g (cform_ind_nested g)
    | KComp k fs => H4 k fs ((fix go fs : Forall P fs := match fs with [] => Forall_nil P | x :: xs => Forall_cons x (cform_ind_nested x) (go xs) end) fs)
    end.
End CformInd.
Definition nob (s : vstate) : Prop := NoDup (v_fl s) /\ NoDup (v_st s) /\ NoDup (v_vis s).
(** What visiting an expression with the occurrences [O] adds, all of them at the same "next" level *)
Definition gains (un : bool) (O : tref -> Prop) (s s' : vstate) : Prop :=
  (forall r, In r (v_fl s') <-> In r (v_fl s) \/ (un = true /\ O r /\ ~ ref_builtin r)) /\
  (forall r, In r (v_st s') <-> In r (v_st s) \/ (un = false /\ O r)) /\
  (forall r, In r (v_vis s') <-> In r (v_vis s) \/ (O r /\ ~ ref_builtin r)).
Lemma gains_trans un O O' a b c : gains un O a b -> gains un O' b c -> gains un (fun r => O r \/ O' r) a c.
Proof. intros (A1 & A2 & A3) (B1 & B2 & B3). split; [|split]; intros r; [rewrite B1, A1|rewrite B2, A2|rewrite B3, A3]; tauto. Qed.
Lemma gains_ext un O O' a b : (forall r, O r <-> O' r) -> gains un O a b -> gains un O' a b.
Proof. intros E (A1 & A2 & A3). split; [|split]; intros r; [rewrite A1|rewrite A2|rewrite A3]; rewrite E; tauto. Qed.
Lemma fold_gains {A} un (g : A -> vstate -> vstate) (P : A -> tref -> Prop) l : (forall x, In x l -> forall s, gains un (P x) s (g x s)) ->
  forall s, gains un (fun r => exists x, In x l /\ P x r) s (fold_left (fun s x => g x s) l s).
Proof.
  induction l as [|x l IH]; intros H s; cbn [fold_left].
  - split; [|split]; intros r; (split; [auto|intros [?|K]; [auto|]]); [destruct K as (_ & (y & [] & _) & _)|destruct K as (_ & (y & [] & _))|destruct K as ((y & [] & _) & _)].
  - eapply gains_ext; [|eapply gains_trans; [apply (H x); left; auto|apply IH; intros; apply H; right; auto]]. intros r. cbn. split.
    + intros [?|(y & Hy & ?)]; [exists x; auto|exists y; auto].
    + intros (y & [<-|Hy] & ?); [auto|right; eauto].
Qed.
Lemma note_gains un bi x s : (bi = true <-> ref_builtin x) -> gains un (fun r => r = x) s (v_note un bi x s).
Proof.
  intros E. split; [|split]; intros r; cbn [v_note v_fl v_st v_vis].
  - destruct un; cbn [andb]; [|split; [auto|intros [?|(? & _)]; [auto|discriminate]]]. destruct bi; cbn [negb].
    + split; [auto|]. intros [?|(_ & -> & N)]; [auto|destruct N; now apply E].
    + rewrite radd_In. split; [intros [?| ->]; [auto|right; split; [auto|split; [auto|intros K; apply E in K; discriminate]]]|intros [?|(_ & -> & _)]; auto].
  - destruct un; [split; [auto|intros [?|(? & _)]; [auto|discriminate]]|]. rewrite radd_In. split; [intros [?| ->]; auto|intros [?|(_ & ->)]; auto].
  - destruct bi.
    + split; [auto|]. intros [?|(-> & N)]; [auto|destruct N; now apply E].
    + rewrite radd_In. split; [intros [?| ->]; [auto|right; split; [auto|intros K; apply E in K; discriminate]]|intros [?|(-> & _)]; auto].
Qed.
Lemma note_nob un bi x s : nob s -> nob (v_note un bi x s).
Proof. intros (A & B & C). split; [|split]; cbn [v_note v_fl v_st v_vis]; [destruct (un && negb bi)|destruct un|destruct bi]; auto using radd_NoDup. Qed.
Lemma cv_term_gains un t : forall s, gains un (occurs_t t) s (cv_term un t s).
Proof.
  induction t as [x o|c o|f ts IH|c a b _ _] using term_ind_simple; intros s; cbn [cv_term].
  1,2,4: split; [|split]; intros r; (split; [auto|intros [?|K]; [auto|]]); [destruct K as (_ & K & _)|destruct K as (_ & K)|destruct K as (K & _)]; inversion K.
  rewrite Forall_forall in IH. eapply gains_ext; [|eapply gains_trans; [apply note_gains|apply fold_gains, IH]].
  - intros r. cbn. split.
    + intros [->|(t & H1 & H2)]; [constructor|econstructor; eauto].
    + intros H. inversion H; subst; [auto|right; eauto].
  - destruct f; cbn; split; auto; try discriminate; intros [].
Qed.
Lemma cv_term_nob un t : forall s, nob s -> nob (cv_term un t s).
Proof. induction t as [x o|c o|f ts IH|c a b _ _] using term_ind_simple; intros s H; cbn [cv_term]; auto. rewrite Forall_forall in IH. apply fold_inv; [auto|now apply note_nob]. Qed.
Lemma cv_atom_gains un p ts s : gains un (occurs (KAtom p ts) false) s (cv_formula un (KAtom p ts) s).
Proof.
  cbn [cv_formula]. eapply gains_ext; [|eapply gains_trans; [apply note_gains|apply (fold_gains un (cv_term un) occurs_t ts); intros; apply cv_term_gains]].
  - intros r. cbn. split.
    + intros [->|(t & H1 & H2)]; [constructor|econstructor; eauto].
    + intros H. inversion H; subst; [auto|right; eauto].
  - destruct p; cbn; split; auto; try discriminate; intros [].
Qed.
Definition refs (f : cform) (r : tref) : Prop := (exists b, occurs f b r) /\ ~ ref_builtin r.
(** One visit: [s] before, [s'] after *)
Record visits (un : bool) (f : cform) (s s' : vstate) : Prop := {
  vi_vis : forall r, In r (v_vis s') <-> In r (v_vis s) \/ refs f r;
  vi_st : forall r, In r (v_st s') <-> In r (v_st s) \/ (un = false /\ occurs f false r);
  vi_mono : forall r, In r (v_fl s) -> In r (v_fl s');
  vi_next : forall r b, occurs f b r -> un || b = true -> ~ ref_builtin r -> In r (v_fl s');
  vi_sound : forall X : tref -> Prop, (forall r, In r (v_fl s) -> X r) -> (forall r b, occurs f b r -> un || b = true -> ~ ref_builtin r -> X r) ->
    (forall k fs r r', subformula (KComp k fs) f -> refs (KComp k fs) r -> X r -> refs (KComp k fs) r' -> X r') -> forall r, In r (v_fl s') -> X r;
  vi_nob : nob s -> nob s' }.
Lemma refs_sub g f : subformula g f -> forall r, refs g r -> refs f r.
Proof.
  intros H r ((b & Ho) & N). split; [|auto]. revert b Ho. induction H; intros b Ho; [eauto| | |]; destruct (IHsubformula b Ho) as (b' & Hb).
  - exists b'. econstructor; eauto.
  - exists b'. constructor; auto.
  - exists true. econstructor; eauto.
Qed.
Lemma atom_visits un p ts s : visits un (KAtom p ts) s (cv_formula un (KAtom p ts) s).
Proof.
  destruct (cv_atom_gains un p ts s) as (A & B & C).
  assert (Z : forall b r, occurs (KAtom p ts) b r -> b = false /\ occurs (KAtom p ts) false r) by (intros b r H; inversion H; subst; split; auto).
  split.
  - intros r. rewrite C. unfold refs. split; (intros [?|[H N]]; [auto|right; split; [|auto]]); [eauto|destruct H as (b & Hb); apply Z in Hb; tauto].
  - exact B.
  - intros r H. apply A. auto.
  - intros r b H E N. apply A. apply Z in H as [-> H]. rewrite orb_false_r in E. auto.
  - intros X H1 H2 _ r H. apply A in H as [H|(-> & H & N)]; [auto|]. now apply (H2 r false).
  - cbn [cv_formula]. intros H. apply fold_inv; [intros; now apply cv_term_nob|now apply note_nob].
Qed.
Lemma fold_visits un k fs : (forall f, In f fs -> forall s, visits un f s (cv_formula un f s)) -> forall s, let s' := fold_left (fun s f => cv_formula un f s) fs s in
  (forall r, In r (v_vis s') <-> In r (v_vis s) \/ refs (KComp k fs) r) /\ (forall r, In r (v_st s') <-> In r (v_st s) \/ (un = false /\ occurs (KComp k fs) false r)) /\
  (forall r, In r (v_fl s) -> In r (v_fl s')) /\ (forall r b, occurs (KComp k fs) b r -> un || b = true -> ~ ref_builtin r -> In r (v_fl s')) /\
  (forall X : tref -> Prop, (forall r, In r (v_fl s) -> X r) -> (forall r b, occurs (KComp k fs) b r -> un || b = true -> ~ ref_builtin r -> X r) ->
    (forall f k' gs r r', In f fs -> subformula (KComp k' gs) f -> refs (KComp k' gs) r -> X r -> refs (KComp k' gs) r' -> X r') -> forall r, In r (v_fl s') -> X r) /\ (nob s -> nob s').
Proof.
  assert (Q : forall f gs b r, occurs (KComp k (f :: gs)) b r <-> occurs f b r \/ occurs (KComp k gs) b r).
  { intros f gs b r. split; [intros H; inversion H; subst; match goal with K : In _ (_ :: _) |- _ => destruct K as [<-|K] end; [auto|right; econstructor; eauto]|intros [H|H]; [econstructor; [left; reflexivity|auto]|inversion H; subst; econstructor; [right; eauto|auto]]]. }
  assert (Q' : forall f gs r, refs (KComp k (f :: gs)) r <-> refs f r \/ refs (KComp k gs) r).
  { intros f gs r. unfold refs. split; [intros ((b & H) & N); apply Q in H as [H|H]; [left|right]; split; eauto|intros [((b & H) & N)|((b & H) & N)]; (split; [exists b; apply Q; auto|auto])]. }
  induction fs as [|f fs IH]; intros H s; cbn [fold_left].
  - assert (Z : forall b r, ~ occurs (KComp k []) b r) by (intros b r K; inversion K; subst; match goal with K : In _ [] |- _ => destruct K end). cbn zeta. split; [|split; [|split; [auto|split; [|split; [|auto]]]]].
    + intros r. split; [auto|]. intros [?|((b & K) & _)]; [auto|destruct (Z b r K)].
    + intros r. split; [auto|]. intros [?|(_ & K)]; [auto|destruct (Z _ _ K)].
    + intros r b K. destruct (Z b r K).
    + auto.
  - specialize (IH ltac:(intros; apply H; right; auto) (cv_formula un f s)). cbn zeta in IH. set (s1 := cv_formula un f s) in *. assert (V := H f (or_introl eq_refl) s). fold s1 in V.
    set (s' := fold_left _ fs s1) in *. cbn zeta. destruct IH as (I1 & I2 & I3 & I4 & I5 & I6). destruct V as [V1 V2 V3 V4 V5 V6]. split; [|split; [|split; [|split; [|split]]]].
    + intros r. rewrite I1, V1, Q'. tauto.
    + intros r. rewrite I2, V2, Q. tauto.
    + auto.
    + intros r b Ho E N. apply Q in Ho as [Ho|Ho]; eauto.
    + intros X X1 X2 X3 r Hr. apply (I5 X); [|intros; eapply X2; eauto; apply Q; auto|intros g k' gs a b Hg; apply (X3 g); right; auto|exact Hr].
      intros a Ha. apply (V5 X); [auto|intros; eapply X2; eauto; apply Q; auto|intros k' gs x y; apply (X3 f); left; auto|exact Ha].
    + auto.
Qed.
Lemma cv_visits f : forall un s, visits un f s (cv_formula un f s).
Proof.
  induction f as [| |p ts|k fs IH|f IH|q vs f IH] using cform_ind_nested; intros un s.
  1,2: (split; [intros r; split; [auto|intros [?|((b & K) & _)]; [auto|inversion K]]|intros r; split; [auto|intros [?|(_ & K)]; [auto|inversion K]]|auto|intros r b K; inversion K|intros X K1 _ _; exact K1|auto]).
  - apply atom_visits.
  - rewrite Forall_forall in IH. destruct (fold_visits un k fs (fun f Hf s => IH f Hf un s) s) as (A & B & C & D & E & F). cbn zeta in *. cbn [cv_formula]. cbn zeta. set (s' := fold_left _ fs s) in *.
    set (delta := filter _ (v_vis s')). assert (Hd : forall r, In r delta <-> refs (KComp k fs) r /\ ~ In r (v_vis s)).
    { intros r. unfold delta. rewrite filter_In, A, negb_true_iff, rmem_not. tauto. }
    assert (S : forall X : tref -> Prop, (forall r, In r (v_fl s) -> X r) -> (forall r b, occurs (KComp k fs) b r -> un || b = true -> ~ ref_builtin r -> X r) ->
      (forall k' gs r r', subformula (KComp k' gs) (KComp k fs) -> refs (KComp k' gs) r -> X r -> refs (KComp k' gs) r' -> X r') -> forall r, In r (v_fl s') -> X r).
    { intros X X1 X2 X3. apply E; auto. intros g k' gs r r' Hg Hs. apply X3. econstructor; eauto. }
    destruct (existsb _ delta) eqn:Eb; [|split; auto]. apply existsb_exists in Eb as (x & Hx & Ex). apply rmem_In in Ex. apply Hd in Hx as [Hx _].
    split; cbn [v_fl v_st v_vis]; auto.
    + intros r H. apply fold_radd_In. auto.
    + intros r b Ho Eu N. apply fold_radd_In. left. eauto.
    + intros X X1 X2 X3 r Hr. apply fold_radd_In in Hr as [Hr|Hr]; [eapply S; eauto|]. apply Hd in Hr as [Hr _]. apply (X3 k fs x r); auto; [constructor|]. eapply S; eauto.
    + intros Hn. destruct (F Hn) as (F1 & F2 & F3). split; [|split]; auto. now apply fold_radd_NoDup.
  - cbn [cv_formula]. destruct (IH true s) as [V1 V2 V3 V4 V5 V6]. split; auto.
    + intros r. rewrite V1. unfold refs. split; (intros [?|((b & H) & N)]; [auto|right; split; [|auto]]); [exists true; econstructor; eauto|inversion H; subst; eauto].
    + intros r. rewrite V2. split; (intros [?|(H & K)]; [auto|right]); [discriminate|inversion K].
    + intros r b H E N. inversion H; subst. eapply V4; eauto.
    + intros X X1 X2 X3. apply V5; [auto|intros r b H _ N; apply (X2 r true); [econstructor; eauto|apply orb_true_r|auto]|]. intros k fs r r' Hs. apply X3. now constructor.
  - cbn [cv_formula]. destruct (IH un s) as [V1 V2 V3 V4 V5 V6]. split; auto.
    + intros r. rewrite V1. unfold refs. split; (intros [?|((b & H) & N)]; [auto|right; split; [|auto]]); [exists b; constructor; auto|inversion H; subst; eauto].
    + intros r. rewrite V2. split; (intros [?|(H & K)]; [auto|right; split; [auto|]]); [constructor; auto|inversion K; auto].
    + intros r b H E N. inversion H; subst. eapply V4; eauto.
    + intros X X1 X2 X3. apply V5; [auto|intros r b H Eu N; apply (X2 r b); [econstructor; eauto|auto|auto]|]. intros k fs r r' Hs. apply X3. now constructor.
Qed.
(** With no reference visited before: the terms combined by a connective are fluent together. *)
Lemma cv_complete f : forall un s, v_vis s = [] -> forall k fs r r', subformula (KComp k fs) f -> refs (KComp k fs) r -> In r (v_fl (cv_formula un f s)) -> refs (KComp k fs) r' -> In r' (v_fl (cv_formula un f s)).
Proof.
  induction f as [| |p ts|k fs IH|f IH|q vs f IH] using cform_ind_nested; intros un s Hv k' gs r r' Hs Hr Hin Hr'; try (inversion Hs; fail).
  - assert (R := refs_sub _ _ Hs r Hr). assert (R' := refs_sub _ _ Hs r' Hr'). clear IH Hs Hr Hr'.
    assert (V := fold_visits un k fs (fun f Hf s => cv_visits f un s) s). cbn zeta in V. destruct V as (A & _). revert Hin. cbn [cv_formula]. cbn zeta. set (s' := fold_left _ fs s) in *. rewrite Hv.
    assert (Hd : forall x, refs (KComp k fs) x -> In x (filter (fun r => negb (rmem r [])) (v_vis s'))) by (intros x Hx; apply filter_In; split; [apply A; auto|reflexivity]).
    destruct (existsb _ _) eqn:Eb; cbn [v_fl].
    + intros _. apply fold_radd_In. right. auto.
    + intros Hin. exfalso. assert (T : existsb (fun r => rmem r (v_fl s')) (filter (fun r => negb (rmem r [])) (v_vis s')) = true) by (apply existsb_exists; exists r; split; [auto|now apply rmem_In]). rewrite T in Eb. discriminate.
  - cbn [cv_formula] in *. inversion Hs; subst. eapply IH; eauto.
  - cbn [cv_formula] in *. inversion Hs; subst. eapply IH; eauto.
Qed.
Lemma cv_within f un s r : In r (v_fl (cv_formula un f s)) -> In r (v_fl s) \/ refs f r.
Proof.
  intros H. apply (vi_sound _ _ _ _ (cv_visits f un s) (fun r => In r (v_fl s) \/ refs f r)); [auto|intros x b Ho _ N; right; split; eauto| |auto].
  intros k fs x x' Hs _ _ Hx. right. eapply refs_sub; eauto.
Qed.
(** With no reference visited before and what is under "next" already fluent: a visit that adds a fluent makes all the references of the constraint fluent. *)
Lemma cv_full f : forall un s, v_vis s = [] -> (forall r b, occurs f b r -> un || b = true -> ~ ref_builtin r -> In r (v_fl s)) ->
  forall x, In x (v_fl (cv_formula un f s)) -> ~ In x (v_fl s) -> forall r, refs f r -> In r (v_fl (cv_formula un f s)).
Proof.
  intros un s Hv Hn x Hx Nx. assert (Rx : refs f x) by (apply cv_within in Hx as [?|?]; tauto).
  assert (W : forall r, refs f r -> un = true -> In r (v_fl s)) by (intros r ((b & Ho) & N) ->; eapply Hn; eauto).
  revert un s Hv Hn Hx Nx Rx W. induction f as [| |p ts|k fs IH|f IH|q vs f IH] using cform_ind_nested; intros un s Hv Hn Hx Nx Rx W r Hr.
  1,2: destruct Hr as ((b & Ho) & _); inversion Ho.
  - exfalso. destruct (cv_atom_gains un p ts s) as (A & _). apply A in Hx as [Hx|(-> & _)]; [auto|]. apply Nx, W; auto.
  - eapply (cv_complete (KComp k fs) un s Hv k fs x r); auto; constructor.
  - exfalso. apply Nx. destruct Rx as ((b & Ho) & N). inversion Ho; subst. apply (Hn x true); auto. apply orb_true_r.
  - assert (G : forall r, refs (KQuant q vs f) r <-> refs f r).
    { intros y. unfold refs. split; intros ((b & H) & N); (split; [|auto]); [inversion H; subst; eauto|exists b; constructor; auto]. }
    cbn [cv_formula] in *. apply IH; auto.
    + intros y b Ho. apply Hn. constructor; auto.
    + now apply G.
    + intros y Hy. apply W. now apply G.
    + now apply G.
Qed.
