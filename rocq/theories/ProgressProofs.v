From Verif Require Import ListUtil Base Syntax SemLemmas ModelState ModelProofs Eval Subst QElim Effects ProgressSpec StateLemmas SubstProofs.
From Coq Require Import Permutation.

Lemma FOP_perm {A} (R : A -> A -> Prop) l l' : (forall a b, R a b -> R b a) -> Permutation l l' -> ForallOrdPairs R l -> ForallOrdPairs R l'.
Proof.
  intros S. induction 1 as [|x l l' P IH|x y l|l l' l'' P1 IH1 P2 IH2]; intros H.
  - constructor.
  - inversion H; subst. constructor; [|auto]. eapply Permutation_Forall; eauto.
  - inversion H as [|? ? F1 H1]; subst. inversion H1 as [|? ? F2 H2]; subst. inversion F1; subst. constructor; [constructor; [apply S; auto|auto]|]. constructor; auto.
  - auto.
Qed.
Lemma FOP_impl {A} (R R' : A -> A -> Prop) l : (forall a b, R a b -> R' a b) -> ForallOrdPairs R l -> ForallOrdPairs R' l.
Proof. intros I. induction 1; constructor; auto. eapply Forall_impl; [|eauto]. auto. Qed.
Lemma independent_perm l l' : Permutation l l' -> independent l -> independent l'.
Proof. apply FOP_perm. tauto. Qed.
Lemma filter_perm {A} (f : A -> bool) l : Permutation l (filter f l ++ filter (fun x => negb (f x)) l).
Proof.
  induction l as [|x l IH]; cbn; [constructor|]. destruct (f x); cbn; [constructor; auto|]. apply Permutation_cons_app. auto.
Qed.
Lemma run_with_app f l1 l2 m : run_with f (l1 ++ l2) m = (let! m' := run_with f l1 m in run_with f l2 m').
Proof. revert m. induction l1 as [|e l1 IH]; intros m; [reflexivity|]. cbn [app run_with]. destruct (f m e) as [m1|]; cbn [bind]; auto. Qed.

Section P.
Variables (D : domains) (sub : sort -> sort -> bool).
Notation apply := (apply_effect D sub).
Notation run := (run_effects D sub).

Definition agree (m m0 : model) (e : effect) : Prop :=
  (forall p pt, In p (reads_p e) -> m_holds m0 p pt = m_holds m p pt) /\ (forall f pt, In f (reads_f e) -> m_value m0 f pt = m_value m f pt).
Lemma agree_cond m m0 e : agree m m0 e -> eval_f m0 (econd e) = eval_f m (econd e).
Proof.
  intros [Hp Hf]. apply eval_local; intros; [apply Hp|apply Hf]; destruct e; cbn [reads_p reads_f econd] in *; auto; apply in_or_app; auto.
Qed.
Lemma agree_rhs m m0 i c l r : agree m m0 (EFun i c l r) -> evaluate_t m0 r = evaluate_t m r.
Proof. intros [Hp Hf]. apply evaluate_local; intros; [apply Hp|apply Hf]; cbn [reads_p reads_f] in *; apply in_or_app; auto. Qed.

Lemma adds_cons m e l p pt : adds m (e :: l) p pt <-> adds m [e] p pt \/ adds m l p pt.
Proof. unfold adds. cbn [In]. split; [intros (c & [H|H] & E); eauto 6|]. intros [(c & [H|[]] & E)|(c & H & E)]; eauto. Qed.
Lemma dels_cons m e l p pt : dels m (e :: l) p pt <-> dels m [e] p pt \/ dels m l p pt.
Proof. unfold dels. cbn [In]. split; [intros (c & [H|H] & E); eauto 6|]. intros [(c & [H|[]] & E)|(c & H & E)]; eauto. Qed.
Lemma assigns_cons m e l p pt v : assigns m (e :: l) p pt v <-> assigns m [e] p pt v \/ assigns m l p pt v.
Proof. unfold assigns. cbn [In]. split; [intros (i & c & r & [H|H] & E); eauto 9|]. intros [(i & c & r & [H|[]] & E)|(i & c & r & H & E)]; eauto 9. Qed.
Lemma adds_perm m l l' p pt : Permutation l l' -> adds m l p pt -> adds m l' p pt.
Proof. intros P (c & H & E). exists c. split; [eapply Permutation_in; eauto|auto]. Qed.
Lemma dels_perm m l l' p pt : Permutation l l' -> dels m l p pt -> dels m l' p pt.
Proof. intros P (c & H & E). exists c. split; [eapply Permutation_in; eauto|auto]. Qed.
Lemma assigns_perm m l l' p pt v : Permutation l l' -> assigns m l p pt v -> assigns m l' p pt v.
Proof. intros P (i & c & r & H & E). exists i, c, r. split; [eapply Permutation_in; eauto|auto]. Qed.
Lemma cond_true_dec (m : model) c : {eval_f m c = Ok true} + {eval_f m c <> Ok true}.
Proof. destruct (eval_f m c) as [[|]|]; [left|right|right]; congruence. Qed.
Lemma adds_dec m l p pt : adds m l p pt \/ ~ adds m l p pt.
Proof.
  induction l as [|e l IH]; [right; intros (c & [] & _)|]. rewrite adds_cons. destruct IH as [H|H]; [auto|].
  assert (X : adds m [e] p pt \/ ~ adds m [e] p pt).
  { destruct e as [c a| | | | |]; try (right; intros (c0 & [X|[]] & _); discriminate). destruct (cond_true_dec m c) as [E|E].
    - destruct (formula_eqb a (Atom p pt)) eqn:Ea.
      + apply formula_eqb_eq in Ea as ->. left. exists c. split; [left; auto|auto].
      + right. intros (c0 & [X|[]] & _). injection X as <- ->. assert (formula_eqb (Atom p pt) (Atom p pt) = true) by (now apply formula_eqb_eq). congruence.
    - right. intros (c0 & [X|[]] & E'). injection X as <- _. auto. }
  tauto.
Qed.

(** What one effect does, with its condition and right-hand side evaluated in the reference state [m]. *)
Lemma apply_spec m m0 e m1 : is_single e = true -> apply m0 e = Ok m1 -> agree m m0 e -> proper m0 ->
  proper m1 /\ (is_state sub m0 -> is_state sub m1) /\
  (forall q b, m_holds m1 q b = true <-> adds m [e] q b \/ (m_holds m0 q b = true /\ ~ dels m [e] q b)) /\
  (forall g b, (forall v, ~ assigns m [e] g b v) -> m_value m1 g b = m_value m0 g b) /\ (forall g b v, assigns m [e] g b v -> m_value m1 g b = Ok v).
Proof.
  intros Hs H Ha Pm. unfold apply_effect in H. assert (Ec := agree_cond m m0 e Ha).
  assert (NA : eval_f m (econd e) <> Ok true -> m1 = m0 -> proper m1 /\ (is_state sub m0 -> is_state sub m1) /\ (forall q b, m_holds m1 q b = true <-> adds m [e] q b \/ (m_holds m0 q b = true /\ ~ dels m [e] q b)) /\
     (forall g b, (forall v, ~ assigns m [e] g b v) -> m_value m1 g b = m_value m0 g b) /\ (forall g b v, assigns m [e] g b v -> m_value m1 g b = Ok v)).
  { intros Hn ->. split; [auto|]. split; [auto|]. split; [|split].
    - intros q b. split; [|intros [(c & [X|[]] & E)|[X _]]; auto; subst e; cbn in Hn; congruence]. intros Hh. right. split; [auto|]. intros (c & [X|[]] & E). subst e. cbn in Hn. congruence.
    - auto.
    - intros g b v (i & c & r & [X|[]] & E & _). subst e. cbn in Hn. congruence. }
  destruct e as [c a|c a|i c lhs rhs|c vs es|c l|c]; try discriminate; cbn [edepth apply_effect_n econd] in H, Ec, NA; rewrite Ec in H; destruct (eval_f m c) as [[|]|] eqn:E; cbn [bind negb] in H; try discriminate;
    try (apply NA; [congruence|]; injection H as <-; reflexivity).
  - destruct a as [| |p ts| |]; try discriminate. destruct (add_spec sub m0 p ts m1 H Pm) as (P1 & Hh & Hv). split; [auto|]. split; [intros; eapply state_add; eauto|]. split; [|split].
    + intros q b. rewrite Hh, orb_true_iff, same_atom_eq. split.
      * intros [[-> ->]|X]; [left; exists c; split; [left; auto|auto]|]. right. split; [auto|]. intros (c0 & [Y|[]] & _). discriminate.
      * intros [(c0 & [Y|[]] & _)|[X _]]; [injection Y as _ -> ->; auto|auto].
    + intros g b _. apply Hv.
    + intros g b v (i & c0 & r & [Y|[]] & _). discriminate.
  - destruct a as [| |p ts| |]; try discriminate. injection H as <-. destruct (discard_spec m0 p ts Pm) as (P1 & Hh & Hv). split; [auto|]. split; [intros; apply state_discard; auto|]. split; [|split].
    + intros q b. rewrite Hh, andb_true_iff, negb_true_iff. split.
      * intros [X Y]. right. split; [auto|]. intros (c0 & [Z|[]] & _). injection Z as _ -> ->. assert (same_atom q q b b = true) by now apply same_atom_eq. congruence.
      * intros [(c0 & [Y|[]] & _)|[X Y]]; [discriminate|]. split; [|auto]. apply not_true_is_false. intros Z. apply same_atom_eq in Z as [-> ->]. apply Y. exists c. split; [left; auto|auto].
    + intros g b _. apply Hv.
    + intros g b v (i & c0 & r & [Y|[]] & _). discriminate.
  - rewrite (agree_rhs m m0 i c lhs rhs Ha) in H. destruct (evaluate_t m rhs) as [v|] eqn:Er; [|discriminate]. cbn [bind] in H.
    destruct (set_spec sub m0 lhs v m1 H) as (f & a & -> & P1 & Hh & Hv). split; [auto|]. split; [intros; eapply state_set; eauto|]. split; [|split].
    + intros q b. rewrite Hh. split; [|intros [(c0 & [Y|[]] & _)|[X _]]; [discriminate|auto]]. intros X. right. split; [auto|]. intros (c0 & [Y|[]] & _). discriminate.
    + intros g b Hn. rewrite Hv. destruct (same_point f g a b) eqn:Es; [|auto]. apply same_point_eq in Es as [<- <-]. exfalso. apply (Hn v). exists i, c, rhs. split; [left; auto|auto].
    + intros g b w (i0 & c0 & r0 & [Y|[]] & _ & Ew). injection Y as -> -> -> -> ->. rewrite Hv. assert (same_point g g b b = true) by now apply same_point_eq. rewrite H0. congruence.
Qed.
Lemma apply_frame m0 e m1 : is_single e = true -> apply m0 e = Ok m1 -> proper m0 ->
  (forall p pt, ~ In p (writes_p e) -> m_holds m1 p pt = m_holds m0 p pt) /\ (forall f pt, ~ In f (writes_f e) -> m_value m1 f pt = m_value m0 f pt).
Proof.
  intros Hs H Pm. destruct (apply_spec m0 m0 e m1 Hs H) as (_ & _ & Hh & Hv & _); [split; reflexivity|auto|]. split.
  - intros p pt Hn. apply eq_true_iff_eq. rewrite Hh. split; [intros [(c & [->|[]] & _)|[X _]]; [cbn in Hn; tauto|auto]|]. intros X. right. split; [auto|]. intros (c & [->|[]] & _). cbn in Hn. tauto.
  - intros f pt Hn. apply Hv. intros v (i & c & r & [->|[]] & _). cbn in Hn. tauto.
Qed.
Lemma agree_step m m0 e m1 e' : is_single e = true -> apply m0 e = Ok m1 -> proper m0 -> does_not_affect e e' -> agree m m0 e' -> agree m m1 e'.
Proof.
  intros Hs H Pm [N1 N2] [A1 A2]. destruct (apply_frame m0 e m1 Hs H Pm) as [F1 F2]. split; intros.
  - rewrite F1; [auto|]. intros X. eapply N1; eauto.
  - rewrite F2; [auto|]. intros X. eapply N2; eauto.
Qed.

Record summary (m : model) (l : list effect) (m0 m1 : model) : Prop := {
  su_proper : proper m1;
  su_state : is_state sub m0 -> is_state sub m1;
  su_nodel : forall q b, ~ dels m l q b -> m_holds m1 q b = true <-> adds m l q b \/ m_holds m0 q b = true;
  su_noadd : forall q b, ~ adds m l q b -> m_holds m1 q b = true <-> m_holds m0 q b = true /\ ~ dels m l q b;
  su_same : forall g b, (forall v, ~ assigns m l g b v) -> m_value m1 g b = m_value m0 g b;
  su_set : forall g b v, assigns m l g b v -> (forall w, assigns m l g b w -> w = v) -> m_value m1 g b = Ok v
}.
Lemma assigns_dec m l g b : (exists w, assigns m l g b w) \/ (forall w, ~ assigns m l g b w).
Proof.
  induction l as [|e l IH]; [right; intros w (i & c & r & [] & _)|].
  destruct IH as [[w Hw]|IH]; [left; exists w; rewrite assigns_cons; auto|].
  assert (X : (exists w, assigns m [e] g b w) \/ (forall w, ~ assigns m [e] g b w)).
  { destruct e as [| |i c lhs rhs| | |]; try (right; intros w (i0 & c0 & r0 & [X|[]] & _); discriminate). destruct (cond_true_dec m c) as [E|E].
    - destruct (term_eqb lhs (App g b)) eqn:El.
      + apply term_eqb_eq in El as ->. destruct (evaluate_t m rhs) as [v|] eqn:Er; [left; exists v, i, c, rhs; split; [left; auto|auto]|].
        right. intros w (i0 & c0 & r0 & [X|[]] & _ & Ew). injection X as _ _ <-. congruence.
      + right. intros w (i0 & c0 & r0 & [X|[]] & _). injection X as _ _ -> _. assert (term_eqb (App g b) (App g b) = true) by (now apply term_eqb_eq). congruence.
    - right. intros w (i0 & c0 & r0 & [X|[]] & E' & _). injection X as _ <- _ _. auto. }
  destruct X as [[w Hw]|X]; [left; exists w; rewrite assigns_cons; auto|]. right. intros w. rewrite assigns_cons. intros [Y|Y]; [eapply X|eapply IH]; eauto.
Qed.
Lemma run_summary m : forall l m0 m1, forallb is_single l = true -> run l m0 = Ok m1 -> ForallOrdPairs does_not_affect l -> Forall (agree m m0) l -> proper m0 -> summary m l m0 m1.
Proof.
  induction l as [|e l IH]; intros m0 m1 Hs H Hi Ha Pm.
  - injection H as <-. split; auto.
    + intros q b _. split; [auto|]. intros [(c & [] & _)|X]; auto.
    + intros q b _. split; [|tauto]. intros X. split; [auto|]. intros (c & [] & _).
    + intros g b v (i & c & r & [] & _).
  - unfold run_effects in H. cbn [run_with] in H. fold (run l) in H. destruct (apply m0 e) as [m'|] eqn:E; [|discriminate]. cbn [bind] in H.
    cbn [forallb] in Hs. apply andb_true_iff in Hs as [Hs1 Hs2]. inversion Hi as [|? ? Hi1 Hi2]; subst. inversion Ha as [|? ? Ha1 Ha2]; subst.
    destruct (apply_spec m m0 e m' Hs1 E Ha1 Pm) as (P1 & S1 & H1 & V1 & V2).
    assert (Ha' : Forall (agree m m') l). { rewrite Forall_forall in *. intros x Hx. eapply agree_step; eauto. }
    destruct (IH m' m1 Hs2 H Hi2 Ha' P1) as [Q1 Q2 Q3 Q4 Q5 Q6].
    assert (AD : forall q b, adds m [e] q b -> dels m [e] q b -> False) by (intros q b (c & [X|[]] & _) (c' & [Y|[]] & _); congruence).
    split; auto.
    + intros q b. rewrite dels_cons, adds_cons. intros Hn. rewrite Q3 by tauto. rewrite H1. tauto.
    + intros q b. rewrite dels_cons, adds_cons. intros Hn. rewrite Q4 by tauto. rewrite H1. tauto.
    + intros g b Hn. rewrite Q5, V1; auto; intros v Hv; apply (Hn v); rewrite assigns_cons; auto.
    + intros g b v Hv Hu. destruct (assigns_dec m l g b) as [[w Hw]|X].
      * assert (w = v) by (apply Hu; rewrite assigns_cons; auto). subst w. apply Q6; [auto|]. intros w' Hw'. apply Hu. rewrite assigns_cons. auto.
      * rewrite Q5 by auto. apply V2. apply assigns_cons in Hv as [Hv|Hv]; [auto|]. exfalso. eapply X; eauto.
Qed.
Lemma agree_refl m e : agree m m e. Proof. split; reflexivity. Qed.

(** Success of an effect does not depend on the state it is applied in, once it reads the same. *)
Lemma apply_ok m m0 e : is_single e = true -> agree m m0 e -> is_ok (apply m0 e) = is_ok (apply m e).
Proof.
  intros Hs Ha. unfold apply_effect. assert (Ec := agree_cond m m0 e Ha). destruct e as [c a|c a|i c lhs rhs|c vs es|c l|c]; try discriminate; cbn [edepth apply_effect_n econd] in *; rewrite Ec;
    destruct (eval_f m c) as [[|]|]; cbn [bind negb]; try reflexivity.
  - destruct a as [| |p ts| |]; try reflexivity. unfold m_add. destruct p; [reflexivity|]. destruct (check_assignment sub sorts ts); reflexivity.
  - destruct a; reflexivity.
  - rewrite (agree_rhs m m0 i c lhs rhs Ha). destruct (evaluate_t m rhs) as [v|]; [|reflexivity]. cbn [bind]. destruct lhs; try reflexivity. cbn [m_set]. destruct f; [reflexivity|]. destruct (forallb is_cst ts); [|reflexivity].
    destruct (check_assignment _ _ _); reflexivity.
Qed.
Lemma run_ok m : forall l m0, forallb is_single l = true -> ForallOrdPairs does_not_affect l -> Forall (agree m m0) l -> proper m0 -> is_ok (run l m0) = forallb (fun e => is_ok (apply m e)) l.
Proof.
  induction l as [|e l IH]; intros m0 Hs Hi Ha Pm; [reflexivity|]. unfold run_effects. cbn [run_with forallb]. fold (run l).
  cbn [forallb] in Hs. apply andb_true_iff in Hs as [Hs1 Hs2]. inversion Hi as [|? ? Hi1 Hi2]; subst. inversion Ha as [|? ? Ha1 Ha2]; subst.
  rewrite <- (apply_ok m m0 e Hs1 Ha1). destruct (apply m0 e) as [m'|] eqn:E; [|reflexivity]. cbn [bind is_ok andb]. apply IH; auto.
  - rewrite Forall_forall in *. intros x Hx. eapply agree_step; eauto.
  - eapply (apply_spec m m0 e m'); eauto.
Qed.

(** Progression computes the successor. *)
Lemma progress_successor m effs m' : is_state sub m -> forallb is_single effs = true -> independent effs -> progress D sub m effs = Ok m' -> successor m effs m' /\ is_state sub m'.
Proof.
  intros Hm Hs Hi H. unfold progress in H. unfold run_effects in H. rewrite run_with_app in H. set (l1 := filter is_del effs) in *. set (l2 := filter (fun e => negb (is_del e)) effs) in *.
  assert (PE : Permutation effs (l1 ++ l2)) by apply filter_perm.
  assert (Hi' : independent (l1 ++ l2)) by (eapply independent_perm; eauto).
  assert (Hs' : forallb is_single (l1 ++ l2) = true). { rewrite forallb_forall in *. intros x Hx. apply Hs. eapply Permutation_in; [symmetry; exact PE|auto]. }
  fold (run l1) in H. destruct (run l1 m) as [m1|] eqn:E1; [|discriminate]. cbn [bind] in H. fold (run l2) in H.
  assert (FO : ForallOrdPairs does_not_affect (l1 ++ l2)) by (eapply FOP_impl; [|exact Hi']; intros ? ? [? ?]; auto).
  assert (Tot : run (l1 ++ l2) m = Ok m') by (unfold run_effects; rewrite run_with_app; fold (run l1); rewrite E1; exact H).
  assert (AG : forall l, Forall (agree m m) l) by (intros; apply Forall_forall; intros; apply agree_refl).
  assert (ST := run_summary m (l1 ++ l2) m m' Hs' Tot FO (AG _) (state_proper sub m Hm)).
  rewrite forallb_app in Hs'. apply andb_true_iff in Hs' as [Hs1 Hs2].
  assert (FO1 : ForallOrdPairs does_not_affect l1 /\ ForallOrdPairs does_not_affect l2 /\ (forall a b, In a l1 -> In b l2 -> does_not_affect a b)).
  { clear - FO. induction l1 as [|a l1 IH]; cbn in FO; [split; [constructor|split; [auto|intros ? ? []]]|]. inversion FO as [|? ? F1 F2]; subst. apply Forall_app in F1 as [F1 F1'].
    destruct (IH F2) as (A1 & A2 & A3). split; [constructor; auto|]. split; [auto|]. intros x y [->|Hx] Hy; [rewrite Forall_forall in F1'; auto|auto]. }
  destruct FO1 as (FO1 & FO2 & FO12).
  assert (S1 := run_summary m l1 m m1 Hs1 E1 FO1 (AG _) (state_proper sub m Hm)).
  assert (AG2 : Forall (agree m m1) l2).
  { assert (X : forall l m0 mx, Forall (agree m m0) l2 -> proper m0 -> forallb is_single l = true -> (forall a b, In a l -> In b l2 -> does_not_affect a b) -> run l m0 = Ok mx -> Forall (agree m mx) l2).
    { clear - D sub. induction l as [|e l IH]; intros m0 mx A0 P0 Hs Hd Hr; [injection Hr as <-; auto|]. unfold run_effects in Hr. cbn [run_with] in Hr. fold (run l) in Hr. destruct (apply m0 e) as [my|] eqn:Ee; [|discriminate]. cbn [bind] in Hr.
      cbn [forallb] in Hs. apply andb_true_iff in Hs as [Hs1 Hs2]. apply (IH my mx); auto.
      - rewrite Forall_forall in *. intros x Hx. eapply agree_step; eauto. apply Hd; [left|]; auto.
      - eapply (apply_spec m0 m0 e my); eauto using agree_refl.
      - intros a b Ha Hb. apply Hd; [right|]; auto. }
    apply (X l1 m m1); auto. apply (state_proper sub). auto. }
  assert (S2 := run_summary m l2 m1 m' Hs2 H FO2 AG2 (su_proper _ _ _ _ S1)).
  split; [|apply (su_state _ _ _ _ ST); auto]. split; [|split].
  - intros p pt.
    assert (N1 : ~ adds m l1 p pt) by (intros (c & X & _); apply filter_In in X as [_ X]; discriminate).
    assert (N2 : ~ dels m l2 p pt) by (intros (c & X & _); apply filter_In in X as [_ X]; discriminate).
    rewrite (su_nodel _ _ _ _ S2 p pt N2), (su_noadd _ _ _ _ S1 p pt N1).
    assert (A : adds m l2 p pt <-> adds m effs p pt).
    { split; [intros (c & X & E); exists c; split; [apply filter_In in X; tauto|auto]|]. intros (c & X & E). exists c. split; [apply filter_In; auto|auto]. }
    assert (B : dels m l1 p pt <-> dels m effs p pt).
    { split; [intros (c & X & E); exists c; split; [apply filter_In in X; tauto|auto]|]. intros (c & X & E). exists c. split; [apply filter_In; auto|auto]. }
    rewrite A, B. tauto.
  - intros f pt Hn. apply (su_same _ _ _ _ ST). intros v Hv. apply (Hn v). eapply assigns_perm; [symmetry; exact PE|auto].
  - intros f pt v Hv Hu. apply (su_set _ _ _ _ ST); [eapply assigns_perm; eauto|]. intros w Hw. apply Hu. eapply assigns_perm; [symmetry; exact PE|auto].
Qed.
Lemma progress_ok m effs : is_state sub m -> forallb is_single effs = true -> independent effs -> is_ok (progress D sub m effs) = forallb (fun e => is_ok (apply m e)) effs.
Proof.
  intros Hm Hs Hi. unfold progress. set (l := filter is_del effs ++ _). assert (PE : Permutation effs l) by apply filter_perm.
  rewrite (run_ok m l m).
  - apply eq_true_iff_eq. rewrite !forallb_forall. split; intros X x Hx; apply X; [apply (Permutation_in _ PE)|apply (Permutation_in _ (Permutation_sym PE))]; auto.
  - rewrite forallb_forall in *. intros x Hx. apply Hs. eapply Permutation_in; [symmetry; exact PE|auto].
  - eapply FOP_impl; [|eapply independent_perm; [exact PE|exact Hi]]. intros ? ? [? ?]; auto.
  - apply Forall_forall. intros. apply agree_refl.
  - apply (state_proper sub); auto.
Qed.
(** The successor state is unique. *)
Lemma successor_unique m effs m1 m2 : consistent m effs -> successor m effs m1 -> successor m effs m2 -> same_state m1 m2.
Proof.
  intros Hc (A1 & B1 & C1) (A2 & B2 & C2). split.
  - intros p pt. apply eq_true_iff_eq. now rewrite A1, A2.
  - intros f pt. destruct (assigns_dec m effs f pt) as [[v Hv]|Hn].
    + rewrite (C1 f pt v), (C2 f pt v); auto; intros w Hw; eapply Hc; eauto.
    + rewrite B1, B2; auto.
Qed.
Lemma successor_perm m effs effs' m1 : Permutation effs effs' -> successor m effs m1 -> successor m effs' m1.
Proof.
  intros P (A1 & B1 & C1). split; [|split].
  - intros p pt. rewrite A1. split; (intros [X|[X Y]]; [left|right; split; [exact X|intros Z; apply Y]]).
    + exact (adds_perm m _ _ p pt P X).
    + exact (dels_perm m _ _ p pt (Permutation_sym P) Z).
    + exact (adds_perm m _ _ p pt (Permutation_sym P) X).
    + exact (dels_perm m _ _ p pt P Z).
  - intros f pt Hn. apply B1. intros v Hv. apply (Hn v). exact (assigns_perm m _ _ f pt v P Hv).
  - intros f pt v Hv Hu. apply C1; [exact (assigns_perm m _ _ f pt v (Permutation_sym P) Hv)|]. intros w Hw. apply Hu. exact (assigns_perm m _ _ f pt w P Hw).
Qed.
(** For conflict-free effects, any order of application gives the successor. *)
Lemma run_successor m effs m' : is_state sub m -> forallb is_single effs = true -> independent effs -> conflict_free m effs -> run effs m = Ok m' -> successor m effs m'.
Proof.
  intros Hm Hs Hi Hc H. assert (ST := run_summary m effs m m' Hs H (FOP_impl _ _ _ (fun a b X => proj1 X) Hi) (proj2 (Forall_forall _ _) (fun x _ => agree_refl m x)) (state_proper sub m Hm)).
  split; [|split; [exact (su_same _ _ _ _ ST)|exact (su_set _ _ _ _ ST)]]. intros p pt. destruct (adds_dec m effs p pt) as [A|A].
  - rewrite (su_nodel _ _ _ _ ST p pt); [|intros X; eapply Hc; eauto]. split; [auto|]. auto.
  - rewrite (su_noadd _ _ _ _ ST p pt A). tauto.
Qed.
End P.
