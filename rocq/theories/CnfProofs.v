From Verif Require Import Base Syntax Semantics FolSpec SemLemmas Nnf NnfProofs Cnf.

(** Binary conjunctions of binary disjunctions of literals (the exact shape that the algorithm builds). *)
Fixpoint bclause (f : formula) : bool :=
  match f with
  | Comp Or [a; b] => bclause a && bclause b
  | _ => is_literal_or_constant f
  end.
Fixpoint bcnf (f : formula) : bool :=
  match f with
  | Comp And [a; b] => bcnf a && bcnf b
  | _ => bclause f
  end.

Lemma bclause_not_and f fs : bclause f = true -> f <> Comp And fs.
Proof. intros H ->. simpl in H. discriminate. Qed.

Lemma bcnf_cases f : bcnf f = true ->
  (exists a b, f = Comp And [a; b] /\ bcnf a = true /\ bcnf b = true) \/ bclause f = true.
Proof.
  intros H. destruct f as [ | | | c fs | ]; auto. destruct c; auto.
  destruct fs as [|a [|b [|]]]; auto. simpl in H. apply andb_true_iff in H as [Ha Hb]. left; eauto.
Qed.

Lemma bclause_cases f : bclause f = true ->
  (exists a b, f = Comp Or [a; b] /\ bclause a = true /\ bclause b = true) \/ is_literal_or_constant f = true.
Proof.
  intros H. destruct f as [ | | | c fs | ]; auto. destruct c; auto.
  destruct fs as [|a [|b [|]]]; auto. simpl in H. apply andb_true_iff in H as [Ha Hb]. left; eauto.
Qed.

Lemma bclause_bcnf f : bclause f = true -> bcnf f = true.
Proof. intros H. destruct f as [ | | | c fs | ]; auto. destruct c; auto. exfalso. eapply bclause_not_and; eauto. Qed.

Fixpoint size (f : formula) : nat :=
  match f with
  | Comp _ fs => S (fold_right (fun g n => size g + n) 0 fs)
  | Quant _ _ g => S (size g)
  | _ => 1
  end.

Lemma bcnf_ind (P : formula -> Prop) :
  (forall f, bclause f = true -> P f) ->
  (forall a b, bcnf a = true -> bcnf b = true -> P a -> P b -> P (Comp And [a; b])) ->
  forall f, bcnf f = true -> P f.
Proof.
  intros H1 H2 f. induction f as [ | | p ts | c fs IH | q vs f IH] using formula_ind_simple; intros H; auto.
  apply bcnf_cases in H as [(a & b & E & Ha & Hb)|H]; auto.
  inversion E; subst. inversion IH as [|? ? IHa IH']; subst. inversion IH' as [|? ? IHb _]; subst. auto.
Qed.
Lemma bclause_ind (P : formula -> Prop) :
  (forall f, is_literal_or_constant f = true -> P f) ->
  (forall a b, bclause a = true -> bclause b = true -> P a -> P b -> P (Comp Or [a; b])) ->
  forall f, bclause f = true -> P f.
Proof.
  intros H1 H2 f. induction f as [ | | p ts | c fs IH | q vs f IH] using formula_ind_simple; intros H; auto.
  apply bclause_cases in H as [(a & b & E & Ha & Hb)|H]; auto.
  inversion E; subst. inversion IH as [|? ? IHa IH']; subst. inversion IH' as [|? ? IHb _]; subst. auto.
Qed.

Lemma bclause_is_clause f : bclause f = true -> is_clause f = true.
Proof.
  revert f. apply bclause_ind.
  - intros f H. destruct f as [ | | | c fs | ]; auto. destruct c; simpl in *; auto; discriminate.
  - intros a b _ _ Ha Hb. simpl. now rewrite Ha, Hb.
Qed.
Lemma bcnf_is_cnf f : bcnf f = true -> is_cnf f = true.
Proof.
  revert f. apply bcnf_ind.
  - intros f H. pose proof (bclause_is_clause f H) as H'. destruct f as [ | | | c fs | ]; auto.
    destruct c; auto. exfalso. eapply bclause_not_and; eauto.
  - intros a b _ _ Ha Hb. simpl. now rewrite Ha, Hb.
Qed.

Lemma distribute_r_correct n1 n2 : bclause n1 = true -> bcnf n2 = true ->
  bcnf (distribute_r n1 n2) = true /\
  forall M e, fsem M (distribute_r n1 n2) e = fsem M n1 e || fsem M n2 e.
Proof.
  intros H1 H2. revert n2 H2. apply (bcnf_ind (fun n2 => bcnf (distribute_r n1 n2) = true /\
  forall M e, fsem M (distribute_r n1 n2) e = fsem M n1 e || fsem M n2 e)).
  - intros f Hf. assert (E : distribute_r n1 f = Comp Or [n1; f]).
    { destruct f as [ | | | c fs | ]; auto. destruct c; auto. exfalso; eapply bclause_not_and; eauto. }
    rewrite E. split.
    + apply bclause_bcnf. simpl. now rewrite H1, Hf.
    + intros M e. simpl. now rewrite orb_false_r.
  - intros a b Ha Hb [IHa IHa'] [IHb IHb']. simpl. rewrite IHa, IHb. split; [reflexivity|].
    intros M e. rewrite IHa', IHb'. now destruct (fsem M n1 e), (fsem M a e), (fsem M b e).
Qed.

Lemma distribute_correct n1 n2 : bcnf n1 = true -> bcnf n2 = true ->
  bcnf (distribute n1 n2) = true /\
  forall M e, fsem M (distribute n1 n2) e = fsem M n1 e || fsem M n2 e.
Proof.
  intros H1 H2. revert n1 H1. apply (bcnf_ind (fun n1 => bcnf (distribute n1 n2) = true /\
  forall M e, fsem M (distribute n1 n2) e = fsem M n1 e || fsem M n2 e)).
  - intros f Hf. assert (E : distribute f n2 = distribute_r f n2).
    { destruct f as [ | | | c fs | ]; auto. destruct c; auto. exfalso; eapply bclause_not_and; eauto. }
    rewrite E. now apply distribute_r_correct.
  - intros a b Ha Hb [IHa IHa'] [IHb IHb']. simpl. rewrite IHa, IHb. split; [reflexivity|].
    intros M e. rewrite IHa', IHb'. now destruct (fsem M n2 e), (fsem M a e), (fsem M b e).
Qed.

Lemma cnf_convert_correct f : is_nnf f = true -> wf f = true ->
  (has_quantifier f = true -> cnf_convert f = Err TransformationError) /\
  (has_quantifier f = false -> exists g, cnf_convert f = Ok g /\ bcnf g = true /\ equivalent f g).
Proof.
  induction f as [ | | p ts | c fs IH | q vs f IH] using formula_ind_simple; intros Hn Hwf.
  1-3: simpl; split; [discriminate | eexists; repeat split].
  2:{ split; [reflexivity | discriminate]. }
  destruct (connective_eq_dec c Not) as [->|Hc].
  { simpl in Hn. destruct fs as [|[ | | p ts | | ] [|]]; try discriminate. simpl.
    split; [discriminate|]. eexists; repeat split. }
  apply wf_Comp in Hwf as [Har Hwf].
  assert (Hnn : Forall (fun f => is_nnf f = true) fs).
  { apply Forall_forall. destruct c; try congruence; simpl in Hn; rewrite forallb_forall in Hn; auto. }
  clear Hn. rewrite Forall_forall in IH, Hwf, Hnn.
  assert (Hlen : 2 <= List.length fs) by (destruct c; try congruence; apply Nat.leb_le; exact Har).
  split.
  - intros Hq. simpl in Hq.
    assert (E : mapM cnf_convert fs = Err TransformationError).
    { clear Hlen Har Hc. induction fs as [|g fs IHfs]; simpl in *; [discriminate|].
      destruct (has_quantifier g) eqn:Eg.
      - destruct (IH g (or_introl eq_refl)) as [H _]; auto. now rewrite H.
      - destruct (IH g (or_introl eq_refl)) as [_ H]; auto. destruct (H Eg) as (g' & -> & _).
        rewrite IHfs; auto. }
    destruct c; try congruence; simpl; rewrite E; reflexivity.
  - intros Hq. simpl in Hq.
    assert (Hm : exists gs, mapM cnf_convert fs = Ok gs).
    { apply mapM_total. intros x Hx. destruct (IH x Hx) as [_ H]; auto.
      destruct H as (g & Hg & _); eauto.
      destruct (has_quantifier x) eqn:E; [|reflexivity].
      assert (existsb has_quantifier fs = true) by (apply existsb_exists; eauto). congruence. }
    destruct Hm as [gs Hm].
    assert (HF : Forall2 (fun x y => bcnf y = true /\ forall M e, fsem M y e = fsem M x e) fs gs).
    { pose proof Hm as Hm'. apply mapM_Forall2 in Hm'. refine (Forall2_impl_In _ _ _ _ _ Hm').
      intros x y Hx _ Hxy. destruct (IH x Hx) as [_ H]; auto.
      assert (E : has_quantifier x = false).
      { destruct (has_quantifier x) eqn:E; [|reflexivity].
        assert (existsb has_quantifier fs = true) by (apply existsb_exists; eauto). congruence. }
      destruct (H E) as (g & Hg & Hb & Heq).
      rewrite Hg in Hxy; inversion Hxy; subst. split; [assumption|]. intros M e; symmetry; apply Heq. }
    pose proof (mapM_length _ _ _ Hm) as Hl.
    destruct gs as [|p0 [|p1 rest]]; simpl in Hl; try lia.
    destruct fs as [|f0 [|f1 fs]]; simpl in Hlen; try lia.
    inversion HF as [|? ? ? ? [H0 H0'] HF']; subst. inversion HF' as [|? ? ? ? [H1 H1'] HF'']; subst.
    destruct c; try congruence.
    + exists (fold_left (fun acc g => Comp And [acc; g]) rest (Comp And [p0; p1])).
      split; [cbn [cnf_convert]; rewrite Hm; reflexivity|].
      assert (G : forall acc fa fs rest, bcnf acc = true -> (forall M e, fsem M acc e = fa M e) ->
         Forall2 (fun x y => bcnf y = true /\ forall M e, fsem M y e = fsem M x e) fs rest ->
         bcnf (fold_left (fun acc g => Comp And [acc; g]) rest acc) = true /\
         forall M e, fsem M (fold_left (fun acc g => Comp And [acc; g]) rest acc) e = fa M e && forallb (fun g => fsem M g e) fs).
      { clear. intros acc fa fs rest Hb Hs HF. revert acc fa Hb Hs.
        induction HF as [|x y l l' [Hy Hy'] _ IH]; intros acc fa Hb Hs; simpl.
        - split; auto. intros. now rewrite Hs, andb_true_r.
        - destruct (IH (Comp And [acc; y]) (fun M e => fa M e && fsem M x e)) as [G1 G2].
          + simpl. now rewrite Hb, Hy.
          + intros M e. simpl. now rewrite Hs, Hy', andb_true_r.
          + split; [exact G1|]. intros M e. rewrite G2. now rewrite andb_assoc. }
      destruct (G (Comp And [p0; p1]) (fun M e => fsem M f0 e && fsem M f1 e) fs rest) as [G1 G2]; auto.
      * simpl. now rewrite H0, H1.
      * intros M e. simpl. now rewrite H0', H1', andb_true_r.
      * split; [exact G1|]. intros M e. rewrite G2. simpl. now rewrite andb_assoc.
    + exists (fold_left (fun acc g => distribute acc g) rest (distribute p0 p1)).
      split; [cbn [cnf_convert]; rewrite Hm; reflexivity|].
      assert (G : forall acc fa fs rest, bcnf acc = true -> (forall M e, fsem M acc e = fa M e) ->
         Forall2 (fun x y => bcnf y = true /\ forall M e, fsem M y e = fsem M x e) fs rest ->
         bcnf (fold_left (fun acc g => distribute acc g) rest acc) = true /\
         forall M e, fsem M (fold_left (fun acc g => distribute acc g) rest acc) e = fa M e || existsb (fun g => fsem M g e) fs).
      { clear. intros acc fa fs rest Hb Hs HF. revert acc fa Hb Hs.
        induction HF as [|x y l l' [Hy Hy'] _ IH]; intros acc fa Hb Hs; simpl.
        - split; auto. intros. now rewrite Hs, orb_false_r.
        - destruct (distribute_correct acc y Hb Hy) as [D1 D2].
          destruct (IH (distribute acc y) (fun M e => fa M e || fsem M x e)) as [G1 G2]; auto.
          + intros M e. now rewrite D2, Hs, Hy'.
          + split; [exact G1|]. intros M e. rewrite G2. now rewrite orb_assoc. }
      destruct (distribute_correct p0 p1 H0 H1) as [D1 D2].
      destruct (G (distribute p0 p1) (fun M e => fsem M f0 e || fsem M f1 e) fs rest) as [G1 G2]; auto.
      * intros M e. now rewrite D2, H0', H1'.
      * split; [exact G1|]. intros M e. rewrite G2. simpl. now rewrite orb_assoc.
Qed.

Lemma nnf_has_quantifier f : forall b g, wf f = true -> nnf b f = Ok g -> has_quantifier g = has_quantifier f.
Proof.
  induction f as [ | | p ts | c fs IH | q vs f IH] using formula_ind_simple; intros b g Hwf H.
  - destruct b; inversion H; reflexivity.
  - destruct b; inversion H; reflexivity.
  - destruct b; inversion H; reflexivity.
  - destruct (connective_eq_dec c Not) as [->|Hc].
    + apply wf_Not in Hwf as (h & -> & Hh). simpl in *. inversion IH as [|? ? Hi _]; subst.
      rewrite orb_false_r. eauto.
    + apply wf_Comp in Hwf as [_ Hfs]. rewrite Forall_forall in IH, Hfs.
      assert (exists fs', mapM (nnf b) fs = Ok fs' /\ g = Comp (if b then negate_connective c else c) fs') as (fs' & Hm & ->).
      { destruct c; try congruence; simpl in H;
        destruct (mapM (nnf b) fs) as [fs'|] eqn:E; simpl in H; try discriminate; inversion H; eauto. }
      simpl. apply mapM_Forall2 in Hm. apply existsb_Forall2. refine (Forall2_impl_In _ _ _ _ _ Hm).
      intros x y Hx _ Hxy. exact (IH x Hx b y (Hfs x Hx) Hxy).
  - simpl in H. destruct (nnf b f); simpl in H; inversion H; reflexivity.
Qed.

Lemma to_cnf_correct f : wf f = true -> has_negated_constant f = false ->
  (has_quantifier f = true -> to_conjunctive_normal_form f = Err TransformationError) /\
  (has_quantifier f = false -> exists g, to_conjunctive_normal_form f = Ok g /\ bcnf g = true /\ equivalent f g).
Proof.
  intros Hwf Hc. unfold to_conjunctive_normal_form, to_negation_normal_form.
  destruct (nnf_ok_iff f false Hwf) as [[_ Hok] _]. destruct (Hok Hc) as [g Hg]. rewrite Hg. simpl.
  destruct (nnf_correct f false g Hwf Hg) as (Hs & Hn & Hw & _).
  destruct (cnf_convert_correct g Hn Hw) as [C1 C2].
  rewrite (nnf_has_quantifier f false g Hwf Hg) in C1, C2.
  split; [exact C1|]. intros Hq. destruct (C2 Hq) as (h & Hh & Hb & He). exists h. repeat split; auto.
  intros M e. rewrite <- He. symmetry. apply Hs.
Qed.

Lemma collect_clause f : bclause f = true -> forall cl cur, exists ls,
  collect_clauses f (cl, cur) = Ok (cl, cur ++ ls) /\
  (forall l, In l ls -> is_literal_or_constant l = true) /\
  forall M e, existsb (fun l => fsem M l e) ls = fsem M f e.
Proof.
  revert f. apply (bclause_ind (fun f => forall cl cur, exists ls,
  collect_clauses f (cl, cur) = Ok (cl, cur ++ ls) /\
  (forall l, In l ls -> is_literal_or_constant l = true) /\
  forall M e, existsb (fun l => fsem M l e) ls = fsem M f e)).
  - intros f Hf cl cur. exists [f]. split; [|split].
    + destruct f as [ | | | c fs | ]; try reflexivity; try discriminate. destruct c; try discriminate.
      simpl in Hf. reflexivity.
    + intros l [<-|[]]; exact Hf.
    + intros M e. simpl. now rewrite orb_false_r.
  - intros a b _ _ Ha Hb cl cur. destruct (Ha cl cur) as (la & E1 & L1 & S1).
    destruct (Hb cl (cur ++ la)) as (lb & E2 & L2 & S2). exists (la ++ lb). split; [|split].
    + transitivity (let! st1 := collect_clauses a (cl, cur) in collect_clauses b st1); [reflexivity|].
      rewrite E1. refine (eq_trans E2 _). now rewrite app_assoc.
    + intros l Hl. apply in_app_iff in Hl as [Hl|Hl]; auto.
    + intros M e. rewrite existsb_app, S1, S2. simpl. now rewrite orb_false_r.
Qed.

Lemma clauses_true_app M e a b : clauses_true M e (a ++ b) = clauses_true M e a && clauses_true M e b.
Proof. apply forallb_app. Qed.

Definition literal_clauses (cls : list (list formula)) : Prop :=
  forall cl l, In cl cls -> In l cl -> is_literal_or_constant l = true.
Lemma collect_cnf f : bcnf f = true -> forall cl, exists new cur',
  collect_clauses f (cl, []) = Ok (cl ++ new, cur') /\
  literal_clauses (new ++ [cur']) /\
  (is_cnf f = true -> match f with Comp And _ => forall M e, clauses_true M e new = fsem M f e | _ => new = [] end) /\
  forall M e, clauses_true M e (new ++ [cur']) = fsem M f e.
Proof.
  revert f. apply (bcnf_ind (fun f => forall cl, exists new cur',
  collect_clauses f (cl, []) = Ok (cl ++ new, cur') /\
  literal_clauses (new ++ [cur']) /\
  (is_cnf f = true -> match f with Comp And _ => forall M e, clauses_true M e new = fsem M f e | _ => new = [] end) /\
  forall M e, clauses_true M e (new ++ [cur']) = fsem M f e)).
  - intros f Hf cl. destruct (collect_clause f Hf cl []) as (ls & E & L & S).
    exists [], ls. rewrite E. simpl. rewrite app_nil_r. split; [reflexivity|]. split; [|split].
    + intros c l [<-|[]] Hl. auto.
    + intros _. destruct f as [ | | | c fs | ]; auto. destruct c; auto. exfalso; eapply bclause_not_and; eauto.
    + intros M e. unfold clauses_true. simpl. now rewrite andb_true_r, S.
  - intros a b _ _ Ha Hb cl.
    destruct (Ha cl) as (na & ca & Ea & La & _ & Sa).
    destruct (Hb ((cl ++ na) ++ [ca])) as (nb & cb & Eb & Lb & _ & Sb).
    exists (na ++ [ca] ++ nb ++ [cb]), cb. split.
    { transitivity (let! (cl1, cur1) := collect_clauses a (cl, []) in
                    let! (cl2, cur2) := collect_clauses b (cl1 ++ [cur1], []) in Ok (cl2 ++ [cur2], cur2)); [reflexivity|].
      rewrite Ea. cbv beta iota delta [bind]. rewrite Eb. now rewrite <- !app_assoc. }
    assert (Hs : forall M e, clauses_true M e (na ++ [ca] ++ nb ++ [cb]) = fsem M (Comp And [a; b]) e).
    { intros M e. replace (na ++ [ca] ++ nb ++ [cb]) with ((na ++ [ca]) ++ (nb ++ [cb])) by now rewrite <- !app_assoc.
      rewrite clauses_true_app, Sa, Sb. simpl. now rewrite andb_true_r. }
    split; [|split].
    + intros c l Hc Hl. rewrite !in_app_iff in Hc. destruct Hc as [[Hc|[Hc|[Hc|Hc]]]|Hc];
        solve [ eapply La; [apply in_or_app; eauto|eauto] | eapply Lb; [apply in_or_app; eauto|eauto] ].
    + intros _. exact Hs.
    + intros M e. rewrite clauses_true_app, Hs. 
      specialize (Sb M e). rewrite clauses_true_app in Sb. simpl. simpl in Sb.
      destruct (fsem M a e), (fsem M b e), (clauses_true M e nb), (clauses_true M e [cb]); simpl in *; congruence.
Qed.

Lemma to_clauses_correct f g : wf f = true -> to_conjunctive_normal_form f = Ok g ->
  exists cls, to_conjunctive_normal_form_clauses f = Ok cls /\ literal_clauses cls /\
    if match g with Comp And _ => true | _ => false end
    then forall M e, clauses_true M e cls = fsem M f e
    else cls = [].
Proof.
  intros Hwf Hg.
  assert (Hc : has_negated_constant f = false).
  { unfold to_conjunctive_normal_form, to_negation_normal_form in Hg.
    destruct (nnf false f) eqn:E; simpl in Hg; [|discriminate].
    apply (nnf_ok_iff f false Hwf). eauto. }
  destruct (to_cnf_correct f Hwf Hc) as [C1 C2].
  destruct (has_quantifier f) eqn:Hq; [rewrite C1 in Hg by reflexivity; discriminate|].
  destruct (C2 eq_refl) as (g' & Hg' & Hb & He). rewrite Hg in Hg'. inversion Hg'; subst g'; clear Hg'.
  destruct (collect_cnf g Hb []) as (new & cur & E & L & Hroot & _).
  unfold to_conjunctive_normal_form_clauses. rewrite Hg. cbn [bind]. rewrite E. cbn [bind]. simpl.
  specialize (Hroot (bcnf_is_cnf g Hb)). exists new. split; [reflexivity|]. split.
  - intros cl l Hcl Hl. eapply L; [apply in_or_app; left; eauto | eauto].
  - destruct g as [ | | | [| |] | ]; auto. intros M e. now rewrite Hroot, <- He.
Qed.
