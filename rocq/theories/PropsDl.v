(** C35: description-logic denotations and features. C47: the syntactic factory. *)
From Coq Require Import Permutation Relation_Operators.
From Verif Require Import Base Syntax ModelState Algorithms AlgorithmsSpec PropsAlgorithms Dl DlSpec.
#[local] Open Scope string_scope.

Scheme concept_ind2 := Induction for concept Sort Prop with role_ind2 := Induction for role Sort Prop.
Combined Scheme dl_ind from concept_ind2, role_ind2.

Section Denotation.
Context {A : Type} (eqb : A -> A -> bool) (E : decides eqb) (I : interp A) (order : list (A * A) -> list (A * A)).
Hypothesis C : closed I.
Hypothesis OR : forall l, Permutation l (order l).
Notation cd := (cdenotation eqb I order).
Notation rd := (rdenotation eqb I order).
Lemma PE : decides (pair_eqb eqb). Proof. exact (pair_eqb_decides eqb E). Qed.

Lemma cd_exists fuel r c : cd fuel (CExists r c) = let! ext_c := cd fuel c in let! ext_r := rd fuel r in Ok (sof eqb (map fst (filter (fun xy => smem eqb (snd xy) ext_c) ext_r))).
Proof. reflexivity. Qed.
Lemma cd_forall fuel r c : cd fuel (CForall r c) = let! ext_c := cd fuel c in let! ext_r := rd fuel r in
  Ok (filter (fun x => let ys := sunion eqb ext_c (filter (fun y => negb (smem (pair_eqb eqb) (x, y) ext_r)) (i_universe I)) in Nat.eqb (List.length (i_universe I)) (List.length ys)) (i_universe I)).
Proof. reflexivity. Qed.
Lemma cd_equal fuel r1 r2 s : cd fuel (CEqual r1 r2 s) = let! ext_r1 := rd fuel r1 in let! ext_r2 := rd fuel r2 in
  Ok (filter (fun x => let left := map snd (filter (fun yz => eqb (fst yz) x) ext_r1) in let right := map snd (filter (fun yz => eqb (fst yz) x) ext_r2) in
                       forallb (fun z => smem eqb z right) left && forallb (fun z => smem eqb z left) right) (i_universe I)).
Proof. reflexivity. Qed.
Lemma rd_restrict fuel r c : rd fuel (RRestrict r c) = let! ext_c := cd fuel c in let! ext_r := rd fuel r in Ok (filter (fun xy => smem eqb (snd xy) ext_c) ext_r).
Proof. reflexivity. Qed.
Definition c_correct (c : concept) : Prop := exists f0 l, (forall fuel, f0 <= fuel -> cd fuel c = Ok l) /\ NoDup l /\ incl l (i_universe I) /\ forall x, In x l <-> cden I c x.
Definition r_correct (r : role) : Prop := exists f0 l, (forall fuel, f0 <= fuel -> rd fuel r = Ok l) /\ NoDup l /\ (forall x y, In (x, y) l -> In x (i_universe I) /\ In y (i_universe I)) /\ forall x y, In (x, y) l <-> rden I r x y.

Lemma first_match_In b y l : In y (first_match eqb b l) -> In (b, y) l.
Proof.
  unfold first_match. destruct (find _ l) as [[u v]|] eqn:F; [|intros []]. intros [<- |[]]. apply find_some in F as [F1 F2]. cbn in F2. apply E in F2. now subst.
Qed.
Lemma first_match_some b y l : In (b, y) l -> exists y', In y' (first_match eqb b l).
Proof.
  intros H. unfold first_match. destruct (find _ l) as [[u v]|] eqn:F; [exists v; now left|]. exfalso. apply (find_none _ _ F) in H. cbn in H. rewrite (proj2 (E b b) eq_refl) in H. discriminate.
Qed.
Lemma in_order x l : In x (order l) <-> In x l.
Proof. split; intros H; [apply (Permutation_in _ (Permutation_sym (OR l)) H)|apply (Permutation_in _ (OR l) H)]. Qed.

Lemma denotations : (forall c, c_compositions_functional I c -> c_correct c) /\ (forall r, r_compositions_functional I r -> r_correct r).
Proof.
  destruct C as (CU & CN & CC & CR).
  apply dl_ind.
  - intros s _. exists 0, (i_universe I). repeat split; auto. intros x; auto.
  - intros s _. exists 0, []. repeat split; auto. + constructor. + intros x [].
  - intros n s _. exists 0, (i_nominal I n). destruct (CN n). repeat split; auto.
  - intros g n s _. exists 0, (i_concept I g n). destruct (CC g n). repeat split; auto.
  - intros c IH s H. destruct (IH H) as (f0 & l & F & N & S & M). exists f0, (filter (fun x => negb (smem eqb x l)) (i_universe I)). split; [|split; [|split]].
    + intros fuel Hf. cbn [cdenotation]. now rewrite F.
    + now apply NoDup_filter.
    + intros x Hx. apply filter_In in Hx. tauto.
    + intros x. rewrite filter_In. cbn [cden]. rewrite <- M, Bool.negb_true_iff. split; intros [H1 H2]; split; auto.
      * intros H3. apply (smem_In eqb E) in H3. congruence.
      * destruct (smem eqb x l) eqn:Q; auto. apply (smem_In eqb E) in Q. contradiction.
  - intros c1 IH1 c2 IH2 s [H1 H2]. destruct (IH1 H1) as (f1 & l1 & F1 & N1 & S1 & M1). destruct (IH2 H2) as (f2 & l2 & F2 & N2 & S2 & M2).
    exists (f1 + f2), (filter (fun x => smem eqb x l2) l1). split; [|split; [|split]].
    + intros fuel Hf. cbn [cdenotation]. rewrite F1, F2 by lia. reflexivity.
    + now apply NoDup_filter.
    + intros x Hx. apply filter_In in Hx. apply S1. tauto.
    + intros x. rewrite filter_In, (smem_In eqb E). cbn [cden]. now rewrite M1, M2.
  - intros c1 IH1 c2 IH2 s [H1 H2]. destruct (IH1 H1) as (f1 & l1 & F1 & N1 & S1 & M1). destruct (IH2 H2) as (f2 & l2 & F2 & N2 & S2 & M2).
    exists (f1 + f2), (sunion eqb l1 l2). split; [|split; [|split]].
    + intros fuel Hf. cbn [cdenotation]. rewrite F1, F2 by lia. reflexivity.
    + now apply sunion_NoDup.
    + intros x Hx. apply (sunion_In eqb E) in Hx. destruct Hx; auto.
    + intros x. rewrite (sunion_In eqb E). cbn [cden]. now rewrite M1, M2.
  - intros r IHr c IHc [Hr Hc]. destruct (IHr Hr) as (f1 & l1 & F1 & N1 & S1 & M1). destruct (IHc Hc) as (f2 & l2 & F2 & N2 & S2 & M2).
    exists (f1 + f2), (sof eqb (map fst (filter (fun xy => smem eqb (snd xy) l2) l1))).
    assert (Q : forall x, In x (sof eqb (map fst (filter (fun xy => smem eqb (snd xy) l2) l1))) <-> exists y, In (x, y) l1 /\ In y l2).
    { intros x. rewrite (sof_In eqb E), in_map_iff. split.
      - intros ([a b] & H1 & H2). cbn in H1. subst a. apply filter_In in H2 as [H2 H3]. apply (smem_In eqb E) in H3. eauto.
      - intros (y & H1 & H2). exists (x, y). split; [reflexivity|]. apply filter_In. split; [auto|]. now apply (smem_In eqb E). }
    split; [|split; [|split]].
    + intros fuel Hf. rewrite cd_exists, ?F1, ?F2 by lia. cbn [bind]. rewrite ?F1, ?F2 by lia. reflexivity.
    + apply sof_NoDup, E.
    + intros x Hx. apply Q in Hx as (y & Hx & _). apply (S1 x y Hx).
    + intros x. rewrite Q. cbn [cden]. split; intros (y & H1 & H2); exists y; split; try apply M1; try apply M2; auto.
  - intros r IHr c IHc [Hr Hc]. destruct (IHr Hr) as (f1 & l1 & F1 & N1 & S1 & M1). destruct (IHc Hc) as (f2 & l2 & F2 & N2 & S2 & M2).
    set (ys x := sunion eqb l2 (filter (fun y => negb (smem (pair_eqb eqb) (x, y) l1)) (i_universe I))).
    exists (f1 + f2), (filter (fun x => Nat.eqb (List.length (i_universe I)) (List.length (ys x))) (i_universe I)).
    split; [|split; [|split]].
    + intros fuel Hf. rewrite cd_forall, ?F1, ?F2 by lia. cbn [bind]. rewrite ?F1, ?F2 by lia. reflexivity.
    + now apply NoDup_filter.
    + intros x Hx. apply filter_In in Hx. tauto.
    + intros x. rewrite filter_In. cbn [cden]. rewrite Nat.eqb_eq.
      assert (NY : NoDup (ys x)) by (unfold ys; now apply sunion_NoDup).
      assert (SY : incl (ys x) (i_universe I)). { intros y Hy. unfold ys in Hy. apply (sunion_In eqb E) in Hy as [Hy|Hy]; [auto|]. apply filter_In in Hy. tauto. }
      assert (MY : forall y, In y (i_universe I) -> (In y (ys x) <-> (In (x, y) l1 -> In y l2))).
      { intros y Hy. unfold ys. rewrite (sunion_In eqb E), filter_In, Bool.negb_true_iff. destruct (smem (pair_eqb eqb) (x, y) l1) eqn:Q.
        - apply (smem_In _ PE) in Q. split; [intros [H|[_ H]]; [auto|discriminate]|auto].
        - assert (~ In (x, y) l1) by (intros H; apply (smem_In _ PE) in H; congruence). split; [tauto|auto]. }
      split; intros [H1 H2]; split; auto.
      * intros y Hy. apply M2. apply M1 in Hy. assert (Uy := proj2 (S1 x y Hy)). apply (MY y Uy); auto. assert (incl (i_universe I) (ys x)) as W by (apply NoDup_length_incl; auto; lia). auto.
      * apply Nat.le_antisymm; [|apply NoDup_incl_length; auto]. apply NoDup_incl_length; auto. intros y Hy. apply MY; auto. intros Hr'. apply M2, H2, M1, Hr'.
  - intros r1 IH1 r2 IH2 s [H1 H2]. destruct (IH1 H1) as (f1 & l1 & F1 & N1 & S1 & M1). destruct (IH2 H2) as (f2 & l2 & F2 & N2 & S2 & M2).
    set (ok x := let left := map snd (filter (fun yz => eqb (fst yz) x) l1) in let right := map snd (filter (fun yz => eqb (fst yz) x) l2) in
                 forallb (fun z => smem eqb z right) left && forallb (fun z => smem eqb z left) right).
    exists (f1 + f2), (filter ok (i_universe I)).
    assert (X : forall (l : list (A * A)) (x z : A), In z (map snd (filter (fun yz => eqb (fst yz) x) l)) <-> In (x, z) l).
    { intros l x z. rewrite in_map_iff. split. - intros ([a b] & Q1 & Q2). cbn in Q1. subst b. apply filter_In in Q2 as [Q2 Q3]. cbn in Q3. apply E in Q3. now subst.
      - intros Q. exists (x, z). split; [reflexivity|]. apply filter_In. split; [auto|]. now apply E. }
    split; [|split; [|split]].
    + intros fuel Hf. rewrite cd_equal, ?F1, ?F2 by lia. cbn [bind]. rewrite ?F1, ?F2 by lia. reflexivity.
    + now apply NoDup_filter.
    + intros x Hx. apply filter_In in Hx. tauto.
    + intros x. rewrite filter_In. cbn [cden]. unfold ok. cbn zeta. rewrite andb_true_iff, !forallb_forall. setoid_rewrite (smem_In eqb E). setoid_rewrite X.
      split; intros [Q1 Q2]; split; auto.
      * destruct Q2 as [Q2 Q3]. intros y. rewrite <- M1, <- M2. split; auto.
      * split; intros y Hy; [apply M2, Q2, M1, Hy|apply M1, Q2, M2, Hy].
  - intros g n s1 s2 _. exists 0, (i_role I g n). destruct (CR g n). split; [reflexivity|]. split; [auto|]. split; [auto|]. intros; reflexivity.
  - intros r IH H. destruct (IH H) as (f & l & F & N & S & M). exists f, (sof (pair_eqb eqb) (map (fun xy => (snd xy, fst xy)) l)).
    assert (Q : forall x y, In (x, y) (sof (pair_eqb eqb) (map (fun xy => (snd xy, fst xy)) l)) <-> In (y, x) l).
    { intros x y. rewrite (sof_In _ PE), in_map_iff. split. - intros ([a b] & Q1 & Q2). injection Q1 as <- <-. exact Q2. - intros Q. exists (y, x). auto. }
    split; [|split; [|split]].
    + intros fuel Hf. cbn [rdenotation]. now rewrite F.
    + apply sof_NoDup, PE.
    + intros x y Hxy. apply Q, S in Hxy. tauto.
    + intros x y. rewrite Q. apply M.
  - intros r IH H. destruct (IH H) as (f & l & F & N & S & M). destruct (C33_transitive_closure eqb E l) as (c & Hc & Nc & Mc).
    exists (f + Datatypes.S (List.length (list_prod (nodes l) (nodes l)))), c.
    assert (Q : forall x y, In (x, y) c <-> clos_trans A (rden I r) x y).
    { intros x y. rewrite Mc. split; intros T; (induction T as [x y T|x y z _ T1 _ T2]; [apply t_step; apply M; exact T|eapply t_trans; eauto]). }
    split; [|split; [|split]].
    + intros fuel Hf. cbn [rdenotation]. rewrite F by lia. cbn [bind]. apply Hc. lia.
    + exact Nc.
    + intros x y Hxy. apply Mc in Hxy. induction Hxy as [x y T|x y z _ T1 _ T2]; [apply S, T|tauto].
    + exact Q.
  - intros r1 IH1 r2 IH2 (H1 & H2 & FN). destruct (IH1 H1) as (f1 & l1 & F1 & N1 & S1 & M1). destruct (IH2 H2) as (f2 & l2 & F2 & N2 & S2 & M2).
    exists (f1 + f2), (sof (pair_eqb eqb) (flat_map (fun ab => map (fun y => (fst ab, y)) (first_match eqb (snd ab) (order l2))) l1)).
    assert (Q : forall x y, In (x, y) (sof (pair_eqb eqb) (flat_map (fun ab => map (fun y => (fst ab, y)) (first_match eqb (snd ab) (order l2))) l1)) <-> exists z, In (x, z) l1 /\ In (z, y) l2).
    { intros x y. rewrite (sof_In _ PE), in_flat_map. split.
      - intros ([a b] & Q1 & Q2). apply in_map_iff in Q2 as (y' & Q2 & Q3). injection Q2 as <- <-. apply first_match_In in Q3. rewrite in_order in Q3. exists b. auto.
      - intros (z & Q1 & Q2). exists (x, z). split; [auto|]. apply in_map_iff. exists y. split; [reflexivity|]. cbn [snd]. destruct (first_match_some z y (order l2)) as (y' & Hy'); [now apply in_order|].
        replace y with y'; [auto|]. apply (FN z); [|now apply M2]. apply M2. rewrite <- in_order. apply first_match_In, Hy'. }
    split; [|split; [|split]].
    + intros fuel Hf. cbn [rdenotation]. rewrite F1, F2 by lia. reflexivity.
    + apply sof_NoDup, PE.
    + intros x y Hxy. apply Q in Hxy as (z & Q1 & Q2). apply S1 in Q1. apply S2 in Q2. tauto.
    + intros x y. rewrite Q. cbn [rden]. split; intros (z & Q1 & Q2); exists z; (split; [apply M1|apply M2]); auto.
  - intros r IHr c IHc [Hr Hc]. destruct (IHr Hr) as (f1 & l1 & F1 & N1 & S1 & M1). destruct (IHc Hc) as (f2 & l2 & F2 & N2 & S2 & M2).
    exists (f1 + f2), (filter (fun xy => smem eqb (snd xy) l2) l1). split; [|split; [|split]].
    + intros fuel Hf. rewrite rd_restrict, ?F1, ?F2 by lia. cbn [bind]. rewrite ?F1, ?F2 by lia. reflexivity.
    + now apply NoDup_filter.
    + intros x y Hxy. apply filter_In in Hxy as [Hxy _]. auto.
    + intros x y. rewrite filter_In, (smem_In eqb E). cbn [rden snd]. now rewrite M1, M2.
Qed.
End Denotation.

(** ** C35 *)
(** The denotation of a concept (role) is the set (relation) of the textbook semantics when in every composition the second role is functional
    in the interpretation, for every iteration order of the sets. The Python computation is complete after [f0] rounds of each transitive closure. *)
Theorem C35_concept_denotation : forall A (eqb : A -> A -> bool) (I : interp A) order c, decides eqb -> closed I -> (forall l, Permutation l (order l)) -> c_compositions_functional I c ->
  exists f0 l, (forall fuel, f0 <= fuel -> cdenotation eqb I order fuel c = Ok l) /\ NoDup l /\ forall x, In x l <-> cden I c x.
Proof. intros A eqb I order c E C O H. destruct (proj1 (denotations eqb E I order C O) c H) as (f & l & F & N & _ & M). eauto. Qed.
Theorem C35_role_denotation : forall A (eqb : A -> A -> bool) (I : interp A) order r, decides eqb -> closed I -> (forall l, Permutation l (order l)) -> r_compositions_functional I r ->
  exists f0 l, (forall fuel, f0 <= fuel -> rdenotation eqb I order fuel r = Ok l) /\ NoDup l /\ forall x y, In (x, y) l <-> rden I r x y.
Proof. intros A eqb I order r E C O H. destruct (proj2 (denotations eqb E I order C O) r H) as (f & l & F & N & _ & M). eauto. Qed.
(** What composition computes in general: some of the pairs of the composition, at least one for each link. *)
Theorem C35_composition_any : forall A (eqb : A -> A -> bool) (I : interp A) order fuel r1 r2 e1 e2, decides eqb -> (forall l, Permutation l (order l)) ->
  rdenotation eqb I order fuel r1 = Ok e1 -> rdenotation eqb I order fuel r2 = Ok e2 -> exists l, rdenotation eqb I order fuel (RComp r1 r2) = Ok l /\
  (forall x y, In (x, y) l -> exists z, In (x, z) e1 /\ In (z, y) e2) /\
  (forall x z y, In (x, z) e1 -> In (z, y) e2 -> exists y', In (x, y') l /\ In (z, y') e2).
Proof.
  intros A eqb I order fuel r1 r2 e1 e2 E O H1 H2. cbn [rdenotation]. rewrite H1, H2. cbn [bind]. eexists. split; [reflexivity|]. split.
  - intros x y H. apply (sof_In _ (pair_eqb_decides eqb E)), in_flat_map in H as ([a b] & Q1 & Q2). apply in_map_iff in Q2 as (y' & Q2 & Q3). injection Q2 as <- <-.
    apply (first_match_In eqb E) in Q3. rewrite (in_order order O) in Q3. eauto.
  - intros x z y Hx Hz. destruct (first_match_some eqb E z y (order e2)) as (y' & Hy'); [now rewrite (in_order order O)|]. exists y'. split.
    + apply (sof_In _ (pair_eqb_decides eqb E)), in_flat_map. exists (x, z). split; [auto|]. apply in_map_iff. eauto.
    + rewrite <- (in_order order O). now apply (first_match_In eqb E).
Qed.
(** A three-element interpretation where a composition misses a pair, so that a concept built on it denotes the wrong set: r = {(1,2)}, s = {(2,1),(2,3)}; goal variants swapped. *)
Definition I3 : interp nat := {| i_universe := [1; 2; 3]; i_nominal := fun _ => [3];
  i_concept := fun g n => if String.eqb n "c" then [1; 3] else [];
  i_role := fun g n => if String.eqb n "r" then [(1, 2)] else if String.eqb n "s" then [(2, 1); (2, 3)] else [] |}.
Definition role_r := RPrim false "r" "object" "object".
Definition role_s := RPrim false "s" "object" "object".
Lemma I3_closed : closed I3.
Proof.
  split; [repeat constructor; cbn; intuition congruence|]. split; [|split].
  - intros n. split; [repeat constructor; cbn; intuition congruence|]. intros x [<- |[]]. cbn. auto.
  - intros g n. cbn. destruct (String.eqb n "c"); (split; [repeat constructor; cbn; intuition congruence|]). + intros x [<- |[<- |[]]]; cbn; auto. + intros x [].
  - intros g n. cbn. destruct (String.eqb n "r"); [|destruct (String.eqb n "s")]; (split; [repeat constructor; cbn; intuition congruence|]); intros x y H; cbn in H |- *; intuition congruence.
Qed.
Theorem C35_composition_refuted : closed I3 /\ (forall fuel, cdenotation Nat.eqb I3 (fun l => l) fuel (CExists (RComp role_r role_s) (CNominal "3" "object")) = Ok []) /\
  cden I3 (CExists (RComp role_r role_s) (CNominal "3" "object")) 1.
Proof. split; [exact I3_closed|]. split; [reflexivity|]. exists 3. split; [exists 2; split; cbn; auto|cbn; auto]. Qed.
(** ... and the answer depends on the iteration order of a set. *)
Theorem C35_composition_order_refuted : (forall fuel, cdenotation Nat.eqb I3 (fun l => l) fuel (CExists (RComp role_r role_s) (CNominal "3" "object")) = Ok []) /\
  (forall fuel, cdenotation Nat.eqb I3 (@rev _) fuel (CExists (RComp role_r role_s) (CNominal "3" "object")) = Ok [1]).
Proof. split; intros; reflexivity. Qed.
(** Star is not the reflexive transitive closure. *)
Theorem C35_star_not_reflexive_refuted : closed I3 /\ In 1 (i_universe I3) /\ forall fuel l, rdenotation Nat.eqb I3 (fun l => l) fuel (RStar role_r) = Ok l -> ~ In (1, 1) l.
Proof.
  split; [exact I3_closed|]. split; [cbn; auto|]. intros fuel l H. cbn [rdenotation] in H. cbn [bind] in H. destruct fuel as [|fuel]; [discriminate H|]. injection H as <-. cbn. intuition congruence.
Qed.
Example C35_nonvacuous : c_compositions_functional I3 (CForall (RComp role_s role_r) (CNot (CEqual (RStar role_r) (RInverse role_s) "object") "object")) /\
  cdenotation Nat.eqb I3 (@rev _) 10 (CForall (RComp role_s role_r) (CNot (CEqual (RStar role_r) (RInverse role_s) "object") "object")) = Ok [1; 3] /\
  cdenotation Nat.eqb I3 (@rev _) 10 (CForall role_s (CNominal "3" "object")) = Ok [1; 3].
Proof.
  split; [|split; reflexivity]. cbn. repeat split. intros x y z H1 H2. cbn in H1, H2. intuition congruence.
Qed.

(** Features. [l1], [l2] and [er] list the sets and the relation denoted by the components, without repetition: cardinality, comparison of cardinalities, the empirical
    binary feature and the length of a shortest path (capped at sys.maxsize, which also stands for "none"). *)
Theorem C35_features : forall A (eqb : A -> A -> bool) (I : interp A) order c1 r c2, decides eqb -> closed I -> (forall l, Permutation l (order l)) ->
  c_compositions_functional I c1 -> r_compositions_functional I r -> c_compositions_functional I c2 ->
  exists f0 l1 er l2, (NoDup l1 /\ forall x, In x l1 <-> cden I c1 x) /\ (NoDup er /\ forall x y, In (x, y) er <-> rden I r x y) /\ (NoDup l2 /\ forall x, In x l2 <-> cden I c2 x) /\
    exists d, (0 <= d <= maxsize)%Z /\ (d = maxsize \/ connects er l1 l2 (Z.to_nat d)) /\ (forall k, connects er l1 l2 k -> (d <= Z.of_nat k)%Z) /\ forall fuel, f0 <= fuel ->
      min_distance eqb I order fuel c1 r c2 = Ok d /\
      cardinality eqb I order fuel c1 = Ok (Z.of_nat (List.length l1)) /\
      (exists b, difference eqb I order fuel c1 c2 = Ok b /\ (b = true <-> List.length l1 < List.length l2)) /\
      empirical_binary eqb I order fuel c1 = match List.length l1 with 0 => Ok false | 1 => Ok true | _ => Err AssertionError end.
Proof.
  intros A eqb I order c1 r c2 E C O H1 Hr H2. destruct (C35_concept_denotation A eqb I order c1 E C O H1) as (f1 & l1 & F1 & N1 & M1).
  destruct (C35_role_denotation A eqb I order r E C O Hr) as (f3 & er & F3 & N3 & M3). destruct (C35_concept_denotation A eqb I order c2 E C O H2) as (f2 & l2 & F2 & N2 & M2).
  destruct (C34_min_distance eqb E l1 er l2) as (d & f4 & F4 & D1 & D2 & D3).
  exists (f1 + f2 + f3 + f4), l1, er, l2. split; [auto|]. split; [auto|]. split; [auto|]. exists d. split; [auto|]. split; [auto|]. split; [auto|]. intros fuel Hf.
  assert (K : cardinality eqb I order fuel c1 = Ok (Z.of_nat (List.length l1))) by (unfold cardinality; rewrite F1 by lia; reflexivity).
  split; [|split; [|split]].
  - unfold min_distance. rewrite F1, F2, F3 by lia. cbn [bind]. apply F4. lia.
  - exact K.
  - unfold difference. rewrite K. unfold cardinality. rewrite F2 by lia. cbn [bind]. eexists. split; [reflexivity|]. rewrite Z.ltb_lt. lia.
  - unfold empirical_binary. rewrite K. cbn [bind]. destruct (List.length l1) as [|[|n]]; [reflexivity|reflexivity|]. destruct (Z.eqb_spec (Z.of_nat (S (S n))) 0); [lia|]. destruct (Z.eqb_spec (Z.of_nat (S (S n))) 1); [lia|reflexivity].
Qed.

(** The size attribute is the number of nodes other than top and bottom. *)
Theorem C35_size : (forall c, csize c = List.length (filter counts (cflatten c))) /\ (forall r, rsize r = List.length (filter counts (rflatten r))).
Proof.
  apply dl_ind; intros; cbn [csize rsize cflatten rflatten counts filter List.length]; rewrite ?filter_app, ?app_length; congruence || (repeat match goal with H : _ = List.length _ |- _ => rewrite <- H end; reflexivity) || idtac.
Qed.
(** Qualitative changes: a decrease, an increase, a Boolean that becomes true or false, or nothing. *)
Theorem C35_changes : (forall x y, (0 <= x -> 0 <= y -> (int_diff x y = Ok Dec <-> y < x) /\ (int_diff x y = Ok Inc <-> x < y) /\ (int_diff x y = Ok Nil_ <-> x = y))%Z) /\
  (forall x y, (int_diff x y = Err AssertionError <-> (x < 0 \/ y < 0)%Z)) /\
  (forall x y, (bool_diff x y = Add_ <-> x = false /\ y = true) /\ (bool_diff x y = Del_ <-> x = true /\ y = false) /\ (bool_diff x y = Nil_ <-> x = y)).
Proof.
  split; [|split].
  - intros x y Hx Hy. unfold int_diff. destruct (Z.ltb_spec x 0); [lia|]. destruct (Z.ltb_spec y 0); [lia|]. cbn [orb]. destruct (Z.eqb_spec x y); [|destruct (Z.ltb_spec y x)];
    repeat split; intros; try lia; try discriminate; reflexivity.
  - intros x y. unfold int_diff. destruct (Z.ltb_spec x 0), (Z.ltb_spec y 0); cbn [orb]; try (split; [lia|reflexivity]). destruct (Z.eqb x y); [|destruct (Z.ltb y x)]; split; try discriminate; lia.
  - intros [|] [|]; cbn; repeat split; intros; try discriminate; intuition congruence.
Qed.

(** ** C47: what the factory refuses to build is redundant. *)
Section Factory.
Context {A : Type} (eqb : A -> A -> bool) (E : decides eqb) (I : interp A).
Hypothesis C : closed I.
Lemma den_universe : (forall c x, cden I c x -> In x (i_universe I)) /\ (forall r x y, rden I r x y -> In x (i_universe I) /\ In y (i_universe I)).
Proof.
  destruct C as (NU & CN & CC & CR). apply dl_ind; cbn [cden rden]; intros; try tauto.
  - now apply (CN name).
  - now apply (CC goal name).
  - destruct H1. eauto.
  - destruct H1; auto.
  - destruct H1 as (y & H1 & _). apply (H _ _ H1).
  - now apply (CR goal name).
  - apply and_comm. apply H, H0.
  - induction H0 as [x y T|x y z _ T1 _ T2]; [apply H, T|tauto].
  - destruct H1 as (z & H1 & H2). apply H in H1. apply H0 in H2. tauto.
  - apply H, H1.
Qed.
Lemma finite_list (P : A * A -> Prop) : forall l, (forall p, In p l -> P p \/ ~ P p) -> exists l', forall p, In p l' <-> In p l /\ P p.
Proof.
  induction l as [|p l IH]; intros D; [exists []; cbn; tauto|]. destruct IH as (l' & H); [intros; apply D; now right|]. destruct (D p) as [H1|H1]; [now left| |].
  - exists (p :: l'). intros q. cbn. rewrite H. intuition (subst; auto).
  - exists l'. intros q. rewrite H. cbn. intuition (subst; tauto).
Qed.
Lemma dec_exists (P : A -> Prop) : (forall x, P x \/ ~ P x) -> forall l, (exists x, In x l /\ P x) \/ ~ exists x, In x l /\ P x.
Proof.
  intros D. induction l as [|a l [IH|IH]]; [right; intros (x & [] & _)|left; destruct IH as (x & H); exists x; split; [right|]; tauto|].
  destruct (D a) as [H|H]; [left; exists a; split; [now left|auto]|]. right. intros (x & [<- |Q] & R); [auto|]. apply IH. eauto.
Qed.
Lemma dec_forall (P : A -> Prop) : (forall x, P x \/ ~ P x) -> forall l, (forall x, In x l -> P x) \/ ~ (forall x, In x l -> P x).
Proof.
  intros D l. destruct (dec_exists (fun x => ~ P x) (fun x => match D x with or_introl h => or_intror (fun k => k h) | or_intror h => or_introl h end) l) as [(x & H1 & H2)|H].
  - right. auto.
  - left. intros x Hx. destruct (D x) as [|N]; [auto|]. exfalso. eauto.
Qed.
Lemma In_dec_eqb {B} (e : B -> B -> bool) (D : decides e) (x : B) (l : list B) : In x l \/ ~ In x l.
Proof. destruct (smem e x l) eqn:Q; [left; now apply (smem_In e D)|right; intros H; apply (smem_In e D) in H; congruence]. Qed.
Lemma den_decidable : (forall c x, cden I c x \/ ~ cden I c x) /\ (forall r x y, rden I r x y \/ ~ rden I r x y).
Proof.
  destruct den_universe as [UC UR].
  assert (PE' := pair_eqb_decides eqb E).
  apply dl_ind; cbn [cden rden]; intros; try (now apply (In_dec_eqb eqb E)); try (now apply (In_dec_eqb _ PE')).
  - tauto.
  - destruct (H x), (In_dec_eqb eqb E x (i_universe I)); tauto.
  - destruct (H x), (H0 x); tauto.
  - destruct (H x), (H0 x); tauto.
  - destruct (dec_exists (fun y => rden I r x y /\ cden I c y)) with (l := i_universe I) as [(y & _ & Q)|Q].
    + intros y. destruct (H x y), (H0 y); tauto.
    + left. eauto.
    + right. intros (y & Q1 & Q2). apply Q. exists y. split; [apply (UR r _ _ Q1)|auto].
  - destruct (In_dec_eqb eqb E x (i_universe I)) as [U|U]; [|tauto].
    destruct (dec_forall (fun y => rden I r x y -> cden I c y)) with (l := i_universe I) as [Q|Q].
    + intros y. destruct (H x y), (H0 y); tauto.
    + left. split; [auto|]. intros y Hy. apply Q; [apply (UR r _ _ Hy)|auto].
    + right. intros [_ K]. apply Q. auto.
  - destruct (In_dec_eqb eqb E x (i_universe I)) as [U|U]; [|tauto].
    destruct (dec_forall (fun y => rden I r1 x y <-> rden I r2 x y)) with (l := i_universe I) as [Q|Q].
    + intros y. destruct (H x y), (H0 x y); tauto.
    + left. split; [auto|]. intros y. split; intros Hy; apply Q; auto; eapply UR; eassumption.
    + right. intros [_ K]. apply Q. auto.
  - apply H.
  - destruct (finite_list (fun p => rden I r (fst p) (snd p)) (list_prod (i_universe I) (i_universe I))) as (l & L). { intros. apply H. }
    assert (L' : forall x y, In (x, y) l <-> rden I r x y). { intros a b. rewrite L, in_prod_iff. cbn. split; [tauto|]. intros K. split; [apply (UR r _ _ K)|auto]. }
    destruct (C33_transitive_closure eqb E l) as (c & _ & _ & Mc).
    assert (Q : forall x y, In (x, y) c <-> clos_trans A (rden I r) x y).
    { intros a b. rewrite Mc. split; intros T; (induction T as [a b T|a b d _ T1 _ T2]; [apply t_step; apply L'; exact T|eapply t_trans; eauto]). }
    destruct (In_dec_eqb _ PE' (x, y) c) as [K|K]; rewrite Q in K; auto.
  - destruct (dec_exists (fun z => rden I r1 x z /\ rden I r2 z y)) with (l := i_universe I) as [(z & _ & Q)|Q].
    + intros z. destruct (H x z), (H0 z y); tauto.
    + left. eauto.
    + right. intros (z & Q1 & Q2). apply Q. exists z. split; [apply (UR r1 _ _ Q1)|auto].
  - destruct (H x y), (H0 y); tauto.
Qed.
Variable sub : sort -> sort -> bool.
Variable objs : sort -> A -> Prop.
Hypothesis S : sorted sub objs.
Lemma role_sort : forall r, r_well_sorted I objs r -> forall x y, rden I r x y -> objs (fst (rsort r)) x /\ objs (snd (rsort r)) y.
Proof.
  fix IH 1. destruct r; cbn [r_well_sorted rden rsort fst snd]; intros W x y H.
  - auto.
  - apply and_comm. apply (IH r W _ _ H).
  - induction H as [x y T|x y z _ T1 _ T2]; [apply (IH r W _ _ T)|tauto].
  - destruct W as [W1 W2], H as (z & H1 & H2). apply (IH _ W1) in H1. apply (IH _ W2) in H2. tauto.
  - destruct W as [W1 W2], H as [H1 H2]. apply (IH _ W1) in H1. tauto.
Qed.
Lemma concept_sort : forall c, sort_bounded c = true -> c_well_sorted I objs c -> forall x, cden I c x -> objs (csort c) x.
Proof.
  induction c; cbn [sort_bounded c_well_sorted cden csort]; intros B W x H; try discriminate; auto; try tauto.
  - destruct W, H. auto.
  - apply andb_true_iff in B as [B1 B2]. destruct W as (W1 & W2 & [-> | ->]), H; auto.
  - destruct H as (y & H & _), W as [W _]. apply (role_sort r W _ _ H).
Qed.
Lemma unrelated s t x : related sub s t = false -> objs s x -> objs t x -> False.
Proof. intros R H1 H2. unfold related in R. apply orb_false_iff in R as [R1 R2]. destruct S as [_ S2]. destruct (S2 s t x H1 H2); congruence. Qed.
Lemma unrestricted s t x : most_restricted sub s t = None -> objs s x -> objs t x -> False.
Proof. unfold most_restricted. intros R H1 H2. destruct S as [_ S2]. destruct (sub s t) eqn:Q1; [discriminate|]. destruct (sub t s) eqn:Q2; [discriminate|]. destruct (S2 s t x H1 H2); congruence. Qed.
Lemma ceqb_same chash rhash : (forall c d, ceqb chash rhash c d = true -> c_same I c d) /\ (forall r q, reqb chash rhash r q = true -> r_same I r q).
Proof.
  unfold c_same, r_same. apply dl_ind; intros; match goal with H : ceqb _ _ _ ?d = true |- _ => destruct d | H : reqb _ _ _ ?q = true |- _ => destruct q end; cbn [ceqb reqb] in *; try discriminate; fold (reqb chash rhash) in *; fold (ceqb chash rhash) in *; cbn [cden rden]; fold (rden I); fold (cden I); try tauto;
  repeat match goal with H : _ && _ = true |- _ => apply andb_true_iff in H as [? ?] end;
  repeat match goal with H : String.eqb _ _ = true |- _ => apply String.eqb_eq in H; subst | H : Bool.eqb _ _ = true |- _ => apply Bool.eqb_prop in H; subst end; try tauto;
  repeat match goal with IH : forall d, ceqb _ _ ?c d = true -> _, H : ceqb _ _ ?c _ = true |- _ => specialize (IH _ H) | IH : forall d, reqb _ _ ?c d = true -> _, H : reqb _ _ ?c _ = true |- _ => specialize (IH _ H) end.
  all: clear C S E.
  all: try (match goal with |- clos_trans _ _ _ _ <-> _ => fail 1 | _ => idtac end; repeat match goal with H : forall x y, rden I _ x y <-> _ |- _ => setoid_rewrite H; clear H | H : forall x, cden I _ x <-> _ |- _ => setoid_rewrite H; clear H end; reflexivity).
  split; intros T; (induction T as [a b T|a b d _ T1 _ T2]; [apply t_step, H, T|eapply t_trans; eauto]).
Qed.
End Factory.

(** Each [create_*] operation either builds exactly the requested expression, or returns None, and then what was requested denotes (in every finite interpretation of the sorts) nothing,
    or the same as a simpler expression that is given. Operand concepts are well-sorted and their sort attribute bounds them (see [C47_unbounded_refuted]). [chash], [rhash]: the precomputed hashes. *)
Theorem C47_exists : forall A (I : interp A) sub objs r c, closed I -> sorted sub objs -> r_well_sorted I objs r -> c_well_sorted I objs c -> sort_bounded c = true ->
  match create_exists sub r c with
  | Some e => e = CExists r c
  | None => c_empty I (CExists r c) \/ exists r' c', r = RRestrict r' c' /\ c_same I (CExists r c) (CExists r' c')
  end.
Proof.
  intros A I sub objs r c C S Wr Wc B. unfold create_exists. destruct (is_bot c) eqn:X1. { destruct c; try discriminate. left. intros x (y & _ & []). }
  destruct (related sub (snd (rsort r)) (csort c)) eqn:X2; cbn [negb].
  2:{ left. intros x (y & H1 & H2). apply (unrelated sub objs S _ _ y X2). - apply (role_sort I objs r Wr x y H1). - now apply (concept_sort I objs). }
  destruct (is_restrict r && is_top c) eqn:X3; [|reflexivity]. right. destruct r; try discriminate. destruct c as [s| | | | | | | | |]; try discriminate. exists r, c0. split; [reflexivity|].
  intros x. cbn [cden rden]. split; intros (y & H1 & H2); exists y; [tauto|]. split; [tauto|]. apply (proj2 (den_universe I C) r x y H1).
Qed.
Theorem C47_not : forall A (eqb : A -> A -> bool) (I : interp A) c, decides eqb -> closed I ->
  match create_not c with Some e => e = CNot c "object" | None => exists c' s, c = CNot c' s /\ c_same I (CNot c "object") c' end.
Proof.
  intros A eqb I c E C. unfold create_not. destruct c; try reflexivity. cbn [is_not]. exists c, s. split; [reflexivity|]. intros x. cbn [cden]. split.
  - intros [H1 H2]. destruct (proj1 (den_decidable eqb E I C) c x); tauto.
  - intros H. assert (U := proj1 (den_universe I C) c x H). tauto.
Qed.
Theorem C47_forall : forall A (I : interp A) sub objs r c, closed I -> sorted sub objs -> r_well_sorted I objs r -> c_well_sorted I objs c -> sort_bounded c = true ->
  match create_forall sub r c with
  | Some e => e = CForall r c
  | None => c_same I (CForall r c) (CTop "object") \/ c_same I (CForall r c) (CForall r (CBot "object"))
  end.
Proof.
  intros A I sub objs r c C S Wr Wc B. unfold create_forall. destruct (is_top c) eqn:X1.
  { destruct c; try discriminate. left. intros x. cbn [cden]. split; [tauto|]. intros U. split; [auto|]. intros y Hy. apply (proj2 (den_universe I C) r x y Hy). }
  destruct (related sub (snd (rsort r)) (csort c)) eqn:X2; cbn [negb]; [reflexivity|]. right. intros x. cbn [cden]. split; intros [U H]; (split; [exact U|]); intros y Hy.
  - apply (unrelated sub objs S _ _ y X2). + apply (role_sort I objs r Wr x y Hy). + apply (concept_sort I objs); auto.
  - destruct (H y Hy).
Qed.
Theorem C47_and : forall A (I : interp A) chash rhash sub objs c1 c2, closed I -> sorted sub objs -> c_well_sorted I objs c1 -> c_well_sorted I objs c2 -> sort_bounded c1 = true -> sort_bounded c2 = true ->
  match create_and chash rhash sub c1 c2 with
  | Some e => (exists s, e = CAnd c1 c2 s) /\ c_well_sorted I objs e /\ sort_bounded e = true
  | None => c_empty I (CAnd c1 c2 "object") \/ c_same I (CAnd c1 c2 "object") c1 \/ c_same I (CAnd c1 c2 "object") c2
  end.
Proof.
  intros A I chash rhash sub objs c1 c2 C S W1 W2 B1 B2. unfold create_and. destruct (ceqb chash rhash c1 c2) eqn:X1.
  { right. left. intros x. cbn [cden]. assert (K := proj1 (ceqb_same I chash rhash) c1 c2 X1 x). tauto. }
  assert (U := proj1 (den_universe I C)).
  destruct (is_top c1) eqn:T1. { right. right. destruct c1; try discriminate. intros x. cbn [cden orb]. split; [tauto|]. intros H. split; [apply (U c2); auto|auto]. }
  destruct (is_bot c1) eqn:T2. { left. destruct c1; try discriminate. intros x [[] _]. }
  destruct (is_top c2) eqn:T3. { right. left. destruct c2; try discriminate. intros x. cbn [cden orb]. split; [tauto|]. intros H. split; [auto|apply (U c1); auto]. }
  destruct (is_bot c2) eqn:T4. { left. destruct c2; try discriminate. intros x [_ []]. }
  cbn [orb]. destruct (most_restricted sub (csort c1) (csort c2)) as [s|] eqn:X2.
  - split; [eauto|]. cbn [c_well_sorted sort_bounded]. rewrite B1, B2. split; [|reflexivity]. split; [auto|]. split; [auto|]. unfold most_restricted in X2. destruct (sub (csort c1) (csort c2)); [injection X2; auto|]. destruct (sub (csort c2) (csort c1)); [injection X2; auto|discriminate].
  - left. intros x [H1 H2]. apply (unrestricted sub objs S _ _ x X2); now apply (concept_sort I objs).
Qed.
(** Without a common subsort, and unless one operand is top or bottom or both are equal, [create_or_concept] fails its assertion. *)
Theorem C47_or : forall A (I : interp A) chash rhash sub c1 c2, closed I ->
  match create_or chash rhash sub c1 c2 with
  | Ok (Some e) => exists s, e = COr c1 c2 s
  | Ok None => c_same I (COr c1 c2 "object") c1 \/ c_same I (COr c1 c2 "object") c2
  | Err e => e = AssertionError /\ sub (csort c1) (csort c2) = false /\ sub (csort c2) (csort c1) = false
  end.
Proof.
  intros A I chash rhash sub c1 c2 C. unfold create_or. destruct (ceqb chash rhash c1 c2) eqn:X1.
  { left. intros x. cbn [cden]. assert (K := proj1 (ceqb_same I chash rhash) c1 c2 X1 x). tauto. }
  assert (U := proj1 (den_universe I C)).
  destruct (is_top c1) eqn:T1. { left. destruct c1; try discriminate. intros x. cbn [cden orb]. split; [|tauto]. intros [H|H]; [auto|apply (U c2); auto]. }
  destruct (is_bot c1) eqn:T2. { right. destruct c1; try discriminate. intros x. cbn. tauto. }
  destruct (is_top c2) eqn:T3. { right. destruct c2; try discriminate. intros x. cbn [cden orb]. split; [|tauto]. intros [H|H]; [apply (U c1); auto|auto]. }
  destruct (is_bot c2) eqn:T4. { left. destruct c2; try discriminate. intros x. cbn. tauto. }
  cbn [orb]. unfold most_restricted. destruct (sub (csort c1) (csort c2)) eqn:Q1; [eauto|]. destruct (sub (csort c2) (csort c1)) eqn:Q2; [eauto|auto].
Qed.
Theorem C47_equal : forall A (I : interp A) sub objs r1 r2, closed I -> sorted sub objs -> r_well_sorted I objs r1 -> r_well_sorted I objs r2 ->
  match create_equal sub r1 r2 with
  | Some e => exists s, e = CEqual r1 r2 s
  | None => c_same I (CEqual r1 r2 "object") (CAnd (CNot (CExists r1 (CTop "object")) "object") (CNot (CExists r2 (CTop "object")) "object") "object")
  end.
Proof.
  intros A I sub objs r1 r2 C S W1 W2. unfold create_equal. destruct (most_restricted sub (fst (rsort r1)) (fst (rsort r2))) eqn:X; [eauto|]. intros x. cbn [cden]. split.
  - intros [U H]. split; (split; [exact U|]); intros (y & H1 & _); apply (unrestricted sub objs S _ _ x X).
    + apply (role_sort I objs r1 W1 x y H1). + apply (role_sort I objs r2 W2 x y), H, H1.
    + apply (role_sort I objs r1 W1 x y), H, H1. + apply (role_sort I objs r2 W2 x y H1).
  - intros [[U H1] [_ H2]]. split; [exact U|]. intros y. split; intros H; exfalso; [apply H1|apply H2]; exists y; (split; [exact H|]); eapply (proj2 (den_universe I C)); exact H.
Qed.
Theorem C47_restrict : forall A (I : interp A) sub objs r c, closed I -> sorted sub objs -> r_well_sorted I objs r -> c_well_sorted I objs c -> sort_bounded c = true ->
  match create_restrict sub r c with
  | Some e => e = RRestrict r c
  | None => r_empty I (RRestrict r c) \/ r_same I (RRestrict r c) r \/ exists r' c', r = RRestrict r' c' /\ r_same I (RRestrict r c) (RRestrict r' (CAnd c' c "object"))
  end.
Proof.
  intros A I sub objs r c C S Wr Wc B. unfold create_restrict. destruct (related sub (snd (rsort r)) (csort c)) eqn:X2; cbn [negb].
  2:{ left. intros x y [H1 H2]. apply (unrelated sub objs S _ _ y X2). - apply (role_sort I objs r Wr x y H1). - now apply (concept_sort I objs). }
  destruct (is_top c) eqn:T1. { right. left. destruct c; try discriminate. intros x y. cbn [rden cden orb]. split; [tauto|]. intros H. split; [auto|]. apply (proj2 (den_universe I C) r x y H). }
  destruct (is_bot c) eqn:T2. { left. destruct c; try discriminate. intros x y [_ []]. }
  cbn [orb]. destruct (is_restrict r) eqn:T3; [|reflexivity]. right. right. destruct r; try discriminate. exists r, c0. split; [reflexivity|]. intros x y. cbn [rden cden]. tauto.
Qed.
Lemma ncomp_flatten : (forall c, compositions (cflatten c) = c_ncomp c) /\ (forall r, compositions (rflatten r) = r_ncomp r).
Proof. unfold compositions. apply dl_ind; intros; cbn [c_ncomp r_ncomp cflatten rflatten filter List.length]; rewrite ?filter_app, ?app_length; cbn [List.length]; lia. Qed.
Theorem C47_composition : forall A (I : interp A) sub objs r1 r2, sorted sub objs -> r_well_sorted I objs r1 -> r_well_sorted I objs r2 ->
  match create_composition sub r1 r2 with
  | Some e => e = RComp r1 r2 /\ r_ncomp e <= 2
  | None => r_empty I (RComp r1 r2) \/ r_ncomp (RComp r1 r2) > 2
  end.
Proof.
  intros A I sub objs r1 r2 S W1 W2. unfold create_composition. destruct (related sub (snd (rsort r1)) (fst (rsort r2))) eqn:X; cbn [negb].
  2:{ left. intros x y (z & H1 & H2). apply (unrelated sub objs S _ _ z X). - apply (role_sort I objs r1 W1 x z H1). - apply (role_sort I objs r2 W2 z y H2). }
  rewrite (proj2 ncomp_flatten). destruct (Nat.ltb_spec 2 (r_ncomp (RComp r1 r2))); [right; lia|auto].
Qed.
(** Elements that compare equal denote the same, whatever their hashes. *)
Theorem C47_equality_sound : forall A (I : interp A) chash rhash, (forall c d, ceqb chash rhash c d = true -> c_same I c d) /\ (forall r q, reqb chash rhash r q = true -> r_same I r q).
Proof. intros. apply ceqb_same. Qed.
(** The sort attribute of an Or concept is the smaller of the two sorts, which does not bound its denotation: an Exists concept over it is refused although its denotation is not empty.
    Sorts a and b below object; d is an object of sort a; c1 (over object) holds of d. *)
Definition sub_ab (s t : sort) : bool := String.eqb s t || String.eqb t "object".
Definition objs_ab (s : sort) (x : nat) : Prop := s = "object" \/ (s = "a" /\ x = 1) \/ (s = "b" /\ x = 2).
Definition I_ab : interp nat := {| i_universe := [1; 2]; i_nominal := fun _ => []; i_concept := fun _ n => if String.eqb n "c1" then [1] else [2]; i_role := fun _ _ => [(1, 1)] |}.
Definition c_or := COr (CPrim false "c1" "object") (CPrim false "c2" "b") "b".
Theorem C47_unbounded_refuted : closed I_ab /\ sorted sub_ab objs_ab /\ create_or (fun _ _ => true) (fun _ _ => true) sub_ab (CPrim false "c1" "object") (CPrim false "c2" "b") = Ok (Some c_or) /\
  c_well_sorted I_ab objs_ab c_or /\ r_well_sorted I_ab objs_ab (RPrim false "r" "a" "a") /\ create_exists sub_ab (RPrim false "r" "a" "a") c_or = None /\ cden I_ab (CExists (RPrim false "r" "a" "a") c_or) 1.
Proof.
  split. { split; [repeat constructor; cbn; intuition congruence|]. split; [intros; split; [constructor|intros ? []]|]. split.
    - intros g n. cbn. destruct (String.eqb n "c1"); (split; [repeat constructor; cbn; intuition congruence|]); intros x H; cbn in *; tauto.
    - intros g n. cbn. split; [repeat constructor; cbn; intuition congruence|]. intros x y H. intuition congruence. }
  split. { split.
    - intros s t x H. unfold sub_ab, objs_ab in *. apply orb_true_iff in H as [H|H]; apply String.eqb_eq in H; subst; auto.
    - intros s t x H1 H2. unfold sub_ab, objs_ab in *. rewrite !orb_true_iff, !String.eqb_eq. intuition (subst; auto; discriminate). }
  split; [reflexivity|]. split. { cbn. unfold objs_ab. intuition. } split. { cbn. unfold objs_ab. intuition congruence. } split; [reflexivity|]. exists 1. split; cbn; auto.
Qed.
(** The hypotheses are met with operations that build and operations that prune. *)
Example C47_nonvacuous : closed I_ab /\ sorted sub_ab objs_ab /\ create_exists sub_ab (RPrim false "r" "a" "a") (CPrim false "c1" "object") = Some (CExists (RPrim false "r" "a" "a") (CPrim false "c1" "object")) /\
  create_exists sub_ab (RPrim false "r" "a" "a") (CPrim false "c2" "b") = None /\ r_well_sorted I_ab objs_ab (RPrim false "r" "a" "a") /\ c_well_sorted I_ab objs_ab (CPrim false "c2" "b") /\
  create_and (fun _ _ => true) (fun _ _ => true) sub_ab (CPrim false "c1" "object") (CPrim false "c2" "b") = Some (CAnd (CPrim false "c1" "object") (CPrim false "c2" "b") "b").
Proof.
  destruct C47_unbounded_refuted as (H1 & H2 & _ & H3 & H4 & _). split; [auto|]. split; [auto|]. split; [reflexivity|]. split; [reflexivity|]. split; [auto|]. split; [|reflexivity]. cbn. unfold objs_ab. intuition.
Qed.
