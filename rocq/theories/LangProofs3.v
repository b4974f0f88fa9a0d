From Verif Require Import Base Syntax SemLemmas ModelState ModelProofs Lang LangSpec LangProofs LangProofs2.
#[local] Open Scope string_scope.

(** Operations that touch neither the hierarchy, the domains nor the constants *)
Lemma inv_tree_ext l l' : inv_index l' -> l_sorts l' = l_sorts l -> l_parent l' = l_parent l -> l_anc l' = l_anc l -> l_ind l' = l_ind l -> l_consts l' = l_consts l ->
  inv_tree l -> inv_tree l'.
Proof.
  intros I1 S P A X C I.
  assert (Pe : forall s, parent_of l' s = parent_of l s) by (intros; unfold parent_of; now rewrite P).
  assert (Ae := anc_parent_eq l l' P).
  assert (Se : forall s, is_sort l' s <-> is_sort l s) by (intros; unfold is_sort; rewrite S; tauto).
  assert (Ple : forall s, is_plain l' s <-> is_plain l s) by (intros; unfold is_plain; rewrite S; tauto).
  constructor.
  - exact I1.
  - intros s. rewrite P, Se. apply I.
  - apply Ple, I.
  - intros s. rewrite Se, Pe. apply I.
  - rewrite Pe. apply I.
  - intros s p. rewrite Se, Pe. apply I.
  - destruct (it_rank l I) as (rank & R1 & R2). exists rank. rewrite S. split; [|auto]. intros s p. rewrite Pe. apply R1.
  - intros s. rewrite A. assert (Y := it_anc l I s). destruct (sget (l_anc l) s); rewrite Se; [|auto]. split; [tauto|]. intros t. rewrite Ae. apply Y.
  - intros s t. rewrite X, Ae. apply I.
  - intros s r. rewrite S. intros H. destruct (it_dom l I s r H) as (D1 & D2 & D3). split; [auto|]. split; [|auto]. intros K. destruct (D2 K) as [D4 D5]. split; [auto|].
    intros c. rewrite D5. unfold const_of. rewrite C. split; intros (s' & H1 & H2 & H3); exists s'; rewrite ?Ple in *; unfold le in *; rewrite ?Ae in *; auto.
  - intros c s. unfold const_of. rewrite C, Se. apply I.
Qed.

Lemma plain_sget l s : inv_index l -> is_plain l s <-> exists r, sget (l_sorts l) s = Some r /\ s_kind r = KPlain.
Proof. intros I. unfold is_plain. split; intros (r & H & K); exists r; (split; [|auto]); now apply (sget_In _ _ _ (ii_sorts l I)). Qed.

Lemma constant_inv parse l c s : inv_tree l -> inv_tree (fst (declare_constant parse l c s)) /\
  (forall e, snd (declare_constant parse l c s) = Err e -> fst (declare_constant parse l c s) = l).
Proof.
  intros I. assert (Ix := lstep_index parse l (OConst c s) (it_index l I)). cbn [lstep] in Ix. unfold declare_constant in *.
  destruct (sget (l_sorts l) s) as [r|] eqn:Es; [|simpl; auto].
  destruct (s_builtin r) eqn:Hb.
  { destruct (s_kind r); [simpl; auto|]. destruct (cast _ _ _ _ _); simpl; auto. }
  destruct (check_name l (has_constant l c) c) as [[]|] eqn:E; [|simpl; auto]. apply check_name_ok in E.
  assert (NC : ~ In c (map fst (l_consts l))).
  { intros Hin. apply in_map_iff in Hin as ([c' [sy s']] & X & Hin). simpl in X. subst. apply (not_defined l _ (it_index l I) E (EConst c s')). simpl. eauto. }
  assert (Hs : is_sort l s) by (apply sget_key; eauto).
  destruct (s_kind r) eqn:K.
  - (* plain sort *)
    destruct (it_rank l I) as (rank & R1 & R2).
    destruct (extend_spec c (S (List.length (l_sorts l))) l s rank R1 (it_anc l I)) as (l1 & E1 & [S1 X1]); auto.
    { intros a b H. apply anc_sort in H; tauto. } { specialize (R2 s). lia. }
    rewrite E1 in *. simpl in Ix. cbn [fst snd]. split; [|intros e H; discriminate].
    set (l' := set_index _ _) in *.
    destruct S1 as (P & A & X & _ & _ & C & _ & Kk).
    assert (Pe : forall x, parent_of l' x = parent_of l x) by (intros; unfold parent_of, l'; simpl; now rewrite P).
    assert (Ae : forall a b, anc l' a b <-> anc l a b) by (apply anc_parent_eq; exact P).
    assert (Se : forall x, is_sort l' x <-> is_sort l x) by (intros; unfold is_sort, l'; simpl; rewrite Kk; tauto).
    assert (Ple : forall x, is_plain l' x <-> is_plain l x).
    { intros x. rewrite (plain_sget l' x Ix), (plain_sget l x (it_index l I)). apply (extended_plain c (reach l s) l l1). split; [|exact X1]. apply extend_same in E1. exact E1. }
    assert (Ce : forall d t, const_of l' d t <-> (d = c /\ t = s) \/ const_of l d t).
    { intros d t. unfold const_of, l'. simpl. rewrite C. split.
      - intros [sy Hin]. apply In_cdset_iff in Hin; [|auto]. destruct Hin as [[-> X2]|Hin]; [inversion X2; auto|eauto].
      - intros [[-> ->]|[sy Hin]]; [exists c|exists sy]; apply In_cdset_iff; auto. }
    constructor.
    + exact Ix.
    + intros x. unfold l' at 1; simpl. rewrite P, Se. apply I.
    + apply Ple, I.
    + intros x. rewrite Se, Pe. apply I.
    + rewrite Pe. apply I.
    + intros x p. rewrite Se, Pe. apply I.
    + exists rank. split; [intros x p; rewrite Pe; apply R1|]. intros x. unfold l'; simpl. specialize (R2 x).
      assert (List.length (map fst (l_sorts l1)) = List.length (map fst (l_sorts l))) by now rewrite Kk. rewrite !map_length in H. lia.
    + intros x. unfold l' at 1; simpl. rewrite A. assert (Y := it_anc l I x). destruct (sget (l_anc l) x); rewrite Se; [|auto]. split; [tauto|]. intros t. rewrite Ae. apply Y.
    + intros x t. unfold l' at 1; simpl. rewrite X, Ae. apply I.
    + intros x q Hin. unfold l' in Hin; simpl in Hin. apply (sget_In _ _ _ (ii_sorts l' Ix)) in Hin.
      destruct (proj2 (sget_key (l_sorts l) x)) as [q0 Hq0]. { rewrite <- Kk. apply sget_key. eauto. }
      destruct (X1 x q0 Hq0) as (q' & Hq' & K' & B' & N' & D'). assert (q' = q) by (change (l_sorts l') with (l_sorts l1) in Hin; congruence). subst q'.
      assert (Hin0 : In (x, q0) (l_sorts l)) by now apply (sget_In _ _ _ (ii_sorts l (it_index l I))).
      destruct (it_dom l I x q0 Hin0) as (D1 & D2 & D3). split; [auto|]. split.
      * intros Kq. rewrite K' in Kq. destruct (D2 Kq) as [D4 D5]. split; [congruence|]. intros d. rewrite D', D5. split.
        -- intros [(s' & H1 & H2 & H3)|[-> (H1 & H2 & H3)]].
           ++ exists s'. rewrite Ple, Ce. unfold le in *. rewrite Ae. auto.
           ++ exists s. rewrite Ple, Ce. split; [apply plain_sget; [apply I|auto]|]. unfold le in *. rewrite Ae. auto.
        -- intros (s' & H1 & H2 & H3). rewrite Ple in H1. apply Ce in H2. unfold le in H3. rewrite Ae in H3. destruct H2 as [[-> ->]|H2].
           ++ right. split; [auto|]. unfold reach. repeat split; eauto.
           ++ left. exists s'. auto.
      * intros Kq. rewrite K' in Kq. specialize (D3 Kq). destruct (s_dom q) as [|d ds] eqn:Q; [reflexivity|exfalso].
        assert (Hd' := proj1 (D' d) (or_introl eq_refl)). rewrite D3 in Hd'. destruct Hd' as [[]|[_ (_ & (r0 & H0 & K0) & _)]]. congruence.
    + intros d t. rewrite Ce, Se. intros [[-> ->]|H]; [auto|]. eapply it_const; eauto.
  - (* interval sort *)
    destruct (cast parse real lb ub c) as [y|]; [|simpl; auto]. simpl in Ix. cbn [fst snd]. split; [|intros e H; discriminate].
    set (l' := set_index _ _) in *.
    assert (Ae : forall a b, anc l' a b <-> anc l a b) by (apply anc_parent_eq; reflexivity).
    assert (Ce : forall d t, const_of l' d t <-> (d = c /\ t = s) \/ const_of l d t).
    { intros d t. unfold const_of, l'. simpl. split.
      - intros [sy Hin]. apply In_cdset_iff in Hin; [|auto]. destruct Hin as [[-> X2]|Hin]; [inversion X2; auto|eauto].
      - intros [[-> ->]|[sy Hin]]; [exists y|exists sy]; apply In_cdset_iff; auto. }
    assert (Np : ~ is_plain l s). { rewrite (plain_sget l s (it_index l I)). intros (r0 & H0 & K0). congruence. }
    constructor; try apply I.
    + exact Ix.
    + intros x. assert (Y := it_anc l I x). change (sget (l_anc l') x) with (sget (l_anc l) x). destruct (sget (l_anc l) x); [|exact Y]. split; [apply Y|]. intros t. rewrite Ae. apply Y.
    + intros x t. rewrite Ae. apply I.
    + intros x q Hin. destruct (it_dom l I x q Hin) as (D1 & D2 & D3). split; [auto|]. split; [|auto]. intros Kq. destruct (D2 Kq) as [D4 D5]. split; [auto|]. intros d. rewrite D5.
      split; intros (s' & H1 & H2 & H3); exists s'; unfold le in *; rewrite Ae in *.
      * rewrite Ce. auto.
      * apply Ce in H2 as [[-> ->]|H2]; [contradiction|auto].
    + intros d t. rewrite Ce. intros [[-> ->]|H]; [exact Hs|]. exact (it_const l I d t H).
Qed.

Lemma lstep_inv parse l o : inv_tree l -> native o = true ->
  inv_tree (fst (lstep parse l o)) /\ (atomic o = true -> forall e, snd (lstep parse l o) = Err e -> fst (lstep parse l o) = l).
Proof.
  intros I Hn. assert (Ix := lstep_index parse l o (it_index l I)).
  destruct o as [n p|n p lb ub|c s|n args|n args|n|fuel t st| |n]; cbn [lstep] in *; try discriminate.
  - unfold declare_sort in *. destruct p as [p|].
    + unfold retrieve in *. destruct (has_sort l p) eqn:E; [|simpl; auto]. apply has_sort_spec in E.
      destruct (attach_inv l n plain_rec p I E) as (A & B & _); auto.
    + destruct (has_sort l "object") eqn:E; [|simpl; auto]. apply has_sort_spec in E.
      destruct (attach_inv l n plain_rec "object" I E) as (A & B & _); auto.
  - unfold declare_interval in *. destruct (check_name l (has_sort l n) (CStr n)) as [[]|] eqn:E; [|simpl; auto].
    unfold retrieve in *. destruct (has_sort l p) eqn:Ep; [|simpl; auto]. apply has_sort_spec in Ep.
    destruct (negb _); [simpl; auto|]. destruct (negb _); [simpl; auto|]. destruct (Z.leb ub lb); [simpl; auto|].
    destruct (name_free l n I E) as [N1 N2].
    destruct (new_sort l n {| s_kind := KInterval (is_real l p) lb ub; s_builtin := false; s_dom := [] |} p I N1 N2 Ep) as (l' & E' & I' & _); auto.
    rewrite E'. simpl. split; [auto|]. discriminate.
  - destruct (constant_inv parse l c s I) as [A B]. auto.
  - unfold declare_predicate in *. destruct (check_name l (has_predicate l n) (CStr n)) as [[]|]; [|simpl; auto].
    destruct (mapM (retrieve l) args); [|simpl; auto]. simpl in *. split; [|discriminate]. apply (inv_tree_ext l); auto.
  - unfold declare_function in *. destruct (check_name l (has_function l n) (CStr n)) as [[]|]; [|simpl; auto].
    destruct (mapM (retrieve l) args) as [[|]|]; try (simpl; auto; fail). simpl in *. split; [|discriminate]. apply (inv_tree_ext l); auto.
  - unfold remove_symbol in *. destruct (has_predicate l n); [|destruct (has_function l n); [|simpl; auto]]; simpl in *; (split; [apply (inv_tree_ext l); auto|discriminate]).
  - destruct (is_subtype fuel l t st) as [l' r] eqn:E. destruct (subtype_sound fuel l t st l' r I E) as (I' & _ & _ & _ & _ & _ & _ & _ & _ & Er).
    simpl. split; [auto|]. intros _ e. destruct r; simpl; [discriminate|]. intros _. eauto.
  - split; [|discriminate]. unfold attach_arithmetic in *.
    assert (Ho : is_sort l "object"). { destruct (it_object l I) as (r & H & _). unfold is_sort. now apply (in_map fst) in H. }
    destruct (attach_inv l "Real" (arith_sort true (- real_bound) real_bound) "object" I Ho) as (A1 & B1 & C1); auto; try discriminate.
    destruct (attach l "Real" _ "object") as [l1 [[]|]]; [|exact A1]. simpl in A1, C1.
    destruct (attach_inv l1 "Integer" (arith_sort false (- (2 ^ 31 - 1)) (2 ^ 31 - 1)) "Real" A1) as (A2 & B2 & C2); auto; try discriminate. { apply C1; auto. }
    destruct (attach l1 "Integer" _ "Real") as [l2 [[]|]]; [|exact A2]. simpl in A2, C2.
    apply (attach_inv l2 "Natural" (arith_sort false 0 (2 ^ 32 - 1)) "Integer" A2); auto; try discriminate. apply C2; auto.
Qed.
Lemma lang0_tree : inv_tree lang0.
Proof.
  assert (N : forall s t, ~ anc lang0 s t).
  { intros s t H. apply anc_inv in H as (p & H & _). unfold parent_of, sget, lang0 in H. cbn [dget l_parent] in H. destruct (String.eqb "object" s); discriminate. }
  constructor.
  - apply lang0_index.
  - intros s. unfold is_sort. rewrite sget_key. simpl. tauto.
  - exists plain_rec. simpl. auto.
  - intros s [<-|[]]; reflexivity.
  - reflexivity.
  - intros s p H. unfold parent_of, sget, lang0 in H. cbn [dget l_parent] in H. destruct (String.eqb "object" s); discriminate.
  - exists (fun _ => 0). split; [|simpl; auto]. intros s p H. unfold parent_of, sget, lang0 in H. cbn [dget l_parent] in H. destruct (String.eqb "object" s); discriminate.
  - intros s. unfold sget. change (l_anc lang0) with [("object", @nil string)]. cbn [dget]. destruct (String.eqb "object" s) eqn:E.
    + apply seqb in E. subst. split; [left; reflexivity|]. intros t. split; [intros []|]. intros H. exfalso. eapply N; eauto.
    + intros [<-|[]]. discriminate.
  - intros s t H. unfold get_set, sget, lang0 in H. cbn [dget l_ind] in H. destruct (String.eqb "object" s); destruct H.
  - intros s r [H|[]]. inversion H; subst. simpl. split; [constructor|]. split; [|auto]. intros _. split; [auto|]. intros c. split; [intros []|]. intros (s' & _ & [? []] & _).
  - intros c s [? []].
Qed.
Lemma lrun_tree parse ops : forallb native ops = true -> inv_tree (lrun parse ops).
Proof.
  induction ops as [|o ops IH] using rev_ind; [intros; apply lang0_tree|]. rewrite forallb_app. intros H. apply andb_true_iff in H as [H1 H2].
  rewrite lrun_snoc. apply lstep_inv; auto. simpl in H2. now rewrite andb_true_r in H2.
Qed.
(** Parents are never changed by later operations. *)
Lemma lstep_parent_stable parse l o s : inv_tree l -> native o = true -> is_sort l s -> parent_of (fst (lstep parse l o)) s = parent_of l s /\ is_sort (fst (lstep parse l o)) s.
Proof.
  intros I Hn Hs.
  assert (At : forall l n r p, inv_tree l -> is_sort l s -> is_sort l p -> s_dom r = [] -> (s_kind r = KPlain -> s_builtin r = false) ->
     parent_of (fst (attach l n r p)) s = parent_of l s /\ is_sort (fst (attach l n r p)) s).
  { intros l0 n r p I0 Hs0 Hp Hd Hb. unfold attach. destruct (check_name l0 (has_sort l0 n) (CStr n)) as [[]|] eqn:E; [|simpl; auto].
    destruct (name_free l0 n I0 E) as [N1 N2]. destruct (new_sort l0 n r p I0 N1 N2 Hp Hd Hb) as (l' & E' & I' & P' & S' & _). rewrite E'. simpl. rewrite P'.
    destruct (String.eqb n s) eqn:Q; [apply seqb in Q; subst; contradiction|]. split; [auto|]. unfold is_sort. rewrite S'. apply (dset_keys String.eqb seqb). auto. }
  destruct o as [n p|n p lb ub|c s0|n args|n args|n|fuel t st| |n]; cbn [lstep] in *; try discriminate.
  - unfold declare_sort. destruct p as [p|].
    + unfold retrieve. destruct (has_sort l p) eqn:E; [|simpl; auto]. apply has_sort_spec in E. now apply At.
    + destruct (has_sort l "object") eqn:E; [|simpl; auto]. apply has_sort_spec in E. now apply At.
  - unfold declare_interval. destruct (check_name l (has_sort l n) (CStr n)) as [[]|] eqn:E; [|simpl; auto].
    unfold retrieve. destruct (has_sort l p) eqn:Ep; [|simpl; auto]. apply has_sort_spec in Ep.
    destruct (negb _); [simpl; auto|]. destruct (negb _); [simpl; auto|]. destruct (Z.leb ub lb); [simpl; auto|].
    destruct (name_free l n I E) as [N1 N2].
    destruct (new_sort l n {| s_kind := KInterval (is_real l p) lb ub; s_builtin := false; s_dom := [] |} p I N1 N2 Ep) as (l' & E' & I' & P' & S' & _); auto.
    rewrite E'. simpl. rewrite P'. destruct (String.eqb n s) eqn:Q; [apply seqb in Q; subst; contradiction|]. split; [auto|]. unfold is_sort. rewrite S'. apply (dset_keys String.eqb seqb). auto.
  - unfold declare_constant. destruct (sget (l_sorts l) s0) as [r|]; [|simpl; auto]. destruct (s_builtin r).
    { destruct (s_kind r); [simpl; auto|]. destruct (cast _ _ _ _ _); simpl; auto. }
    destruct (check_name _ _ c); [|simpl; auto]. destruct (s_kind r).
    + destruct (extend _ l s0 c) as [l1|] eqn:E; [|simpl; auto]. apply extend_same in E. destruct E as (P & _ & _ & _ & _ & _ & _ & K).
      simpl. unfold parent_of, is_sort. simpl. rewrite P, K. auto.
    + destruct (cast _ _ _ _ _); simpl; auto.
  - unfold declare_predicate. destruct (check_name l (has_predicate l n) (CStr n)); [|simpl; auto]. destruct (mapM _ _); simpl; auto.
  - unfold declare_function. destruct (check_name l (has_function l n) (CStr n)); [|simpl; auto]. destruct (mapM (retrieve l) args) as [[|]|]; simpl; auto.
  - unfold remove_symbol. destruct (has_predicate l n); [|destruct (has_function l n)]; simpl; auto.
  - destruct (is_subtype fuel l t st) as [l' r] eqn:E. destruct (subtype_sound fuel l t st l' r I E) as (I' & _ & P & S & _).
    simpl. unfold parent_of, is_sort. rewrite P, S. auto.
  - unfold attach_arithmetic.
    assert (Ho : is_sort l "object"). { destruct (it_object l I) as (r & H & _). unfold is_sort. now apply (in_map fst) in H. }
    assert (X1 := At l "Real" (arith_sort true (- real_bound) real_bound) "object" I Hs Ho).
    destruct (attach_inv l "Real" (arith_sort true (- real_bound) real_bound) "object" I Ho) as (A1 & _ & C1); auto; try discriminate.
    destruct (attach l "Real" _ "object") as [l1 [[]|]]; cbn [fst snd] in *; [|apply X1; auto; discriminate].
    destruct X1 as [X1 X1']; auto; try discriminate.
    assert (HR : is_sort l1 "Real") by (apply C1; auto).
    assert (X2 := At l1 "Integer" (arith_sort false (- (2 ^ 31 - 1)) (2 ^ 31 - 1)) "Real" A1 X1' HR).
    destruct (attach_inv l1 "Integer" (arith_sort false (- (2 ^ 31 - 1)) (2 ^ 31 - 1)) "Real" A1 HR) as (A2 & _ & C2); auto; try discriminate.
    rewrite <- X1. destruct (attach l1 "Integer" _ "Real") as [l2 [[]|]]; cbn [fst snd] in *; [|apply X2; auto; discriminate].
    destruct X2 as [X2 X2']; auto; try discriminate.
    rewrite <- X2. apply (At l2 "Natural" (arith_sort false 0 (2 ^ 32 - 1)) "Integer"); auto; try discriminate. apply C2; auto.
Qed.
Lemma lrun_parent_stable parse ops ops' s : forallb native (ops ++ ops') = true -> is_sort (lrun parse ops) s ->
  parent_of (lrun parse (ops ++ ops')) s = parent_of (lrun parse ops) s /\ is_sort (lrun parse (ops ++ ops')) s.
Proof.
  intros Hn Hs. induction ops' as [|o ops' IH] using rev_ind; [rewrite app_nil_r; auto|].
  rewrite app_assoc in *. rewrite forallb_app in Hn. apply andb_true_iff in Hn as [H1 H2]. specialize (IH H1). destruct IH as [IH1 IH2].
  rewrite lrun_snoc. destruct (lstep_parent_stable parse (lrun parse (ops ++ ops')) o s) as [A B]; auto.
  - now apply lrun_tree. - simpl in H2. now rewrite andb_true_r in H2.
  - split; [congruence|auto].
Qed.
(** Constants of plain sorts keep their name as symbol. *)
Lemma plain_const_name parse ops : forallb native ops = true -> forall c sym s', is_plain (lrun parse ops) s' -> dget cname_eqb (l_consts (lrun parse ops)) c = Some (sym, s') -> sym = c.
Proof.
  induction ops as [|o ops IH] using rev_ind; [intros; discriminate|].
  rewrite forallb_app. intros H. apply andb_true_iff in H as [H1 H2]. simpl in H2. rewrite andb_true_r in H2. specialize (IH H1). assert (I := lrun_tree parse ops H1).
  rewrite lrun_snoc. set (l := lrun parse ops) in *. intros c sym s' Hp Hc.
  assert (Pres : l_consts (fst (lstep parse l o)) = l_consts l -> sym = c).
  { intros E. rewrite E in Hc. apply (IH c sym s'); [|auto]. assert (Hs : is_sort l s').
    { apply (it_const l I c). exists sym. now apply (dget_In cname_eqb cname_eqb_eq). }
    (* kinds do not change *)
    assert (Kd : forall r, sget (l_sorts l) s' = Some r -> exists r', sget (l_sorts (fst (lstep parse l o))) s' = Some r' /\ s_kind r' = s_kind r).
    { intros r Hr. assert (At : forall l n r0 p, inv_tree l -> is_sort l p -> s_dom r0 = [] -> (s_kind r0 = KPlain -> s_builtin r0 = false) -> forall r, sget (l_sorts l) s' = Some r -> sget (l_sorts (fst (attach l n r0 p))) s' = Some r).
      { intros l0 n r0 p I0 Hp0 Hd Hb r1 Hr1. unfold attach. destruct (check_name l0 (has_sort l0 n) (CStr n)) as [[]|] eqn:Ec; [|exact Hr1]. destruct (name_free l0 n I0 Ec) as [N1 N2].
        destruct (new_sort l0 n r0 p I0 N1 N2 Hp0 Hd Hb) as (l' & E' & _ & _ & S' & _). rewrite E'. simpl. rewrite S', sget_dset.
        destruct (String.eqb n s') eqn:Q; [|auto]. apply seqb in Q. subst. exfalso. apply N1. apply sget_key. eauto. }
      destruct o as [n p|n p lb ub|c0 s0|n args|n args|n|fuel t st| |n]; cbn [lstep] in *; try discriminate.
      - unfold declare_sort. destruct p as [p|].
        + unfold retrieve. destruct (has_sort l p) eqn:Eq; [|simpl; eauto]. apply has_sort_spec in Eq. erewrite At; eauto.
        + destruct (has_sort l "object") eqn:Eq; [|simpl; eauto]. apply has_sort_spec in Eq. erewrite At; eauto.
      - unfold declare_interval. destruct (check_name l (has_sort l n) (CStr n)) as [[]|] eqn:Ec; [|simpl; eauto].
        unfold retrieve. destruct (has_sort l p) eqn:Ep; [|simpl; eauto]. apply has_sort_spec in Ep.
        destruct (negb _); [simpl; eauto|]. destruct (negb _); [simpl; eauto|]. destruct (Z.leb ub lb); [simpl; eauto|]. destruct (name_free l n I Ec) as [N1 N2].
        destruct (new_sort l n {| s_kind := KInterval (is_real l p) lb ub; s_builtin := false; s_dom := [] |} p I N1 N2 Ep) as (l' & E' & _ & _ & S' & _); auto.
        rewrite E'. simpl. rewrite S', sget_dset. destruct (String.eqb n s') eqn:Q; [|eauto]. apply seqb in Q. subst. contradiction.
      - unfold declare_constant. destruct (sget (l_sorts l) s0) as [r0|] eqn:Es0; [|simpl; eauto]. destruct (s_builtin r0).
        { destruct (s_kind r0); [simpl; eauto|]. destruct (cast _ _ _ _ _); simpl; eauto. }
        destruct (check_name _ _ c0); [|simpl; eauto]. destruct (s_kind r0).
        + destruct (it_rank l I) as (rank & R1 & R2). destruct (extend_spec c0 (S (List.length (l_sorts l))) l s0 rank R1 (it_anc l I)) as (l1 & E1 & [_ X1]); auto.
          { intros x y Hxy. apply anc_sort in Hxy; tauto. } { apply sget_key. eauto. } { specialize (R2 s0). lia. }
          rewrite E1. simpl. destruct (X1 _ _ Hr) as (r' & A1 & A2 & _). eauto.
        + destruct (cast _ _ _ _ _); simpl; eauto.
      - unfold declare_predicate. destruct (check_name l (has_predicate l n) (CStr n)); [|simpl; eauto]. destruct (mapM _ _); simpl; eauto.
      - unfold declare_function. destruct (check_name l (has_function l n) (CStr n)); [|simpl; eauto]. destruct (mapM (retrieve l) args) as [[|]|]; simpl; eauto.
      - unfold remove_symbol. destruct (has_predicate l n); [|destruct (has_function l n)]; simpl; eauto.
      - destruct (is_subtype fuel l t st) as [l' r0] eqn:Eq. destruct (subtype_sound fuel l t st l' r0 I Eq) as (_ & _ & _ & S & _). simpl. rewrite S. eauto.
      - unfold attach_arithmetic. assert (Ho : is_sort l "object"). { destruct (it_object l I) as (q & Hq & _). unfold is_sort. now apply (in_map fst) in Hq. }
        assert (Y1 := At l "Real" (arith_sort true (- real_bound) real_bound) "object" I Ho eq_refl). specialize (Y1 ltac:(discriminate) r Hr).
        destruct (attach_inv l "Real" (arith_sort true (- real_bound) real_bound) "object" I Ho) as (A1 & _ & C1); auto; try discriminate.
        destruct (attach l "Real" _ "object") as [l1 [[]|]]; cbn [fst snd] in *; [|eauto].
        assert (HR : is_sort l1 "Real") by (apply C1; auto).
        assert (Y2 := At l1 "Integer" (arith_sort false (- (2 ^ 31 - 1)) (2 ^ 31 - 1)) "Real" A1 HR eq_refl). specialize (Y2 ltac:(discriminate) r Y1).
        destruct (attach_inv l1 "Integer" (arith_sort false (- (2 ^ 31 - 1)) (2 ^ 31 - 1)) "Real" A1 HR) as (A2 & _ & C2); auto; try discriminate.
        destruct (attach l1 "Integer" _ "Real") as [l3 [[]|]]; cbn [fst snd] in *; [|eauto].
        exists r. split; [|auto]. apply At; auto; try discriminate. apply C2; auto. }
    destruct (proj2 (sget_key (l_sorts l) s') Hs) as [r Hr]. destruct (Kd r Hr) as (r' & Hr' & Kr'). exists r. split; [now apply (sget_In _ _ _ (ii_sorts l (it_index l I)))|].
    destruct Hp as (r'' & Hr'' & Kr''). assert (I' : inv_index (fst (lstep parse l o))) by (apply lstep_index, I).
    apply (sget_In _ _ _ (ii_sorts _ I')) in Hr''. congruence. }
  assert (AtC : forall l n r0 p, l_consts (fst (attach l n r0 p)) = l_consts l).
  { intros l0 n r0 p. unfold attach. destruct (check_name l0 _ _); [|reflexivity]. unfold set_parent. destruct (sget _ n) as [[|]|]; try reflexivity; destruct (closure _ _ p); reflexivity. }
  destruct o as [n p|n p lb ub|c0 s0|n args|n args|n|fuel t st| |n]; cbn [lstep] in Pres, Hp, Hc; try discriminate.
  - apply Pres. unfold declare_sort. destruct p as [p|]; [destruct (retrieve l p)|destruct (has_sort l "object")]; auto.
  - apply Pres. unfold declare_interval. destruct (check_name _ _ _); [|auto]. destruct (retrieve l p); [|auto]. destruct (negb _); [auto|]. destruct (negb _); [auto|]. destruct (Z.leb _ _); [auto|].
    unfold set_parent. destruct (sget _ n) as [[|]|]; try reflexivity; destruct (closure _ _ _); reflexivity.
  - unfold declare_constant in *. destruct (sget (l_sorts l) s0) as [r0|] eqn:Es0; [|now apply Pres]. destruct (s_builtin r0).
    { apply Pres. destruct (s_kind r0); [auto|]. destruct (cast _ _ _ _ _); auto. }
    destruct (check_name _ _ c0); [|now apply Pres]. destruct (s_kind r0) eqn:K0.
    + destruct (extend _ l s0 c0) as [l1|] eqn:E; [|now apply Pres]. assert (E1 := extend_same _ _ _ _ _ E). destruct E1 as (_ & _ & _ & _ & _ & C & _ & _).
      cbn in Hc. rewrite C, (dget_dset cname_eqb cname_eqb_eq) in Hc. destruct (cname_eqb c0 c) eqn:Q; [apply cname_eqb_eq in Q; congruence|].
      apply (IH c sym s'); [|exact Hc]. destruct (it_rank l I) as (rank & R1 & R2). destruct (extend_spec c0 (S (List.length (l_sorts l))) l s0 rank R1 (it_anc l I)) as (l1' & E1 & X1); auto.
      { intros x y Hxy. apply anc_sort in Hxy; tauto. } { apply sget_key. eauto. } { specialize (R2 s0). lia. }
      assert (l1' = l1) by congruence. subst l1'. apply plain_sget; [apply I|]. apply (extended_plain _ _ _ _ s' X1).
      destruct Hp as (r1 & Hr1 & Kr1). cbn in Hr1. exists r1. split; [|auto]. apply sget_In; [|auto].
      assert (Ks : map fst (l_sorts l1) = map fst (l_sorts l)) by apply X1. rewrite Ks. apply I.
    + destruct (cast _ _ _ _ _) as [y|]; [|now apply Pres]. cbn in Hc. rewrite (dget_dset cname_eqb cname_eqb_eq) in Hc. destruct (cname_eqb c0 c) eqn:Q.
      * inversion Hc; subst. exfalso. destruct Hp as (r1 & Hr1 & Kr1). cbn in Hr1. apply (sget_In _ _ _ (ii_sorts l (it_index l I))) in Hr1. congruence.
      * apply (IH c sym s'); [|exact Hc]. exact Hp.
  - apply Pres. unfold declare_predicate. destruct (check_name l _ (CStr n)); [|auto]. destruct (mapM _ _); auto.
  - apply Pres. unfold declare_function. destruct (check_name l _ (CStr n)); [|auto]. destruct (mapM (retrieve l) args) as [[|]|]; auto.
  - apply Pres. unfold remove_symbol. destruct (has_predicate l n); [|destruct (has_function l n)]; auto.
  - apply Pres. destruct (is_subtype fuel l t st) as [l' r0] eqn:Eq. destruct (subtype_sound fuel l t st l' r0 I Eq) as (_ & _ & _ & _ & C & _). exact C.
  - apply Pres. unfold attach_arithmetic. assert (Y1 := AtC l "Real" (arith_sort true (- real_bound) real_bound) "object").
    destruct (attach l "Real" _ "object") as [l1 [[]|]]; cbn [fst snd] in *; [|auto].
    assert (Y2 := AtC l1 "Integer" (arith_sort false (- (2 ^ 31 - 1)) (2 ^ 31 - 1)) "Real").
    destruct (attach l1 "Integer" _ "Real") as [l3 [[]|]]; cbn [fst snd] in *; [|congruence]. rewrite AtC. congruence.
Qed.
