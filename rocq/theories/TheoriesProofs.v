From Verif Require Import Base Syntax Semantics SemLemmas ListUtil ModelState ModelProofs Lang LangSpec LangProofs LangProofs2 LangProofs3 Theories TheoriesSpec.
Local Open Scope string_scope.

Definition assoc (ps : list (cname * elem)) (m : cname) : option elem := dget cname_eqb ps m.
(** [l'] has the elements of [l] and those of [ps] *)
Definition extends (l l' : lang) (ps : list (cname * elem)) : Prop := forall m, lget l' m = match assoc ps m with Some e => Ok e | None => lget l m end.
Lemma extends_refl l : extends l l []. Proof. intros m. reflexivity. Qed.
Lemma assoc_app ps qs m : assoc (ps ++ qs) m = match assoc ps m with Some e => Some e | None => assoc qs m end.
Proof. unfold assoc. induction ps as [|[k e] ps IH]; [reflexivity|]. cbn [app dget]. destruct (cname_eqb k m); [reflexivity|exact IH]. Qed.
Lemma extends_trans l l1 l2 ps qs : extends l l1 ps -> extends l1 l2 qs -> extends l l2 (qs ++ ps).
Proof. intros H1 H2 m. rewrite H2, assoc_app. destruct (assoc qs m); [reflexivity|apply H1]. Qed.
Lemma lget_cases l n : (exists e, lget l n = Ok e) \/ unused l n.
Proof. unfold unused, lget. destruct (dget cname_eqb (l_index l) n); [left; eauto|now right]. Qed.
Lemma lget_index l n : (unused l n <-> dget cname_eqb (l_index l) n = None) /\ forall e, lget l n = Ok e <-> dget cname_eqb (l_index l) n = Some e.
Proof. unfold unused, lget. destruct (dget cname_eqb (l_index l) n); split; try (intros e0); split; intros H; try discriminate; auto; now injection H as <-. Qed.
Lemma used_ok l n e : lget l n = Ok e -> ~ unused l n. Proof. unfold unused. intros ->. discriminate. Qed.
Lemma sort_lget l s : inv_tree l -> is_sort l s <-> lget l (CStr s) = Ok (ESort s).
Proof. intros I. rewrite (proj2 (lget_index l (CStr s)) (ESort s)), (ii_spec l (it_index l I)). cbn [defined_as]. unfold is_sort. tauto. Qed.
Lemma unused_sort l s : inv_tree l -> unused l (CStr s) -> ~ is_sort l s.
Proof. intros I U H. apply (sort_lget l s I) in H. now apply (used_ok l _ _ H). Qed.
Lemma check_used l b n e : lget l n = Ok e -> check_name l b n = Err DuplicateDefinition.
Proof. intros H. apply (proj2 (lget_index l n)) in H. unfold check_name. rewrite H. now destruct b. Qed.
Lemma check_unused l n : unused l n -> check_name l false n = Ok tt.
Proof. intros H. apply (proj1 (lget_index l n)) in H. unfold check_name. now rewrite H. Qed.
Lemma cname_neq a b : a <> b -> cname_eqb a b = false. Proof. intros H. destruct (cname_eqb a b) eqn:E; [apply cname_eqb_eq in E; congruence|reflexivity]. Qed.
Lemma assoc_one n e m : assoc [(n, e)] m = if cname_eqb n m then Some e else None. Proof. reflexivity. Qed.

Lemma object_sort l : inv_tree l -> is_sort l "object".
Proof. intros I. destruct (it_object l I) as (r & H & _). unfold is_sort. now apply (in_map fst) in H. Qed.
Lemma attach_new l n r p : inv_tree l -> is_sort l p -> s_dom r = [] -> (s_kind r = KPlain -> s_builtin r = false) -> unused l (CStr n) ->
  exists l', attach l n r p = (l', Ok tt) /\ inv_tree l' /\ extends l l' [(CStr n, ESort n)] /\ (forall s, parent_of l' s = if String.eqb n s then Some p else parent_of l s) /\
    l_sorts l' = dset String.eqb (l_sorts l) n r.
Proof.
  intros I Hp Hd Hb U. pose proof (unused_sort l n I U) as Ns. unfold attach.
  assert (Hs : has_sort l n = false) by (destruct (has_sort l n) eqn:E; [apply has_sort_spec in E; contradiction|reflexivity]). rewrite Hs, (check_unused _ _ U).
  destruct (new_sort l n r p I Ns (proj1 (proj1 (lget_index l _)) U) Hp Hd Hb) as (l' & E & I' & P & S & _). exists l'. split; [exact E|]. split; [exact I'|]. split; [|split; [exact P|exact S]].
  intros m. assert (X : l_index l' = dset cname_eqb (l_index l) (CStr n) (ESort n)).
  { assert (SP : forall ow l s p, l_index (fst (set_parent ow l s p)) = l_index l).
    { intros ow l0 s0 p0. unfold set_parent. destruct (sget (l_parent l0) s0) as [[|]|]; try destruct ow; try destruct (closure _ _ p0); reflexivity. }
    specialize (SP false (register_sort l n r) n p). rewrite E in SP. exact SP. }
  unfold lget. rewrite X, cidx, assoc_one. destruct (cname_eqb (CStr n) m); reflexivity.
Qed.
Lemma attach_used l n r p e : lget l (CStr n) = Ok e -> attach l n r p = (l, Err DuplicateDefinition).
Proof. intros H. unfold attach. now rewrite (check_used l _ _ e H). Qed.
Lemma extends_sort l l' ps s : inv_tree l -> inv_tree l' -> extends l l' ps -> is_sort l s -> (forall e, In (CStr s, e) ps -> False) -> is_sort l' s.
Proof.
  intros I I' X H N. apply (sort_lget l' s I'). rewrite X. assert (A : assoc ps (CStr s) = None).
  { unfold assoc. destruct (dget cname_eqb ps (CStr s)) as [e|] eqn:E; [|reflexivity]. exfalso. apply (N e). clear -E. induction ps as [|[k e0] ps IH]; [discriminate|]. cbn [dget] in E.
    destruct (cname_eqb k (CStr s)) eqn:K; [apply cname_eqb_eq in K; injection E as ->; subst; now left|right; auto]. }
  rewrite A. now apply (sort_lget l s I).
Qed.

(** The arithmetic sorts *)
Lemma arith_new l : inv_tree l -> (forall n e, In (n, e) arithmetic_sorts -> unused l n) ->
  exists l', attach_arithmetic l = (l', Ok tt) /\ inv_tree l' /\ extends l l' (rev arithmetic_sorts) /\
    (forall s, parent_of l' s = if String.eqb "Natural" s then Some "Integer" else if String.eqb "Integer" s then Some "Real" else if String.eqb "Real" s then Some "object" else parent_of l s).
Proof.
  intros I U. unfold attach_arithmetic.
  assert (U1 := U (CStr "Real") _ (or_introl eq_refl)). assert (U2 := U (CStr "Integer") _ (or_intror (or_introl eq_refl))). assert (U3 := U (CStr "Natural") _ (or_intror (or_intror (or_introl eq_refl)))).
  destruct (attach_new l "Real" (arith_sort true (- real_bound) real_bound) "object" I (object_sort l I) eq_refl (fun H => ltac:(discriminate H)) U1) as (l1 & E1 & I1 & X1 & P1 & S1). rewrite E1.
  assert (R1 : is_sort l1 "Real"). { unfold is_sort. rewrite S1. apply (dset_keys String.eqb seqb). now left. }
  assert (V2 : unused l1 (CStr "Integer")) by (unfold unused; rewrite X1; exact U2).
  destruct (attach_new l1 "Integer" (arith_sort false (- (2 ^ 31 - 1)) (2 ^ 31 - 1)) "Real" I1 R1 eq_refl (fun H => ltac:(discriminate H)) V2) as (l2 & E2 & I2 & X2 & P2 & S2). rewrite E2.
  assert (R2 : is_sort l2 "Integer"). { unfold is_sort. rewrite S2. apply (dset_keys String.eqb seqb). now left. }
  assert (V3 : unused l2 (CStr "Natural")) by (unfold unused; rewrite X2; cbn [assoc]; rewrite X1; exact U3).
  destruct (attach_new l2 "Natural" (arith_sort false 0 (2 ^ 32 - 1)) "Integer" I2 R2 eq_refl (fun H => ltac:(discriminate H)) V3) as (l3 & E3 & I3 & X3 & P3 & S3).
  exists l3. split; [exact E3|]. split; [exact I3|]. split.
  - change (rev arithmetic_sorts) with ([(CStr "Natural", ESort "Natural")] ++ ([(CStr "Integer", ESort "Integer")] ++ [(CStr "Real", ESort "Real")]))%list.
    apply (extends_trans l l2 l3); [|exact X3]. now apply (extends_trans l l1 l2).
  - intros s. now rewrite P3, P2, P1.
Qed.
Lemma arith_used l n e e' : inv_tree l -> ~ is_sort l "Integer" -> In (n, e) arithmetic_sorts -> lget l n = Ok e' -> snd (attach_arithmetic l) = Err DuplicateDefinition.
Proof.
  intros I Ni Hin Hg. unfold attach_arithmetic.
  destruct (lget_cases l (CStr "Real")) as [[e1 G1]|U1]; [now rewrite (attach_used _ _ _ _ _ G1)|].
  destruct (attach_new l "Real" (arith_sort true (- real_bound) real_bound) "object" I (object_sort l I) eq_refl (fun H => ltac:(discriminate H)) U1) as (l1 & E1 & I1 & X1 & P1 & S1). rewrite E1.
  assert (R1 : is_sort l1 "Real"). { unfold is_sort. rewrite S1. apply (dset_keys String.eqb seqb). now left. }
  destruct (lget_cases l (CStr "Integer")) as [[e2 G2]|U2].
  { rewrite (attach_used l1 "Integer" _ _ e2); [reflexivity|]. rewrite X1. exact G2. }
  assert (V2 : unused l1 (CStr "Integer")) by (unfold unused; rewrite X1; exact U2).
  destruct (attach_new l1 "Integer" (arith_sort false (- (2 ^ 31 - 1)) (2 ^ 31 - 1)) "Real" I1 R1 eq_refl (fun H => ltac:(discriminate H)) V2) as (l2 & E2 & I2 & X2 & P2 & S2). rewrite E2.
  assert (Hn : n = CStr "Natural").
  { destruct Hin as [H|[H|[H|[]]]]; injection H as <- <-; [now apply used_ok in Hg|now apply used_ok in Hg|reflexivity]. }
  subst n. rewrite (attach_used l2 "Natural" _ _ e'); [reflexivity|]. rewrite X2. cbn [assoc dget]. rewrite X1. exact Hg.
Qed.
(** The function ite *)
Lemma ite_new parse l : inv_tree l -> unused l (CStr "ite") -> exists l', lstep parse l (OFun "ite" ["object"; "object"; "object"]) = (l', Ok tt) /\ inv_tree l' /\ extends l l' (own_names TArithmetic) /\
  l_parent l' = l_parent l.
Proof.
  intros I U. destruct (lstep_inv parse l (OFun "ite" ["object"; "object"; "object"]) I eq_refl) as [I' _]. cbn [lstep] in *. unfold declare_function in *.
  assert (Hf : has_function l "ite" = false).
  { destruct (has_function l "ite") eqn:E; [|reflexivity]. exfalso. unfold has_function in E. destruct (sget (l_funs l) "ite") as [ts|] eqn:G; [|discriminate].
    apply (sget_In _ _ _ (ii_funs l (it_index l I))) in G. apply (used_ok l (CStr "ite") (EFun "ite" ts)); [|exact U]. apply (proj2 (lget_index l _)), (ii_spec l (it_index l I)). split; auto. }
  rewrite Hf, (check_unused _ _ U) in *. pose proof (proj2 (has_sort_spec l "object") (object_sort l I)) as Ho. cbn [mapM] in *. unfold retrieve in *. rewrite Ho in *.
  eexists. split; [reflexivity|]. split; [exact I'|]. split; [|reflexivity].
  intros m. unfold lget. cbn [l_index set_index]. rewrite cidx. unfold own_names. rewrite assoc_one. destruct (cname_eqb (CStr "ite") m); reflexivity.
Qed.
Lemma ite_used parse l e : lget l (CStr "ite") = Ok e -> lstep parse l (OFun "ite" ["object"; "object"; "object"]) = (l, Err DuplicateDefinition).
Proof. intros H. cbn [lstep]. unfold declare_function. now rewrite (check_used l _ _ e H). Qed.
(** A constant of a plain sort *)
Lemma const_new parse l c s r : inv_tree l -> sget (l_sorts l) s = Some r -> s_kind r = KPlain -> unused l c -> 
  exists l', lstep parse l (OConst c s) = (l', Ok tt) /\ inv_tree l' /\ extends l l' [(c, EConst c s)] /\ l_parent l' = l_parent l /\ (exists r', sget (l_sorts l') s = Some r' /\ s_kind r' = KPlain).
Proof.
  intros I Hs Hk U. destruct (lstep_inv parse l (OConst c s) I eq_refl) as [I' _]. cbn [lstep] in *. unfold declare_constant in *. rewrite Hs in *.
  assert (Hin : In (s, r) (l_sorts l)) by now apply (sget_In _ _ _ (ii_sorts l (it_index l I))). destruct (it_dom l I s r Hin) as (_ & B & _). destruct (B Hk) as [B1 _]. rewrite B1 in *.
  assert (Hc : has_constant l c = false).
  { destruct (has_constant l c) eqn:E; [|reflexivity]. exfalso. unfold has_constant in E. destruct (dget cname_eqb (l_consts l) c) as [[sy s']|] eqn:G; [|discriminate].
    apply (dget_Some_In cname_eqb cname_eqb_eq _ _ _ (ii_consts l (it_index l I))) in G. apply (used_ok l c (EConst c s')); [|exact U]. apply (proj2 (lget_index l _)), (ii_spec l (it_index l I)). split; [auto|]. eauto. }
  rewrite Hc, (check_unused _ _ U), Hk in *.
  destruct (it_rank l I) as (rank & R1 & R2).
  assert (Hsort : is_sort l s) by (unfold is_sort; now apply (in_map fst) in Hin).
  destruct (extend_spec c (S (List.length (l_sorts l))) l s rank R1 (it_anc l I)) as (l1 & E1 & [S1 X1]); auto.
  { intros a b H. apply anc_sort in H; tauto. } { specialize (R2 s). lia. }
  rewrite E1 in *. eexists. split; [reflexivity|]. split; [exact I'|]. destruct S1 as (P & A & X & _ & Ix). split; [|split; [exact P|]].
  - destruct Ix as (_ & _ & Ix & _). intros m. unfold lget. cbn [l_index set_index]. rewrite cidx, assoc_one. destruct (cname_eqb c m); [reflexivity|]. now rewrite Ix.
  - destruct (X1 s r Hs) as (r' & G & K & _). exists r'. split; [exact G|congruence].
Qed.
