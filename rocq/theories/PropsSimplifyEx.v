(** C32: simplification of existential quantification *)
From Coq Require Import Permutation.
From Verif Require Import Base Syntax Semantics SemLemmas Build BuildProofs Subst SubstSpec SubstProofs FreeVars FolSpec NnfProofs SimplifyEx SimplifyExSpec.
#[local] Open Scope string_scope.

Lemma qsem_ex_any M vs k (e : env M) : (forall a b, env_eq a b -> k a = k b) ->
  qsem M QEx vs k e = true <-> exists e', (forall x, ~ In x (vars_of vs) -> e' x = e x) /\ (forall x s, In (x, s) (vars_of vs) -> In (e' (x, s)) (dom M s)) /\ k e' = true.
Proof.
  revert e. induction vs as [|v vs IH]; intros e Hk; cbn [qsem].
  - split; [intros H; exists e; repeat split; auto; intros ? ? []|]. intros (e' & A & _ & B). rewrite <- B. apply Hk. intros x. symmetry. apply A. intros [].
  - destruct v as [x s|c s|f ts|c a b]; try (apply IH; assumption). change (vars_of (Var x s :: vs)) with ((x, s) :: vars_of vs). rewrite existsb_exists. split.
    + intros (d & Hd & H). apply IH in H as (e' & A & B & C); auto. exists e'. split; [|split; [|auto]].
      * intros y Hy. rewrite A by (intros X; apply Hy; right; auto). unfold upd. destruct (var_eqb (x, s) y) eqn:E; [|auto]. apply var_eqb_eq in E. subst y. exfalso. apply Hy. left. auto.
      * intros y r [E|Hy]; [|auto]. injection E as <- <-. destruct (mem_var (x, s) (vars_of vs)) eqn:Q; [apply mem_var_In in Q; auto|]. apply mem_var_false in Q. rewrite A by auto. unfold upd. rewrite var_eqb_refl. auto.
    + intros (e' & A & B & C). exists (e' (x, s)). split; [apply B; left; auto|]. apply IH; auto. exists e'. split; [|split; [|auto]].
      * intros y Hy. unfold upd. destruct (var_eqb (x, s) y) eqn:E; [apply var_eqb_eq in E; subst; auto|]. apply A. intros [X|X]; [subst; rewrite var_eqb_refl in E; discriminate|auto].
      * intros y r Hy. apply B. right. auto.
Qed.
Lemma tv_inj x r y q : Var x r = Var y q -> (x, r) = (y, q). Proof. congruence. Qed.
Lemma mem_t_In t l : mem_t t l = true <-> In t l.
Proof. unfold mem_t. rewrite existsb_exists. split; [intros (u & H & E); apply term_eqb_eq in E; now subst|intros H; exists t; split; [auto|apply term_eqb_refl]]. Qed.
Lemma vars_of_In x r l : In (x, r) (vars_of l) <-> In (Var x r) l.
Proof.
  unfold vars_of. rewrite in_flat_map. split.
  - intros (t & H1 & H2). destruct t; try (destruct H2; fail). destruct H2 as [H2|[]]. congruence.
  - intros H. exists (Var x r). split; [auto|now left].
Qed.

(** * Semantics of a block: the variables [V] range over their sorts, all of [cs] are true. *)
Definition block (M : structure) (V : list var) (cs : list formula) (e : env M) : Prop :=
  exists e', (forall x, ~ In x V -> e' x = e x) /\ (forall x s, In (x, s) V -> In (e' (x, s)) (dom M s)) /\ forall c, In c cs -> fsem M c e' = true.
Lemma block_sem M vs cs e : block M (vars_of vs) cs e <-> qsem M QEx vs (fun e' => forallb (fun c => fsem M c e') cs) e = true.
Proof.
  rewrite qsem_ex_any.
  - split; intros (e' & A & B & C); exists e'; (split; [exact A|]); (split; [exact B|]); [apply forallb_forall; exact C|rewrite forallb_forall in C; exact C].
  - intros a b H. apply forallb_ext_in. intros c _. now apply (proj2 (sem_ext M)).
Qed.

Section Step.
Variable M : structure.
Hypothesis NM : normal M.
Hypothesis TM : typed_structure M.
Variables (X : list var) (rank : var -> nat).

Lemma fits_value t s (e : env M) : fits M t s -> (forall x r, free_in_t (x, r) t = true -> In (e (x, r)) (dom M r)) -> In (tsem M t e) (dom M s).
Proof.
  destruct t as [x r|c r|[b|n d r] ts|c a b]; cbn [fits tsem]; intros H K; try contradiction; auto.
  apply H, K. cbn. apply var_eqb_refl.
Qed.
Lemma fits_incl t s s' : fits M t s -> incl (dom M s) (dom M s') -> fits M t s'.
Proof. destruct t as [x r|c r|[b|n d r] ts|c a b]; cbn [fits]; intros H K; try contradiction; auto; intros y Hy; apply K, H, Hy. Qed.
Lemma eq_atom_sem t u (e : env M) : fsem M (Atom (PB PEq) [t; u]) e = true <-> tsem M t e = tsem M u e.
Proof. cbn. apply NM. Qed.

(** Conditions on a block that the loop maintains *)
Record inv (V : list var) (cs : list formula) : Prop := {
  i_wf : Forall (fun c => wf c = true /\ ite_free c = true /\ builtin_binary c = true) cs;
  i_bind : forall c c' b, In c cs -> In c' cs -> In b (binders c) -> ~ In b V /\ free_in b c' = false;
  i_eqs : Forall (equality_ok M X rank) (flat_map equalities cs);
  i_lin : NoDup (filter (fun x => mem_var x X) (sides (flat_map equalities cs)));
  i_X : incl V X
}.
Lemma sides_In x s l : In (x, s) (sides l) <-> exists tu, In tu l /\ (fst tu = Var x s \/ snd tu = Var x s).
Proof.
  unfold sides. rewrite vars_of_In, in_flat_map. split; intros (tu & H1 & H2); exists tu; (split; [auto|]); cbn in *; intuition.
Qed.
Lemma vars_of_app l l' : vars_of (l ++ l') = (vars_of l ++ vars_of l')%list. Proof. apply flat_map_app. Qed.
Lemma sides_app l l' : sides (l ++ l') = (sides l ++ sides l')%list. Proof. unfold sides. now rewrite flat_map_app, vars_of_app. Qed.
(** The variable of the equality taken out is no other side. *)
Lemma lin_out pre t u post x s : NoDup (filter (fun x => mem_var x X) (sides (pre ++ (t, u) :: post))) -> In (x, s) X -> (t = Var x s \/ u = Var x s) -> ~ In (x, s) (sides (pre ++ post)) /\ t <> u.
Proof.
  rewrite !sides_app. change (sides ((t, u) :: post)) with (vars_of ([t; u] ++ flat_map (fun tu => [fst tu; snd tu]) post)). rewrite vars_of_app. change (vars_of (flat_map (fun tu => [fst tu; snd tu]) post)) with (sides post).
  intros N Hx D. rewrite !filter_app in N.
  assert (P : Permutation (filter (fun x => mem_var x X) (sides pre) ++ filter (fun x => mem_var x X) (vars_of [t; u]) ++ filter (fun x => mem_var x X) (sides post))
     (filter (fun x => mem_var x X) (vars_of [t; u]) ++ filter (fun x => mem_var x X) (sides pre ++ sides post))).
  { rewrite filter_app, !app_assoc. apply Permutation_app_tail, Permutation_app_comm. }
  apply (Permutation_NoDup P) in N. assert (MX : mem_var (x, s) X = true) by now apply mem_var_In. split.
  - intros K. assert (K' : In (x, s) (filter (fun x => mem_var x X) (sides pre ++ sides post))) by (apply filter_In; auto).
    assert (K2 : In (x, s) (filter (fun x => mem_var x X) (vars_of [t; u]))). { apply filter_In. split; [|auto]. apply vars_of_In. cbn. destruct D; auto. }
    apply in_split in K2 as (l1 & l2 & K2). rewrite K2, <- app_assoc in N. cbn [app] in N. apply NoDup_remove_2 in N. apply N. apply in_or_app. right. apply in_or_app. now right.
  - intros <-. assert (t = Var x s) as -> by (destruct D; auto). change (vars_of [Var x s; Var x s]) with [(x, s); (x, s)] in N. cbn [filter] in N. rewrite MX in N. inversion N as [|? ? N1 _]. apply N1. now left.
Qed.
(** Free variables of an equality taken out *)
Definition eq_atom t u := Atom (PB PEq) [t; u].
Lemma equalities_subst s c : ite_free c = true -> equalities (subst_formula (of_vars s) c) = map (fun tu => (subst_term (of_vars s) (fst tu), subst_term (of_vars s) (snd tu))) (equalities c).
Proof.
  induction c as [| |p ts|d fs IH|q vs g IH] using formula_ind_simple; intros H; rewrite subst_f_unfold; cbn [ite_free] in H; try reflexivity.
  - destruct p as [[]|]; try reflexivity. destruct ts as [|a [|b [|c ts]]]; reflexivity.
  - cbn [equalities]. rewrite flat_map_concat_map, map_map, flat_map_concat_map, concat_map, map_map. f_equal. apply map_ext_in. intros g Hg. rewrite Forall_forall in IH. rewrite forallb_forall in H. apply IH; auto.
  - cbn [equalities]. auto.
Qed.
Lemma ite_free_subst s : (forall x t, In (x, t) s -> ite_free_t t = true) -> (forall t, ite_free_t t = true -> ite_free_t (subst_term (of_vars s) t) = true) /\ (forall f, ite_free f = true -> ite_free (subst_formula (of_vars s) f) = true).
Proof.
  intros Hs. assert (T : forall t, ite_free_t t = true -> ite_free_t (subst_term (of_vars s) t) = true).
  { intros t. induction t as [x r|c r|f ts IH|c a b _ _ _| | |p ts IH|c fs IH|q vs g IH1 IH2] using term_ind_nested with (Q := fun _ => True); try exact I; intros H.
    - rewrite subst_var. destruct (lookup s (x, r)) eqn:L; [|auto]. apply lookup_In in L. eauto.
    - rewrite subst_cst. auto.
    - rewrite subst_app. cbn [ite_free_t] in *. rewrite forallb_forall in *. rewrite Forall_forall in IH. intros u Hu. apply in_map_iff in Hu as (v & <- & Hv). auto.
    - discriminate. }
  split; [exact T|]. intros f. induction f as [| |p ts|d fs IH|q vs g IH] using formula_ind_simple; intros H; rewrite subst_f_unfold; cbn [ite_free] in *; auto; rewrite forallb_forall in *.
  - intros u Hu. apply in_map_iff in Hu as (v & <- & Hv). auto.
  - rewrite Forall_forall in IH. intros u Hu. apply in_map_iff in Hu as (v & <- & Hv). auto.
Qed.
Lemma binders_ite_free : (forall t, ite_free_t t = true -> binders_t t = []).
Proof.
  intros t. induction t as [x r|c r|f ts IH|c a b _ _ _| | |p ts IH|c fs IH|q vs g IH1 IH2] using term_ind_nested with (Q := fun _ => True); try exact I; intros H; try reflexivity; [|discriminate].
  cbn [binders_t ite_free_t] in *. rewrite forallb_forall in H. induction ts as [|u ts IHl]; [reflexivity|]. cbn [flat_map]. inversion IH; subst. rewrite H2 by (apply H; now left). cbn. apply IHl; auto. intros; apply H; now right.
Qed.
Lemma binders_terms ts : forallb ite_free_t ts = true -> flat_map binders_t ts = [].
Proof. induction ts as [|u ts IH]; [reflexivity|]. cbn. rewrite andb_true_iff. intros [H1 H2]. rewrite binders_ite_free by auto. cbn. auto. Qed.
Lemma binders_subst s c : (forall x t, In (x, t) s -> ite_free_t t = true) -> ite_free c = true -> no_clash (binders c) s = true -> binders (subst_formula (of_vars s) c) = binders c.
Proof.
  intros Hs. induction c as [| |p ts|d fs IH|q vs g IH] using formula_ind_simple; intros H N; rewrite subst_f_unfold; cbn [ite_free binders] in *; try reflexivity.
  - rewrite !binders_terms; auto. rewrite forallb_forall in *. intros u Hu. apply in_map_iff in Hu as (v & <- & Hv). apply (proj1 (ite_free_subst s Hs)); auto.
  - rewrite flat_map_concat_map, map_map, <- flat_map_concat_map. rewrite Forall_forall in IH. rewrite forallb_forall in H. revert IH H N. induction fs as [|g fs IHl]; intros IH H N; [reflexivity|]. cbn [flat_map] in *.
    apply no_clash_app in N as [N1 N2]. f_equal; [apply IH; auto; [now left|apply H; now left]|]. apply IHl; auto; intros; [apply IH|apply H]; auto; now right.
  - apply no_clash_app in N as [N1 N2]. rewrite IH by auto. f_equal. now apply subst_binders_vars.
Qed.
Lemma builtin_binary_subst s c : builtin_binary c = true -> builtin_binary (subst_formula (of_vars s) c) = true.
Proof.
  induction c as [| |p ts|d fs IH|q vs g IH] using formula_ind_simple; intros H; rewrite subst_f_unfold; cbn [builtin_binary] in *; auto.
  - destruct p; [|auto]. now rewrite map_length.
  - rewrite forallb_forall in *. rewrite Forall_forall in IH. intros u Hu. apply in_map_iff in Hu as (v & <- & Hv). auto.
Qed.
Lemma fits_subst x s t u r : fits M u r -> fits M t s -> u <> Var x s -> fits M (subst_term (of_vars [((x, s), t)]) u) r.
Proof.
  intros H K D. destruct u as [y q|c q|f ts|c a b].
  - rewrite subst_var. cbn [lookup]. destruct (var_eqb (x, s) (y, q)) eqn:E; [|exact H]. apply var_eqb_eq in E. exfalso. apply D. congruence.
  - rewrite subst_cst. exact H.
  - rewrite subst_app. destruct f; exact H.
  - contradiction.
Qed.
Lemma wf_eq_terms c t u : wf c = true -> ite_free c = true -> In (t, u) (equalities c) -> wf_term t = true /\ wf_term u = true /\ ite_free_t t = true /\ ite_free_t u = true.
Proof.
  induction c as [| |p ts|d fs IH|q vs g IH] using formula_ind_simple; intros W F H; cbn [equalities] in H; try contradiction.
  - destruct p as [[]|]; try contradiction. destruct ts as [|a [|b [|c ts]]]; try contradiction. destruct H as [H|[]]. injection H as <- <-. cbn [wf ite_free forallb] in *. rewrite !andb_true_iff in *. tauto.
  - apply in_flat_map in H as (g & Hg & H). rewrite Forall_forall in IH. apply wf_Comp in W as [_ W]. rewrite Forall_forall in W. cbn [ite_free] in F. rewrite forallb_forall in F. eapply IH; eauto.
  - cbn [wf ite_free] in *. rewrite !andb_true_iff in W. apply IH; tauto.
Qed.

(** One replacement: the equality of [x] (a variable of the block) and [t] is taken out and [x] replaced by [t]. *)
Lemma step_inv V V' pre post t u x s t' : inv V (pre ++ eq_atom t u :: post) -> In (x, s) V -> (forall y, In y V' <-> In y V /\ y <> (x, s)) ->
  ((t = Var x s /\ u = t') \/ (u = Var x s /\ t = t')) ->
  let s' := [((x, s), t')] in let cs' := map (subst_formula (of_vars s')) (pre ++ post) in
  inv V' cs' /\ free_in_t (x, s) t' = false /\
  (forall y, existsb (free_in y) cs' = true -> existsb (free_in y) (pre ++ eq_atom t u :: post) = true /\ y <> (x, s)) /\
  (forall b, In b (flat_map binders cs') -> In b (flat_map binders (pre ++ post))) /\
  (exists l, Permutation (filter (fun x => mem_var x X) (sides (flat_map equalities (pre ++ eq_atom t u :: post)))) (l ++ filter (fun x => mem_var x X) (sides (flat_map equalities cs')))) /\
  (forall e : env M, (forall y r, ~ In (y, r) V -> existsb (free_in (y, r)) (pre ++ eq_atom t u :: post) = true -> In (e (y, r)) (dom M r)) ->
     (block M V (pre ++ eq_atom t u :: post) e <-> block M V' cs' e)).
Proof.
  intros [IW IB IE IL IX] HV HV' D s' cs'. set (cs := (pre ++ eq_atom t u :: post)%list) in *.
  assert (INeq : In (eq_atom t u) cs) by (apply in_or_app; right; now left).
  assert (INc : forall c, In c (pre ++ post) -> In c cs). { intros c Hc. apply in_or_app. apply in_app_or in Hc as [Hc|Hc]; [left|right; right]; auto. }
  assert (EQS : flat_map equalities cs = (flat_map equalities pre ++ (t, u) :: flat_map equalities post)%list) by (unfold cs; rewrite flat_map_app; reflexivity).
  rewrite EQS in IE, IL. assert (Hx : In (x, s) X) by auto.
  destruct (lin_out (flat_map equalities pre) t u (flat_map equalities post) x s IL Hx) as [LO NE]; [tauto|].
  rewrite Forall_forall in IW. destruct (IW _ INeq) as (Weq & Feq & _).
  destruct (wf_eq_terms _ t u Weq Feq) as (Wt & Wu & Ft & Fu); [now left|].
  assert (Wt' : wf_term t' = true /\ ite_free_t t' = true) by (destruct D as [[_ <-]|[_ <-]]; auto).
  assert (SO : side_ok M X rank (x, s) t'). { rewrite Forall_forall in IE. destruct (IE (t, u)) as [E1 E2]; [apply in_or_app; right; now left|]. cbn in E1, E2. destruct D as [[D1 <-]|[D1 <-]]; auto. }
  assert (OCC : free_in_t (x, s) t' = false).
  { destruct (free_in_t (x, s) t') eqn:Q; [|reflexivity]. exfalso. destruct SO as [_ SO]. destruct t' as [y r|c r|f ts|c a b].
    - cbn in Q. apply (var_eqb_eq (x, s) (y, r)) in Q. injection Q as <- <-. destruct D as [[-> ->]|[-> ->]]; congruence.
    - discriminate.
    - specialize (SO (x, s) Hx Q). lia.
    - specialize (SO (x, s) Hx Q). lia. }
  assert (FREEt' : forall y, free_in_t y t' = true -> free_in y (eq_atom t u) = true). { intros y Hy. cbn. destruct D as [[_ <-]|[_ <-]]; rewrite Hy, ?orb_true_r; reflexivity. }
  assert (NC : forall c, In c (pre ++ post) -> no_clash (binders c) s' = true).
  { intros c Hc. unfold no_clash. apply forallb_forall. intros b Hb. cbn. rewrite andb_true_r. destruct (IB c (eq_atom t u) b (INc c Hc) INeq Hb) as [B1 B2]. apply andb_true_iff. split; apply negb_true_iff.
    - apply var_eqb_neq. intros <-. auto.
    - destruct (free_in_t b t') eqn:Q; [|reflexivity]. apply FREEt' in Q. congruence. }
  assert (FR : forall c y, In c (pre ++ post) -> free_in y (subst_formula (of_vars s') c) = true -> (free_in y c = true /\ y <> (x, s)) \/ free_in_t y t' = true).
  { intros c y Hc H. apply (proj2 (free_in_subst_both s')) in H; [|auto]. destruct H as (z & H1 & H2). cbn [lookup s'] in H2. destruct (var_eqb (x, s) z) eqn:Q; [auto|]. subst z. left. split; [auto|]. intros ->. rewrite var_eqb_refl in Q. discriminate. }
  assert (FR' : forall y, existsb (free_in y) cs' = true -> existsb (free_in y) cs = true /\ y <> (x, s)).
  { intros y H. apply existsb_exists in H as (c' & Hc' & H). apply in_map_iff in Hc' as (c & <- & Hc). destruct (FR c y Hc H) as [[K1 K2]|K].
    - split; [|auto]. apply existsb_exists. eauto.
    - split; [apply existsb_exists; eauto|]. intros ->. congruence. }
  assert (Hs' : forall y v, In (y, v) s' -> ite_free_t v = true). { intros y v [E|[]]. injection E as <- <-. tauto. }
  assert (Hs'' : forall y v, In (y, v) s' -> wf_term v = true). { intros y v [E|[]]. injection E as <- <-. tauto. }
  assert (BS : forall c, In c (pre ++ post) -> binders (subst_formula (of_vars s') c) = binders c). { intros c Hc. apply binders_subst; auto. destruct (IW c (INc c Hc)); tauto. }
  assert (EQS' : flat_map equalities cs' = map (fun tu => (subst_term (of_vars s') (fst tu), subst_term (of_vars s') (snd tu))) (flat_map equalities (pre ++ post))).
  { unfold cs'. rewrite !flat_map_concat_map, concat_map, !map_map. f_equal. apply map_ext_in. intros c Hc. apply equalities_subst. destruct (IW c (INc c Hc)); tauto. }
  assert (SD : forall tu, In tu (flat_map equalities (pre ++ post)) -> forall v, (v = fst tu \/ v = snd tu) -> v <> Var x s /\ forall y r, subst_term (of_vars s') v = Var y r <-> v = Var y r).
  { intros tu Htu v Hv. assert (v <> Var x s) as NV. { intros ->. apply LO. rewrite flat_map_app in Htu. apply sides_In. exists tu. split; [auto|]. destruct Hv; auto. }
    split; [auto|]. intros y r. destruct v as [z q|c q|f ts|c a b].
    - rewrite subst_var. cbn [lookup s']. destruct (var_eqb (x, s) (z, q)) eqn:Q; [|reflexivity]. apply var_eqb_eq in Q. congruence.
    - rewrite subst_cst. tauto.
    - rewrite subst_app. split; discriminate.
    - rewrite subst_ite. split; discriminate. }
  assert (SIDES : forall l, (forall tu, In tu l -> In tu (flat_map equalities (pre ++ post))) -> sides (map (fun tu => (subst_term (of_vars s') (fst tu), subst_term (of_vars s') (snd tu))) l) = sides l).
  { assert (ONE : forall tu, In tu (flat_map equalities (pre ++ post)) -> forall v, (v = fst tu \/ v = snd tu) -> vars_of [subst_term (of_vars s') v] = vars_of [v]).
    { intros tu Htu v Hv. destruct (SD tu Htu v Hv) as [_ K]. destruct v as [z q|c q|f ts|c a b].
      - rewrite (proj2 (K z q) eq_refl). reflexivity. - rewrite subst_cst. reflexivity. - rewrite subst_app. reflexivity. - rewrite subst_ite. reflexivity. }
    induction l as [|tu l IHl]; intros H; [reflexivity|]. unfold sides. cbn [map flat_map fst snd]. rewrite !vars_of_app.
    assert (T2 : forall a b, vars_of [a; b] = (vars_of [a] ++ vars_of [b])%list) by (intros a b; apply (vars_of_app [a] [b])).
    rewrite !T2, (ONE tu (H tu (or_introl eq_refl)) (fst tu)), (ONE tu (H tu (or_introl eq_refl)) (snd tu)) by auto. f_equal. apply IHl. intros; apply H; now right. }
  assert (IE' : forall tu, In tu (flat_map equalities (pre ++ post)) -> equality_ok M X rank tu). { rewrite Forall_forall in IE. intros tu Htu. apply IE. rewrite flat_map_app in Htu. apply in_app_or in Htu as [Htu|Htu]; apply in_or_app; [left|right; right]; auto. }
  split; [|split; [exact OCC|split; [exact FR'|split; [|split]]]].
  - constructor.
    + apply Forall_forall. intros c' Hc'. apply in_map_iff in Hc' as (c & <- & Hc). destruct (IW c (INc c Hc)) as (W1 & W2 & W3). split; [|split].
      * apply (proj2 (subst_wf_both s' Hs'')); auto. * apply (proj2 (ite_free_subst s' Hs')); auto. * now apply builtin_binary_subst.
    + intros c1 c2 b H1 H2 Hb. apply in_map_iff in H1 as (d1 & <- & H1). apply in_map_iff in H2 as (d2 & <- & H2). rewrite BS in Hb by auto. split.
      * intros K. apply HV' in K. apply (IB d1 d2 b (INc _ H1) (INc _ H2) Hb). tauto.
      * destruct (free_in b (subst_formula (of_vars s') d2)) eqn:Q; [|reflexivity]. exfalso. destruct (FR d2 b H2 Q) as [[K _]|K].
        -- destruct (IB d1 d2 b (INc _ H1) (INc _ H2) Hb). congruence.
        -- destruct (IB d1 _ b (INc _ H1) INeq Hb). apply FREEt' in K. congruence.
    + rewrite EQS'. apply Forall_forall. intros tu' H. apply in_map_iff in H as (tu & <- & Htu). destruct (IE' tu Htu) as [E1 E2].
      assert (SOK : forall y r v, (v = fst tu \/ v = snd tu) -> In (y, r) X -> side_ok M X rank (y, r) v -> side_ok M X rank (y, r) (subst_term (of_vars s') v)).
      { intros y r v Hv Hy [F1 F2]. destruct (SD tu Htu v Hv) as [NV KV]. split.
        - cbn [snd] in *. unfold s'. apply fits_subst; auto. exact (proj1 SO).
        - destruct v as [z q|c q|f ts|c a b].
          + rewrite (proj2 (KV z q) eq_refl). exact F2.
          + rewrite subst_cst. exact F2.
          + rewrite subst_app, <- (subst_app s' f ts). rewrite subst_app. intros z Hz Q. rewrite <- subst_app in Q.
            assert (NCv : no_clash (binders_t (App f ts)) s' = true). { rewrite binders_ite_free; [reflexivity|]. apply in_flat_map in Htu as (c & Hc & Htu). destruct (IW c (INc c Hc)) as (W1 & W2 & _). destruct tu as [tu1 tu2]. destruct (wf_eq_terms c tu1 tu2 W1 W2 Htu) as (_ & _ & Q1 & Q2). cbn in Hv. destruct Hv as [-> | ->]; auto. }
            apply (proj1 (free_in_subst_both s')) in Q; [|exact NCv]. destruct Q as (w & Q1 & Q2). cbn [lookup s'] in Q2. destruct (var_eqb (x, s) w) eqn:QW.
            * apply var_eqb_eq in QW. subst w. assert (R1 := F2 (x, s) Hx Q1). destruct SO as [_ SO]. destruct t' as [z' q'|c'|f' ts'|c' a' b'].
              -- cbn in Q2. apply (var_eqb_eq z (z', q')) in Q2. subst z. rewrite (SO Hz). exact R1.
              -- discriminate. -- specialize (SO z Hz Q2). lia. -- specialize (SO z Hz Q2). lia.
            * subst w. auto.
          + contradiction. }
      split; cbn [fst snd]; intros y r Hy HX'.
      * apply (SD tu Htu (fst tu)) in Hy; [|auto]. apply SOK; auto.
      * apply (SD tu Htu (snd tu)) in Hy; [|auto]. apply SOK; auto.
    + rewrite EQS', SIDES by auto. rewrite flat_map_app, sides_app, filter_app. rewrite sides_app, filter_app in IL. change (sides ((t, u) :: flat_map equalities post)) with (vars_of ([t; u] ++ flat_map (fun tu => [fst tu; snd tu]) (flat_map equalities post))) in IL.
      rewrite vars_of_app, filter_app in IL. change (vars_of (flat_map (fun tu => [fst tu; snd tu]) (flat_map equalities post))) with (sides (flat_map equalities post)) in IL.
      clear - IL. revert IL. generalize (filter (fun x => mem_var x X) (vars_of [t; u])). intros l. induction l as [|a l IHl]; intros N; [exact N|]. apply IHl. apply NoDup_remove_1 in N. exact N.
    + intros y Hy. apply HV' in Hy. apply IX. tauto.
  - intros b Hb. apply in_flat_map in Hb as (c' & Hc' & Hb). apply in_map_iff in Hc' as (c & <- & Hc). rewrite BS in Hb by auto. apply in_flat_map. eauto.
  - exists (filter (fun x => mem_var x X) (vars_of [t; u])). fold cs. rewrite EQS', SIDES by auto. rewrite EQS, !flat_map_app, !sides_app, !filter_app.
    change (sides ((t, u) :: flat_map equalities post)) with (vars_of ([t; u] ++ flat_map (fun tu => [fst tu; snd tu]) (flat_map equalities post))).
    rewrite vars_of_app, filter_app. change (vars_of (flat_map (fun tu => [fst tu; snd tu]) (flat_map equalities post))) with (sides (flat_map equalities post)).
    rewrite !app_assoc. apply Permutation_app_tail, Permutation_app_comm.
  - intros e TE.
    assert (SEMEQ : forall e', (forall c, In c cs -> fsem M c e' = true) -> e' (x, s) = tsem M t' e').
    { intros e' H. specialize (H _ INeq). apply eq_atom_sem in H. destruct D as [[-> <-]|[-> <-]]; cbn [tsem] in H; congruence. }
    split.
    + intros (e' & A & B & Cc). exists (fun y => if var_eqb (x, s) y then e (x, s) else e' y). split; [|split].
      * intros y Hy. destruct (var_eqb (x, s) y) eqn:Q; [apply var_eqb_eq in Q; now subst|]. apply A. intros K. apply Hy, HV'. split; [auto|]. intros ->. rewrite var_eqb_refl in Q. discriminate.
      * intros y r Hy. apply HV' in Hy as [Hy NY]. destruct (var_eqb (x, s) (y, r)) eqn:Q; [apply var_eqb_eq in Q; congruence|]. auto.
      * intros c' Hc'. apply in_map_iff in Hc' as (c & <- & Hc). rewrite (proj2 (subst_lemma_both M s')) by auto. rewrite <- (Cc c (INc c Hc)). apply (proj2 (sem_ext M)). intros y. unfold env_subst. cbn [lookup s']. destruct (var_eqb (x, s) y) eqn:Q.
        -- apply var_eqb_eq in Q. subst y. rewrite (SEMEQ e' Cc). apply tsem_coincidence. intros y Hy. destruct (var_eqb (x, s) y) eqn:Q'; [|reflexivity]. apply var_eqb_eq in Q'. subst y. congruence.
        -- reflexivity.
    + intros (e' & A & B & Cc). exists (env_subst s' e').
      assert (EX : env_subst s' e' (x, s) = tsem M t' e'). { unfold env_subst. cbn [lookup s']. now rewrite var_eqb_refl. }
      assert (EY : forall y, y <> (x, s) -> env_subst s' e' y = e' y). { intros y Hy. unfold env_subst. cbn [lookup s']. destruct (var_eqb (x, s) y) eqn:Q; [apply var_eqb_eq in Q; congruence|reflexivity]. }
      split; [|split].
      * intros y Hy. rewrite EY by (intros ->; auto). apply A. intros K. apply HV' in K. tauto.
      * intros y r Hy. destruct (var_eqb (x, s) (y, r)) eqn:Q.
        -- apply var_eqb_eq in Q. injection Q as <- <-. rewrite EX. apply fits_value; [exact (proj1 SO)|]. intros y' r' Hy'.
           destruct (mem_var (y', r') V) eqn:QV.
           ++ apply mem_var_In in QV. apply B, HV'. split; [auto|]. intros K. rewrite K in Hy'. congruence.
           ++ apply mem_var_false in QV. rewrite A by (intros K; apply HV' in K; tauto). apply TE; [auto|]. apply existsb_exists. exists (eq_atom t u). split; [auto|]. now apply FREEt'.
        -- rewrite EY by (intros K; rewrite K, var_eqb_refl in Q; discriminate). apply B, HV'. split; [auto|]. intros K; rewrite K, var_eqb_refl in Q; discriminate.
      * intros c Hc. apply in_app_or in Hc. rewrite <- or_comm in Hc. destruct Hc as [[<- |Hc]|Hc].
        -- apply eq_atom_sem. assert (K : tsem M t' (env_subst s' e') = tsem M t' e'). { apply tsem_coincidence. intros y Hy. apply EY. intros ->. congruence. }
           destruct D as [[-> <-]|[-> <-]]; cbn [tsem]; [rewrite K; exact EX|rewrite K; symmetry; exact EX].
        -- rewrite <- (proj2 (subst_lemma_both M s')); [apply Cc, in_map, in_or_app; auto|apply NC, in_or_app; auto].
        -- rewrite <- (proj2 (subst_lemma_both M s')); [apply Cc, in_map, in_or_app; auto|apply NC, in_or_app; auto].
Qed.

(** * The loop *)
Notation FS l := (filter (fun x => mem_var x X) (sides l)).
Lemma enum_filter_all keep l : forall i, (forall j, i <= j -> keep j = true) -> enum_filter keep i l = l.
Proof. induction l as [|c l IH]; intros i H; cbn; [reflexivity|]. rewrite H by lia. f_equal. apply IH. intros; apply H; lia. Qed.
Lemma enum_filter_drop pre c post : forall i, enum_filter (fun j => negb (Nat.eqb j (i + List.length pre))) i (pre ++ c :: post) = (pre ++ post)%list.
Proof.
  induction pre as [|d pre IH]; intros i; cbn [List.length app enum_filter].
  - rewrite Nat.add_0_r, Nat.eqb_refl. cbn [negb]. apply enum_filter_all. intros j Hj. apply negb_true_iff, Nat.eqb_neq. lia.
  - destruct (Nat.eqb_spec i (i + S (List.length pre))); [lia|]. cbn [negb]. f_equal. rewrite Nat.add_succ_r. exact (IH (S i)).
Qed.
Lemma scan_spec exvars : forall cs i, Forall (fun c => builtin_binary c = true) cs -> (forall t u, In (eq_atom t u) cs -> In t exvars \/ In u exvars -> t <> u) ->
  scan exvars i cs = Ok (None, []) \/
  exists pre t u post key val, cs = (pre ++ eq_atom t u :: post)%list /\ scan exvars i cs = Ok (Some (i + List.length pre, (key, val)), []) /\ In key exvars /\ ((t = key /\ u = val) \/ (u = key /\ t = val)).
Proof.
  induction cs as [|c cs IH]; intros i HB HN; [left; reflexivity|]. inversion HB as [|? ? B1 B2]; subst.
  assert (REC : scan exvars i (c :: cs) = scan exvars (S i) cs -> scan exvars i (c :: cs) = Ok (None, []) \/
    exists pre t u post key val, c :: cs = (pre ++ eq_atom t u :: post)%list /\ scan exvars i (c :: cs) = Ok (Some (i + List.length pre, (key, val)), []) /\ In key exvars /\ ((t = key /\ u = val) \/ (u = key /\ t = val))).
  { intros E. rewrite E. destruct (IH (S i) B2) as [K|(pre & t & u & post & key & val & K1 & K2 & K3)]; [intros; apply HN; auto; now right|left; exact K|].
    right. exists (c :: pre), t, u, post, key, val. rewrite K1 at 1. split; [reflexivity|]. split; [|exact K3]. rewrite K2. cbn [List.length]. rewrite Nat.add_succ_r. reflexivity. }
  destruct c as [| |p ts|d fs|q vs g]; try (apply REC; reflexivity). destruct p as [[]|n l]; try (apply REC; reflexivity).
  cbn [builtin_binary] in B1. destruct ts as [|t1 [|t2 [|t3 ts]]]; try discriminate.
  cbn [scan]. destruct (mem_t t1 exvars) eqn:Q1; destruct (mem_t t2 exvars) eqn:Q2; cbn [negb andb]; rewrite ?mem_t_In in *.
  4:{ specialize (REC ltac:(cbn [scan]; rewrite Q1, Q2; reflexivity)). cbn [scan] in REC. rewrite Q1, Q2 in REC. exact REC. }
  all: assert (NE : t1 <> t2) by (apply HN; [now left|auto]); assert (TE : term_eqb t1 t2 = false) by (destruct (term_eqb t1 t2) eqn:TE; [apply term_eqb_eq in TE; contradiction|reflexivity]); rewrite TE; right.
  - exists [], t1, t2, cs, t2, t1. cbn [app List.length]. rewrite Nat.add_0_r. auto 10.
  - exists [], t1, t2, cs, t1, t2. cbn [app List.length]. rewrite Nat.add_0_r. auto 10.
  - exists [], t1, t2, cs, t2, t1. cbn [app List.length]. rewrite Nat.add_0_r. auto 10.
Qed.
Lemma remove_spec x l : NoDup l -> In x l -> exists l', remove_t x l = Ok l' /\ List.length l = S (List.length l') /\ NoDup l' /\ forall y, In y l' <-> In y l /\ y <> x.
Proof.
  induction l as [|a l IH]; intros N H; [destruct H|]. inversion N as [|? ? N1 N2]; subst. cbn [remove_t]. destruct (term_eqb x a) eqn:E.
  - apply term_eqb_eq in E. subst a. exists l. split; [reflexivity|]. split; [reflexivity|]. split; [auto|]. intros y. cbn. split; [intros K; split; [auto|intros ->; auto]|]. intros [[K|K] D]; [congruence|auto].
  - assert (D : x <> a) by (intros ->; rewrite term_eqb_refl in E; discriminate). destruct H as [H|H]; [congruence|]. destruct (IH N2 H) as (l' & R & L & NL & ML). rewrite R. cbn [bind]. exists (a :: l'). split; [reflexivity|]. split; [cbn; lia|]. split.
    + constructor; [|auto]. intros K. apply ML in K. tauto.
    + intros y. cbn. rewrite ML. split; [intros [<- |K]; [auto|tauto]|]. intros [[K|K] D']; auto.
Qed.
Lemma FS_app l l' : FS (l ++ l') = (FS l ++ FS l')%list. Proof. now rewrite sides_app, filter_app. Qed.
Lemma inv_distinct V cs : inv V cs -> forall exvars, V = vars_of exvars -> forallb is_var exvars = true -> forall t u, In (eq_atom t u) cs -> In t exvars \/ In u exvars -> t <> u.
Proof.
  intros [_ _ _ IL IX] exvars -> HV t u Hin D. apply in_split in Hin as (pre & post & ->). rewrite flat_map_app in IL. cbn [flat_map equalities eq_atom app] in IL.
  rewrite forallb_forall in HV. destruct D as [D|D]; assert (K := HV _ D); [destruct t as [x s| | |]|destruct u as [x s| | |]]; try discriminate; apply vars_of_In in D; apply IX in D; apply (lin_out _ _ _ _ x s IL D); auto.
Qed.
Lemma loop_spec : forall fuel exvars cs, List.length exvars < fuel -> NoDup exvars -> forallb is_var exvars = true -> inv (vars_of exvars) cs ->
  exists exvars' cs', substitute_loop fuel exvars cs = Ok (exvars', cs') /\ NoDup exvars' /\ forallb is_var exvars' = true /\ incl exvars' exvars /\ inv (vars_of exvars') cs' /\
    (forall y, existsb (free_in y) cs' = true -> existsb (free_in y) cs = true /\ (In y (vars_of exvars) -> In y (vars_of exvars'))) /\
    (forall b, In b (flat_map binders cs') -> In b (flat_map binders cs)) /\
    (exists l, Permutation (FS (flat_map equalities cs)) (l ++ FS (flat_map equalities cs'))) /\
    (forall e : env M, (forall y r, ~ In (y, r) (vars_of exvars) -> existsb (free_in (y, r)) cs = true -> In (e (y, r)) (dom M r)) -> (block M (vars_of exvars) cs e <-> block M (vars_of exvars') cs' e)).
Proof.
  induction fuel as [|fuel IH]; intros exvars cs HL ND HV HI; [lia|]. cbn [substitute_loop]. unfold attempt.
  assert (HB : Forall (fun c => builtin_binary c = true) cs). { eapply Forall_impl; [|exact (i_wf _ _ HI)]. cbn. tauto. }
  destruct (scan_spec exvars cs 0 HB (inv_distinct _ _ HI exvars eq_refl HV)) as [E|(pre & t & u & post & key & val & -> & E & HK & D)].
  - rewrite E. cbn [bind]. rewrite enum_filter_all by reflexivity. exists exvars, cs. split; [reflexivity|]. split; [auto|]. split; [auto|]. split; [apply incl_refl|]. split; [auto|]. split; [auto|]. split; [auto|]. split; [exists []; reflexivity|]. tauto.
  - rewrite E. cbn [bind]. rewrite (enum_filter_all (fun i => negb (existsb (Nat.eqb i) []))) by reflexivity.
    destruct (remove_spec key exvars ND HK) as (exvars1 & R & L & N1 & M1). rewrite R. cbn [bind]. rewrite (enum_filter_drop pre (eq_atom t u) post 0).
    rewrite forallb_forall in HV. assert (KV := HV key HK). destruct key as [x s| | |]; try discriminate.
    change {| sub_t := [(Var x s, val)]; sub_f := [] |} with (of_vars [((x, s), val)]).
    assert (HV1 : forall y, In y (vars_of exvars1) <-> In y (vars_of exvars) /\ y <> (x, s)). { intros [y r]. rewrite !vars_of_In, M1. split; intros [? ?]; split; auto; congruence. }
    destruct (step_inv (vars_of exvars) (vars_of exvars1) pre post t u x s val HI) as (I1 & _ & F1 & B1 & (l1 & P1) & S1); [now apply vars_of_In|exact HV1|exact D|].
    destruct (IH exvars1 (map (subst_formula (of_vars [((x, s), val)])) (pre ++ post))) as (exvars' & cs' & E' & N' & V' & L' & I' & F' & B' & (l' & P') & S'); [lia|auto| |auto|].
    { apply forallb_forall. intros y Hy. apply M1 in Hy. apply HV. tauto. }
    exists exvars', cs'. split; [exact E'|]. split; [auto|]. split; [auto|]. split; [|split; [auto|split; [|split; [|split]]]].
    + intros y Hy. apply L' in Hy. apply M1 in Hy. tauto.
    + intros y Hy. apply F' in Hy as [Hy Q]. apply F1 in Hy as [Hy NY]. split; [auto|]. intros K. apply Q, HV1. auto.
    + intros b Hb. apply B', B1 in Hb. rewrite flat_map_app in *. apply in_or_app. apply in_app_or in Hb. destruct Hb; [now left|right]. cbn [flat_map]. apply in_or_app. now right.
    + exists (l1 ++ l')%list. rewrite <- app_assoc. rewrite P1. apply Permutation_app_head. exact P'.
    + intros e TE. rewrite (S1 e TE). apply S'. intros y r Hy K. apply F1 in K as [K NY]. apply TE; [|auto]. intros Q. apply Hy, HV1. auto.
Qed.

(** * Block and quantified formula *)
Lemma fold_add_In vs : forall l x, In x (fold_left (fun l v => add_t v l) vs l) <-> In x l \/ In x vs.
Proof.
  induction vs as [|v vs IH]; intros l x; cbn [fold_left In]; [tauto|]. rewrite IH. unfold add_t. destruct (mem_t v l) eqn:Q.
  - apply mem_t_In in Q. intuition (subst; auto).
  - rewrite in_app_iff. cbn. intuition.
Qed.
Lemma fold_add_NoDup vs : forall l, NoDup l -> NoDup (fold_left (fun l v => add_t v l) vs l).
Proof.
  induction vs as [|v vs IH]; intros l N; cbn [fold_left]; [auto|]. apply IH. unfold add_t. destruct (mem_t v l) eqn:Q; [auto|]. apply NoDup_Add with (a := v) (l := l).
  - rewrite <- (app_nil_r l) at 1. apply Add_app. - split; [auto|]. intros K. apply mem_t_In in K. congruence.
Qed.
Lemma block_same V V' cs e : (forall x, In x V <-> In x V') -> block M V cs e <-> block M V' cs e.
Proof. intros H. split; intros (e' & A & B & K); exists e'; (split; [intros x Hx; apply A; rewrite ?H, <- ?H in *; auto|]); (split; [intros x s Hx; apply B; rewrite ?H, <- ?H in *; auto|auto]). Qed.
Lemma qsem_typed q g k k' : forall vs (e : env M), (forall e', typed_on M g e' -> k e' = k' e') ->
  (forall x s, free_in (x, s) g = true -> ~ In (x, s) (vars_of vs) -> In (e (x, s)) (dom M s)) -> qsem M q vs k e = qsem M q vs k' e.
Proof.
  induction vs as [|v vs IH]; intros e H T; cbn [qsem].
  - apply H. intros x s F. apply T; auto.
  - destruct v as [x s|c s|f ts|c a b]; try (apply IH; auto).
    assert (K : forall d, In d (dom M s) -> qsem M q vs k (upd e (x, s) d) = qsem M q vs k' (upd e (x, s) d)).
    { intros d Hd. apply IH; auto. intros y r F N. unfold upd. destruct (var_eqb (x, s) (y, r)) eqn:Q; [apply var_eqb_eq in Q; injection Q as <- <-; auto|]. apply T; [auto|]. intros [Q'|Q']; [rewrite Q', var_eqb_refl in Q; discriminate|auto]. }
    destruct q; [now apply existsb_ext_in|now apply forallb_ext_in].
Qed.
Lemma flatten_aux_parts g : flat_map equalities (flatten_aux And g) = equalities g /\ flat_map binders (flatten_aux And g) = binders g /\ (forall y, existsb (free_in y) (flatten_aux And g) = free_in y g) /\
  (ite_free g = true -> Forall (fun c => ite_free c = true) (flatten_aux And g)) /\ (builtin_binary g = true -> Forall (fun c => builtin_binary c = true) (flatten_aux And g)).
Proof.
  induction g as [| |p ts|d fs IH|q vs g IH] using formula_ind_simple; try (cbn [flatten_aux flat_map existsb]; rewrite ?app_nil_r; split; [reflexivity|]; split; [reflexivity|]; split; [intros; apply orb_false_r|]; split; intros; repeat constructor; auto; fail).
  cbn [flatten_aux]. destruct (conn_eqb d And) eqn:Q.
  2:{ cbn [flat_map existsb]. rewrite ?app_nil_r. split; [reflexivity|]; split; [reflexivity|]; split; [intros; apply orb_false_r|]; split; intros; repeat constructor; auto. }
  cbn [equalities binders free_in ite_free builtin_binary]. induction IH as [|g fs (H1 & H2 & H3 & H4 & H5) _ (J1 & J2 & J3 & J4 & J5)]; [cbn; auto|]. cbn [flat_map existsb forallb]. rewrite !flat_map_app. split; [|split; [|split; [|split]]].
  - now rewrite H1, J1. - now rewrite H2, J2. - intros y. rewrite existsb_app, H3, J3. reflexivity.
  - intros K. apply andb_true_iff in K as [K1 K2]. apply Forall_app. auto.
  - intros K. apply andb_true_iff in K as [K1 K2]. apply Forall_app. auto.
Qed.
Definition body_ok (g : formula) : bool := match g with Top | Atom _ _ | Comp And _ => true | _ => false end.
(** What the body is split into *)
Lemma conjuncts_of g : wf g = true -> body_ok g = true -> exists fl, flatten g = Ok fl /\ let cs := unwrap_conjunction_or_atom fl in
  Forall (fun c => wf c = true) cs /\ (forall e : env M, forallb (fun c => fsem M c e) cs = fsem M g e) /\ flat_map equalities cs = equalities g /\ flat_map binders cs = binders g /\ (forall y, existsb (free_in y) cs = free_in y g) /\
  (ite_free g = true -> Forall (fun c => ite_free c = true) cs) /\ (builtin_binary g = true -> Forall (fun c => builtin_binary c = true) cs).
Proof.
  intros W B. destruct g as [| |p ts|[] fs|q vs g]; try discriminate.
  - exists Top. cbn. split; [reflexivity|]. repeat split; auto.
  - exists (Atom p ts). split; [reflexivity|]. cbn [unwrap_conjunction_or_atom forallb flat_map existsb]. rewrite !app_nil_r. split; [auto|]. split; [intros; apply andb_true_r|]. split; [reflexivity|]. split; [reflexivity|]. split; [intros; apply orb_false_r|]. auto.
  - assert (L := flatten_aux_root_length And fs ltac:(discriminate) W). destruct (flatten_aux_correct And (Comp And fs) ltac:(discriminate) W) as [SE WF]. destruct (flatten_aux_parts (Comp And fs)) as (P1 & P2 & P3 & P4 & P5).
    unfold flatten, compound, comp_arity_ok. destruct (Nat.leb_spec 2 (List.length (flatten_aux And (Comp And fs)))); [|lia]. eexists. split; [reflexivity|]. cbn [unwrap_conjunction_or_atom]. split; [|auto].
    + eapply Forall_impl; [|exact WF]. cbn. tauto. + split; [intros e; apply (SE M e)|]. auto.
Qed.
Lemma exists_ok xs f : xs <> [] -> forallb is_var xs = true -> exists_ (map ATerm xs ++ [AForm f]) = Ok (Quant QEx xs f).
Proof. intros H K. apply quantified_iff. eauto 10. Qed.
Lemma land_parts cs g : land cs true = Ok g -> equalities g = flat_map equalities cs /\ binders g = flat_map binders cs /\ (forall y, free_in y g = existsb (free_in y) cs) /\
  (Forall (fun c => ite_free c = true) cs -> ite_free g = true) /\ (Forall (fun c => builtin_binary c = true) cs -> builtin_binary g = true).
Proof.
  unfold land, create_compound. destruct cs as [|a [|b cs]]; intros E.
  - injection E as <-. cbn. auto.
  - injection E as <-. cbn [flat_map existsb]. rewrite !app_nil_r. split; [auto|]. split; [auto|]. split; [intros; now rewrite orb_false_r|]. split; intros K; inversion K; auto.
  - unfold compound in E. destruct (comp_arity_ok _ _); [|discriminate]. injection E as <-. cbn [equalities binders free_in ite_free builtin_binary]. split; [auto|]. split; [auto|]. split; [auto|]. split; intros K; apply forallb_forall; rewrite Forall_forall in K; auto.
Qed.
Variable order : list term -> list term.
Hypothesis OR : forall l, Permutation l (order l).

(** * The whole formula *)
Definition pre_ok (f : formula) : Prop := wf f = true /\ ite_free f = true /\ builtin_binary f = true /\ clean f = true /\ incl (ex_bound f) X /\ Forall (equality_ok M X rank) (equalities f) /\ NoDup (FS (equalities f)).
Definition post_ok (f f' : formula) : Prop := wf f' = true /\ ite_free f' = true /\ builtin_binary f' = true /\ (body_ok f = true -> body_ok f' = true) /\ incl (binders f') (binders f) /\ (forall y, free_in y f' = true -> free_in y f = true) /\
  Forall (equality_ok M X rank) (equalities f') /\ (exists l, Permutation (FS (equalities f)) (l ++ FS (equalities f'))) /\ forall e, typed_on M f e -> fsem M f' e = fsem M f e.
Lemma sx_terms ts : forallb ite_free_t ts = true -> mapM (sx_term order) ts = Ok ts.
Proof.
  assert (T : forall t, ite_free_t t = true -> sx_term order t = Ok t).
  { intros t. induction t as [x r|c r|f us IH|c a b _ _ _| | |p us IH|c fs IH|q vs g IH1 IH2] using term_ind_nested with (Q := fun _ => True); try exact I; intros H; try reflexivity; [|discriminate].
    cbn [sx_term ite_free_t] in *. rewrite forallb_forall in H. rewrite mapM_id; [reflexivity|]. rewrite Forall_forall in *. intros u Hu. apply IH; auto. }
  intros H. apply mapM_id. rewrite forallb_forall in H. apply Forall_forall. auto.
Qed.
Lemma perm_sub_NoDup (l a b : list var) : NoDup a -> Permutation a (l ++ b) -> NoDup b.
Proof. intros N P. apply (Permutation_NoDup P) in N. clear P. induction l as [|x l IH]; [auto|]. inversion N; auto. Qed.
Lemma sx_quant q vs g : simplify_existential order (Quant q vs g) = let! g' := simplify_existential order g in let! vs' := mapM (sx_term order) vs in visit_quantified order q vs' g'.
Proof. reflexivity. Qed.
Lemma NoDup_mid (a b c : list var) : NoDup (a ++ b ++ c) -> NoDup b.
Proof. induction a as [|x a IH]; cbn [app]; intros N; [|inversion N; auto]. induction b as [|y b IH]; [constructor|]. cbn [app] in N. inversion N; subst. constructor; [intros K; apply H1, in_or_app; auto|auto]. Qed.
Lemma main : forall f, pre_ok f -> exists f', simplify_existential order f = Ok f' /\ post_ok f f'.
Proof.
  induction f as [| |p ts|d fs IH|q vs g IH] using formula_ind_simple; intros (W & F & B & CL & XB & EQ & ND).
  - exists Top. split; [reflexivity|]. unfold post_ok. cbn. repeat split; auto; try (intros ? []). exists []; constructor.
  - exists Bot. split; [reflexivity|]. unfold post_ok. cbn. repeat split; auto; try (intros ? []). exists []; constructor.
  - exists (Atom p ts). cbn [simplify_existential]. rewrite sx_terms by exact F. split; [reflexivity|]. unfold post_ok. split; [auto|]. split; [auto|]. split; [auto|]. split; [auto|]. split; [apply incl_refl|]. split; [auto|]. split; [auto|]. split; [exists []; apply Permutation_refl|auto].
  - cbn [simplify_existential]. destruct (wf_Comp d fs W) as [AR WF].
    assert (PRE : Forall pre_ok fs).
    { cbn [ite_free builtin_binary clean ex_bound equalities] in *. rewrite forallb_forall in F, B, CL. rewrite Forall_forall in WF, EQ. apply Forall_forall. intros g Hg. split; [auto|]. split; [auto|]. split; [auto|]. split; [auto|]. split; [|split].
      - intros x Hx. apply XB, in_flat_map. eauto. - apply Forall_forall. intros tu Htu. apply EQ, in_flat_map. eauto.
      - apply in_split in Hg as (l1 & l2 & ->). rewrite flat_map_app in ND. cbn [flat_map] in ND. rewrite !FS_app in ND. apply NoDup_mid in ND. exact ND. }
    assert (REC : exists fs', mapM (simplify_existential order) fs = Ok fs' /\ Forall2 post_ok fs fs').
    { clear - IH PRE. induction IH as [|g fs H _ IHl]; [exists []; split; [reflexivity|constructor]|]. inversion PRE as [|? ? P1 P2]; subst. destruct (H P1) as (g' & E1 & Q1). destruct (IHl P2) as (fs' & E2 & Q2).
      exists (g' :: fs'). cbn [mapM]. rewrite E1. fold (mapM (simplify_existential order)). rewrite E2. split; [reflexivity|]. constructor; auto. }
    destruct REC as (fs' & -> & F2). cbn [bind]. exists (Comp d fs'). split; [reflexivity|].
    assert (LEN : List.length fs' = List.length fs) by (clear - F2; induction F2; cbn; congruence).
    assert (ALL : forall g', In g' fs' -> exists g, In g fs /\ post_ok g g') by (intros g' Hg'; exact (Forall2_In_r _ _ _ _ F2 Hg')).
    split; [|split; [|split; [|split; [|split; [|split; [|split; [|split]]]]]]].
    + cbn [wf]. rewrite LEN, AR. cbn [andb]. apply forallb_forall. intros g' Hg'. destruct (ALL g' Hg') as (g & _ & P). apply P.
    + cbn [ite_free]. apply forallb_forall. intros g' Hg'. destruct (ALL g' Hg') as (g & _ & P). apply P.
    + cbn [builtin_binary]. apply forallb_forall. intros g' Hg'. destruct (ALL g' Hg') as (g & _ & P). apply P.
    + auto.
    + cbn [binders]. intros b Hb. apply in_flat_map in Hb as (g' & Hg' & Hb). destruct (ALL g' Hg') as (g & Hg & P). apply in_flat_map. exists g. split; [auto|]. apply P, Hb.
    + cbn [free_in]. intros y Hy. apply existsb_exists in Hy as (g' & Hg' & Hy). destruct (ALL g' Hg') as (g & Hg & P). apply existsb_exists. exists g. split; [auto|]. apply P, Hy.
    + cbn [equalities]. apply Forall_forall. intros tu Htu. apply in_flat_map in Htu as (g' & Hg' & Htu). destruct (ALL g' Hg') as (g & Hg & P). destruct P as (_ & _ & _ & _ & _ & _ & P & _). rewrite Forall_forall in P. auto.
    + cbn [equalities]. clear - F2. induction F2 as [|g g' fs fs' P _ (l2 & IH2)]; [exists []; constructor|]. destruct P as (_ & _ & _ & _ & _ & _ & _ & (l1 & P1) & _). cbn [flat_map]. exists (l1 ++ l2)%list. rewrite !FS_app. rewrite P1, IH2. rewrite <- !app_assoc. apply Permutation_app_head. rewrite !app_assoc. apply Permutation_app_tail, Permutation_app_comm.
    + intros e TE.
      assert (K : Forall2 (fun g g' => fsem M g' e = fsem M g e) fs fs'). { eapply Forall2_impl_In; [|exact F2]. intros g g' Hg Hg' P. apply P. intros x s Hx. apply TE. cbn [free_in]. apply existsb_exists. eauto. }
      cbn [fsem]. destruct d.
      * clear - K. induction K; cbn; congruence.
      * clear - K. induction K; cbn; congruence.
      * destruct K as [|g g' ? ? K1 K]; [reflexivity|]. destruct K; [now rewrite K1|reflexivity].
  - rewrite sx_quant. cbn [wf ite_free builtin_binary clean ex_bound equalities] in *.
    rewrite !andb_true_iff in W, CL. destruct W as [WV W], CL as [[SH BD] CL]. rewrite forallb_forall in BD.
    assert (PG : pre_ok g). { split; [tauto|]. split; [auto|]. split; [auto|]. split; [auto|]. split; [intros x Hx; apply XB, in_or_app; auto|]. auto. }
    destruct (IH PG) as (g' & E & P). rewrite E. cbn [bind].
    assert (VV : forallb is_var vs = true). { apply WV || (apply andb_true_iff in WV; tauto). }
    assert (VI : mapM (sx_term order) vs = Ok vs). { apply mapM_id. rewrite forallb_forall in VV. apply Forall_forall. intros v Hv. apply VV in Hv. destruct v; try discriminate. reflexivity. }
    rewrite VI. cbn [bind]. destruct P as (W' & F' & B' & SH' & BI' & FR' & EQ' & (l' & PM') & SEM').
    assert (SQ : forall e, typed_on M (Quant q vs g) e -> fsem M (Quant q vs g) e = qsem M q vs (fun e' => fsem M g' e') e).
    { intros e TE. cbn [fsem]. apply qsem_typed with (g := g); [intros; symmetry; now apply SEM'|]. intros x s Hx NV. apply TE. cbn [free_in]. rewrite Hx. apply mem_var_false in NV. rewrite NV. reflexivity. }
    destruct q; cbn [visit_quantified].
    2:{ exists (Quant QAll vs g'). split; [reflexivity|]. split; [|split; [|split; [|split; [|split; [|split; [|split; [|split]]]]]]]; auto.
      - cbn [wf]. rewrite W'. apply andb_true_iff. split; [apply andb_true_iff; exact WV|reflexivity].
      - cbn [binders]. apply incl_app; [apply incl_appl, incl_refl|apply incl_appr, BI'].
      - cbn [free_in]. intros y Hy. apply andb_true_iff in Hy as [H1 H2]. rewrite H1. cbn [andb]. auto.
      - cbn [equalities]. eauto.
      - intros e TE. symmetry. apply SQ, TE. }
    assert (SG : body_ok g = true) by (destruct g as [| | |[]|]; auto).
    set (ex0 := fold_left (fun l v => add_t v l) vs []).
    assert (IN0 : forall x, In x ex0 <-> In x vs) by (intros x; unfold ex0; rewrite fold_add_In; cbn; tauto).
    assert (V0 : forall x, In x (vars_of ex0) <-> In x (vars_of vs)) by (intros [x s]; rewrite !vars_of_In; apply IN0).
    assert (IV0 : forallb is_var ex0 = true). { apply forallb_forall. intros x Hx. apply IN0 in Hx. rewrite forallb_forall in VV. auto. }
    destruct (conjuncts_of g' W' (SH' SG)) as (fl & EF & CS). rewrite EF. cbn [bind]. set (cs := unwrap_conjunction_or_atom fl) in *. cbn zeta in CS. destruct CS as (CW & CSEM & CEQ & CBI & CFR & CIT & CBB).
    assert (INV : inv (vars_of ex0) cs).
    { constructor.
      - rewrite Forall_forall in CW. apply Forall_forall. intros c Hc. split; [auto|]. split. + specialize (CIT F'). rewrite Forall_forall in CIT. auto. + specialize (CBB B'). rewrite Forall_forall in CBB. auto.
      - intros c c1 b Hc Hc1 Hb. assert (K : In b (binders g)). { apply BI'. rewrite <- CBI. apply in_flat_map. eauto. } apply BD in K. apply andb_true_iff in K as [K1 K2]. apply negb_true_iff in K1, K2. split.
        + rewrite V0. now apply mem_var_false.
        + destruct (free_in b c1) eqn:Q; [|reflexivity]. assert (free_in b g = true); [|congruence]. apply FR'. rewrite <- CFR. apply existsb_exists. eauto.
      - rewrite CEQ. exact EQ'.
      - rewrite CEQ. eapply perm_sub_NoDup; [exact ND|exact PM'].
      - intros x Hx. apply XB, in_or_app. left. now apply V0. }
    destruct (loop_spec (S (List.length ex0)) ex0 cs) as (ex1 & cs1 & EL & ND1 & IV1 & IC1 & INV1 & FR1 & BI1 & (l1 & PM1) & SEM1); [lia|apply fold_add_NoDup; constructor|auto|auto|]. rewrite EL. cbn [bind].
    assert (WC1 := i_wf _ _ INV1). destruct (land_correct cs1 true) as (h & EH & WH & SH1). { eapply Forall_impl; [|exact WC1]. cbn. tauto. }
    rewrite EH. cbn [bind]. destruct (land_parts cs1 h EH) as (HEQ & HBI & HFR & HIT & HBB).
    assert (IH1 : ite_free h = true) by (apply HIT; eapply Forall_impl; [|exact WC1]; cbn; tauto).
    assert (BH1 : builtin_binary h = true) by (apply HBB; eapply Forall_impl; [|exact WC1]; cbn; tauto).
    assert (FRh : forall y, free_in y h = true -> ~ In y (vars_of ex1) -> free_in y (Quant QEx vs g) = true).
    { intros y Hy NY. rewrite HFR in Hy. apply FR1 in Hy as [Hy K]. rewrite CFR in Hy. cbn [free_in]. rewrite (FR' y Hy), andb_true_r. apply negb_true_iff, mem_var_false. intros Q. apply NY, K, V0, Q. }
    assert (SEMh : forall e, typed_on M (Quant QEx vs g) e -> (block M (vars_of ex1) cs1 e <-> fsem M (Quant QEx vs g) e = true)).
    { intros e TE. rewrite SQ by auto. rewrite <- SEM1, (block_same _ _ cs e V0), block_sem.
      - erewrite qsem_ext; [reflexivity| |apply env_eq_refl]. intros a b Hab. rewrite CSEM. now apply (proj2 (sem_ext M)).
      - intros y r NY Hy. apply TE. cbn [free_in]. rewrite CFR in Hy. rewrite (FR' _ Hy), andb_true_r. apply negb_true_iff, mem_var_false. intros Q. apply NY, V0, Q. }
    assert (PERM : exists l, Permutation (FS (equalities g)) (l ++ FS (equalities h))).
    { exists (l' ++ l1)%list. rewrite PM', <- CEQ, PM1, HEQ, app_assoc. apply Permutation_refl. }
    assert (EQh : Forall (equality_ok M X rank) (equalities h)) by (rewrite HEQ; exact (i_eqs _ _ INV1)).
    destruct ex1 as [|v1 ex1].
    + exists h. split; [reflexivity|]. split; [|split; [|split; [|split; [|split; [|split; [|split; [|split]]]]]]]; auto.
      * discriminate.
      * intros b Hb. rewrite HBI in Hb. apply BI1 in Hb. rewrite CBI in Hb. cbn [binders]. apply in_or_app. right. apply BI', Hb.
      * intros e TE. specialize (SEMh e TE). assert (K : block M (vars_of []) cs1 e <-> fsem M h e = true). { rewrite block_sem. cbn [qsem]. rewrite SH1. reflexivity. }
        destruct (fsem M h e), (fsem M (Quant QEx vs g) e); try reflexivity; [symmetry; tauto|tauto].
    + assert (PO := OR (v1 :: ex1)). assert (NE : order (v1 :: ex1) <> []) by (intros Q; rewrite Q in PO; apply Permutation_sym, Permutation_nil in PO; discriminate).
      assert (OV : forallb is_var (order (v1 :: ex1)) = true). { apply forallb_forall. rewrite forallb_forall in IV1. intros x Hx. apply IV1. eapply Permutation_in; [apply Permutation_sym, PO|auto]. }
      assert (OIN : forall x, In x (vars_of (order (v1 :: ex1))) <-> In x (vars_of (v1 :: ex1))). { intros [x s]. rewrite !vars_of_In. split; apply Permutation_in; [apply Permutation_sym|]; exact PO. }
      rewrite exists_ok by auto. eexists. split; [reflexivity|]. split; [|split; [|split; [|split; [|split; [|split; [|split; [|split]]]]]]]; auto.
      * cbn [wf]. rewrite WH, OV. destruct (order (v1 :: ex1)); [congruence|reflexivity].
      * cbn [binders]. apply incl_app.
        -- intros x Hx. apply in_or_app. left. apply V0. apply OIN in Hx. destruct x as [x s]. apply vars_of_In. apply vars_of_In in Hx. auto.
        -- intros b Hb. rewrite HBI in Hb. apply BI1 in Hb. rewrite CBI in Hb. apply in_or_app. right. apply BI', Hb.
      * intros y Hy. cbn [free_in] in Hy. apply andb_true_iff in Hy as [H1 H2]. apply negb_true_iff, mem_var_false in H1. apply FRh; [auto|]. intros Q. apply H1, OIN, Q.
      * intros e TE. specialize (SEMh e TE). assert (K : block M (vars_of (v1 :: ex1)) cs1 e <-> fsem M (Quant QEx (order (v1 :: ex1)) h) e = true).
        { rewrite (block_same _ _ cs1 e (fun x => iff_sym (OIN x))), block_sem. cbn [fsem]. erewrite qsem_ext; [reflexivity| |apply env_eq_refl]. intros a b Hab. rewrite <- SH1. now apply (proj2 (sem_ext M)). }
        destruct (fsem M (Quant QEx (order (v1 :: ex1)) h) e), (fsem M (Quant QEx vs g) e); try reflexivity; [symmetry; tauto|tauto].
Qed.
End Step.

(** ** C32 *)
(** The simplified formula has the truth value of the original one, in every structure with identity where functions return elements of their codomain, for every assignment of values of the right sorts to the
    free variables and every iteration order of the set of variables, provided no if-then-else term occurs and the formula is [clean] and [solvable] (see SimplifyExSpec.v). Without these
    conditions the claim is false: see the theorems below. *)
Theorem C32_simplify_existential : forall M order f, normal M -> typed_structure M -> (forall l, Permutation l (order l)) -> wf f = true -> ite_free f = true -> builtin_binary f = true -> clean f = true -> solvable M f ->
  exists g, simplify_existential order f = Ok g /\ wf g = true /\ (forall y, free_in y g = true -> free_in y f = true) /\ forall e, typed_on M f e -> fsem M g e = fsem M f e.
Proof.
  intros M order f NM TM OR W F B CL (ND & rank & EQ). destruct (main M NM TM (ex_bound f) rank order OR f) as (g & E & P).
  - split; [auto|]. split; [auto|]. split; [auto|]. split; [auto|]. split; [apply incl_refl|]. auto.
  - exists g. split; [auto|]. destruct P as (P1 & _ & _ & _ & _ & P2 & _ & _ & P3). auto.
Qed.
(** Formulas without quantifiers are unchanged. *)
Theorem C32_quantifier_free : forall order f, wf f = true -> ite_free f = true -> has_quantifier f = false -> simplify_existential order f = Ok f.
Proof.
  intros order f. induction f as [| |p ts|d fs IH|q vs g IH] using formula_ind_simple; intros W F H; try reflexivity; try discriminate.
  - change (simplify_existential order (Atom p ts)) with (let! ts' := mapM (sx_term order) ts in Ok (Atom p ts')). now rewrite sx_terms.
  - cbn [simplify_existential]. rewrite mapM_id; [reflexivity|]. apply wf_Comp in W as [_ W]. rewrite Forall_forall in *. cbn [ite_free has_quantifier] in *. rewrite forallb_forall in F. intros g Hg. apply IH; auto.
    destruct (has_quantifier g) eqn:Q; [|reflexivity]. rewrite <- H. symmetry. apply existsb_exists. eauto.
Qed.
(** A structure: the sort "b" has the element 1, every other sort 0 and 1; = is identity, p holds of 1, q of nothing, a constant named "one" denotes 1, others 0, functions return 1 (f) or 0. *)
Definition N2 : structure := {| carrier := nat; dom := fun s => if String.eqb s "b" then [1] else [0; 1]; cint := fun c _ => match c with CStr "one" => 1 | _ => 0 end;
  fint := fun f _ => match f with FU "f" _ _ => 1 | FU "g" _ "b" => 1 | _ => if match f with FU _ _ "b" => true | _ => false end then 1 else 0 end;
  pint := fun p args => match p, args with PB PEq, [a; b] => Nat.eqb a b | PU "p" _, [a] => Nat.eqb a 1 | PU "r" _, [a; b] => Nat.ltb a b | _, _ => false end |}.
Lemma N2_normal : normal N2. Proof. intros a b. cbn. apply Nat.eqb_eq. Qed.
Lemma N2_typed : typed_structure N2.
Proof.
  intros n d s args. change (dom N2 s) with (if String.eqb s "b" then [1] else [0; 1]). destruct (String.eqb_spec s "b") as [-> |D].
  - left. cbn [N2 fint]. symmetry. destruct n as [|a n]; [reflexivity|]. match goal with |- ?x = 1 => assert (K : x = 1 \/ x = 1) end; [|tauto]. left. repeat match goal with |- context [match ?x with _ => _ end] => destruct x end; reflexivity.
  - cbn [N2 fint]. match goal with |- In ?x _ => assert (K : x = 0 \/ x = 1) end; [|destruct K as [-> | ->]; cbn; auto]. repeat match goal with |- context [match ?x with _ => _ end] => destruct x end; auto.
Qed.
Definition vx : term := Var "x" "object". Definition vy : term := Var "y" "object". Definition vb : term := Var "y" "b".
Definition p_ t := Atom (PU "p" ["object"]) [t]. Definition r_ t u := Atom (PU "r" ["object"; "object"]) [t; u].
Definition one : term := Cst (CStr "one") "object". Definition zero : term := Cst (CStr "zero") "object".
Definition e0 : env N2 := fun _ => 1.
(** A body that is neither an atom nor a conjunction is replaced by "true": disjunctions, negations, falsity, ... *)
Theorem C32_body_refuted : simplify_existential (fun l => l) (Quant QEx [vx] (Comp Not [Atom (PB PEq) [vx; vx]])) = Ok (Quant QEx [vx] Top) /\
  fsem N2 (Quant QEx [vx] (Comp Not [Atom (PB PEq) [vx; vx]])) e0 = false /\ fsem N2 (Quant QEx [vx] Top) e0 = true.
Proof. vm_compute. auto. Qed.
(** ... and nested existential quantifiers. *)
Theorem C32_nested_refuted : simplify_existential (fun l => l) (Quant QEx [vx] (Quant QEx [vy] (Comp And [r_ vx vy; r_ vy vx]))) = Ok (Quant QEx [vx] Top) /\
  fsem N2 (Quant QEx [vx] (Quant QEx [vy] (Comp And [r_ vx vy; r_ vy vx]))) e0 = false /\ fsem N2 (Quant QEx [vx] Top) e0 = true.
Proof. vm_compute. auto. Qed.
(** When an atom z = z precedes the equality that is used, a wrong conjunct is dropped: exists x, y. x = x and y = zero and p(y) becomes exists x. zero = zero. *)
Theorem C32_trivial_equality_refuted : exists g, simplify_existential (fun l => l) (Quant QEx [vx; vy] (Comp And [Atom (PB PEq) [vx; vx]; Atom (PB PEq) [vy; zero]; p_ vy])) = Ok g /\
  g = Quant QEx [vx] (Atom (PB PEq) [zero; zero]) /\
  fsem N2 (Quant QEx [vx; vy] (Comp And [Atom (PB PEq) [vx; vx]; Atom (PB PEq) [vy; zero]; p_ vy])) e0 = false /\ fsem N2 g e0 = true.
Proof. eexists. vm_compute. auto. Qed.
(** Sorts are not compared: a variable of sort b is replaced by a value that is not of sort b. *)
Theorem C32_sort_refuted : exists g, simplify_existential (fun l => l) (Quant QEx [vb] (Comp And [Atom (PB PEq) [vb; zero]; Atom (PB PEq) [zero; zero]])) = Ok g /\
  fsem N2 (Quant QEx [vb] (Comp And [Atom (PB PEq) [vb; zero]; Atom (PB PEq) [zero; zero]])) e0 = false /\ fsem N2 g e0 = true.
Proof. eexists. vm_compute. auto. Qed.
(** Circular definitions: exists x. x = f(x) and p(x) becomes p(f(x)), where x is free. *)
Theorem C32_circular_refuted : exists g, simplify_existential (fun l => l) (Quant QEx [vx] (Comp And [Atom (PB PEq) [vx; App (FU "g" ["object"] "object") [vx]]; r_ vx vx])) = Ok g /\
  free_in ("x", "object") g = true /\ free_in ("x", "object") (Quant QEx [vx] (Comp And [Atom (PB PEq) [vx; App (FU "g" ["object"] "object") [vx]]; r_ vx vx])) = false.
Proof. eexists. vm_compute. auto. Qed.
(** Capture: exists x. x = y and (exists y. r(y, x) and p(x)) becomes exists y. r(y, y) and p(y). *)
Theorem C32_capture_refuted : exists f g, f = Quant QEx [vx] (Comp And [Atom (PB PEq) [vx; vy]; Quant QEx [vy] (Comp And [r_ vy vx; p_ vx])]) /\ simplify_existential (fun l => l) f = Ok g /\
  fsem N2 f e0 = true /\ fsem N2 g e0 = false.
Proof. eexists. eexists. split; [reflexivity|]. vm_compute. auto. Qed.
(** The hypotheses are met: exists x, y. x = f(y) and y = w and (exists z. z = x and r(z, z) and p(z)) becomes r(f(w), f(w)) and p(f(w)). *)
Definition f_ok : formula := Quant QEx [vx; vy] (Comp And [Atom (PB PEq) [vx; App (FU "f" ["object"] "object") [vy]]; Comp And [Atom (PB PEq) [Var "w" "b"; vy]; Quant QEx [Var "z" "object"] (Comp And [Atom (PB PEq) [one; Var "z" "object"]; r_ (Var "z" "object") vx; p_ (Var "z" "object")])]]).
Example C32_nonvacuous : wf f_ok = true /\ ite_free f_ok = true /\ builtin_binary f_ok = true /\ clean f_ok = true /\ solvable N2 f_ok /\ normal N2 /\ typed_structure N2 /\
  simplify_existential (@rev _) f_ok = Ok (Comp And [r_ one (App (FU "f" ["object"] "object") [Var "w" "b"]); p_ one]).
Proof.
  split; [reflexivity|]. split; [reflexivity|]. split; [reflexivity|]. split; [reflexivity|]. split; [|split; [exact N2_normal|split; [exact N2_typed|reflexivity]]]. split.
  - vm_compute. repeat constructor; cbn; intuition congruence.
  - exists (fun x => if String.eqb (fst x) "x" then 1 else 0). repeat constructor; cbn; intros; try discriminate; try (injection H as <- <-); cbn in *; try (intuition congruence);
    repeat match goal with |- _ /\ _ => split end; intros; cbn in *; try (intuition congruence); try (intros ? ?; assumption).
    all: try (unfold incl; cbn; intros; intuition congruence). all: try (cbn; auto).
  rewrite orb_false_r in H2. apply var_eqb_eq in H2. subst y. cbn. lia.
Qed.
