From Verif Require Import ListUtil Base Syntax Semantics SemLemmas FolSpec SubstSpec SubstProofs Build BuildProofs NnfProofs Subst QElim QElimProofs NegBuiltin NegBuiltinProofs Nnf Cnf PropsFol PropsFol2 Effects NaiveGround NaiveGroundSpec LpGroundProofs3.

(** * The form is kept *)
Lemma ite_free_wf t : ite_free_t t = true -> wf_term t = true.
Proof. induction t as [| |f ts IH|] using term_ind_simple; cbn; auto; [|discriminate]. rewrite !forallb_forall. rewrite Forall_forall in IH. auto. Qed.
Lemma form_cases f : constraint_form f = true ->
  (exists p ts, f = Atom p ts) \/ (exists g, f = Comp Not [g] /\ constraint_form g = true) \/
  (exists c g h, (c = And \/ c = Or) /\ f = Comp c [g; h] /\ constraint_form g = true /\ constraint_form h = true) \/
  (exists vs g, f = Quant QAll vs g /\ 1 <= List.length vs /\ forallb is_var vs = true /\ constraint_form g = true).
Proof.
  destruct f as [| |p ts|c fs|q vs g]; cbn [constraint_form]; try discriminate; [eauto| |].
  - destruct c.
    + destruct fs as [|g [|h [|]]]; try discriminate. rewrite andb_true_iff. intros [A B]. right. right. left. exists And, g, h. auto.
    + destruct fs as [|g [|h [|]]]; try discriminate. rewrite andb_true_iff. intros [A B]. right. right. left. exists Or, g, h. auto.
    + destruct fs as [|g [|]]; try discriminate. intros A. right. left. eauto.
  - destruct q; try discriminate. rewrite !andb_true_iff. intros [[A B] C]. right. right. right. exists vs, g. apply Nat.leb_le in A. auto.
Qed.
Lemma form_facts f : constraint_form f = true -> wf f = true /\ binary f = true /\ builtin_binary f = true /\ (forall b, negated_constant_at b f = false) /\ ite_free f = true.
Proof.
  induction f as [| |p ts|c fs IH|q vs g IH] using formula_ind_simple; intros H; try discriminate H.
  - cbn in H. apply andb_true_iff in H as [A B]. cbn. split; [rewrite !forallb_forall in *; intros t Ht; apply ite_free_wf; auto|]. split; [auto|]. split; [destruct p; auto|]. auto.
  - apply form_cases in H as [(p & ts & E)|[(g & E & G)|[(d & g & h & Hd & E & G & H)|(vs & g & E & _)]]]; try discriminate; injection E as -> ->.
    + inversion IH as [|? ? I1 _]; subst. destruct (I1 G) as (A1 & A2 & A3 & A4 & A5). cbn. rewrite A1, A3, A5. repeat split; auto. intros b. now rewrite A4.
    + inversion IH as [|? ? I1 IH2]; subst. inversion IH2 as [|? ? I2 _]; subst. destruct (I1 G) as (A1 & A2 & A3 & A4 & A5). destruct (I2 H) as (B1 & B2 & B3 & B4 & B5).
      destruct Hd as [-> | ->]; cbn; rewrite A1, A2, A3, A5, B1, B2, B3, B5; repeat split; auto; intros b; now rewrite A4, B4.
  - apply form_cases in H as [(p & ts & E)|[(g' & E & G)|[(d & g' & h & Hd & E & G & H)|(ws & g' & E & L & V & G)]]]; try discriminate. injection E as -> -> ->. destruct (IH G) as (A1 & A2 & A3 & A4 & A5). apply Nat.leb_le in L. cbn [wf binary builtin_binary negated_constant_at ite_free].
    rewrite L, V, A1, A2, A3, A5. auto 6.
Qed.
Lemma ite_free_subst s t : const_subst s -> ite_free_t t = true -> ite_free_t (subst_term (of_vars s) t) = true.
Proof.
  intros C. induction t as [x r|c r|f ts IH|] using term_ind_simple; intros H; try discriminate.
  - rewrite subst_var. destruct (lookup s (x, r)) as [u|] eqn:E; [|reflexivity]. apply lookup_In in E. destruct (C _ _ E) as (c & q & ->). reflexivity.
  - now rewrite subst_cst.
  - rewrite subst_app. cbn in *. rewrite forallb_forall in *. rewrite Forall_forall in IH. intros u Hu. apply in_map_iff in Hu as (v & <- & Hv). auto.
Qed.
Lemma subst_binders_same s vs : forallb is_var vs = true -> no_clash (vars_of vs) s = true -> map (subst_term (of_vars s)) vs = vs.
Proof.
  induction vs as [|v vs IH]; [reflexivity|]. destruct v as [x r| | |]; try discriminate. intros V N. cbn [map]. rewrite subst_var. rewrite (no_clash_lookup_none s (vars_of (Var x r :: vs)) (x, r)); [|exact N|now left].
  f_equal. apply IH; [exact V|]. change (vars_of (Var x r :: vs)) with ([(x, r)] ++ vars_of vs) in N. now apply no_clash_app in N as [_ N].
Qed.
Lemma form_subst s f : const_subst s -> no_clash (binders f) s = true -> constraint_form f = true -> constraint_form (subst_formula (of_vars s) f) = true.
Proof.
  intros C. induction f as [| |p ts|c fs IH|q vs g IH] using formula_ind_simple; intros N H; try discriminate H; rewrite subst_f_unfold.
  - cbn in *. apply andb_true_iff in H as [A B]. rewrite map_length, B, andb_true_r. rewrite forallb_forall in *. intros u Hu. apply in_map_iff in Hu as (v & <- & Hv). apply ite_free_subst; auto.
  - cbn [binders] in N. rewrite no_clash_flat_map in N. apply form_cases in H as [(p & ts & E)|[(g & E & G)|[(d & g & h & Hd & E & G & H)|(vs & g & E & _)]]]; try discriminate; injection E as -> ->.
    + inversion IH as [|? ? I1 _]; subst. cbn. apply I1; auto. apply N. now left.
    + inversion IH as [|? ? I1 IH2]; subst. inversion IH2 as [|? ? I2 _]; subst. assert (X : constraint_form (subst_formula (of_vars s) g) = true /\ constraint_form (subst_formula (of_vars s) h) = true) by (split; [apply I1|apply I2]; auto; apply N; cbn; auto).
      destruct X as [X1 X2]. destruct Hd as [-> | ->]; cbn; now rewrite X1, X2.
  - cbn [binders] in N. apply no_clash_app in N as [N1 N2]. apply form_cases in H as [(p & ts & E)|[(g' & E & G)|[(d & g' & h & Hd & E & G & H)|(ws & g' & E & L & V & G)]]]; try discriminate. injection E as -> -> ->.
    rewrite subst_binders_same by auto. apply Nat.leb_le in L. cbn [constraint_form]. rewrite L, V. cbn [andb]. auto.
Qed.
(** * Quantifier elimination *)
Lemma lookup_combine_none (vs : list var) (values : list term) y : List.length values = List.length vs -> lookup (rev (combine vs values)) y = None -> ~ In y vs.
Proof.
  intros L E H. assert (X : exists t, In (y, t) (combine vs values)). { clear E. revert values L. induction vs as [|v vs IH]; intros [|t values] L; try discriminate L; [destruct H|]. destruct H as [-> |H]; [exists t; now left|]. destruct (IH H values) as (u & Hu); [now injection L|]. exists u. now right. }
  destruct X as (t & X). rewrite in_rev in X. clear - E X. induction (rev (combine vs values)) as [|[z u] r IH]; [destruct X|]. cbn [lookup] in E. destruct (var_eqb z y) eqn:Ez; [discriminate|]. destruct X as [[= -> ->]|X]; [|auto]. assert (var_eqb y y = true) by (apply var_eqb_eq; reflexivity). congruence.
Qed.
Lemma vars_of_length vs : forallb is_var vs = true -> List.length (vars_of vs) = List.length vs.
Proof. induction vs as [|v vs IH]; [reflexivity|]. destruct v; try discriminate. cbn. intros H. f_equal. exact (IH H). Qed.
Lemma expand_form D vs g h : constants_only D -> constraint_form (Quant QAll vs g) = true -> no_shadowing (Quant QAll vs g) = true -> expand D QAll vs g = Ok h ->
  constraint_form h = true /\ forall y, free_in y h = true <-> free_in y (Quant QAll vs g) = true.
Proof.
  intros HD Hf Hn HE. apply form_cases in Hf as [(p & ts & E)|[(g' & E & G)|[(d & g' & h' & Hd & E & G & H)|(ws & g' & E & L & V & G)]]]; try discriminate. injection E as <- <-.
  cbn [no_shadowing] in Hn. apply andb_true_iff in Hn as [Hn1 _]. unfold expand in HE. pose proof (enumerate_spec D vs V) as HS. destruct (enumerate_groundings D vs) as [inst|]; [|discriminate]. cbn [bind] in HE. destruct (Nat.eqb (cardinality inst) 0) eqn:Ec; [discriminate|].
  assert (Hlen : forall values, In values (product inst) -> List.length values = List.length vs). { intros values Hin. apply product_length in Hin. rewrite Hin. clear - HS. induction HS; simpl; auto. }
  assert (Hconst : forall values, In values (product inst) -> const_subst (rev (combine (vars_of vs) values))).
  { intros values Hin x t Hx. apply in_rev in Hx. apply in_combine_r in Hx. apply product_In in Hin. destruct (Forall2_In_l _ _ _ _ Hin Hx) as (cs & Hcs & Htc). destruct (Forall2_In_r _ _ _ _ HS Hcs) as (v & _ & y & s & -> & Hs). exact (HD s cs t Hs Htc). }
  assert (Hnc : forall values, In values (product inst) -> no_clash (binders g) (rev (combine (vars_of vs) values)) = true).
  { intros values Hin. apply const_subst_no_clash; [auto|]. intros b Hb t Hbt. apply in_rev in Hbt. apply in_combine_l in Hbt. rewrite forallb_forall in Hn1. specialize (Hn1 b Hbt). rewrite negb_true_iff, mem_var_false in Hn1. auto. }
  set (sub := fun values => subst_formula (of_vars (rev (combine (vars_of vs) values))) g).
  assert (Hmap : mapM (fun values => let! s := create_substitution vs values in Ok (subst_formula s g)) (product inst) = Ok (map sub (product inst))).
  { apply mapM_Forall2. apply Forall2_map_right. apply Forall_forall. intros values Hin. rewrite create_substitution_ok by auto. reflexivity. }
  rewrite Hmap in HE. cbn [bind] in HE.
  assert (HP : Forall (fun f => constraint_form f = true /\ forall y, free_in y f = true <-> free_in y (Quant QAll vs g) = true) (map sub (product inst))).
  { apply Forall_forall. intros f Hin. apply in_map_iff in Hin as (values & <- & Hin). split; [apply form_subst; auto|]. intros y. unfold sub. rewrite free_in_subst by auto. split.
    2:{ intros Hy. cbn [free_in] in Hy. apply andb_true_iff in Hy as [Hy1 Hy2]. rewrite negb_true_iff, mem_var_false in Hy1. exists y. split; [exact Hy2|]. destruct (lookup (rev (combine (vars_of vs) values)) y) as [t|] eqn:El; [|reflexivity]. exfalso. apply Hy1. apply lookup_In in El. apply in_rev, in_combine_l in El. exact El. }
    intros (x & Hx & Hl). destruct (lookup (rev (combine (vars_of vs) values)) x) as [t|] eqn:El; [apply lookup_In in El; destruct (Hconst values Hin _ _ El) as (c & r & ->); discriminate|]. subst x. cbn [free_in]. rewrite Hx, andb_true_r, negb_true_iff. apply mem_var_false.
    eapply lookup_combine_none; [|exact El]. rewrite vars_of_length by auto. auto. }
  unfold land in HE. destruct (map sub (product inst)) as [|a l] eqn:Em.
  - exfalso. apply map_eq_nil in Em. revert Em. apply product_nonempty. rewrite <- cardinality_zero. now apply Nat.eqb_neq.
  - eapply (create_compound_pred And (fun f => constraint_form f = true /\ forall y, free_in y f = true <-> free_in y (Quant QAll vs g) = true)); [|exact HP|exact HE]. intros x y [X1 X2] [Y1 Y2]. cbn [constraint_form]. rewrite X1, Y1. split; [reflexivity|]. intros z. cbn [free_in existsb]. rewrite orb_false_r, orb_true_iff, (X2 z), (Y2 z). cbn [free_in]. tauto.
Qed.

Lemma qe_form D : constants_only D -> forall n f g, constraint_form f = true -> no_shadowing f = true -> qe D MForall n f = Ok g ->
  constraint_form g = true /\ forall y, free_in y g = true <-> free_in y f = true.
Proof.
  intros HD. induction n as [|n IHn]; intros f; induction f as [| |p ts|c fs IH|q vs f IH] using formula_ind_simple; intros g HF HN HE; rewrite qe_unfold in HE; try discriminate HF; try (injection HE as <-; split; [assumption|tauto]; fail).
  all: try (apply form_cases in HF as [(p & ts & E)|[(g1 & E & G)|[(d & g1 & g2 & Hd & E & G & H)|(ws & g1 & E & L & V & G)]]]; try discriminate E; injection E as -> ->; cbn [no_shadowing forallb] in HN;
    [ rewrite andb_true_r in HN; inversion IH as [|? ? I1 _]; subst; rewrite mapM_cons' in HE; destruct (qe _ _ _ g1) as [h1|] eqn:E1; [|discriminate]; injection HE as <-; destruct (I1 _ G HN eq_refl) as [A B]; split; [exact A|]; intros y; cbn; rewrite !orb_false_r; apply B
    | rewrite andb_true_r in HN; apply andb_true_iff in HN as [N1 N2]; inversion IH as [|? ? I1 IH2]; subst; inversion IH2 as [|? ? I2 _]; subst; rewrite !mapM_cons' in HE; destruct (qe _ _ _ g1) as [h1|] eqn:E1; [|discriminate]; cbn [bind] in HE; destruct (qe _ _ _ g2) as [h2|] eqn:E2; [|discriminate]; injection HE as <-;
      destruct (I1 _ G N1 eq_refl) as [A B]; destruct (I2 _ H N2 eq_refl) as [A' B']; split; [destruct Hd as [-> | ->]; cbn; now rewrite A, A'|]; intros y; cbn; rewrite !orb_false_r, !orb_true_iff, (B y), (B' y); tauto ]; fail).
  - destruct q; [discriminate HF|]. discriminate HE.
  - destruct q; [discriminate HF|]. cbn [eliminated] in HE. destruct (expand D QAll vs f) as [h|] eqn:EE; [|discriminate]. cbn [bind] in HE. destruct (expand_form D vs f h HD HF HN EE) as [A B].
    assert (W : wf (Quant QAll vs f) = true) by apply (form_facts _ HF). pose proof (expand_spec D HD QAll vs f W HN) as X. rewrite EE in X. destruct X as (_ & X & _). destruct (IHn h g A X HE) as [C E]. split; [auto|]. intros y. rewrite (E y). apply B.
Qed.
Lemma occurring_free_t t y : ite_free_t t = true -> (In y (occurring_t t) <-> free_in_t y t = true).
Proof.
  induction t as [x r|c r|f ts IH|] using term_ind_simple; intros H; try discriminate.
  - cbn. rewrite var_eqb_eq. split; [intros [E|[]]; auto|auto].
  - cbn. split; [tauto|discriminate].
  - cbn in *. rewrite existsb_exists, in_flat_map. rewrite forallb_forall in H. rewrite Forall_forall in IH. split; intros (t & Ht & X); exists t; (split; [auto|]); apply (IH t Ht); auto.
Qed.
Lemma occurring_free f y : constraint_form f = true -> has_quantifier f = false -> (In y (occurring f) <-> free_in y f = true).
Proof.
  induction f as [| |p ts|c fs IH|q vs f IH] using formula_ind_simple; intros H Q; try discriminate.
  - cbn in H. apply andb_true_iff in H as [H _]. cbn. rewrite existsb_exists, in_flat_map. rewrite forallb_forall in H. split; intros (t & Ht & X); exists t; (split; [auto|]); apply (occurring_free_t t y); auto.
  - cbn. rewrite existsb_exists, in_flat_map. rewrite Forall_forall in IH. assert (X : forall g, In g fs -> constraint_form g = true /\ has_quantifier g = false).
    { intros g Hg. split.
      - apply form_cases in H as [(p & ts & E)|[(g1 & E & G)|[(d & g1 & g2 & Hd & E & G & H)|(ws & g1 & E & L & V & G)]]]; try discriminate E; injection E as -> ->; [destruct Hg as [<-|[]]; auto|destruct Hg as [<-|[<-|[]]]; auto].
      - cbn in Q. destruct (has_quantifier g) eqn:Eg; [|reflexivity]. rewrite <- Q. symmetry. apply existsb_exists. eauto. }
    split; intros (g & Hg & Y); exists g; (split; [auto|]); destruct (X g Hg); apply (IH g Hg); auto.
Qed.

(** * The transformations of an instance introduce no variable *)
Lemma occurring_none_t : (forall t, occurring_t t = [] -> forall y, free_in_t y t = false) /\ (forall f, occurring f = [] -> forall y, free_in y f = false).
Proof.
  assert (Hm : forall ts, Forall (fun t => occurring_t t = [] -> forall y, free_in_t y t = false) ts -> flat_map occurring_t ts = [] -> forall y, existsb (free_in_t y) ts = false).
  { intros ts HF E y. induction HF as [|t ts H HF IH]; [reflexivity|]. cbn [flat_map] in E. apply app_eq_nil in E as [E1 E2]. cbn. now rewrite H, IH. }
  apply syntax_ind.
  - intros x r E. discriminate E.
  - reflexivity.
  - intros f ts HF E y. cbn in *. auto.
  - intros c a b H1 H2 H3 E y. cbn in *. apply app_eq_nil in E as [E1 E]. apply app_eq_nil in E as [E2 E3]. now rewrite H1, H2, H3.
  - reflexivity.
  - reflexivity.
  - intros p ts HF E y. cbn in *. auto.
  - intros c fs HF E y. cbn in *. induction HF as [|t ts H HF IH]; [reflexivity|]. cbn [flat_map] in E. apply app_eq_nil in E as [E1 E2]. cbn. now rewrite H, IH.
  - intros q vs f HF H E y. cbn in *. apply app_eq_nil in E as [E1 E2]. now rewrite H, andb_false_r.
Qed.
Lemma absorb_occurring f : forall g, absorb f = Ok g -> incl (occurring g) (occurring f).
Proof.
  induction f as [| |p ts|c fs IH|q vs f IH] using formula_ind_simple; intros g E; try (injection E as <-; apply incl_refl).
  - destruct c.
    1,2: cbn in E; destruct fs as [|a [|b r]]; try discriminate E; inversion IH as [|? ? I1 IH2]; subst; inversion IH2 as [|? ? I2 _]; subst; destruct (absorb a) as [a'|]; [|discriminate]; cbn [bind] in E; destruct (absorb b) as [b'|]; [|discriminate]; injection E as <-;
      intros y; cbn; rewrite !app_nil_r, !in_app_iff; intros [H|H]; [left; exact (I1 _ eq_refl y H)|right; left; exact (I2 _ eq_refl y H)].
    cbn in E. destruct fs as [|h r]; [discriminate|]. destruct h as [| |[b|] ts|c fs|q vs h]; try (injection E as <-; apply incl_refl). unfold negate_builtin_atom in E. destruct ts as [|l [|u [|]]]; try discriminate. injection E as <-. intros y. cbn. rewrite !in_app_iff. tauto.
  - cbn in E. destruct (absorb f) as [f'|]; [|discriminate]. injection E as <-. intros y. cbn. rewrite !in_app_iff. intros [H|H]; [left; exact (IH _ eq_refl y H)|auto].
Qed.
Lemma nnf_occurring f : forall b g, nnf b f = Ok g -> occurring g = occurring f.
Proof.
  induction f as [| |p ts|c fs IH|q vs f IH] using formula_ind_simple; intros b g E.
  - destruct b; inversion E; reflexivity.
  - destruct b; inversion E; reflexivity.
  - destruct b; injection E as <-; cbn; [apply app_nil_r|reflexivity].
  - assert (Hm : forall b fs', Forall (fun f => forall b g, nnf b f = Ok g -> occurring g = occurring f) fs -> mapM (nnf b) fs = Ok fs' -> flat_map occurring fs' = flat_map occurring fs).
    { clear. intros b fs' HF E. apply mapM_Forall2 in E. induction E as [|f f' fs fs' H E IH]; [reflexivity|]. inversion HF; subst. cbn. erewrite IH by auto. f_equal. eauto. }
    destruct c.
    1,2: cbn in E; destruct (mapM (nnf b) fs) as [fs'|] eqn:EM; [|discriminate]; injection E as <-; cbn; eapply Hm; eauto.
    cbn in E. destruct fs as [|h [|]]; try discriminate. inversion IH as [|? ? I1 _]; subst. cbn. rewrite app_nil_r. eauto.
  - cbn in E. destruct (nnf b f) as [f'|] eqn:Ef; [|discriminate]. injection E as <-. cbn. now rewrite (IH _ _ Ef).
Qed.
Lemma distribute_r_occurring a b : incl (occurring (distribute_r a b)) (occurring a ++ occurring b).
Proof.
  induction b as [| |p ts|c fs IH|q vs f IH] using formula_ind_simple; try (cbn; rewrite ?app_nil_r; apply incl_refl).
  destruct c; try (cbn; rewrite ?app_nil_r; apply incl_refl). destruct fs as [|x [|y r]]; try (cbn; rewrite ?app_nil_r; apply incl_refl).
  inversion IH as [|? ? I1 IH2]; subst. inversion IH2 as [|? ? I2 _]; subst. intros z. cbn. rewrite app_nil_r, !in_app_iff. intros [H|H]; [apply I1 in H|apply I2 in H]; rewrite in_app_iff in H; tauto.
Qed.
Lemma distribute_occurring a b : incl (occurring (distribute a b)) (occurring a ++ occurring b).
Proof.
  induction a as [| |p ts|c fs IH|q vs f IH] using formula_ind_simple; try apply distribute_r_occurring.
  destruct c; try apply distribute_r_occurring. destruct fs as [|x [|y r]]; try apply distribute_r_occurring.
  inversion IH as [|? ? I1 IH2]; subst. inversion IH2 as [|? ? I2 _]; subst. intros z. cbn. rewrite app_nil_r, !in_app_iff. intros [H|H]; [apply I1 in H|apply I2 in H]; rewrite in_app_iff in H; tauto.
Qed.
Lemma cnf_occurring f : forall g, cnf_convert f = Ok g -> incl (occurring g) (occurring f).
Proof.
  induction f as [| |p ts|c fs IH|q vs f IH] using formula_ind_simple; intros g E; try (injection E as <-; apply incl_refl); [|discriminate].
  assert (Hm : forall gs, mapM cnf_convert fs = Ok gs -> incl (flat_map occurring gs) (flat_map occurring fs)).
  { intros gs EM. apply mapM_Forall2 in EM. clear - IH EM. induction EM as [|f g fs gs H EM IHM]; [apply incl_refl|]. inversion IH; subst. cbn. apply incl_app; [apply incl_appl; auto|apply incl_appr; auto]. }
  assert (HA : forall rest acc, incl (occurring (fold_left (fun acc g => Comp And [acc; g]) rest acc)) (occurring acc ++ flat_map occurring rest)).
  { induction rest as [|r rest IHr]; intros acc; cbn [fold_left flat_map]; [rewrite app_nil_r; apply incl_refl|]. intros y H. apply IHr in H. cbn in H. rewrite app_nil_r, !in_app_iff in *. tauto. }
  assert (HO : forall rest acc, incl (occurring (fold_left (fun acc g => distribute acc g) rest acc)) (occurring acc ++ flat_map occurring rest)).
  { induction rest as [|r rest IHr]; intros acc; cbn [fold_left flat_map]; [rewrite app_nil_r; apply incl_refl|]. intros y H. apply IHr in H. rewrite !in_app_iff in *. destruct H as [H|H]; [|tauto]. apply distribute_occurring in H. rewrite in_app_iff in H. tauto. }
  destruct c; cbn in E; [| |injection E as <-; apply incl_refl].
  all: destruct (mapM cnf_convert fs) as [gs|]; [|discriminate]; cbn [bind] in E; specialize (Hm _ eq_refl); destruct gs as [|p0 [|p1 rest]]; try discriminate; injection E as <-; intros y H; apply Hm; cbn; rewrite !in_app_iff.
  - apply HA in H. cbn in H. rewrite app_nil_r, !in_app_iff in H. tauto.
  - apply HO in H. rewrite in_app_iff in H. destruct H as [H|H]; [|tauto]. apply distribute_occurring in H. rewrite in_app_iff in H. tauto.
Qed.
