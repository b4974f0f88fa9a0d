(** C30: projecting effect-free parameters away *)
From Verif Require Import ListUtil Base Syntax Semantics SemLemmas Build BuildProofs ModelState ModelProofs Eval Subst SubstSpec SubstProofs FreeVars FreeVarsProofs QElim QElimProofs Effects Represent ProjectSpec PropsProgress PropsFol.
#[local] Open Scope list_scope.

(** * Which parameters are removed *)
Lemma union_In new : forall l t, In t (union_t l new) <-> In t l \/ In t new.
Proof. unfold union_t. induction new as [|x new IH]; intros l t; cbn [fold_left]; [cbn; tauto|]. rewrite IH, add_t_In. cbn [In]. intuition (subst; auto). Qed.
Lemma fvt_In t x : ite_free_t t = true -> In (tv x) (free_variables_t t) <-> free_in_t x t = true.
Proof.
  intros H. unfold free_variables_t. destruct (fv_term_spec t ([], []) (NoDup_nil _)) as (_ & _ & _ & A & B). split.
  - intros X. destruct (A _ X) as [[]|(y & E & F & _)]. apply tv_inj in E. subst. auto.
  - intros X. apply B; auto.
Qed.
Lemma fvf_In f : wf f = true -> ite_free f = true -> no_rebinding [] f = true -> exists l, free_variables f = Ok l /\ forall x, In (tv x) l <-> free_in x f = true.
Proof.
  intros W I N. destruct (C09_free_variables f W I N) as (l & E & _ & H). exists l. split; [auto|]. intros [x s]. unfold tv. cbn [fst snd]. rewrite (H (Var x s)). split; [intros (y & r & [= -> ->] & X); auto|eauto].
Qed.
Lemma efv_spec : forall e free, plain_effect e = true -> exists l, effect_free_variables e free = Ok l /\ forall x, In (tv x) l <-> In (tv x) free \/ free_in_head x e = true.
Proof.
  induction e as [c a|c a|i c lh r|c vs es IH|c a|c] using effect_ind_nested; intros free H; cbn [plain_effect] in H; try discriminate.
  1,2,5: apply andb_true_iff in H as [H H3]; apply andb_true_iff in H as [H1 H2]; destruct (fvf_In a H1 H2 H3) as (l & E & F); cbn [effect_free_variables free_in_head]; rewrite E; cbn [bind]; eexists; split; [reflexivity|]; intros x; rewrite union_In, F; tauto.
  - apply andb_true_iff in H as [H1 H2]. eexists. split; [reflexivity|]. intros x. cbn [free_in_head]. rewrite !union_In, !fvt_In, orb_true_iff by auto. tauto.
  - apply andb_true_iff in H as [H1 H2]. cbn [effect_free_variables free_in_head].
    set (go := fix go (es : list effect) (acc : list term) : res (list term) := match es with [] => Ok acc | x :: xs => let! acc' := effect_free_variables x acc in go xs acc' end).
    assert (G : forall acc, exists l, go es acc = Ok l /\ forall x, In (tv x) l <-> In (tv x) acc \/ existsb (free_in_head x) es = true).
    { clear free. induction IH as [|e es He _ IHs]; intros acc; [exists acc; cbn; split; [auto|]; intros; intuition discriminate|]. cbn [forallb existsb] in *. apply andb_true_iff in H2 as [Ha Hb]. destruct (He acc Ha) as (l & E & F).
      change (go (e :: es) acc) with (let! acc' := effect_free_variables e acc in go es acc'). rewrite E. cbn [bind]. destruct (IHs Hb l) as (l' & E' & F'). exists l'. split; [auto|]. intros x. rewrite F', F, orb_true_iff. tauto. }
    destruct (G []) as (l & E & F). rewrite E. cbn [bind]. eexists. split; [reflexivity|]. intros x. rewrite union_In, filter_In, F, negb_true_iff, mem_t_false, andb_true_iff, negb_true_iff, mem_var_false. pose proof (In_tv_vars x vs H1) as K. change (In (tv x) []) with False. tauto.
Qed.
(** The parameters that are projected away are those that are not free in what any effect changes. *)
Theorem C30_removed_parameters a : forallb plain_effect (a_effs a) = true ->
  exists l, collect_effect_free_parameters a = Ok l /\ forall x s, In (Var x s) l <-> In (Var x s) (a_params a) /\ forall e, In e (a_effs a) -> free_in_head (x, s) e = false.
Proof.
  intros H. unfold collect_effect_free_parameters.
  assert (G : forall es acc, forallb plain_effect es = true -> exists l, foldM (fun acc e => effect_free_variables e acc) es acc = Ok l /\ forall x, In (tv x) l <-> In (tv x) acc \/ existsb (free_in_head x) es = true).
  { induction es as [|e es IH]; intros acc He; [exists acc; cbn; split; [auto|]; intros; intuition discriminate|]. cbn [forallb existsb foldM] in *. apply andb_true_iff in He as [Ha Hb]. destruct (efv_spec e acc Ha) as (l & E & F).
    rewrite E. destruct (IH l Hb) as (l' & E' & F'). exists l'. split; [auto|]. intros x. rewrite F', F, orb_true_iff. tauto. }
  destruct (G (a_effs a) [] H) as (l & E & F). rewrite E. cbn [bind]. eexists. split; [reflexivity|]. intros x s. rewrite filter_In, negb_true_iff, mem_t_false.
  change (Var x s) with (tv (x, s)) at 2. rewrite (F (x, s)). split.
  - intros [A B]. split; [auto|]. intros e He. apply not_true_iff_false. intros X. apply B. right. apply existsb_exists. eauto.
  - intros [A B]. split; [auto|]. intros [[]|X]. apply existsb_exists in X as (e & He & X). rewrite B in X; [discriminate|auto].
Qed.

(** * The precondition *)
(** In any structure: the new precondition is true exactly when the old one is for some values of the removed parameters. *)
Lemma qsem_ex M vs k (e : env M) : forallb is_var vs = true -> (forall a b, env_eq a b -> k a = k b) -> NoDup (vars_of vs) ->
  qsem M QEx vs k e = true <-> exists e', (forall x, ~ In x (vars_of vs) -> e' x = e x) /\ (forall x s, In (x, s) (vars_of vs) -> In (e' (x, s)) (dom M s)) /\ k e' = true.
Proof.
  revert e. induction vs as [|v vs IH]; intros e Hv Hk N; cbn [qsem].
  - split; [intros H; exists e; repeat split; auto; intros ? ? []|]. intros (e' & A & _ & B). rewrite <- B. apply Hk. intros x. symmetry. apply A. intros [].
  - cbn [forallb] in Hv. apply andb_true_iff in Hv as [Hv1 Hv]. destruct v as [x s| | |]; try discriminate. change (vars_of (Var x s :: vs)) with ((x, s) :: vars_of vs) in *. inversion N as [|? ? Nx N']; subst. rewrite existsb_exists. split.
    + intros (d & Hd & H). apply IH in H as (e' & A & B & C); auto. exists e'. split; [|split; [|auto]].
      * intros y Hy. rewrite A by (intros X; apply Hy; right; auto). unfold upd. destruct (var_eqb (x, s) y) eqn:E; [|auto]. apply var_eqb_eq in E. subst y. exfalso. apply Hy. left. auto.
      * intros y r [E|Hy]; [|auto]. injection E as <- <-. rewrite A by auto. unfold upd. rewrite var_eqb_refl. auto.
    + intros (e' & A & B & C). exists (e' (x, s)). split; [apply B; left; auto|]. apply IH; auto. exists e'. split; [|split; [|auto]].
      * intros y Hy. unfold upd. destruct (var_eqb (x, s) y) eqn:E; [apply var_eqb_eq in E; subst; auto|]. apply A. intros [X|X]; [subst; rewrite var_eqb_refl in E; discriminate|auto].
      * intros y r Hy. apply B. right. auto.
Qed.
Theorem C30_precondition a free a' : project_away_with a free = Ok a' -> NoDup free ->
  a_name a' = a_name a /\ a_effs a' = a_effs a /\ (forall x, In x (a_params a') <-> In x (a_params a) /\ ~ In x free) /\
  forall M (e : env M), fsem M (a_pre a') e = true <->
    exists e', (forall x, ~ In x (vars_of free) -> e' x = e x) /\ (forall x s, In (x, s) (vars_of free) -> In (e' (x, s)) (dom M s)) /\ fsem M (a_pre a) e' = true.
Proof.
  unfold project_away_with. destruct (exists_ (map ATerm free ++ [AForm (a_pre a)])) as [f|] eqn:E; [|discriminate]. cbn [bind]. intros [= <-] N. cbn. split; [auto|]. split; [auto|]. split.
  - intros x. rewrite filter_In, negb_true_iff, mem_t_false. tauto.
  - intros M e. apply quantified_iff in E as (xs & g & _ & Hv & Eq & ->). apply app_inj_tail in Eq as [Eq1 Eq2]. injection Eq2 as <-.
    assert (xs = free). { clear - Eq1. revert xs Eq1. induction free as [|t l IH]; intros [|x xs] H; try discriminate; auto. injection H as -> H. f_equal. auto. } subst xs.
    cbn [fsem]. rewrite qsem_ex; [tauto|auto| |apply NoDup_vars; auto]. intros x y Hxy. apply sem_ext. auto.
Qed.
(** The call fails exactly when no parameter can be removed (or one of them is not a variable). *)
Theorem C30_raises a free : (exists a', project_away_with a free = Ok a') <-> free <> [] /\ forallb is_var free = true.
Proof.
  unfold project_away_with. split.
  - intros [a' H]. destruct (exists_ (map ATerm free ++ [AForm (a_pre a)])) as [f|] eqn:E; [|discriminate]. apply quantified_iff in E as (xs & g & Hn & Hv & Eq & _). apply app_inj_tail in Eq as [Eq1 _].
    assert (xs = free). { clear - Eq1. revert xs Eq1. induction free as [|t l IH]; intros [|x xs] H; try discriminate; auto. injection H as -> H. f_equal. auto. } subst xs. auto.
  - intros [H1 H2]. assert (E : exists_ (map ATerm free ++ [AForm (a_pre a)]) = Ok (Quant QEx free (a_pre a))). { apply quantified_iff. exists free, (a_pre a). auto. } rewrite E. eexists. reflexivity.
Qed.

(** * Ground instances *)
Lemma occurs_same s s' : (forall t, (forall x, occurs_t x t = true -> lookup s x = lookup s' x) -> subst_term (of_vars s) t = subst_term (of_vars s') t) /\
  (forall f, (forall x, occurs x f = true -> lookup s x = lookup s' x) -> subst_formula (of_vars s) f = subst_formula (of_vars s') f).
Proof.
  assert (L : forall ts, Forall (fun t => (forall x, occurs_t x t = true -> lookup s x = lookup s' x) -> subst_term (of_vars s) t = subst_term (of_vars s') t) ts ->
    (forall x, existsb (occurs_t x) ts = true -> lookup s x = lookup s' x) -> map (subst_term (of_vars s)) ts = map (subst_term (of_vars s')) ts).
  { induction 1 as [|t ts Ht _ IH]; intros H; [reflexivity|]. cbn [map existsb] in *. f_equal; [apply Ht|apply IH]; intros x Hx; apply H; rewrite Hx; auto using orb_true_r. }
  apply syntax_ind.
  - intros x r H. rewrite !subst_var. rewrite (H (x, r)); [auto|]. cbn. apply var_eqb_refl.
  - intros. now rewrite !subst_cst.
  - intros f ts IH H. rewrite !subst_app. f_equal. auto.
  - intros c a b Hc Ha Hb H. rewrite !subst_ite. cbn [occurs_t] in H. rewrite Hc, Ha, Hb; auto; intros x Hx; apply H; rewrite Hx, ?orb_true_r; auto.
  - reflexivity.
  - reflexivity.
  - intros p ts IH H. rewrite !subst_f_unfold. f_equal. auto.
  - intros c fs IH H. rewrite !subst_f_unfold. f_equal. cbn [occurs] in H. induction IH as [|g gs Hg _ IH]; [reflexivity|]. cbn [map existsb] in *. f_equal; [apply Hg|apply IH]; intros x Hx; apply H; rewrite Hx; auto using orb_true_r.
  - intros q vs f Hvs Hf H. rewrite (subst_f_unfold s (Quant q vs f)), (subst_f_unfold s' (Quant q vs f)). cbn [occurs] in H. f_equal; [apply L; auto; intros x Hx; apply H; rewrite Hx; auto|apply Hf; intros x Hx; apply H; rewrite Hx, orb_true_r; auto].
Qed.
Lemma occurs_subst s : const_subst s -> (forall t x, occurs_t x (subst_term (of_vars s) t) = true -> occurs_t x t = true) /\ (forall f x, occurs x (subst_formula (of_vars s) f) = true -> occurs x f = true).
Proof.
  intros C. assert (L : forall ts, Forall (fun t => forall x, occurs_t x (subst_term (of_vars s) t) = true -> occurs_t x t = true) ts -> forall x, existsb (occurs_t x) (map (subst_term (of_vars s)) ts) = true -> existsb (occurs_t x) ts = true).
  { induction 1 as [|t ts Ht _ IH]; intros x H; [auto|]. cbn [map existsb] in *. apply orb_true_iff in H as [H|H]; [rewrite Ht; auto|rewrite IH by auto; apply orb_true_r]. }
  apply syntax_ind.
  - intros x r y H. rewrite subst_var in H. destruct (lookup s (x, r)) as [t|] eqn:E; [|auto]. apply lookup_In in E. destruct (C _ _ E) as (c & u & ->). discriminate.
  - intros c r x H. rewrite subst_cst in H. discriminate.
  - intros f ts IH x H. rewrite subst_app in H. cbn [occurs_t] in *. auto.
  - intros c a b Hc Ha Hb x H. rewrite subst_ite in H. cbn [occurs_t] in *. apply orb_true_iff in H as [H|H]; [apply orb_true_iff in H as [H|H]; [rewrite Hc by auto; auto|rewrite Ha by auto; rewrite orb_true_r; auto]|rewrite Hb by auto; apply orb_true_r].
  - intros x H. rewrite subst_f_unfold in H. discriminate.
  - intros x H. rewrite subst_f_unfold in H. discriminate.
  - intros p ts IH x H. rewrite subst_f_unfold in H. cbn [occurs] in *. auto.
  - intros c fs IH x H. rewrite subst_f_unfold in H. cbn [occurs] in *. induction IH as [|g gs Hg _ IH]; [auto|]. cbn [map existsb] in *. apply orb_true_iff in H as [H|H]; [rewrite Hg; auto|rewrite IH by auto; apply orb_true_r].
  - intros q vs f Hvs Hf x H. rewrite subst_f_unfold in H. cbn [occurs] in *. apply orb_true_iff in H as [H|H]; [rewrite L; auto|rewrite Hf by auto; apply orb_true_r].
Qed.
Lemma subst_effect_same s s' : const_subst s -> forall e, (forall x, occurs_e x e = true -> lookup s x = lookup s' x) -> subst_effect (of_vars s) e = subst_effect (of_vars s') e.
Proof.
  intros C. assert (F : forall f, (forall x, occurs x f = true -> lookup s x = lookup s' x) -> subst_formula (of_vars s) f = subst_formula (of_vars s') f) by (apply occurs_same).
  assert (T : forall t, (forall x, occurs_t x t = true -> lookup s x = lookup s' x) -> subst_term (of_vars s) t = subst_term (of_vars s') t) by (apply occurs_same).
  induction e as [c a|c a|i c lh r|c vs es IH|c a|c] using effect_ind_nested; intros H; cbn [subst_effect occurs_e] in *.
  1,2,5: rewrite (F c), (F a); [reflexivity|..]; intros x Hx; apply H; rewrite Hx, ?orb_true_r; auto.
  - rewrite (F c), (T lh), (T r); [reflexivity|..]; intros x Hx; apply H; rewrite Hx, ?orb_true_r; auto.
  - assert (E : mapM (subst_effect (of_vars s)) es = mapM (subst_effect (of_vars s')) es).
    { assert (H' : forall x, existsb (occurs_e x) es = true -> lookup s x = lookup s' x) by (intros x Hx; apply H; rewrite Hx, orb_true_r; auto). clear H. induction IH as [|e es He _ IH]; [reflexivity|]. cbn [mapM existsb] in *. rewrite He, IH; [reflexivity|..]; intros x Hx; apply H'; rewrite Hx, ?orb_true_r; auto. }
    rewrite E. destruct (mapM (subst_effect (of_vars s')) es) as [es'|]; [|reflexivity]. cbn [bind]. do 2 f_equal.
    + assert (Fc : subst_formula (of_vars s) c = subst_formula (of_vars s') c) by (apply F; intros x Hx; apply H; rewrite Hx; auto). rewrite <- Fc. apply F. intros x Hx. apply occurs_subst in Hx; auto. apply H. rewrite Hx. auto.
    + apply filter_ext_in. intros v Hv. f_equal. unfold in_subst. destruct (is_var v) eqn:Ev.
      * destruct v as [x r| | |]; try discriminate. rewrite !get_t_of_vars. rewrite (H (x, r)); [auto|]. assert (X : existsb (occurs_t (x, r)) vs = true) by (apply existsb_exists; exists (Var x r); split; [auto|cbn; apply var_eqb_refl]). rewrite X, orb_true_r. auto.
      * rewrite !get_t_of_vars_none by auto. auto.
  - reflexivity.
Qed.
Lemma mapM_same {A B} (f g : A -> res B) l : (forall x, In x l -> f x = g x) -> mapM f l = mapM g l.
Proof. induction l as [|x l IH]; intros H; [reflexivity|]. cbn [mapM]. rewrite (H x), IH; cbn; auto. intros; apply H; right; auto. Qed.

(** The removed parameters get the values [vals]. *)
Definition extend (free vals : list term) (s : vsubst) : vsubst := (rev (combine (vars_of free) vals) ++ s)%list.
Lemma combine_fst {A B} (l : list A) (l' : list B) x : List.length l' = List.length l -> In x l -> exists y, In (x, y) (combine l l').
Proof. revert l'. induction l as [|a l IH]; intros [|b l'] H []; try discriminate; cbn; [subst; eauto|]. injection H as H. destruct (IH l' H H0) as [y Hy]. eauto. Qed.
Lemma lookup_some s x t : In (x, t) s -> exists t', lookup s x = Some t'.
Proof. induction s as [|[y u] s IH]; intros []; cbn [lookup]; [injection H as -> ->; rewrite var_eqb_refl; eauto|]. destruct (var_eqb y x); eauto. Qed.
Lemma lookup_none_notin s x : (forall t, ~ In (x, t) s) -> lookup s x = None.
Proof. intros H. destruct (lookup s x) as [t|] eqn:E; [|auto]. apply lookup_In in E. exfalso. eapply H; eauto. Qed.

(** For a binding [s] of the remaining parameters: the instance of the new schema is applicable exactly when some extension of [s] to the removed
    parameters makes the old one applicable, and all of these have the same effects. [M] is any structure whose sorts are named by constants. *)
Theorem C30_instances D a free a' s pre' effs' insts :
  constants_only D -> project_away_with a free = Ok a' -> NoDup free -> forallb is_var (a_params a) = true -> wf (a_pre a) = true ->
  Forall2 (fun v cs => exists x r, v = Var x r /\ D r = Some cs) free insts ->
  (forall x, In x (vars_of (a_params a)) \/ In x (vars_of free) -> ~ In x (binders (a_pre a))) ->
  const_subst s -> (forall x t, In (x, t) s -> In x (vars_of (a_params a')) /\ ~ In x (vars_of free)) ->
  (forall e x, In e (a_effs a) -> In x (vars_of free) -> occurs_e x e = false) ->
  ground_schema a' (of_vars s) = Ok (pre', effs') ->
  (forall vals, In vals (product insts) -> exists pre, ground_schema a (of_vars (extend free vals s)) = Ok (pre, effs')) /\
  (forall M (e : env M), respects D M -> fsem M pre' e = true <->
     exists vals pre, In vals (product insts) /\ ground_schema a (of_vars (extend free vals s)) = Ok (pre, effs') /\ fsem M pre e = true).
Proof.
  intros HD HP N Hv W HF HB Cs Ks Hocc HG.
  assert (VF : forallb is_var free = true) by (apply forallb_forall; intros x Hx; destruct (Forall2_In_l _ _ _ _ HF Hx) as (cs & _ & y & r & -> & _); reflexivity).
  destruct (C30_precondition a free a' HP N) as (_ & Eeff & Hpar & _).
  assert (Epre : a_pre a' = Quant QEx free (a_pre a)).
  { unfold project_away_with in HP. destruct (exists_ (map ATerm free ++ [AForm (a_pre a)])) as [f|] eqn:E; [|discriminate]. cbn [bind] in HP. injection HP as <-. cbn [a_pre].
    apply quantified_iff in E as (xs & g & _ & _ & Eq & ->). apply app_inj_tail in Eq as [Eq1 Eq2]. injection Eq2 as <-. f_equal. clear - Eq1. revert xs Eq1. induction free as [|t l IH]; intros [|x xs] H; try discriminate; auto. injection H as -> H. f_equal. auto. }
  assert (Hvals : forall vals, In vals (product insts) -> List.length vals = List.length (vars_of free) /\ Forall (fun t => exists c r, t = Cst c r) vals).
  { intros vals Hin. split.
    - rewrite (product_length _ _ Hin). rewrite <- (map_length tv (vars_of free)), vars_of_map by auto. clear - HF. induction HF; cbn; auto.
    - apply Forall_forall. intros t Ht. apply product_In in Hin. destruct (Forall2_In_l _ _ _ _ Hin Ht) as (cs & Hcs & Htc). destruct (Forall2_In_r _ _ _ _ HF Hcs) as (v & _ & x & r & -> & Hr). exact (HD r cs t Hr Htc). }
  assert (Cext : forall vals, In vals (product insts) -> const_subst (extend free vals s)).
  { intros vals Hin x t Hx. unfold extend in Hx. apply in_app_iff in Hx as [Hx|Hx]; [|eauto]. apply in_rev in Hx. apply in_combine_r in Hx. destruct (Hvals vals Hin) as [_ F]. rewrite Forall_forall in F. auto. }
  assert (Kext : forall vals x t, In (x, t) (extend free vals s) -> In x (vars_of free) \/ In (x, t) s).
  { intros vals x t Hx. unfold extend in Hx. apply in_app_iff in Hx as [Hx|Hx]; [left|auto]. apply in_rev in Hx. apply in_combine_l in Hx. auto. }
  assert (Kpar : forall x, In x (vars_of (a_params a')) -> In x (vars_of (a_params a))).
  { intros x Hx. apply In_tv_vars; [auto|]. assert (VP : forallb is_var (a_params a') = true). { apply forallb_forall. intros t Ht. apply Hpar in Ht as [Ht _]. rewrite forallb_forall in Hv. auto. } apply (In_tv_vars x (a_params a') VP) in Hx. apply Hpar in Hx. tauto. }
  assert (NCe : forall vals, In vals (product insts) -> no_clash (binders (a_pre a)) (extend free vals s) = true).
  { intros vals Hin. apply const_subst_no_clash; [auto|]. intros b Hb t Ht. apply Kext in Ht as [Ht|Ht]; [apply (HB b); auto|]. destruct (Ks _ _ Ht) as [X _]. apply (HB b); auto. }
  assert (Wt : forall vals, In vals (product insts) -> wf (subst_formula (of_vars (extend free vals s)) (a_pre a)) = true).
  { intros vals Hin. apply subst_wf; auto. intros x t Ht. destruct (Cext vals Hin x t Ht) as (c & r & ->). reflexivity. }
  unfold ground_schema in HG. destruct (forallb _ (a_params a')) eqn:EC in HG; [|discriminate]. rewrite Eeff in HG.
  destruct (mapM (subst_effect (of_vars s)) (a_effs a)) as [es|] eqn:EM; [|discriminate]. cbn [bind] in HG. destruct (flatten (subst_formula (of_vars s) (a_pre a'))) as [fl|] eqn:EF; [|discriminate]. cbn [bind] in HG. injection HG as <- <-.
  assert (GE : forall vals, In vals (product insts) -> exists pre, flatten (subst_formula (of_vars (extend free vals s)) (a_pre a)) = Ok pre /\ equivalent (subst_formula (of_vars (extend free vals s)) (a_pre a)) pre /\ ground_schema a (of_vars (extend free vals s)) = Ok (pre, es)).
  { intros vals Hin. destruct (C10_flatten _ (Wt vals Hin)) as (g & Eg & _ & Q & _). exists g. split; [auto|]. split; [auto|]. unfold ground_schema.
    assert (X : forallb (fun x => match get_t (sub_t (of_vars (extend free vals s))) x with Some (Cst _ _) => true | _ => false end) (a_params a) = true).
    { apply forallb_forall. intros v Hvp. rewrite forallb_forall in Hv. assert (Hv' := Hv v Hvp). destruct v as [x r| | |]; try discriminate. rewrite get_t_of_vars. unfold extend. rewrite lookup_app.
      destruct (lookup (rev (combine (vars_of free) vals)) (x, r)) as [t|] eqn:El.
      - apply lookup_In in El. destruct (Cext vals Hin (x, r) t) as (c & u & ->); [unfold extend; apply in_or_app; auto|]. auto.
      - destruct (mem_t (Var x r) free) eqn:Em.
        + exfalso. apply mem_t_In in Em. assert (Hx : In (x, r) (vars_of free)) by (apply (In_tv_vars (x, r) free VF); exact Em). destruct (Hvals vals Hin) as [Lv _]. destruct (combine_fst (vars_of free) vals (x, r) Lv Hx) as [y Hy].
          apply in_rev in Hy. apply lookup_some in Hy as [t' Ht']. congruence.
        + rewrite forallb_forall in EC. specialize (EC (Var x r)). rewrite get_t_of_vars in EC. apply EC. apply Hpar. split; [auto|]. apply mem_t_false. auto. }
    rewrite X. assert (Y : mapM (subst_effect (of_vars (extend free vals s))) (a_effs a) = Ok es).
    { rewrite <- EM. apply mapM_same. intros e He. apply subst_effect_same; [auto|]. intros x Hx. unfold extend. rewrite lookup_app. rewrite (lookup_none_notin (rev (combine (vars_of free) vals)) x); [auto|].
      intros t Ht. apply in_rev in Ht. apply in_combine_l in Ht. rewrite (Hocc e x He Ht) in Hx. discriminate. }
    rewrite Y. cbn [bind]. rewrite Eg. reflexivity. }
  split; [intros vals Hin; destruct (GE vals Hin) as (g & _ & _ & G); eauto|].
  intros M e HM. rewrite Epre in EF. rewrite subst_f_unfold in EF. cbn [flatten] in EF. injection EF as <-.
  assert (NC : no_clash (binders (Quant QEx free (a_pre a))) s = true). { apply const_subst_no_clash; [auto|]. cbn [binders]. intros b Hb t Ht. destruct (Ks _ _ Ht) as [X Y]. apply in_app_iff in Hb as [Hb|Hb]; [auto|]. apply (HB b); auto. }
  assert (SL := subst_lemma M s (Quant QEx free (a_pre a)) e NC). rewrite subst_f_unfold in SL. rewrite SL. cbn [fsem].
  rewrite (qsem_product D M HD HM QEx free insts HF) by (intros; apply sem_ext; auto). rewrite existsb_exists.
  assert (EQ : forall vals, In vals (product insts) -> fsem M (a_pre a) (env_subst (rev (combine (vars_of free) vals)) (env_subst s e)) = fsem M (subst_formula (of_vars (extend free vals s)) (a_pre a)) e).
  { intros vals Hin. rewrite (subst_lemma M _ (a_pre a) e (NCe vals Hin)). apply sem_ext. intros x. unfold env_subst, extend. rewrite lookup_app. destruct (lookup (rev (combine (vars_of free) vals)) x) as [t|] eqn:El; [|auto].
    apply lookup_In in El. destruct (Cext vals Hin x t) as (c & u & ->); [unfold extend; apply in_or_app; auto|]. reflexivity. }
  split.
  - intros (vals & Hin & H). destruct (GE vals Hin) as (g & _ & Q & G). exists vals, g. split; [auto|]. split; [auto|]. rewrite <- Q, <- EQ; auto.
  - intros (vals & g & Hin & G & H). exists vals. split; [auto|]. destruct (GE vals Hin) as (g' & _ & Q & G'). assert (g' = g) by congruence. subst g'. rewrite EQ by auto. rewrite Q. auto.
Qed.
#[local] Open Scope string_scope.
Definition pz := Var "z" "obj". Definition px := Var "x" "obj".
(** A schema with a removable parameter meets the hypotheses of [C30_instances]. *)
Definition act_touch : action := {| a_name := "touch"; a_params := [px; pz]; a_pre := Comp And [Atom pP [px]; Comp Not [Atom pQ [pz]]]; a_effs := [EAdd Top (Atom pQ [px]); EDel (Atom pP [px]) (Atom pP [px])] |}.
Example C30_example : exists a' pre' effs', collect_effect_free_parameters act_touch = Ok [pz] /\ project_away_with act_touch [pz] = Ok a' /\ constants_only DX /\
  Forall2 (fun v cs => exists x r, v = Var x r /\ DX r = Some cs) [pz] [[o1; o2]] /\ (forall x, In x (vars_of (a_params act_touch)) \/ In x (vars_of [pz]) -> ~ In x (binders (a_pre act_touch))) /\
  (forall x t, In (x, t) [(("x", "obj"), o1)] -> In x (vars_of (a_params a')) /\ ~ In x (vars_of [pz])) /\ (forall e x, In e (a_effs act_touch) -> In x (vars_of [pz]) -> occurs_e x e = false) /\
  ground_schema a' (of_vars [(("x", "obj"), o1)]) = Ok (pre', effs').
Proof.
  do 3 eexists. split; [reflexivity|]. split; [reflexivity|]. split.
  { intros r cs t H Ht. unfold DX in H. destruct (String.eqb r "obj"); [|discriminate]. injection H as <-. destruct Ht as [<-|[<-|[]]]; do 2 eexists; reflexivity. }
  split; [constructor; [do 2 eexists; split; reflexivity|constructor]|]. split; [intros x _ []|]. split.
  { intros x t [E|[]]. injection E as <- <-. split; [left; reflexivity|intros [X|[]]; discriminate X]. }
  split; [|reflexivity]. intros e x [<-|[<-|[]]] [<-|[]]; reflexivity.
Qed.
(** A parameter that occurs only in the condition of an effect is removed all the same: instances of the result then fail, those of the original do not. *)
Definition act_cond : action := {| a_name := "c"; a_params := [px; pz]; a_pre := Atom pP [px]; a_effs := [EAdd (Atom pP [pz]) (Atom pQ [px])] |}.
Theorem C30_condition_refuted : exists a' pre effs pre' effs' m, project_away_effect_free_variables act_cond = Ok a' /\
  ground_schema act_cond {| sub_t := [(px, o1); (pz, o1)]; sub_f := [] |} = Ok (pre, effs) /\ progress DX String.eqb sX effs = Ok m /\
  ground_schema a' {| sub_t := [(px, o1)]; sub_f := [] |} = Ok (pre', effs') /\ forall m', progress DX String.eqb sX effs' <> Ok m'.
Proof. do 6 eexists. split; [reflexivity|]. split; [reflexivity|]. split; [reflexivity|]. split; [reflexivity|]. intros m'. vm_compute. discriminate. Qed.
(** A parameter with the name and sort of a variable of a universal effect: the instances of the original fix that variable, those of the result do not. *)
Definition act_uni : action := {| a_name := "u"; a_params := [px; pz]; a_pre := Atom pP [px]; a_effs := [EUni Top [pz] [EAdd Top (Atom pQ [pz])]; EAdd Top (Atom pQ [px])] |}.
Theorem C30_shadowing_refuted : exists a' pre' effs' m', project_away_effect_free_variables act_uni = Ok a' /\
  ground_schema a' {| sub_t := [(px, o1)]; sub_f := [] |} = Ok (pre', effs') /\ progress DX String.eqb sX effs' = Ok m' /\ m_holds m' pQ [o2] = true /\
  exists pre effs m, ground_schema act_uni {| sub_t := [(px, o1); (pz, o1)]; sub_f := [] |} = Ok (pre, effs) /\ progress DX String.eqb sX effs = Ok m /\ m_holds m pQ [o2] = false.
Proof. do 4 eexists. split; [reflexivity|]. split; [reflexivity|]. split; [reflexivity|]. split; [reflexivity|]. do 3 eexists. split; [reflexivity|]. split; reflexivity. Qed.
Print Assumptions C30_instances.
