(** Simplified actions: simulation, and independence from removed symbols *)
From Verif Require Import ListUtil Base Syntax Semantics SemLemmas Build NnfProofs BuildProofs ModelState ModelProofs Eval EvalSpec EvalProofs Subst SubstProofs QElim QElimProofs Effects ProgressSpec StateLemmas ProgressProofs SearchModelProofs NegBuiltinProofs PropsProgress Represent RelaxSpec PropsRelax CompileSpec PropsCompile Grounding GroundingSpec PropsGrounding Simplify SimplifySpec SimplifyProofs SimplifyProofs2.

(** * Flattening *)
Lemma eval_any_app m xs ys : eval_any m (xs ++ ys) = match eval_any m xs with Ok false => eval_any m ys | r => r end.
Proof. induction xs as [|x xs IH]; cbn [app eval_any]; [destruct (eval_any m ys) as [[]|]; auto|]. destruct (eval_f m x) as [[]|]; auto. Qed.
Lemma eval_aux_and m f : eval_all m (flatten_aux And f) = eval_f m f.
Proof.
  assert (B : forall g, eval_all m [g] = eval_f m g) by (intros g; cbn [eval_all]; destruct (eval_f m g) as [[]|]; auto).
  induction f as [| |p ts|c fs IH|q vs f IH] using formula_ind_simple; try apply B. cbn [flatten_aux]. destruct c; try apply B. cbn [conn_eqb]. rewrite eval_and. induction IH as [|g gs Hg _ IHs]; [reflexivity|].
  cbn [flat_map]. rewrite eval_all_app, Hg. cbn [eval_all]. destruct (eval_f m g) as [[]|]; auto.
Qed.
Lemma eval_aux_or m f : eval_any m (flatten_aux Or f) = eval_f m f.
Proof.
  assert (B : forall g, eval_any m [g] = eval_f m g) by (intros g; cbn [eval_any]; destruct (eval_f m g) as [[]|]; auto).
  induction f as [| |p ts|c fs IH|q vs f IH] using formula_ind_simple; try apply B. cbn [flatten_aux]. destruct c; try apply B. cbn [conn_eqb]. rewrite eval_or. induction IH as [|g gs Hg _ IHs]; [reflexivity|].
  cbn [flat_map]. rewrite eval_any_app, Hg. cbn [eval_any]. destruct (eval_f m g) as [[]|]; auto.
Qed.
Lemma eval_flatten m f g : flatten f = Ok g -> eval_f m g = eval_f m f.
Proof.
  unfold flatten. destruct f as [| |p ts|[] fs|q vs f]; try (intros [= <-]; reflexivity); unfold compound; destruct (comp_arity_ok _ _); try discriminate; intros [= <-].
  - rewrite eval_and. apply (eval_aux_and m (Comp And fs)).
  - rewrite eval_or. apply (eval_aux_or m (Comp Or fs)).
Qed.
(** Conjunctions and disjunctions with at least two members *)
Fixpoint arity2 (f : formula) : bool := match f with Comp c fs => (match c with Not => true | _ => Nat.leb 2 (List.length fs) end) && forallb arity2 fs | _ => true end.
Lemma arity2_aux c f : arity2 f = true -> c = And \/ c = Or -> 1 <= List.length (flatten_aux c f) /\ (forall fs, f = Comp c fs -> 2 <= List.length (flatten_aux c f)).
Proof.
  intros A C. assert (G : forall f, arity2 f = true -> 1 <= List.length (flatten_aux c f)).
  { clear f A. induction f as [| |p ts|d fs IH|q vs f IH] using formula_ind_simple; intros A; cbn [flatten_aux List.length]; try lia. destruct (conn_eqb d c) eqn:E; [|cbn; lia]. cbn [arity2] in A. apply andb_true_iff in A as [A1 A2].
    assert (L : 2 <= List.length fs) by (destruct d, c, C; try discriminate; now apply Nat.leb_le). destruct fs as [|g gs]; [cbn in L; lia|]. cbn [flat_map]. rewrite app_length. inversion IH as [|? ? I1 _]; subst. cbn [forallb] in A2. apply andb_true_iff in A2 as [A2 _]. specialize (I1 A2). lia. }
  split; [auto|]. intros fs ->. cbn [flatten_aux]. assert (conn_eqb c c = true) as -> by (destruct c; auto). cbn [arity2] in A. apply andb_true_iff in A as [A1 A2]. assert (L : 2 <= List.length fs) by (destruct C; subst; now apply Nat.leb_le).
  clear A1. destruct fs as [|g1 [|g2 gs]]; cbn in L; try lia. cbn [flat_map forallb] in *. apply andb_true_iff in A2 as [B1 A2]. apply andb_true_iff in A2 as [B2 _]. assert (X1 := G g1 B1). assert (X2 := G g2 B2). rewrite !app_length. lia.
Qed.
Lemma flatten_total f : arity2 f = true -> exists g, flatten f = Ok g.
Proof.
  intros A. unfold flatten. destruct f as [| |p ts|[] fs|q vs f]; eauto; unfold compound.
  - destruct (arity2_aux And _ A (or_introl eq_refl)) as [_ L]. specialize (L _ eq_refl). destruct (comp_arity_ok And _) eqn:E; [eauto|]. cbn [comp_arity_ok] in E. apply Nat.leb_gt in E. lia.
  - destruct (arity2_aux Or _ A (or_intror eq_refl)) as [_ L]. specialize (L _ eq_refl). destruct (comp_arity_ok Or _) eqn:E; [eauto|]. cbn [comp_arity_ok] in E. apply Nat.leb_gt in E. lia.
Qed.
Lemma simplify_arity2 mo statics : forall f r, simplify_expression mo statics f = Ok r -> arity2 (bool_to_expr r) = true.
Proof.
  induction f as [| |p ts|c fs IH|q vs f IH] using formula_ind_simple; intros r H.
  - injection H as <-. reflexivity.
  - injection H as <-. reflexivity.
  - cbn [simplify_expression] in H. destruct (mapM _ ts) as [ts'|]; [|discriminate]. cbn [bind] in H. destruct mo as [m|]; [|injection H as <-; reflexivity]. destruct (_ && _); [|injection H as <-; reflexivity]. destruct (eval_f m _) as [[]|]; try discriminate; injection H as <-; reflexivity.
  - assert (MEM : forall isand l, simplify_members (simplify_expression mo statics) isand fs = Ok (Some l) -> forallb arity2 l = true).
    { intros isand. clear H. induction IH as [|g gs Hg _ IHs]; intros l H; cbn [simplify_members] in H; [injection H as <-; reflexivity|]. fold (simplify_members (simplify_expression mo statics) isand gs) in H. destruct (simplify_expression mo statics g) as [[b|g']|] eqn:E; try discriminate; cbn [bind] in H.
      - destruct (Bool.eqb b isand); [auto|discriminate].
      - destruct (simplify_members (simplify_expression mo statics) isand gs) as [[l'|]|]; try discriminate. cbn [bind option_map] in H. injection H as <-. cbn [forallb]. rewrite (IHs l' eq_refl), andb_true_r. exact (Hg _ eq_refl). }
    assert (BIN : forall isand cc, cc <> Not -> forall r, (let! l := simplify_members (simplify_expression mo statics) isand fs in Ok match l with None => OBool (negb isand) | Some [] => OBool isand | Some [g] => OForm g | Some gs => OForm (Comp cc gs) end) = Ok r -> arity2 (bool_to_expr r) = true).
    { clear H r. intros isand cc N r H. destruct (simplify_members (simplify_expression mo statics) isand fs) as [[l|]|] eqn:E; try discriminate; cbn [bind] in H; [|injection H as <-; destruct isand; reflexivity]. specialize (MEM isand l E).
      destruct l as [|g1 [|g2 l]]; injection H as <-; cbn [bool_to_expr]; [destruct isand; reflexivity|cbn [forallb] in MEM; now rewrite andb_true_r in MEM|]. cbn [arity2]. rewrite MEM. destruct cc; try contradiction; reflexivity. }
    destruct c; cbn [simplify_expression] in H; [eapply (BIN true And); eauto; discriminate|eapply (BIN false Or); eauto; discriminate|].
    destruct fs as [|g gs]; [discriminate|]. inversion IH as [|? ? Hg _]; subst. destruct (simplify_expression mo statics g) as [[b|g']|] eqn:E; try discriminate; cbn [bind] in H; [injection H as <-; destruct b; reflexivity|]. specialize (Hg _ eq_refl). cbn [bool_to_expr] in Hg.
    assert (Q : (exists hs, g' = Comp Not hs) \/ r = OForm (Comp Not [g'])) by (destruct g' as [| |p ts|cc hs|q vs h]; [..|destruct cc|]; eauto; right; congruence). destruct Q as [[hs ->]| ->].
    + destruct hs as [|h hs]; [discriminate|]. injection H as <-. cbn [arity2 forallb] in Hg. cbn [bool_to_expr]. destruct (arity2 h); [auto|]. exact Hg.
    + cbn [bool_to_expr arity2 forallb]. rewrite Hg. reflexivity.
  - cbn [simplify_expression] in H. destruct (simplify_expression mo statics f) as [[b|g]|] eqn:E; try discriminate; cbn [bind] in H; injection H as <-; [destruct b; reflexivity|reflexivity].
Qed.
Lemma subst_arity2 s f : parameter_binding s -> arity2 f = true -> arity2 (subst_formula s f) = true.
Proof.
  intros Hs. induction f as [| |p ts|c fs IH|q vs f IH] using formula_ind_simple; intros A; cbn [subst_formula]; rewrite binding_formula by auto; auto. cbn [arity2] in *. apply andb_true_iff in A as [A1 A2]. rewrite map_length, A1. cbn [andb].
  rewrite forallb_forall in *. intros g Hg. apply in_map_iff in Hg as (h & <- & Hh). rewrite Forall_forall in IH. auto.
Qed.

(** * Actions *)
Section Action.
Variables (D : domains) (sub : sort -> sort -> bool) (mo : option model) (statics : option (list sym)).
Notation reliable := (reliable mo statics).
Notation harmless := (harmless statics).
Lemma inste_one s e : inste [s] e = subst_effect s e.
Proof. reflexivity. Qed.
(** One ground effect and its simplification: nothing, or an effect that does the same *)
Definition follows (e : effect) (oe : option effect) : Prop :=
  harmless e /\ match oe with
  | None => forall m m1, proper m -> reliable m -> apply_effect D sub m e = Ok m1 -> m1 = m
  | Some e' => is_del e' = is_del e /\ forall m m1, proper m -> reliable m -> apply_effect D sub m e = Ok m1 -> apply_effect D sub m e' = Ok m1
  end.
Lemma simulates_apply e oe : harmless e -> match oe with None => forall n, simulates D sub mo statics n e None | Some e' => is_del e' = is_del e /\ edepth e' <= edepth e /\ forall n, simulates D sub mo statics n e (Some e') end -> follows e oe.
Proof.
  intros Hh H. split; [auto|]. destruct oe as [e'|].
  - destruct H as (H1 & H2 & H3). split; [auto|]. intros m m1 Hp R Ha. unfold apply_effect in *. rewrite <- (fuel_irrelevant D sub (edepth e) e' m H2). exact (H3 (edepth e) m m1 Hp R Ha).
  - intros m m1 Hp R Ha. exact (H (edepth e) m m1 Hp R Ha).
Qed.
Lemma run_follows (es : list effect) oes : Forall2 follows es oes -> forall m m1, proper m -> reliable m -> run_effects D sub es m = Ok m1 -> run_effects D sub (filter_some oes) m = Ok m1 /\ proper m1 /\ reliable m1.
Proof.
  unfold run_effects. induction 1 as [|e oe es oes [Hh F] _ IH]; intros m m1 Hp R H; [injection H as <-; auto|]. cbn [run_with] in H. destruct (apply_effect D sub m e) as [m2|] eqn:E; [|discriminate]. cbn [bind] in H. destruct (apply_reliable D sub mo statics (edepth e) m e m2 Hh Hp R E) as [Hp2 R2].
  destruct (IH m2 m1 Hp2 R2 H) as (X & Y). split; [|exact Y]. rewrite filter_some_cons. destruct oe as [e'|].
  - cbn [run_with]. destruct F as [_ F]. rewrite (F m m2 Hp R E). exact X.
  - rewrite (F m m2 Hp R E) in X. exact X.
Qed.
Lemma filter_follows (k : bool) es oes : Forall2 follows es oes -> exists oes', Forall2 follows (filter (fun e => Bool.eqb (is_del e) k) es) oes' /\ filter_some oes' = filter (fun e => Bool.eqb (is_del e) k) (filter_some oes).
Proof.
  induction 1 as [|e oe es oes F _ (oes' & IH1 & IH2)]; [exists []; split; [constructor|reflexivity]|]. cbn [filter]. rewrite filter_some_cons. destruct (Bool.eqb (is_del e) k) eqn:E.
  - exists (oe :: oes'). split; [constructor; auto|]. rewrite filter_some_cons. destruct oe as [e'|]; [|auto]. cbn [filter]. destruct F as (_ & Q & _). rewrite Q, E, IH2. reflexivity.
  - exists oes'. split; [auto|]. destruct oe as [e'|]; [|auto]. cbn [filter]. destruct F as (_ & Q & _). rewrite Q, E. exact IH2.
Qed.
Lemma progress_split es m : progress D sub m es = (let! m' := run_effects D sub (filter (fun e => Bool.eqb (is_del e) true) es) m in run_effects D sub (filter (fun e => Bool.eqb (is_del e) false) es) m').
Proof.
  unfold progress, run_effects. rewrite run_with_app.
  assert (A : filter (fun e => Bool.eqb (is_del e) true) es = filter is_del es) by (apply filter_ext; intros e; destruct (is_del e); auto).
  assert (B : filter (fun e => Bool.eqb (is_del e) false) es = filter (fun e => negb (is_del e)) es) by (apply filter_ext; intros e; destruct (is_del e); auto).
  rewrite A, B. reflexivity.
Qed.
Lemma progress_follows es oes m m1 : Forall2 follows es oes -> proper m -> reliable m -> progress D sub m es = Ok m1 -> progress D sub m (filter_some oes) = Ok m1 /\ proper m1 /\ reliable m1.
Proof.
  intros F Hp R H. rewrite progress_split in *. destruct (run_effects D sub _ m) as [m2|] eqn:E; [|discriminate]. cbn [bind] in H. destruct (filter_follows true _ _ F) as (o1 & F1 & Q1), (filter_follows false _ _ F) as (o2 & F2 & Q2). rewrite <- Q1, <- Q2.
  destruct (run_follows _ _ F1 m m2 Hp R E) as (X & Hp2 & R2). rewrite X. cbn [bind]. exact (run_follows _ _ F2 m2 m1 Hp2 R2 H).
Qed.
Lemma effects_follow s es oes effs : parameter_binding s -> (forall e, In e es -> regular_effect e = true /\ harmless e) -> mapM (simplify_effect mo statics) es = Ok oes -> mapM (subst_effect s) es = Ok effs ->
  exists oes', Forall2 follows effs oes' /\ mapM (subst_effect s) (filter_some oes) = Ok (filter_some oes').
Proof.
  intros Hs HE E1 E2. apply mapM_ok_Forall2 in E1, E2. revert effs E2. induction E1 as [|e oe es oes He _ IH]; intros effs E2; inversion E2 as [|? e1 ? effs' Se Ses]; subst; [exists []; split; [constructor|reflexivity]|].
  destruct (IH (fun x Hx => HE x (or_intror Hx)) effs' Ses) as (oes' & F & S). destruct (HE e (or_introl eq_refl)) as [Rg Hh]. assert (Hb : bindings [s]) by (constructor; [exact Hs|constructor]). assert (X := simplify_effect_sim D sub mo statics e oe He Rg Hh [s] e1 Hb Se). assert (Hh1 : harmless e1) by (apply (harmless_inst statics [s] e e1 Hb Hh); exact Se).
  destruct oe as [e'|].
  - destruct X as (X1 & es' & X2 & X3 & X4). exists (Some es' :: oes'). split.
    + constructor; [|exact F]. apply simulates_apply; [exact Hh1|]. split; [|split; auto]. assert (K : forall e e1, subst_effect s e = Ok e1 -> is_del e1 = is_del e) by (clear; intros e e1 H; destruct e; cbn [subst_effect] in H; try (injection H as <-; reflexivity); [|discriminate]; destruct (mapM _ _); [|discriminate]; injection H as <-; reflexivity). rewrite (K e' es' X2), (K e e1 Se). exact X1.
    + rewrite !filter_some_cons, mapM_cons. change (subst_effect s e' = Ok es') in X2. rewrite X2. cbn [bind]. rewrite S. reflexivity.
  - exists (None :: oes'). split; [|rewrite !filter_some_cons; exact S]. constructor; [|exact F]. apply simulates_apply; auto.
Qed.
Lemma action_sim a r s pre effs : simplify_action mo statics a = Ok r -> (forall e, In e (a_effs a) -> regular_effect e = true /\ harmless e) -> parameter_binding s -> ground_schema a s = Ok (pre, effs) ->
  match r with
  | None => forall m, proper m -> reliable m -> is_applicable m pre = Ok true -> forall m1, progress D sub m effs = Ok m1 -> m1 = m
  | Some (pr, es) => exists pre' effs', ground_schema {| a_name := a_name a; a_params := a_params a; a_pre := bool_to_expr pr; a_effs := es |} s = Ok (pre', effs') /\
      forall m, proper m -> reliable m -> (forall b, is_applicable m pre = Ok b -> is_applicable m pre' = Ok b) /\ (forall m1, progress D sub m effs = Ok m1 -> progress D sub m effs' = Ok m1 /\ proper m1 /\ reliable m1)
  end.
Proof.
  intros H HE Hs G. unfold ground_schema in *. cbn [a_params a_effs a_pre] in *. destruct (forallb _ (a_params a)); [|discriminate]. destruct (mapM (subst_effect s) (a_effs a)) as [l|] eqn:El; [|discriminate]. cbn [bind] in G. destruct (flatten _) as [g|] eqn:Ef; [|discriminate]. cbn [bind] in G. injection G as <- <-.
  unfold simplify_action in H. destruct (simplify_expression mo statics (a_pre a)) as [pr|] eqn:Ep; [|discriminate]. cbn [bind] in H. assert (Hb : bindings [s]) by (constructor; [exact Hs|constructor]).
  assert (PRE : forall m b, reliable m -> is_applicable m g = Ok b -> eval_f m (subst_formula s (bool_to_expr pr)) = Ok b) by (intros m b R Hg; unfold is_applicable in Hg; rewrite (eval_flatten m _ _ Ef) in Hg; exact (inst_eval mo statics [s] m Hb R _ _ Ep b Hg)).
  assert (C : pr = OBool false \/ (let! es := mapM (simplify_effect mo statics) (a_effs a) in match filter_some es with [] => Ok None | es' => Ok (Some (pr, es')) end) = Ok r) by (destruct pr as [[]|]; auto). destruct C as [->|C].
  - injection H as <-. intros m Hp R Ha. specialize (PRE m true R Ha). cbn [bool_to_expr] in PRE. cbn [subst_formula] in PRE. rewrite binding_formula in PRE by auto. discriminate.
  - clear H. destruct (mapM (simplify_effect mo statics) (a_effs a)) as [oes|] eqn:Eo; [|discriminate]. cbn [bind] in C. destruct (effects_follow s _ _ _ Hs HE Eo El) as (oes' & F & S). assert (Q : (filter_some oes = [] /\ r = None) \/ (exists es, filter_some oes = es /\ r = Some (pr, es))) by (destruct (filter_some oes); injection C as <-; eauto). destruct Q as [[Q ->]|(es & Q & ->)].
    + intros m Hp R _ m1 Hm. rewrite Q in S. injection S as S. destruct (progress_follows _ _ m m1 F Hp R Hm) as (X & _). rewrite <- S in X. cbn in X. congruence.
    + rewrite Q in S. rewrite S. cbn [bind]. destruct (flatten_total (subst_formula s (bool_to_expr pr))) as [g' Eg]; [apply subst_arity2; [auto|]; eapply simplify_arity2; eauto|]. exists g', (filter_some oes'). rewrite Eg. split; [reflexivity|]. intros m Hp R. split.
      * intros b Hg. unfold is_applicable. rewrite (eval_flatten m _ _ Eg). auto.
      * intros m1 Hm. exact (progress_follows _ _ m m1 F Hp R Hm).
Qed.
End Action.
