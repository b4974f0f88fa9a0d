(** Removed symbols do not matter *)
From Verif Require Import ListUtil Base Syntax Semantics SemLemmas Build NnfProofs BuildProofs ModelState ModelProofs Eval EvalSpec EvalProofs Index Subst SubstProofs QElim QElimProofs Effects ProgressSpec StateLemmas ProgressProofs SearchModelProofs NegBuiltinProofs PropsProgress Represent RelaxSpec PropsRelax CompileSpec PropsCompile Grounding GroundingSpec PropsGrounding Simplify SimplifySpec SimplifyProofs SimplifyProofs2 SimplifyProofs3.

Lemma constant_parameter s : constant_binding s -> parameter_binding s.
Proof. intros [H1 H2]. split; [auto|]. intros k v Hk. apply (H2 k v Hk). Qed.
Lemma constant_get s t u : constant_binding s -> get_t (sub_t s) t = Some u -> exists c r, u = Cst c r.
Proof.
  intros [_ H] E. induction (sub_t s) as [|[k v] l IH]; cbn [get_t] in E; [discriminate|]. destruct (term_eqb k t); [|apply IH; auto; intros; apply H; right; auto]. injection E as <-. apply (H k v). left. reflexivity.
Qed.
Lemma product_member {A} (ls : list (list A)) b x : In b (product ls) -> In x b -> exists l, In l ls /\ In x l.
Proof.
  revert b. induction ls as [|l ls IH]; intros b Hb Hx; cbn [product] in Hb; [destruct Hb as [<-|[]]; destruct Hx|]. rewrite in_flat_map in Hb. destruct Hb as (y & Hy & Hb). apply in_map_iff in Hb as (b' & <- & Hb). destruct Hx as [<-|Hx]; [exists l; cbn; auto|]. destruct (IH b' Hb Hx) as (l' & H1 & H2). exists l'. cbn. auto.
Qed.
Lemma enumerated_constant D sub vs ss s : typed_domains D sub -> enumerate_substitutions D vs = Ok ss -> In s ss -> constant_binding s.
Proof.
  intros TD H Hs. assert (P := enumerated_binding D vs ss s H Hs). destruct P as [P1 P2]. split; [exact P1|]. intros k v Hk. split; [eauto|]. unfold enumerate_substitutions in H. destruct (forallb is_var vs); [|discriminate]. destruct (mapM _ vs) as [doms|] eqn:Ed; [|discriminate]. cbn [bind] in H.
  apply mapM_ok_Forall2 in H. destruct (Forall2_In_r _ _ _ _ H Hs) as (b & Hb & E). unfold create_substitution in E. destruct (create_pairs vs b) as [l|] eqn:El; [|discriminate]. cbn [bind] in E. injection E as <-. cbn [sub_t] in Hk. rewrite <- in_rev in Hk.
  assert (Hv : In v b).
  { clear - El Hk. revert b l El Hk. induction vs as [|w vs IH]; intros [|c b] l El Hk; cbn [create_pairs] in El; try discriminate; try (injection El as <-; destruct Hk; fail). destruct (create_pairs vs b) as [l'|] eqn:E'; [|discriminate]. cbn [bind] in El. injection El as <-. destruct Hk as [E|Hk]; [injection E as _ ->; left; auto|right; eauto]. }
  destruct (product_member _ _ _ Hb Hv) as (cs & Hcs & Hin). apply mapM_ok_Forall2 in Ed. destruct (Forall2_In_r _ _ _ _ Ed Hcs) as (w & _ & Ew). destruct w as [x r| | |]; try discriminate. destruct (D r) as [cs'|] eqn:Er; [|discriminate]. injection Ew as ->. destruct (TD r cs v Er Hin) as (c & r' & -> & _). eauto.
Qed.

(** * Symbols of instances *)
Lemma subst_symbols s : constant_binding s ->
  (forall t, incl (t_preds (subst_term s t)) (t_preds t) /\ incl (t_funs (subst_term s t)) (t_funs t)) /\ (forall f, incl (f_preds (subst_formula s f)) (f_preds f) /\ incl (f_funs (subst_formula s f)) (f_funs f)).
Proof.
  intros C. assert (P := constant_parameter s C). assert (VF : forall f, visit_f s f = f) by (intros; now apply binding_formula).
  assert (FM : forall {A B} (g : A -> A) (k : A -> list B) l, Forall (fun x => incl (k (g x)) (k x)) l -> incl (flat_map k (map g l)) (flat_map k l)).
  { intros A B g k l F x. rewrite !in_flat_map. intros (y & Hy & Hx). apply in_map_iff in Hy as (z & <- & Hz). rewrite Forall_forall in F. exists z. split; [auto|]. apply (F z Hz). exact Hx. }
  apply syntax_ind.
  - intros x r. cbn [subst_term]. unfold visit_t. destruct (get_t (sub_t s) (Var x r)) as [u|] eqn:E; [|split; apply incl_refl]. destruct (constant_get s _ _ C E) as (c & r' & ->). split; apply incl_nil_l.
  - intros c r. cbn [subst_term]. rewrite binding_visit by (auto; discriminate). split; apply incl_refl.
  - intros f ts IH. rewrite binding_app by auto. cbn [t_preds t_funs]. split; [apply FM; eapply Forall_impl; [|exact IH]; cbn; tauto|]. apply incl_cons; [left; auto|]. apply incl_tl. apply FM. eapply Forall_impl; [|exact IH]; cbn; tauto.
  - intros c a b [Hc1 Hc2] [Ha1 Ha2] [Hb1 Hb2]. cbn [subst_term]. rewrite binding_visit by (auto; discriminate). cbn [t_preds t_funs]. split; repeat (apply incl_app_app; auto).
  - cbn [subst_formula]. rewrite VF. split; apply incl_refl.
  - cbn [subst_formula]. rewrite VF. split; apply incl_refl.
  - intros p ts IH. cbn [subst_formula]. rewrite VF. cbn [f_preds f_funs]. split; [|apply FM; eapply Forall_impl; [|exact IH]; cbn; tauto]. apply incl_cons; [left; auto|]. apply incl_tl. apply FM. eapply Forall_impl; [|exact IH]; cbn; tauto.
  - intros c fs IH. cbn [subst_formula]. rewrite VF. cbn [f_preds f_funs]. split; apply FM; (eapply Forall_impl; [|exact IH]); cbn; tauto.
  - intros q vs f IHv [IH1 IH2]. cbn [subst_formula]. rewrite VF. cbn [f_preds f_funs]. split; (apply incl_app_app; [apply FM; eapply Forall_impl; [|exact IHv]; cbn; tauto|auto]).
Qed.

Section Within.
Variables (D : domains) (sub : sort -> sort -> bool) (U : sym -> Prop).
Hypothesis TD : typed_domains D sub.
Definition fin (f : formula) : Prop := (forall p, In p (f_preds f) -> U (SymP p)) /\ (forall g, In g (f_funs f) -> U (SymF g)).
Definition tin (t : term) : Prop := (forall p, In p (t_preds t) -> U (SymP p)) /\ (forall g, In g (t_funs t) -> U (SymF g)).
Definition reads_in (e : effect) : Prop := fin (econd e) /\ match e with EFun _ _ _ r => tin r | _ => True end.
Definition ein (e : effect) : Prop := forall e', sub_effect e' e -> reads_in e'.
Lemma fin_subst s f : constant_binding s -> fin f -> fin (subst_formula s f).
Proof. intros C [H1 H2]. destruct (proj2 (subst_symbols s C) f) as [S1 S2]. split; auto. Qed.
Lemma tin_subst s t : constant_binding s -> tin t -> tin (subst_term s t).
Proof. intros C [H1 H2]. destruct (proj1 (subst_symbols s C) t) as [S1 S2]. split; auto. Qed.
Lemma reads_subst s e e1 : constant_binding s -> subst_effect s e = Ok e1 -> reads_in e -> reads_in e1.
Proof.
  intros C H [R1 R2]. destruct e; cbn [subst_effect] in H; try (injection H as <-; cbn [econd reads_in] in *; split; [now apply fin_subst|auto]; now apply tin_subst); [|discriminate].
  destruct (mapM _ _); [|discriminate]. injection H as <-. split; [|exact I]. cbn [econd] in *. apply fin_subst; [auto|]. apply fin_subst; auto.
Qed.
Lemma ein_subst s : constant_binding s -> forall e e1, subst_effect s e = Ok e1 -> ein e -> ein e1.
Proof.
  intros C. induction e as [c a|c a|i c l r|c vs es IH|c l|c] using effect_ind_nested; intros e1 H Hin e' Hs; assert (Hr := reads_subst s _ _ C H (Hin _ (sub_self _))); cbn [subst_effect] in H; try (injection H as <-; inversion Hs; subst; exact Hr); [|discriminate].
  destruct (mapM _ es) as [es1|] eqn:E; [|discriminate]. cbn [bind] in H. injection H as <-. inversion Hs as [|? ? ? e0 ? He0 Hse]; subst; [exact Hr|]. apply mapM_ok_Forall2 in E. destruct (Forall2_In_r _ _ _ _ E He0) as (e2 & He2 & Hs2). rewrite Forall_forall in IH.
  apply (IH e2 He2 e0 Hs2); [|exact Hse]. intros e3 H3. apply Hin. eapply sub_uni; eauto.
Qed.
Lemma eval_in a b f : same_on U a b -> fin f -> eval_f a f = eval_f b f.
Proof. intros [S1 S2] [F1 F2]. apply eval_local; intros; [apply S1|apply S2]; auto. Qed.
Lemma evaluate_in a b t : same_on U a b -> tin t -> evaluate_t a t = evaluate_t b t.
Proof. intros [S1 S2] [F1 F2]. apply evaluate_local; intros; [apply S1|apply S2]; auto. Qed.
Lemma run_with_in f es :
  (forall e a b a', In e es -> proper a -> proper b -> same_on U a b -> f a e = Ok a' -> exists b', f b e = Ok b' /\ same_on U a' b' /\ proper a' /\ proper b') ->
  forall a b a', proper a -> proper b -> same_on U a b -> run_with f es a = Ok a' -> exists b', run_with f es b = Ok b' /\ same_on U a' b' /\ proper a' /\ proper b'.
Proof.
  induction es as [|e es IH]; intros Hf a b a' Pa Pb S H; [injection H as <-; exists b; auto|]. cbn [run_with] in *. destruct (f a e) as [a1|] eqn:E; [|discriminate]. cbn [bind] in H.
  destruct (Hf e a b a1) as (b1 & E1 & S1 & Pa1 & Pb1); cbn; auto. rewrite E1. cbn [bind]. apply (IH (fun e a b a' Hin => Hf e a b a' (or_intror Hin)) a1 b1 a'); auto.
Qed.
Lemma apply_in : forall n e a b a', ein e -> proper a -> proper b -> same_on U a b -> apply_effect_n D sub n a e = Ok a' -> exists b', apply_effect_n D sub n b e = Ok b' /\ same_on U a' b' /\ proper a' /\ proper b'.
Proof.
  induction n as [|n IHn]; intros e a b a' Hin Pa Pb S H; destruct (Hin e (sub_self e)) as [RC RR]; cbn [apply_effect_n] in *; rewrite <- (eval_in a b (econd e) S RC); (destruct (eval_f a (econd e)) as [[|]|]; [|injection H as <-; exists b; cbn; auto|discriminate]); cbn [bind negb] in *.
  all: destruct e as [c f|c f|i c l r|c vs es|c l|c]; try discriminate.
  all: try (destruct f as [| |p ts| |]; try discriminate).
  all: try (assert (W : exists b', m_add sub b p ts = Ok b') by (unfold m_add in *; destruct p; [discriminate|]; destruct (check_assignment sub sorts ts); [eexists; reflexivity|discriminate]);
            destruct W as [b' W]; destruct (add_spec sub a p ts a' H Pa) as (P1 & H1 & V1), (add_spec sub b p ts b' W Pb) as (P2 & H2 & V2); exists b'; split; [auto|]; split; [|auto];
            split; [intros; rewrite H1, H2; f_equal; now apply S|intros; rewrite V1, V2; now apply S]).
  all: try (injection H as <-; destruct (discard_spec a p ts Pa) as (P1 & H1 & V1), (discard_spec b p ts Pb) as (P2 & H2 & V2); eexists; split; [reflexivity|]; split; [|auto];
            split; [intros; rewrite H1, H2; f_equal; now apply S|intros; rewrite V1, V2; now apply S]).
  all: try (rewrite <- (evaluate_in a b r S RR); destruct (evaluate_t a r) as [v|]; [|discriminate]; cbn [bind] in *;
            assert (W : exists b', m_set sub b l v = Ok b') by (unfold m_set in *; destruct l; try discriminate; destruct f; [discriminate|]; destruct (forallb is_cst ts); [|discriminate]; destruct (check_assignment _ _ _); [eexists; reflexivity|discriminate]);
            destruct W as [b' W]; destruct (set_spec sub a l v a' H) as (g & pt & E & P1 & H1 & V1), (set_spec sub b l v b' W) as (g' & pt' & E' & P2 & H2 & V2); exists b'; split; [auto|]; split; [|auto];
            assert (g' = g /\ pt' = pt) as [-> ->] by (split; congruence); split; [intros; rewrite H1, H2; now apply S|intros; rewrite V1, V2; destruct (same_point _ _ _ _); [auto|now apply S]]).
  destruct (enumerate_substitutions D vs) as [ss|] eqn:Ess; [|discriminate]. cbn [bind] in *. assert (CB : forall s, In s ss -> constant_binding s) by (intros; eapply enumerated_constant; eauto). clear Ess.
  revert a b a' Pa Pb S H. induction ss as [|s ss IHs]; intros a b a' Pa Pb S H; [injection H as <-; exists b; auto|].
  destruct (run_with (fun m e => let! e' := subst_effect s e in apply_effect_n D sub n m e') es a) as [a1|] eqn:E; [|discriminate]. cbn [bind] in H.
  destruct (run_with_in (fun m e => let! e' := subst_effect s e in apply_effect_n D sub n m e') es) with (a := a) (b := b) (a' := a1) as (b1 & E1 & S1 & Pa1 & Pb1); auto.
  { intros e a0 b0 a0' He P0 P0' S0 H0. destruct (subst_effect s e) as [e'|] eqn:Es; [|discriminate]. cbn [bind] in *. apply (IHn e' a0 b0 a0'); auto. apply (ein_subst s (CB s (or_introl eq_refl)) e e' Es). intros e2 H2. apply Hin. eapply sub_uni; eauto. }
  rewrite E1. cbn [bind]. apply (IHs (fun x Hx => CB x (or_intror Hx)) a1 b1 a'); auto.
Qed.
Lemma progress_in effs a b a' : (forall e, In e effs -> ein e) -> proper a -> proper b -> same_on U a b -> progress D sub a effs = Ok a' -> exists b', progress D sub b effs = Ok b' /\ same_on U a' b' /\ proper a' /\ proper b'.
Proof.
  intros Hin Pa Pb S H. apply (run_with_in (apply_effect D sub) (filter is_del effs ++ filter (fun e => negb (is_del e)) effs)) with (a := a); auto. intros e a0 b0 a0' He P1 P2 S0 H0. apply (apply_in (edepth e) e a0 b0 a0'); auto.
  apply Hin. rewrite in_app_iff, !filter_In in He. tauto.
Qed.
Lemma fin_flatten f g : flatten f = Ok g -> fin f -> fin g.
Proof.
  assert (X : forall c f, incl (flat_map f_preds (flatten_aux c f)) (f_preds f) /\ incl (flat_map f_funs (flatten_aux c f)) (f_funs f)).
  { clear. intros c. induction f as [| |p ts|d fs IH|q vs f IH] using formula_ind_simple; try (cbn [flatten_aux flat_map]; rewrite !app_nil_r; split; apply incl_refl). cbn [flatten_aux]. destruct (conn_eqb d c); [|cbn [flat_map]; rewrite !app_nil_r; split; apply incl_refl]. cbn [f_preds f_funs].
    induction IH as [|g gs [H1 H2] _ [I1 I2]]; [split; apply incl_refl|]. cbn [flat_map]. rewrite !flat_map_app. split; apply incl_app_app; auto. }
  unfold flatten. destruct f as [| |p ts|[] fs|q vs f]; try (intros [= <-]; auto; fail); unfold compound; destruct (comp_arity_ok _ _); try discriminate; intros [= <-] [F1 F2].
  - destruct (X And (Comp And fs)) as [X1 X2]. split; [intros p Hp; apply F1, X1; exact Hp|intros h Hp; apply F2, X2; exact Hp].
  - destruct (X Or (Comp Or fs)) as [X1 X2]. split; [intros p Hp; apply F1, X1; exact Hp|intros h Hp; apply F2, X2; exact Hp].
Qed.
Lemma ground_in a s pre effs : constant_binding s -> ground_schema a s = Ok (pre, effs) -> fin (a_pre a) -> (forall e, In e (a_effs a) -> ein e) -> fin pre /\ forall e, In e effs -> ein e.
Proof.
  intros C G HP HE. unfold ground_schema in G. destruct (forallb _ _); [|discriminate]. destruct (mapM _ _) as [l|] eqn:El; [|discriminate]. cbn [bind] in G. destruct (flatten _) as [g|] eqn:Ef; [|discriminate]. cbn [bind] in G. injection G as <- <-. split.
  - eapply fin_flatten; [eauto|]. now apply fin_subst.
  - intros e He. apply mapM_ok_Forall2 in El. destruct (Forall2_In_r _ _ _ _ El He) as (e0 & H0 & H1). eapply (ein_subst s C e0 e H1). auto.
Qed.
End Within.

(** * Symbols collected by the code *)
Lemma symbols_spec : (forall t, (forall p, In p (t_preds t) -> In (SymP p) (symbols_t t)) /\ (forall g, In g (t_funs t) -> In (SymF g) (symbols_t t))) /\
                     (forall f, (forall p, In p (f_preds f) -> In (SymP p) (symbols_f f)) /\ (forall g, In g (f_funs f) -> In (SymF g) (symbols_f f))).
Proof.
  assert (FM : forall {A} (k1 : A -> list psym) (k2 : A -> list fsym) (k : A -> list sym) l, Forall (fun x => (forall p, In p (k1 x) -> In (SymP p) (k x)) /\ (forall g, In g (k2 x) -> In (SymF g) (k x))) l ->
     (forall p, In p (flat_map k1 l) -> In (SymP p) (flat_map k l)) /\ (forall g, In g (flat_map k2 l) -> In (SymF g) (flat_map k l))).
  { intros A k1 k2 k l F. rewrite Forall_forall in F. split; intros x; rewrite !in_flat_map; intros (y & Hy & Hx); exists y; split; auto; apply (F y Hy); exact Hx. }
  apply syntax_ind; cbn [t_preds t_funs f_preds f_funs symbols_t symbols_f]; try (split; intros ? []; fail).
  - intros f ts IH. destruct (FM _ _ _ _ _ IH) as [H1 H2]. split; intros x Hx; rewrite in_app_iff; [auto|]. destruct Hx as [->|Hx]; [right; left; auto|auto].
  - intros c a b [C1 C2] [A1 A2] [B1 B2]. split; intros x; rewrite !in_app_iff; intros [H|[H|H]]; auto.
  - intros p ts IH. destruct (FM _ _ _ _ _ IH) as [H1 H2]. split; intros x Hx; rewrite in_app_iff; [|auto]. destruct Hx as [->|Hx]; [right; left; auto|auto].
  - intros c fs IH. exact (FM _ _ _ _ _ IH).
  - intros q vs f IH [F1 F2]. destruct (FM _ _ _ _ _ IH) as [H1 H2]. split; intros x; rewrite !in_app_iff; intros [H|H]; auto.
Qed.
Lemma symbols_fin (U : sym -> Prop) f : (forall s, In s (symbols_f f) -> U s) -> fin U f.
Proof. intros H. destruct (proj2 symbols_spec f) as [H1 H2]. split; auto. Qed.
Lemma symbols_tin (U : sym -> Prop) t : (forall s, In s (symbols_t t) -> U s) -> tin U t.
Proof. intros H. destruct (proj1 symbols_spec t) as [H1 H2]. split; auto. Qed.
Fixpoint top_universal (e : effect) : bool := match e with EUni c _ es => (match c with Top => true | _ => false end) && forallb top_universal es | _ => true end.
Lemma symbols_ein (U : sym -> Prop) : forall e l, symbols_e e = Ok l -> top_universal e = true -> (forall s, In s l -> U s) -> ein U e.
Proof.
  induction e as [c a|c a|i c l r|c vs es IH|c l|c] using effect_ind_nested; intros k H T HU e' Hs; cbn [symbols_e] in H; try discriminate.
  - injection H as <-. inversion Hs; subst. split; [|exact I]. apply symbols_fin. intros; apply HU; rewrite in_app_iff; auto.
  - injection H as <-. inversion Hs; subst. split; [|exact I]. apply symbols_fin. intros; apply HU; rewrite in_app_iff; auto.
  - injection H as <-. inversion Hs; subst. split; [apply symbols_fin|apply symbols_tin]; intros; apply HU; rewrite !in_app_iff; auto.
  - destruct (mapM symbols_e es) as [ls|] eqn:E; [|discriminate]. cbn [bind] in H. injection H as <-. cbn [top_universal] in T. apply andb_true_iff in T as [T1 T2]. destruct c; try discriminate. inversion Hs as [|? ? ? e0 ? He0 Hse]; subst; [split; [|exact I]; split; intros ? []|].
    apply mapM_ok_Forall2 in E. destruct (Forall2_In_l _ _ _ _ E He0) as (l0 & Hl0 & El0). rewrite Forall_forall in IH. rewrite forallb_forall in T2. apply (IH e0 He0 l0 El0 (T2 e0 He0)); [|exact Hse]. intros s Hin. apply HU. rewrite in_concat. eauto.
Qed.
Lemma collect_in (U : sym -> Prop) acts goal used : collect_all_symbols acts goal = Ok used -> (forall a e, In a acts -> In e (a_effs a) -> top_universal e = true) -> (forall s, sym_builtin s = true \/ In s used -> U s) ->
  fin U goal /\ forall a, In a acts -> fin U (a_pre a) /\ forall e, In e (a_effs a) -> ein U e.
Proof.
  intros H T HU. unfold collect_all_symbols in H. destruct (mapM symbols_a acts) as [ls|] eqn:E; [|discriminate]. cbn [bind] in H. injection H as <-.
  assert (W : forall s, In s (symbols_f goal ++ List.concat ls)%list -> U s) by (intros s Hs; apply HU; destruct (sym_builtin s) eqn:B; [auto|]; right; apply filter_In; rewrite B; auto). clear HU. split; [apply symbols_fin; intros; apply W; rewrite in_app_iff; auto|].
  intros a Ha. apply mapM_ok_Forall2 in E. destruct (Forall2_In_l _ _ _ _ E Ha) as (l & Hl & El). unfold symbols_a in El. destruct (mapM symbols_e (a_effs a)) as [le|] eqn:Ee; [|discriminate]. cbn [bind] in El. injection El as <-.
  assert (W' : forall s, In s (symbols_f (a_pre a) ++ List.concat le)%list -> U s) by (intros s Hs; apply W; rewrite in_app_iff; right; apply in_concat; eauto). split; [apply symbols_fin; intros; apply W'; rewrite in_app_iff; auto|].
  intros e He. apply mapM_ok_Forall2 in Ee. destruct (Forall2_In_l _ _ _ _ Ee He) as (l0 & Hl0 & El0). apply (symbols_ein U e l0 El0 (T a e Ha He)). intros s Hs. apply W'. rewrite in_app_iff. right. apply in_concat. eauto.
Qed.
Lemma simplify_top_universal mo statics : forall e oe, simplify_effect mo statics e = Ok (Some oe) -> regular_effect e = true -> top_universal oe = true.
Proof.
  induction e as [c a|c a|i c l r|c vs es IH|c l|c] using effect_ind_nested; intros oe H R; cbn [simplify_effect] in H; try discriminate.
  - destruct (simplify_expression mo statics c); [|discriminate]. cbn [bind] in H. destruct (simplify_expression mo statics a); cbn [bind] in H; destruct (bool_to_expr _); try discriminate; injection H as <-; reflexivity.
  - destruct (simplify_expression mo statics c); [|discriminate]. cbn [bind] in H. destruct (simplify_expression mo statics a); cbn [bind] in H; destruct (bool_to_expr _); try discriminate; injection H as <-; reflexivity.
  - destruct (simplify_expression mo statics c); [|discriminate]. cbn [bind] in H. destruct (simplify_term mo statics l); cbn [bind] in H; [destruct (simplify_term mo statics r); cbn [bind] in H|]; destruct (bool_to_expr _); try discriminate; injection H as <-; reflexivity.
  - destruct (mapM _ es) as [oes|] eqn:E; [|discriminate]. cbn [bind] in H. injection H as <-. cbn [regular_effect top_universal] in *. apply andb_true_iff in R as [R1 R2]. rewrite R1. cbn [andb]. rewrite forallb_forall in *. intros x Hx. unfold filter_some in Hx. rewrite in_flat_map in Hx. destruct Hx as ([y|] & Hy & Hx); [|destruct Hx]. destruct Hx as [<-|[]].
    apply mapM_ok_Forall2 in E. destruct (Forall2_In_r _ _ _ _ E Hy) as (e0 & H0 & H1). rewrite Forall_forall in IH. apply (IH e0 H0 y H1). auto.
Qed.

(** * Removal of symbols from a state *)
Lemma dget_ddel_other {V} (d : list (signature * V)) k k' : k <> k' -> dget sig_eqb (ddel sig_eqb d k) k' = dget sig_eqb d k'.
Proof.
  intros N. induction d as [|[a w] d IH]; cbn [ddel dget]; [reflexivity|]. destruct (sig_eqb a k) eqn:E.
  - apply sig_eqb_eq in E. subst a. destruct (sig_eqb k k') eqn:E'; [apply sig_eqb_eq in E'; contradiction|reflexivity].
  - cbn [dget]. rewrite IH. reflexivity.
Qed.
Lemma removed_same unused m : proper m -> let m' := fold_left (fun m s => remove_signature m (sym_sig s)) unused m in proper m' /\ same_on (fun s => forall r, In r unused -> sym_sig r <> sym_sig s) m m'.
Proof.
  revert m. induction unused as [|s l IH]; intros m Hp; cbn [fold_left]; [split; [auto|]; split; auto|]. assert (Hp1 : proper (remove_signature m (sym_sig s))).
  { unfold remove_signature. destruct (dget sig_eqb (funs m) (sym_sig s)); [exact Hp|]. destruct (dget sig_eqb (preds m) (sym_sig s)); [|exact Hp]. intros r ext Hin. cbn [preds] in Hin. apply ddel_entries in Hin. eapply Hp; eauto. }
  destruct (IH _ Hp1) as [Hp2 [S1 S2]]. split; [exact Hp2|]. split.
  - intros p pt Hn. rewrite <- S1 by (intros r Hr; apply Hn; right; auto). specialize (Hn s (or_introl eq_refl)). cbn [sym_sig] in Hn. unfold remove_signature, m_holds. destruct (dget sig_eqb (funs m) (sym_sig s)); [reflexivity|]. destruct (dget sig_eqb (preds m) (sym_sig s)); [|reflexivity]. cbn [preds]. now rewrite dget_ddel_other.
  - intros f pt Hn. rewrite <- S2 by (intros r Hr; apply Hn; right; auto). specialize (Hn s (or_introl eq_refl)). cbn [sym_sig] in Hn. unfold remove_signature, m_value. destruct (dget sig_eqb (funs m) (sym_sig s)); [cbn [funs]; now rewrite dget_ddel_other|]. destruct (dget sig_eqb (preds m) (sym_sig s)); reflexivity.
Qed.
(** * Parameters *)
Lemma param_vars_In a v : In v (param_vars a) -> In (Var (fst v) (snd v)) (a_params a).
Proof.
  unfold param_vars, vb_vars, vb_make. cbn [vb_variables]. intros H. apply in_map_iff in H as ([k w] & <- & H). cbn [snd] in *.
  assert (G : forall vs d, In (k, w) (fold_left (fun d v => dset String.eqb d (fst v) v) vs d) -> In w vs \/ In (k, w) d).
  { induction vs as [|u vs IH]; intros d Hin; cbn [fold_left] in Hin; [auto|]. destruct (IH _ Hin) as [Hw|Hw]; [left; right; auto|]. apply dset_entries in Hw as [->|Hw]; [left; left; auto|auto]. }
  destruct (G _ _ H) as [Hw|[]]. clear - Hw. unfold vars_of in Hw. rewrite in_flat_map in Hw. destruct Hw as (t & Ht & Hw). destruct t; cbn in Hw; try tauto. destruct Hw as [<-|[]]. exact Ht.
Qed.
Lemma no_groundings D ss : number_of_groundings D ss = Ok 0 -> exists s, In s ss /\ D s = Some [].
Proof.
  unfold number_of_groundings. destruct (mapM (sort_domain D) ss) as [doms|] eqn:E; [|discriminate]. cbn [bind]. intros [= H]. apply mapM_ok_Forall2 in E.
  assert (G : forall doms k, k <> 0 -> fold_left Nat.mul (map (@List.length term) doms) k = 0 -> In [] doms).
  { clear. induction doms as [|d doms IH]; intros k Hk H; [contradiction|]. cbn [map fold_left] in H. destruct d as [|x d]; [left; auto|]. right. apply (IH (k * List.length (x :: d))); [|exact H]. cbn [List.length]. lia. }
  assert (Hin := G doms 1 ltac:(lia) H). destruct (Forall2_In_r _ _ _ _ E Hin) as (s & Hs & Es). exists s. split; [auto|]. unfold sort_domain in Es. destruct (D s) as [cs|]; [congruence|discriminate].
Qed.
