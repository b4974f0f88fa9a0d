(** Correctness of effect and action simplification *)
From Verif Require Import ListUtil Base Syntax Semantics SemLemmas Build NnfProofs BuildProofs ModelState ModelProofs Eval EvalSpec EvalProofs Subst SubstProofs QElim QElimProofs Effects ProgressSpec StateLemmas ProgressProofs SearchModelProofs NegBuiltinProofs PropsProgress Represent RelaxSpec PropsRelax Grounding GroundingSpec PropsGrounding Simplify SimplifySpec SimplifyProofs.

(** Sequences of parameter bindings *)
Definition inst (ss : list subst) (t : term) : term := fold_left (fun t s => subst_term s t) ss t.
Definition instf (ss : list subst) (f : formula) : formula := fold_left (fun f s => subst_formula s f) ss f.
Definition inste (ss : list subst) (e : effect) : res effect := fold_left (fun r s => let! x := r in subst_effect s x) ss (Ok e).
Definition bindings (ss : list subst) : Prop := Forall parameter_binding ss.
Lemma binding_formula s f : parameter_binding s -> visit_f s f = f.
Proof. intros [H _]. unfold visit_f. now rewrite H. Qed.
Lemma binding_visit s t : parameter_binding s -> (forall x r, t <> Var x r) -> visit_t s t = t.
Proof. intros H N. unfold visit_t. destruct (get_t (sub_t s) t) eqn:E; [|auto]. destruct (binding_get s t t0 H E) as (x & r & ->). exfalso. eapply N; eauto. Qed.
Lemma inst_cst ss c s : bindings ss -> inst ss (Cst c s) = Cst c s.
Proof. induction 1 as [|x l Hx _ IH]; [reflexivity|]. cbn [inst fold_left subst_term]. rewrite binding_visit by (auto; discriminate). exact IH. Qed.
Lemma inst_app ss f : bindings ss -> forall ts, inst ss (App f ts) = App f (map (inst ss) ts).
Proof. induction 1 as [|x l Hx _ IH]; intros ts; [cbn; now rewrite map_id|]. cbn [inst fold_left]. rewrite binding_app by auto. fold (inst l (App f (map (subst_term x) ts))). rewrite IH, map_map. reflexivity. Qed.
Lemma instf_top ss : bindings ss -> instf ss Top = Top.
Proof. induction 1 as [|x l Hx _ IH]; [reflexivity|]. cbn [instf fold_left subst_formula]. rewrite binding_formula by auto. exact IH. Qed.
Lemma instf_bot ss : bindings ss -> instf ss Bot = Bot.
Proof. induction 1 as [|x l Hx _ IH]; [reflexivity|]. cbn [instf fold_left subst_formula]. rewrite binding_formula by auto. exact IH. Qed.
Lemma instf_atom ss p : bindings ss -> forall ts, instf ss (Atom p ts) = Atom p (map (inst ss) ts).
Proof. induction 1 as [|x l Hx _ IH]; intros ts; [cbn; now rewrite map_id|]. cbn [instf fold_left subst_formula]. rewrite binding_formula by auto. fold (instf l (Atom p (map (subst_term x) ts))). rewrite IH, map_map. reflexivity. Qed.
Lemma instf_comp ss c : bindings ss -> forall fs, instf ss (Comp c fs) = Comp c (map (instf ss) fs).
Proof. induction 1 as [|x l Hx _ IH]; intros fs; [cbn; now rewrite map_id|]. cbn [instf fold_left subst_formula]. rewrite binding_formula by auto. fold (instf l (Comp c (map (subst_formula x) fs))). rewrite IH, map_map. reflexivity. Qed.
Lemma instf_quant ss q : bindings ss -> forall vs f, exists vs' f', instf ss (Quant q vs f) = Quant q vs' f'.
Proof. induction 1 as [|x l Hx _ IH]; intros vs f; [cbn; eauto|]. cbn [instf fold_left subst_formula]. rewrite binding_formula by auto. apply IH. Qed.
Lemma inste_err ss x : fold_left (fun r s => let! e := r in subst_effect s e) ss (Err x) = Err x.
Proof. induction ss as [|s ss IH]; [reflexivity|]. exact IH. Qed.
Lemma inste_add ss c a : inste ss (EAdd c a) = Ok (EAdd (instf ss c) (instf ss a)).
Proof. revert c a. induction ss as [|s ss IH]; intros c a; [reflexivity|]. exact (IH (subst_formula s c) (subst_formula s a)). Qed.
Lemma inste_del ss c a : inste ss (EDel c a) = Ok (EDel (instf ss c) (instf ss a)).
Proof. revert c a. induction ss as [|s ss IH]; intros c a; [reflexivity|]. exact (IH (subst_formula s c) (subst_formula s a)). Qed.
Lemma inste_fun ss i c l r : inste ss (EFun i c l r) = Ok (EFun i (instf ss c) (inst ss l) (inst ss r)).
Proof. revert c l r. induction ss as [|s ss IH]; intros c l r; [reflexivity|]. exact (IH (subst_formula s c) (subst_term s l) (subst_term s r)). Qed.
Definition instu (ss : list subst) (c : formula) : formula := fold_left (fun f s => subst_formula s (subst_formula s f)) ss c.
Definition instv (ss : list subst) (vs : list term) : list term := fold_left (fun vs s => filter (fun v => negb (in_subst s v)) vs) ss vs.
Lemma inste_uni ss : forall c vs es e', inste ss (EUni c vs es) = Ok e' <-> exists es', Forall2 (fun e e' => inste ss e = Ok e') es es' /\ e' = EUni (instu ss c) (instv ss vs) es'.
Proof.
  induction ss as [|s ss IH]; intros c vs es e'; cbn [inste instu instv fold_left].
  - split.
    + intros [= <-]. exists es. split; [|reflexivity]. clear. induction es; constructor; auto.
    + intros (es' & F & ->). do 2 f_equal. clear - F. induction F as [|? ? ? ? E _ IH]; [auto|]. injection E as <-. f_equal. exact IH.
  - cbn [subst_effect bind]. destruct (mapM (subst_effect s) es) as [es1|x] eqn:E; cbn [bind].
    + fold (inste ss (EUni (subst_formula s (subst_formula s c)) (filter (fun v => negb (in_subst s v)) vs) es1)). rewrite IH. apply mapM_ok_Forall2 in E. split; intros (es' & F & ->); exists es'; (split; [|reflexivity]).
      * clear - F E. revert es' F. induction E as [|a b es es1 Hab _ IH]; intros es' F; inversion F; subst; constructor; [cbn [bind]; rewrite Hab; auto|apply IH; auto].
      * clear - F E. revert es' F. induction E as [|a b es es1 Hab _ IH]; intros es' F; inversion F; subst; constructor; [cbn [bind] in *; rewrite Hab in *; auto|apply IH; auto].
    + rewrite inste_err. split; [discriminate|]. intros (es' & F & _). exfalso. clear - E F. apply SemLemmas.mapM_err in E as (a & Ha & Ea). destruct (Forall2_In_l _ _ _ _ F Ha) as (y & _ & Hy). cbn [bind] in Hy. rewrite Ea, inste_err in Hy. discriminate.
Qed.
Lemma inste_snoc ss s e e' : inste ss e = Ok e' -> inste (ss ++ [s]) e = subst_effect s e'.
Proof. intros H. unfold inste in *. rewrite fold_left_app, H. reflexivity. Qed.

(** Effects that are not universal *)
Definition single_body (sub : sort -> sort -> bool) (m : model) (e : effect) : res model :=
  match e with EAdd _ (Atom p ts) => m_add sub m p ts | EDel _ (Atom p ts) => Ok (m_discard m p ts) | EFun _ _ l r => let! v := evaluate_t m r in m_set sub m l v | _ => Err RuntimeError end.
Lemma apply_single D sub n m e m1 : is_single e = true -> apply_effect_n D sub n m e = Ok m1 <-> (let! b := eval_f m (econd e) in if negb b then Ok m else single_body sub m e) = Ok m1.
Proof.
  intros S. destruct n, e as [c [| |p ts| |]|c [| |p ts| |]|i c l r|c vs es|c l|c]; try discriminate; cbn [apply_effect_n econd single_body] in *; destruct (eval_f m c) as [[]|]; cbn [bind negb]; split; try discriminate; auto.
Qed.

Section Effects.
Variables (D : domains) (sub : sort -> sort -> bool) (mo : option model) (statics : option (list sym)).
Definition reliable (m : model) : Prop := forall m0, mo = Some m0 -> constant_valued m0 /\ same_on (fun s => evaluable_symbol statics s = true /\ sym_builtin s = false) m0 m.
Definition harmless (e : effect) : Prop := plain_effect e = true /\ forall s, written e s -> sym_builtin s = true \/ evaluable_symbol statics s = false.
Lemma reliable_keeps (W : sym -> Prop) m m' : (forall s, W s -> sym_builtin s = true \/ evaluable_symbol statics s = false) -> keeps W m m' -> reliable m -> reliable m'.
Proof.
  intros HW (_ & K1 & K2) R m0 E. destruct (R m0 E) as [C [R1 R2]]. split; [auto|]. split; [intros p pt H; rewrite K1; [auto|]|intros f pt H; rewrite K2; [auto|]]; intros w; destruct H as [H1 H2]; destruct (HW _ w); congruence.
Qed.
Lemma harmless_inst ss e e' : bindings ss -> harmless e -> inste ss e = Ok e' -> harmless e'.
Proof.
  intros Hb. revert e. induction Hb as [|s ss Hs _ IH]; intros e [P W] H; [injection H as <-; split; auto|]. cbn [inste fold_left bind] in H. destruct (subst_effect s e) as [e1|] eqn:E; [|rewrite inste_err in H; discriminate].
  apply (IH e1); [|exact H]. destruct (binding_written s Hs e e1 (SymP (PB PEq)) P E) as [P1 _]. split; [exact P1|]. intros x Hx. apply W. apply (binding_written s Hs e e1 x P E). exact Hx.
Qed.
Lemma apply_reliable n m e m1 : harmless e -> proper m -> reliable m -> apply_effect_n D sub n m e = Ok m1 -> proper m1 /\ reliable m1.
Proof. intros [P W] Hp R H. assert (K := apply_keeps D sub n m e m1 P Hp H). split; [apply K|]. eapply reliable_keeps; eauto. Qed.

(** [e'] does what [e] does ([None]: nothing), whenever [e] raises no exception *)
Definition simulates (n : nat) (e : effect) (oe : option effect) : Prop :=
  forall m m1, proper m -> reliable m -> apply_effect_n D sub n m e = Ok m1 -> match oe with None => m1 = m | Some e' => apply_effect_n D sub n m e' = Ok m1 end.

Lemma set_cst m f ts v m1 : m_set sub m (App f ts) v = Ok m1 -> (exists n d c, f = FU n d c) /\ forallb is_cst ts = true.
Proof. cbn [m_set]. destruct f; [discriminate|]. destruct (forallb is_cst ts); [|discriminate]. eauto. Qed.
Lemma add_cst m p ts m1 : m_add sub m p ts = Ok m1 -> (exists n ss, p = PU n ss) /\ forallb is_cst ts = true.
Proof.
  unfold m_add. destruct p as [|n ss]; [discriminate|]. destruct (check_assignment sub ss ts) as [u|] eqn:E; [|discriminate]. intros _. split; [eauto|]. unfold check_assignment in E. destruct (Nat.eqb _ _) eqn:El; [|discriminate]. apply Nat.eqb_eq in El.
  revert ss El E. induction ts as [|t ts IH]; intros [|s ss] El E; try discriminate; [reflexivity|]. cbn in El, E. destruct t as [|c r| |]; try discriminate. cbn [sort_of] in E. destruct (sub r s); [|discriminate]. cbn [forallb is_cst andb]. apply (IH ss); [lia|exact E].
Qed.
Lemma args_fixed ss ts ts' : bindings ss -> mapM (simplify_term mo statics) ts = Ok ts' -> forallb is_cst (map (inst ss) ts) = true -> ts' = ts.
Proof.
  intros Hb E. apply mapM_ok_Forall2 in E. induction E as [|t t' ts ts' Ht _ IH]; [auto|]. cbn [map forallb]. intros H. apply andb_true_iff in H as [H1 H2]. rewrite IH by auto. f_equal. destruct t; cbn [simplify_term] in Ht; try congruence.
  rewrite inst_app in H1 by auto. discriminate.
Qed.
Lemma simple_fixed ts ts' : mapM (simplify_term mo statics) ts = Ok ts' -> forallb simple_term ts = true -> ts' = ts.
Proof.
  intros E. apply mapM_ok_Forall2 in E. induction E as [|t t' ts ts' Ht _ IH]; [auto|]. cbn [forallb]. intros H. apply andb_true_iff in H as [H1 H2]. rewrite IH by auto. f_equal. destruct t; cbn [simplify_term] in Ht; try congruence; discriminate.
Qed.
Lemma not_evaluable e s : harmless e -> written e s -> sym_builtin s = false -> evaluable_symbol statics s = false.
Proof. intros [_ H] W B. destruct (H s W); [congruence|auto]. Qed.
Lemma atom_kept p ts r : evaluable_symbol statics (SymP p) = false -> simplify_expression mo statics (Atom p ts) = Ok r -> exists ts', mapM (simplify_term mo statics) ts = Ok ts' /\ r = OForm (Atom p ts').
Proof. intros N H. cbn [simplify_expression] in H. destruct (mapM _ ts) as [ts'|]; [|discriminate]. cbn [bind] in H. rewrite N in H. exists ts'. split; [auto|]. destruct mo; injection H as <-; auto. Qed.
Lemma app_kept f ts t : evaluable_symbol statics (SymF f) = false -> simplify_term mo statics (App f ts) = Ok t -> exists ts', mapM (simplify_term mo statics) ts = Ok ts' /\ t = App f ts'.
Proof. intros N H. cbn [simplify_term] in H. destruct (mapM _ ts) as [ts'|]; [|discriminate]. cbn [bind] in H. rewrite N in H. exists ts'. split; [auto|]. destruct mo; injection H as <-; auto. Qed.

Lemma inst_eval ss m : bindings ss -> reliable m -> forall f r, simplify_expression mo statics f = Ok r -> forall b, eval_f m (instf ss f) = Ok b -> eval_f m (instf ss (bool_to_expr r)) = Ok b.
Proof.
  intros Hb R. apply (simplify_eval mo statics m R (inst ss) (instf ss)); [intros; now apply inst_cst|intros; now apply inst_app|now apply instf_top|now apply instf_bot|intros; now apply instf_atom|intros; now apply instf_comp|intros; now apply instf_quant].
Qed.
Lemma inst_eval_t ss m : bindings ss -> reliable m -> forall t t', simplify_term mo statics t = Ok t' -> forall v, evaluate_t m (inst ss t) = Ok v -> evaluate_t m (inst ss t') = Ok v.
Proof.
  intros Hb R. apply (simplify_term_eval mo statics m R (inst ss)); [intros; now apply inst_cst|intros; now apply inst_app].
Qed.

Lemma filter_some_cons {A} (x : option A) l : filter_some (x :: l) = match x with Some a => a :: filter_some l | None => filter_some l end.
Proof. destruct x; reflexivity. Qed.

Theorem simplify_effect_sim : forall e oe, simplify_effect mo statics e = Ok oe -> regular_effect e = true -> harmless e -> forall ss es, bindings ss -> inste ss e = Ok es ->
  match oe with
  | None => forall n, simulates n es None
  | Some e' => is_del e' = is_del e /\ exists es', inste ss e' = Ok es' /\ edepth es' <= edepth es /\ forall n, simulates n es (Some es')
  end.
Proof.
  induction e as [c a|c a|i c l r|c vs es IH|c l|c] using effect_ind_nested; intros oe H Rg Hh ss e1 Hb He1; cbn [simplify_effect] in H.
  - rewrite inste_add in He1. injection He1 as <-. destruct (simplify_expression mo statics c) as [rc|] eqn:Ec; [|discriminate]. cbn [bind] in H. assert (BB : bool_to_expr rc = Bot \/ (let! a' := simplify_expression mo statics a in Ok (Some (EAdd (bool_to_expr rc) (bool_to_expr a')))) = Ok oe) by (destruct (bool_to_expr rc); auto). destruct BB as [B|B].
    + rewrite B in H. injection H as <-. intros n m m1 Hp R Ha. apply apply_single in Ha; [|reflexivity]. cbn [econd] in Ha. destruct (eval_f m (instf ss c)) as [b|] eqn:Eb; [|discriminate]. assert (X := inst_eval ss m Hb R c rc Ec b Eb). rewrite B, instf_bot in X by auto. injection X as <-. cbn in Ha. congruence.
    + clear H. rename B into H. destruct (simplify_expression mo statics a) as [ra|] eqn:Ea; [|discriminate]. cbn [bind] in H. injection H as <-. split; [reflexivity|]. exists (EAdd (instf ss (bool_to_expr rc)) (instf ss (bool_to_expr ra))). rewrite inste_add. split; [reflexivity|]. split; [reflexivity|].
      intros n m m1 Hp R Ha. apply apply_single in Ha; [|reflexivity]. apply apply_single; [reflexivity|]. cbn [econd] in *. destruct (eval_f m (instf ss c)) as [b|] eqn:Eb; [|discriminate]. rewrite (inst_eval ss m Hb R c rc Ec b Eb). cbn [bind] in *. destruct b; [|exact Ha]. cbn [negb] in *.
      assert (P : plain_effect (EAdd c a) = true) by apply Hh. destruct a as [| |p ts| |]; try discriminate. rewrite instf_atom in Ha by auto. cbn [single_body] in Ha. destruct (add_cst _ _ _ _ Ha) as [(pn & pss & ->) Hc].
      assert (N : evaluable_symbol statics (SymP (PU pn pss)) = false) by (apply (not_evaluable _ _ Hh); [apply written_single; [reflexivity|]; cbn; eauto|reflexivity]).
      destruct (atom_kept _ _ _ N Ea) as (ts' & Ets & ->). assert (ts' = ts) by (eapply args_fixed; eauto). subst ts'. cbn [bool_to_expr]. rewrite instf_atom by auto. exact Ha.
  - rewrite inste_del in He1. injection He1 as <-. destruct (simplify_expression mo statics c) as [rc|] eqn:Ec; [|discriminate]. cbn [bind] in H. assert (BB : bool_to_expr rc = Bot \/ (let! a' := simplify_expression mo statics a in Ok (Some (EDel (bool_to_expr rc) (bool_to_expr a')))) = Ok oe) by (destruct (bool_to_expr rc); auto). destruct BB as [B|B].
    + rewrite B in H. injection H as <-. intros n m m1 Hp R Ha. apply apply_single in Ha; [|reflexivity]. cbn [econd] in Ha. destruct (eval_f m (instf ss c)) as [b|] eqn:Eb; [|discriminate]. assert (X := inst_eval ss m Hb R c rc Ec b Eb). rewrite B, instf_bot in X by auto. injection X as <-. cbn in Ha. congruence.
    + clear H. rename B into H. destruct (simplify_expression mo statics a) as [ra|] eqn:Ea; [|discriminate]. cbn [bind] in H. injection H as <-. split; [reflexivity|]. exists (EDel (instf ss (bool_to_expr rc)) (instf ss (bool_to_expr ra))). rewrite inste_del. split; [reflexivity|]. split; [reflexivity|].
      intros n m m1 Hp R Ha. apply apply_single in Ha; [|reflexivity]. apply apply_single; [reflexivity|]. cbn [econd] in *. destruct (eval_f m (instf ss c)) as [b|] eqn:Eb; [|discriminate]. rewrite (inst_eval ss m Hb R c rc Ec b Eb). cbn [bind] in *. destruct b; [|exact Ha]. cbn [negb] in *.
      cbn [regular_effect] in Rg. destruct a as [| |[|pn pss] ts| |]; try discriminate.
      assert (N : evaluable_symbol statics (SymP (PU pn pss)) = false) by (apply (not_evaluable _ _ Hh); [apply written_single; [reflexivity|]; cbn; eauto|reflexivity]).
      destruct (atom_kept _ _ _ N Ea) as (ts' & Ets & ->). assert (ts' = ts) by (eapply simple_fixed; eauto). subst ts'. exact Ha.
  - rewrite inste_fun in He1. injection He1 as <-. destruct (simplify_expression mo statics c) as [rc|] eqn:Ec; [|discriminate]. cbn [bind] in H. assert (BB : bool_to_expr rc = Bot \/ (let! l' := simplify_term mo statics l in let! r' := simplify_term mo statics r in Ok (Some (EFun i (bool_to_expr rc) l' r'))) = Ok oe) by (destruct (bool_to_expr rc); auto). destruct BB as [B|B].
    + rewrite B in H. injection H as <-. intros n m m1 Hp R Ha. apply apply_single in Ha; [|reflexivity]. cbn [econd] in Ha. destruct (eval_f m (instf ss c)) as [b|] eqn:Eb; [|discriminate]. assert (X := inst_eval ss m Hb R c rc Ec b Eb). rewrite B, instf_bot in X by auto. injection X as <-. cbn in Ha. congruence.
    + clear H. rename B into H. destruct (simplify_term mo statics l) as [l'|] eqn:El; [|discriminate]. cbn [bind] in H. destruct (simplify_term mo statics r) as [r'|] eqn:Er; [|discriminate]. cbn [bind] in H. injection H as <-. split; [reflexivity|]. exists (EFun i (instf ss (bool_to_expr rc)) (inst ss l') (inst ss r')). rewrite inste_fun. split; [reflexivity|]. split; [reflexivity|].
      intros n m m1 Hp R Ha. apply apply_single in Ha; [|reflexivity]. apply apply_single; [reflexivity|]. cbn [econd] in *. destruct (eval_f m (instf ss c)) as [b|] eqn:Eb; [|discriminate]. rewrite (inst_eval ss m Hb R c rc Ec b Eb). cbn [bind] in *. destruct b; [|exact Ha]. cbn [negb single_body] in *.
      destruct (evaluate_t m (inst ss r)) as [v|] eqn:Ev; [|discriminate]. rewrite (inst_eval_t ss m Hb R r r' Er v Ev). cbn [bind] in *. assert (P : plain_effect (EFun i c l r) = true) by apply Hh. destruct l as [| |f ts|]; try discriminate. rewrite inst_app in Ha by auto. destruct (set_cst _ _ _ _ _ Ha) as [(fn & fd & fc & ->) Hc].
      assert (N : evaluable_symbol statics (SymF (FU fn fd fc)) = false) by (apply (not_evaluable _ _ Hh); [apply written_single; [reflexivity|]; cbn; eauto|reflexivity]).
      destruct (app_kept _ _ _ N El) as (ts' & Ets & ->). assert (ts' = ts) by (eapply args_fixed; eauto). subst ts'. rewrite inst_app by auto. exact Ha.
  - destruct (mapM (simplify_effect mo statics) es) as [oes|] eqn:Eo; [|discriminate]. cbn [bind] in H. injection H as <-. split; [reflexivity|]. apply inste_uni in He1 as (es1 & F1 & ->). apply mapM_ok_Forall2 in Eo.
    cbn [regular_effect] in Rg. apply andb_true_iff in Rg as [_ Rg]. destruct Hh as [P W]. cbn [plain_effect] in P. rewrite forallb_forall in P, Rg. assert (HH : forall e, In e es -> harmless e) by (intros e He; split; [auto|]; intros s Hs; apply W; apply written_uni; eauto). clear P W.
    assert (Q : exists es', Forall2 (fun e e' => inste ss e = Ok e') (filter_some oes) es' /\ fold_right (fun e n => Nat.max (edepth e) n) 0 es' <= fold_right (fun e n => Nat.max (edepth e) n) 0 es1 /\
              forall n s, parameter_binding s -> forall m m1, proper m -> reliable m -> run_with (fun m e => let! e' := subst_effect s e in apply_effect_n D sub n m e') es1 m = Ok m1 ->
                run_with (fun m e => let! e' := subst_effect s e in apply_effect_n D sub n m e') es' m = Ok m1 /\ proper m1 /\ reliable m1).
    { rewrite Forall_forall in IH. revert es1 F1. clear c vs. induction Eo as [|e oe es oes Ho _ IHs]; intros es1 F1.
      - inversion F1; subst. exists []. split; [constructor|]. split; [apply le_n|]. intros n s _ m m1 Hp R Hr. injection Hr as <-. auto.
      - inversion F1 as [|? e1 ? es1' Fe Fs]; subst. destruct (IHs (fun x Hx => IH x (or_intror Hx)) (fun x Hx => Rg x (or_intror Hx)) (fun x Hx => HH x (or_intror Hx)) es1' Fs) as (es' & Q1 & Q2 & Q3). clear IHs.
        assert (X := IH e (or_introl eq_refl) oe Ho (Rg e (or_introl eq_refl)) (HH e (or_introl eq_refl))). assert (Hh := HH e (or_introl eq_refl)).
        assert (STEP : forall n s m m1, parameter_binding s -> proper m -> reliable m -> (let! e' := subst_effect s e1 in apply_effect_n D sub n m e') = Ok m1 -> proper m1 /\ reliable m1).
        { intros n s m m1 Hs Hp R Hr. destruct (subst_effect s e1) as [e2|] eqn:E2; [|discriminate]. cbn [bind] in Hr. apply (apply_reliable n m e2 m1); auto. apply (harmless_inst (ss ++ [s]) e); [apply Forall_app; auto|auto|]. rewrite (inste_snoc ss s e e1); auto. }
        destruct oe as [e'|].
        + destruct (X ss e1 Hb Fe) as (_ & ee' & Y1 & Y2 & _). exists (ee' :: es'). rewrite filter_some_cons. split; [constructor; auto|]. split; [cbn [fold_right]; lia|]. intros n s Hs m m1 Hp R Hr. cbn [run_with] in *.
          destruct (let! e'0 := subst_effect s e1 in apply_effect_n D sub n m e'0) as [m2|] eqn:Em2; [|discriminate]. cbn [bind] in Hr. destruct (STEP n s m m2 Hs Hp R Em2) as [Hp2 R2].
          assert (Z : (let! e'0 := subst_effect s ee' in apply_effect_n D sub n m e'0) = Ok m2).
          { destruct (subst_effect s e1) as [e2|] eqn:E2; [|discriminate]. cbn [bind] in Em2. assert (B2 : bindings (ss ++ [s])) by (apply Forall_app; auto). destruct (X (ss ++ [s])%list e2 B2) as (_ & e3 & Z1 & _ & Z3); [rewrite (inste_snoc ss s e e1); auto|].
            rewrite (inste_snoc ss s e' ee' Y1) in Z1. rewrite Z1. cbn [bind]. exact (Z3 n m m2 Hp R Em2). }
          rewrite Z. cbn [bind]. apply Q3; auto.
        + exists es'. rewrite filter_some_cons. split; [exact Q1|]. split; [cbn [fold_right]; lia|]. intros n s Hs m m1 Hp R Hr. cbn [run_with] in Hr.
          destruct (let! e'0 := subst_effect s e1 in apply_effect_n D sub n m e'0) as [m2|] eqn:Em2; [|discriminate]. cbn [bind] in Hr. destruct (STEP n s m m2 Hs Hp R Em2) as [Hp2 R2].
          assert (Z : m2 = m).
          { destruct (subst_effect s e1) as [e2|] eqn:E2; [|discriminate]. cbn [bind] in Em2. assert (B2 : bindings (ss ++ [s])) by (apply Forall_app; auto). apply (X (ss ++ [s])%list e2 B2 ltac:(rewrite (inste_snoc ss s e e1); auto) n m m2 Hp R Em2). }
          subst m2. apply Q3; auto. }
    destruct Q as (es' & Q1 & Q2 & Q3). exists (EUni (instu ss c) (instv ss vs) es'). split; [apply inste_uni; eauto|]. split; [cbn [edepth]; lia|]. intros n m m1 Hp R Ha. destruct n as [|n]; cbn [apply_effect_n econd] in *; destruct (eval_f m (instu ss c)) as [b|]; try discriminate; cbn [bind] in *; (destruct (negb b); [exact Ha|]); [discriminate|].
    destruct (enumerate_substitutions D (instv ss vs)) as [sl|] eqn:Esl; [|discriminate]. cbn [bind] in *. assert (Hsl : forall s, In s sl -> parameter_binding s) by (intros; eapply enumerated_binding; eauto). clear Esl. revert m Hp R Ha. induction sl as [|s sl IHs]; intros m Hp R Ha; [exact Ha|].
    destruct (run_with _ es1 m) as [m2|] eqn:Em2; [|discriminate]. cbn [bind] in Ha. destruct (Q3 n s (Hsl s (or_introl eq_refl)) m m2 Hp R Em2) as (Z & Hp2 & R2). rewrite Z. cbn [bind]. apply IHs; auto. intros; apply Hsl; right; auto.
  - discriminate.
  - discriminate.
Qed.

End Effects.
