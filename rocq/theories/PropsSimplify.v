(** C31: Static simplification of expressions, actions and problems *)
From Verif Require Import ListUtil Base Syntax Semantics SemLemmas Build NnfProofs BuildProofs ModelState ModelProofs Eval EvalSpec EvalProofs Index Subst SubstProofs QElim QElimProofs Effects ProgressSpec StateLemmas ProgressProofs SearchModelProofs NegBuiltinProofs PropsProgress Represent RelaxSpec PropsRelax CompileSpec PropsCompile Grounding GroundingSpec PropsGrounding Simplify SimplifySpec SimplifyProofs SimplifyProofs2 SimplifyProofs3 SimplifyProofs4.
#[local] Open Scope string_scope.

Lemma sig_refl' s : sig_eqb s s = true. Proof. now apply sig_eqb_eq. Qed.
Lemma sym_mem_In s l : sym_mem s l = true <-> exists s', In s' l /\ sym_sig s = sym_sig s'.
Proof. unfold sym_mem. rewrite existsb_exists. unfold sym_eqb. split; intros (x & H & E); exists x; (split; [auto|]); apply sig_eqb_eq; auto. Qed.
(** The symbols that the analysis of C40 calls static are not written by any action. *)
Lemma static_unwritten declared acts fluents statics s : approximate_symbol_fluency false declared acts = Ok (fluents, statics) -> evaluable_symbol (Some statics) s = true -> sym_builtin s = false ->
  (forall a e, In a acts -> In e (a_effs a) -> plain_effect e = true) /\ ~ written_by acts s.
Proof.
  unfold approximate_symbol_fluency. destruct (collect_affected_symbols acts) as [fl|] eqn:E; [|discriminate]. cbn [bind]. intros [= <- <-] H B. assert (F := C40_fluents acts). rewrite E in F. destruct F as [F1 F2]. split; [exact F1|]. intros W. unfold evaluable_symbol in H. rewrite B in H. cbn [orb] in H. apply sym_mem_In in H as (s' & Hs' & Es). apply filter_In in Hs' as [_ Hs']. apply negb_true_iff in Hs'.
  assert (sym_mem s' fl = true); [|congruence]. apply sym_mem_In. exists s. split; [now apply F2|auto].
Qed.
Lemma fluency_plain declared acts fluents statics : approximate_symbol_fluency false declared acts = Ok (fluents, statics) -> forall a e, In a acts -> In e (a_effs a) -> plain_effect e = true.
Proof. unfold approximate_symbol_fluency. destruct (collect_affected_symbols acts) as [fl|] eqn:E; [|discriminate]. intros _. assert (F := C40_fluents acts). rewrite E in F. apply F. Qed.
Lemma fluency_harmless declared acts fluents statics : approximate_symbol_fluency false declared acts = Ok (fluents, statics) -> forall a e, In a acts -> In e (a_effs a) -> harmless (Some statics) e.
Proof.
  intros H a e Ha He. split; [eapply fluency_plain; eauto|]. intros s (e' & Hs & W). destruct (sym_builtin s) eqn:B; [auto|]. right. destruct (evaluable_symbol (Some statics) s) eqn:V; [|auto]. exfalso. destruct (static_unwritten _ _ _ _ s H V B) as [_ N]. apply N. exists a, e, e'. auto.
Qed.
Lemma reached_reliable D sub declared acts fluents statics mo m0 plan m : approximate_symbol_fluency false declared acts = Ok (fluents, statics) -> is_state sub m0 -> mo = None \/ mo = Some m0 ->
  execution D sub acts m0 plan m -> Forall (fun st => parameter_binding (snd st)) plan -> proper m /\ reliable mo (Some statics) m.
Proof.
  intros H S M X F. assert (K := execution_keeps D sub acts m0 plan m (fluency_plain _ _ _ _ H) X F (state_proper sub m0 S)). split; [apply K|]. destruct K as (_ & K1 & K2). intros m1 E. destruct M as [->| ->]; [discriminate|]. injection E as <-. split; [eapply state_constants; eauto|]. split; [intros p pt [V B]|intros f pt [V B]]; symmetry; [apply K1|apply K2]; intros W; destruct (static_unwritten _ _ _ _ _ H V B) as [_ N]; auto.
Qed.
Lemma legal_bindings D acts plan : Forall (legal_step D acts) plan -> Forall (fun st => parameter_binding (snd st)) plan.
Proof. intros H. eapply Forall_impl; [|exact H]. intros st [C _]. now apply constant_parameter. Qed.

(** ** Expressions *)
(** In the states reached from the initial state, the simplified expression has the truth value of the original one, under every variable assignment. *)
Theorem C31_expression D sub declared acts fluents statics init plan m phi r M :
  is_state sub init -> approximate_symbol_fluency false declared acts = Ok (fluents, statics) -> execution D sub acts init plan m -> Forall (fun st => parameter_binding (snd st)) plan ->
  wf phi = true -> simplify_expression (Some init) (Some statics) phi = Ok r -> agrees M m -> inhabited_sorts M phi ->
  wf (bool_to_expr r) = true /\ forall e, fsem M (bool_to_expr r) e = fsem M phi e.
Proof.
  intros S A X F W H G I. destruct (reached_reliable D sub declared acts fluents statics (Some init) init plan m A S (or_intror eq_refl) X F) as [_ R].
  exact (simplify_sem (Some init) (Some statics) m R M (or_intror G) phi W I r H).
Qed.
(** Without a model nothing is evaluated: the simplification is valid in every structure. *)
Theorem C31_without_model statics phi r M : wf phi = true -> simplify_expression None statics phi = Ok r -> inhabited_sorts M phi -> wf (bool_to_expr r) = true /\ forall e, fsem M (bool_to_expr r) e = fsem M phi e.
Proof.
  intros W H I. assert (R : reliable None statics empty_model) by (intros m0 E; discriminate). exact (simplify_sem None statics empty_model R M (or_introl eq_refl) phi W I r H).
Qed.
(** Evaluation of instances: whenever the original has a value in a reached state, the simplified expression has the same one. *)
Theorem C31_evaluation D sub declared acts fluents statics init plan m phi r s b :
  is_state sub init -> approximate_symbol_fluency false declared acts = Ok (fluents, statics) -> execution D sub acts init plan m -> Forall (fun st => parameter_binding (snd st)) plan ->
  simplify_expression (Some init) (Some statics) phi = Ok r -> parameter_binding s -> eval_f m (subst_formula s phi) = Ok b -> eval_f m (subst_formula s (bool_to_expr r)) = Ok b.
Proof.
  intros S A X F H Hs. destruct (reached_reliable D sub declared acts fluents statics (Some init) init plan m A S (or_intror eq_refl) X F) as [_ R].
  apply (inst_eval (Some init) (Some statics) [s] m); [constructor; [exact Hs|constructor]|exact R|exact H].
Qed.

(** ** Actions *)
(** Instances of a simplified action are applicable in the same reached states, with the same successors. An action is dropped only if no instance of it changes a reached state. *)
Theorem C31_action D sub declared acts fluents statics mo init plan m a r s pre effs :
  is_state sub init -> mo = None \/ mo = Some init -> approximate_symbol_fluency false declared acts = Ok (fluents, statics) -> execution D sub acts init plan m -> Forall (fun st => parameter_binding (snd st)) plan ->
  In a acts -> (forall e, In e (a_effs a) -> regular_effect e = true) -> simplify_action mo (Some statics) a = Ok r -> parameter_binding s -> ground_schema a s = Ok (pre, effs) ->
  match r with
  | None => is_applicable m pre = Ok true -> forall m1, progress D sub m effs = Ok m1 -> m1 = m
  | Some (pr, es) => exists pre' effs', ground_schema {| a_name := a_name a; a_params := a_params a; a_pre := bool_to_expr pr; a_effs := es |} s = Ok (pre', effs') /\
      (forall b, is_applicable m pre = Ok b -> is_applicable m pre' = Ok b) /\ (forall m1, progress D sub m effs = Ok m1 -> progress D sub m effs' = Ok m1)
  end.
Proof.
  intros S M A X F Ha Rg H Hs G. destruct (reached_reliable D sub declared acts fluents statics mo init plan m A S M X F) as [P R].
  assert (Q := action_sim D sub mo (Some statics) a r s pre effs H (fun e He => conj (Rg e He) (fluency_harmless _ _ _ _ A a e Ha He)) Hs G). destruct r as [[pr es]|]; [|exact (Q m P R)]. destruct Q as (pre' & effs' & Q1 & Q2). exists pre', effs'. split; [exact Q1|]. destruct (Q2 m P R) as [Q3 Q4]. split; [exact Q3|]. intros m1 H1. apply (Q4 m1 H1).
Qed.

(** ** Problems *)
Lemma simplify_actions_spec D mo statics : forall acts l, simplify_actions D mo statics acts = Ok l ->
  (forall a, In a acts -> (number_of_groundings D (map snd (param_vars a)) = Ok 0) \/ simplify_action mo statics a = Ok None \/
     exists pr es, simplify_action mo statics a = Ok (Some (pr, es)) /\ In ({| a_name := a_name a; a_params := a_params a; a_pre := bool_to_expr pr; a_effs := es |}, pr) l) /\
  (forall a' pr, In (a', pr) l -> exists a es, In a acts /\ simplify_action mo statics a = Ok (Some (pr, es)) /\ a' = {| a_name := a_name a; a_params := a_params a; a_pre := bool_to_expr pr; a_effs := es |}).
Proof.
  induction acts as [|a acts IH]; intros l H; cbn [simplify_actions] in H; [injection H as <-; split; [intros a []|intros a' pr []]|].
  destruct (number_of_groundings D _) as [n|] eqn:En; [|discriminate]. cbn [bind] in H. destruct (if Nat.eqb n 0 then _ else _) as [here|] eqn:Eh; [|discriminate]. cbn [bind] in H. destruct (simplify_actions D mo statics acts) as [rest|] eqn:Er; [|discriminate]. cbn [bind] in H. injection H as <-. destruct (IH rest eq_refl) as [I1 I2]. clear IH.
  assert (HERE : (n = 0 /\ here = []) \/ (simplify_action mo statics a = Ok None /\ here = []) \/ exists pr es, simplify_action mo statics a = Ok (Some (pr, es)) /\ here = [({| a_name := a_name a; a_params := a_params a; a_pre := bool_to_expr pr; a_effs := es |}, pr)]).
  { destruct (Nat.eqb n 0) eqn:E0; [apply Nat.eqb_eq in E0; injection Eh as <-; auto|]. destruct (simplify_action mo statics a) as [[[pr es]|]|]; [|cbn [bind] in Eh; injection Eh as <-; auto|discriminate]. cbn [bind] in Eh. injection Eh as <-. right. right. eauto. }
  split.
  - intros b [<-|Hb].
    + destruct HERE as [[-> _]|[[H _]|(pr & es & H & ->)]]; auto. right. right. exists pr, es. split; [auto|]. left. auto.
    + destruct (I1 b Hb) as [Q|[Q|(pr & es & Q1 & Q2)]]; auto. right. right. exists pr, es. split; [auto|]. apply in_or_app. auto.
  - intros a' pr Hin. apply in_app_or in Hin as [Hin|Hin].
    + destruct HERE as [[_ ->]|[[_ ->]|(pr' & es & H & ->)]]; try (destruct Hin; fail). destruct Hin as [E|[]]. injection E as <- <-. exists a, es. split; [left; auto|auto].
    + destruct (I2 a' pr Hin) as (b & es & Hb & Q). exists b, es. split; [right; auto|auto].
Qed.
Lemma execution_app D sub acts m p1 m1 p2 m2 : execution D sub acts m p1 m1 -> execution D sub acts m1 p2 m2 -> execution D sub acts m (p1 ++ p2) m2.
Proof. induction 1; intros H'; cbn [app]; [auto|]. eapply ex_step; eauto. Qed.

Section Problem.
Variables (D : domains) (sub : sort -> sort -> bool) (declared : list sym) (mo : option model) (p : problem) (left : list sym) (p' : problem).
Hypothesis TD : typed_domains D sub.
Hypothesis ST : is_state sub (p_init p).
Hypothesis MO : mo = None \/ mo = Some (p_init p).
Hypothesis RG : forall a e, In a (p_actions p) -> In e (a_effs a) -> regular_effect e = true.
Hypothesis SI : simplify D declared mo p = Ok (left, p').
(** What the result consists of *)
Lemma simplified_parts : exists statics fluents goal l (U : sym -> Prop),
  approximate_symbol_fluency false declared (p_actions p) = Ok (fluents, statics) /\
  simplify_expression mo (Some statics) (p_goal p) = Ok (OForm goal) /\ p_goal p' = goal /\
  simplify_actions D mo (Some statics) (p_actions p) = Ok l /\ p_actions p' = map fst l /\
  (forall s, In s left -> U s) /\ proper (p_init p') /\ same_on U (p_init p) (p_init p') /\ fin U goal /\ (forall a, In a (p_actions p') -> fin U (a_pre a) /\ forall e, In e (a_effs a) -> ein U e).
Proof.
  assert (H := SI). unfold simplify in H. destruct (approximate_symbol_fluency false declared (p_actions p)) as [[fluents statics]|] eqn:EA; [|discriminate]. cbn [bind snd] in H. destruct (simplify_expression mo (Some statics) (p_goal p)) as [g|] eqn:EG; [|discriminate]. cbn [bind] in H.
  destruct (simplify_actions D mo (Some statics) (p_actions p)) as [l|] eqn:EL; [|discriminate]. cbn [bind] in H. destruct g as [b|goal]; [discriminate|]. cbn [formula_of bind] in H. destruct (mapM _ l) as [fs|]; [|discriminate]. cbn [bind] in H. destruct (collect_all_symbols (map fst l) goal) as [used|] eqn:EU; [|discriminate]. cbn [bind] in H.
  set (unused := filter (fun s => negb (sym_mem s used)) (get_symbols false declared)) in *. injection H as E1 E2. subst left p'. cbn [p_actions p_init p_goal].
  destruct (removed_same unused (p_init p) (state_proper sub _ ST)) as [PR SM]. exists statics, fluents, goal, l, (fun s => forall r, In r unused -> sym_sig r <> sym_sig s).
  assert (UB : forall s r, sym_builtin s = true \/ In s used -> In r unused -> sym_sig r <> sym_sig s).
  { intros s r Hs Hr E. unfold unused in Hr. apply filter_In in Hr as [Hr1 Hr2]. apply negb_true_iff in Hr2. destruct Hs as [Hs|Hs].
    - unfold get_symbols in Hr1. apply filter_In in Hr1 as [Hr1 _]. apply filter_In in Hr1 as [_ Hr1]. apply negb_true_iff in Hr1. destruct s as [[]|[]], r as [[]|[]]; cbn in *; try discriminate.
    - assert (sym_mem r used = true); [|congruence]. apply sym_mem_In. eauto. }
  assert (TU : forall a e, In a (map fst l) -> In e (a_effs a) -> top_universal e = true).
  { intros a e Ha He. apply in_map_iff in Ha as ([a0 pr] & Ea & Ha). cbn [fst] in Ea. subst a0. destruct (proj2 (simplify_actions_spec D mo (Some statics) _ _ EL) a pr Ha) as (a0 & es & Ha0 & Hsa & ->). cbn [a_effs] in He. unfold simplify_action in Hsa. destruct (simplify_expression mo (Some statics) (a_pre a0)) as [pr0|]; [|discriminate]. cbn [bind] in Hsa.
    assert (Q : (let! es := mapM (simplify_effect mo (Some statics)) (a_effs a0) in match filter_some es with [] => Ok None | es' => Ok (Some (pr0, es')) end) = Ok (Some (pr, es))) by (destruct pr0 as [[]|]; auto; discriminate). destruct (mapM _ _) as [oes|] eqn:Eo; [|discriminate]. cbn [bind] in Q. assert (filter_some oes = es) by (destruct (filter_some oes); congruence). subst es. clear Q Hsa.
    unfold filter_some in He. rewrite in_flat_map in He. destruct He as ([y|] & Hy & Hx); [|destruct Hx]. destruct Hx as [<-|[]]. apply mapM_ok_Forall2 in Eo. destruct (Forall2_In_r _ _ _ _ Eo Hy) as (e0 & H0 & H1). eapply simplify_top_universal; [exact H1|]. eapply RG; eauto. }
  destruct (collect_in (fun s => forall r, In r unused -> sym_sig r <> sym_sig s) _ _ _ EU TU) as [C1 C2]; [intros s Hs r Hr; eapply UB; eauto|].
  split; [first [exact EA|reflexivity]|]. split; [exact EG|]. split; [reflexivity|]. split; [first [exact EL|reflexivity]|]. split; [reflexivity|]. split.
  { intros s Hs r Hr E. apply filter_In in Hs as [_ Hs]. apply negb_true_iff in Hs. assert (sym_mem s unused = true); [|congruence]. apply sym_mem_In. eauto. }
  split; [exact PR|]. split; [exact SM|]. split; [exact C1|exact C2].
Qed.
Lemma legal_nonempty a s : In a (p_actions p) -> legal_step D (p_actions p) (a_name a, s) -> number_of_groundings D (map snd (param_vars a)) <> Ok 0.
Proof.
  intros Ha [_ L] E. apply no_groundings in E as (r & Hr & Er). apply in_map_iff in Hr as (v & <- & Hv). apply param_vars_In in Hv. destruct (L a (fst v) (snd v) Ha eq_refl Hv) as (cs & c & Ec & Hc & _). rewrite Er in Ec. injection Ec as <-. destruct Hc.
Qed.
(** Plans are preserved: leaving out the steps of dropped actions, the plan runs in the simplified problem, to a state that agrees on the remaining symbols, and the goals agree. *)
Theorem C31_plans plan m : execution D sub (p_actions p) (p_init p) plan m -> Forall (legal_step D (p_actions p)) plan ->
  exists plan' m', sublist plan' plan /\ execution D sub (p_actions p') (p_init p') plan' m' /\ same_on (fun s => In s left) m m' /\
    forall b, eval_f m (p_goal p) = Ok b -> eval_f m' (p_goal p') = Ok b.
Proof.
  intros X F. destruct simplified_parts as (statics & fluents & goal & l & U & EA & EG & EG' & EL & EA' & UL & PR & SM & FG & FA). destruct (simplify_actions_spec _ _ _ _ _ EL) as [L1 _].
  assert (G : forall m0 plan m, execution D sub (p_actions p) m0 plan m -> forall pre m0', execution D sub (p_actions p) (p_init p) pre m0 -> Forall (legal_step D (p_actions p)) pre -> Forall (legal_step D (p_actions p)) plan -> proper m0' -> same_on U m0 m0' ->
    exists plan' m', sublist plan' plan /\ execution D sub (p_actions p') m0' plan' m' /\ same_on U m m').
  { clear plan m X F. intros m0 plan m X. induction X as [m|m a s pre effs m1 plan m2 Ha Hg Hap Hpr Hex IH]; intros before m0' XB FB F P0 S0; [exists [], m0'; split; [constructor|]; split; [constructor|auto]|].
    inversion F as [|? ? Fs F']; subst. destruct Fs as [CB LG]. cbn [snd] in CB. destruct (reached_reliable D sub declared _ fluents statics mo (p_init p) before m EA ST MO XB (legal_bindings _ _ _ FB)) as [PM RM].
    assert (XB' : execution D sub (p_actions p) (p_init p) (before ++ [(a_name a, s)]) m1) by (eapply execution_app; [exact XB|]; eapply ex_step; eauto; constructor). assert (FB' : Forall (legal_step D (p_actions p)) (before ++ [(a_name a, s)])) by (apply Forall_app; split; [auto|]; constructor; [split; auto|constructor]).
    assert (HE : forall e, In e (a_effs a) -> regular_effect e = true /\ harmless (Some statics) e) by (intros e He; split; [eapply RG; eauto|eapply fluency_harmless; eauto]).
    destruct (L1 a Ha) as [N|[N|(pr & es & N1 & N2)]].
    - exfalso. exact (legal_nonempty a s Ha (conj CB LG) N).
    - assert (Q := action_sim D sub mo (Some statics) a None s pre effs N HE (constant_parameter s CB) Hg m PM RM Hap m1 Hpr). subst m1. destruct (IH _ m0' XB' FB' F' P0 S0) as (plan' & m' & Q1 & Q2 & Q3). exists plan', m'. split; [now apply sub_drop|auto].
    - destruct (action_sim D sub mo (Some statics) a _ s pre effs N1 HE (constant_parameter s CB) Hg) as (pre' & effs' & G1 & G2). destruct (G2 m PM RM) as [G3 G4]. specialize (G3 true Hap). destruct (G4 m1 Hpr) as (G5 & P1 & R1).
      set (a' := {| a_name := a_name a; a_params := a_params a; a_pre := bool_to_expr pr; a_effs := es |}) in *. assert (Ha' : In a' (p_actions p')) by (rewrite EA'; apply in_map_iff; exists (a', pr); auto). destruct (FA a' Ha') as [FP FE]. destruct (ground_in U a' s pre' effs' CB G1 FP FE) as [GP GE].
      destruct (progress_in D sub U TD effs' m m0' m1 GE PM P0 S0 G5) as (m1' & E1 & S1 & _ & P1'). destruct (IH _ m1' XB' FB' F' P1' S1) as (plan' & m' & Q1 & Q2 & Q3). exists ((a_name a, s) :: plan'), m'. split; [now apply sub_keep|]. split; [|exact Q3].
      change (a_name a) with (a_name a'). eapply ex_step; eauto. unfold is_applicable in *. rewrite <- (eval_in U m m0' pre' S0 GP). exact G3. }
  destruct (G (p_init p) plan m X [] (p_init p') (ex_nil _ _ _ _) (Forall_nil _) F PR SM) as (plan' & m' & Q1 & Q2 & Q3). exists plan', m'. split; [auto|]. split; [auto|]. split; [split; intros; apply Q3; auto|].
  intros b Hb. rewrite EG', <- (eval_in U m m' goal Q3 FG). destruct (reached_reliable D sub declared _ fluents statics mo (p_init p) plan m EA ST MO X (legal_bindings _ _ _ F)) as [_ R]. exact (inst_eval mo (Some statics) [] m (Forall_nil _) R _ _ EG b Hb).
Qed.
(** Plans are reflected, when the original problem raises no exceptions on the states it reaches. *)
Theorem C31_plans_reflected plan m' : runs_without_errors D sub p -> execution D sub (p_actions p') (p_init p') plan m' -> Forall (legal_step D (p_actions p)) plan ->
  exists m, execution D sub (p_actions p) (p_init p) plan m /\ same_on (fun s => In s left) m m' /\ forall b, eval_f m (p_goal p) = Ok b -> eval_f m' (p_goal p') = Ok b.
Proof.
  intros NE X F. destruct simplified_parts as (statics & fluents & goal & l & U & EA & EG & EG' & EL & EA' & UL & PR & SM & FG & FA). destruct (simplify_actions_spec _ _ _ _ _ EL) as [_ L2].
  assert (G : forall m0' plan m', execution D sub (p_actions p') m0' plan m' -> forall pre m0, execution D sub (p_actions p) (p_init p) pre m0 -> Forall (legal_step D (p_actions p)) pre -> Forall (legal_step D (p_actions p)) plan -> proper m0' -> same_on U m0 m0' ->
    exists m, execution D sub (p_actions p) m0 plan m /\ same_on U m m').
  { clear plan m' X F. intros m0' plan m' X. induction X as [m0'|m0' a' s pre' effs' m1' plan m2' Ha' Hg Hap Hpr Hex IH]; intros before m XB FB F P0 S0; [exists m; split; [constructor|auto]|].
    inversion F as [|? ? Fs F']; subst. destruct (reached_reliable D sub declared _ fluents statics mo (p_init p) before m EA ST MO XB (legal_bindings _ _ _ FB)) as [PM RM].
    assert (Hl := Ha'). rewrite EA' in Hl. apply in_map_iff in Hl as ([a1 pr] & Ea1 & Hl). cbn [fst] in Ea1. subst a1. destruct (L2 a' pr Hl) as (a & es & Ha & Hsa & Ea). assert (Nm : a_name a' = a_name a) by (rewrite Ea; reflexivity). rewrite Nm in *.
    assert (CB : constant_binding s) by apply Fs. assert (HE : forall e, In e (a_effs a) -> regular_effect e = true /\ harmless (Some statics) e) by (intros e He; split; [eapply RG; eauto|eapply fluency_harmless; eauto]).
    destruct (NE before m XB FB a s Ha Fs) as (pre & effs & b & G & Ap & Pg). destruct (action_sim D sub mo (Some statics) a _ s pre effs Hsa HE (constant_parameter s CB) G) as (pre2 & effs2 & G1 & G2). rewrite <- Ea, Hg in G1. injection G1 as <- <-. destruct (G2 m PM RM) as [G3 G4]. specialize (G3 b Ap).
    destruct (FA a' Ha') as [FP FE]. destruct (ground_in U a' s pre' effs' CB Hg FP FE) as [GP GE]. unfold is_applicable in G3, Hap. rewrite (eval_in U m m0' pre' S0 GP), Hap in G3. injection G3 as <-. destruct (Pg eq_refl) as (m1 & E1). destruct (G4 m1 E1) as (G5 & P1 & R1).
    destruct (progress_in D sub U TD effs' m m0' m1 GE PM P0 S0 G5) as (m1'' & E1' & S1 & _ & P1'). rewrite Hpr in E1'. injection E1' as <-.
    assert (XB' : execution D sub (p_actions p) (p_init p) (before ++ [(a_name a, s)]) m1) by (eapply execution_app; [exact XB|]; eapply ex_step; eauto; constructor). assert (FB' : Forall (legal_step D (p_actions p)) (before ++ [(a_name a, s)])) by (apply Forall_app; split; [auto|]; constructor; [auto|constructor]).
    destruct (IH _ m1 XB' FB' F' P1' S1) as (m2 & Q1 & Q2). exists m2. split; [|exact Q2]. eapply ex_step; eauto. }
  destruct (G (p_init p') plan m' X [] (p_init p) (ex_nil _ _ _ _) (Forall_nil _) F PR SM) as (m & Q1 & Q3). exists m. split; [auto|]. split; [split; intros; apply Q3; auto|].
  intros b Hb. rewrite EG', <- (eval_in U m m' goal Q3 FG). destruct (reached_reliable D sub declared _ fluents statics mo (p_init p) plan m EA ST MO Q1 (legal_bindings _ _ _ F)) as [_ R]. exact (inst_eval mo (Some statics) [] m (Forall_nil _) R _ _ EG b Hb).
Qed.
End Problem.
(** ** Shape of the result *)
Theorem C31_reduced m statics phi g : simplify_expression (Some m) (Some statics) phi = Ok (OForm g) ->
  reduced (fun p => match p with PB _ => true | PU _ _ => sym_mem (SymP p) statics end) g = true.
Proof.
  set (ev := fun p : psym => match p with PB _ => true | PU _ _ => sym_mem (SymP p) statics end). revert g.
  assert (EV : forall p, evaluable_symbol (Some statics) (SymP p) = ev p) by (intros [|]; reflexivity).
  induction phi as [| |p ts|c fs IH|q vs f IH] using formula_ind_simple; intros r H; try discriminate.
  - cbn [simplify_expression] in H. destruct (mapM _ ts) as [ts'|]; [|discriminate]. cbn [bind] in H. rewrite EV in H. destruct (ev p && forallb is_cst ts') eqn:E; [destruct (eval_f m _); discriminate|]. injection H as <-. cbn [reduced]. apply negb_true_iff. exact E.
  - assert (MEM : forall isand l, simplify_members (simplify_expression (Some m) (Some statics)) isand fs = Ok (Some l) -> forallb (reduced ev) l = true).
    { intros isand. clear H. induction IH as [|g gs Hg _ IHs]; intros l H; cbn [simplify_members] in H; [injection H as <-; reflexivity|]. fold (simplify_members (simplify_expression (Some m) (Some statics)) isand gs) in H. destruct (simplify_expression (Some m) (Some statics) g) as [[b|g']|] eqn:E; try discriminate; cbn [bind] in H.
      - destruct (Bool.eqb b isand); [auto|discriminate].
      - destruct (simplify_members (simplify_expression (Some m) (Some statics)) isand gs) as [[l'|]|]; try discriminate. cbn [bind option_map] in H. injection H as <-. cbn [forallb]. rewrite (IHs l' eq_refl), andb_true_r. exact (Hg _ eq_refl). }
    assert (BIN : forall isand cc, cc <> Not -> (let! l := simplify_members (simplify_expression (Some m) (Some statics)) isand fs in Ok match l with None => OBool (negb isand) | Some [] => OBool isand | Some [g] => OForm g | Some gs => OForm (Comp cc gs) end) = Ok (OForm r) -> reduced ev r = true).
    { clear H. intros isand cc N H. destruct (simplify_members (simplify_expression (Some m) (Some statics)) isand fs) as [[l|]|] eqn:E; try discriminate. cbn [bind] in H. specialize (MEM isand l E).
      destruct l as [|g1 [|g2 l]]; [discriminate|injection H as <-; cbn [forallb] in MEM; now rewrite andb_true_r in MEM|]. injection H as <-. destruct cc; try contradiction; cbn [reduced]; rewrite MEM; reflexivity. }
    destruct c; cbn [simplify_expression] in H; [eapply (BIN true And); eauto; discriminate|eapply (BIN false Or); eauto; discriminate|].
    destruct fs as [|g gs]; [discriminate|]. inversion IH as [|? ? Hg _]; subst. destruct (simplify_expression (Some m) (Some statics) g) as [[b|g']|] eqn:E; try discriminate. cbn [bind] in H. specialize (Hg _ eq_refl).
    assert (Q : (exists hs, g' = Comp Not hs) \/ (is_negation g' = false /\ r = Comp Not [g'])) by (destruct g' as [| |p ts|cc hs|q vs h]; [..|destruct cc|]; eauto; right; split; auto; congruence). destruct Q as [[hs ->]|[Q ->]].
    + destruct hs as [|h [|h2 hs]]; try discriminate. injection H as <-. cbn [reduced] in Hg. now apply andb_true_iff in Hg as [_ Hg].
    + cbn [reduced]. rewrite Q, Hg. reflexivity.
  - cbn [simplify_expression] in H. destruct (simplify_expression (Some m) (Some statics) f) as [[b|g]|] eqn:E; try discriminate. cbn [bind] in H. injection H as <-. exact (IH g eq_refl).
Qed.

(** ** A concrete problem *)
Definition pLink := PU "link" ["obj"].
Definition pOld := PU "old" ["obj"].
Definition vy := Var "y" "obj".
Definition sL : model := mrun String.eqb [OAdd pP [o1]; OAdd pLink [o1]; OAdd pOld [o2]] empty_model.
Definition act_go : action := {| a_name := "go"; a_params := [vx]; a_pre := Comp And [Atom pLink [o1]; Atom pP [vx]; Comp Not [Atom pLink [o2]]];
  a_effs := [EAdd (Atom pLink [o1]) (Atom pQ [vx]); EAdd (Atom pLink [o2]) (Atom pQ [o1]); EDel Top (Atom pP [vx]); EUni Top [vy] [EAdd (Comp And [Atom pLink [o1]; Atom pP [vy]]) (Atom pQ [vy])]] |}.
Definition act_never : action := {| a_name := "never"; a_params := []; a_pre := Atom pLink [o2]; a_effs := [EAdd Top (Atom pQ [o1])] |}.
Definition act_idle : action := {| a_name := "idle"; a_params := []; a_pre := Atom pLink [o1]; a_effs := [EAdd (Atom pLink [o2]) (Atom pQ [o1])] |}.
Definition declL := [SymP (PB PEq); SymP pP; SymP pQ; SymP pLink; SymP pOld].
Definition prob_link : problem := {| p_actions := [act_go; act_never; act_idle]; p_init := sL; p_goal := Comp And [Atom pQ [o1]; Atom pLink [o1]] |}.
Definition act_go' : action := {| a_name := "go"; a_params := [vx]; a_pre := Atom pP [vx]; a_effs := [EAdd Top (Atom pQ [vx]); EDel Top (Atom pP [vx]); EUni Top [vy] [EAdd (Atom pP [vy]) (Atom pQ [vy])]] |}.
Theorem C31_nonvacuous : typed_domains DX String.eqb /\ is_state String.eqb sL /\ (forall a e, In a (p_actions prob_link) -> In e (a_effs a) -> regular_effect e = true) /\
  (exists m', simplify DX declL (Some sL) prob_link = Ok ([SymP (PB PEq); SymP pP; SymP pQ], {| p_actions := [act_go']; p_init := m'; p_goal := Atom pQ [o1] |}) /\ m_holds m' pP [o1] = true /\ m_holds m' pLink [o1] = false /\ m_holds m' pOld [o2] = false) /\
  exists m, execution DX String.eqb (p_actions prob_link) sL [("idle", nosub); ("go", bind_x o1)] m /\ Forall (legal_step DX (p_actions prob_link)) [("idle", nosub); ("go", bind_x o1)] /\ eval_f m (p_goal prob_link) = Ok true.
Proof.
  split; [exact DX_typed|]. split; [eexists; reflexivity|]. split.
  { intros a e [<-|[<-|[<-|[]]]] He; cbn in He; repeat (destruct He as [<-|He]; [reflexivity|]); destruct He. }
  split; [eexists; split; [vm_compute; reflexivity|]; split; [reflexivity|split; reflexivity]|].
  eexists. split.
  { apply (ex_step DX String.eqb _ _ act_idle nosub (Atom pLink [o1]) [EAdd (Atom pLink [o2]) (Atom pQ [o1])] sL); [right; right; left; auto|reflexivity|reflexivity|reflexivity|].
    eapply (ex_step DX String.eqb _ _ act_go (bind_x o1)); [left; auto|vm_compute; reflexivity|vm_compute; reflexivity|vm_compute; reflexivity|constructor]. }
  split; [|reflexivity]. constructor; [|constructor; [|constructor]].
  - split; [split; [reflexivity|intros k v []]|]. intros a x s [<-|[<-|[<-|[]]]] Hn; try discriminate Hn. intros [].
  - split; [split; [reflexivity|]; intros k v [E|[]]; injection E as <- <-; split; [exists "x", "obj"; reflexivity|exists (CStr "a"), "obj"; reflexivity]|]. intros a x s [<-|[<-|[<-|[]]]] Hn; try discriminate Hn. intros [E|[]]. injection E as <- <-. exists [o1; o2], o1. split; [reflexivity|]. split; [left; auto|reflexivity].
Qed.
(** The hypothesis of [C31_plans_reflected] *)
Definition act_take : action := {| a_name := "take"; a_params := [vx]; a_pre := Comp And [Atom pLink [o1]; Atom pP [vx]]; a_effs := [EAdd (Atom pLink [o1]) (Atom pQ [vx]); EDel Top (Atom pP [vx])] |}.
Definition prob_take : problem := {| p_actions := [act_take]; p_init := sL; p_goal := Comp And [Atom pQ [o1]; Atom pLink [o1]] |}.
Theorem C31_reflected_nonvacuous : runs_without_errors DX String.eqb prob_take /\
  (forall a e, In a (p_actions prob_take) -> In e (a_effs a) -> regular_effect e = true) /\
  exists left p' m', simplify DX declL (Some sL) prob_take = Ok (left, p') /\ execution DX String.eqb (p_actions p') (p_init p') [("take", bind_x o1)] m' /\ eval_f m' (p_goal p') = Ok true.
Proof.
  split; [|split].
  - intros plan m _ _ a s [<-|[]] [C L]. destruct (L act_take "x" "obj" (or_introl eq_refl) eq_refl (or_introl eq_refl)) as (cs & c & Ec & Hc & Eg). injection Ec as <-. cbn [snd] in *. assert (P := constant_parameter s C).
    assert (Sx : subst_term s vx = c) by (change (visit_t s (Var "x" "obj") = c); unfold visit_t; now rewrite Eg). assert (S1 : subst_term s o1 = o1) by (change (visit_t s o1 = o1); apply binding_visit; [auto|discriminate]).
    assert (SA : forall p t, subst_formula s (Atom p [t]) = Atom p [subst_term s t]) by (intros; cbn [subst_formula map]; now apply binding_formula). assert (ST : subst_formula s Top = Top) by (cbn [subst_formula]; now apply binding_formula).
    exists (Comp And [Atom pLink [o1]; Atom pP [c]]), [EAdd (Atom pLink [o1]) (Atom pQ [c]); EDel Top (Atom pP [c])].
    assert (G : ground_schema act_take s = Ok (Comp And [Atom pLink [o1]; Atom pP [c]], [EAdd (Atom pLink [o1]) (Atom pQ [c]); EDel Top (Atom pP [c])])).
    { unfold ground_schema. cbn [act_take a_params a_effs a_pre forallb]. change (get_t (sub_t s) vx = Some c) in Eg. rewrite Eg. assert (exists n r, c = Cst n r) as (n & r & ->) by (destruct Hc as [<-|[<-|[]]]; unfold o1, o2; eauto). cbn [andb]. rewrite !mapM_cons. cbn [subst_effect bind mapM]. rewrite !SA, ST, S1, Sx.
      assert (SC : subst_formula s (Comp And [Atom pLink [o1]; Atom pP [vx]]) = Comp And [Atom pLink [o1]; Atom pP [Cst n r]]) by (change (visit_f s (Comp And [subst_formula s (Atom pLink [o1]); subst_formula s (Atom pP [vx])]) = Comp And [Atom pLink [o1]; Atom pP [Cst n r]]); rewrite binding_formula, !SA, S1, Sx by auto; reflexivity). rewrite SC. reflexivity. }
    destruct Hc as [<-|[<-|[]]].
    + exists (m_holds m pLink [o1] && m_holds m pP [o1]). split; [exact G|]. split; [unfold is_applicable; cbn; destruct (m_holds m pLink _), (m_holds m pP _); reflexivity|]. intros _.
      change (exists m', (let! m' := (if negb (m_holds (m_discard m pP [o1]) pLink [o1]) then Ok (m_discard m pP [o1]) else m_add String.eqb (m_discard m pP [o1]) pQ [o1]) in Ok m') = Ok m'). destruct (m_holds (m_discard m pP [o1]) pLink [o1]); eexists; reflexivity.
    + exists (m_holds m pLink [o1] && m_holds m pP [o2]). split; [exact G|]. split; [unfold is_applicable; cbn; destruct (m_holds m pLink _), (m_holds m pP _); reflexivity|]. intros _.
      change (exists m', (let! m' := (if negb (m_holds (m_discard m pP [o2]) pLink [o1]) then Ok (m_discard m pP [o2]) else m_add String.eqb (m_discard m pP [o2]) pQ [o2]) in Ok m') = Ok m'). destruct (m_holds (m_discard m pP [o2]) pLink [o1]); eexists; reflexivity.
  - intros a e [<-|[]] He; cbn in He; repeat (destruct He as [<-|He]; [reflexivity|]); destruct He.
  - eexists _, _, _. split; [vm_compute; reflexivity|]. split; [eapply (ex_step DX String.eqb _ _ {| a_name := "take"; a_params := [vx]; a_pre := Atom pP [vx]; a_effs := [EAdd Top (Atom pQ [vx]); EDel Top (Atom pP [vx])] |} (bind_x o1)); [left; reflexivity|vm_compute; reflexivity|vm_compute; reflexivity|vm_compute; reflexivity|constructor]|]. vm_compute. reflexivity.
Qed.

(** ** What fails outside the hypotheses *)
(** A quantifier over a sort without elements is lost. *)
Theorem C31_empty_sort_refuted : exists M phi, wf phi = true /\ simplify_expression None None phi = Ok (OBool true) /\ forall e, fsem M phi e = false.
Proof.
  exists {| carrier := unit; dom := fun _ => []; cint := fun _ _ => tt; fint := fun _ _ => tt; pint := fun _ _ => true |}, (Quant QEx [vx] Top). split; [reflexivity|]. split; [reflexivity|]. intros e. reflexivity.
Qed.
(** When the goal, or the precondition of an action that stays, becomes true, [simplify] raises: the bool cannot be visited. This includes every action without a precondition. *)
Theorem C31_true_goal_refuted : simplify DX declL (Some sL) {| p_actions := [act_take]; p_init := sL; p_goal := Atom pLink [o1] |} = Err RuntimeError.
Proof. vm_compute. reflexivity. Qed.
Definition act_free : action := {| a_name := "free"; a_params := []; a_pre := Top; a_effs := [EAdd Top (Atom pQ [o1])] |}.
Theorem C31_true_precondition_refuted : simplify DX declL (Some sL) {| p_actions := [act_free]; p_init := sL; p_goal := Atom pQ [o1] |} = Err RuntimeError.
Proof. vm_compute. reflexivity. Qed.
(** A delete effect whose atom has a static function term as argument deletes nothing before the simplification, and something afterwards. *)
Definition act_drop : action := {| a_name := "drop"; a_params := []; a_pre := Atom pP [o1]; a_effs := [EDel Top (Atom pP [App fX []])] |}.
Definition sD : model := mrun String.eqb [OAdd pP [o1]; OAdd pQ [o1]; OSet (App fX []) o1] empty_model.
Theorem C31_compound_delete_refuted : exists left p' m m', let p := {| p_actions := [act_drop]; p_init := sD; p_goal := Atom pP [o1] |} in
  simplify DX [SymP pP; SymP pQ; SymF fX] (Some sD) p = Ok (left, p') /\ execution DX String.eqb (p_actions p) (p_init p) [("drop", nosub)] m /\ execution DX String.eqb (p_actions p') (p_init p') [("drop", nosub)] m' /\
  m_holds m pP [o1] = true /\ m_holds m' pP [o1] = false.
Proof.
  eexists _, _, _, _. cbv zeta. split; [vm_compute; reflexivity|]. split; [eapply (ex_step DX String.eqb _ _ act_drop nosub); [left; reflexivity|vm_compute; reflexivity|vm_compute; reflexivity|vm_compute; reflexivity|constructor]|].
  split; [eapply (ex_step DX String.eqb _ _ {| a_name := "drop"; a_params := []; a_pre := Atom pP [o1]; a_effs := [EDel Top (Atom pP [o1])] |} nosub); [left; reflexivity|vm_compute; reflexivity|vm_compute; reflexivity|vm_compute; reflexivity|constructor]|]. split; reflexivity.
Qed.
(** The condition of a universal effect is not looked at, but its symbols are removed from the initial state. *)
Definition act_all : action := {| a_name := "all"; a_params := []; a_pre := Comp Not [Atom pQ [o2]]; a_effs := [EUni (Atom pLink [o1]) [vy] [EAdd Top (Atom pQ [vy])]] |}.
Theorem C31_universal_condition_refuted : exists left p' m m', let p := {| p_actions := [act_all]; p_init := sL; p_goal := Atom pQ [o2] |} in
  simplify DX declL (Some sL) p = Ok (left, p') /\ execution DX String.eqb (p_actions p) (p_init p) [("all", nosub)] m /\ execution DX String.eqb (p_actions p') (p_init p') [("all", nosub)] m' /\
  eval_f m (p_goal p) = Ok true /\ eval_f m' (p_goal p') = Ok false.
Proof.
  eexists _, _, _, _. cbv zeta. split; [vm_compute; reflexivity|]. split; [eapply (ex_step DX String.eqb _ _ act_all nosub); [left; reflexivity|vm_compute; reflexivity|vm_compute; reflexivity|vm_compute; reflexivity|constructor]|].
  split; [eapply (ex_step DX String.eqb _ _ act_all nosub); [left; reflexivity|vm_compute; reflexivity|vm_compute; reflexivity|vm_compute; reflexivity|constructor]|]. split; vm_compute; reflexivity.
Qed.
(** If-then-else terms are rejected. *)
Theorem C31_ite_refuted mo statics c a b : simplify_term mo statics (Ite c a b) = Err RuntimeError.
Proof. reflexivity. Qed.
