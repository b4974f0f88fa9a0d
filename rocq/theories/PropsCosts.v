(** C46: action costs *)
From Verif Require Import ListUtil Base Syntax Semantics SemLemmas Build NnfProofs BuildProofs ModelState ModelProofs Eval EvalSpec EvalProofs Index Subst SubstProofs QElim QElimProofs Effects ProgressSpec StateLemmas ProgressProofs SearchModelProofs NegBuiltinProofs PropsProgress Represent RelaxSpec PropsRelax CompileSpec PropsCompile Grounding GroundingSpec PropsGrounding Simplify SimplifySpec SimplifyProofs SimplifyProofs2 SimplifyProofs3 SimplifyProofs4 Costs CostsSpec CostsProofs.
#[local] Open Scope string_scope.

Lemma read_action_spec a c : read_action a = Ok c ->
  a_name (c_act c) = a_name a /\ a_params (c_act c) = a_params a /\ a_pre (c_act c) = a_pre a /\ a_effs (c_act c) = filter (fun e => negb (assigns_tc e)) (a_effs a) /\
  ((filter assigns_tc (a_effs a) = [] /\ c_cost c = None) \/ exists i l x t ts, filter assigns_tc (a_effs a) = [EFun i Top l (App (FB BAdd) (x :: t :: ts))] /\ c_cost c = Some t).
Proof.
  unfold read_action. destruct (process_cost_effects (a_effs a)) as [[simple costs]|] eqn:E; [|discriminate]. cbn [bind]. destruct (process_effects_spec _ _ _ E) as [-> H].
  destruct costs as [|t [|]]; try discriminate; intros [= <-]; cbn; repeat (split; [reflexivity|]).
  - left. inversion H. auto.
  - right. inversion H as [|e t' l1 l2 (i & l & x & ts & ->) Hn Heq]; subst. inversion Hn; subst. repeat eexists.
Qed.
Lemma read_actions_spec acts seen l : read_actions acts seen = Ok l -> Forall2 (fun a c => read_action a = Ok c) acts l.
Proof.
  revert seen l. induction acts as [|a acts IH]; intros seen l H; cbn [read_actions] in H; [injection H as <-; constructor|]. destruct (read_action a) as [c|] eqn:E; [|discriminate]. cbn [bind] in H. destruct (existsb _ seen); [discriminate|].
  destruct (read_actions acts (a_name a :: seen)) as [l'|] eqn:E'; [|discriminate]. cbn [bind] in H. injection H as <-. constructor; eauto.
Qed.
(** [c']: the cost of [c], or zero when it has none and some action of the domain has one *)
Definition uniform (some : bool) (c c' : costed) : Prop :=
  c_act c' = c_act c /\ c_cost c' = match c_cost c with Some t => Some t | None => if some then Some (Cst (CInt 0) "Integer") else None end.
Lemma uniformize_spec ints l l' : uniformize_costs ints l = Ok l' -> Forall2 (uniform (existsb has_cost l)) l l'.
Proof.
  unfold uniformize_costs. destruct (existsb has_cost l).
  - intros H. apply mapM_ok_Forall2 in H. induction H as [|c c' cs cs' H _ IH]; constructor; [|exact IH]. unfold uniform. destruct (c_cost c) eqn:E; [injection H as <-; rewrite E; auto|]. unfold zero_action_cost in H. destruct ints; [|discriminate]. cbn [bind] in H. injection H as <-. auto.
  - intros [= <-]. assert (X : forall c : costed, uniform false c c) by (intros c; unfold uniform; destruct (c_cost c); auto). induction l; constructor; auto.
Qed.
Lemma has_cost_spec acts l : Forall2 (fun a c => read_action a = Ok c) acts l -> existsb has_cost l = existsb (fun a => existsb assigns_tc (a_effs a)) acts.
Proof.
  induction 1 as [|a c acts l H _ IH]; [reflexivity|]. cbn [existsb]. rewrite IH. f_equal. apply read_action_spec in H as (_ & _ & _ & _ & H). unfold has_cost.
  assert (G : forall es, existsb assigns_tc es = negb (match filter assigns_tc es with [] => true | _ => false end)) by (induction es as [|e es I]; [reflexivity|]; cbn; destruct (assigns_tc e); auto). rewrite G.
  destruct H as [[-> ->]|(i & lh & x & t & ts & -> & ->)]; reflexivity.
Qed.
(** ** C46. Reading a domain takes the assignments to total-cost out of the effects of each action and keeps everything else, in order. The second summand of the assignment is the
    cost of the action; an action without such an assignment gets cost zero if some action has a cost, and no cost otherwise. *)
Definition assigns_total_cost (e : effect) : bool := match e with EFun _ _ (App (FU n _ _) _) _ => String.eqb n "total-cost" | _ => false end.
Lemma assigns_tc_eq e : assigns_total_cost e = assigns_tc e. Proof. destruct e as [| |i c l r| | |]; reflexivity. Qed.
Theorem C46_reading ints acts l : parse_domain ints acts = Ok l ->
  Forall2 (fun a c => a_name (c_act c) = a_name a /\ a_params (c_act c) = a_params a /\ a_pre (c_act c) = a_pre a /\ a_effs (c_act c) = filter (fun e => negb (assigns_total_cost e)) (a_effs a) /\
    match filter assigns_total_cost (a_effs a) with
    | [] => c_cost c = if existsb (fun a => existsb assigns_total_cost (a_effs a)) acts then Some (Cst (CInt 0) "Integer") else None
    | [EFun _ Top _ (App (FB BAdd) (_ :: t :: _))] => c_cost c = Some t
    | _ => False
    end) acts l.
Proof.
  unfold parse_domain. destruct (read_actions acts []) as [l0|] eqn:E; [|discriminate]. cbn [bind]. intros H. apply read_actions_spec in E. apply uniformize_spec in H. rewrite (has_cost_spec acts l0 E) in H.
  assert (F1 : forall es, filter assigns_total_cost es = filter assigns_tc es) by (intros; apply filter_ext; apply assigns_tc_eq). assert (F2 : forall es, filter (fun e => negb (assigns_total_cost e)) es = filter (fun e => negb (assigns_tc e)) es) by (intros; apply filter_ext; intros; now rewrite assigns_tc_eq).
  assert (F3 : forall acts, existsb (fun a => existsb assigns_total_cost (a_effs a)) acts = existsb (fun a => existsb assigns_tc (a_effs a)) acts).
  { clear. assert (G : forall es, existsb assigns_total_cost es = existsb assigns_tc es) by (induction es as [|e es I]; [reflexivity|]; cbn; rewrite I, assigns_tc_eq; reflexivity). induction acts as [|a acts I]; [reflexivity|]. cbn. now rewrite I, G. }
  rewrite F3. set (some := existsb (fun a => existsb assigns_tc (a_effs a)) acts) in *. clearbody some. revert l H. induction E as [|a c acts l0 Ha _ IH]; intros l H; inversion H as [|? c' ? l' [U1 U2] Hl]; subst; constructor; [|auto].
  rewrite F1, F2, U1, U2. apply read_action_spec in Ha as (H1 & H2 & H3 & H4 & H5). repeat (split; [auto; fail|]). destruct H5 as [[-> ->]|(i & lh & x & t & ts & -> & ->)]; reflexivity.
Qed.
Print Assumptions C46_reading.
(** ** C46. All or none: after reading, either every action has a cost or none has. *)
Theorem C46_all_or_none ints acts l : parse_domain ints acts = Ok l -> (forall c, In c l -> c_cost c <> None) \/ (forall c, In c l -> c_cost c = None).
Proof.
  intros H. apply C46_reading in H. destruct (existsb (fun a => existsb assigns_total_cost (a_effs a)) acts) eqn:E; [left|right]; intros c Hc; destruct (Forall2_In_r _ _ _ _ H Hc) as (a & Ha & _ & _ & _ & _ & X).
  - destruct (filter assigns_total_cost (a_effs a)) as [|e [|]]; [rewrite X; discriminate| |destruct e as [| |? [] ? [| |[[]|] [|? [|]]|]| | |]; contradiction]. destruct e as [| |? [] ? [| |[[]|] [|? [|]]|]| | |]; try contradiction. rewrite X. discriminate.
  - assert (N : filter assigns_total_cost (a_effs a) = []).
    { destruct (filter assigns_total_cost (a_effs a)) as [|e es] eqn:F; [reflexivity|]. exfalso. assert (In e (filter assigns_total_cost (a_effs a))) by (rewrite F; left; auto). apply filter_In in H0 as [H1 H2].
      assert (T : existsb (fun a => existsb assigns_total_cost (a_effs a)) acts = true) by (apply existsb_exists; exists a; split; [auto|]; apply existsb_exists; eauto). congruence. }
    rewrite N in X. exact X.
Qed.
Print Assumptions C46_all_or_none.

(** * Plans *)
Section Plans.
Variables (D : domains) (sub : sort -> sort -> bool) (cod : sort).
Hypothesis TD : typed_domains D sub.
Notation TC := (total_cost cod).
Notation U := (not_cost cod).
Definition other (e : effect) : Prop := plain_effect e = true /\ forall d c, ~ reads e (SymF (FU "total-cost" d c)) /\ ~ changes e (SymF (FU "total-cost" d c)).
Lemma action_cases a c : proper_costs cod a -> read_action a = Ok c ->
  (c_cost c = None /\ a_effs (c_act c) = a_effs a /\ forall e, In e (a_effs a) -> other e) \/
  (exists i t l1 l2, c_cost c = Some t /\ a_effs a = (l1 ++ EFun i Top (App TC []) (App (FB BAdd) [App TC []; t]) :: l2)%list /\ a_effs (c_act c) = (l1 ++ l2)%list /\ (forall e, In e (l1 ++ l2) -> other e) /\
     forall x, occurs_t x t -> x <> SymF TC /\ forall e, In e (l1 ++ l2) -> ~ changes e x).
Proof.
  intros [_ Hp] H. apply read_action_spec in H as (_ & _ & _ & He & H).
  assert (OT : forall e, In e (a_effs a) -> assigns_tc e = false -> other e).
  { intros e Hin A. destruct (Hp e Hin) as [P [(t & [i ->] & _)|N]]; [cbn in A; discriminate|]. split; auto. }
  destruct H as [[F N]|(i & lh & x & t & ts & F & N)].
  - left. split; [exact N|]. assert (G : forall e, In e (a_effs a) -> assigns_tc e = false).
    { intros e Hin. destruct (assigns_tc e) eqn:A; [|auto]. assert (X : In e (filter assigns_tc (a_effs a))) by (apply filter_In; auto). rewrite F in X. destruct X. }
    split; [|auto]. rewrite He. clear - G. induction (a_effs a) as [|e es IH]; [reflexivity|]. cbn [filter]. rewrite (G e (or_introl eq_refl)). cbn [negb]. f_equal. apply IH. intros; apply G; right; auto.
  - right. set (e0 := EFun i Top lh (App (FB BAdd) (x :: t :: ts))) in *. assert (X : In e0 (filter assigns_tc (a_effs a))) by (rewrite F; left; auto). apply filter_In in X as [X1 X2].
    destruct (Hp e0 X1) as [P0 [(t' & [i' E] & St)|N']]; [|exfalso; rewrite (other_process e0) in X2; [discriminate|auto|intros; apply N']].
    unfold e0 in E. injection E as -> -> -> -> ->. exists i', t'.
    assert (SP : forall es, filter assigns_tc es = [e0] -> exists l1 l2, es = (l1 ++ e0 :: l2)%list /\ filter (fun e => negb (assigns_tc e)) es = (l1 ++ l2)%list /\ forall e, In e (l1 ++ l2) -> assigns_tc e = false).
    { clear. induction es as [|e es IH]; intros F; [discriminate|]. cbn [filter] in F. destruct (assigns_tc e) eqn:A.
      - injection F as -> F. exists [], es. split; [reflexivity|]. cbn [filter app]. rewrite A. cbn [negb]. assert (G : forall e, In e es -> assigns_tc e = false) by (intros e Hin; destruct (assigns_tc e) eqn:B; [|auto]; assert (X : In e (filter assigns_tc es)) by (apply filter_In; auto); rewrite F in X; destruct X).
        split; [|exact G]. clear - G. induction es as [|e es IH]; [reflexivity|]. cbn [filter]. rewrite (G e (or_introl eq_refl)). cbn [negb]. f_equal. apply IH. intros; apply G; right; auto.
      - destruct (IH F) as (l1 & l2 & -> & E2 & G). exists (e :: l1), l2. split; [reflexivity|]. cbn [filter]. rewrite A. cbn [negb app]. rewrite E2. split; [reflexivity|]. intros e1 [<-|H]; auto. }
    destruct (SP _ F) as (l1 & l2 & E1 & E2 & G). exists l1, l2. split; [exact N|]. split; [exact E1|]. split; [congruence|]. rewrite E1 in OT, St. split.
    + intros e Hin. apply OT; [|auto]. rewrite in_app_iff in *. cbn [In]. tauto.
    + intros y Hy. destruct (St y Hy) as [S1 S2]. split; [auto|]. intros e Hin. apply S2. rewrite in_app_iff in *. cbn [In]. tauto.
Qed.
Definition read_pair (acts : list action) (l : list costed) : Prop :=
  Forall2 (fun a c' => exists c b, read_action a = Ok c /\ uniform b c c') acts l.
Lemma parse_pairs ints acts l : parse_domain ints acts = Ok l -> read_pair acts l.
Proof.
  unfold parse_domain. destruct (read_actions acts []) as [l0|] eqn:E; [|discriminate]. cbn [bind]. intros H. apply read_actions_spec in E. apply uniformize_spec in H. set (b := existsb has_cost l0) in *. clearbody b.
  revert l H. induction E as [|a c acts l0 Ha _ IH]; intros l H; inversion H as [|? c' ? l' Hc Hl]; subst; constructor; [eauto|]. apply IH; auto.
Qed.
Lemma zero_costs m s : constant_binding s -> costs_in m (Some (Cst (CInt 0) "Integer")) s 0.
Proof. intros C. exists "Integer". cbn [subst_term]. rewrite binding_visit by (auto using constant_parameter; discriminate). reflexivity. Qed.
Lemma ground_parts a s pre effs : ground_schema a s = Ok (pre, effs) -> mapM (subst_effect s) (a_effs a) = Ok effs /\ flatten (subst_formula s (a_pre a)) = Ok pre /\ forallb (fun x => match get_t (sub_t s) x with Some (Cst _ _) => true | _ => false end) (a_params a) = true.
Proof.
  unfold ground_schema. destruct (forallb _ _); [|discriminate]. destruct (mapM _ _) as [l|] eqn:El; [|discriminate]. cbn [bind]. destruct (flatten _) as [g|] eqn:Ef; [|discriminate]. cbn [bind]. intros [= <- <-]. auto.
Qed.
Lemma ground_join a s pre effs : mapM (subst_effect s) (a_effs a) = Ok effs -> flatten (subst_formula s (a_pre a)) = Ok pre -> forallb (fun x => match get_t (sub_t s) x with Some (Cst _ _) => true | _ => false end) (a_params a) = true -> ground_schema a s = Ok (pre, effs).
Proof. intros H1 H2 H3. unfold ground_schema. rewrite H3, H1. cbn [bind]. rewrite H2. reflexivity. Qed.
Lemma ground_other s l l' : constant_binding s -> (forall e, In e l -> other e) -> mapM (subst_effect s) l = Ok l' -> forall e, In e l' -> apart cod e.
Proof. intros C HO E e He. apply mapM_ok_Forall2 in E. destruct (Forall2_In_r _ _ _ _ E He) as (e0 & H0 & E0). destruct (HO e0 H0) as [P N]. eapply ground_apart; eauto. Qed.
Lemma pre_same a s pre x y : constant_binding s -> proper_costs cod a -> flatten (subst_formula s (a_pre a)) = Ok pre -> same_on U x y -> is_applicable x pre = is_applicable y pre.
Proof.
  intros C [Hp _] E S. apply (eval_in U); [exact S|]. eapply fin_flatten; [exact E|]. apply fin_subst; [exact C|]. split; [intros p _; discriminate|]. intros g Hg [= ->]. exact (Hp _ Hg [] cod eq_refl).
Qed.
Lemma mapM_bind {A B} (f : A -> res B) l1 l2 : mapM f (l1 ++ l2) = (let! a := mapM f l1 in let! b := mapM f l2 in Ok (a ++ b)%list).
Proof. induction l1 as [|x l1 IH]; [cbn; destruct (mapM f l2); reflexivity|]. cbn [app]. rewrite !mapM_cons, IH. destruct (f x); cbn [bind]; [|reflexivity]. destruct (mapM f l1); cbn [bind]; [|reflexivity]. destruct (mapM f l2); reflexivity. Qed.
Lemma mapM_mid {A B} (f : A -> res B) l1 x l2 l : mapM f (l1 ++ x :: l2) = Ok l -> exists m1 y m2, mapM f l1 = Ok m1 /\ f x = Ok y /\ mapM f l2 = Ok m2 /\ l = (m1 ++ y :: m2)%list.
Proof.
  rewrite mapM_bind. destruct (mapM f l1) as [m1|]; [|discriminate]. cbn [bind]. rewrite mapM_cons. destruct (f x) as [y|]; [|discriminate]. cbn [bind]. destruct (mapM f l2) as [m2|]; [|discriminate]. cbn [bind]. intros [= <-]. exists m1, y, m2. auto.
Qed.
Lemma mapM_join {A B} (f : A -> res B) l1 l2 m1 m2 : mapM f l1 = Ok m1 -> mapM f l2 = Ok m2 -> mapM f (l1 ++ l2) = Ok (m1 ++ m2)%list.
Proof. apply mapM_app. Qed.

(** One step of the domain as written and one step of the domain as read *)
Lemma step_forward a c b0 c' s pre effs x y x' n r : proper_costs cod a -> read_action a = Ok c -> uniform b0 c c' -> constant_binding s -> proper x -> proper y -> same_on U x y ->
  ground_schema a s = Ok (pre, effs) -> is_applicable x pre = Ok true -> progress D sub x effs = Ok x' -> m_value x TC [] = Ok (Cst (CInt n) r) ->
  exists effs' y' z r', ground_schema (c_act c') s = Ok (pre, effs') /\ is_applicable y pre = Ok true /\ progress D sub y effs' = Ok y' /\ costs_in y (c_cost c') s z /\ same_on U x' y' /\ proper x' /\ proper y' /\
    m_value x' TC [] = Ok (Cst (CInt (n + z)) r') /\ m_value y' TC [] = m_value y TC [].
Proof.
  intros HP HR [U1 U2] C Px Py S G A P V. destruct (ground_parts _ _ _ _ G) as (G1 & G2 & G3). assert (R := read_action_spec a c HR). destruct R as (_ & R2 & R3 & _). rewrite (pre_same a s pre x y C HP G2 S) in A.
  destruct (action_cases a c HP HR) as [(N & E & O)|(i & t & l1 & l2 & N & E & E' & O & St)].
  - destruct (free_step D sub cod TD effs x y x') as (y' & F & S' & Px' & Py' & V1 & V2); auto; [eapply ground_other; eauto|]. exists effs, y', 0%Z, r. rewrite U1, U2, N. split; [apply ground_join; congruence|]. split; [auto|]. split; [auto|].
    split; [destruct b0; [now apply zero_costs|reflexivity]|]. repeat (split; [auto; fail|]). rewrite Z.add_0_r. split; [congruence|auto].
  - rewrite E in G1. destruct (mapM_mid _ _ _ _ _ G1) as (m1 & e1 & m2 & M1 & Me & M2 & ->). rewrite (ground_increase cod s i t C) in Me. injection Me as <-. assert (M := mapM_join _ _ _ _ _ M1 M2).
    destruct (cost_step_forward D sub cod TD i (subst_term s t) m1 m2 x y x') as (y' & n' & z & rz & r0 & r1 & F & S' & Px' & Py' & V2 & Ez & Vn & Vz); auto; [eapply ground_other; eauto|eapply (ground_stable cod s t (l1 ++ l2)); eauto; intros e He; apply (O e He)|].
    exists (m1 ++ m2)%list, y', z, r1. rewrite U1, U2, N. split; [apply ground_join; congruence|]. split; [auto|]. split; [auto|]. split; [cbn; eauto|]. repeat (split; [auto; fail|]). split; [|auto]. rewrite Vz. congruence.
Qed.
Lemma step_backward a c b0 c' s pre effs' x y y' n r z : proper_costs cod a -> read_action a = Ok c -> uniform b0 c c' -> constant_binding s -> proper x -> proper y -> same_on U x y -> sub "Integer" cod = true ->
  ground_schema (c_act c') s = Ok (pre, effs') -> is_applicable y pre = Ok true -> progress D sub y effs' = Ok y' -> costs_in y (c_cost c') s z -> m_value x TC [] = Ok (Cst (CInt n) r) -> (- int_max <= n + z <= int_max)%Z ->
  exists effs x' r', ground_schema a s = Ok (pre, effs) /\ is_applicable x pre = Ok true /\ progress D sub x effs = Ok x' /\ same_on U x' y' /\ proper x' /\ proper y' /\ m_value x' TC [] = Ok (Cst (CInt (n + z)) r').
Proof.
  intros HP HR [U1 U2] C Px Py S HI G A P K V B. rewrite U1 in G. rewrite U2 in K. destruct (ground_parts _ _ _ _ G) as (G1 & G2 & G3). assert (R := read_action_spec a c HR). destruct R as (_ & R2 & R3 & _). rewrite R2 in G3. rewrite R3 in G2. rewrite <- (pre_same a s pre x y C HP G2 S) in A.
  destruct (action_cases a c HP HR) as [(N & E & O)|(i & t & l1 & l2 & N & E & E' & O & St)].
  - assert (S' : same_on U y x) by (destruct S; split; intros; symmetry; auto). rewrite E in G1. destruct (free_step D sub cod TD effs' y x y') as (x' & F & S2 & Py' & Px' & V1 & V2); auto; [eapply ground_other; eauto|].
    assert (z = 0%Z) as ->. { rewrite N in K. destruct b0; [|exact K]. destruct (zero_costs y s C) as [r0 E0]. destruct K as [r1 E1]. rewrite E0 in E1. congruence. }
    exists effs', x', r. split; [apply ground_join; auto|]. split; [auto|]. split; [auto|]. split; [destruct S2; split; intros; symmetry; auto|]. split; [auto|]. split; [auto|]. rewrite Z.add_0_r, V2. exact V.
  - rewrite E' in G1. rewrite mapM_bind in G1. destruct (mapM (subst_effect s) l1) as [m1|] eqn:M1; [|discriminate]. cbn [bind] in G1. destruct (mapM (subst_effect s) l2) as [m2|] eqn:M2; [|discriminate]. cbn [bind] in G1. injection G1 as <-. assert (M := mapM_join _ _ _ _ _ M1 M2).
    rewrite N in K. destruct K as [rz Kz].
    destruct (cost_step_backward D sub cod TD i (subst_term s t) m1 m2 x y y' n z rz r) as (x' & F & S' & Px' & Py' & Vx); auto; [eapply ground_other; eauto|eapply (ground_stable cod s t (l1 ++ l2)); eauto; intros e He; apply (O e He)|].
    eexists _, x', "Integer". split; [|split; [exact A|split; [exact F|auto]]]. apply ground_join; auto. rewrite E. rewrite mapM_bind, M1. cbn [bind]. rewrite mapM_cons, (ground_increase cod s i t C). cbn [bind]. rewrite M2. reflexivity.
Qed.
End Plans.

(** ** C46. The cost attributes account for total-cost. If the actions use total-cost as PDDL prescribes (they only increase it, by expressions over symbols they do not change), then every
    run of the actions as written is a run of the actions as read, through states that differ in total-cost only; and the value of total-cost grows by exactly the sum of the action costs. *)
Theorem C46_plan_costs D sub cod ints acts l plan m m' n r : typed_domains D sub -> (forall a, In a acts -> proper_costs cod a) -> parse_domain ints acts = Ok l -> is_state sub m ->
  Forall (fun step => constant_binding (snd step)) plan -> m_value m (total_cost cod) [] = Ok (Cst (CInt n) r) -> execution D sub acts m plan m' ->
  exists k m'' r', paid D sub l m plan k m'' /\ same_on (not_cost cod) m' m'' /\ m_value m'' (total_cost cod) [] = m_value m (total_cost cod) [] /\ m_value m' (total_cost cod) [] = Ok (Cst (CInt (n + k)) r').
Proof.
  intros TD HP HR Hm HB HV HE. apply parse_pairs in HR. apply state_proper in Hm.
  assert (G : forall y, proper y -> same_on (not_cost cod) m y -> exists k m'' r', paid D sub l y plan k m'' /\ same_on (not_cost cod) m' m'' /\ m_value m'' (total_cost cod) [] = m_value y (total_cost cod) [] /\ m_value m' (total_cost cod) [] = Ok (Cst (CInt (n + k)) r')).
  { revert n r HV. induction HE as [m|m a s pre effs m1 plan m2 Ha Hg Hap Hpr Hex IH]; intros n r HV y Hy S.
    - exists 0%Z, y, r. split; [constructor|]. rewrite Z.add_0_r. auto.
    - inversion HB as [|? ? HC HB']; subst. cbn [snd] in HC. destruct (Forall2_In_l _ _ _ _ HR Ha) as (c' & Hc' & c & b & Rc & Uc).
      destruct (step_forward D sub cod TD a c b c' s pre effs m y m1 n r) as (effs' & y' & z & r' & G1 & G2 & G3 & G4 & S' & P1 & P2 & V1 & V2); auto.
      destruct (IH P1 HB' (n + z)%Z r' V1 y' P2 S') as (k & m'' & r'' & K1 & K2 & K3 & K4). exists (z + k)%Z, m'', r''.
      assert (EN : a_name a = a_name (c_act c')) by (destruct (read_action_spec a c Rc) as (R1 & _); destruct Uc as [-> _]; auto). rewrite EN.
      split; [econstructor; eauto|]. split; [auto|]. split; [congruence|]. rewrite Z.add_assoc. exact K4. }
  apply G; auto. split; auto.
Qed.
Print Assumptions C46_plan_costs.
(** ** C46. Conversely, a run of the actions as read is a run of the actions as written, as long as total-cost can hold the accumulated cost. *)
Theorem C46_plan_costs_converse D sub cod ints acts l plan k m m' n r : typed_domains D sub -> (forall a, In a acts -> proper_costs cod a) -> parse_domain ints acts = Ok l -> is_state sub m -> sub "Integer" cod = true ->
  Forall (fun step => constant_binding (snd step)) plan -> m_value m (total_cost cod) [] = Ok (Cst (CInt n) r) -> paid D sub l m plan k m' ->
  (forall plan1 plan2 k1 m1, plan = (plan1 ++ plan2)%list -> paid D sub l m plan1 k1 m1 -> (- int_max <= n + k1 <= int_max)%Z) ->
  exists m'' r', execution D sub acts m plan m'' /\ same_on (not_cost cod) m'' m' /\ m_value m'' (total_cost cod) [] = Ok (Cst (CInt (n + k)) r').
Proof.
  intros TD HP HR Hm HI HB HV HE HN. apply parse_pairs in HR. apply state_proper in Hm.
  assert (G : forall x n r, proper x -> same_on (not_cost cod) x m -> m_value x (total_cost cod) [] = Ok (Cst (CInt n) r) -> (forall plan1 plan2 k1 m1, plan = (plan1 ++ plan2)%list -> paid D sub l m plan1 k1 m1 -> (- int_max <= n + k1 <= int_max)%Z) ->
    exists m'' r', execution D sub acts x plan m'' /\ same_on (not_cost cod) m'' m' /\ m_value m'' (total_cost cod) [] = Ok (Cst (CInt (n + k)) r')).
  { clear n r HV HN. induction HE as [m|m c' s pre effs z m1 plan k m2 Hc Hg Hap Hz Hpr Hex IH]; intros x n r Hx S V HN.
    - exists x, r. split; [constructor|]. rewrite Z.add_0_r. auto.
    - inversion HB as [|? ? HC HB']; subst. cbn [snd] in HC. destruct (Forall2_In_r _ _ _ _ HR Hc) as (a & Ha & c & b & Rc & Uc).
      destruct (step_backward D sub cod TD a c b c' s pre effs x m m1 n r z) as (effs' & x' & r' & G1 & G2 & G3 & S' & P1 & P2 & V1); auto.
      { apply (HN [(a_name (c_act c'), s)] plan z m1); [reflexivity|]. rewrite <- (Z.add_0_r z). econstructor; eauto. constructor. }
      destruct (IH P2 HB' x' (n + z)%Z r') as (m'' & r'' & K1 & K2 & K3); auto.
      { intros p1 p2 k1 m3 -> HP1. rewrite <- Z.add_assoc. apply (HN ((a_name (c_act c'), s) :: p1) p2 (z + k1)%Z m3); [reflexivity|]. econstructor; eauto. }
      exists m'', r''. assert (EN : a_name (c_act c') = a_name a) by (destruct (read_action_spec a c Rc) as (R1 & _); destruct Uc as [-> _]; auto). rewrite EN. split; [econstructor; eauto|]. split; [auto|]. rewrite Z.add_assoc. exact K3. }
  apply (G m n r); auto. split; auto.
Qed.
Print Assumptions C46_plan_costs_converse.

(** ** C46. Domains that use total-cost as prescribed, at most one increase per action and each name once, are read without exception. *)
Theorem C46_accepts cod acts : (forall a, In a acts -> proper_costs cod a) -> NoDup (map a_name acts) -> (forall a, In a acts -> List.length (filter assigns_total_cost (a_effs a)) <= 1) -> exists l, parse_domain true acts = Ok l.
Proof.
  intros HP HN HL.
  assert (R : forall a, In a acts -> exists c, read_action a = Ok c).
  { intros a Ha. destruct (HP a Ha) as [_ Hp]. assert (HL' := HL a Ha). unfold read_action.
    assert (G : forall es, (forall e, In e es -> In e (a_effs a)) -> exists simple costs, process_cost_effects es = Ok (simple, costs)).
    { induction es as [|e es IH]; intros Hin; [exists [], []; reflexivity|]. destruct (IH ltac:(intros; apply Hin; right; auto)) as (si & co & E). cbn [process_cost_effects]. rewrite E.
      destruct (Hp e (Hin e (or_introl eq_refl))) as [P [(t & [i ->] & _)|N]]; [cbn; eauto|]. rewrite process_none by (apply other_process; [auto|intros; apply N]). cbn [bind]. eauto. }
    destruct (G (a_effs a) (fun e H => H)) as (si & co & E). rewrite E. cbn [bind]. destruct (process_effects_spec _ _ _ E) as [_ F].
    assert (LN : List.length (filter assigns_total_cost (a_effs a)) = List.length co).
    { rewrite (filter_ext _ _ assigns_tc_eq). clear - F. induction F; cbn; congruence. }
    destruct co as [|t [|]]; eauto. cbn [List.length] in LN. lia. }
  unfold parse_domain. assert (RA : forall acts' seen, (forall a, In a acts' -> In a acts) -> NoDup (map a_name acts') -> (forall a, In a acts' -> ~ In (a_name a) seen) -> exists l, read_actions acts' seen = Ok l).
  { induction acts' as [|a acts' IH]; intros seen Hin ND NS; [exists []; reflexivity|]. cbn [read_actions]. destruct (R a (Hin a (or_introl eq_refl))) as [c ->]. cbn [bind]. cbn [map] in ND. inversion ND as [|? ? N1 N2]; subst.
    destruct (existsb (String.eqb (a_name a)) seen) eqn:E; [apply existsb_exists in E as (n & Hn & E); apply String.eqb_eq in E as <-; exfalso; apply (NS a); cbn; auto|].
    destruct (IH (a_name a :: seen)) as [l ->]; [intros; apply Hin; right; auto|exact N2| |cbn [bind]; eauto]. intros b Hb [Eb|Hs]; [apply N1; rewrite Eb; now apply in_map|apply (NS b); cbn; auto]. }
  destruct (RA acts [] (fun a H => H) HN ltac:(intros a _ [])) as [l ->]. cbn [bind]. unfold uniformize_costs. destruct (existsb has_cost l); [|eauto]. clear. induction l as [|c l [l' IH]]; [eexists; reflexivity|]. rewrite mapM_cons, IH. destruct (c_cost c); cbn; eauto.
Qed.
Print Assumptions C46_accepts.

(** * Classification of costs *)
Theorem C46_constant c m s z m' s' : is_constant_cost_action c = true -> constant_binding s -> constant_binding s' -> costs_in m (c_cost c) s z -> costs_in m' (c_cost c) s' z.
Proof.
  unfold is_constant_cost_action, costs_in. destruct (c_cost c) as [[|k u| |]|]; try discriminate; auto. intros _ C C'. cbn [subst_term]. rewrite !binding_visit by (auto using constant_parameter; discriminate). intros [r H]. exists r. exact H.
Qed.
Print Assumptions C46_constant.
(** In a unit-cost problem all of whose actions have a cost, a plan costs as much as it has steps; actions that pass the zero-cost test cost nothing. *)
Theorem C46_unit D sub l m plan k m' : is_unit_cost_problem l = true -> (forall c, In c l -> c_cost c <> None) -> Forall (fun step => constant_binding (snd step)) plan -> paid D sub l m plan k m' -> k = Z.of_nat (List.length plan).
Proof.
  intros HU HN HB H. unfold is_unit_cost_problem in HU. rewrite forallb_forall in HU. induction H as [|m c s pre effs z m1 plan k m2 Hc Hg Hap Hz Hpr Hex IH]; [reflexivity|]. inversion HB as [|? ? HC HB']; subst. rewrite (IH HB'). cbn [List.length].
  assert (X := HU c Hc). unfold is_unit_cost_action in X. unfold costs_in in Hz. destruct (c_cost c) as [t|] eqn:E; [|exfalso; now apply (HN c Hc)]. destruct t as [|[|v] u| |]; try discriminate. cbn in X. apply Z.eqb_eq in X as ->. cbn [snd] in HC. cbn [subst_term] in Hz. rewrite binding_visit in Hz by (auto using constant_parameter; discriminate). destruct Hz as [r Hz]. cbn in Hz. injection Hz as <- _. lia.
Qed.
Print Assumptions C46_unit.
Theorem C46_zero D sub l m plan k m' : forallb is_zero_cost_action l = true -> Forall (fun step => constant_binding (snd step)) plan -> paid D sub l m plan k m' -> k = 0%Z.
Proof.
  intros HU HB H. rewrite forallb_forall in HU. induction H as [|m c s pre effs z m1 plan k m2 Hc Hg Hap Hz Hpr Hex IH]; [reflexivity|]. inversion HB as [|? ? HC HB']; subst. rewrite (IH HB').
  assert (X := HU c Hc). unfold is_zero_cost_action in X. unfold costs_in in Hz. destruct (c_cost c) as [t|] eqn:E; [|lia]. destruct t as [|[|v] u| |]; try discriminate. cbn in X. apply Z.eqb_eq in X as ->. cbn [snd] in HC. cbn [subst_term] in Hz. rewrite binding_visit in Hz by (auto using constant_parameter; discriminate). destruct Hz as [r Hz]. cbn in Hz. injection Hz as <- _. lia.
Qed.
Print Assumptions C46_zero.

(** ** Examples. (:action drive :effect (and (q a) (increase (total-cost) (dist)))) and (:action wait :effect (p b)), from a state with total-cost 3 and dist 5 *)
Definition num (z : Z) := Cst (CInt z) "Integer".
Definition fC := total_cost "Integer".
Definition fD := FU "dist" [] "Integer".
Definition inc (t : term) := EFun false Top (App fC []) (App (FB BAdd) [App fC []; t]).
Definition act_drive := {| a_name := "drive"; a_params := []; a_pre := Atom pP [o1]; a_effs := [EAdd Top (Atom pQ [o1]); inc (App fD []); EDel Top (Atom pP [o2])] |}.
Definition act_wait := {| a_name := "wait"; a_params := []; a_pre := Top; a_effs := [EAdd Top (Atom pP [o2])] |}.
Definition nobind : subst := {| sub_t := []; sub_f := [] |}.
Definition sC : model := mrun String.eqb [OAdd pP [o1]; OSet (App fC []) (num 3); OSet (App fD []) (num 5)] empty_model.
Definition planC := [("wait", nobind); ("drive", nobind)].
Definition act_drive' := {| a_name := "drive"; a_params := []; a_pre := Atom pP [o1]; a_effs := [EAdd Top (Atom pQ [o1]); EDel Top (Atom pP [o2])] |}.
Definition lC := [{| c_act := act_wait; c_cost := Some (num 0) |}; {| c_act := act_drive'; c_cost := Some (App fD []) |}].
Lemma wait_proper : proper_costs "Integer" act_wait.
Proof.
  split; [intros g []|]. intros e [<-|[]]. split; [reflexivity|]. right. intros d c. split; [intros (e' & H & R)|intros (e' & H & R)]; inversion H; subst.
  - destruct R as [R|R]; exact R.
  - cbn in R. destruct R as (p & ts & _ & ?). discriminate.
Qed.
Lemma drive_proper : proper_costs "Integer" act_drive.
Proof.
  split; [intros g []|]. intros e [<-|[<-|[<-|[]]]]; (split; [reflexivity|]).
  - right. intros d c. split; intros (e' & H & R); inversion H; subst; [destruct R as [R|R]; exact R|cbn in R; destruct R as (p & ts & _ & ?); discriminate].
  - left. exists (App fD []). split; [exists false; reflexivity|]. intros [p|g] Hx; cbn in Hx; [destruct Hx|]. destruct Hx as [<-|[]]. split; [discriminate|]. intros e' [<-|[<-|[<-|[]]]] (e1 & H & R); inversion H; subst; cbn in R; destruct R as (p & ts & E & X); try discriminate. injection E as <- <-. discriminate X.
  - right. intros d c. split; intros (e' & H & R); inversion H; subst; [destruct R as [R|R]; exact R|cbn in R; destruct R as (p & ts & _ & ?); discriminate].
Qed.
Lemma nobind_ok : constant_binding nobind. Proof. split; [reflexivity|]. intros k v []. Qed.
Theorem C46_nonvacuous : exists l m' m'', typed_domains DX String.eqb /\ (forall a, In a [act_wait; act_drive] -> proper_costs "Integer" a) /\ is_state String.eqb sC /\ parse_domain true [act_wait; act_drive] = Ok l /\ Forall (fun step => constant_binding (snd step)) planC /\
  execution DX String.eqb [act_wait; act_drive] sC planC m' /\ m_value sC fC [] = Ok (num 3) /\ m_value m' fC [] = Ok (num 8) /\ paid DX String.eqb l sC planC 5 m'' /\ is_constant_cost_problem l = false /\
  (forall plan1 plan2 k1 m1, planC = (plan1 ++ plan2)%list -> paid DX String.eqb l sC plan1 k1 m1 -> (- int_max <= 3 + k1 <= int_max)%Z).
Proof.
  exists lC. eexists. eexists. split; [exact DX_typed|]. split; [intros a [<-|[<-|[]]]; [exact wait_proper|exact drive_proper]|]. split; [eexists; reflexivity|]. split; [reflexivity|]. split; [constructor; [exact nobind_ok|constructor; [exact nobind_ok|constructor]]|].
  split.
  { apply (ex_step DX String.eqb _ sC act_wait nobind Top [EAdd Top (Atom pP [o2])] (mrun String.eqb [OAdd pP [o1]; OSet (App fC []) (num 3); OSet (App fD []) (num 5); OAdd pP [o2]] empty_model) [("drive", nobind)]); [cbn; auto|reflexivity|reflexivity|reflexivity|].
    eapply (ex_step DX String.eqb _ _ act_drive nobind); [cbn; auto|reflexivity|reflexivity|reflexivity|constructor]. }
  split; [reflexivity|]. split; [reflexivity|]. split.
  { change 5%Z with (0 + (5 + 0))%Z. apply (paid_step DX String.eqb _ sC {| c_act := act_wait; c_cost := Some (num 0) |} nobind Top [EAdd Top (Atom pP [o2])] 0 (mrun String.eqb [OAdd pP [o1]; OSet (App fC []) (num 3); OSet (App fD []) (num 5); OAdd pP [o2]] empty_model) [("drive", nobind)]); [left; reflexivity|reflexivity|reflexivity|exists "Integer"; reflexivity|reflexivity|].
    eapply (paid_step DX String.eqb _ _ {| c_act := act_drive'; c_cost := Some (App fD []) |} nobind _ _ 5); [right; left; reflexivity|reflexivity|reflexivity|exists "Integer"; reflexivity|reflexivity|constructor]. }
  split; [reflexivity|].
  intros p1 p2 k1 m1 E H. unfold planC in E.
  assert (ST : forall c s z m, In c lC ->
     s = nobind -> m_value m fD [] = Ok (num 5) -> costs_in m (c_cost c) s z -> (0 <= z <= 5)%Z).
  { intros c s z m Hc -> Hv Hz. destruct Hc as [<-|[<-|[]]]; destruct Hz as [r Hz]; cbn in Hz; [injection Hz as <- _; lia|]. fold fD in Hz. rewrite Hv in Hz. injection Hz as <- _. lia. }
  destruct p1 as [|st1 [|st2 [|]]]; cbn in E; try discriminate; inversion H as [|m c s pre effs z ma plan k mb Hc Hg Hap Hz Hpr Hex]; subst; try (unfold int_max; lia).
  - injection E as _ <- _. inversion Hex; subst. assert (B := ST c nobind z sC Hc eq_refl eq_refl Hz). unfold int_max. lia.
  - inversion E; subst. assert (B := ST c nobind z sC Hc eq_refl eq_refl Hz). inversion Hex as [|m c2 s2 pre2 effs2 z2 mb2 plan2 k2 mc Hc2 Hg2 Hap2 Hz2 Hpr2 Hex2]; subst. inversion Hex2; subst.
    assert (V : m_value ma fD [] = Ok (num 5)).
    { destruct Hc as [<-|[<-|[]]]; cbn in Hg; injection Hg as <- <-; cbn in Hpr; injection Hpr as <-; reflexivity. }
    assert (B2 := ST _ _ _ _ Hc2 eq_refl V Hz2). unfold int_max. lia.
Qed.
Print Assumptions C46_nonvacuous.

(** ** The conditions of the theorem are needed. *)
(** total-cost := dist + total-cost: the second summand is taken for the cost (common.py:118). *)
Definition act_swapped := {| a_name := "drive"; a_params := []; a_pre := Top; a_effs := [EFun false Top (App fC []) (App (FB BAdd) [App fD []; App fC []])] |}.
(** dist is changed by the same action before the cost is added. *)
Definition act_changes := {| a_name := "drive"; a_params := []; a_pre := Top; a_effs := [EFun false Top (App fD []) (num 1); inc (App fD [])] |}.
(** an increase below a universal quantifier is not recognised as a cost *)
Definition act_forall := {| a_name := "drive"; a_params := []; a_pre := Top; a_effs := [EUni Top [Var "x" "obj"] [inc (num 1)]] |}.
Definition charged (a : action) (t u k : Z) : Prop := exists l m' m'', parse_domain true [a] = Ok l /\ execution DX String.eqb [a] sC [("drive", nobind)] m' /\ m_value m' fC [] = Ok (num t) /\ paid DX String.eqb l sC [("drive", nobind)] k m'' /\ m_value m'' fC [] = Ok (num u).
Theorem C46_summands_refuted : charged act_swapped 8 3 3.
Proof.
  exists [{| c_act := {| a_name := "drive"; a_params := []; a_pre := Top; a_effs := [] |}; c_cost := Some (App fC []) |}]. eexists. exists sC. split; [reflexivity|]. split; [eapply (ex_step DX String.eqb _ sC act_swapped nobind); [left; reflexivity|reflexivity|reflexivity|reflexivity|constructor]|]. split; [reflexivity|].
  split; [|reflexivity]. change 3%Z with (3 + 0)%Z. eapply (paid_step DX String.eqb _ sC {| c_act := {| a_name := "drive"; a_params := []; a_pre := Top; a_effs := [] |}; c_cost := Some (App fC []) |} nobind); [left; reflexivity|reflexivity|reflexivity|exists "Integer"; reflexivity|reflexivity|constructor].
Qed.
Theorem C46_changed_symbol_refuted : charged act_changes 4 3 5.
Proof.
  exists [{| c_act := {| a_name := "drive"; a_params := []; a_pre := Top; a_effs := [EFun false Top (App fD []) (num 1)] |}; c_cost := Some (App fD []) |}]. eexists. eexists. split; [reflexivity|]. split; [eapply (ex_step DX String.eqb _ sC act_changes nobind); [left; reflexivity|reflexivity|reflexivity|reflexivity|constructor]|]. split; [reflexivity|].
  split; [change 5%Z with (5 + 0)%Z; eapply (paid_step DX String.eqb _ sC {| c_act := {| a_name := "drive"; a_params := []; a_pre := Top; a_effs := [EFun false Top (App fD []) (num 1)] |}; c_cost := Some (App fD []) |} nobind); [left; reflexivity|reflexivity|reflexivity|exists "Integer"; reflexivity|reflexivity|constructor]|reflexivity].
Qed.
Theorem C46_quantified_increase_refuted : charged act_forall 5 5 0.
Proof.
  exists [{| c_act := act_forall; c_cost := None |}]. eexists. eexists. split; [reflexivity|]. split; [eapply (ex_step DX String.eqb _ sC act_forall nobind); [left; reflexivity|reflexivity|reflexivity|vm_compute; reflexivity|constructor]|]. split; [reflexivity|].
  split; [change 0%Z with (0 + 0)%Z; eapply (paid_step DX String.eqb _ sC {| c_act := act_forall; c_cost := None |} nobind); [left; reflexivity|reflexivity|reflexivity|reflexivity|vm_compute; reflexivity|constructor]|reflexivity].
Qed.
(** Without any cost the problem is called a unit-cost problem, and each of its actions a zero-cost action. *)
Theorem C46_missing_costs : parse_domain true [act_wait] = Ok [{| c_act := act_wait; c_cost := None |}] /\ is_unit_cost_problem [{| c_act := act_wait; c_cost := None |}] = true /\ forallb is_zero_cost_action [{| c_act := act_wait; c_cost := None |}] = true.
Proof. repeat split; reflexivity. Qed.
