(** C50: actions printed in the PDDL/FSTRIPS syntax and read again *)
From Coq Require Import Ascii.
From Verif Require Import Base Syntax Semantics SemLemmas ListUtil Asp ModelText ModelState ModelProofs Effects Represent Costs Build Index PropsGrounding PddlText PddlRead PddlSpec PddlProofs PddlProofs2 PropsPddl
  PddlAction PddlActionSpec PddlActionProofs.
Local Open Scope string_scope.

Lemma mapM_snoc {X Y} (f : X -> res Y) a b : mapM f (a ++ b) = (let! x := mapM f a in let! y := mapM f b in Ok (x ++ y)%list).
Proof. induction a as [|x a IH]; cbn [app]; [destruct (mapM f b); reflexivity|]. rewrite !mapM_cons, IH. destruct (f x); cbn [bind]; [|reflexivity]. destruct (mapM f a); cbn [bind]; [|reflexivity]. destruct (mapM f b); reflexivity. Qed.
Section TripA.
Variable l : plang.
Hypothesis Hrefl : forall s, pl_sub l s s = true.

(** ** The cost as an effect *)
Definition cost_sort : sort := match pl_fun l "total-cost" with Some (_, s) => s | None => "" end.
Definition cost_effect (t : term) : effect := EFun true Top (App (FU "total-cost" [] cost_sort) []) t.
Definition all_effects (effs : list effect) (cost : option term) : list effect := (effs ++ match cost with Some t => [cost_effect t] | None => [] end)%list.
Lemma cost_readable B t : readable_cost l B (Some t) = true -> readable_e l B (cost_effect t) = true.
Proof.
  unfold readable_cost, cost_effect, cost_sort. destruct (pl_fun l "total-cost") as [[[|s0 ss] s]|] eqn:E; try discriminate. rewrite !andb_true_iff. intros ((H1 & H2) & H3).
  cbn [readable_e formula_ok]. rewrite H1, H2, H3. unfold formula_ok. cbn [wf readable readable_t]. rewrite E, String.eqb_refl. unfold sorts_eqb. destruct (list_eq_dec string_dec [] []); [reflexivity|congruence].
Qed.
Lemma print_effects_all effs cost n : all_effects effs cost <> [] -> print_effects effs cost n =
  (let! sl := mapM (fun e => print_effect e (S n)) (all_effects effs cost) in Ok ("(and" ++ newline ++ join newline sl ++ ")")).
Proof.
  intros Hn. destruct cost as [t|].
  - unfold all_effects, print_effects. rewrite mapM_snoc. destruct effs as [|e effs].
    + rewrite mapM_cons. cbn [print_effect cost_effect econd is_top print_term mapM bind fsym_text]. destruct (print_term t) as [s|]; reflexivity.
    + destruct (mapM (fun e0 => print_effect e0 (S n)) (e :: effs)) as [sl|]; [|reflexivity]. cbn [bind]. rewrite mapM_cons. cbn [print_effect cost_effect econd is_top print_term mapM bind fsym_text]. destruct (print_term t) as [s|]; reflexivity.
  - unfold all_effects, print_effects in *. rewrite app_nil_r in *. destruct effs as [|e effs]; [congruence|]. destruct (mapM (fun e0 => print_effect e0 (S n)) (e :: effs)) as [sl|]; [|reflexivity]. cbn [bind]. now rewrite app_nil_r.
Qed.
Lemma all_effects_trip b B effs cost n : scope b B -> forallb (readable_e l B) effs = true -> readable_cost l B cost = true ->
  exists s x, print_effects effs cost n = Ok s /\ reads s [x] /\ read_effect l b x = Ok (map canon_e (all_effects effs cost)).
Proof.
  intros Hs He Hc. assert (F : Forall (trip_e l b) (all_effects effs cost)).
  { apply Forall_app. split; [rewrite forallb_forall in He; apply Forall_forall; intros e Hi; apply (effect_trip l Hrefl e b B Hs); auto|].
    destruct cost as [t|]; constructor; [|constructor]. apply (effect_trip l Hrefl _ b B Hs). now apply cost_readable. }
  destruct (effects_text l b _ F) as (ss & xs & T1 & T2 & T3 & _). destruct (all_effects effs cost) as [|e1 es] eqn:E.
  - assert (X : print_effects effs cost n = Ok "(and )") by (unfold all_effects in E; destruct effs, cost; try discriminate; reflexivity). rewrite X. exists "(and )", (L [A (TKey "and")]). split; [reflexivity|]. split; [change "(and )" with ("(" ++ "and" ++ " " ++ "" ++ ")"); apply (reads_form "and" (TKey "and") "" []); [key | exact reads_nil]|]. reflexivity.
  - rewrite print_effects_all, E by (rewrite E; discriminate). exists ("(and" ++ newline ++ join newline (map (fun s => indent s (S n)) ss) ++ ")"), (L (A (TKey "and") :: xs)). split; [now rewrite T1|].
    split; [apply and_reads, reads_join_gap; [discriminate|reflexivity|now apply indented]|].
    unfold read_effect. cbn [effect_rule]. change (String.eqb "and" "and") with true. cbv iota. rewrite T3. cbn [bind]. now rewrite concat_single.
Qed.

(** ** What is read *)
Definition canon_a (c : costed) : costed :=
  {| c_act := {| a_name := a_name (c_act c); a_params := map canon_t (a_params (c_act c)); a_pre := canon (a_pre (c_act c)); a_effs := map canon_e (a_effs (c_act c)) |};
     c_cost := match c_cost c with Some t => Some (recast cost_sort (canon_t t)) | None => None end |}.
Lemma process_simple e : on_total_cost e = false -> process_cost_effect (canon_e e) = Ok None.
Proof. destruct e as [| |inc c lhs rhs| | |]; try reflexivity. destruct lhs as [| |[o|n ss s] ts|]; try reflexivity. cbn [on_total_cost canon_e canon_t process_cost_effect is_total_cost]. now intros ->. Qed.
Lemma process_all effs cost : existsb on_total_cost effs = false ->
  process_cost_effects (map canon_e (all_effects effs cost)) = Ok (map canon_e effs, match cost with Some t => [recast cost_sort (canon_t t)] | None => [] end).
Proof.
  intros H. induction effs as [|e effs IH].
  - destruct cost as [t|]; [|reflexivity]. cbn [all_effects app map process_cost_effects cost_effect canon_e canon_t recast_all process_cost_effect is_total_cost]. change (String.eqb "total-cost" "total-cost") with true. cbv iota. cbn [canon].
    unfold cast2. cbn [numeral sort_of]. reflexivity.
  - cbn [existsb] in H. apply orb_false_iff in H as [H1 H2]. cbn [all_effects app map process_cost_effects]. rewrite process_simple by exact H1. cbn [bind]. fold (all_effects effs cost). rewrite IH by exact H2. reflexivity.
Qed.
Lemma action_reads n sv xv sp xp se xe : legal_name n = true -> reads sv xv -> reads sp [xp] -> reads se [xe] ->
  reads (newline ++ "    (:action " ++ n ++ newline ++ "     :parameters (" ++ sv ++ ")" ++ newline ++ "     :precondition " ++ sp ++ newline ++ "     :effect " ++ se ++ newline ++ "    )" ++ newline)
        [L [A (TKey ":action"); A (TName n); A (TKey ":parameters"); L xv; A (TKey ":precondition"); xp; A (TKey ":effect"); xe]].
Proof.
  intros Hn Hv Hp He.
  set (inner := ":action" ++ " " ++ n ++ (newline ++ "     ") ++ ":parameters" ++ " " ++ ("(" ++ sv ++ ")") ++ (newline ++ "     ") ++ ":precondition" ++ " " ++ sp ++ (newline ++ "     ") ++ ":effect" ++ " " ++ (se ++ (newline ++ "    "))).
  assert (E : newline ++ "    (:action " ++ n ++ newline ++ "     :parameters (" ++ sv ++ ")" ++ newline ++ "     :precondition " ++ sp ++ newline ++ "     :effect " ++ se ++ newline ++ "    )" ++ newline =
              (newline ++ "    ") ++ (("(" ++ inner ++ ")") ++ newline)).
  { unfold inner. rewrite !sapp_assoc. cbn [String.append newline]. rewrite ?sapp_assoc. cbn [String.append]. rewrite ?sapp_assoc. cbn [String.append]. rewrite ?sapp_assoc. reflexivity. }
  rewrite E. apply reads_leads; [reflexivity|]. apply reads_trails; [reflexivity|]. apply reads_bracket. unfold inner.
  apply (reads_space _ _ [A (TKey ":action")]); [key|]. apply (reads_gap (newline ++ "     ") _ _ [A (TName n)]); [discriminate|reflexivity|now apply name_reads|].
  apply (reads_space _ _ [A (TKey ":parameters")]); [key|]. apply (reads_gap (newline ++ "     ") _ _ [L xv]); [discriminate|reflexivity|now apply reads_bracket|].
  apply (reads_space _ _ [A (TKey ":precondition")]); [key|]. apply (reads_gap (newline ++ "     ") _ _ [xp]); [discriminate|reflexivity|exact Hp|].
  apply (reads_space _ _ [A (TKey ":effect")]); [key|]. apply reads_trails; [reflexivity|exact He].
Qed.
Lemma read_pre b x p : read_goal l b x = Ok p -> read_precondition l b x = Ok p.
Proof. intros H. destruct x as [t|[|y r]]; try exact H. discriminate. Qed.
Lemma declared_canon vs : forallb (fun v => match v with Var x s => legal_variable x && legal_type s && pl_sort l s | _ => false end) vs = true ->
  map (fun v => Var (fst v) (snd v)) (map printed_var vs) = map canon_t vs.
Proof. intros V. rewrite map_map. apply map_ext_in. intros v Hv. rewrite forallb_forall in V. specialize (V v Hv). destruct v; try discriminate. reflexivity. Qed.
Lemma action_trip c : readable_action l c = true -> exists text x, print_action c = Ok text /\ reads text [x] /\ read_action_def l x = Ok (canon_a c).
Proof.
  unfold readable_action. rewrite !andb_true_iff. intros (((((H1 & H2) & H3) & H4) & H5) & H6). apply negb_true_iff in H5. unfold formula_ok in H3. apply andb_true_iff in H3 as [H3 H3'].
  unfold declarable in H2. rewrite !andb_true_iff in H2. destruct H2 as ((V & D) & _). apply distinct_NoDup in D. pose proof (make_scope _ D) as Hs.
  destruct (vars_trip l _ V) as (sv & xv & V1 & V2 & V3 & _). destruct (formula_trip l Hrefl _ _ _ Hs H3 H3') as (sp & xp & P1 & P2 & P3 & _).
  destruct (all_effects_trip _ _ _ _ 1 Hs H4 H6) as (se & xe & E1 & E2 & E3).
  eexists. eexists. split; [|split].
  - unfold print_action. rewrite V1, P1, E1. cbn [bind]. reflexivity.
  - apply (action_reads _ _ _ _ _ _ _ H1 V2 P2 E2).
  - cbn [read_action_def]. change (String.eqb ":action" ":action" && String.eqb ":parameters" ":parameters" && String.eqb ":precondition" ":precondition" && String.eqb ":effect" ":effect") with true. cbv iota.
    rewrite V3. cbn [bind]. rewrite (read_pre _ _ _ P3). cbn [bind]. rewrite E3. cbn [bind]. unfold read_action. cbn [a_effs a_name a_params a_pre]. rewrite process_all by exact H5. cbn [bind].
    rewrite vb_make_distinct by exact D. rewrite declared_canon by exact V. unfold canon_a. destruct (c_cost c); reflexivity.
Qed.
End TripA.

(** ** Meaning *)
Section MeaningA.
Variable l : plang.
Variable N : list string.
Hypothesis Inj : one_spelling_in N.
Lemma canon_truth f B : incl (names_f f) N -> formula_ok l B f = true -> same_truth N f (canon f).
Proof. intros Hi H M e e' St He. unfold formula_ok in H. apply andb_true_iff in H as [H1 H2]. apply (canon_sem l M St N Inj f B e e'); auto. Qed.
Lemma canon_value t B : incl (names_t t) N -> readable_t l B t = true -> same_value N t (canon_t t).
Proof. intros Hi H M e e' St He. apply (canon_t_sem l M St N B t e e'); auto. Qed.
Lemma recast_value s t u : same_value N t u -> same_value N t (recast s u).
Proof. intros H M e e' St He. rewrite (recast_sem M St). now apply H. Qed.
Lemma args_same B ts : incl (flat_map names_t ts) N -> forallb (readable_t l B) ts = true -> Forall2 (same_value N) ts (map canon_t ts).
Proof.
  induction ts as [|t ts IH]; cbn [forallb map]; intros Hi H; [constructor|]. apply andb_true_iff in H as [H1 H2]. constructor.
  - apply (canon_value t B); [|exact H1]. intros y Hy. apply Hi. cbn [flat_map]. apply in_app_iff. now left.
  - apply IH; [|exact H2]. intros y Hy. apply Hi. cbn [flat_map]. apply in_app_iff. now right.
Qed.
Lemma recast_all_same ss ts us : List.length us = List.length ss -> Forall2 (same_value N) ts us -> Forall2 (same_value N) ts (recast_all ss us).
Proof. intros Hl H. revert ss Hl. induction H as [|t u ts us Ht H IH]; intros [|s ss] Hl; try discriminate; [constructor|]. cbn [recast_all]. constructor; [now apply recast_value | apply IH; now injection Hl]. Qed.
Lemma app_same B f ts : incl (names_t (App f ts)) N -> readable_t l B (App f ts) = true -> exists ts', canon_t (App f ts) = App f ts' /\ Forall2 (same_value N) ts ts'.
Proof.
  intros Hi H. cbn [names_t] in Hi. destruct f as [o|n ss c]; cbn [readable_t] in H.
  - destruct ts as [|x [|y [|w ts]]]; try discriminate. rewrite !andb_true_iff in H. destruct H as ((_ & H4) & H5).
    assert (F : Forall2 (same_value N) [x; y] (map canon_t [x; y])) by (apply (args_same B); [exact Hi | cbn [forallb]; now rewrite H4, H5]).
    cbn [canon_t map]. eexists. split; [reflexivity|]. destruct (cast2_cases (canon_t x) (canon_t y)) as (s & s' & ->). inversion F as [|? ? ? ? F1 F2]; subst. inversion F2 as [|? ? ? ? F3 F4]; subst. constructor; [now apply recast_value|]. constructor; [now apply recast_value|constructor].
  - rewrite !andb_true_iff in H. destruct H as (((_ & H3) & _) & H5). apply Nat.eqb_eq in H3. cbn [canon_t]. eexists. split; [reflexivity|]. apply recast_all_same; [now rewrite map_length | now apply (args_same B)].
Qed.
Lemma incl_app_l {A} (a b c : list A) : incl (a ++ b) c -> incl a c. Proof. intros H x Hx. apply H, in_app_iff. now left. Qed.
Lemma incl_app_r {A} (a b c : list A) : incl (a ++ b) c -> incl b c. Proof. intros H x Hx. apply H, in_app_iff. now right. Qed.
Lemma effect_same : forall e B, incl (names_e e) N -> readable_e l B e = true -> same_effect N e (canon_e e).
Proof.
  assert (At : forall a B, user_atom a = true -> incl (names_f a) N -> formula_ok l B a = true -> exists p ts ts', a = Atom p ts /\ canon a = Atom p ts' /\ Forall2 (same_value N) ts ts').
  { intros a B Ha Hi H. destruct a as [| |[p|n ss] ts| |]; try discriminate. exists (PU n ss), ts, (map canon_t ts). split; [reflexivity|]. split; [reflexivity|]. apply (args_same B); [exact Hi|].
    unfold formula_ok in H. apply andb_true_iff in H as [_ H]. cbn [readable] in H. rewrite !andb_true_iff in H. destruct H as (_ & H). apply forallb_forall. intros t Ht. rewrite forallb_forall in H. specialize (H t Ht). destruct (numeral t); [discriminate|exact H]. }
  refine (effect_ind_nested _ _ _ _ _ _ _).
  - intros c a B Hi H. cbn [readable_e names_e canon_e] in *. rewrite !andb_true_iff in H. destruct H as ((H1 & H2) & H3). destruct (At a B H2 (incl_app_r _ _ _ Hi) H3) as (p & ts & ts' & -> & -> & F).
    constructor; [|exact F]. apply (canon_truth c B); [exact (incl_app_l _ _ _ Hi) | exact H1].
  - intros c a B Hi H. cbn [readable_e names_e canon_e] in *. rewrite !andb_true_iff in H. destruct H as ((H1 & H2) & H3). destruct (At a B H2 (incl_app_r _ _ _ Hi) H3) as (p & ts & ts' & -> & -> & F).
    constructor; [|exact F]. apply (canon_truth c B); [exact (incl_app_l _ _ _ Hi) | exact H1].
  - intros inc c lhs rhs B Hi H. cbn [readable_e names_e canon_e] in *. rewrite !andb_true_iff in H. destruct H as ((((H1 & H2) & H3) & H4) & _). destruct lhs as [| |f ts|]; try discriminate.
    pose proof (incl_app_l _ _ _ Hi) as Hc. apply incl_app_r in Hi. pose proof (incl_app_l _ _ _ Hi) as Hl. apply incl_app_r in Hi.
    destruct (app_same B f ts Hl H3) as (ts' & E & F). rewrite E. pose proof (canon_truth c B Hc H1) as T. pose proof (canon_value rhs B Hi H4) as V. destruct inc.
    + unfold cast2. cbn [numeral]. unfold recast at 1. cbn [numeral]. constructor; auto using recast_value.
    + constructor; auto using recast_value.
  - intros c vs es IH B Hi H. cbn [readable_e names_e canon_e] in *. rewrite !andb_true_iff in H. destruct H as ((H1 & H2) & H3). destruct c; try discriminate. cbn [names_f app] in Hi. apply incl_app_r in Hi.
    assert (E : map canon_t vs = map (fun v => Var (fst (printed_var v)) (snd (printed_var v))) vs).
    { unfold declarable in H2. rewrite !andb_true_iff in H2. destruct H2 as ((V & _) & _). rewrite <- (declared_canon l vs V), map_map. reflexivity. }
    rewrite E. constructor. clear E H2 H1. set (B' := (map printed_var vs ++ B)%list) in *. clearbody B'. induction IH as [|e es He IH IHes]; [constructor|]. cbn [forallb] in H3. apply andb_true_iff in H3 as [H3 H4]. cbn [flat_map] in Hi. cbn [map]. constructor.
    + apply (He B'); [exact (incl_app_l _ _ _ Hi) | exact H3].
    + apply IHes; [exact (incl_app_r _ _ _ Hi) | exact H4].
  - intros c a B _ H. discriminate.
  - intros c B _ H. discriminate.
Qed.
End MeaningA.
Lemma action_same l c : readable_action l c = true -> one_spelling_in (names_action c) -> same_action c (canon_a l c).
Proof.
  intros H O. unfold readable_action in H. rewrite !andb_true_iff in H. destruct H as (((((H1 & H2) & H3) & H4) & H5) & H6). unfold same_action. cbn [canon_a c_act c_cost a_name a_params a_pre a_effs].
  set (N := names_action c) in *. assert (Hp : incl (names_f (a_pre (c_act c))) N /\ incl (flat_map names_e (a_effs (c_act c))) N /\ (forall t, c_cost c = Some t -> incl (names_t t) N)).
  { unfold N, names_action. repeat split.
    - intros y Hy. apply in_app_iff. right. apply in_app_iff. now left.
    - intros y Hy. apply in_app_iff. right. apply in_app_iff. right. apply in_app_iff. now left.
    - intros t E y Hy. rewrite E. apply in_app_iff. right. apply in_app_iff. right. apply in_app_iff. now right. }
  destruct Hp as (Hp & He & Hc). split; [reflexivity|]. split; [|split; [|split]].
  - unfold declarable in H2. rewrite !andb_true_iff in H2. destruct H2 as ((V & _) & _). rewrite <- (declared_canon l _ V), map_map. reflexivity.
  - exact (canon_truth l N O _ _ Hp H3).
  - clear -H4 He O. set (B := map printed_var (a_params (c_act c))) in *. clearbody B. induction (a_effs (c_act c)) as [|e es IH]; [constructor|]. cbn [forallb] in H4. apply andb_true_iff in H4 as [H4 H4']. cbn [flat_map] in He. cbn [map]. constructor.
    + exact (effect_same l N O e B (incl_app_l _ _ _ He) H4).
    + exact (IH H4' (incl_app_r _ _ _ He)).
  - destruct (c_cost c) as [t|]; [|exact I]. apply recast_value. apply (canon_value l N t (map printed_var (a_params (c_act c))) (Hc t eq_refl)). unfold readable_cost in H6. destruct (pl_fun l "total-cost") as [[[|] s]|]; try discriminate. now rewrite !andb_true_iff in H6.
Qed.

(** ** C50 *)
(** The text of a printable action can be read, and the action that is read means the same. *)
Theorem C50_round_trip : forall l c, (forall s, pl_sub l s s = true) -> readable_action l c = true ->
  exists text c', print_action c = Ok text /\ parse_action l text = Ok c' /\ (one_spelling_in (names_action c) -> same_action c c').
Proof.
  intros l c Hr H. destruct (action_trip l Hr c H) as (text & x & P & R & G). exists text, (canon_a l c). split; [exact P|]. split; [unfold parse_action; now rewrite (reads_phrase _ _ R)|]. now apply action_same.
Qed.
Print Assumptions C50_round_trip.

(** ** Nothing changes *)
Lemma verbatim_value_canon l B s t : readable_t l B t = true -> verbatim_value s t = true -> recast s (canon_t t) = t.
Proof.
  unfold verbatim_value. rewrite orb_true_iff. intros H [V|V].
  - destruct (verbatim_t_canon l B t H V) as [-> Hn]. unfold recast. now rewrite Hn.
  - destruct t as [|[|z] r| |]; try discriminate. apply String.eqb_eq in V. subst. reflexivity.
Qed.
Lemma verbatim_e_canon l : forall e B, readable_e l B e = true -> verbatim_e e = true -> canon_e e = e.
Proof.
  refine (effect_ind_nested _ _ _ _ _ _ _).
  - intros c a B H V. cbn [readable_e verbatim_e canon_e] in *. rewrite !andb_true_iff in H. rewrite andb_true_iff in V. destruct H as ((H1 & H2) & H3), V as [V1 V2]. unfold formula_ok in H1, H3. apply andb_true_iff in H1 as [W1 H1]. apply andb_true_iff in H3 as [W3 H3].
    now rewrite (verbatim_canon l c B W1 H1 V1), (verbatim_canon l a B W3 H3 V2).
  - intros c a B H V. cbn [readable_e verbatim_e canon_e] in *. rewrite !andb_true_iff in H. rewrite andb_true_iff in V. destruct H as ((H1 & H2) & H3), V as [V1 V2]. unfold formula_ok in H1, H3. apply andb_true_iff in H1 as [W1 H1]. apply andb_true_iff in H3 as [W3 H3].
    now rewrite (verbatim_canon l c B W1 H1 V1), (verbatim_canon l a B W3 H3 V2).
  - intros inc c lhs rhs B H V. cbn [readable_e verbatim_e canon_e] in *. rewrite !andb_true_iff in H. rewrite !andb_true_iff in V. destruct H as ((((H1 & H2) & H3) & H4) & _), V as (((V0 & V1) & V2) & V3). destruct inc; [discriminate|].
    unfold formula_ok in H1. apply andb_true_iff in H1 as [W1 H1]. rewrite (verbatim_canon l c B W1 H1 V1). destruct (verbatim_t_canon l B lhs H3 V2) as [-> _]. now rewrite (verbatim_value_canon l B _ _ H4 V3).
  - intros c vs es IH B H V. cbn [readable_e verbatim_e canon_e] in *. rewrite !andb_true_iff in H. rewrite !andb_true_iff in V. destruct H as ((H1 & H2) & H3), V as ((V1 & V2) & V3). destruct c; try discriminate. f_equal.
    + rewrite <- (map_id vs) at 2. apply map_ext_in. intros v Hv. unfold declarable in H2. rewrite !andb_true_iff in H2. destruct H2 as ((X & _) & _). rewrite forallb_forall in X, V2. specialize (X v Hv). specialize (V2 v Hv). destruct v; try discriminate. cbn in V2 |- *. unfold print_variable_name. now rewrite V2.
    + rewrite <- (map_id es) at 2. apply map_ext_in. intros e He. rewrite forallb_forall in H3, V3. rewrite Forall_forall in IH. apply (IH e He (map printed_var vs ++ B)%list); auto.
  - intros c a B H. discriminate.
  - intros c B H. discriminate.
Qed.
(** The same action is read when nothing has to be rewritten. *)
Theorem C50_same_action : forall l c, (forall s, pl_sub l s s = true) -> readable_action l c = true -> verbatim_action l c = true ->
  exists text, print_action c = Ok text /\ parse_action l text = Ok c.
Proof.
  intros l c Hr H V. destruct (action_trip l Hr c H) as (text & x & P & R & G). exists text. split; [exact P|]. unfold parse_action. rewrite (reads_phrase _ _ R). cbn [bind]. rewrite G. f_equal.
  clear -H V. unfold readable_action in H. rewrite !andb_true_iff in H. destruct H as (((((H1 & H2) & H3) & H4) & H5) & H6). unfold verbatim_action in V. rewrite !andb_true_iff in V. destruct V as (((V1 & V2) & V3) & V4).
  unfold formula_ok in H3. apply andb_true_iff in H3 as [W3 H3]. unfold canon_a. rewrite (verbatim_canon l _ _ W3 H3 V2).
  assert (E1 : map canon_t (a_params (c_act c)) = a_params (c_act c)).
  { rewrite <- (map_id (a_params (c_act c))) at 2. apply map_ext_in. intros v Hv. unfold declarable in H2. rewrite !andb_true_iff in H2. destruct H2 as ((X & _) & _). rewrite forallb_forall in X, V1. specialize (X v Hv). specialize (V1 v Hv). destruct v; try discriminate. cbn in V1 |- *. unfold print_variable_name. now rewrite V1. }
  assert (E2 : map canon_e (a_effs (c_act c)) = a_effs (c_act c)).
  { rewrite <- (map_id (a_effs (c_act c))) at 2. apply map_ext_in. intros e He. rewrite forallb_forall in H4, V3. apply (verbatim_e_canon l e (map printed_var (a_params (c_act c)))); auto. }
  rewrite E1, E2. destruct c as [[n ps pre es] [t|]]; [|reflexivity]. cbn [c_act c_cost a_name a_params a_pre a_effs] in *. do 2 f_equal.
  unfold readable_cost in H6. unfold cost_sort. destruct (pl_fun l "total-cost") as [[[|] s]|]; try discriminate. rewrite !andb_true_iff in H6. destruct H6 as (_ & H6). exact (verbatim_value_canon l _ s t H6 V4).
Qed.
Print Assumptions C50_same_action.
(** Different such actions never have the same text. *)
Theorem C50_unambiguous : forall l c c' text, (forall s, pl_sub l s s = true) -> readable_action l c = true -> readable_action l c' = true -> verbatim_action l c = true -> verbatim_action l c' = true ->
  print_action c = Ok text -> print_action c' = Ok text -> c = c'.
Proof.
  intros l c c' text Hr R R' V V' P P'. destruct (C50_same_action l c Hr R V) as (t & T1 & T2). destruct (C50_same_action l c' Hr R' V') as (t' & T1' & T2').
  rewrite P in T1. injection T1 as <-. rewrite P' in T1'. injection T1' as <-. rewrite T2 in T2'. now injection T2'.
Qed.
Print Assumptions C50_unambiguous.

(** ** Examples *)
Definition LC : plang := {| pl_const := pl_const LX; pl_pred := pl_pred LX; pl_fun := fun n => if String.eqb n "total-cost" then Some ([], "Integer") else pl_fun LX n;
  pl_sort := pl_sort LX; pl_sub := pl_sub LX; pl_num := pl_num LX; pl_cmp := pl_cmp LX; pl_arith := pl_arith LX |}.
Definition pX (t : term) : formula := Atom (PU "p" ["thing"]) [t].
Definition fN (t : term) : term := App (FU "f" ["thing"] "Integer") [t].
(** A parameter without a question mark, numerals, an increase, conditional and nested universal effects, and a cost *)
Definition actX : costed := {|
  c_act := {| a_name := "move"; a_params := [Var "x" "thing"; Var "?y" "thing"];
    a_pre := Comp And [pX (Var "x" "thing"); Atom (PB PNe) [Var "x" "thing"; Var "?y" "thing"]];
    a_effs := [EDel Top (pX (Var "x" "thing")); EAdd (Atom (PB PLt) [fN (Var "x" "thing"); Cst (CInt 3) "Real"]) (pX (Var "?y" "thing"));
               EFun true Top (fN (Var "x" "thing")) (Cst (CInt 2) "Real"); EFun false Bot (fN (Var "?y" "thing")) (Cst (CInt 0) "Real");
               EUni Top [Var "z" "thing"] [EAdd Top (pX (Var "z" "thing")); EUni Top [Var "w" "thing"] [EDel (pX (Var "w" "thing")) (Atom (PU "r" ["thing"; "object"]) [Var "w" "thing"; Var "z" "thing"])]]] |};
  c_cost := Some (App (FB BAdd) [fN (Var "x" "thing"); Cst (CInt 1) "Integer"]) |}.
Lemma one_spelling_dec N : forallb (fun x => forallb (fun y => implb (String.eqb (print_variable_name x) (print_variable_name y)) (String.eqb x y)) N) N = true -> one_spelling_in N.
Proof.
  intros H x y Hx Hy E. rewrite forallb_forall in H. specialize (H x Hx). rewrite forallb_forall in H. specialize (H y Hy). rewrite E, String.eqb_refl in H. now apply String.eqb_eq in H.
Qed.
Example C50_nonvacuous : (forall s, pl_sub LC s s = true) /\ readable_action LC actX = true /\ one_spelling_in (names_action actX).
Proof.
  split; [intros s; cbn; now rewrite String.eqb_refl|]. split; [reflexivity|].
  apply one_spelling_dec. vm_compute. reflexivity.
Qed.
(** The text, and what is read from it *)
Example C50_nonvacuous_text : exists text c', print_action actX = Ok text /\ parse_action LC text = Ok c' /\ c_cost c' = Some (App (FB BAdd) [fN (Var "?x" "thing"); Cst (CInt 1) "Integer"]) /\
  text = newline ++ "    (:action move" ++ newline ++ "     :parameters (?x - thing ?y - thing)" ++ newline ++ "     :precondition (and (p ?x) (not (= ?x ?y)))" ++ newline ++ "     :effect (and" ++ newline ++
    "        (not (p ?x))" ++ newline ++ "        (when (< (f ?x) 3) (p ?y))" ++ newline ++ "        (increase (f ?x) 2)" ++ newline ++ "        (when (= 0 1) (assign (f ?y) 0))" ++ newline ++
    "        (forall (?z - thing) (and" ++ newline ++ "    (p ?z)" ++ newline ++ "    (forall (?w - thing) (when (p ?w) (not (r ?w ?z))))))" ++ newline ++
    "        (increase (total-cost ) (+ (f ?x) 1)))" ++ newline ++ "    )" ++ newline.
Proof. eexists. eexists. split; [vm_compute; reflexivity|]. split; [vm_compute; reflexivity|]. split; [vm_compute; reflexivity|vm_compute; reflexivity]. Qed.
Definition actV : costed := {|
  c_act := {| a_name := "set"; a_params := [Var "?x" "thing"]; a_pre := Top; a_effs := [EAdd (pX (Var "?x" "thing")) (pX (Cst (CStr "a") "thing")); EFun false Top (fN (Var "?x" "thing")) (Cst (CInt 5) "Integer")] |};
  c_cost := Some (Cst (CInt 4) "Integer") |}.
Example C50_same_nonvacuous : readable_action LC actV = true /\ verbatim_action LC actV = true.
Proof. split; reflexivity. Qed.

(** ** What is lost: each action is printed, in a language that has all its symbols. *)
Definition plain_action (ps : list term) (es : list effect) : costed := {| c_act := {| a_name := "act"; a_params := ps; a_pre := Top; a_effs := es |}; c_cost := None |}.
Definition rejected_action (c : costed) (e : exn) : Prop := exists text, print_action c = Ok text /\ parse_action LC text = Err e.
(** A universal effect with a condition cannot be read *)
Theorem C50_conditional_universal_refuted : rejected_action (plain_action [] [EUni (pX (Cst (CStr "a") "thing")) [Var "?z" "thing"] [EAdd Top (pX (Var "?z" "thing"))]]) SyntaxError.
Proof. eexists. split; [vm_compute; reflexivity|vm_compute; reflexivity]. Qed.
(** nor one that binds the name of a parameter *)
Theorem C50_rebinding_refuted : rejected_action (plain_action [Var "?x" "thing"] [EUni Top [Var "?x" "thing"] [EAdd Top (pX (Var "?x" "thing"))]]) DuplicateVariable.
Proof. eexists. split; [vm_compute; reflexivity|vm_compute; reflexivity]. Qed.
(** nor an effect that adds or deletes an equation. *)
Theorem C50_builtin_atom_refuted : forall e, In e [EAdd; EDel] -> rejected_action (plain_action [] [e Top (Atom (PB PEq) [Cst (CStr "a") "thing"; Cst (CStr "b") "thing"])]) SyntaxError.
Proof. intros e [<-|[<-|[]]]; (eexists; split; [vm_compute; reflexivity|vm_compute; reflexivity]). Qed.
(** An assignment to total-cost cannot be read if it is not an addition; an addition becomes the cost of the action, whatever it is added to. *)
Theorem C50_total_cost_refuted : rejected_action (plain_action [] [EFun false Top (App (FU "total-cost" [] "Integer") []) (Cst (CInt 5) "Integer")]) TarskiError /\
  exists text, print_action (plain_action [] [EFun false Top (App (FU "total-cost" [] "Integer") []) (App (FB BAdd) [Cst (CInt 7) "Integer"; Cst (CInt 5) "Integer"])]) = Ok text /\
    parse_action LC text = Ok {| c_act := c_act (plain_action [] []); c_cost := Some (Cst (CInt 5) "Integer") |}.
Proof. split; (eexists; split; [vm_compute; reflexivity|vm_compute; reflexivity]). Qed.
(** An increase is read as the assignment of a sum and is printed differently afterwards. *)
Theorem C50_increase_refuted : exists text c' text', print_action (plain_action [Var "?x" "thing"] [EFun true Top (fN (Var "?x" "thing")) (Cst (CInt 1) "Integer")]) = Ok text /\
  parse_action LC text = Ok c' /\ a_effs (c_act c') = [EFun false Top (fN (Var "?x" "thing")) (App (FB BAdd) [fN (Var "?x" "thing"); Cst (CInt 1) "Integer"])] /\ print_action c' = Ok text' /\ text' <> text.
Proof. eexists. eexists. eexists. split; [vm_compute; reflexivity|]. split; [vm_compute; reflexivity|]. split; [reflexivity|]. split; [vm_compute; reflexivity|]. vm_compute. discriminate. Qed.
Print Assumptions C50_increase_refuted.
(** A condition in front of a group is the condition of every effect of the group: (when C (and E1 ... En)) is read as (and (when C E1) ... (when C En)). *)
Definition is_group (s : sexp) : bool := match s with L (A (TKey k) :: _) => String.eqb k "and" | _ => false end.
Theorem C50_grouped_effects : forall l b c es, es <> [] -> existsb is_group es = false -> forall r,
  read_effect l b (L [A (TKey "when"); c; L (A (TKey "and") :: es)]) = Ok r <->
  read_effect l b (L (A (TKey "and") :: map (fun e => L [A (TKey "when"); c; e]) es)) = Ok r.
Proof.
  intros l b c es Hne Hg r.
  assert (W : forall e, is_group e = false -> read_single_effect l b (L [A (TKey "when"); c; e]) = let! x := read_atomic_effect l b e in let! f := read_goal l b c in Ok [with_condition f x]).
  { intros e He. cbn [read_single_effect]. change (String.eqb "when" "forall") with false. change (String.eqb "when" "when") with true. cbv iota.
    destruct e as [t|[|[t|ys] args]]; try reflexivity. destruct t; try reflexivity. unfold is_group in He. now rewrite He. }
  unfold read_effect, effect_rule at 1. change (String.eqb "when" "and") with false. cbv iota. unfold effect_rule. change (String.eqb "and" "and") with true. cbv iota.
  cbn [read_single_effect]. change (String.eqb "when" "forall") with false. change (String.eqb "when" "when") with true. change (String.eqb "and" "and") with true. cbv iota.
  destruct (read_goal l b c) as [f|x] eqn:C; cbn [bind].
  - assert (M : forall r0, (let! ls := mapM (read_atomic_effect l b) es in Ok (map (with_condition f) ls)) = Ok r0 <->
       (let! ls := mapM (read_single_effect l b) (map (fun e => L [A (TKey "when"); c; e]) es) in Ok (List.concat ls)) = Ok r0).
    { clear Hne r. induction es as [|e es IH]; intros r0; [reflexivity|]. cbn [existsb] in Hg. apply orb_false_iff in Hg as [G1 G2]. cbn [map]. rewrite !mapM_cons. rewrite (W e G1), ?C.
      destruct (read_atomic_effect l b e) as [a|]; cbn [bind]; [|reflexivity]. specialize (IH G2).
      destruct (mapM (read_atomic_effect l b) es) as [xs|], (mapM (read_single_effect l b) _) as [ys|]; cbn [bind] in *; try reflexivity.
      + assert (E := proj1 (IH _) eq_refl). injection E as E. cbn [List.concat map app]. rewrite E. reflexivity.
      + pose proof (proj1 (IH _) eq_refl). discriminate.
      + pose proof (proj2 (IH _) eq_refl). discriminate.
      + split; discriminate. }
    apply M.
  - destruct es as [|e es]; [congruence|]. cbn [existsb] in Hg. apply orb_false_iff in Hg as [G1 G2]. cbn [map]. rewrite mapM_cons, (W e G1), ?C. destruct (read_atomic_effect l b e); cbn [bind]; rewrite ?C; cbn [bind]; split; discriminate.
Qed.
Print Assumptions C50_grouped_effects.
(** On a text, with the empty brackets as precondition: *)
Theorem C50_grouped_nonvacuous : exists c, parse_action LC ("(:action go :parameters (?x - thing) :precondition () :effect (when (p ?x) (and (not (p ?x)) (p a))))") = Ok c /\
  a_pre (c_act c) = Top /\ a_effs (c_act c) = [EDel (pX (Var "?x" "thing")) (pX (Var "?x" "thing")); EAdd (pX (Var "?x" "thing")) (pX (Cst (CStr "a") "thing"))].
Proof. eexists. split; [vm_compute; reflexivity|]. split; [vm_compute; reflexivity|vm_compute; reflexivity]. Qed.
