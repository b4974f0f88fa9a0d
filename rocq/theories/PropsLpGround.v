(** C48: what the grounder based on logic programs returns. *)
From Coq Require Import Ascii.
From Verif Require Import Base Syntax Semantics SemLemmas NnfProofs Subst QElim QElimProofs FreeVars ModelState ModelProofs ModelText Index Lang LangSpec LangProofs LangProofs2 LangProofs3 PropsLang Effects Represent Grounding GroundingSpec PropsGrounding
  Asp AspNamesSpec AspSpec PropsAspNames AspProofs1 AspProofs2 AspProofs3 PropsAsp LpGround LpGroundSpec LpGroundProofs LpGroundProofs2 LpGroundProofs3.
#[local] Open Scope string_scope.

(** Reading: whatever atoms the solver prints, in whatever order and however often, each symbol gets exactly the set of its argument tuples, with all names translated back. *)
Theorem C48_reading : forall t atoms, words atoms -> exists m, parse_model t (answer_text atoms) = Ok m /\
  forall symbol, NoDup (tuples m symbol) /\ forall args, In args (tuples m symbol) <-> exists s l, In (s, l) atoms /\ back t s = symbol /\ map (back t) l = args.
Proof. intros t atoms H. destruct (parse_answer t atoms H) as (m & E & A & B). exists m. split; [exact E|]. intros k. split; [apply B|]. intros args. apply A. Qed.
Print Assumptions C48_reading.
(** A line with two opening parentheses (a nested term) before the end of the atom is rejected, wherever it is. *)
Lemma split_two x a b c : exists ws, List.length ws >= 3 /\ split_at x (a ++ String x (b ++ String x c)) = ws.
Proof.
  eexists. split; [|reflexivity]. assert (G : forall a r, List.length (split_at x (a ++ r)) >= List.length (split_at x r)). { intros a0 r. induction a0 as [|y a0 IH]; cbn [append]; [lia|]. cbn [split_at]. destruct (Ascii.eqb y x); cbn [List.length]; [lia|]. destruct (split_at x (a0 ++ r)); cbn [List.length] in *; lia. }
  specialize (G a (String x (b ++ String x c))).
  assert (E : forall r, split_at x (String x r) = "" :: split_at x r) by (intros r; cbn [split_at]; now rewrite Ascii.eqb_refl). rewrite E in G. cbn [List.length] in G.
  assert (G3 : List.length (split_at x (b ++ String x c)) >= List.length (split_at x (String x c))). { clear. induction b as [|y b IH]; cbn [append]; [lia|]. cbn [split_at] in *. destruct (Ascii.eqb y x); cbn [List.length] in *; [lia|]. destruct (split_at x (b ++ String x c)); cbn [List.length] in *; lia. }
  rewrite E in G3. cbn [List.length] in G3. assert (G4 : List.length (split_at x c) >= 1) by (destruct c; cbn [split_at]; [cbn; lia|]; destruct (Ascii.eqb _ _); [cbn; lia|]; destruct (split_at x c); cbn; lia). lia.
Qed.
Lemma parse_lines_app t m l1 l2 : parse_lines t m (l1 ++ l2) = let! m' := parse_lines t m l1 in parse_lines t m' l2.
Proof. revert m. induction l1 as [|x l1 IH]; intros m; [reflexivity|]. cbn [app parse_lines]. destruct (parse_line t m x); cbn [bind]; auto. Qed.
Theorem C48_nested_terms_rejected : forall t before f g args after, words before -> word f -> word g -> word args -> parse_model t (answer_text before ++ (f ++ "(" ++ g ++ "(" ++ args ++ ")).") ++ String (ascii_of_nat 10) after) = Err RuntimeError.
Proof.
  intros t before f g args after Hb Hf Hg Ha. set (line := f ++ "(" ++ g ++ "(" ++ args ++ ")).").
  assert (Av : avoids newline line). { unfold line. rewrite !avoids_app. assert (W : forall w, word w -> avoids newline w) by (intros; apply word_avoids; [inn|auto]). repeat split; auto. }
  assert (L : file_lines (answer_text before ++ line ++ String (ascii_of_nat 10) after) = (map atom_line before ++ (line ++ String newline "")%string :: file_lines after)%list).
  { induction Hb as [|[s l] before [Hs Hl] Hb IH]; [exact (file_line line after Av)|]. cbn [answer_text map fst snd] in *. unfold atom_line at 1. cbn [fst snd]. rewrite !app_assoc_s. cbn [append].
    change (String "." (String (ascii_of_nat 10) (answer_text before ++ line ++ String (ascii_of_nat 10) after))) with ("." ++ String newline (answer_text before ++ line ++ String (ascii_of_nat 10) after)).
    rewrite <- (app_assoc_s (atom_text s l)). rewrite file_line by now apply text_avoids_newline. rewrite IH, app_assoc_s. reflexivity. }
  unfold parse_model. rewrite L, parse_lines_app. destruct (parse_atoms t before Hb []) as (m & -> & _). cbn [bind parse_lines]. enough (E : parse_line t m (line ++ String newline "") = Err RuntimeError) by (rewrite E; reflexivity).
  unfold parse_line. rewrite rstrip_drop by reflexivity. unfold line. change (")).") with (")" ++ (")" ++ String "." "")). rewrite <- !app_assoc_s. rewrite rstrip_drop by reflexivity. change ")" with (String ")" ""). rewrite (rstrip_keep ends_line) by reflexivity. rewrite !rstrip_drop by reflexivity.
  assert (E : rstrip (Ascii.eqb ")") (f ++ "(" ++ g ++ "(" ++ args) = f ++ "(" ++ g ++ "(" ++ args).
  { assert (K : forall v u, rstrip (Ascii.eqb ")") u = u -> u <> "" -> rstrip (Ascii.eqb ")") (v ++ u) = v ++ u). { intros v u0 E N. induction v as [|c v IH]; [exact E|]. cbn [append rstrip]. rewrite IH. destruct (v ++ u0) eqn:X; [|reflexivity]. destruct v; [cbn in X; contradiction|discriminate]. }
    assert (O : forall v, rstrip (Ascii.eqb ")") v = v -> rstrip (Ascii.eqb ")") ("(" ++ v) = "(" ++ v) by (intros v Ev; cbn [append rstrip]; rewrite Ev; destruct v; reflexivity).
    apply K; [|discriminate]. apply O. apply K; [|discriminate]. apply O. apply rstrip_word; auto using close_word. }
  rewrite !app_assoc_s. rewrite E. destruct (split_two "(" f g args) as (ws & Hws & Ew). change (f ++ "(" ++ g ++ "(" ++ args) with (f ++ String "(" (g ++ String "(" args)). rewrite Ew. destruct ws as [|w1 [|w2 [|w3 ws]]]; cbn [List.length] in Hws; try lia. reflexivity.
Qed.
Print Assumptions C48_nested_terms_rejected.

Section Solve.
Variable gringo : list rule -> res string.
Lemma solve_spec g P t : g_model g = None -> create_reachability_lp (g_lang g) (g_actions g) (g_ineq g) (g_problem g) = Ok (P, t) -> (forall txt, gringo P = Ok txt -> answers P txt) ->
  (exists e, gringo P = Err e /\ solve_lp gringo g = (Err e, g)) \/
  (exists m g', (forall k, NoDup (tuples m k) /\ forall x, In x (tuples m k) <-> reported P t k x) /\ g_model g' = Some m /\ solve_lp gringo g = (if Nat.eqb (List.length (tuples m "goal")) 1 then Ok m else Err ReachabilityLPUnsolvable, g')).
Proof.
  intros Hm Hc Ha. unfold solve_lp. rewrite Hm, Hc. cbn [bind fst snd]. destruct (gringo P) as [txt|e]; [|left; exists e; auto]. cbn [bind]. destruct (Ha txt eq_refl) as (atoms & Hw & Hd & ->). destruct (parse_answer t atoms Hw) as (m & -> & A & B).
  right. exists m. eexists. split; [|split; [|reflexivity]; reflexivity]. intros k. split; [apply B|]. intros x. rewrite A. unfold reported. split; intros (s & l & X & Y); exists s, l; (split; [apply Hd; exact X|exact Y]).
Qed.
End Solve.

Section Facts.
Variables (parse : bool -> string -> option Z) (ops : list lop) (C : cname -> Prop) (p : problem) (ga ineq : bool) (P : list rule) (t : trans).
Let l := lrun parse ops.
Let D := lang_domains l.
Hypothesis Hn : forallb native ops = true.
Hypothesis Hs : suitable C l p.
Hypothesis Hcr : create_reachability_lp l ga ineq p = Ok (P, t).
Lemma goal_nullary args : reported P t "goal" args -> args = [].
Proof.
  intros (s & ws & Hd & Hb & <-). destruct (create_lp_inv _ _ _ _ _ _ Hcr) as (u & F & HF & <- & <-). destruct (create_parts parse ops ga ineq p F u HF) as [I _].
  assert (s = "goal") by (destruct (back_cases F I s "goal" Hb) as [-> | ->]; reflexivity). subst s. rewrite (goal_derived l ga ineq p F u HF I ws Hd). reflexivity.
Qed.
Lemma in_domain c s' u : const_of l c s' -> is_plain l s' -> le l s' u -> is_plain l u -> exists cs, D u = Some cs /\ In (Cst c s') cs.
Proof.
  intros Hc Hp Hle Hu. destruct Hu as (r & Hr & K). assert (Er : sget (l_sorts l) u = Some r) by (apply (sget_In _ _ _ (ii_sorts l (lrun_index parse ops))); exact Hr).
  assert (Hd := dom_spec parse ops Hn u r Er K). assert (T : forall d, (forall c, In c d -> exists s', is_plain l s' /\ const_of l c s' /\ le l s' u) -> exists cs, mapM (fun c => match dget cname_eqb (l_consts l) c with Some (sym, srt) => Ok (Cst sym srt) | None => Err UndefinedElement end) d = Ok cs).
  { induction d as [|x d IH]; intros H; [exists []; reflexivity|]. destruct (H x (or_introl eq_refl)) as (s1 & _ & X & _). destruct (const_dget parse ops x s1 X) as (sym & Eg). destruct IH as (cs & E); [intros y Hy; apply H; right; exact Hy|]. exists (Cst sym s1 :: cs). rewrite mapM_cons'. fold l in Eg. rewrite Eg. rewrite E. reflexivity. }
  destruct (T (s_dom r)) as (cs & E); [intros x Hx; apply Hd; exact Hx|]. exists cs. unfold D, lang_domains, lang_domain. rewrite Er, K, E. split; [reflexivity|].
  assert (Hin : In c (s_dom r)) by (apply Hd; eauto). apply mapM_Forall2 in E. destruct (Forall2_In_l _ _ _ _ E Hin) as (x & Hx & Ex). destruct (const_dget parse ops c s' Hc) as (sym & Eg). fold l in Eg. rewrite Eg in Ex. injection Ex as <-. rewrite (plain_const_name parse ops Hn c sym s' Hp Eg) in Hx. exact Hx.
Qed.
Lemma actions_typed k args : clear_names l p -> reported P t ("action_" ++ k) args -> exists a, In a (p_actions p) /\ a_name a = k /\ Forall2 (fun v x => names_constant D (snd v) x) (param_vars a) args.
Proof.
  intros [Cl1 Cl2] (s & ws & Hd & Hb & <-). destruct (create_lp_inv _ _ _ _ _ _ Hcr) as (u & F & HF & <- & <-). destruct (create_parts parse ops ga ineq p F u HF) as [I _].
  assert (Itr := lrun_tree parse ops Hn). assert (IS : forall q, is_sort l q -> exists r, In (q, r) (l_sorts l)) by (intros q Hq; apply in_map_iff in Hq as ([q' r] & Eq & Hq); cbn [fst] in Eq; subst q'; eauto).
  destruct (action_derived l ga ineq p F u HF I) with (sy := s) (k := k) (args := ws) as (a & Ha & En & H); auto.
  - intros s0 q _ Hq. apply IS. exact (it_parent _ Itr s0 q Hq).
  - intros c sym s0 Hin. apply IS. apply (it_const _ Itr c). exists sym. exact Hin.
  - intros c sym s0 Hin Hp. assert (Eg : dget cname_eqb (l_consts l) c = Some (sym, s0)) by (apply (dget_Some_In cname_eqb cname_eqb_eq); [apply (ii_consts l (lrun_index parse ops))|exact Hin]). rewrite (plain_const_name parse ops Hn c sym s0 Hp Eg). apply (su_named _ _ _ Hs). apply (su_declared _ _ _ Hs c s0). exists sym. exact Hin.
  - intros a v Ha Hv. apply (su_written _ _ _ Hs a Ha). unfold action_variables. rewrite in_app_iff. auto.
  - exists a. split; [exact Ha|]. split; [exact En|]. assert (Hpl : forall v, In v (param_vars a) -> is_plain l (snd v)) by (intros v Hv; apply (su_written _ _ _ Hs a Ha); unfold action_variables; rewrite in_app_iff; auto).
    clear Hd. induction H as [|v x vs xs (c & sym & s' & Hin & Hp & Hle & -> & K) H IH]; [constructor|]. cbn [map]; constructor; [|apply IH; [intros w Hw; apply Hpl; right; exact Hw]].
    assert (Eg : dget cname_eqb (l_consts l) c = Some (sym, s')) by (apply (dget_Some_In cname_eqb cname_eqb_eq); [apply (ii_consts l (lrun_index parse ops))|exact Hin]). rewrite (plain_const_name parse ops Hn c sym s' Hp Eg) in *.
    destruct (in_domain c s' (snd v)) as (cs & Ec & Hcs); auto. { exists c. exact Hin. } { apply Hpl. left. reflexivity. }
    exists cs, (Cst c s'). split; [exact Ec|]. split; [exact Hcs|]. cbn [text]. symmetry. apply back_known; auto. apply (su_named _ _ _ Hs). apply (su_declared _ _ _ Hs c s'). exists c. exact Hin.
Qed.
End Facts.

(** ** Ground actions. With any language built by tarski's calls, any suitable problem whose names can be told apart, and any solver whose answer for this program is right: the result has an entry for
    each action; the entry is a set, it has exactly the argument tuples that the least model of the program has for the action, every tuple consists of constants of the sorts of the parameters, and every
    instance of the action that is applicable in a reachable state is there. *)
Theorem C48_actions : forall parse ops C p ineq gringo P t, let l := lrun parse ops in forallb native ops = true -> suitable C l p -> clear_names l p -> create_reachability_lp l true ineq p = Ok (P, t) ->
  (forall txt, gringo P = Ok txt -> answers P txt) ->
  forall g g' groundings, new_strategy l p true ineq = Ok g -> lp_ground_actions gringo g = (Ok groundings, g') ->
  map fst groundings = map a_name (p_actions p) /\
  (forall k xs, In (k, xs) groundings -> NoDup xs /\ (forall x, In x xs <-> reported P t ("action_" ++ k) x) /\
     forall x, In x xs -> exists a, In a (p_actions p) /\ a_name a = k /\ Forall2 (fun v y => names_constant (lang_domains l) (snd v) y) (param_vars a) x) /\
  (forall S a e, reachable (lang_domains l) p S -> In a (p_actions p) -> applicable (lang_domains l) S a e ->
     exists xs, In (a_name a, xs) groundings /\ In (map (fun v => text (e v)) (param_vars a)) xs).
Proof.
  intros parse ops C p ineq gringo P t l Hn Hsu Hcl Hcr Ha g g' gs Hnew Hg. unfold new_strategy in Hnew. destruct (collect_affected_symbols (p_actions p)) as [fl|]; [|discriminate]. cbn [bind] in Hnew. injection Hnew as <-.
  unfold lp_ground_actions in Hg. cbn [g_actions negb g_problem] in Hg. set (g0 := {| g_lang := l; g_problem := p; g_actions := true; g_ineq := ineq; g_model := None; g_fluents := sym_set fl |}) in *.
  destruct (solve_spec gringo g0 P t eq_refl Hcr Ha) as [(e & _ & E)|(m & g1 & Hm & _ & E)]; rewrite E in Hg; [discriminate|]. destruct (Nat.eqb _ 1); [|discriminate]. cbn [bind] in Hg. injection Hg as <- <-.
  split; [rewrite map_map; reflexivity|]. split.
  - intros k xs H. apply in_map_iff in H as (a & Ea & Hin). injection Ea as <- <-. split; [apply Hm|]. split; [intros x; apply Hm|]. intros x Hx. apply Hm in Hx. exact (actions_typed parse ops C p true ineq P t Hn Hsu Hcr _ _ Hcl Hx).
  - intros S a e Hr Hin Hap. exists (tuples m ("action_" ++ a_name a)). split; [apply in_map_iff; exists a; auto|]. apply Hm. exact (C38_actions parse ops C p ineq P t Hn Hsu Hcr S a e Hr Hin Hap (proj2 Hcl a Hin)).
Qed.
Print Assumptions C48_actions.

(** ** Plans. An execution from an initial state: the steps are instances of actions, written as the name of the action and the names of its arguments. Every step of every execution is among the ground actions,
    so no plan is lost by planning with the ground actions only. *)
Inductive execution (D : domains) (p : problem) (S0 : AspSpec.state) : list (string * list string) -> AspSpec.state -> Prop :=
| exec_start : (forall n ss pt, true_atoms S0 (PU n ss) pt = m_holds (p_init p) (PU n ss) pt) -> execution D p S0 [] S0
| exec_step steps S a e S' : execution D p S0 steps S -> In a (p_actions p) -> applicable D S a e -> successor_of D S a e S' ->
    execution D p S0 (steps ++ [(a_name a, map (fun v => text (e v)) (param_vars a))]) S'.
Lemma execution_reachable D p S0 steps S : execution D p S0 steps S -> reachable D p S.
Proof. induction 1; [now constructor|eapply reachable_step; eauto]. Qed.
Theorem C48_plans : forall parse ops C p ineq gringo P t, let l := lrun parse ops in forallb native ops = true -> suitable C l p -> clear_names l p -> create_reachability_lp l true ineq p = Ok (P, t) ->
  (forall txt, gringo P = Ok txt -> answers P txt) ->
  forall g g' groundings, new_strategy l p true ineq = Ok g -> lp_ground_actions gringo g = (Ok groundings, g') ->
  forall S0 plan S, execution (lang_domains l) p S0 plan S -> forall k x, In (k, x) plan -> exists xs, In (k, xs) groundings /\ In x xs.
Proof.
  intros parse ops C p ineq gringo P t l Hn Hsu Hcl Hcr Ha g g' gs Hnew Hg S0 plan S E. destruct (C48_actions parse ops C p ineq gringo P t Hn Hsu Hcl Hcr Ha g g' gs Hnew Hg) as (_ & _ & Q).
  induction E as [|steps S a e S' E IH Hin Hap Hsuc]; intros k x K; [destruct K|]. apply in_app_or in K as [K|[K|[]]]; [exact (IH k x K)|]. injection K as <- <-. exact (Q S a e (execution_reachable _ _ _ _ _ E) Hin Hap).
Qed.
Print Assumptions C48_plans.
(** ** Unsolvable problems. The exception is raised exactly if the goal is not in the least model, and then no reachable state satisfies the goal. *)
Theorem C48_unsolvable : forall parse ops C p ga ineq gringo P t, let l := lrun parse ops in forallb native ops = true -> suitable C l p -> create_reachability_lp l ga ineq p = Ok (P, t) ->
  (forall txt, gringo P = Ok txt -> answers P txt) ->
  forall g, new_strategy l p ga ineq = Ok g -> is_ok (gringo P) = true ->
  (fst (solve_lp gringo g) = Err ReachabilityLPUnsolvable <-> ~ reported P t "goal" []) /\
  (fst (solve_lp gringo g) = Err ReachabilityLPUnsolvable -> forall S e, reachable (lang_domains l) p S -> ~ true_in (lang_domains l) S (p_goal p) e).
Proof.
  intros parse ops C p ga ineq gringo P t l Hn Hsu Hcr Ha g Hnew Hok. unfold new_strategy in Hnew. destruct (collect_affected_symbols (p_actions p)) as [fl|]; [|discriminate]. cbn [bind] in Hnew. injection Hnew as <-.
  set (g0 := {| g_lang := l; g_problem := p; g_actions := ga; g_ineq := ineq; g_model := None; g_fluents := sym_set fl |}) in *.
  destruct (solve_spec gringo g0 P t eq_refl Hcr Ha) as [(e & E & _)|(m & g1 & Hm & _ & E)]; [rewrite E in Hok; discriminate|]. rewrite E. cbn [fst].
  assert (Iff : (if Nat.eqb (List.length (tuples m "goal")) 1 then Ok m else Err ReachabilityLPUnsolvable) = Err ReachabilityLPUnsolvable <-> ~ reported P t "goal" []).
  { destruct (Hm "goal") as [N X]. assert (All : forall x, In x (tuples m "goal") -> x = []) by (intros x Hx; apply X in Hx; exact (goal_nullary parse ops p ga ineq P t Hcr x Hx)). rewrite <- X. destruct (tuples m "goal") as [|x [|y d]].
    - cbn. split; auto.
    - cbn. rewrite (All x) by (left; reflexivity). split; [discriminate|]. intros H. exfalso. apply H. left. reflexivity.
    - exfalso. inversion N; subst. apply H1. left. rewrite (All x), (All y); cbn; auto. }
  split; [exact Iff|]. intros H S e Hr Ht. apply Iff in H. apply H. exact (C38_goal parse ops C p ga ineq P t Hn Hsu Hcr S e Hr Ht).
Qed.
Print Assumptions C48_unsolvable.
(** In terms of plans: after the exception there is no execution, of any length, that ends in a state in which the goal is true. *)
Theorem C48_no_plan : forall parse ops C p ga ineq gringo P t, let l := lrun parse ops in forallb native ops = true -> suitable C l p -> create_reachability_lp l ga ineq p = Ok (P, t) ->
  (forall txt, gringo P = Ok txt -> answers P txt) ->
  forall g, new_strategy l p ga ineq = Ok g -> fst (solve_lp gringo g) = Err ReachabilityLPUnsolvable -> is_ok (gringo P) = true ->
  forall S0 plan S e, execution (lang_domains l) p S0 plan S -> ~ true_in (lang_domains l) S (p_goal p) e.
Proof.
  intros parse ops C p ga ineq gringo P t l Hn Hsu Hcr Ha g Hnew Hs Hok S0 plan S e E. destruct (C48_unsolvable parse ops C p ga ineq gringo P t Hn Hsu Hcr Ha g Hnew Hok) as [_ Q]. exact (Q Hs S e (execution_reachable _ _ _ _ _ E)).
Qed.
Print Assumptions C48_no_plan.
