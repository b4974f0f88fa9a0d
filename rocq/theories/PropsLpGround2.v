(** C48, second part: state variables, the cached answer, and a concrete case. *)
From Coq Require Import Ascii.
From Verif Require Import Base Syntax Semantics SemLemmas NnfProofs Subst QElim QElimProofs FreeVars ListUtil ModelState ModelProofs ModelText Index Lang LangSpec LangProofs LangProofs2 LangProofs3 PropsLang Effects Represent Grounding GroundingSpec PropsGrounding
  Asp AspNamesSpec AspSpec PropsAspNames AspProofs1 AspProofs2 AspProofs3 PropsAsp LpGround LpGroundSpec LpGroundProofs LpGroundProofs2 LpGroundProofs3 PropsLpGround.
#[local] Open Scope string_scope.

Lemma sym_set_In fl s : In s (sym_set fl) -> In s fl.
Proof. induction fl as [|x fl IH]; [auto|]. cbn [sym_set]. destruct (sym_mem x fl); cbn [In]; tauto. Qed.
Lemma sym_set_has fl s : (forall a b, In a fl -> In b fl -> sym_sig a = sym_sig b -> a = b) -> In s fl -> In s (sym_set fl).
Proof.
  induction fl as [|x fl IH]; intros H; [auto|]. assert (H' : forall a b, In a fl -> In b fl -> sym_sig a = sym_sig b -> a = b) by (intros a b A B; apply H; right; assumption). cbn [sym_set]. intros [<-|Hin].
  - destruct (sym_mem x fl) eqn:E; [|left; reflexivity]. unfold sym_mem in E. apply existsb_exists in E as (y & Hy & E). unfold sym_eqb in E. apply sig_eqb_eq in E. apply IH; [exact H'|]. rewrite (H x y); cbn; auto.
  - destruct (sym_mem x fl); [auto|right; auto].
Qed.
Lemma sym_set_NoDup fl : NoDup (sym_set fl).
Proof.
  induction fl as [|x fl IH]; [constructor|]. cbn [sym_set]. destruct (sym_mem x fl) eqn:E; [exact IH|]. constructor; [|exact IH]. intros H. apply sym_set_In in H. assert (sym_mem x fl = true); [|congruence]. apply existsb_exists. exists x. split; [exact H|apply sig_refl].
Qed.
Section Vars.
Variable l : lang.
Hypothesis Hi : inv_index l.
Lemma called_spec x c : constant_called l x = Ok (Some c) <-> called l x c.
Proof.
  unfold constant_called, lget, called. split.
  - destruct (dget cname_eqb (l_index l) (CStr x)) as [e|]; [|discriminate]. cbn [bind]. destruct e; try discriminate. destruct (dget cname_eqb (l_consts l) (CStr x)) as [[sym srt]|] eqn:E; [|discriminate]. intros H. injection H as <-. exists sym, srt. split; [|reflexivity].
    now apply (dget_Some_In cname_eqb cname_eqb_eq _ _ _ (ii_consts l Hi)).
  - intros (sym & s & Hin & ->). apply (dget_Some_In cname_eqb cname_eqb_eq _ _ _ (ii_consts l Hi)) in Hin. assert (E : dget cname_eqb (l_index l) (CStr x) = Some (EConst (CStr x) s)) by (apply (ii_spec l Hi), (defined_as_eq l _ _ Hi); split; [reflexivity|exists sym; exact Hin]).
    rewrite E. cbn [bind]. rewrite Hin. reflexivity.
Qed.
Lemma called_fun x c c' : called l x c -> called l x c' -> c = c'.
Proof. intros A B. apply called_spec in A, B. congruence. Qed.
Lemma state_variable_spec s b v : state_variable l s b = Ok v -> exists ts, v = (s, ts) /\ Forall2 (called l) b ts.
Proof.
  unfold state_variable. destruct (mapM (constant_called l) b) as [cs|] eqn:E; [|discriminate]. cbn [bind]. destruct (mapM (fun c : option term => match c with Some t => Ok t | None => Err TarskiError end) cs) as [ts|] eqn:E2; [|discriminate]. intros H. injection H as <-. exists ts. split; [reflexivity|].
  apply mapM_Forall2 in E, E2. revert ts E2. induction E as [|x o b cs Hx _ IH]; intros ts E2; inversion E2 as [|? t' ? ts' Ht Hts]; subst; constructor; [|auto]. apply called_spec. destruct o; [|discriminate]. injection Ht as ->. exact Hx.
Qed.
Definition keyed (idx : sidx svar) : Prop := map fst (si_data idx) = si_objects idx /\ NoDup (si_objects idx).
Lemma svar_refl v : svar_eqb v v = true.
Proof. unfold svar_eqb. unfold sym_eqb. rewrite sig_refl. now apply points_eqb_eq. Qed.
Lemma dget_absent {V} (d : list (svar * V)) x : dget svar_eqb d x = None -> ~ In x (map fst d) /\ forall v, dset svar_eqb d x v = (d ++ [(x, v)])%list.
Proof.
  induction d as [|[k w] d IH]; cbn [dget dset map fst In app]; [auto|]. destruct (svar_eqb k x) eqn:E; [discriminate|]. intros H. destruct (IH H) as [A B]. split.
  - intros [-> |X]; [rewrite svar_refl in E; discriminate|auto].
  - intros v. now rewrite B.
Qed.
Lemma si_make_one idx v idx' : keyed idx -> si_make svar_eqb idx [v] = Ok idx' -> keyed idx' /\ si_objects idx' = (si_objects idx ++ [v])%list.
Proof.
  intros [K N]. cbn [si_make]. unfold si_add. destruct (dget svar_eqb (si_data idx) v) as [n|] eqn:E; [discriminate|]. intros H. injection H as <-. cbn [si_objects]. destruct (dget_absent _ _ E) as [A B]. split; [|reflexivity]. split; cbn [si_data si_objects].
  - rewrite B, map_app, K. reflexivity.
  - rewrite K in A. apply NoDup_app_iff_simple; [assumption|repeat constructor; intros []|]. intros x Hx [<-|[]]. auto.
Qed.
Lemma add_state_variables_spec s bs idx idx' : keyed idx -> add_state_variables l s bs idx = Ok idx' -> keyed idx' /\ exists tss, si_objects idx' = (si_objects idx ++ map (pair s) tss)%list /\ Forall2 (Forall2 (called l)) bs tss.
Proof.
  revert idx. induction bs as [|b bs IH]; intros idx K H; cbn [add_state_variables] in H.
  - injection H as <-. split; [exact K|]. exists []. rewrite app_nil_r. split; [reflexivity|constructor].
  - destruct (state_variable l s b) as [v|] eqn:E; [|discriminate]. cbn [bind] in H. destruct (si_make svar_eqb idx [v]) as [idx1|] eqn:E1; [|discriminate]. cbn [bind] in H. destruct (si_make_one _ _ _ K E1) as [K1 O1]. destruct (IH _ K1 H) as (K' & tss & O & F). destruct (state_variable_spec _ _ _ E) as (ts & -> & Ft).
    split; [exact K'|]. exists (ts :: tss). rewrite O, O1, <- app_assoc. split; [reflexivity|constructor; assumption].
Qed.
Lemma state_variables_of_spec m syms idx idx' : keyed idx -> state_variables_of l m syms idx = Ok idx' -> keyed idx' /\
  forall s ts, In (s, ts) (si_objects idx') <-> In (s, ts) (si_objects idx) \/ (In s syms /\ exists b, In b (tuples m ("atom_" ++ sym_name s)) /\ Forall2 (called l) b ts).
Proof.
  revert idx. induction syms as [|x syms IH]; intros idx K H; cbn [state_variables_of] in H.
  - injection H as <-. split; [exact K|]. intros s ts. cbn [In]. tauto.
  - destruct (add_state_variables l x _ idx) as [idx1|] eqn:E; [|discriminate]. cbn [bind] in H. destruct (add_state_variables_spec _ _ _ _ K E) as (K1 & tss & O & F). destruct (IH _ K1 H) as (K' & S). split; [exact K'|]. intros s ts. rewrite S, O, in_app_iff. cbn [In].
    assert (X : In (s, ts) (map (pair x) tss) <-> x = s /\ exists b, In b (tuples m ("atom_" ++ sym_name x)) /\ Forall2 (called l) b ts).
    { rewrite in_map_iff. split.
      - intros (ts' & E' & Hin). injection E' as <- <-. split; [reflexivity|]. destruct (Forall2_In_r _ _ _ _ F Hin) as (b & Hb & Fb). eauto.
      - intros [<- (b & Hb & Fb)]. destruct (Forall2_In_l _ _ _ _ F Hb) as (ts' & Hin & Ft). exists ts'. split; [|exact Hin]. f_equal. clear - Ft Fb Hi. revert ts Fb. induction Ft as [|y c b ts' Hy _ IH]; intros ts Fb; inversion Fb; subst; [reflexivity|]. f_equal; [eapply called_fun; eauto|auto]. }
    rewrite X. split; [|intros [A|[[<- |A] B]]; auto].
    intros [[A|[-> B]]|[A B]]; auto.
Qed.
End Vars.

(** ** State variables. They are exactly the reported atoms of the symbols written by the actions, with their names replaced by the constants of these names; there are no repetitions; and every atom over declared constants of a
    written predicate that is true in a reachable state is there. *)
Theorem C48_state_variables : forall parse ops C p ga ineq gringo P t, let l := lrun parse ops in forallb native ops = true -> suitable C l p -> create_reachability_lp l ga ineq p = Ok (P, t) ->
  (forall txt, gringo P = Ok txt -> answers P txt) -> (forall s s', written_by (p_actions p) s -> written_by (p_actions p) s' -> sym_sig s = sym_sig s' -> s = s') ->
  forall g g' variables, new_strategy l p ga ineq = Ok g -> lp_ground_state_variables gringo g = (Ok variables, g') ->
  NoDup (si_objects variables) /\
  (forall s ts, In (s, ts) (si_objects variables) <-> written_by (p_actions p) s /\ exists names, reported P t ("atom_" ++ sym_name s) names /\ Forall2 (called l) names ts) /\
  (forall S n ss pt, reachable (lang_domains l) p S -> true_atoms S (PU n ss) pt = true -> written_by (p_actions p) (SymP (PU n ss)) -> unambiguous ("atom_" ++ n) ->
     Forall (fun c => called l (text c) c) pt -> In (SymP (PU n ss), pt) (si_objects variables)).
Proof.
  intros parse ops C p ga ineq gringo P t l Hn Hsu Hcr Ha Hsig g g' idx Hnew Hg. unfold new_strategy in Hnew. assert (X := C40_fluents (p_actions p)). destruct (collect_affected_symbols (p_actions p)) as [fl|]; [|discriminate]. cbn [bind] in Hnew. injection Hnew as <-. destruct X as [_ X].
  unfold lp_ground_state_variables in Hg. set (g0 := {| g_lang := l; g_problem := p; g_actions := ga; g_ineq := ineq; g_model := None; g_fluents := sym_set fl |}) in *.
  destruct (solve_spec gringo g0 P t eq_refl Hcr Ha) as [(e & _ & E)|(m & g1 & Hm & _ & E)]; rewrite E in Hg; [discriminate|]. destruct (Nat.eqb _ 1); [|discriminate]. cbn [bind] in Hg. injection Hg as Hv <-. cbn [g_lang g_fluents g0] in Hv.
  assert (Hi := lrun_index parse ops). fold l in Hi. destruct (state_variables_of_spec l Hi m (sym_set fl) si_empty idx) as [[K N] S]; [split; [reflexivity|constructor]|exact Hv|].
  assert (Main : forall s ts, In (s, ts) (si_objects idx) <-> written_by (p_actions p) s /\ exists names, reported P t ("atom_" ++ sym_name s) names /\ Forall2 (called l) names ts).
  { intros s ts. rewrite S. cbn [si_empty si_objects In]. assert (Fl : In s (sym_set fl) <-> written_by (p_actions p) s).
    { rewrite <- X. split; [apply sym_set_In|]. apply sym_set_has. intros a b A B. apply Hsig; apply X; assumption. }
    rewrite Fl. split; [intros [[]|[A (b & Hb & F)]]|intros [A (b & Hb & F)]; right]; (split; [exact A|]); exists b; (split; [|exact F]); apply Hm; exact Hb. }
  split; [exact N|]. split; [exact Main|]. intros St n ss pt Hr Ht Hw Hu Hc. apply Main. split; [exact Hw|]. exists (map text pt). split; [exact (C38_atoms parse ops C p ga ineq P t Hn Hsu Hcr St n ss pt Hr Ht Hu)|].
  clear - Hc. induction Hc; cbn [map]; constructor; auto.
Qed.
Print Assumptions C48_state_variables.

(** * A concrete case *)
Definition opsG := [OSort "place" None; OConst (CStr "loc-1") "place"].
Definition langG := lrun no_parse opsG.
Definition loc1G := Cst (CStr "loc-1") "place".
Definition pHere := PU "at" ["place"].
Definition go := {| a_name := "go"; a_params := [Var "?p" "place"]; a_pre := Top; a_effs := [EAdd Top (Atom pHere [Var "?p" "place"])] |}.
Definition probG := {| p_actions := [go]; p_init := empty_model; p_goal := Atom pHere [loc1G] |}.
Definition atomsG := [("type_place", ["loc__1"]); ("type_object", ["loc__1"]); ("action_go", ["loc__1"]); ("atom_at", ["loc__1"])].
Definition rulesG (p : problem) : list rule * trans := match create_reachability_lp langG true false p with Ok x => x | Err _ => ([], trans0) end.
Lemma derives_sound P (atoms : list (string * list string)) : (forall r theta, In r P -> lp_infix (r_head r) = false ->
    (forall a, In a (r_body r) -> lp_infix a = false -> In (lp_sym a, map (instantiate theta) (lp_args a)) atoms) -> In (lp_sym (r_head r), map (instantiate theta) (lp_args (r_head r))) atoms) ->
  forall s args, derives P s args -> In (s, args) atoms.
Proof. intros H s args D. induction D as [r theta Hr Hi _ IH _]. apply H; auto. Qed.
Ltac is_in H := repeat (destruct H as [H|H]); try contradiction; try (vm_compute in H; discriminate H).
(** one step of the least model: the k-th rule with the variables all set to x *)
Lemma fires P s args x r : In r P -> lp_infix (r_head r) = false -> lp_sym (r_head r) = s -> map (instantiate (fun _ => x)) (lp_args (r_head r)) = args ->
  Forall (fun a => lp_infix a = false /\ derives P (lp_sym a) (map (instantiate (fun _ => x)) (lp_args a))) (r_body r) -> derives P s args.
Proof. intros Hr Hi <- <- Hb. rewrite Forall_forall in Hb. constructor; auto. - intros a Ha _. apply Hb, Ha. - intros a Ha Hia. destruct (Hb a Ha) as [E _]. congruence. Qed.
Ltac fire := eapply (fires _ _ _ "loc__1"); [vm_compute; eauto 10|reflexivity|reflexivity|reflexivity|].
Definition probU := {| p_actions := [go]; p_init := empty_model; p_goal := Atom (PU "lit" ["place"]) [loc1G] |}.
Lemma answersG : answers (fst (rulesG probG)) (answer_text (("goal", []) :: atomsG)).
Proof.
  exists (("goal", []) :: atomsG). split; [|split; [|reflexivity]].
  - unfold words, atomsG. repeat (apply Forall_cons; [split; [cbn [fst word]; repeat (split; [unfold word_character; cbn [In]; intros X; decompose [or] X; try contradiction; discriminate|]); exact I|repeat (apply Forall_cons; [cbn [word]; repeat (split; [unfold word_character; cbn [In]; intros X; decompose [or] X; try contradiction; discriminate|]); exact I|]); apply Forall_nil]|]). apply Forall_nil.
  - intros s args. split.
    + assert (D1 : derives (fst (rulesG probG)) "type_place" ["loc__1"]). { eapply (fires _ _ _ "loc__1") with (r := {| r_head := {| lp_sym := "type_place"; lp_args := ["loc__1"]; lp_infix := false |}; r_body := [] |}); [vm_compute; auto 10|reflexivity..|constructor]. }
      assert (D2 : derives (fst (rulesG probG)) "action_go" ["loc__1"]). { eapply (fires _ _ _ "loc__1") with (r := {| r_head := {| lp_sym := "action_go"; lp_args := ["P"]; lp_infix := false |}; r_body := [{| lp_sym := "type_place"; lp_args := ["P"]; lp_infix := false |}] |}); [vm_compute; auto 10|reflexivity..|]. constructor; [split; [reflexivity|exact D1]|constructor]. }
      assert (D3 : derives (fst (rulesG probG)) "atom_at" ["loc__1"]). { eapply (fires _ _ _ "loc__1") with (r := {| r_head := {| lp_sym := "atom_at"; lp_args := ["P"]; lp_infix := false |}; r_body := [{| lp_sym := "action_go"; lp_args := ["P"]; lp_infix := false |}] |}); [vm_compute; auto 10|reflexivity..|]. constructor; [split; [reflexivity|exact D2]|constructor]. }
      intros H. cbn [In atomsG] in H. decompose [or] H; try contradiction; match goal with H : (_, _) = (s, args) |- _ => injection H as <- <- end; auto.
      * eapply (fires _ _ _ "loc__1") with (r := {| r_head := {| lp_sym := "goal"; lp_args := []; lp_infix := false |}; r_body := [{| lp_sym := "atom_at"; lp_args := ["loc__1"]; lp_infix := false |}] |}); [vm_compute; auto 10|reflexivity..|]. constructor; [split; [reflexivity|exact D3]|constructor].
      * eapply (fires _ _ _ "loc__1") with (r := {| r_head := {| lp_sym := "type_object"; lp_args := ["X"]; lp_infix := false |}; r_body := [{| lp_sym := "type_place"; lp_args := ["X"]; lp_infix := false |}] |}); [vm_compute; auto 10|reflexivity..|]. constructor; [split; [reflexivity|exact D1]|constructor].
    + apply derives_sound. clear. intros r theta Hr _ Hb. vm_compute in Hr. decompose [or] Hr; try contradiction; subst r; cbn [r_body r_head lp_sym lp_args map] in *; try (left; reflexivity); try (right; left; reflexivity).
      all: specialize (Hb _ (or_introl eq_refl) eq_refl); cbn [lp_sym lp_args map] in Hb; cbn [In atomsG] in Hb |- *; change (instantiate theta "X") with (theta "X") in *; change (instantiate theta "P") with (theta "P") in *; decompose [or] Hb; try contradiction; match goal with H : (_, _) = (_, _) |- _ => try discriminate H; injection H as E end; rewrite <- E; auto 10.
Qed.
Lemma answersU : answers (fst (rulesG probU)) (answer_text atomsG).
Proof.
  exists atomsG. split; [|split; [|reflexivity]].
  - unfold words, atomsG. repeat (apply Forall_cons; [split; [cbn [fst word]; repeat (split; [unfold word_character; cbn [In]; intros X; decompose [or] X; try contradiction; discriminate|]); exact I|repeat (apply Forall_cons; [cbn [word]; repeat (split; [unfold word_character; cbn [In]; intros X; decompose [or] X; try contradiction; discriminate|]); exact I|]); apply Forall_nil]|]). apply Forall_nil.
  - intros s args. split.
    + assert (D1 : derives (fst (rulesG probU)) "type_place" ["loc__1"]). { eapply (fires _ _ _ "loc__1") with (r := {| r_head := {| lp_sym := "type_place"; lp_args := ["loc__1"]; lp_infix := false |}; r_body := [] |}); [vm_compute; auto 10|reflexivity..|constructor]. }
      assert (D2 : derives (fst (rulesG probU)) "action_go" ["loc__1"]). { eapply (fires _ _ _ "loc__1") with (r := {| r_head := {| lp_sym := "action_go"; lp_args := ["P"]; lp_infix := false |}; r_body := [{| lp_sym := "type_place"; lp_args := ["P"]; lp_infix := false |}] |}); [vm_compute; auto 10|reflexivity..|]. constructor; [split; [reflexivity|exact D1]|constructor]. }
      assert (D3 : derives (fst (rulesG probU)) "atom_at" ["loc__1"]). { eapply (fires _ _ _ "loc__1") with (r := {| r_head := {| lp_sym := "atom_at"; lp_args := ["P"]; lp_infix := false |}; r_body := [{| lp_sym := "action_go"; lp_args := ["P"]; lp_infix := false |}] |}); [vm_compute; auto 10|reflexivity..|]. constructor; [split; [reflexivity|exact D2]|constructor]. }
      intros H. cbn [In atomsG] in H. decompose [or] H; try contradiction; match goal with H : (_, _) = (s, args) |- _ => injection H as <- <- end; auto.
      eapply (fires _ _ _ "loc__1") with (r := {| r_head := {| lp_sym := "type_object"; lp_args := ["X"]; lp_infix := false |}; r_body := [{| lp_sym := "type_place"; lp_args := ["X"]; lp_infix := false |}] |}); [vm_compute; auto 10|reflexivity..|]. constructor; [split; [reflexivity|exact D1]|constructor].
    + apply derives_sound. clear. intros r theta Hr _ Hb. vm_compute in Hr. decompose [or] Hr; try contradiction; subst r; cbn [r_body r_head lp_sym lp_args map] in *; try (left; reflexivity); try (right; left; reflexivity).
      all: specialize (Hb _ (or_introl eq_refl) eq_refl); cbn [lp_sym lp_args map] in Hb; cbn [In atomsG] in Hb |- *; change (instantiate theta "X") with (theta "X") in *; change (instantiate theta "P") with (theta "P") in *; decompose [or] Hb; try contradiction; match goal with H : (_, _) = (_, _) |- _ => try discriminate H; injection H as E end; rewrite <- E; auto 10.
Qed.

Definition namesG (c : cname) : Prop := c = CStr "loc-1".
Lemma constG c s : const_of langG c s -> namesG c.
Proof. intros (sym & H). vm_compute in H. unfold namesG. decompose [or] H; try contradiction; match goal with H : (_, _) = (_, _) |- _ => injection H; intros; subst; reflexivity end. Qed.
Lemma plainG s : In s ["object"; "place"] -> is_plain langG s.
Proof. intros H. cbn [In] in H. decompose [or] H; try contradiction; subst; (eexists; split; [vm_compute; eauto|reflexivity]). Qed.
Lemma ancG s t : anc langG s t -> t = "object".
Proof.
  induction 1 as [s t H|s u t H H' IH]; [|exact IH]. unfold parent_of, langG in H. change (l_parent (lrun no_parse opsG)) with [("object", None); ("place", Some "object")] in H. unfold sget in H. cbn [dget] in H. destruct (String.eqb "object" s); [discriminate|]. destruct (String.eqb "place" s); [congruence|discriminate].
Qed.
Lemma suitableG p : p_actions p = [go] -> p_init p = empty_model -> p_goal p = p_goal probG \/ p_goal p = p_goal probU -> suitable namesG langG p.
Proof.
  intros Ea Ei Eg. constructor.
  - split; [intros c ->; split; [left; exists "loc", "1"; reflexivity|reflexivity]|intros c c' -> ->; reflexivity].
  - exact constG.
  - intros c s t _ _ H. apply ancG in H as ->. apply plainG. left. reflexivity.
  - rewrite Ei. intros n ss pt H. discriminate H.
  - rewrite Ea. intros a [<-|[]]. change (action_variables go) with [("?p", "place")]. split.
    + intros v [<-|[]]. split; [apply plainG; right; left; reflexivity|]. exists "P". split; [exists "P"; split; reflexivity|reflexivity].
    + intros v w x [<-|[]] [<-|[]] _ _. reflexivity.
  - rewrite Ea. intros a [<-|[]]. split; [reflexivity|]. split; [reflexivity|]. split; [exact I|]. split; [intros v Hv; discriminate Hv|intros v []].
  - rewrite Ea. intros a e [<-|[]] [<-|[]]. cbn [plain_effect]. split; (split; [reflexivity|]; split; [reflexivity|]; split; [|split; [frees|intros v []]]); [exact I|]. split; [consts|exact I].
  - split; [|destruct Eg as [-> | ->]; (split; [intros v []|intros v w x []])]. destruct Eg as [-> | ->]; (split; [reflexivity|]; split; [reflexivity|]; split; [|split; [intros v Hv; discriminate Hv|intros v []]]); (split; [consts|exact I]).
Qed.
Lemma clearG p : p_actions p = [go] -> clear_names langG p.
Proof.
  intros Ea. split; [|rewrite Ea; intros a [<-|[]]; apply plain_name; reflexivity]. intros s r H. vm_compute in H. decompose [or] H; try contradiction; match goal with H : (_, _) = (_, _) |- _ => injection H; intros; subst; apply plain_name; reflexivity end.
Qed.
Definition solverG (p : problem) (rules : list rule) : res string := Ok (answer_text (match p_goal p with Atom (PU "at" _) _ => ("goal", []) :: atomsG | _ => atomsG end)).
Definition strategyG (p : problem) : strategy := match new_strategy langG p true false with Ok g => g | Err _ => {| g_lang := langG; g_problem := p; g_actions := true; g_ineq := false; g_model := None; g_fluents := [] |} end.
Definition startG : state := {| true_atoms := m_holds empty_model; fun_values := App |}.
Definition afterG : state := {| true_atoms := fun q pt => match q with PU n ss => sig_eqb (psig q) (psig pHere) && points_eqb pt [loc1G] | _ => false end; fun_values := App |}.
Lemma successorG : successor_of (lang_domains langG) startG go (fun _ => loc1G) afterG.
Proof.
  intros n ss pt. cbn [afterG true_atoms]. rewrite andb_true_iff. change (psig pHere) with (psig (PU "at" ["place"])). rewrite sig_user, points_eqb_eq. split.
  - intros [[-> ->] ->]. left. eexists. split; [left; reflexivity|]. exact (adds_atom (lang_domains langG) startG (fun _ => loc1G) Top "at" ["place"] [Var "?p" "place"] eq_refl).
  - intros [(eff & [<-|[]] & Had)|[H _]]; [|discriminate H]. inversion Had; subst. auto.
Qed.
Lemma reachableG : reachable (lang_domains langG) probG afterG.
Proof.
  apply (reachable_step _ _ startG go (fun _ => loc1G) afterG); [constructor; reflexivity|left; reflexivity| |exact successorG].
  split; [|reflexivity]. intros v [<-|[]]. eexists. split; [reflexivity|vm_compute; auto].
Qed.
(** The solver prints the least model; the two calls return the ground action go(loc-1) and the state variable at(loc-1). *)
Theorem C48_nonvacuous : forallb native opsG = true /\ suitable namesG langG probG /\ clear_names langG probG /\ (exists t, create_reachability_lp langG true false probG = Ok (fst (rulesG probG), t)) /\
  (forall txt, solverG probG (fst (rulesG probG)) = Ok txt -> answers (fst (rulesG probG)) txt) /\ new_strategy langG probG true false = Ok (strategyG probG) /\
  fst (lp_ground_actions (solverG probG) (strategyG probG)) = Ok [("go", [["loc-1"]])] /\
  (exists variables, fst (lp_ground_state_variables (solverG probG) (strategyG probG)) = Ok variables /\ si_objects variables = [(SymP pHere, [loc1G])]) /\
  (forall s s', written_by (p_actions probG) s -> written_by (p_actions probG) s' -> sym_sig s = sym_sig s' -> s = s') /\
  reachable (lang_domains langG) probG afterG /\ true_atoms afterG pHere [loc1G] = true /\ Forall (fun c => called langG (text c) c) [loc1G] /\
  forallb native opsG = true /\ suitable namesG langG probU /\ (forall txt, solverG probU (fst (rulesG probU)) = Ok txt -> answers (fst (rulesG probU)) txt) /\
  fst (solve_lp (solverG probU) (strategyG probU)) = Err ReachabilityLPUnsolvable.
Proof.
  split; [reflexivity|]. split; [apply suitableG; auto|]. split; [apply clearG; reflexivity|]. split; [eexists; vm_compute; reflexivity|]. split; [intros txt H; change (Ok (answer_text (("goal", []) :: atomsG)) = Ok txt) in H; injection H as <-; exact answersG|].
  split; [reflexivity|]. split; [vm_compute; reflexivity|]. split; [eexists; split; vm_compute; reflexivity|]. split; [|split; [exact reachableG|split; [reflexivity|split; [repeat constructor; exists (CStr "loc-1"), "place"; split; [vm_compute; auto|reflexivity]|]]]].
  - assert (W : forall s, written_by (p_actions probG) s -> s = SymP pHere). { intros s (a & e & e' & [<-|[]] & [<-|[]] & Hs & Hw). inversion Hs; subst. destruct Hw as (x & ts & E & ->). injection E as <- _. reflexivity. } intros s s' A B _. now rewrite (W s A), (W s' B).
  - split; [reflexivity|]. split; [apply suitableG; auto|]. split; [intros txt H; change (Ok (answer_text atomsG) = Ok txt) in H; injection H as <-; exact answersU|]. vm_compute. reflexivity.
Qed.
Print Assumptions C48_nonvacuous.
(** A plan of the same problem, whose step is the ground action *)
Theorem C48_plans_nonvacuous : execution (lang_domains langG) probG startG [("go", ["loc-1"])] afterG /\ true_in (lang_domains langG) afterG (p_goal probG) (fun _ => loc1G).
Proof.
  split; [|reflexivity]. apply (exec_step _ _ startG [] startG go (fun _ => loc1G) afterG); [constructor; reflexivity|left; reflexivity| |exact successorG].
  split; [|reflexivity]. intros v [<-|[]]. eexists. split; [reflexivity|vm_compute; auto].
Qed.
Print Assumptions C48_plans_nonvacuous.

(** * Where it fails *)
(** The groundings of one schema: the answer has the key "action_go", and the method looks for "go". *)
Theorem C48_schema_groundings_refuted : exists ops p gringo g P t, let l := lrun no_parse ops in create_reachability_lp l true false p = Ok (P, t) /\ (forall txt, gringo P = Ok txt -> answers P txt) /\ new_strategy l p true false = Ok g /\
  fst (lp_ground_actions gringo g) = Ok [("go", [["loc-1"]])] /\ fst (iterate_over_schema_groundings gringo g "go") = Ok [].
Proof.
  exists opsG, probG, (solverG probG), (strategyG probG), (fst (rulesG probG)), (snd (rulesG probG)). cbv zeta. split; [vm_compute; reflexivity|]. split; [intros txt H; change (Ok (answer_text (("goal", []) :: atomsG)) = Ok txt) in H; injection H as <-; exact answersG|]. split; [reflexivity|]. split; vm_compute; reflexivity.
Qed.
Print Assumptions C48_schema_groundings_refuted.
(** A caller who catches the exception for an unsolvable problem and calls again gets a normal result: the answer was cached before the goal was looked for. *)
Theorem C48_second_call_refuted : exists ops p gringo g P t, let l := lrun no_parse ops in create_reachability_lp l true false p = Ok (P, t) /\ (forall txt, gringo P = Ok txt -> answers P txt) /\ new_strategy l p true false = Ok g /\
  fst (lp_ground_actions gringo g) = Err ReachabilityLPUnsolvable /\ fst (lp_ground_actions gringo (snd (lp_ground_actions gringo g))) = Ok [("go", [["loc-1"]])].
Proof.
  exists opsG, probU, (solverG probU), (strategyG probU), (fst (rulesG probU)), (snd (rulesG probU)). cbv zeta. split; [vm_compute; reflexivity|]. split; [intros txt H; change (Ok (answer_text atomsG) = Ok txt) in H; injection H as <-; exact answersU|]. split; [reflexivity|]. split; vm_compute; reflexivity.
Qed.
Print Assumptions C48_second_call_refuted.
