(** C38: the reachability program derives every action and atom that can be reached. *)
From Coq Require Import Ascii.
From Verif Require Import Base Syntax Semantics SemLemmas Build NnfProofs Subst SubstSpec SubstProofs QElim QElimProofs ModelState ModelProofs ModelText EvalSpec Lang LangSpec LangProofs LangProofs2 LangProofs3 PropsLang Effects Represent Grounding Asp AspNamesSpec AspSpec PropsAspNames AspProofs1 AspProofs2 AspProofs3 AspProofs4.
#[local] Open Scope string_scope.

Lemma create_lp_inv l ga ineq p P t : create_reachability_lp l ga ineq p = Ok (P, t) -> exists u F, create_rules l ga ineq p {| c_tr := trans0; c_aux := 0; c_rules := [] |} = Ok (u, F) /\ c_rules F = P /\ c_tr F = t.
Proof. unfold create_reachability_lp. destruct (create_rules l ga ineq p _) as [[u F]|]; cbn [bind snd]; [|discriminate]. intros H. injection H as <- <-. eauto. Qed.
Lemma named_back F C t : inv_ok (c_tr F) -> well_named C -> named F C t -> back (c_tr F) (lp_name t) = text t.
Proof. intros I HC (c & s & -> & Hc & K). unfold lp_name, text. apply back_known; auto. apply (proj1 HC c Hc). Qed.
Lemma names_back F C ts : inv_ok (c_tr F) -> well_named C -> Forall (named F C) ts -> map (back (c_tr F)) (map lp_name ts) = map text ts.
Proof. intros I HC H. induction H as [|t ts Ht H IH]; [reflexivity|]. cbn [map]. now rewrite IH, (named_back F C t I HC Ht). Qed.

Section Statements.
Variables (parse : bool -> string -> option Z) (ops : list lop) (C : cname -> Prop) (p : problem) (ga ineq : bool) (P : list rule) (t : trans).
Let l := lrun parse ops.
Let D := lang_domains l.
Hypothesis Hn : forallb native ops = true.
Hypothesis Hs : suitable C l p.
Lemma atoms_reported S n ss pt : create_reachability_lp l ga ineq p = Ok (P, t) -> reachable D p S -> true_atoms S (PU n ss) pt = true -> unambiguous ("atom_" ++ n) -> reported P t ("atom_" ++ n) (map text pt).
Proof.
  intros Hc Hr H U. apply create_lp_inv in Hc as (u & F & HF & <- & <-). destruct (create_parts parse ops ga ineq p F u HF) as [I _].
  destruct (reachable_invariant parse ops Hn ga ineq p C F u Hs HF S Hr n ss pt H) as (N & K & Dv). exists (sanitize ("atom_" ++ n)), (map lp_name pt). split; [exact Dv|]. split; [exact (back_known _ _ I K U)|exact (names_back F C pt I (su_named _ _ _ Hs) N)].
Qed.
Lemma actions_reported S a e : create_reachability_lp l true ineq p = Ok (P, t) -> reachable D p S -> In a (p_actions p) -> applicable D S a e -> unambiguous ("action_" ++ a_name a) -> reported P t ("action_" ++ a_name a) (map (fun v => text (e v)) (param_vars a)).
Proof.
  intros Hc Hr Ha Hap U. apply create_lp_inv in Hc as (u & F & HF & <- & <-). destruct (create_parts parse ops true ineq p F u HF) as [I _].
  destruct (action_sound parse ops Hn true ineq p C F u Hs HF a S e Ha (reachable_invariant parse ops Hn true ineq p C F u Hs HF S Hr) Hap) as [A _]. destruct (A eq_refl) as (K & N & Dv).
  exists (sanitize ("action_" ++ a_name a)), (map lp_name (map e (param_vars a))). split; [exact Dv|]. split; [exact (back_known _ _ I K U)|]. rewrite (names_back F C _ I (su_named _ _ _ Hs) N), map_map. reflexivity.
Qed.
Lemma goal_reported S e : create_reachability_lp l ga ineq p = Ok (P, t) -> reachable D p S -> true_in D S (p_goal p) e -> reported P t "goal" [].
Proof.
  intros Hc Hr Hg. apply create_lp_inv in Hc as (u & F & HF & <- & <-). destruct (create_parts parse ops ga ineq p F u HF) as [I _].
  exists "goal", []. split; [exact (goal_sound parse ops Hn ga ineq p C F u Hs HF S e (reachable_invariant parse ops Hn ga ineq p C F u Hs HF S Hr) Hg)|]. split; [|reflexivity]. apply (back_known (c_tr F) "goal" I); [left; reflexivity|].
  right. intros (a & b & H). do 5 (destruct a as [|? a]; [discriminate|cbn in H; try discriminate; injection H as _ H]).
Qed.
End Statements.

(** With any language built by tarski's calls, any suitable problem, both compilers ([ga]) and both treatments of negated conditions ([ineq]): an atom true in a reachable state is
    reported. *)
Theorem C38_atoms : forall parse ops C p ga ineq P t, let l := lrun parse ops in forallb native ops = true -> suitable C l p -> create_reachability_lp l ga ineq p = Ok (P, t) ->
  forall S n ss pt, reachable (lang_domains l) p S -> true_atoms S (PU n ss) pt = true -> unambiguous ("atom_" ++ n) -> reported P t ("atom_" ++ n) (map text pt).
Proof. intros parse ops C p ga ineq P t l Hn Hs Hc S n ss pt. exact (atoms_reported parse ops C p ga ineq P t Hn Hs S n ss pt Hc). Qed.
Print Assumptions C38_atoms.
(** An action applicable in a reachable state is reported with the values of its parameters, by the compiler for ground actions. *)
Theorem C38_actions : forall parse ops C p ineq P t, let l := lrun parse ops in forallb native ops = true -> suitable C l p -> create_reachability_lp l true ineq p = Ok (P, t) ->
  forall S a e, reachable (lang_domains l) p S -> In a (p_actions p) -> applicable (lang_domains l) S a e -> unambiguous ("action_" ++ a_name a) ->
    reported P t ("action_" ++ a_name a) (map (fun v => text (e v)) (param_vars a)).
Proof. intros parse ops C p ineq P t l Hn Hs Hc S a e. exact (actions_reported parse ops C p ineq P t Hn Hs S a e Hc). Qed.
Print Assumptions C38_actions.
(** If the goal is true in a reachable state, it is reported: a problem declared unsolvable (no goal in the model) is unsolvable. *)
Theorem C38_goal : forall parse ops C p ga ineq P t, let l := lrun parse ops in forallb native ops = true -> suitable C l p -> create_reachability_lp l ga ineq p = Ok (P, t) ->
  forall S e, reachable (lang_domains l) p S -> true_in (lang_domains l) S (p_goal p) e -> reported P t "goal" [].
Proof. intros parse ops C p ga ineq P t l Hn Hs Hc S e. exact (goal_reported parse ops C p ga ineq P t Hn Hs S e Hc). Qed.
Print Assumptions C38_goal.

(** * A concrete case *)
Fixpoint occurs (sub s : string) : bool := String.prefix sub s || match s with EmptyString => false | String _ s' => occurs sub s' end.
Lemma prefix_app a b : String.prefix a (a ++ b) = true.
Proof. induction a as [|c a IH]; [destruct b; reflexivity|]. cbn. destruct (ascii_dec c c); [exact IH|contradiction]. Qed.
Lemma occurs_spec sub s : contains sub s -> occurs sub s = true.
Proof.
  intros (a & b & ->). induction a as [|c a IH]; [|cbn [append occurs]; now rewrite IH, orb_true_r]. cbn [append]. assert (H := prefix_app sub b). destruct (sub ++ b); cbn [occurs]; now rewrite H.
Qed.
Lemma plain_name n : occurs "__" n = false -> unambiguous n.
Proof. intros H. right. intros X. apply occurs_spec in X. congruence. Qed.
Definition opsR := [OSort "place" None; OSort "truck" None; OConst (CStr "loc-1") "place"; OConst (CStr "loc-2") "place"; OConst (CStr "t1") "truck"].
Definition langR := lrun no_parse opsR.
Definition loc1 := Cst (CStr "loc-1") "place".
Definition loc2 := Cst (CStr "loc-2") "place".
Definition t1 := Cst (CStr "t1") "truck".
Definition pAt := PU "at" ["truck"; "place"].
Definition pSeen := PU "seen-by" ["place"].
(** drive-to(?t, ?from, ?to): requires at(?t, ?from) and ?from != ?to; moves the truck; makes seen-by(?p) true for all places ?p other than ?from *)
Definition driveto := {| a_name := "drive-to"; a_params := [Var "?t" "truck"; Var "?from" "place"; Var "?to" "place"];
  a_pre := Comp And [Atom pAt [Var "?t" "truck"; Var "?from" "place"]; Atom (PB PNe) [Var "?from" "place"; Var "?to" "place"]];
  a_effs := [EAdd Top (Atom pAt [Var "?t" "truck"; Var "?to" "place"]); EDel Top (Atom pAt [Var "?t" "truck"; Var "?from" "place"]);
             EUni Top [Var "?p" "place"] [EAdd (Comp Not [Atom (PB PEq) [Var "?p" "place"; Var "?from" "place"]]) (Atom pSeen [Var "?p" "place"])]] |}.
Definition probR := {| p_actions := [driveto]; p_init := {| funs := []; preds := [((false, ["at"; "truck"; "place"]), [[t1; loc1]])] |};
  p_goal := Quant QEx [Var "?q" "place"] (Comp And [Atom pSeen [Var "?q" "place"]; Atom pAt [t1; Var "?q" "place"]]) |}.
Definition namesR (c : cname) : Prop := c = CStr "loc-1" \/ c = CStr "loc-2" \/ c = CStr "t1".
Lemma constR c s : const_of langR c s -> namesR c.
Proof. intros (sym & H). vm_compute in H. unfold namesR. decompose [or] H; try contradiction; match goal with H : (_, _) = (_, _) |- _ => injection H; intros; subst; tauto end. Qed.
Lemma plainR s : In s ["object"; "place"; "truck"] -> is_plain langR s.
Proof. intros H. cbn [In] in H. decompose [or] H; try contradiction; subst; (eexists; split; [vm_compute; eauto|reflexivity]). Qed.
Lemma parentR s t : parent_of langR s = Some t -> t = "object".
Proof.
  unfold parent_of, langR. intros H. change (l_parent (lrun no_parse opsR)) with [("object", None); ("place", Some "object"); ("truck", Some "object")] in H. cbn [sget dget] in H. unfold sget in H. cbn [dget] in H.
  destruct (String.eqb "object" s); [discriminate|]. destruct (String.eqb "place" s); [congruence|]. destruct (String.eqb "truck" s); [congruence|discriminate].
Qed.
Lemma ancR s t : anc langR s t -> t = "object".
Proof. induction 1 as [s t H|s u t H H' IH]; [exact (parentR _ _ H)|exact IH]. Qed.
Lemma wrR V : Forall (fun v => exists y, In (snd v) ["object"; "place"; "truck"] /\ make_variable_name (fst v) = Ok y /\ variable_like (sanitize y) = true) V ->
  ForallOrdPairs (fun v w => v = w \/ forall y y', make_variable_name (fst v) = Ok y -> make_variable_name (fst w) = Ok y' -> sanitize y <> sanitize y') V -> well_written langR V.
Proof.
  intros H1 H2. rewrite Forall_forall in H1. split.
  - intros v Hv. destruct (H1 v Hv) as (y & A & B & E). split; [apply plainR; exact A|]. exists (sanitize y). split; [exists y; auto|exact E].
  - intros v w x Hv Hw (y & Ey & ->) (y' & Ey' & E). destruct (ForallOrdPairs_In H2 v w Hv Hw) as [R|[R|R]]; [exact R| |].
    + destruct R as [R|R]; [exact R|]. exfalso. exact (R y y' Ey Ey' E).
    + destruct R as [R|R]; [auto|]. exfalso. exact (R y' y Ey' Ey (eq_sym E)).
Qed.
Ltac wr := apply wrR; [repeat (apply Forall_cons; [eexists; split; [vm_compute; tauto|split; [reflexivity|reflexivity]]|]); apply Forall_nil|
  repeat (apply FOP_cons; [repeat (apply Forall_cons; [first [left; reflexivity|right; intros y y' E E'; vm_compute in E, E'; injection E as <-; injection E' as <-; discriminate]|]); apply Forall_nil|]); apply FOP_nil].
Ltac consts := intros ? ? X; repeat (destruct X as [X|X]); try contradiction; try (vm_compute in X; discriminate X); try (vm_compute in X; injection X; intros; subst; vm_compute; tauto).
Ltac frees := intros v Hv; cbn in Hv; repeat rewrite orb_false_r in Hv; repeat rewrite orb_true_iff in Hv; repeat rewrite andb_true_iff in Hv; repeat rewrite var_eqb_eq in Hv; vm_compute; intuition.
Lemma suitableR : suitable namesR langR probR.
Proof.
  constructor.
  - split.
    + intros c [-> |[-> | ->]]; (split; [|reflexivity]); [left; exists "loc", "1"; reflexivity|left; exists "loc", "2"; reflexivity|apply plain_name; reflexivity].
    + intros c c' [-> |[-> | ->]] [-> |[-> | ->]] E; try reflexivity; discriminate.
  - exact constR.
  - intros c s t _ _ H. apply ancR in H as ->. apply plainR. left. reflexivity.
  - intros n ss pt H. unfold m_holds in H. cbn [probR p_init preds dget psig] in H. destruct (sig_eqb _ _); [|discriminate]. unfold pt_mem in H. cbn [existsb] in H. rewrite orb_false_r in H. apply points_eqb_eq in H. subst pt.
    repeat apply Forall_cons; try apply Forall_nil; (eexists; eexists; split; [reflexivity|vm_compute; tauto]).
  - intros a [<-|[]]. change (action_variables driveto) with [("?t", "truck"); ("?from", "place"); ("?to", "place"); ("?p", "place")]. wr.
  - intros a [<-|[]]. unfold plain_formula. split; [reflexivity|]. split; [reflexivity|]. split; [|split; [frees|intros v []]]. cbn [plain_atoms driveto a_pre fold_right]. split; [split; [consts|exact I]|]. split; [split; [consts|auto]|exact I].
  - intros a e [<-|[]] [<-|[<-|[<-|[]]]]; cbn [plain_effect fold_right]; auto.
    + split; (split; [reflexivity|]; split; [reflexivity|]; split; [|split; [frees|intros v []]]); [exact I|]. split; [consts|exact I].
    + split; [|exact I]. split; (split; [reflexivity|]; split; [reflexivity|]; split; [|split; [frees|intros v Hv X; exact X]]). * split; [|exact I]. split; [consts|auto]. * split; [consts|exact I].
  - split; [|change (binders (p_goal probR)) with [("?q", "place")]; wr]. split; [reflexivity|]. split; [reflexivity|]. split; [|split; [|intros v []]].
    + cbn [plain_atoms probR p_goal fold_right]. split; [split; [consts|exact I]|]. split; [split; [consts|exact I]|exact I].
    + intros v Hv. exfalso. cbn [probR p_goal free_in existsb free_in_t vars_of flat_map app t1] in Hv. unfold mem_var in Hv. cbn [existsb] in Hv. rewrite !orb_false_r in Hv. apply andb_true_iff in Hv as [A B]. rewrite negb_true_iff in A. rewrite A in B. discriminate B.
Qed.

Definition startR : state := {| true_atoms := m_holds (p_init probR); fun_values := App |}.
Definition bindR : assignment := fun v => if var_eqb v ("?t", "truck") then t1 else if var_eqb v ("?from", "place") then loc1 else loc2.
Definition afterR : state := {| true_atoms := fun q pt => match q with PU n ss => (String.eqb n "at" && sig_eqb (psig q) (psig pAt) && points_eqb pt [t1; loc2]) || (sig_eqb (psig q) (psig pSeen) && points_eqb pt [loc2]) | _ => false end; fun_values := App |}.
Lemma sig_user n ss n' ss' : sig_eqb (psig (PU n ss)) (psig (PU n' ss')) = true <-> n = n' /\ ss = ss'.
Proof. unfold sig_eqb. cbn [psig fst snd]. split; [|intros [-> ->]; destruct (list_eq_dec string_dec _ _); [reflexivity|contradiction]]. intros H. destruct (list_eq_dec string_dec (n :: ss) (n' :: ss')) as [E|]; [injection E as -> ->; auto|discriminate]. Qed.
Lemma domainR : lang_domains langR "place" = Some [loc1; loc2] /\ lang_domains langR "truck" = Some [t1].
Proof. split; reflexivity. Qed.
Lemma applicableR : applicable (lang_domains langR) startR driveto bindR.
Proof.
  split; [|reflexivity]. intros v [<-|[<-|[<-|[]]]]; eexists; (split; [reflexivity|]); vm_compute; auto.
Qed.
Lemma successorR : successor_of (lang_domains langR) startR driveto bindR afterR.
Proof.
  intros n ss pt. cbn [afterR true_atoms]. rewrite orb_true_iff, !andb_true_iff. change (psig pAt) with (psig (PU "at" ["truck"; "place"])). change (psig pSeen) with (psig (PU "seen-by" ["place"])). rewrite !sig_user, !points_eqb_eq, String.eqb_eq. split.
  - intros [[[_ [-> ->]] ->]|[[-> ->] ->]]; left.
    + eexists. split; [left; reflexivity|]. exact (adds_atom (lang_domains langR) startR bindR Top "at" ["truck"; "place"] [Var "?t" "truck"; Var "?to" "place"] eq_refl).
    + eexists. split; [right; right; left; reflexivity|]. eapply adds_universal with (e' := fun v => if var_eqb v ("?p", "place") then loc2 else bindR v); [reflexivity| |left; reflexivity|].
      * split; [intros v [<-|[]]; eexists; split; [reflexivity|vm_compute; auto]|]. intros v Hv. destruct (var_eqb v ("?p", "place")) eqn:E; [|reflexivity]. apply var_eqb_eq in E. subst v. exfalso. apply Hv. left. reflexivity.
      * exact (adds_atom (lang_domains langR) startR (fun v => if var_eqb v ("?p", "place") then loc2 else bindR v) (Comp Not [Atom (PB PEq) [Var "?p" "place"; Var "?from" "place"]]) "seen-by" ["place"] [Var "?p" "place"] eq_refl).
  - intros [(eff & [<-|[<-|[<-|[]]]] & Had)|[H Hno]].
    + inversion Had; subst. left. vm_compute. auto.
    + inversion Had.
    + inversion Had as [|x1 x2 x3 x4 e' eff' x5 x6 x7 Ht R Hin' Had']; subst. destruct R as [R1 R2]. destruct Hin' as [<-|[]]. inversion Had' as [y1 y2 y3 y4 y5 Ht'|]; subst. right. split; [auto|]. destruct (R1 ("?p", "place") (or_introl eq_refl)) as (cs & E & Hin). cbn [snd] in E. rewrite (proj1 domainR) in E. injection E as <-.
      assert (Ef : e' ("?from", "place") = loc1) by (rewrite (R2 ("?from", "place")); [reflexivity|intros [X|[]]; discriminate]).
      change (map (fun u => value (lang_domains langR) startR u e') [Var "?p" "place"]) with [e' ("?p", "place")]. destruct Hin as [E|[E|[]]]; [|now rewrite <- E]. exfalso. unfold true_in in Ht'.
      change (negb (pint (structure_of (lang_domains langR) startR) (PB PEq) [e' ("?p", "place"); e' ("?from", "place")]) = true) in Ht'. rewrite Ef, <- E in Ht'. vm_compute in Ht'. discriminate.
    + exfalso. apply Hno. exists (EDel Top (Atom pAt [Var "?t" "truck"; Var "?from" "place"])). split; [right; left; reflexivity|]. cbn [startR true_atoms] in H. unfold m_holds in H. cbn [probR p_init preds dget] in H.
      change (psig (PU n ss)) with (psig (PU n ss)) in H. change (false, ["at"; "truck"; "place"]) with (psig (PU "at" ["truck"; "place"])) in H. destruct (sig_eqb (psig (PU "at" ["truck"; "place"])) (psig (PU n ss))) eqn:E; [|discriminate]. apply sig_user in E as [<- <-]. unfold pt_mem in H. cbn [existsb] in H. rewrite orb_false_r in H. apply points_eqb_eq in H. subst pt.
      exact (deletes_atom (lang_domains langR) startR bindR Top "at" ["truck"; "place"] [Var "?t" "truck"; Var "?from" "place"] eq_refl).
Qed.
Theorem C38_nonvacuous : forallb native opsR = true /\ suitable namesR langR probR /\ (exists P t, create_reachability_lp langR true true probR = Ok (P, t)) /\
  applicable (lang_domains langR) startR driveto bindR /\ unambiguous ("action_" ++ a_name driveto) /\ unambiguous "atom_seen-by" /\
  reachable (lang_domains langR) probR afterR /\ true_atoms afterR pSeen [loc2] = true /\ true_atoms startR pSeen [loc2] = false /\ true_in (lang_domains langR) afterR (p_goal probR) bindR.
Proof.
  split; [reflexivity|]. split; [exact suitableR|]. split; [eexists; eexists; vm_compute; reflexivity|]. split; [exact applicableR|]. split; [left; exists "action_drive", "to"; reflexivity|]. split; [left; exists "atom_seen", "by"; reflexivity|].
  split; [|split; [reflexivity|split; reflexivity]]. apply (reachable_step _ _ startR driveto bindR afterR); [constructor; reflexivity|left; reflexivity|exact applicableR|exact successorR].
Qed.
Print Assumptions C38_nonvacuous.

(** * Where it fails *)
(** Parameters of interval sorts: the program has no facts about the numbers of the interval, so no instance of the action is ever reported. *)
Definition opsI := [OArith; OInterval "digit" "Integer" 1 3].
Definition langI := lrun no_parse opsI.
Definition press := {| a_name := "press"; a_params := [Var "?d" "digit"]; a_pre := Top; a_effs := [EAdd Top (Atom (PU "pressed" ["digit"]) [Var "?d" "digit"])] |}.
Definition probI := {| p_actions := [press]; p_init := empty_model; p_goal := Top |}.
Definition startI : state := {| true_atoms := m_holds (p_init probI); fun_values := App |}.
Definition rulesI : list rule * trans := match create_reachability_lp langI true true probI with Ok x => x | Err _ => ([], trans0) end.
Lemma derives_inv P s args : derives P s args -> exists r theta, In r P /\ lp_sym (r_head r) = s /\ map (instantiate theta) (lp_args (r_head r)) = args /\
  forall a, In a (r_body r) -> lp_infix a = false -> derives P (lp_sym a) (map (instantiate theta) (lp_args a)).
Proof. intros H. destruct H as [r theta HP Hh Hb Hc]. exists r, theta. auto. Qed.
Theorem C38_interval_parameter_refuted : exists ops p P t S a e, let l := lrun no_parse ops in forallb native ops = true /\ create_reachability_lp l true true p = Ok (P, t) /\
  reachable (lang_domains l) p S /\ In a (p_actions p) /\ applicable (lang_domains l) S a e /\ unambiguous ("action_" ++ a_name a) /\ ~ exists args, reported P t ("action_" ++ a_name a) args.
Proof.
  exists opsI, probI, (fst rulesI), (snd rulesI), startI, press, (fun _ => Cst (CInt 2) "digit"). cbv zeta. split; [reflexivity|]. split; [vm_compute; reflexivity|]. split; [constructor; reflexivity|]. split; [left; reflexivity|].
  split; [split; [|reflexivity]; intros v [<-|[]]; eexists; split; [reflexivity|vm_compute; auto]|]. split; [apply plain_name; reflexivity|].
  intros (args & s & ws & Hd & Hb & _). assert (Hs : s = "action_press") by exact Hb. subst s. clear Hb.
  apply derives_inv in Hd as (r & theta & Hr & Hh & _ & Hbody). vm_compute in Hr. repeat (destruct Hr as [Hr|Hr]; [subst r; try (vm_compute in Hh; discriminate Hh)|]); try contradiction.
  assert (Hd := Hbody _ (or_introl eq_refl) eq_refl). apply derives_inv in Hd as (r & theta' & Hr & Hh' & _). vm_compute in Hr. repeat (destruct Hr as [Hr|Hr]; [subst r; vm_compute in Hh'; discriminate Hh'|]). contradiction.
Qed.
Print Assumptions C38_interval_parameter_refuted.
(** Parameters whose names differ only in the case of a letter: the program has one variable for both, so only the instances with equal values are reported. *)
Definition opsV := [OSort "place" None; OConst (CStr "p") "place"; OConst (CStr "q") "place"].
Definition move := {| a_name := "move"; a_params := [Var "?xA" "place"; Var "?xa" "place"]; a_pre := Top; a_effs := [] |}.
Definition probV := {| p_actions := [move]; p_init := empty_model; p_goal := Top |}.
Definition startV : state := {| true_atoms := m_holds (p_init probV); fun_values := App |}.
Definition rulesV : list rule * trans := match create_reachability_lp (lrun no_parse opsV) true true probV with Ok x => x | Err _ => ([], trans0) end.
Theorem C38_variable_case_refuted : exists ops p P t S a e, let l := lrun no_parse ops in forallb native ops = true /\ create_reachability_lp l true true p = Ok (P, t) /\
  reachable (lang_domains l) p S /\ In a (p_actions p) /\ applicable (lang_domains l) S a e /\ unambiguous ("action_" ++ a_name a) /\ ~ reported P t ("action_" ++ a_name a) (map (fun v => text (e v)) (param_vars a)).
Proof.
  exists opsV, probV, (fst rulesV), (snd rulesV), startV, move, (fun v => if String.eqb (fst v) "?xA" then Cst (CStr "p") "place" else Cst (CStr "q") "place"). cbv zeta. split; [reflexivity|]. split; [vm_compute; reflexivity|]. split; [constructor; reflexivity|]. split; [left; reflexivity|].
  split; [split; [|reflexivity]; intros v [<-|[<-|[]]]; eexists; (split; [reflexivity|vm_compute; auto])|]. split; [apply plain_name; reflexivity|].
  intros (s & ws & Hd & Hb & Hws). assert (Hs : s = "action_move") by exact Hb. subst s. clear Hb.
  apply derives_inv in Hd as (r & theta & Hr & Hh & Ha & Hbody). vm_compute in Hr. repeat (destruct Hr as [Hr|Hr]; [subst r; try (vm_compute in Hh; discriminate Hh)|]); try contradiction.
  cbn [lp_args r_head map] in Ha. subst ws. vm_compute in Hws. injection Hws as E1 E2. congruence.
Qed.
Print Assumptions C38_variable_case_refuted.
