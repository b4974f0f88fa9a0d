(** C74: the text handed to the grounder is the logic program. *)
From Coq Require Import Ascii.
From Verif Require Import Base Syntax Semantics SemLemmas Build Subst SubstSpec QElim ModelState ModelText EvalSpec Lang LangSpec LangProofs LangProofs2 LangProofs3 PropsLang Effects Represent Grounding Asp AspNamesSpec AspSpec PropsAspNames AspProofs1 PropsAsp AspText AspTextSpec AspTextProofs1 AspTextProofs2 AspTextProofs3 AspTextProofs4 AspTextProofs5 AspTextProofs6.
#[local] Open Scope string_scope.

(** With any language built by tarski's calls and any problem whose names are [spelled] with letters, digits, underscores and hyphens, both compilers and both treatments of negated conditions, and however the
    rules without a body are printed ([facts]): the text is a program; it has the same clauses in the same order, and the same atoms follow from it. *)
Theorem C74_reads : forall parse ops p ga ineq P t facts, let l := lrun parse ops in forallb native ops = true -> spelled l p -> create_reachability_lp l ga ineq p = Ok (P, t) ->
  exists Q, read_program (program_text facts P) = Some Q /\
    Forall2 (fun r c => c_pred c = lp_sym (r_head r) /\ List.length (c_args c) = List.length (lp_args (r_head r)) /\ List.length (c_body c) = List.length (r_body r)) P Q /\
    (forall s args, follows Q s args <-> derives P s args).
Proof.
  intros parse ops p ga ineq P t facts l Hn HS Hc. assert (W := create_writable parse ops Hn p HS ga ineq P t Hc). exists (map clause_of P). split; [exact (read_program_text facts P W)|]. split; [|exact (follows_derives P W)].
  clear. induction P as [|r P IH]; [constructor|]. cbn [map]. constructor; [|exact IH]. cbn [clause_of c_pred c_args c_body]. rewrite !map_length. auto.
Qed.
Print Assumptions C74_reads.
(** If moreover comparisons below an existential quantifier are about its own variables and add effects use only the parameters and quantified variables, gringo accepts every clause of the text. *)
Theorem C74_safe : forall parse ops p ga ineq P t facts, let l := lrun parse ops in forallb native ops = true -> spelled l p -> bound_problem p -> create_reachability_lp l ga ineq p = Ok (P, t) ->
  exists Q, read_program (program_text facts P) = Some Q /\ Forall safe Q.
Proof.
  intros parse ops p ga ineq P t facts l Hn HS HB Hc. exists (map clause_of P). split; [exact (read_program_text facts P (create_writable parse ops Hn p HS ga ineq P t Hc))|exact (create_safe parse ops Hn p HS HB ga ineq P t Hc)].
Qed.
Print Assumptions C74_safe.
(** What the user gets to see of the text: atoms that follow from it, with the names translated back *)
Definition text_reports (text : string) (t : trans) (symbol : string) (args : list string) : Prop :=
  exists Q s l, read_program text = Some Q /\ follows Q s l /\ back t s = symbol /\ map (back t) l = args.
Lemma reported_text parse ops p ga ineq P t facts s args : forallb native ops = true -> spelled (lrun parse ops) p -> create_reachability_lp (lrun parse ops) ga ineq p = Ok (P, t) ->
  reported P t s args -> text_reports (program_text facts P) t s args.
Proof.
  intros Hn HS Hc (x & ws & Hd & H1 & H2). destruct (C74_reads parse ops p ga ineq P t facts Hn HS Hc) as (Q & HQ & _ & HF). exists Q, x, ws. split; [exact HQ|]. split; [now apply HF|auto].
Qed.
(** So everything that can be reached follows from the text: atoms, ... *)
Theorem C74_atoms : forall parse ops C p ga ineq P t facts, let l := lrun parse ops in forallb native ops = true -> suitable C l p -> spelled l p -> create_reachability_lp l ga ineq p = Ok (P, t) ->
  forall S n ss pt, reachable (lang_domains l) p S -> true_atoms S (PU n ss) pt = true -> unambiguous ("atom_" ++ n) -> text_reports (program_text facts P) t ("atom_" ++ n) (map text pt).
Proof. intros parse ops C p ga ineq P t facts l Hn Hs HS Hc S n ss pt H1 H2 H3. apply (reported_text parse ops p ga ineq P t facts _ _ Hn HS Hc). exact (C38_atoms parse ops C p ga ineq P t Hn Hs Hc S n ss pt H1 H2 H3). Qed.
Print Assumptions C74_atoms.
(** ... actions, ... *)
Theorem C74_actions : forall parse ops C p ineq P t facts, let l := lrun parse ops in forallb native ops = true -> suitable C l p -> spelled l p -> create_reachability_lp l true ineq p = Ok (P, t) ->
  forall S a e, reachable (lang_domains l) p S -> In a (p_actions p) -> applicable (lang_domains l) S a e -> unambiguous ("action_" ++ a_name a) ->
    text_reports (program_text facts P) t ("action_" ++ a_name a) (map (fun v => text (e v)) (param_vars a)).
Proof. intros parse ops C p ineq P t facts l Hn Hs HS Hc S a e H1 H2 H3 H4. apply (reported_text parse ops p true ineq P t facts _ _ Hn HS Hc). exact (C38_actions parse ops C p ineq P t Hn Hs Hc S a e H1 H2 H3 H4). Qed.
Print Assumptions C74_actions.
(** ... and the goal. *)
Theorem C74_goal : forall parse ops C p ga ineq P t facts, let l := lrun parse ops in forallb native ops = true -> suitable C l p -> spelled l p -> create_reachability_lp l ga ineq p = Ok (P, t) ->
  forall S e, reachable (lang_domains l) p S -> true_in (lang_domains l) S (p_goal p) e -> text_reports (program_text facts P) t "goal" [].
Proof. intros parse ops C p ga ineq P t facts l Hn Hs HS Hc S e H1 H2. apply (reported_text parse ops p ga ineq P t facts _ _ Hn HS Hc). exact (C38_goal parse ops C p ga ineq P t Hn Hs Hc S e H1 H2). Qed.
Print Assumptions C74_goal.

(** * A concrete case: the problem of C38 *)
Ltac names := repeat match goal with |- _ /\ _ => split | |- Forall _ _ => constructor | |- True => exact Logic.I | |- _ = true => reflexivity | |- _ <> _ => discriminate end.
Lemma spelledR : spelled langR probR.
Proof.
  constructor.
  - intros s H. unfold is_sort in H. vm_compute in H. repeat (destruct H as [<-|H]; [reflexivity|]). contradiction.
  - intros c sym s H. vm_compute in H. repeat (destruct H as [H|H]; [injection H as <- <- <-; cbn [constant_name]; names|]). contradiction.
  - intros s r b lb ub H K. vm_compute in H. repeat (destruct H as [H|H]; [injection H as <- <-; vm_compute in K; discriminate|]). contradiction.
  - intros n ss pts pt H Hp. cbn [probR p_init preds] in H. destruct H as [H|[]]. injection H as <- <- <-. destruct Hp as [<-|[]]. unfold t1, loc1. split; [reflexivity|]. names; cbn [spelled_term constant_name]; names.
  - intros a [<-|[]]. cbn [driveto a_name a_params a_pre a_effs spelled_formula spelled_effect fold_right pAt pSeen]. names; cbn [spelled_term constant_name spelled_effect spelled_formula fold_right pAt pSeen]; names; cbn [spelled_term]; names.
  - cbn [probR p_goal spelled_formula fold_right pAt pSeen t1]. names; cbn [spelled_term constant_name spelled_effect spelled_formula fold_right pAt pSeen t1]; names; cbn [spelled_term constant_name]; names.
Qed.
Lemma boundR : bound_problem probR.
Proof.
  constructor.
  - intros n ss pts pt t H Hp Ht. cbn [probR p_init preds] in H. destruct H as [H|[]]. injection H as <- <- <-. destruct Hp as [<-|[]]. destruct Ht as [<-|[<-|[]]]; reflexivity.
  - intros a [<-|[]]. split; [cbn; auto|]. vm_compute. intros v H. tauto.
  - intros a e [<-|[]] [<-|[<-|[<-|[]]]]; cbn [bound_effect fold_right locally_compared pAt pSeen].
    + split; [exact Logic.I|]. split; [intros v []|]. vm_compute. intros v H. tauto.
    + exact Logic.I.
    + split; [|exact Logic.I]. split; [auto|]. split; vm_compute; intros v H; tauto.
  - split; [|reflexivity]. cbn [probR p_goal locally_compared fold_right]. split; [intros v []|auto].
Qed.
Definition rulesR : list rule * trans := Eval vm_compute in match create_reachability_lp langR true true probR with Ok x => x | Err _ => ([], trans0) end.
(** Its text (the four facts are those of the constants and of the initial atom), with blanks for the line ends *)
Fixpoint one_line (s : string) : string := match s with "" => "" | String c s' => String (if Ascii.eqb c (ascii_of_nat 10) then " " else c)%char (one_line s') end.
Theorem C74_nonvacuous : forallb native opsR = true /\ suitable namesR langR probR /\ spelled langR probR /\ bound_problem probR /\ create_reachability_lp langR true true probR = Ok rulesR /\
  reachable (lang_domains langR) probR afterR /\ true_atoms afterR pSeen [loc2] = true /\ applicable (lang_domains langR) startR driveto bindR /\ true_in (lang_domains langR) afterR (p_goal probR) bindR /\
  one_line (program_text [true; true; true; false; false; true] (fst rulesR)) =
    "type_place(loc__1). type_place(loc__2). type_truck(t1). type_object(X) :- type_place(X). type_object(X) :- type_truck(X). atom_at(t1, loc__1). action_drive__to(T, From, To) :- type_truck(T), type_place(From), type_place(To), atom_at(T, From), From != To. atom_at(T, To) :- action_drive__to(T, From, To). atom_seen__by(loc__1) :- action_drive__to(T, From, To), loc__1 != From. atom_seen__by(loc__2) :- action_drive__to(T, From, To), loc__2 != From. __f1() :- atom_seen__by(Q), atom_at(t1, Q), type_place(Q). goal() :- __f1(). ".
Proof.
  split; [reflexivity|]. split; [exact suitableR|]. split; [exact spelledR|]. split; [exact boundR|]. split; [vm_compute; reflexivity|]. destruct C38_nonvacuous as (_ & _ & _ & A & _ & _ & B & C & _ & E). split; [exact B|]. split; [exact C|]. split; [exact A|]. split; [exact E|].
  vm_compute. reflexivity.
Qed.
Print Assumptions C74_nonvacuous.

(** * Where it fails *)
Definition at_place (name : string) : problem := {| p_actions := []; p_init := {| funs := []; preds := [((false, ["on"; "place"]), [[Cst (CStr name) "place"]])] |}; p_goal := Atom (PU "on" ["place"]) [Cst (CStr name) "place"] |}.
(** An object called "not": the text is no logic program. *)
Theorem C74_reserved_word_refuted : exists ops p P t, forallb native ops = true /\ create_reachability_lp (lrun no_parse ops) true true p = Ok (P, t) /\ forall facts, read_program (program_text facts P) = None.
Proof.
  set (P := fst (match create_reachability_lp (lrun no_parse [OSort "place" None; OConst (CStr "not") "place"]) true true (at_place "not") with Ok x => x | Err _ => ([], trans0) end)).
  exists [OSort "place" None; OConst (CStr "not") "place"], (at_place "not"), P. eexists. split; [reflexivity|]. split; [vm_compute; reflexivity|].
  intros facts. destruct facts as [|[] facts]; reflexivity.
Qed.
Print Assumptions C74_reserved_word_refuted.
(** An object called "B1": in its initial atom it is read as a variable, which occurs nowhere else in the clause; gringo refuses the program. *)
Theorem C74_capital_refuted : exists ops p P t Q c, forallb native ops = true /\ create_reachability_lp (lrun no_parse ops) true true p = Ok (P, t) /\
  read_program (program_text [true; false; true] P) = Some Q /\ In c Q /\ c_pred c = "atom_on" /\ c_args c = [Unknown "B1"] /\ ~ safe c.
Proof.
  exists [OSort "place" None; OConst (CStr "B1") "place"], (at_place "B1"). eexists. eexists. eexists. exists {| c_pred := "atom_on"; c_args := [Unknown "B1"]; c_body := [] |}. split; [reflexivity|]. split; [vm_compute; reflexivity|].
  split; [vm_compute; reflexivity|]. split; [right; right; left; reflexivity|]. split; [reflexivity|]. split; [reflexivity|]. intros (H & _). specialize (H (Unknown "B1") (or_introl eq_refl)). cbn [c_body] in H.
  remember (Unknown "B1") as a. induction H; try discriminate; try contradiction.
Qed.
Print Assumptions C74_capital_refuted.
(** An existentially quantified comparison with a parameter of the action, (exists (?y) (not (= ?x ?y))): its rule mentions a variable for ?x that nothing binds; gringo refuses the program. *)
Definition look := {| a_name := "look"; a_params := [Var "?x" "place"]; a_pre := Quant QEx [Var "?y" "place"] (Comp Not [Atom (PB PEq) [Var "?x" "place"; Var "?y" "place"]]); a_effs := [] |}.
Definition probL := {| p_actions := [look]; p_init := empty_model; p_goal := Top |}.
Definition opsL := [OSort "place" None; OConst (CStr "b1") "place"].
Lemma spelledL : spelled (lrun no_parse opsL) probL.
Proof.
  constructor.
  - intros s H. unfold is_sort in H. vm_compute in H. repeat (destruct H as [<-|H]; [reflexivity|]). contradiction.
  - intros c sym s H. vm_compute in H. repeat (destruct H as [H|H]; [injection H as <- <- <-; cbn [constant_name]; names|]). contradiction.
  - intros s r b lb ub H K. vm_compute in H. repeat (destruct H as [H|H]; [injection H as <- <-; vm_compute in K; discriminate|]). contradiction.
  - intros n ss pts pt H Hp. destruct H.
  - intros a [<-|[]]. cbn [look a_name a_params a_pre a_effs spelled_formula fold_right]. names; cbn [spelled_term]; names.
  - exact Logic.I.
Qed.
Theorem C74_outer_comparison_refuted : exists ops p P t Q c, forallb native ops = true /\ spelled (lrun no_parse ops) p /\ create_reachability_lp (lrun no_parse ops) true true p = Ok (P, t) /\
  (forall facts, read_program (program_text facts P) = Some Q) /\ In c Q /\ c_args c = [] /\ In (Compares "!=" (Unknown "X") (Unknown "Y")) (c_body c) /\ ~ safe c.
Proof.
  exists opsL, probL. eexists. eexists. eexists. exists {| c_pred := "__f1"; c_args := []; c_body := [Compares "!=" (Unknown "X") (Unknown "Y"); Holds "type_place" [Unknown "Y"]] |}. split; [reflexivity|]. split; [exact spelledL|].
  assert (C : exists x, create_reachability_lp (lrun no_parse opsL) true true probL = Ok x) by (eexists; vm_compute; reflexivity). split; [vm_compute; reflexivity|].
  split; [intros facts; apply (read_program_text facts); apply (create_writable no_parse opsL eq_refl probL spelledL true true _ trans0); vm_compute; reflexivity|].
  split; [right; right; left; reflexivity|]. split; [reflexivity|]. split; [left; reflexivity|]. intros (_ & _ & H). destruct (H "!=" (Unknown "X") (Unknown "Y") (or_introl eq_refl)) as [B _]. cbn [c_body] in B. clear H.
  assert (G : forall body, body = [Compares "!=" (Unknown "X") (Unknown "Y"); Holds "type_place" [Unknown "Y"]] -> forall a, bound_in body a -> a = Unknown "X" -> False).
  { intros body Eb a Ha. induction Ha as [s|q args x Hq Hx|x y Hxy _ IH|x y Hxy _ IH]; intros E; [discriminate| | |]; subst body.
    - destruct Hq as [Hq|[Hq|[]]]; [discriminate|]. injection Hq as <- <-. destruct Hx as [Hx|[]]. congruence.
    - destruct Hxy as [Hxy|[Hxy|[]]]; discriminate.
    - destruct Hxy as [Hxy|[Hxy|[]]]; discriminate. }
  exact (G _ eq_refl _ B eq_refl).
Qed.
Print Assumptions C74_outer_comparison_refuted.
