(** Specification: what the requirement words stand for. Independent of the model. *)
From Verif Require Import Base.
#[local] Open Scope string_scope.

(** The words of the grammar, without the colon *)
Definition words : list (string * list string) :=
  [("strips", ["STRIPS"]); ("typing", ["TYPING"]); ("equality", ["EQUALITY"]);
   ("negative-preconditions", ["NEGATIVE_PRECONDITIONS"]); ("disjunctive-preconditions", ["DISJUNCTIVE_PRECONDITIONS"]);
   ("existential-preconditions", ["EXISTENTIAL_PRECONDITIONS"]); ("universal-preconditions", ["UNIVERSAL_PRECONDITIONS"]); ("quantified-preconditions", ["EXISTENTIAL_PRECONDITIONS"; "UNIVERSAL_PRECONDITIONS"]);
   ("conditional-effects", ["CONDITIONAL_EFFECTS"]); ("fluents", ["NUMERIC_FLUENTS"; "OBJECT_FLUENTS"]); ("numeric-fluents", ["NUMERIC_FLUENTS"]);
   ("adl", ["STRIPS"; "TYPING"; "EQUALITY"; "NEGATIVE_PRECONDITIONS"; "DISJUNCTIVE_PRECONDITIONS"; "EXISTENTIAL_PRECONDITIONS"; "UNIVERSAL_PRECONDITIONS"; "CONDITIONAL_EFFECTS"]);
   ("durative-actions", ["DURATIVE_ACTIONS"]); ("duration-inequalities", ["DURATIVE_ACTIONS"; "DURATION_INEQUALITIES"]); ("continuous-effects", ["CONTINUOUS_EFFECTS"]);
   ("derived-predicates", ["DERIVED_PREDICATES"]); ("timed-initial-literals", ["TIMED_INITIAL_LITERALS"]); ("preferences", ["PREFERENCES"]); ("constraints", ["CONSTRAINTS"]); ("action-costs", ["ACTION_COSTS"])].
Definition supported : list string := ["STRIPS"; "TYPING"; "EQUALITY"; "NEGATIVE_PRECONDITIONS"; "DURATIVE_ACTIONS"; "DERIVED_PREDICATES"; "NUMERIC_FLUENTS"; "OBJECT_FLUENTS"].
(** The features that a list of words asks for *)
Definition asks (ws : list string) (f : string) : Prop := exists w fs, In w ws /\ In (w, fs) words /\ In f fs.
(** The section as it is written *)
Definition section (ws : list string) : string := "(:requirements " ++ fold_right (fun w s => ":" ++ w ++ " " ++ s) ")" ws.
