(** The requirements of a domain or a problem: src/tarski/io/pddl/parser.py:128-223, 1271-1273 and src/tarski/io/pddl/__init__.py:14-45 *)
From Verif Require Import Base PddlLex.
#[local] Open Scope string_scope.

(** __init__.py:36-45; a feature is the name of a member of the enumeration *)
Definition supported_features : list string := ["STRIPS"; "TYPING"; "NEGATIVE_PRECONDITIONS"; "EQUALITY"; "DURATIVE_ACTIONS"; "OBJECT_FLUENTS"; "DERIVED_PREDICATES"; "NUMERIC_FLUENTS"].
(** parser.py:143-163: the tokens that the grammar allows in the list *)
Definition key_tokens : list string :=
  ["rwSTRIPS"; "rwTYPING"; "rwNEGATIVE_PRECONDITIONS"; "rwDISJUNCTIVE_PRECONDITIONS"; "rwEQUALITY"; "rwEXISTENTIAL_PRECONDITIONS"; "rwUNIVERSAL_PRECONDITIONS"; "rwQUANTIFIED_PRECONDITIONS"; "rwCONDITIONAL_EFFECTS"; "rwFLUENTS";
   "rwNUMERIC_FLUENTS"; "rwADL"; "rwDURATIVE_ACTIONS"; "rwDURATION_INEQUALITIES"; "rwCONTINUOUS_EFFECTS"; "rwDERIVED_PREDICATES"; "rwTIMED_INITIAL_LITERALS"; "rwPREFERENCES"; "rwCONSTRAINTS"; "rwACTION_COSTS"].
(** parser.py:167-221: the chain of comparisons with the value of the token; the second one with :timed-initial-literals (line 216) is never reached. *)
Definition chain : list (string * list string) :=
  [(":strips", ["STRIPS"]); (":typing", ["TYPING"]); (":negative-preconditions", ["NEGATIVE_PRECONDITIONS"]); (":disjunctive-preconditions", ["DISJUNCTIVE_PRECONDITIONS"]); (":equality", ["EQUALITY"]);
   (":existential-preconditions", ["EXISTENTIAL_PRECONDITIONS"]); (":universal-preconditions", ["UNIVERSAL_PRECONDITIONS"]); (":quantified-preconditions", ["UNIVERSAL_PRECONDITIONS"; "EXISTENTIAL_PRECONDITIONS"]);
   (":conditional-effects", ["CONDITIONAL_EFFECTS"]); (":object-fluents", ["OBJECT_FLUENTS"]); (":numeric-fluents", ["NUMERIC_FLUENTS"]); (":fluents", ["OBJECT_FLUENTS"; "NUMERIC_FLUENTS"]);
   (":adl", ["STRIPS"; "TYPING"; "NEGATIVE_PRECONDITIONS"; "DISJUNCTIVE_PRECONDITIONS"; "EQUALITY"; "UNIVERSAL_PRECONDITIONS"; "EXISTENTIAL_PRECONDITIONS"; "CONDITIONAL_EFFECTS"]);
   (":durative-actions", ["DURATIVE_ACTIONS"]); (":derived-predicates", ["DERIVED_PREDICATES"]); (":timed-initial-literals", ["TIMED_INITIAL_LITERALS"]); (":preferences", ["PREFERENCES"]); (":constraints", ["CONSTRAINTS"]);
   (":action-costs", ["ACTION_COSTS"]); (":continuous-effects", ["CONTINUOUS_EFFECTS"]); (":timed-initial-literals", ["DURATIVE_ACTIONS"; "TIMED_INITIAL_LITERALS"]); (":duration-inequalities", ["DURATIVE_ACTIONS"; "DURATION_INEQUALITIES"])].
Fixpoint features_of (v : string) (l : list (string * list string)) : option (list string) := match l with [] => None | (x, fs) :: l' => if String.eqb v x then Some fs else features_of v l' end.
Definition add_feature (req : list string) (f : string) : list string := if existsb (String.eqb f) req then req else f :: req.

(** What a section does to the set of required features of the parser. A syntax error is not modelled any further (p_error, lines 1438-1450, goes on after the next parenthesis). *)
Inductive outcome := Accepted (req : list string) | Unsupported (req : list string) | Exhausted (req : list string) | Syntax.
(** parser.py:142-223. The rule is right recursive: the last key is reduced first. The set of features, or None: RuntimeError *)
Fixpoint process_keys (req : list string) (keys : list token) : list string * bool :=
  match keys with
  | [] => (req, true)
  | t :: keys' =>
      match process_keys req keys' with
      | (req', false) => (req', false)
      | (req', true) => match t_value t with Text v => match features_of v chain with Some fs => (fold_left add_feature fs req', true) | None => (req', false) end | _ => (req', false) end
      end
  end.
(** parser.py:132-140 *)
Definition check_requirements_support (req : list string) : outcome := if forallb (fun f => existsb (String.eqb f) supported_features) req then Accepted req else Unsupported req.
Definition require_keys (req : list string) (keys : list token) : outcome :=
  if forallb (fun t => existsb (String.eqb (t_type t)) key_tokens) keys then match process_keys req keys with (req', true) => check_requirements_support req' | (req', false) => Exhausted req' end else Syntax.
(** parser.py:129, 1272: LPAREN rwREQUIREMENTS requirement_key_list RPAREN *)
Fixpoint until_close (ts : list token) : option (list token) :=
  match ts with
  | [] => None
  | t :: ts' => if String.eqb (t_type t) "RPAREN" then match ts' with [] => Some [] | _ => None end else option_map (cons t) (until_close ts')
  end.
Definition require (req : list string) (line : nat) (text : string) : outcome :=
  match fst (tokenize line text) with
  | o :: r :: ts => if String.eqb (t_type o) "LPAREN" && String.eqb (t_type r) "rwREQUIREMENTS" then match until_close ts with Some keys => require_keys req keys | None => Syntax end else Syntax
  | _ => Syntax
  end.
