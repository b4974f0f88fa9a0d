(** Writing and reading the actions of a PDDL/FSTRIPS domain: src/tarski/io/fstrips.py, src/tarski/io/_fstrips/reader.py and the rules actionDef,
    actionDefBody and precondition of utils/parsers/grammars/fstrips.g4 *)
From Verif Require Import Base Syntax Index Effects Represent Costs ModelText PddlText PddlRead.
Local Open Scope string_scope.

(** fstrips.py:105-111, the template of an action, and :299-307 [get_action]. The cost of an action is the addend of its AdditiveActionCost
    (the function total-cost is looked up in the language, fstrips.py:358: the model takes it to be there). The names of the parameters are taken to be
    distinct: iterating over a VariableBinding yields one variable per name. *)
Definition print_action (c : costed) : res string :=
  let a := c_act c in
  let! v := print_variable_list (a_params a) in
  let! p := print_formula (a_pre a) in
  let! e := print_effects (a_effs a) (c_cost c) 1 in
  Ok (newline ++ "    (:action " ++ a_name a ++ newline ++ "     :parameters (" ++ v ++ ")" ++ newline ++ "     :precondition " ++ p ++ newline ++
      "     :effect " ++ e ++ newline ++ "    )" ++ newline).

Section ReadAction.
Variable l : plang.
(** fstrips.g4:221-224, reader.py:202-206: the empty brackets are the tautology *)
Definition read_precondition (b : option vbind) (s : sexp) : res formula := match s with L [] => Ok Top | _ => read_goal l b s end.
(** fstrips.g4:189-193, 217-219; reader.py:184-200 [visitActionDef], [visitActionDefBody]. The name of an action keeps its upper-case letters; an EXTNAME is not
    modelled. The checks of the cost effects (reader.py:192-194) are [read_action] of Costs.v. The variables of the parameters are in scope in the body. *)
Definition read_action_def (s : sexp) : res costed :=
  match s with
  | L [A (TKey k1); A (TName n); A (TKey k2); L vars; A (TKey k3); pre; A (TKey k4); eff] =>
      if String.eqb k1 ":action" && String.eqb k2 ":parameters" && String.eqb k3 ":precondition" && String.eqb k4 ":effect" then
        let! vs := var_list l [] vars in
        let b := Some (vb_make vs) in
        let! p := read_precondition b pre in
        let! es := read_effect l b eff in
        read_action {| a_name := n; a_params := map (fun v => Var (fst v) (snd v)) (vb_vars (vb_make vs)); a_pre := p; a_effs := es |}
      else Err SyntaxError
  | _ => Err SyntaxError
  end.
Definition parse_action (text : string) : res costed := let! s := phrase text in read_action_def s.
End ReadAction.
