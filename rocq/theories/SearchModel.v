(** The ground search model: src/tarski/search/model.py:21-45 *)
From Verif Require Import Base Syntax ModelState Eval Subst QElim Effects ModelText.

(** A ground operator: precondition and effects (fstrips/action.py PlainOperator). *)
Record operator := { op_pre : formula; op_effs : list effect }.
(** model.py:35-41, [applicable] and [successors]: the generators are consumed in order; the first exception aborts. *)
Definition gm_successors (D : domains) (sub : sort -> sort -> bool) (ops : list operator) (s : model) : res (list model) :=
  let! ls := mapM (fun op => let! b := is_applicable s (op_pre op) in if b then let! s' := progress D sub s (op_effs op) in Ok [s'] else Ok []) ops in
  Ok (List.concat ls).
(** model.py:43-45 *)
Definition gm_is_goal (goal : formula) (s : model) : res bool := eval_f s goal.
