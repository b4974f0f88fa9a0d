(** Action costs: src/tarski/io/_fstrips/common.py, src/tarski/io/_fstrips/reader.py, src/tarski/fstrips/representation.py *)
From Verif Require Import Base Syntax ModelState Eval Effects Represent.
#[local] Open Scope string_scope.

(** common.py:113: a compound term whose symbol is called "total-cost" (names of built-in symbols are Enum values) *)
Definition is_total_cost (t : term) : bool := match t with App (FU n _ _) _ => String.eqb n "total-cost" | _ => false end.
(** common.py:111-121 [process_cost_effect]; IncreaseEffect is a subclass of FunctionalEffect *)
Definition process_cost_effect (e : effect) : res (option term) :=
  match e with
  | EFun _ c lhs rhs =>
      if is_total_cost lhs then
        if is_top c then
          match rhs with
          | App (FB BAdd) ts => match ts with _ :: t :: _ => Ok (Some t) | _ => Err IndexError end
          | _ => Err TarskiError
          end
        else Err TarskiError
      else Ok None
  | _ => Ok None
  end.
(** common.py:98-108 [process_cost_effects] *)
Fixpoint process_cost_effects (effs : list effect) : res (list effect * list term) :=
  match effs with
  | [] => Ok ([], [])
  | e :: es => let! o := process_cost_effect e in
               let! (simple, costs) := process_cost_effects es in
               match o with None => Ok (e :: simple, costs) | Some t => Ok (simple, t :: costs) end
  end.
(** fstrips/action.py:7-13 with the attribute [cost]: None or AdditiveActionCost(addend) (action.py:66-68) *)
Record costed := { c_act : action; c_cost : option term }.
(** reader.py:184-195 [visitActionDef] after the precondition and the effects have been read *)
Definition read_action (a : action) : res costed :=
  let! (simple, costs) := process_cost_effects (a_effs a) in
  match costs with
  | [] => Ok {| c_act := {| a_name := a_name a; a_params := a_params a; a_pre := a_pre a; a_effs := simple |}; c_cost := None |}
  | [t] => Ok {| c_act := {| a_name := a_name a; a_params := a_params a; a_pre := a_pre a; a_effs := simple |}; c_cost := Some t |}
  | _ => Err SyntaxError
  end.
(** fstrips/problem.py:36-41: action names are unique *)
Fixpoint read_actions (acts : list action) (seen : list string) : res (list costed) :=
  match acts with
  | [] => Ok []
  | a :: acts' => let! c := read_action a in
                  if existsb (String.eqb (a_name a)) seen then Err DuplicateDefinition
                  else let! l := read_actions acts' (a_name a :: seen) in Ok (c :: l)
  end.
(** action.py:76-77 [generate_zero_action_cost]; [ints]: the language has the sort Integer *)
Definition zero_action_cost (ints : bool) : res term := if ints then Ok (Cst (CInt 0) "Integer") else Err UndefinedElement.
(** common.py:124-133 [uniformize_costs] *)
Definition has_cost (c : costed) : bool := match c_cost c with Some _ => true | None => false end.
Definition uniformize_costs (ints : bool) (l : list costed) : res (list costed) :=
  if existsb has_cost l then
    mapM (fun c => match c_cost c with Some _ => Ok c | None => let! z := zero_action_cost ints in Ok {| c_act := c_act c; c_cost := Some z |} end) l
  else Ok l.
(** fstrips.py:80-82 [FstripsReader.parse_domain], the actions only *)
Definition parse_domain (ints : bool) (acts : list action) : res (list costed) :=
  let! l := read_actions acts [] in uniformize_costs ints l.

(** representation.py:401-430 *)
Definition is_number (z : Z) (t : term) : bool := match t with Cst (CInt k) _ => Z.eqb k z | _ => false end.
Definition is_unit_cost_action (c : costed) : bool := match c_cost c with None => true | Some t => is_number 1 t end.
Definition is_zero_cost_action (c : costed) : bool := match c_cost c with None => true | Some t => is_number 0 t end.
Definition is_constant_cost_action (c : costed) : bool := match c_cost c with None => true | Some (Cst _ _) => true | Some _ => false end.
Definition is_unit_cost_problem (l : list costed) : bool := forallb is_unit_cost_action l.
Definition is_constant_cost_problem (l : list costed) : bool := forallb is_constant_cost_action l.
