(** The containers of planning problems: src/tarski/fstrips/problem.py:11-56, src/tarski/fstrips/derived.py:4-28, src/tarski/fstrips/hybrid/problem.py, src/tarski/fstrips/hybrid/differential_constraints.py:5-23,
    src/tarski/fstrips/contingent/problem.py, src/tarski/fstrips/contingent/sensor.py:5-29 *)
From Verif Require Import Base Syntax ModelState Lang Effects.

(** fstrips/action.py:7-13, derived.py:27-28, hybrid/reaction.py:4-10, contingent/sensor.py:8-14: what is given is stored as it is. Parameters are given with their sorts. *)
Record action := { ac_parameters : list var; ac_precondition : formula; ac_effects : list effect; ac_cost : option term }.
Record derived := { de_parameters : list var; de_formula : formula }.
Record reaction := { re_parameters : list var; re_condition : formula; re_effect : effect }.
Record diffconstraint := { dc_parameters : list var; dc_condition : formula; dc_variate : term; dc_ode : term }.
Record sensor := { se_parameters : list var; se_condition : formula; se_obs : formula }.
(** The attributes of Problem, HybridProblem and ContingentProblem in one record (the last two are different subclasses of the first). *)
Record problem := { p_lang : lang; p_actions : list (string * action); p_derived : list (string * derived); p_reactions : list (string * reaction);
                    p_diff : list (string * diffconstraint); p_sensors : list (string * sensor) }.
Definition new_problem : problem := {| p_lang := lang0; p_actions := []; p_derived := []; p_reactions := []; p_diff := []; p_sensors := [] |}.
(** Requests of the user; the language can be extended in between ([QLang]). *)
Inductive request := QLang (o : lop) | QAction (n : string) (a : action) | QDerived (n : string) (d : derived) | QReaction (n : string) (r : reaction) | QDiff (n : string) (d : diffconstraint) | QSensor (n : string) (s : sensor).

(** derived.py:7-28. Sorts are compared with [!=]; the message of the exception for a mismatch asks for [.name] of the tuple of sorts: AttributeError. *)
Definition check_derived (l : lang) (n : string) (d : derived) : res unit :=
  match sget (l_preds l) n with
  | None => Err UndefinedElement
  | Some ss => if Nat.eqb (List.length (de_parameters d)) (List.length ss)
               then if forallb (fun sv => String.eqb (fst sv) (snd (snd sv))) (combine ss (de_parameters d)) then Ok tt else Err AttributeError
               else Err TarskiError                     (* InvalidDerivedPredicateError *)
  end.
(** hybrid/differential_constraints.py:18-22; the second test never succeeds, since a term is no symbol. SyntacticError is a LanguageError. *)
Definition check_diff (d : diffconstraint) : res unit := match dc_variate d with App _ _ => Ok tt | _ => Err LanguageError end.
(** contingent/sensor.py:16-27; ObservationExpressivenessMismatch is a TarskiError. A compound formula over Not has one subformula (formulas.py:139-142). *)
Definition check_sensor (s : sensor) : res unit :=
  match se_obs s with Atom _ _ => Ok tt | Comp Not (Atom _ _ :: _) => Ok tt | _ => Err TarskiError end.

Section Steps.
Variable parse : bool -> string -> option Z.
Definition defined {A} (d : list (string * A)) (n : string) : bool := match sget d n with Some _ => true | None => false end.
(** fstrips/problem.py:36-48, hybrid/problem.py:18-22, 31-38, contingent/problem.py:15-19. An exception leaves the problem as it is. *)
Definition step (p : problem) (q : request) : problem * res unit :=
  match q with
  | QLang o => let '(l, r) := lstep parse (p_lang p) o in
      ({| p_lang := l; p_actions := p_actions p; p_derived := p_derived p; p_reactions := p_reactions p; p_diff := p_diff p; p_sensors := p_sensors p |}, r)
  | QAction n a =>
      if defined (p_actions p) n then (p, Err DuplicateDefinition)
      else ({| p_lang := p_lang p; p_actions := dset String.eqb (p_actions p) n a; p_derived := p_derived p; p_reactions := p_reactions p; p_diff := p_diff p; p_sensors := p_sensors p |}, Ok tt)
  | QDerived n d =>
      if defined (p_derived p) n then (p, Err DuplicateDefinition)
      else match check_derived (p_lang p) n d with
           | Err e => (p, Err e)
           | Ok _ => ({| p_lang := p_lang p; p_actions := p_actions p; p_derived := dset String.eqb (p_derived p) n d; p_reactions := p_reactions p; p_diff := p_diff p; p_sensors := p_sensors p |}, Ok tt)
           end
  | QReaction n r =>
      if defined (p_reactions p) n then (p, Err DuplicateDefinition)
      else ({| p_lang := p_lang p; p_actions := p_actions p; p_derived := p_derived p; p_reactions := dset String.eqb (p_reactions p) n r; p_diff := p_diff p; p_sensors := p_sensors p |}, Ok tt)
  | QDiff n d =>
      if defined (p_reactions p) n then (p, Err DuplicateDefinition)
      else match check_diff d with
           | Err e => (p, Err e)
           | Ok _ => ({| p_lang := p_lang p; p_actions := p_actions p; p_derived := p_derived p; p_reactions := p_reactions p; p_diff := dset String.eqb (p_diff p) n d; p_sensors := p_sensors p |}, Ok tt)
           end
  | QSensor n s =>
      if defined (p_sensors p) n then (p, Err DuplicateDefinition)
      else match check_sensor s with
           | Err e => (p, Err e)
           | Ok _ => ({| p_lang := p_lang p; p_actions := p_actions p; p_derived := p_derived p; p_reactions := p_reactions p; p_diff := p_diff p; p_sensors := dset String.eqb (p_sensors p) n s |}, Ok tt)
           end
  end.
Definition run (h : list request) : problem := fold_left (fun p q => fst (step p q)) h new_problem.
(** fstrips/problem.py:50-56, hybrid/problem.py:24-29, 40-46, contingent/problem.py:21-27 *)
Definition get {A} (d : list (string * A)) (n : string) : res A := match sget d n with Some a => Ok a | None => Err UndefinedElement end.
End Steps.
