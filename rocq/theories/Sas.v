(** SAS action schemas and their grounding: src/tarski/sas/__init__.py, src/tarski/sas/temporal.py, src/tarski/sas/util.py *)
From Verif Require Import Base Syntax Subst QElim ModelState Eval ModelText.
#[local] Open Scope string_scope.

(** sas/__init__.py:12: the fields of the named tuples. A variable comes with its domain, or with a key of the table of domains (util.py:33-34). Values are terms. *)
Inductive dref := DList (l : list term) | DName (n : string).
Record sschema := { sc_name : string; sc_vars : list (term * dref); sc_constraints : list formula; sc_transitions : list (term * term * term) }.
Record saction := { sa_name : string; sa_args : list term; sa_transitions : list (term * term * term) }.

(** util.py:20-29 [check_constraints]: all constraints are evaluated before the conjunction is taken. The model has an evaluator ([model.__getitem__], model.py:191-200). *)
Definition check_constraints (m : model) (s : subst) (cs : list formula) : res bool := let! bs := mapM (fun c => eval_f m (subst_formula s c)) cs in Ok (forallb (fun b => b) bs).
(** util.py:52-56. Simplification: a key without table, or a list used as a key, is an error here and in Python, but not of the same kind. *)
Definition resolve (table : option (string -> option (list term))) (d : dref) : res (list term) :=
  match table, d with
  | None, DList l => Ok l
  | None, DName _ => Err TypeError
  | Some T, DName n => match T n with Some l => Ok l | None => Err KeyError end
  | Some _, DList _ => Err TypeError
  end.
Definition ground_transitions (s : subst) (ts : list (term * term * term)) : list (term * term * term) := map (fun t => (subst_term s (fst (fst t)), subst_term s (snd (fst t)), subst_term s (snd t))) ts.
(** util.py:58-73, the loop over the values *)
Fixpoint ground_values (m : model) (a : sschema) (vs : list (list term)) : res (list saction) :=
  match vs with
  | [] => Ok []
  | v :: r =>
      let! s := create_substitution (map fst (sc_vars a)) v in
      let! b := check_constraints m s (sc_constraints a) in
      let! rest := ground_values m a r in
      Ok (if b then {| sa_name := sc_name a; sa_args := v; sa_transitions := ground_transitions s (sc_transitions a) |} :: rest else rest)
  end.
(** util.py:32-76 [ground_action_schemas]. [m] is the given structure or an empty one (util.py:45-49). *)
Definition ground_action_schemas (m : model) (table : option (string -> option (list term))) : list sschema -> res (list saction) := fix go schemas :=
  match schemas with
  | [] => Ok []
  | a :: r => let! ds := mapM (fun xd => resolve table (snd xd)) (sc_vars a) in let! l := ground_values m a (product ds) in let! rest := go r in Ok (l ++ rest)%list
  end.

(** * Temporal actions *)
Section Temporal.
Context {T : Type}.
(** temporal.py:8-21: parallel lists of delays and events *)
Record taction (E : Type) := { ta_name : string; ta_events : list E; ta_deltas : list T }.
Arguments ta_name {E} _. Arguments ta_events {E} _. Arguments ta_deltas {E} _.
(** temporal.py:13-21 *)
Definition make_taction {E : Type} (n : string) (events : list (T * E)) : taction E := {| ta_name := n; ta_events := map snd events; ta_deltas := map fst events |}.
(** temporal.py:46-51 [add_event] *)
Definition add_event {E : Type} (a : taction E) (d : T) (e : E) : taction E := {| ta_name := ta_name a; ta_events := (ta_events a ++ [e])%list; ta_deltas := (ta_deltas a ++ [d])%list |}.
(** util.py:87-94: the domain of a variable is that of its first occurrence. The set [X] is a list; [order] is its iteration order. *)
Definition consolidate (events : list sschema) : list (term * dref) :=
  fold_left (fun X xd => if existsb (fun p => term_eqb (fst p) (fst xd)) X then X else (X ++ [xd])%list) (flat_map sc_vars events) [].
Definition get_domain (X : list (term * dref)) (x : term) : res (list term) :=
  match find (fun p => term_eqb (fst p) x) X with Some (_, DList l) => Ok l | Some (_, DName _) => Err TypeError | None => Err KeyError end.
(** util.py:104-121: [None] when some constraint fails; the events after it are not looked at *)
Fixpoint ground_events (m : model) (s : subst) (v : list term) (events : list sschema) : res (option (list saction)) :=
  match events with
  | [] => Ok (Some [])
  | e :: r =>
      let! b := check_constraints m s (sc_constraints e) in
      if b then let! rest := ground_events m s v r in Ok (match rest with Some l => Some ({| sa_name := sc_name e; sa_args := v; sa_transitions := ground_transitions s (sc_transitions e) |} :: l) | None => None end)
      else Ok None
  end.
(** util.py:127: [schema.deltas[k]] *)
Fixpoint with_deltas (ds : list T) (es : list saction) : res (list (T * saction)) :=
  match es, ds with
  | [], _ => Ok []
  | e :: er, d :: dr => let! r := with_deltas dr er in Ok ((d, e) :: r)
  | _ :: _, [] => Err IndexError
  end.
Variable str : term -> string.
(** util.py:102-129, the loop *)
Fixpoint ground_temporal_values (m : model) (a : taction sschema) (xs : list term) (vs : list (list term)) : res (list (taction saction)) :=
  match vs with
  | [] => Ok []
  | v :: r =>
      let! s := create_substitution xs v in
      let! g := ground_events m s v (ta_events a) in
      let! head := match g with Some es => let! des := with_deltas (ta_deltas a) es in Ok [make_taction (ta_name a ++ "(" ++ String.concat "," (map str v) ++ ")") des] | None => Ok [] end in
      let! rest := ground_temporal_values m a xs r in Ok (head ++ rest)%list
  end.
(** util.py:79-131 [ground_temporal_action] *)
Definition ground_temporal_action (m : model) (order : list term -> list term) (a : taction sschema) : res (list (taction saction)) :=
  let X := consolidate (ta_events a) in
  let xs := order (map fst X) in
  let! ds := mapM (get_domain X) xs in
  ground_temporal_values m a xs (product ds).
End Temporal.
Arguments taction : clear implicits. Arguments ta_name {T E} _. Arguments ta_events {T E} _. Arguments ta_deltas {T E} _.
