(** Specification vocabulary for constraint hypergraphs of action schemas. Not used by the model. *)
From Verif Require Import Base Syntax FolSpec CspSpec.
Local Open Scope string_scope.

(** Conjunctive queries: atoms over variables and constants under conjunctions and negations *)
Definition plain_term (t : term) : bool := match t with Var _ _ | Cst _ _ => true | _ => false end.
Fixpoint conjunctive_query (f : formula) : bool :=
  match f with
  | Atom _ ts => forallb plain_term ts
  | Comp And fs => forallb conjunctive_query fs
  | Comp Not [g] => conjunctive_query g
  | _ => false
  end.
(** The variable written [?x] is an argument of the atom. *)
Definition mentions (atom : formula) (x : string) : Prop := match atom with Atom _ ts => exists s, In (Var ("?" ++ x) s) ts | _ => False end.
(** Variables are written with a question mark. *)
Definition question_marks (f : formula) : Prop := forall p ts v s, In (Atom p ts) (atoms_of f) -> In (Var v s) ts -> exists x, v = "?" ++ x.
(** The names of the variables of an atom; a query is acyclic if its atoms, with these sets of variables, have a join tree. *)
Definition variables_of_atom (a : formula) : list string := match a with Atom _ ts => flat_map (fun t => match t with Var v _ => [v] | _ => [] end) ts | _ => [] end.
Definition acyclic_query (f : formula) : Prop := acyclic (map variables_of_atom (atoms_of f)).
