(** Small specifications for the exact forms of C05 and C09. *)
From Verif Require Import Base Syntax Semantics.

(** The formula that is left when every conjunction and disjunction (outside negations) is cut after its second member. *)
Fixpoint first_two (f : formula) : formula :=
  match f with
  | Comp Not _ => f
  | Comp c (a :: b :: _) => Comp c [first_two a; first_two b]
  | Quant q vs g => Quant q vs (first_two g)
  | _ => f
  end.
(** No negation is applied directly to a built-in atom, looking below conjunctions, disjunctions and quantifiers. *)
Fixpoint no_negated_builtin (f : formula) : bool :=
  match f with
  | Comp Not [Atom (PB _) _] => false
  | Comp Not _ => true
  | Comp _ fs => forallb no_negated_builtin fs
  | Quant _ _ g => no_negated_builtin g
  | _ => true
  end.

(** [x] has an occurrence outside the scope of a quantifier binding it and outside every if-then-else term. *)
Fixpoint occurs_outside_ite (x : var) (t : term) : bool :=
  match t with
  | Var y s => var_eqb x (y, s)
  | App _ ts => existsb (occurs_outside_ite x) ts
  | Cst _ _ | Ite _ _ _ => false
  end.
Fixpoint free_outside_ite (x : var) (f : formula) : bool :=
  match f with
  | Top | Bot => false
  | Atom _ ts => existsb (occurs_outside_ite x) ts
  | Comp _ fs => existsb (free_outside_ite x) fs
  | Quant _ vs g => negb (existsb (fun v => match v with Var y s => var_eqb x (y, s) | _ => false end) vs) && free_outside_ite x g
  end.
