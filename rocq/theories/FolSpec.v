(** Specification vocabulary for the properties of formula transformations. None of these functions is used by the model. *)
From Verif Require Import Base Syntax Semantics.

(** Negation is applied to atoms only. *)
Fixpoint is_nnf (f : formula) : bool :=
  match f with
  | Comp Not fs => match fs with [Atom _ _] => true | _ => false end
  | Comp _ fs => forallb is_nnf fs
  | Quant _ _ g => is_nnf g
  | _ => true
  end.

(** Some truth constant occurs under an odd number of negations ([b]: parity so far). *)
Fixpoint negated_constant_at (b : bool) (f : formula) : bool :=
  match f with
  | Top | Bot => b
  | Atom _ _ => false
  | Comp Not fs => existsb (negated_constant_at (negb b)) fs
  | Comp _ fs => existsb (negated_constant_at b) fs
  | Quant _ _ g => negated_constant_at b g
  end.
Definition has_negated_constant (f : formula) : bool := negated_constant_at false f.

(** The atoms of a formula from left to right. *)
Fixpoint atoms_of (f : formula) : list formula :=
  match f with
  | Atom _ _ => [f]
  | Comp _ fs => flat_map atoms_of fs
  | Quant _ _ g => atoms_of g
  | _ => []
  end.

(** A quantifier occurs in the formula (outside the conditions of if-then-else terms). *)
Fixpoint has_quantifier (f : formula) : bool :=
  match f with
  | Quant _ _ _ => true
  | Comp _ fs => existsb has_quantifier fs
  | _ => false
  end.

(** Literals, clauses (disjunctions of literals), conjunctions of clauses. The truth constants count as literals. *)
Definition is_literal_or_constant (f : formula) : bool :=
  match f with
  | Top | Bot | Atom _ _ => true
  | Comp Not [Atom _ _] => true
  | _ => false
  end.
Fixpoint is_clause (f : formula) : bool :=
  match f with
  | Comp Or fs => forallb is_clause fs
  | _ => is_literal_or_constant f
  end.
Fixpoint is_cnf (f : formula) : bool :=
  match f with
  | Comp And fs => forallb is_cnf fs
  | _ => is_clause f
  end.

(** Meaning of a list of clauses: every clause has a true member. *)
Definition clauses_true (M : structure) (e : env M) (cls : list (list formula)) : bool :=
  forallb (fun cl => existsb (fun l => fsem M l e) cl) cls.

(** Structures that read the built-in comparison symbols standardly: each symbol and its opposite are complementary
    on pairs. *)
Definition standard_comparisons (M : structure) : Prop :=
  forall a b, pint M (PB PNe) [a; b] = negb (pint M (PB PEq) [a; b]) /\
              pint M (PB PGe) [a; b] = negb (pint M (PB PLt) [a; b]) /\
              pint M (PB PGt) [a; b] = negb (pint M (PB PLe) [a; b]).

(** Built-in atoms take two arguments (checked by [Atom._check_well_formed], formulas.py:312-333). *)
Fixpoint builtin_binary (f : formula) : bool :=
  match f with
  | Atom (PB _) ts => Nat.eqb (List.length ts) 2
  | Comp _ fs => forallb builtin_binary fs
  | Quant _ _ g => builtin_binary g
  | _ => true
  end.

(** Every conjunction and disjunction has exactly two members. *)
Fixpoint binary (f : formula) : bool :=
  match f with
  | Comp Not fs => true
  | Comp _ fs => Nat.eqb (List.length fs) 2 && forallb binary fs
  | Quant _ _ g => binary g
  | _ => true
  end.

(** All quantifiers form an outermost prefix. *)
Fixpoint is_prenex (f : formula) : bool :=
  match f with Quant _ _ g => is_prenex g | _ => negb (has_quantifier f) end.
