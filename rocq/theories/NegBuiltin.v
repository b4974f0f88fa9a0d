(** Absorption of negations into built-in comparison atoms: src/tarski/syntax/transform/neg_builtin.py *)
From Verif Require Import Base Syntax.

(** builtins.py:4 [symbol_complements] and :18-19 [complement] *)
Definition complement (b : bpred) : bpred :=
  match b with PEq => PNe | PNe => PEq | PLt => PGe | PLe => PGt | PGt => PLe | PGe => PLt end.

(** builtins.py:67-76 [negate_builtin_atom] on built-in atoms. [create_atom] (:60-64) takes exactly two operands, as built-in
    predicates are binary; another arity would be a TypeError. Simplification: the look-up of the complementary predicate
    in the language succeeds (both symbols are registered together by theories.py load_equality_theory /
    load_arithmetic_theory). *)
Definition negate_builtin_atom (b : bpred) (ts : list term) : res formula :=
  match ts with [l; r] => Ok (Atom (PB (complement b)) [l; r]) | _ => Err TypeError end.

(** neg_builtin.py:22-42 [_convert]: under And/Or only the first two subformulas are kept. *)
Fixpoint absorb (f : formula) : res formula :=
  match f with
  | Comp Not fs =>
      match fs with
      | Atom (PB b) ts :: _ => negate_builtin_atom b ts
      | _ :: _ => Ok f
      | [] => Err IndexError
      end
  | Comp c (a :: b :: _) =>
      let! a' := absorb a in let! b' := absorb b in Ok (Comp c [a'; b'])
  | Comp _ _ => Err IndexError
  | Quant q vs g => let! g' := absorb g in Ok (Quant q vs g')
  | _ => Ok f
  end.
