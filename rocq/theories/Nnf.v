(** Negation normal form: src/tarski/syntax/transform/nnf.py *)
From Verif Require Import Base Syntax.

(** formulas.py:30-31 [negate_quantifier] *)
Definition negate_quantifier (q : quant) : quant := match q with QAll => QEx | QEx => QAll end.
(** nnf.py:66-67 [negate_connective]; the dictionary has no entry for Not (KeyError), never looked up *)
Definition negate_connective (c : connective) : connective :=
  match c with Or => And | And => Or | Not => Not end.

(** nnf.py:28-53 [NNFTransformation._convert]. Lines 30 and 33 return the class objects [Contradiction] / [Tautology]
    (not instances) when a constant is negated: the returned object, or an element of the returned tree, is then not a
    Formula. The model returns [Err NotAFormula] for such results (Python itself raises nothing at that point).
    The default do_copy=True deep-copies first, so mutation of the argument is not observable. *)
Fixpoint nnf (negated : bool) (f : formula) : res formula :=
  match f with
  | Top => if negated then Err NotAFormula else Ok Top
  | Bot => if negated then Err NotAFormula else Ok Bot
  | Atom p ts => if negated then Ok (Comp Not [Atom p ts]) else Ok (Atom p ts)
  | Quant q vs g =>
      let! g' := nnf negated g in Ok (Quant (if negated then negate_quantifier q else q) vs g')
  | Comp Not fs =>
      match fs with [g] => nnf (negb negated) g | _ => Err AssertionError end
  | Comp c fs =>
      let! fs' := mapM (nnf negated) fs in Ok (Comp (if negated then negate_connective c else c) fs')
  end.

(** nnf.py:70-72 *)
Definition to_negation_normal_form (f : formula) : res formula := nnf false f.
