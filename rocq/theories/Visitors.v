(** Searching expressions: src/tarski/syntax/visitors.py *)
From Verif Require Import Base Syntax.

Inductive expr : Set := XT (t : term) | XF (f : formula).
(** symrefs.py:27-28: references are compared by the syntactic equality of what they refer to (terms.py:157-158, 201-210; formulas.py:124-129, 158-164, 340-345) *)
Definition expr_eqb (a b : expr) : bool := match a, b with XT t, XT u => term_eqb t u | XF f, XF g => formula_eqb f g | _, _ => false end.

(** visitors.py:5-36 [MatchExpression]: the state is the number of hits. Variables, constants, conditional terms, true and false fall through. *)
Section Match.
Variable target : expr.
Fixpoint match_term (t : term) (hits : nat) : nat :=
  match t with
  | App _ ts => if expr_eqb (XT t) target then S hits else fold_left (fun h u => match_term u h) ts hits
  | _ => hits
  end.
Fixpoint match_form (f : formula) (hits : nat) : nat :=
  match f with
  | Comp _ fs => if expr_eqb (XF f) target then S hits else fold_left (fun h g => match_form g h) fs hits
  | Quant _ _ g => if expr_eqb (XF f) target then S hits else match_form g hits
  | Atom _ ts => if expr_eqb (XF f) target then S hits else fold_left (fun h u => match_term u h) ts hits
  | Top | Bot => hits
  end.
Definition match_visit (e : expr) (hits : nat) : nat := match e with XT t => match_term t hits | XF f => match_form f hits end.
End Match.

(** visitors.py:39-56 [CollectVariables]. Terms are not hashable (terms.py:125 [__hash__ = None]), so adding one to the set raises TypeError. *)
Definition visit_all {A} (visit : A -> res unit) : list A -> res unit :=
  fix go l := match l with [] => Ok tt | x :: r => match visit x with Err e => Err e | Ok _ => go r end end.
Fixpoint cv_term (t : term) : res unit := match t with Var _ _ => Err TypeError | App _ ts => visit_all cv_term ts | _ => Ok tt end.
Fixpoint cv_form (f : formula) : res unit :=
  match f with Comp _ fs => visit_all cv_form fs | Quant _ _ g => cv_form g | Atom _ ts => visit_all cv_term ts | Top | Bot => Ok tt end.
Definition cv_visit (e : expr) : res unit := match e with XT t => cv_term t | XF f => cv_form f end.

(** visitors.py:84-95 [CollectEqualityAtoms]: a set of references to atoms, as a list without duplicates *)
Definition add_f (f : formula) (l : list formula) : list formula := if existsb (formula_eqb f) l then l else (l ++ [f])%list.
Definition eq_symbol (p : psym) : bool := match p with PB PEq => true | _ => false end.
Fixpoint eq_visit (f : formula) (found : list formula) : list formula :=
  match f with
  | Comp _ fs => fold_left (fun s g => eq_visit g s) fs found
  | Atom p _ => if eq_symbol p then add_f f found else found
  | _ => found
  end.
