(** Specification vocabulary for the prenex transformation. *)
From Verif Require Import Base Syntax Semantics FolSpec SubstSpec.

(** Structures without empty sorts. *)
Definition nonempty_sorts (M : structure) : Prop := forall s, dom M s <> [].
(** All quantifiers are of kind [q]. *)
Fixpoint only_quantifier (q : quant) (f : formula) : bool :=
  match f with
  | Comp _ fs => forallb (only_quantifier q) fs
  | Quant r _ g => (match q, r with QEx, QEx | QAll, QAll => true | _, _ => false end) && only_quantifier q g
  | _ => true
  end.
(** No conjunction has two quantified members. *)
Fixpoint conjunctions_ok (f : formula) : bool :=
  match f with
  | Comp And fs => Nat.leb (List.length (filter has_quantifier fs)) 1 && forallb conjunctions_ok fs
  | Comp _ fs => forallb conjunctions_ok fs
  | Quant _ _ g => conjunctions_ok g
  | _ => true
  end.
(** Bound variables are pairwise distinct and do not occur free. *)
Definition clean_binders (f : formula) : bool :=
  distinct (binders f) && forallb (fun b => negb (free_in b f)) (binders f).
