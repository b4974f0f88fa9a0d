(** When the simplification of existential quantifiers is sound. Not used by the model. *)
From Verif Require Import Base Syntax Semantics SubstSpec.

(** The structure reads equality as identity. *)
Definition normal (M : structure) : Prop := forall a b, pint M (PB PEq) [a; b] = true <-> a = b.
(** Functions return elements of their codomain. *)
Definition typed_structure (M : structure) : Prop := forall n d s args, In (fint M (FU n d s) args) (dom M s).
(** The free variables of [f] have values of their sort. *)
Definition typed_on (M : structure) (f : formula) (e : env M) : Prop := forall x s, free_in (x, s) f = true -> In (e (x, s)) (dom M s).
(** The values of [t] are elements of sort [s] (when its variables have values of their sorts). *)
Definition fits (M : structure) (t : term) (s : sort) : Prop :=
  match t with
  | Var _ r => incl (dom M r) (dom M s)
  | Cst c r => In (cint M c r) (dom M s)
  | App (FU _ _ r) _ => incl (dom M r) (dom M s)
  | App (FB _) _ | Ite _ _ _ => False
  end.
(** The equality atoms of a formula, the variables that are one of their sides, the variables bound by an existential quantifier *)
Fixpoint equalities (f : formula) : list (term * term) :=
  match f with
  | Top | Bot => []
  | Atom (PB PEq) [t; u] => [(t, u)]
  | Atom _ _ => []
  | Comp _ fs => flat_map equalities fs
  | Quant _ _ g => equalities g
  end.
Definition sides (l : list (term * term)) : list var := vars_of (flat_map (fun tu => [fst tu; snd tu]) l).
Fixpoint ex_bound (f : formula) : list var :=
  match f with
  | Top | Bot | Atom _ _ => []
  | Comp _ fs => flat_map ex_bound fs
  | Quant q vs g => (match q with QEx => vars_of vs | QAll => [] end ++ ex_bound g)%list
  end.
(** In the equality of the variable [x] and [u]: [u] only takes values of the sort of [x]; a variable [u] has the rank of [x]; the variables of a compound [u] have smaller rank ([X]: the variables concerned). *)
Definition side_ok (M : structure) (X : list var) (rank : var -> nat) (x : var) (u : term) : Prop :=
  fits M u (snd x) /\
  match u with Var y r => In (y, r) X -> rank (y, r) = rank x | _ => forall y, In y X -> free_in_t y u = true -> rank y < rank x end.
Definition equality_ok (M : structure) (X : list var) (rank : var -> nat) (tu : term * term) : Prop :=
  (forall x s, fst tu = Var x s -> In (x, s) X -> side_ok M X rank (x, s) (snd tu)) /\
  (forall x s, snd tu = Var x s -> In (x, s) X -> side_ok M X rank (x, s) (fst tu)).
(** Existentially bound variables are sides of at most one equality, and the equalities that define them are not circular. *)
Definition solvable (M : structure) (f : formula) : Prop :=
  NoDup (filter (fun x => mem_var x (ex_bound f)) (sides (equalities f))) /\
  exists rank, Forall (equality_ok M (ex_bound f) rank) (equalities f).
(** Every existential quantifier has a conjunction, an atom or the truth constant as its body; inside the body of a quantifier no variable is bound that the quantifier binds or that is free in the body. *)
Fixpoint clean (f : formula) : bool :=
  match f with
  | Top | Bot | Atom _ _ => true
  | Comp _ fs => forallb clean fs
  | Quant q vs g => match q, g with QAll, _ | QEx, Top | QEx, Atom _ _ | QEx, Comp And _ => true | _, _ => false end &&
                    forallb (fun b => negb (mem_var b (vars_of vs)) && negb (free_in b g)) (binders g) && clean g
  end.
