(** Specification vocabulary for parameter projection: occurrences of variables in effects. Not used by the model. *)
From Verif Require Import Base Syntax SubstSpec Effects.

(** [x] occurs, free or bound. *)
Fixpoint occurs_t (x : var) (t : term) : bool :=
  match t with Var y s => var_eqb x (y, s) | Cst _ _ => false | App _ ts => existsb (occurs_t x) ts | Ite c a b => occurs x c || occurs_t x a || occurs_t x b end
with occurs (x : var) (f : formula) : bool :=
  match f with Top | Bot => false | Atom _ ts => existsb (occurs_t x) ts | Comp _ fs => existsb (occurs x) fs | Quant _ vs g => existsb (occurs_t x) vs || occurs x g end.
(** [x] occurs anywhere in the effect, its conditions included. *)
Fixpoint occurs_e (x : var) (e : effect) : bool :=
  match e with
  | EAdd c a | EDel c a | ELit c a => occurs x c || occurs x a
  | EFun _ c l r => occurs x c || occurs_t x l || occurs_t x r
  | EUni c vs es => occurs x c || existsb (occurs_t x) vs || existsb (occurs_e x) es
  | EOther c => occurs x c
  end.
(** [x] is free in what the effect changes (conditions not counted). *)
Fixpoint free_in_head (x : var) (e : effect) : bool :=
  match e with
  | EAdd _ a | EDel _ a | ELit _ a => free_in x a
  | EFun _ _ l r => free_in_t x l || free_in_t x r
  | EUni _ vs es => negb (mem_var x (vars_of vs)) && existsb (free_in_head x) es
  | EOther _ => false
  end.
(** What the effect changes is given by well-formed expressions without if-then-else, universal quantifiers bind variables. *)
Fixpoint plain_effect (e : effect) : bool :=
  match e with
  | EAdd _ a | EDel _ a | ELit _ a => wf a && ite_free a && no_rebinding [] a
  | EFun _ _ l r => ite_free_t l && ite_free_t r
  | EUni _ vs es => forallb is_var vs && forallb plain_effect es
  | EOther _ => false
  end.
