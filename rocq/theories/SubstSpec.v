(** Specification vocabulary: free and bound occurrences of variables. Not used by the model. *)
From Verif Require Import Base Syntax Semantics.

Definition mem_var (x : var) (l : list var) : bool := existsb (var_eqb x) l.

(** [x] has a free occurrence (anywhere, including the condition of an if-then-else). *)
Fixpoint free_in_t (x : var) (t : term) : bool :=
  match t with
  | Var y s => var_eqb x (y, s)
  | Cst _ _ => false
  | App _ ts => existsb (free_in_t x) ts
  | Ite c a b => free_in x c || free_in_t x a || free_in_t x b
  end
with free_in (x : var) (f : formula) : bool :=
  match f with
  | Top | Bot => false
  | Atom _ ts => existsb (free_in_t x) ts
  | Comp _ fs => existsb (free_in x) fs
  | Quant _ vs g => negb (mem_var x (vars_of vs)) && free_in x g
  end.

(** The variables bound by some quantifier of the expression, with repetitions. *)
Fixpoint binders_t (t : term) : list var :=
  match t with
  | Var _ _ | Cst _ _ => []
  | App _ ts => flat_map binders_t ts
  | Ite c a b => binders c ++ binders_t a ++ binders_t b
  end
with binders (f : formula) : list var :=
  match f with
  | Top | Bot => []
  | Atom _ ts => flat_map binders_t ts
  | Comp _ fs => flat_map binders fs
  | Quant _ vs g => vars_of vs ++ binders g
  end.

(** A substitution of terms for variables; the first entry for a variable counts. *)
Definition vsubst := list (var * term).
Fixpoint lookup (s : vsubst) (x : var) : option term :=
  match s with [] => None | (y, t) :: s' => if var_eqb y x then Some t else lookup s' x end.

(** The assignment in which each variable of [s] has the value of the term it is mapped to. *)
Definition env_subst {M} (s : vsubst) (e : env M) : env M :=
  fun x => match lookup s x with Some t => tsem M t e | None => e x end.

(** No quantifier of the expression binds a variable that is replaced, or that is free in a replacing term. *)
Definition no_clash (bs : list var) (s : vsubst) : bool :=
  forallb (fun b => forallb (fun kv => negb (var_eqb (fst kv) b) && negb (free_in_t b (snd kv))) s) bs.

(** No if-then-else term occurs. *)
Fixpoint ite_free_t (t : term) : bool :=
  match t with Var _ _ | Cst _ _ => true | App _ ts => forallb ite_free_t ts | Ite _ _ _ => false end.
Fixpoint ite_free (f : formula) : bool :=
  match f with
  | Top | Bot => true
  | Atom _ ts => forallb ite_free_t ts
  | Comp _ fs => forallb ite_free fs
  | Quant _ _ g => ite_free g
  end.

Fixpoint distinct (l : list var) : bool :=
  match l with [] => true | x :: l' => negb (mem_var x l') && distinct l' end.

(** No quantifier in the scope of binders of [bound] binds one of them again, nor the same variable twice
    (quantifiers outside if-then-else conditions). *)
Fixpoint no_rebinding (bound : list var) (f : formula) : bool :=
  match f with
  | Top | Bot | Atom _ _ => true
  | Comp _ fs => forallb (no_rebinding bound) fs
  | Quant _ vs g => distinct (vars_of vs) && forallb (fun x => negb (mem_var x bound)) (vars_of vs) &&
                    no_rebinding (vars_of vs ++ bound) g
  end.

(** No quantifier binds a variable that is bound again inside its body (including if-then-else conditions). *)
Fixpoint no_shadowing (f : formula) : bool :=
  match f with
  | Top | Bot | Atom _ _ => true
  | Comp _ fs => forallb no_shadowing fs
  | Quant _ vs g => forallb (fun x => negb (mem_var x (binders g))) (vars_of vs) && no_shadowing g
  end.

(** Some quantifier of the kinds in [qs] occurs (outside if-then-else conditions). *)
Fixpoint has_quantifier_in (qs : quant -> bool) (f : formula) : bool :=
  match f with
  | Quant q _ g => qs q || has_quantifier_in qs g
  | Comp _ fs => existsb (has_quantifier_in qs) fs
  | _ => false
  end.

(** The sorts of the variables bound by quantifiers of the kinds in [qs] (outside if-then-else conditions). *)
Fixpoint quantified_sorts (qs : quant -> bool) (f : formula) : list sort :=
  match f with
  | Quant q vs g => (if qs q then map snd (vars_of vs) else []) ++ quantified_sorts qs g
  | Comp _ fs => flat_map (quantified_sorts qs) fs
  | _ => []
  end.
