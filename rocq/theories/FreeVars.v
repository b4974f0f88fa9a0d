(** Free variables: src/tarski/syntax/visitors.py:59-81 and src/tarski/syntax/ops.py:53-57 *)
From Verif Require Import Base Syntax.

(** Python sets of references to variables (or, in ill-formed quantifiers, to other terms): duplicate-free lists. *)
Definition mem_t (t : term) (l : list term) : bool := existsb (term_eqb t) l.
Definition add_t (t : term) (l : list term) : list term := if mem_t t l then l else l ++ [t].
(** set.remove: KeyError when absent *)
Fixpoint remove_t (t : term) (l : list term) : res (list term) :=
  match l with
  | [] => Err KeyError
  | u :: l' => if term_eqb t u then Ok l' else let! r := remove_t t l' in Ok (u :: r)
  end.

(** state: (quantified_vars, free_variables) *)
Definition fvstate := (list term * list term)%type.

Definition foldM {A S} (f : S -> A -> res S) : list A -> S -> res S :=
  fix foldM (l : list A) (s : S) : res S :=
  match l with [] => Ok s | x :: l' => match f s x with Err e => Err e | Ok s' => foldM l' s' end end.

(** visitors.py:66-81 [CollectFreeVariables.visit]; an IfThenElse (and anything else) falls through all branches and is
    ignored. *)
Fixpoint fv_term (t : term) (st : fvstate) : fvstate :=
  match t with
  | Var _ _ => if mem_t t (fst st) then st else (fst st, add_t t (snd st))
  | App _ ts => fold_left (fun s u => fv_term u s) ts st
  | _ => st
  end.
Fixpoint fv_formula (f : formula) (st : fvstate) : res fvstate :=
  match f with
  | Atom _ ts => Ok (fold_left (fun s u => fv_term u s) ts st)
  | Comp _ fs => foldM (fun s g => fv_formula g s) fs st
  | Quant _ vs g =>
      let st1 := (fold_left (fun q v => add_t v q) vs (fst st), snd st) in
      let! st2 := fv_formula g st1 in
      let! q := foldM (fun q v => remove_t v q) vs (fst st2) in
      Ok (q, snd st2)
  | Top | Bot => Ok st
  end.
(** ops.py:53-57 *)
Definition free_variables (f : formula) : res (list term) := let! st := fv_formula f ([], []) in Ok (snd st).
