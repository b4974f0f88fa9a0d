(** Specification of models: a set of true atoms and a partial map of function values, updated last-write-wins. *)
From Verif Require Import Base Syntax ModelState.

Record smodel := { s_true : psym -> list term -> bool; s_val : fsym -> list term -> option term }.
Definition s_empty : smodel := {| s_true := fun _ _ => false; s_val := fun _ _ => None |}.

(** Updating one atom / one point and nothing else. *)
Definition upd_true (s : smodel) (p : psym) (args : list term) (b : bool) : smodel :=
  {| s_true := fun q a => if (if psym_eq_dec p q then true else false) && points_eqb args a then b else s_true s q a; s_val := s_val s |}.
Definition upd_val (s : smodel) (f : fsym) (args : list term) (v : term) : smodel :=
  {| s_true := s_true s;
     s_val := fun g a => if (if fsym_eq_dec f g then true else false) && points_eqb args a then Some v else s_val s g a |}.

(** The outcome of type checking the constants [args] against the sorts [ss]. *)
Definition const_sort (t : term) : sort := match t with Cst _ s => s | _ => EmptyString end.
Definition typing (sub : sort -> sort -> bool) (ss : list sort) (args : list term) : option exn :=
  if negb (Nat.eqb (List.length ss) (List.length args)) then Some ArityMismatch
  else if forallb (fun ts => sub (const_sort (fst ts)) (snd ts)) (combine args ss) then None else Some SortMismatch.

Definition s_step (sub : sort -> sort -> bool) (s : smodel) (o : mop) : option exn * smodel :=
  match o with
  | OAdd (PB _) _ => (Some SemanticError, s)
  | OAdd (PU n ss) args =>
      match typing sub ss args with Some e => (Some e, s) | None => (None, upd_true s (PU n ss) args true) end
  | OSet (App (FU n d c) args) v =>
      match typing sub (d ++ [c]) (args ++ [v]) with Some e => (Some e, s) | None => (None, upd_val s (FU n d c) args v) end
  | OSet (App (FB _) _) _ => (Some SemanticError, s)
  | OSet _ _ => (Some TypeError, s)
  | ORemove p args => if s_true s p args then (None, upd_true s p args false) else (Some KeyError, s)
  | ODiscard p args => (None, upd_true s p args false)
  | ORemovePred p => (None, {| s_true := fun q a => if psym_eq_dec p q then false else s_true s q a; s_val := s_val s |})
  | ORemoveFun f => (None, {| s_true := s_true s; s_val := fun g a => if fsym_eq_dec f g then None else s_val s g a |})
  end.

(** Histories, with the exceptions raised by each call. *)
Fixpoint outcomes {S} (step : S -> mop -> option exn * S) (ops : list mop) (s : S) : list (option exn) * S :=
  match ops with
  | [] => ([], s)
  | o :: ops' => let '(e, s1) := step s o in let '(es, s2) := outcomes step ops' s1 in (e :: es, s2)
  end.

(** Arguments are constants. *)
Definition op_constants (o : mop) : bool :=
  match o with
  | OAdd _ args | ORemove _ args | ODiscard _ args => forallb is_cst args
  | OSet t v => is_cst v && match t with App _ args => forallb is_cst args | _ => true end
  | _ => true
  end.
(** No predicate and function of the history share a signature (in one language two symbols never share a name). *)
Definition op_pred (o : mop) : option psym := match o with OAdd p _ | ORemove p _ | ODiscard p _ | ORemovePred p => Some p | _ => None end.
Definition op_fun (o : mop) : option fsym := match o with OSet (App f _) _ | ORemoveFun f => Some f | _ => None end.
Definition separate (ops : list mop) : Prop :=
  forall o o' p f, In o ops -> In o' ops -> op_pred o = Some p -> op_fun o' = Some f -> psig p <> fsig f.
