(** Independent specification: linear temporal logic with first-order formulas over infinite traces. *)
From Verif Require Import Base Syntax Semantics SubstSpec Ltl.

(** A trace: the universe, its sorts and the constants are fixed; functions and predicates change over time. *)
Record trace : Type := {
  things : Type;
  of_sort : sort -> list things;
  constant : cname -> sort -> things;
  function_at : nat -> fsym -> list things -> things;
  predicate_at : nat -> psym -> list things -> bool
}.
(** what holds at time [i], as a first-order structure *)
Definition at_time (w : trace) (i : nat) : structure :=
  {| carrier := things w; dom := of_sort w; cint := constant w; fint := function_at w i; pint := predicate_at w i |}.
Definition tenv (w : trace) := var -> things w.
Definition tupd {w} (e : tenv w) (x : var) (d : things w) : tenv w := fun y => if var_eqb x y then d else e y.

(** Connectives, on properties of time points *)
Definition conn_holds (c : connective) (ps : list (nat -> Prop)) (i : nat) : Prop :=
  match c with
  | And => Forall (fun p => p i) ps
  | Or => Exists (fun p => p i) ps
  | Not => match ps with [p] => ~ p i | _ => False end
  end.
(** [p] holds at every point from [i] on, before [j] *)
Definition throughout (p : nat -> Prop) (i j : nat) : Prop := forall k, i <= k -> k < j -> p k.
Definition until (p q : nat -> Prop) (i : nat) : Prop := exists j, i <= j /\ q j /\ throughout p i j.
Definition release (p q : nat -> Prop) (i : nat) : Prop := forall j, i <= j -> q j \/ exists k, i <= k /\ k < j /\ p k.
(** more than two operands associate to the right *)
Fixpoint chain (op : (nat -> Prop) -> (nat -> Prop) -> nat -> Prop) (ps : list (nat -> Prop)) : nat -> Prop :=
  match ps with [] => fun _ => False | p :: ps' => match ps' with [] => p | _ => op p (chain op ps') end end.
Definition temp_holds (o : top) (ps : list (nat -> Prop)) (i : nat) : Prop :=
  match o, ps with
  | OX, [p] => p (S i)
  | OF, [p] => exists j, i <= j /\ p j
  | OG, [p] => forall j, i <= j -> p j
  | OU, _ => chain until ps i
  | OR, _ => chain release ps i
  | _, _ => False
  end.
Fixpoint quant_holds (w : trace) (q : quant) (vs : list term) (k : tenv w -> Prop) (e : tenv w) : Prop :=
  match vs with
  | [] => k e
  | Var x s :: vs' =>
      match q with
      | QEx => exists d, In d (of_sort w s) /\ quant_holds w q vs' k (tupd e (x, s) d)
      | QAll => forall d, In d (of_sort w s) -> quant_holds w q vs' k (tupd e (x, s) d)
      end
  | _ :: vs' => quant_holds w q vs' k e
  end.
(** [f] holds at time [i] of the trace [w]; the variables have the same values at all times *)
Fixpoint holds (w : trace) (f : tform) (e : tenv w) (i : nat) : Prop :=
  match f with
  | TTop => True
  | TBot => False
  | TAtom p ts => fsem (at_time w i) (Atom p ts) e = true
  | TComp c fs => conn_holds c (map (fun g => holds w g e) fs) i
  | TTemp o fs => temp_holds o (map (fun g => holds w g e) fs) i
  | TQuant q vs g => quant_holds w q vs (fun e' => holds w g e' i) e
  end.
Definition tequivalent (f g : tform) : Prop := forall w (e : tenv w) i, holds w f e i <-> holds w g e i.

(** Well-formed formulas *)
Fixpoint twf (f : tform) : bool :=
  match f with
  | TTop | TBot => true
  | TAtom _ ts => forallb wf_term ts
  | TComp c fs => comp_arity_ok c (List.length fs) && forallb twf fs
  | TTemp (OX | OF | OG) fs => Nat.eqb (List.length fs) 1 && forallb twf fs
  | TTemp _ fs => Nat.leb 2 (List.length fs) && forallb twf fs
  | TQuant _ vs g => Nat.leb 1 (List.length vs) && forallb is_var vs && twf g
  end.
(** no temporal operator occurs *)
Fixpoint timeless (f : tform) : bool :=
  match f with
  | TTop | TBot | TAtom _ _ => true
  | TComp _ fs => forallb timeless fs
  | TTemp _ _ => false
  | TQuant _ _ g => timeless g
  end.
(** a first-order formula as a temporal formula *)
Fixpoint plain (f : formula) : tform :=
  match f with
  | Top => TTop
  | Bot => TBot
  | Atom p ts => TAtom p ts
  | Comp c fs => TComp c (map plain fs)
  | Quant q vs g => TQuant q vs (plain g)
  end.
(** free occurrences and bound variables *)
Fixpoint tfree_in (x : var) (f : tform) : bool :=
  match f with
  | TTop | TBot => false
  | TAtom _ ts => existsb (free_in_t x) ts
  | TComp _ fs | TTemp _ fs => existsb (tfree_in x) fs
  | TQuant _ vs g => negb (mem_var x (vars_of vs)) && tfree_in x g
  end.
Fixpoint tbinders (f : tform) : list var :=
  match f with
  | TTop | TBot => []
  | TAtom _ ts => flat_map binders_t ts
  | TComp _ fs | TTemp _ fs => flat_map tbinders fs
  | TQuant _ vs g => vars_of vs ++ tbinders g
  end.
Fixpoint tite_free (f : tform) : bool :=
  match f with
  | TTop | TBot => true
  | TAtom _ ts => forallb ite_free_t ts
  | TComp _ fs | TTemp _ fs => forallb tite_free fs
  | TQuant _ _ g => tite_free g
  end.
Fixpoint tno_rebinding (bound : list var) (f : tform) : bool :=
  match f with
  | TTop | TBot | TAtom _ _ => true
  | TComp _ fs | TTemp _ fs => forallb (tno_rebinding bound) fs
  | TQuant _ vs g => distinct (vars_of vs) && forallb (fun x => negb (mem_var x bound)) (vars_of vs) && tno_rebinding (vars_of vs ++ bound) g
  end.
(** the value of a term does not change over time *)
Definition rigid (w : trace) (t : term) : Prop := forall (e : tenv w) i j, tsem (at_time w i) t e = tsem (at_time w j) t e.
(** the assignment in which each variable of [s] has the value, at time [i], of the term it is mapped to *)
Definition tenv_subst {w : trace} (s : vsubst) (i : nat) (e : tenv w) : tenv w := fun x => match lookup s x with Some t => tsem (at_time w i) t e | None => e x end.
