(** Specification vocabulary for the representation checks: conjunctions of literals, STRIPS effect sets. Not used by the model. *)
From Verif Require Import Base Syntax Semantics ModelState Eval Effects.

Definition atomic (f : formula) : bool := match f with Atom _ _ => true | _ => false end.
Definition literal (f : formula) : bool := match f with Atom _ _ => true | Comp Not [Atom _ _] => true | _ => false end.
(** [f] is built from members of [L] with conjunctions (disjunctions) only. *)
Fixpoint conjunction_of (L : formula -> bool) (f : formula) : bool := match f with Comp And fs => forallb (conjunction_of L) fs | _ => L f end.
Fixpoint disjunction_of (L : formula -> bool) (f : formula) : bool := match f with Comp Or fs => forallb (disjunction_of L) fs | _ => L f end.
(** An unconditional add or delete effect. *)
Definition propositional (e : effect) : Prop := exists a, e = EAdd Top a \/ e = EDel Top a.
(** An atom both added and deleted *)
Definition conflicting (effs : list effect) (a : formula) : Prop := In (EAdd Top a) effs /\ In (EDel Top a) effs.
(** Truth of a set of literals *)
Definition literals_true (M : structure) (e : env M) (l : list (formula * bool)) : bool := forallb (fun x => Bool.eqb (fsem M (fst x) e) (snd x)) l.
