(** Specification vocabulary for grounding and symbol fluency. Not used by the model. *)
From Verif Require Import Base Syntax Subst QElim Effects Represent Grounding.

(** The sorts of the arguments of a declared symbol *)
Definition arguments (s : sym) : list sort := match s with SymP (PU _ ss) => ss | SymF (FU _ d _) => d | _ => [] end.
Definition declared_by_user (s : sym) : Prop := match s with SymP (PU _ _) | SymF (FU _ _ _) => True | _ => False end.
(** A tuple of constants, one of each sort *)
Definition typed_binding (D : domains) (ss : list sort) (b : list term) : Prop := Forall2 (fun c s => exists cs, D s = Some cs /\ In c cs) b ss.
(** Sorts list each of their constants once. *)
Definition no_repetition (D : domains) : Prop := forall s cs, D s = Some cs -> NoDup cs.
(** The tuples that a term with some arguments fixed to constants stands for, given the sorts of the arguments of its symbol *)
Inductive fits (D : domains) : list sort -> list term -> list term -> Prop :=
| fits_nil : fits D [] [] []
| fits_constant s ss c r ts b : fits D ss ts b -> fits D (s :: ss) (Cst c r :: ts) (Cst c r :: b)
| fits_any s ss t ts cs a b : (forall c r, t <> Cst c r) -> D s = Some cs -> In a cs -> fits D ss ts b -> fits D (s :: ss) (t :: ts) (a :: b).
(** The tuples obtained from arguments that are constants or variables, each variable ranging over its own sort *)
Definition instance (D : domains) (ts b : list term) : Prop :=
  Forall2 (fun t a => (exists c r, t = Cst c r /\ a = t) \/ (exists x s cs, t = Var x s /\ D s = Some cs /\ In a cs)) ts b.

(** [e'] is [e] or an effect inside the universal effect [e]. *)
Inductive sub_effect : effect -> effect -> Prop :=
| sub_self e : sub_effect e e
| sub_uni c vs es e e' : In e es -> sub_effect e' e -> sub_effect e' (EUni c vs es).
(** The symbol written by an effect that is not universal *)
Definition writes (e : effect) (s : sym) : Prop :=
  match e with
  | EAdd _ a | EDel _ a => exists p ts, a = Atom p ts /\ s = SymP p
  | EFun _ _ lhs _ => exists f ts, lhs = App f ts /\ s = SymF f
  | _ => False
  end.
Definition written_by (acts : list action) (s : sym) : Prop := exists a e e', In a acts /\ In e (a_effs a) /\ sub_effect e' e /\ writes e' s.
(** The effects whose symbols the analysis can read *)
Fixpoint plain_effect (e : effect) : bool :=
  match e with EAdd _ (Atom _ _) | EDel _ (Atom _ _) => true | EFun _ _ (App _ _) _ => true | EUni _ _ es => forallb plain_effect es | _ => false end.
(** A binding of action parameters: variables are mapped to terms, nothing else is replaced. *)
Definition parameter_binding (s : subst) : Prop := sub_f s = [] /\ forall k v, In (k, v) (sub_t s) -> exists x r, k = Var x r.
