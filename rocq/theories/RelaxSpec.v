(** Specification vocabulary for the delete relaxation. Not used by the model. *)
From Verif Require Import Base Syntax FolSpec ModelState Eval Subst QElim Effects ProgressSpec Represent.

(** No if-then-else inside a term *)
Fixpoint ite_free (t : term) : bool := match t with Ite _ _ _ => false | App _ ts => forallb ite_free ts | _ => true end.
(** Negation-free and quantifier-free conditions *)
Fixpoint positive (f : formula) : bool :=
  match f with Top | Bot => true | Atom _ ts => forallb ite_free ts | Comp Not _ => false | Comp _ fs => forallb positive fs | Quant _ _ _ => false end.
(** Every atom of the condition has a value in [m] (its function terms are defined there). *)
Definition evaluable (m : model) (f : formula) : Prop := forall a, In a (atoms_of f) -> exists b, eval_f m a = Ok b.
(** No delete effect anywhere; and: only add, delete and universal effects. *)
Fixpoint no_delete (e : effect) : bool := match e with EDel _ _ => false | EUni _ _ es => forallb no_delete es | _ => true end.
Fixpoint add_delete_only (e : effect) : bool := match e with EAdd _ _ | EDel _ _ => true | EUni _ _ es => forallb add_delete_only es | _ => false end.
(** Everything true in [m] is true in [m'], and the functions have the same values. *)
Definition included (m m' : model) : Prop := (forall p pt, m_holds m p pt = true -> m_holds m' p pt = true) /\ (forall f pt, m_value m f pt = m_value m' f pt).
(** A ground atom over a user predicate whose arguments have the declared sorts *)
Definition typed_atom (sub : sort -> sort -> bool) (a : formula) : Prop :=
  exists n ss ts, a = Atom (PU n ss) ts /\ Forall2 (fun t s => exists c r, t = Cst c r /\ sub r s = true) ts ss.
(** Effects with positive, evaluable conditions and type-correct atoms, under every instantiation of their universal quantifiers. *)
Inductive positive_effect (D : domains) (sub : sort -> sort -> bool) (m : model) : effect -> Prop :=
| pe_add c a : positive c = true -> evaluable m c -> typed_atom sub a -> positive_effect D sub m (EAdd c a)
| pe_del c a : positive c = true -> evaluable m c -> typed_atom sub a -> positive_effect D sub m (EDel c a)
| pe_uni c vs es ss : positive c = true -> evaluable m c -> enumerate_substitutions D vs = Ok ss ->
    (forall s e e', In s ss -> In e es -> subst_effect s e = Ok e' -> positive_effect D sub m e') -> positive_effect D sub m (EUni c vs es).

(** Plans: sequences of action names with bindings of the parameters. [execution acts m plan m']: running [plan] from [m] leads to [m']. *)
Inductive execution (D : domains) (sub : sort -> sort -> bool) (acts : list action) : model -> list (string * subst) -> model -> Prop :=
| ex_nil m : execution D sub acts m [] m
| ex_step m a s pre effs m1 plan m2 : In a acts -> ground_schema a s = Ok (pre, effs) -> is_applicable m pre = Ok true -> progress D sub m effs = Ok m1 ->
    execution D sub acts m1 plan m2 -> execution D sub acts m ((a_name a, s) :: plan) m2.
