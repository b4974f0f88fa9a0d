(** Specification of progression: what an operator with add, delete and functional effects should do to a state. *)
From Verif Require Import Base Syntax ModelState Eval Effects.

(** States: whatever a history of Model operations can build. *)
Definition is_state (sub : sort -> sort -> bool) (m : model) : Prop := exists ops, m = mrun sub ops empty_model.
(** The same atoms are true and the functions have the same values. *)
Definition same_state (m m' : model) : Prop := (forall p pt, m_holds m p pt = m_holds m' p pt) /\ (forall f pt, m_value m f pt = m_value m' f pt).

(** What the effects [effs] do when everything is evaluated in the state [m]. *)
Definition adds (m : model) (effs : list effect) (p : psym) (pt : list term) : Prop := exists c, In (EAdd c (Atom p pt)) effs /\ eval_f m c = Ok true.
Definition dels (m : model) (effs : list effect) (p : psym) (pt : list term) : Prop := exists c, In (EDel c (Atom p pt)) effs /\ eval_f m c = Ok true.
Definition assigns (m : model) (effs : list effect) (f : fsym) (pt : list term) (v : term) : Prop :=
  exists i c rhs, In (EFun i c (App f pt) rhs) effs /\ eval_f m c = Ok true /\ evaluate_t m rhs = Ok v.
(** [m'] is the successor of [m]: deletes, then adds and assignments, all conditions and right-hand sides evaluated in [m], nothing else changes. *)
Definition successor (m : model) (effs : list effect) (m' : model) : Prop :=
  (forall p pt, m_holds m' p pt = true <-> adds m effs p pt \/ (m_holds m p pt = true /\ ~ dels m effs p pt)) /\
  (forall f pt, (forall v, ~ assigns m effs f pt v) -> m_value m' f pt = m_value m f pt) /\
  (forall f pt v, assigns m effs f pt v -> (forall w, assigns m effs f pt w -> w = v) -> m_value m' f pt = Ok v).
(** No point is assigned two different values. *)
Definition consistent (m : model) (effs : list effect) : Prop := forall f pt v w, assigns m effs f pt v -> assigns m effs f pt w -> v = w.
(** No atom is both added and deleted. *)
Definition conflict_free (m : model) (effs : list effect) : Prop := forall p pt, adds m effs p pt -> dels m effs p pt -> False.

(** Symbols occurring in an expression. *)
Fixpoint t_preds (t : term) : list psym := match t with Var _ _ | Cst _ _ => [] | App _ ts => flat_map t_preds ts | Ite c a b => f_preds c ++ t_preds a ++ t_preds b end
with f_preds (f : formula) : list psym :=
  match f with Top | Bot => [] | Atom p ts => p :: flat_map t_preds ts | Comp _ fs => flat_map f_preds fs | Quant _ vs g => flat_map t_preds vs ++ f_preds g end.
Fixpoint t_funs (t : term) : list fsym := match t with Var _ _ | Cst _ _ => [] | App f ts => f :: flat_map t_funs ts | Ite c a b => f_funs c ++ t_funs a ++ t_funs b end
with f_funs (f : formula) : list fsym :=
  match f with Top | Bot => [] | Atom p ts => flat_map t_funs ts | Comp _ fs => flat_map f_funs fs | Quant _ vs g => flat_map t_funs vs ++ f_funs g end.
(** Symbols that an effect reads (condition, right-hand side) and writes. *)
Definition reads_p (e : effect) : list psym := match e with EFun _ c _ r => f_preds c ++ t_preds r | _ => f_preds (econd e) end.
Definition reads_f (e : effect) : list fsym := match e with EFun _ c _ r => f_funs c ++ t_funs r | _ => f_funs (econd e) end.
Definition writes_p (e : effect) : list psym := match e with EAdd _ (Atom p _) | EDel _ (Atom p _) => [p] | _ => [] end.
Definition writes_f (e : effect) : list fsym := match e with EFun _ _ (App f _) _ => [f] | _ => [] end.
(** [e] writes nothing that [e'] reads *)
Definition does_not_affect (e e' : effect) : Prop := (forall p, In p (writes_p e) -> ~ In p (reads_p e')) /\ (forall f, In f (writes_f e) -> ~ In f (reads_f e')).
(** No effect writes what a different effect reads. *)
Definition independent (effs : list effect) : Prop := ForallOrdPairs (fun e e' => does_not_affect e e' /\ does_not_affect e' e) effs.
(** Not a universal effect *)
Definition is_single (e : effect) : bool := match e with EUni _ _ _ => false | _ => true end.
