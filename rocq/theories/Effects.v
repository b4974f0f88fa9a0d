(** Action effects and progression: src/tarski/fstrips/fstrips.py, src/tarski/search/operations.py, and the parts of
    src/tarski/fstrips/representation.py on substitution and universal effects *)
From Verif Require Import Base Syntax ModelState Eval Subst QElim.

(** fstrips.py:10-100. The formula of an add/delete effect is the atom; the flag of a functional effect tells IncreaseEffect, a subclass of
    FunctionalEffect. [EOther] stands for the remaining classes (procedural, choice, vectorised, linear, black-box effects). *)
Inductive effect : Set :=
| EAdd (c a : formula)
| EDel (c a : formula)
| EFun (inc : bool) (c : formula) (lhs rhs : term)
| EUni (c : formula) (vs : list term) (es : list effect)
| ELit (c lit : formula)
| EOther (c : formula).
Definition econd (e : effect) : formula := match e with EAdd c _ | EDel c _ | EFun _ c _ _ | EUni c _ _ | ELit c _ | EOther c => c end.
Fixpoint edepth (e : effect) : nat := match e with EUni _ _ es => S (fold_right (fun e n => Nat.max (edepth e) n) 0 es) | _ => 0 end.

Section EffectInd.
  Variable P : effect -> Prop.
  Hypotheses (H1 : forall c a, P (EAdd c a)) (H2 : forall c a, P (EDel c a)) (H3 : forall i c l r, P (EFun i c l r))
             (H4 : forall c vs es, Forall P es -> P (EUni c vs es)) (H5 : forall c l, P (ELit c l)) (H6 : forall c, P (EOther c)).
  Fixpoint effect_ind_nested (e : effect) : P e :=
    match e with
    | EAdd c a => H1 c a | EDel c a => H2 c a | EFun i c l r => H3 i c l r | ELit c l => H5 c l | EOther c => H6 c
    | EUni c vs es => H4 c vs es ((fix go es : Forall P es := match es with [] => Forall_nil P | x :: xs => Forall_cons x (effect_ind_nested x) (go xs) end) es)
    end.
End EffectInd.

(** representation.py:560-593 [substitute_expression] on effects. The condition of a universal effect is substituted twice (lines 574 and 588), and
    its variables that are keys of the substitution are dropped (line 587). The [Err] case is line 591; it aborts the whole substitution. *)
Definition in_subst (s : subst) (v : term) : bool := match get_t (sub_t s) v with Some _ => true | None => false end.
Fixpoint subst_effect (s : subst) (e : effect) : res effect :=
  match e with
  | EAdd c a => Ok (EAdd (subst_formula s c) (subst_formula s a))
  | EDel c a => Ok (EDel (subst_formula s c) (subst_formula s a))
  | ELit c l => Ok (ELit (subst_formula s c) (subst_formula s l))
  | EFun i c l r => Ok (EFun i (subst_formula s c) (subst_term s l) (subst_term s r))
  | EUni c vs es => let! es' := mapM (subst_effect s) es in
                    Ok (EUni (subst_formula s (subst_formula s c)) (filter (fun v => negb (in_subst s v)) vs) es')
  | EOther _ => Err RepresentationError
  end.

(** substitutions.py:38-43 [enumerate_substitutions]; a sort without enumerable domain raises (sorts.py:157-164) *)
Definition enumerate_substitutions (D : domains) (vs : list term) : res (list subst) :=
  if forallb is_var vs then
    let! doms := mapM (fun v => match v with Var _ s => match D s with Some cs => Ok cs | None => Err TarskiError end | _ => Err AssertionError end) vs in
    mapM (create_substitution vs) (product doms)
  else Err AssertionError.

Section Progress.
Variables (D : domains) (sub : sort -> sort -> bool).

(** Apply a list of effects one after the other. *)
Definition run_with (f : model -> effect -> res model) : list effect -> model -> res model :=
  fix run es m := match es with [] => Ok m | e :: es' => let! m' := f m e in run es' m' end.

(** operations.py:18-38 [apply_effect] ([n] bounds the nesting of universal effects, a model artefact proved sufficient). The effect object is
    copied by each substitution (representation.py:567), so the original is not modified. *)
Fixpoint apply_effect_n (n : nat) (m : model) (e : effect) : res model :=
  let! b := eval_f m (econd e) in
  if negb b then Ok m else
  match e with
  | EAdd _ (Atom p ts) => m_add sub m p ts
  | EDel _ (Atom p ts) => Ok (m_discard m p ts)
  | EAdd _ _ | EDel _ _ => Err AttributeError
  | EFun _ _ lhs rhs => let! v := evaluate_t m rhs in m_set sub m lhs v
  | EUni _ vs es =>
      match n with
      | O => Err OutOfFuel
      | S n' =>
          let! ss := enumerate_substitutions D vs in
          (fix loop (ss : list subst) (m : model) : res model :=
             match ss with
             | [] => Ok m
             | s :: ss' => let! m' := run_with (fun m e => let! e' := subst_effect s e in apply_effect_n n' m e') es m in loop ss' m'
             end) ss m
      end
  | ELit _ _ | EOther _ => Err RuntimeError
  end.
Definition apply_effect (m : model) (e : effect) : res model := apply_effect_n (edepth e) m e.
Definition is_del (e : effect) : bool := match e with EDel _ _ => true | _ => false end.
(** operations.py:41-53 [progress]: stable sort with the delete effects first. [copy.deepcopy(state)]: the model is a value here, so the given state is
    unaffected by construction. *)
Definition run_effects : list effect -> model -> res model := run_with apply_effect.
Definition progress (m : model) (effs : list effect) : res model :=
  run_effects (filter is_del effs ++ filter (fun e => negb (is_del e)) effs) m.
(** operations.py:9-11 *)
Definition is_applicable (m : model) (pre : formula) : res bool := eval_f m pre.

(** representation.py:596-606 [expand_universal_effect] *)
Definition is_top (f : formula) : bool := match f with Top => true | _ => false end.
Definition expand_effect (e : effect) : res (list effect) :=
  match e with
  | EUni c vs es =>
      if is_top c then
        let! ss := enumerate_substitutions D vs in
        let! ls := mapM (fun s => mapM (subst_effect s) es) ss in Ok (List.concat ls)
      else Err AssertionError
  | _ => Ok [e]
  end.
(** representation.py:609-618 [compile_universal_effects_away], the loop body of lines 614-617 for one action *)
Definition expand_effects (effs : list effect) : res (list effect) := let! ls := mapM expand_effect effs in Ok (List.concat ls).
End Progress.
