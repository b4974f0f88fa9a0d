(** Specification vocabulary for the enumerating grounders. Not used by the model. *)
From Verif Require Import Base Syntax Semantics FolSpec SubstSpec Subst QElim Effects NaiveGround.

(** * Constraints *)
(** Negations, binary conjunctions and disjunctions, and universal quantifications of atoms without if-then-else terms; built-in predicates have two arguments *)
Fixpoint constraint_form (f : formula) : bool :=
  match f with
  | Atom p ts => forallb ite_free_t ts && match p with PB _ => Nat.eqb (List.length ts) 2 | PU _ _ => true end
  | Comp Not [g] => constraint_form g
  | Comp And [g; h] | Comp Or [g; h] => constraint_form g && constraint_form h
  | Quant QAll vs g => Nat.leb 1 (List.length vs) && forallb is_var vs && constraint_form g
  | _ => false
  end.
(** The sorts of quantified variables have constants; those of free variables are not built-in. *)
Record groundable_constraint (D : domains) (f : formula) : Prop := {
  gc_form : constraint_form f = true;
  gc_shadow : no_shadowing f = true;
  gc_bound : forall s, In s (quantified_sorts (fun _ => true) f) -> exists c cs, D s = Some (c :: cs);
  gc_free : forall x s, free_in (x, s) f = true -> D s <> None
}.
(** The constraint is true for all values of its free variables. *)
Definition universally_true (M : structure) (f : formula) : Prop := forall e : env M, (forall x s, free_in (x, s) f = true -> In (e (x, s)) (dom M s)) -> fsem M f e = true.

(** * Sensors, reactions, differential constraints *)
(** A constant of the right sort for each parameter, in order *)
Definition binding_for (D : domains) (params : list term) (b : list (var * term)) : Prop :=
  params = map (fun vt => Var (fst (fst vt)) (snd (fst vt))) b /\ Forall (fun vt => exists cs, D (snd (fst vt)) = Some cs /\ In (snd vt) cs) b.
(** [f'] says in every situation what [f] says when the parameters have the values of the constants. *)
Definition same_truth (b : list (var * term)) (f f' : formula) : Prop := forall M (e : env M), fsem M f' e = fsem M f (env_subst b e).
Definition same_value (b : list (var * term)) (t t' : term) : Prop := forall M (e : env M), tsem M t' e = tsem M t (env_subst b e).
Definition same_literal (b : list (var * term)) (f f' : formula) : Prop :=
  match f, f' with
  | Atom p ts, Atom p' ts' => p' = p /\ Forall2 (same_value b) ts ts'
  | Comp Not [Atom p ts], Comp Not [Atom p' ts'] => p' = p /\ Forall2 (same_value b) ts ts'
  | _, _ => False
  end.
Definition same_application (b : list (var * term)) (t t' : term) : Prop := match t, t' with App f ts, App f' ts' => f' = f /\ Forall2 (same_value b) ts ts' | _, _ => False end.
Definition same_effect (b : list (var * term)) (x y : effect) : Prop :=
  match x, y with
  | EAdd c a, EAdd c' a' | EDel c a, EDel c' a' => same_truth b c c' /\ same_literal b a a'
  | EFun i c l r, EFun j c' l' r' => i = j /\ same_truth b c c' /\ same_application b l l' /\ same_value b r r'
  | _, _ => False
  end.
(** Expressions that bind no parameter *)
Definition unbound (params : list term) (f : formula) : Prop := forall x s, In (Var x s) params -> ~ In (x, s) (binders f).
Definition unbound_t (params : list term) (t : term) : Prop := forall x s, In (Var x s) params -> ~ In (x, s) (binders_t t).
Definition good_params (D : domains) (params : list term) : Prop := NoDup params /\ forall t, In t params -> exists x s, t = Var x s /\ D s <> None.
Definition good_sensor (D : domains) (a : sensor) : Prop :=
  good_params D (se_params a) /\ unbound (se_params a) (se_cond a) /\ unbound (se_params a) (se_obs a) /\ exists p ts, se_obs a = Atom p ts \/ se_obs a = Comp Not [Atom p ts].
Definition good_ode (D : domains) (a : ode) : Prop :=
  good_params D (od_params a) /\ unbound (od_params a) (od_cond a) /\ unbound_t (od_params a) (od_variate a) /\ unbound_t (od_params a) (od_rate a) /\ exists f ts, od_variate a = App f ts.
Definition good_reaction (D : domains) (a : reaction) : Prop :=
  good_params D (re_params a) /\ unbound (re_params a) (re_cond a) /\
  match re_eff a with
  | EAdd c g | EDel c g => unbound (re_params a) c /\ unbound (re_params a) g /\ exists p ts, g = Atom p ts
  | EFun _ c l r => unbound (re_params a) c /\ unbound_t (re_params a) l /\ unbound_t (re_params a) r /\ exists f ts, l = App f ts
  | _ => False
  end.
(** The list [gs] has, for every schema and every binding of its parameters, one member standing in the relation [R] to them, and no other member. *)
Definition one_each {A B : Type} (D : domains) (params : A -> list term) (R : A -> list (var * term) -> B -> Prop) (schemas : list A) (gs : list B) : Prop :=
  exists idx, Forall2 (fun ab g => R (fst ab) (snd ab) g) idx gs /\ (forall a b, In (a, b) idx <-> In a schemas /\ binding_for D (params a) b) /\
              (NoDup schemas -> (forall s cs, D s = Some cs -> NoDup cs) -> NoDup idx).
