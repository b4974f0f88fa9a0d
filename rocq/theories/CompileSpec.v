(** Specification vocabulary for the compilation of negated preconditions. Not used by the model. *)
From Verif Require Import Base Syntax ModelState Eval Subst SubstSpec SubstProofs QElim QElimProofs Effects ProgressSpec Represent RepresentSpec.

(** The conjuncts of nested conjunctions, from left to right *)
Fixpoint conjuncts (f : formula) : list formula := match f with Comp And fs => flat_map conjuncts fs | _ => [f] end.
(** The arguments are objects of the given sorts. *)
Definition in_domains (D : domains) (ss : list sort) (ts : list term) : Prop := Forall2 (fun t s => exists cs, D s = Some cs /\ In t cs) ts ss.
(** Objects are constants, of a sort below the one they are enumerated for. *)
Definition typed_domains (D : domains) (sub : sort -> sort -> bool) : Prop := forall s cs t, D s = Some cs -> In t cs -> exists c r, t = Cst c r /\ sub r s = true.
(** Negated conjuncts over user predicates are about objects of the declared sorts. *)
Definition negated_in_domain (D : domains) (f : formula) : Prop := forall n ss ts, In (Comp Not [Atom (PU n ss) ts]) (conjuncts f) -> in_domains D ss ts.
(** A conjunct is an atom, or the negation of a built-in atom. *)
Definition no_negated_user_atom (f : formula) : Prop := forall l, In l (conjuncts f) -> (exists p ts, l = Atom p ts) \/ (exists b ts, l = Comp Not [Atom (PB b) ts]).
(** The names of the user predicates of [f] are among [names]. *)
Definition known (names : list string) (f : formula) : Prop := forall n ss, In (PU n ss) (f_preds f) -> In n names.
(** [m'] is [m] plus the complement predicates [negs]: q is true of exactly the objects p is false of. *)
Definition complemented (D : domains) (negs : list (psym * psym)) (m m' : model) : Prop :=
  (forall p pt, ~ In p (map snd negs) -> m_holds m' p pt = m_holds m p pt) /\
  (forall f pt, m_value m' f pt = m_value m f pt) /\
  (forall p q ss pt, In (p, q) negs -> (exists n, p = PU n ss) -> in_domains D ss pt -> m_holds m' q pt = negb (m_holds m p pt)).
(** Adds and deletes of atoms about objects of the declared sorts *)
Definition domain_effect (D : domains) (e : effect) : Prop := exists c n ss ts, (e = EAdd c (Atom (PU n ss) ts) \/ e = EDel c (Atom (PU n ss) ts)) /\ in_domains D ss ts.
(** No condition mentions a predicate that the effects change. *)
Definition undisturbed (effs : list effect) : Prop := forall e e' p, In e effs -> In e' effs -> In p (writes_p e) -> ~ In p (f_preds (econd e')).
(** A condition is absent or a well-formed conjunction of literals. *)
Definition plain_condition (c : formula) : Prop := c = Top \/ (wf c = true /\ conjunction_of literal c = true).
(** Preconditions are conjunctions of literals, the language of the problem ([names]) has all its predicates. *)
Definition plain_action (names : list string) (a : action) : Prop :=
  wf (a_pre a) = true /\ conjunction_of literal (a_pre a) = true /\ known names (a_pre a) /\
  Forall (fun e => plain_condition (econd e) /\ known names (econd e)) (a_effs a) /\
  forall e n ss, In e (a_effs a) -> In (PU n ss) (writes_p e) -> In n names.
(** A step of a plan: an action name and constants for its parameters such that the ground conditions and effects are about objects of the declared
    sorts, no condition is about a predicate that the effects change, and no atom is both added and deleted. *)
Definition regular_step (D : domains) (acts : list action) (st : string * subst) : Prop :=
  (exists vs, snd st = of_vars vs /\ const_subst vs) /\
  forall a pre effs, In a acts -> a_name a = fst st -> ground_schema a (snd st) = Ok (pre, effs) ->
    negated_in_domain D pre /\ (forall e, In e effs -> negated_in_domain D (econd e) /\ domain_effect D e) /\ undisturbed effs /\ forall m, conflict_free m effs.
