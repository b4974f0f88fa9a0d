(** Specification for temporal actions with resources. *)
From Coq Require Import QArith.
From Verif Require Import Base Syntax ModelState Lang LangSpec Theories TheoriesSpec Ndl.
#[local] Open Scope list_scope.

(** A condition: an atom, a compound formula or truth; not a quantified formula and not falsity *)
Definition condition (f : formula) : Prop := (exists p ts, f = Atom p ts) \/ (exists c fs, f = Comp c fs) \/ f = Top.
(** A Python object as an operand of [==] *)
Definition operand (v : pval) : pexp := match v with PyVal c => PLit c | PyTerm t => PLeaf t end.

Section Spec.
Variable parse : bool -> string -> option Z.
Variable st : tlang.
(** The effects an action can have at a given time: literals, and assignments of terms that can be compared with their values *)
Definition settable (e : effect) : Prop := (exists f v, e = ESetLit f v) \/ (exists t v, e = EAssign (inl t) v /\ compares parse st PEq (PLeaf t) (operand v)).
(** What an effect brings about: a literal with a truth value, or an equation *)
Inductive brings : effect -> key -> Prop :=
| br_literal f v : brings (ESetLit f v) (KLiteral f v)
| br_term t u : brings (EAssign (inl t) (PyTerm u)) (KEquation (Atom (PB PEq) [t; u]))
| br_value t c : brings (EAssign (inl t) (PyVal c)) (KEquation (Atom (PB PEq) [t; Cst c (Theories.sort_of st t)])).
(** [d] is the delay of the last of the effects that bring about [k] *)
Definition last_delay (gs : list given) (k : key) (d : Q) : Prop :=
  exists before e after, gs = before ++ GTimed d e :: after /\ brings e k /\ forall d' e', In (GTimed d' e') after -> ~ brings e' k.
Definition well_formed (i : input) : Prop :=
  condition (i_precondition i) /\ (forall f, i_postcondition i = Some f -> condition f) /\ (forall q, In q (i_requirements i) -> exists d r, q = RTimed d r) /\
  forall g, In g (i_timed i) -> exists d e, g = GTimed d e /\ settable e.
End Spec.
(** The values that are given as Python objects and not as terms *)
Definition values_of (gs : list given) : list cname := flat_map (fun g => match g with GTimed _ (EAssign _ (PyVal c)) => [c] | _ => [] end) gs.
(** The lengths of time an action mentions: how long its resources are needed, and when its effects happen *)
Definition mentioned (i : input) (q : Q) : Prop := (exists d r, In (RTimed d r) (i_requirements i) /\ q = duration r) \/ (exists e, In (GTimed q e) (i_timed i)).
(** The moment at which a resource is free again *)
Definition released (r : resource) : Q := match r with Lock ts td _ | Level ts td _ _ => (ts + td)%Q end.
Definition is_lock (q : requirement) : bool := match q with RTimed _ (Lock _ _ _) => true | _ => false end.
Definition is_level (q : requirement) : bool := match q with RTimed _ (Level _ _ _ _) => true | _ => false end.
