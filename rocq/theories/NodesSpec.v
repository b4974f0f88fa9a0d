(** Specification for node collection: what the sub-expressions of an expression are. *)
From Coq Require Import Relations.
From Verif Require Import Base Syntax HashEq.

(** [child c e]: [c] is an immediate constituent of [e] (the variables of a quantified formula are constituents). *)
Inductive child : href -> href -> Prop :=
| C_app f ts t : In t ts -> child (RTerm t) (RTerm (HApp f ts))
| C_cond c a b : child (RFormula c) (RTerm (HIte c a b))
| C_then c a b : child (RTerm a) (RTerm (HIte c a b))
| C_else c a b : child (RTerm b) (RTerm (HIte c a b))
| C_atom p ts t : In t ts -> child (RTerm t) (RFormula (HAtom p ts))
| C_comp c k fs g : In g fs -> child (RFormula g) (RFormula (HComp c k fs))
| C_bound q vs g v : In v vs -> child (RTerm v) (RFormula (HQuant q vs g))
| C_body q vs g : child (RFormula g) (RFormula (HQuant q vs g)).
Definition subexpression : href -> href -> Prop := clos_refl_trans _ child.

(** The expression with every container of sub-expressions replaced by a list; nothing else differs. *)
Fixpoint listed_t (t : hterm) : hterm :=
  match t with
  | HVar x s => HVar x s
  | HCst n s => HCst n s
  | HApp f ts => HApp f (map listed_t ts)
  | HIte c a b => HIte (listed_f c) (listed_t a) (listed_t b)
  end
with listed_f (f : hformula) : hformula :=
  match f with
  | HTop => HTop
  | HBot => HBot
  | HAtom p ts => HAtom p (map listed_t ts)
  | HComp c _ fs => HComp c false (map listed_f fs)
  | HQuant q vs g => HQuant q (map listed_t vs) (listed_f g)
  end.
Definition listed (e : href) : href := match e with RTerm t => RTerm (listed_t t) | RFormula f => RFormula (listed_f f) end.
