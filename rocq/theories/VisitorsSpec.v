(** Specification vocabulary for searching expressions. *)
From Verif Require Import Base Syntax Visitors.

(** The immediate parts of an expression. The variables after a quantifier are no parts. *)
Definition parts (e : expr) : list expr :=
  match e with
  | XT (App _ ts) => map XT ts
  | XT (Ite c a b) => [XF c; XT a; XT b]
  | XF (Atom _ ts) => map XT ts
  | XF (Comp _ fs) => map XF fs
  | XF (Quant _ _ f) => [XF f]
  | _ => []
  end.
(** The part at a place, a place being the way down to it *)
Fixpoint at_place (p : list nat) (e : expr) : option expr :=
  match p with [] => Some e | i :: p' => match nth_error (parts e) i with Some e' => at_place p' e' | None => None end end.
Definition occurs_at (e target : expr) (p : list nat) : Prop := at_place p e = Some target.
(** No conditional term anywhere *)
Definition no_conditional (e : expr) : Prop := forall p c a b, ~ occurs_at e (XT (Ite c a b)) p.
(** The expressions with a head symbol, a connective or a quantifier *)
Definition searchable (e : expr) : bool := match e with XT (App _ _) | XF (Atom _ _) | XF (Comp _ _) | XF (Quant _ _ _) => true | _ => false end.
(** [g] is reached from [f] through connectives only. *)
Inductive within : formula -> formula -> Prop :=
| within_here f : within f f
| within_part c fs h g : In h fs -> within h g -> within (Comp c fs) g.
