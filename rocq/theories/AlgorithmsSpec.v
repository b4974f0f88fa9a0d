(** Relations, paths and distances *)
From Coq Require Export Relation_Operators.
From Verif Require Import Base.

(** The relation of a list of pairs; its transitive closure is the standard library's [clos_trans]. *)
Definition rel_of {A} (r : list (A * A)) : A -> A -> Prop := fun x y => In (x, y) r.
(** [path r n x y]: there is a path of [n] edges from [x] to [y]. *)
Inductive path {A} (r : list (A * A)) : nat -> A -> A -> Prop :=
| path_nil x : path r 0 x x
| path_cons n x y z : In (x, y) r -> path r n y z -> path r (S n) x z.
(** A path of [n] edges from some element of [c1s] to some element of [c2s] *)
Definition connects {A} (r : list (A * A)) (c1s c2s : list A) (n : nat) : Prop := exists x y, In x c1s /\ In y c2s /\ path r n x y.
(** [eqb] decides equality. *)
Definition decides {A} (eqb : A -> A -> bool) : Prop := forall a b, eqb a b = true <-> a = b.
