(** Textbook semantics of the description logic. Not used by the model (only the syntax of concepts and roles, and the type of interpretations, are shared). *)
From Coq Require Export Relation_Operators.
From Verif Require Import Base Syntax Dl.
#[local] Open Scope string_scope.

Section Spec.
Context {A : Type} (I : interp A).
(** The set denoted by a concept, the relation denoted by a role. Star is the (irreflexive) transitive closure. *)
Fixpoint cden (c : concept) (x : A) : Prop :=
  match c with
  | CTop _ => In x (i_universe I)
  | CBot _ => False
  | CNominal n _ => In x (i_nominal I n)
  | CPrim g n _ => In x (i_concept I g n)
  | CNot c _ => In x (i_universe I) /\ ~ cden c x
  | CAnd c1 c2 _ => cden c1 x /\ cden c2 x
  | COr c1 c2 _ => cden c1 x \/ cden c2 x
  | CExists r c => exists y, rden r x y /\ cden c y
  | CForall r c => In x (i_universe I) /\ forall y, rden r x y -> cden c y
  | CEqual r1 r2 _ => In x (i_universe I) /\ forall y, rden r1 x y <-> rden r2 x y
  end
with rden (r : role) (x y : A) : Prop :=
  match r with
  | RPrim g n _ _ => In (x, y) (i_role I g n)
  | RInverse r => rden r y x
  | RStar r => clos_trans A (rden r) x y
  | RComp r1 r2 => exists z, rden r1 x z /\ rden r2 z y
  | RRestrict r c => rden r x y /\ cden c y
  end.
(** The universe and the primitive denotations are finite sets over the universe. *)
Definition closed : Prop :=
  NoDup (i_universe I) /\
  (forall n, NoDup (i_nominal I n) /\ incl (i_nominal I n) (i_universe I)) /\
  (forall g n, NoDup (i_concept I g n) /\ incl (i_concept I g n) (i_universe I)) /\
  (forall g n, NoDup (i_role I g n) /\ forall x y, In (x, y) (i_role I g n) -> In x (i_universe I) /\ In y (i_universe I)).
(** In every composition inside the expression the second role is functional in [I]. *)
Definition functional (r : role) : Prop := forall x y z, rden r x y -> rden r x z -> y = z.
Fixpoint c_compositions_functional (c : concept) : Prop :=
  match c with
  | CTop _ | CBot _ | CNominal _ _ | CPrim _ _ _ => True
  | CNot c _ => c_compositions_functional c
  | CAnd c1 c2 _ | COr c1 c2 _ => c_compositions_functional c1 /\ c_compositions_functional c2
  | CExists r c | CForall r c => r_compositions_functional r /\ c_compositions_functional c
  | CEqual r1 r2 _ => r_compositions_functional r1 /\ r_compositions_functional r2
  end
with r_compositions_functional (r : role) : Prop :=
  match r with
  | RPrim _ _ _ _ => True
  | RInverse r | RStar r => r_compositions_functional r
  | RComp r1 r2 => r_compositions_functional r1 /\ r_compositions_functional r2 /\ functional r2
  | RRestrict r c => r_compositions_functional r /\ c_compositions_functional c
  end.

(** Sorted interpretations: [objs s] are the objects of sort [s]; [sub] is the subsort relation of a tree of sorts with root "object": two sorts that share an object are comparable. *)
Definition sorted (sub : sort -> sort -> bool) (objs : sort -> A -> Prop) : Prop :=
  (forall s t x, sub s t = true -> objs s x -> objs t x) /\
  (forall s t x, objs s x -> objs t x -> sub s t = true \/ sub t s = true).
(** The primitives of the expression respect their sorts. *)
Fixpoint c_well_sorted (objs : sort -> A -> Prop) (c : concept) : Prop :=
  match c with
  | CTop s => forall x, In x (i_universe I) -> objs s x
  | CBot _ => True
  | CNominal n s => forall x, In x (i_nominal I n) -> objs s x
  | CPrim g n s => forall x, In x (i_concept I g n) -> objs s x
  | CNot c s => c_well_sorted objs c /\ forall x, In x (i_universe I) -> objs s x
  | CAnd c1 c2 s => c_well_sorted objs c1 /\ c_well_sorted objs c2 /\ (s = csort c1 \/ s = csort c2)
  | COr c1 c2 _ => c_well_sorted objs c1 /\ c_well_sorted objs c2
  | CExists r c | CForall r c => r_well_sorted objs r /\ c_well_sorted objs c
  | CEqual r1 r2 _ => r_well_sorted objs r1 /\ r_well_sorted objs r2
  end
with r_well_sorted (objs : sort -> A -> Prop) (r : role) : Prop :=
  match r with
  | RPrim g n s1 s2 => forall x y, In (x, y) (i_role I g n) -> objs s1 x /\ objs s2 y
  | RInverse r => r_well_sorted objs r
  | RStar r => r_well_sorted objs r
  | RComp r1 r2 => r_well_sorted objs r1 /\ r_well_sorted objs r2
  | RRestrict r c => r_well_sorted objs r /\ c_well_sorted objs c
  end.
End Spec.
(** The concept is not an Or, Forall or Equal concept, nor a conjunction with such an operand: only then does its [sort] attribute bound its denotation. *)
Fixpoint sort_bounded (c : concept) : bool := match c with COr _ _ _ | CForall _ _ | CEqual _ _ _ => false | CAnd c1 c2 _ => sort_bounded c1 && sort_bounded c2 | _ => true end.

(** Two concepts (roles) denote the same set (relation); a concept (role) denotes nothing. *)
Definition c_same {A} (I : interp A) (c d : concept) : Prop := forall x, cden I c x <-> cden I d x.
Definition r_same {A} (I : interp A) (r q : role) : Prop := forall x y, rden I r x y <-> rden I q x y.
Definition c_empty {A} (I : interp A) (c : concept) : Prop := forall x, ~ cden I c x.
Definition r_empty {A} (I : interp A) (r : role) : Prop := forall x y, ~ rden I r x y.
(** The number of composition roles in an expression *)
Fixpoint c_ncomp (c : concept) : nat :=
  match c with
  | CTop _ | CBot _ | CNominal _ _ | CPrim _ _ _ => 0
  | CNot c _ => c_ncomp c
  | CAnd c1 c2 _ | COr c1 c2 _ => c_ncomp c1 + c_ncomp c2
  | CExists r c | CForall r c => r_ncomp r + c_ncomp c
  | CEqual r1 r2 _ => r_ncomp r1 + r_ncomp r2
  end
with r_ncomp (r : role) : nat :=
  match r with
  | RPrim _ _ _ _ => 0
  | RInverse r | RStar r => r_ncomp r
  | RComp r1 r2 => S (r_ncomp r1 + r_ncomp r2)
  | RRestrict r c => r_ncomp r + c_ncomp c
  end.
(** The nodes that count for the size of an expression *)
Definition counts (e : element) : bool := match e with EC (CTop _) | EC (CBot _) => false | _ => true end.
