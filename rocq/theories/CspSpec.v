(** Join trees *)
From Coq Require Export Relation_Operators.
From Verif Require Import Base.

(** A hypergraph is a list of hyperedges (lists of nodes); the hyperedges are referred to by their numbers. *)
Definition numbered {A} (hypergraph : list (list A)) : list (nat * list A) := combine (seq 0 (List.length hypergraph)) hypergraph.
Section JoinTree.
Context {A : Type} (F : list (nat * list A)).
Definition ids : list nat := map fst F.
(** The node [v] belongs to hyperedge number [i]. *)
Definition holds (v : A) (i : nat) : Prop := exists e, In (i, e) F /\ In v e.
(** [i] and [j] are linked by a path of the graph [T] that only visits vertices satisfying [P]. *)
Definition joined (T : list (nat * nat)) (P : nat -> Prop) (i j : nat) : Prop := (In (i, j) T \/ In (j, i) T) /\ P i /\ P j.
Definition linked (T : list (nat * nat)) (P : nat -> Prop) : nat -> nat -> Prop := clos_refl_trans nat (joined T P).
(** [T] is a join tree: a tree whose vertices are the hyperedges (a connected graph with one link less than vertices) in which the hyperedges that contain
    a given node form a connected part. *)
Record join_tree (T : list (nat * nat)) : Prop := {
  jt_vertices : forall i j, In (i, j) T -> In i ids /\ In j ids;
  jt_count : List.length T = List.length F - 1;
  jt_connected : forall i j, In i ids -> In j ids -> linked T (fun _ => True) i j;
  jt_running : forall v i j, holds v i -> holds v j -> linked T (holds v) i j
}.
End JoinTree.
(** alpha-acyclicity *)
Definition acyclic {A} (hypergraph : list (list A)) : Prop := exists T, join_tree (numbered hypergraph) T.
