(** Hypergraph acyclicity: src/tarski/analysis/csp.py *)
From Verif Require Import Base ModelState Algorithms.

Section Csp.
(** Nodes of hypergraphs; [eqb] is Python's [==] on them. *)
Context {A : Type} (eqb : A -> A -> bool).
(** An edge is a frozenset: a duplicate-free list of nodes. Model artefact: each edge carries a number, the position in the given hypergraph of the first
    tuple it was built from. *)
Definition hedge := (nat * list A)%type.
Definition sdiff (a b : list A) : list A := filter (fun x => negb (smem eqb x b)) a.
Definition same_set (a b : list A) : bool := forallb (fun x => smem eqb x b) a && forallb (fun x => smem eqb x a) b.
(** csp.py:82 [set(frozenset(x) for x in hypergraph)]: equal frozensets are merged *)
Fixpoint distinct_edges (seen es : list hedge) : list hedge :=
  match es with
  | [] => seen
  | e :: es' => if existsb (fun s => same_set (snd s) (snd e)) seen then distinct_edges seen es' else distinct_edges (seen ++ [e]) es'
  end.
Definition make_edges (hypergraph : list (list A)) : list hedge :=
  distinct_edges [] (map (fun x => (fst x, sof eqb (snd x))) (combine (seq 0 (List.length hypergraph)) hypergraph)).

(** csp.py:87-90: the defaultdict [node_counts] *)
Definition cnt (d : list (A * Z)) (n : A) : Z := match dget eqb d n with Some z => z | None => 0%Z end.
Definition bump (by_ : Z) (d : list (A * Z)) (f : list A) : list (A * Z) := fold_left (fun d n => dset eqb d n (cnt d n + by_)%Z) f d.
Definition node_counts (edges : list hedge) : list (A * Z) := fold_left (fun d e => bump 1 d (snd e)) edges [].

(** The order in which a Python set is iterated is unspecified and may change whenever the set does: [order k] is the order of the [k]-th call. *)
Variable order : nat -> list hedge -> list hedge.
Definition remove_edge (f : hedge) (edges : list hedge) (counts : list (A * Z)) : list hedge * list (A * Z) :=
  (filter (fun e => negb (Nat.eqb (fst e) (fst f))) edges, bump (-1) counts (snd f)).
(** [itertools.permutations(edges, 2)] *)
Definition pairs (es : list hedge) : list (hedge * hedge) := filter (fun p => negb (Nat.eqb (fst (fst p)) (fst (snd p)))) (list_prod es es).
(** csp.py:40-74 [_remove_ear_if_exists]; [None]: False is returned *)
Definition remove_ear (k : nat) (edges : list hedge) (counts : list (A * Z)) : option (list hedge * list (A * Z)) :=
  let es := order k edges in
  match find (fun f => forallb (fun n => Z.eqb (cnt counts n) 1) (snd f)) es with
  | Some f => Some (remove_edge f edges counts)
  | None =>
      match find (fun p => forallb (fun n => Z.eqb (cnt counts n) 1) (sdiff (snd (fst p)) (snd (snd p)))) (pairs es) with
      | Some p => Some (remove_edge (fst p) edges counts)
      | None => None
      end
  end.
(** csp.py:93-94; [fuel] bounds the loop, see the theorem *)
Fixpoint gyo (fuel k : nat) (edges : list hedge) (counts : list (A * Z)) : res (list hedge) :=
  match fuel with
  | O => Err OutOfFuel
  | S n => match remove_ear k edges counts with None => Ok edges | Some (e, c) => gyo n (S k) e c end
  end.
(** csp.py:77-96 [check_hypergraph_acyclicity] *)
Definition check_hypergraph_acyclicity (hypergraph : list (list A)) : res bool :=
  let nodes := sof eqb (List.concat hypergraph) in
  let edges := make_edges hypergraph in
  if Nat.leb (List.length edges) 1 || Nat.leb (List.length nodes) 1 then Ok true
  else let! e := gyo (S (List.length edges)) 0 edges (node_counts edges) in Ok (Nat.eqb (List.length e) 0).
End Csp.
