(** Relation algorithms: src/tarski/utils/algorithms.py *)
From Verif Require Import Base ModelState.

Section Algorithms.
(** The elements of the relations; [eqb] is Python's [==] on them. Python sets are duplicate-free lists; the theorems only speak of membership, so
    they do not depend on the iteration order of the sets. *)
Context {A : Type} (eqb : A -> A -> bool).
Definition pair_eqb (p q : A * A) : bool := eqb (fst p) (fst q) && eqb (snd p) (snd q).
Definition smem {B} (eqb : B -> B -> bool) (x : B) (l : list B) : bool := existsb (fun y => eqb y x) l.
(** [a | set(b)] and [set(b)] *)
Fixpoint sunion {B} (eqb : B -> B -> bool) (a b : list B) : list B :=
  match b with [] => a | x :: b' => if smem eqb x a then sunion eqb a b' else sunion eqb (a ++ [x]) b' end.
Definition sof {B} (eqb : B -> B -> bool) (b : list B) : list B := sunion eqb [] b.

(** algorithms.py:8: the generator [(x, w) for x, y in closure for q, w in closure if q == y] *)
Definition compose (r : list (A * A)) : list (A * A) :=
  flat_map (fun xy => flat_map (fun qw => if eqb (fst qw) (snd xy) then [(fst xy, snd qw)] else []) r) r.
(** algorithms.py:7-15, the loop; [fuel] bounds its iterations (the Python loop is unbounded) *)
Fixpoint closure_loop (fuel : nat) (closure : list (A * A)) : res (list (A * A)) :=
  match fuel with
  | O => Err OutOfFuel
  | S n => let until_now := sunion pair_eqb closure (compose closure) in
           if Nat.eqb (List.length until_now) (List.length closure) then Ok closure else closure_loop n until_now
  end.
(** algorithms.py:5-15 [transitive_closure] *)
Definition transitive_closure (fuel : nat) (elements : list (A * A)) : res (list (A * A)) := closure_loop fuel (sof pair_eqb elements).

(** sys.maxsize on a 64-bit platform *)
Definition maxsize : Z := (2 ^ 63 - 1)%Z.
(** algorithms.py:27-29: the entry of [s] in the table of adjacencies *)
Definition adjacent (relation : list (A * A)) (s : A) : list A := flat_map (fun st => if eqb (fst st) s then [snd st] else []) relation.
(** the defaultdict of line 32 *)
Definition dist_of (d : list (A * Z)) (x : A) : Z := match dget eqb d x with Some z => z | None => maxsize end.
(** algorithms.py:34-36. The queue is kept with its right end first: [appendleft] appends here, [pop] takes the head. *)
Fixpoint init_queue (c1s : list A) (d : list (A * Z)) (q : list A) : list (A * Z) * list A :=
  match c1s with [] => (d, q) | o :: c => init_queue c (dset eqb d o 0%Z) (q ++ [o]) end.
(** algorithms.py:42-45 *)
Fixpoint relax (s : A) (through : Z) (ts : list A) (d : list (A * Z)) (q : list A) : list (A * Z) * list A :=
  match ts with
  | [] => (d, q)
  | t :: ts' => if Z.ltb through (dist_of d t) then relax s through ts' (dset eqb d t (dist_of d s + 1)%Z) (q ++ [t]) else relax s through ts' d q
  end.
(** algorithms.py:39-45 *)
Fixpoint bfs_loop (fuel : nat) (relation : list (A * A)) (d : list (A * Z)) (q : list A) : res (list (A * Z)) :=
  match q with
  | [] => Ok d
  | s :: q' => match fuel with
               | O => Err OutOfFuel
               | S n => let (d', q2) := relax s (dist_of d s + 1)%Z (adjacent relation s) d q' in bfs_loop n relation d' q2
               end
  end.
(** [min] of a non-empty iterable *)
Fixpoint min_list (l : list Z) (d : Z) : Z := match l with [] => d | x :: l' => Z.min x (min_list l' d) end.
(** algorithms.py:18-48 [compute_min_distance]; [c1s], [c2s] and [relation] are sets *)
Definition compute_min_distance (fuel : nat) (c1s : list A) (relation : list (A * A)) (c2s : list A) : res Z :=
  if existsb (fun x => smem eqb x c2s) c1s then Ok 0%Z else
  match c1s, c2s, relation with
  | [], _, _ | _, [], _ | _, _, [] => Ok maxsize
  | _, o :: os, _ =>
      let (d, q) := init_queue c1s [] [] in
      let! d' := bfs_loop fuel relation d q in
      Ok (min_list (map (dist_of d') os) (dist_of d' o))
  end.
End Algorithms.
