(** Blind search: src/tarski/search/blind.py *)
From Verif Require Import Base.

Section Bfs.
(** The search model (search/model.py:5-18): [goal] is [is_goal], [succ] is the list of successor states produced by [successors]; [eqb] is [==] on states,
    which is also what membership in the Python set [closed] means. Both calls may raise. *)
Context {St : Type} (eqb : St -> St -> bool) (goal : St -> res bool) (succ : St -> res (list St)).

(** What the caller observes: blind.py:64-68 [SearchSpace.complete], :75-79 [SearchStats], and the sequence of states whose successors were requested
    (a call to the search model per expansion). Simplification: nodes keep only their state (parent and action are never read). *)
Record outcome := { iterations : nat; num_goals : nat; nexpansions : nat; complete : bool; expanded : list St }.
Definition mem (x : St) (l : list St) : bool := existsb (fun y => eqb y x) l.

(** blind.py:40-43, the inner loop over the successors *)
Fixpoint push (ss openlist closed : list St) : list St * list St :=
  match ss with
  | [] => (openlist, closed)
  | s :: ss' => if mem s closed then push ss' openlist closed else push ss' (openlist ++ [s]) (s :: closed)
  end.
(** blind.py:35: [0 <= max_expansions <= nexpansions] *)
Definition bound_reached (max_expansions : Z) (n : nat) : bool := (Z.leb 0 max_expansions && Z.leb max_expansions (Z.of_nat n))%bool.

(** blind.py:28-49; [fuel] bounds the iterations of the while loop (the Python loop is unbounded). *)
Fixpoint loop (max_expansions : Z) (fuel : nat) (openlist closed : list St) (o : outcome) : res outcome :=
  match openlist with
  | [] => Ok {| iterations := iterations o; num_goals := num_goals o; nexpansions := nexpansions o; complete := true; expanded := expanded o |}
  | node :: openlist' =>
      match fuel with
      | O => Err OutOfFuel
      | S fuel' =>
          let! g := goal node in
          let it := S (iterations o) in
          let ng := if g then S (num_goals o) else num_goals o in
          if bound_reached max_expansions (nexpansions o) then
            Ok {| iterations := it; num_goals := ng; nexpansions := nexpansions o; complete := complete o; expanded := expanded o |}
          else
            let! ss := succ node in
            let '(open2, closed2) := push ss openlist' closed in
            loop max_expansions fuel' open2 closed2
              {| iterations := it; num_goals := ng; nexpansions := S (nexpansions o); complete := complete o; expanded := expanded o ++ [node] |}
      end
  end.
(** blind.py:19-26 *)
Definition search (max_expansions : Z) (fuel : nat) (root : St) : res outcome :=
  loop max_expansions fuel [root] [root] {| iterations := 0; num_goals := 0; nexpansions := 0; complete := false; expanded := [] |}.
End Bfs.
Arguments outcome : clear implicits.

(** * Specification *)
Section Spec.
Context {St : Type} (eqb : St -> St -> bool) (succ : St -> res (list St)).
(** Reachable in [n] steps *)
Inductive reach_in (root : St) : nat -> St -> Prop :=
| reach_root : reach_in root 0 root
| reach_step n s l s' : reach_in root n s -> succ s = Ok l -> In s' l -> reach_in root (S n) s'.
Definition reachable (root s : St) : Prop := exists n, reach_in root n s.
(** The distance of a state: the length of a shortest path to it (or to an equal state) *)
Definition distance (root s : St) (n : nat) : Prop :=
  (exists s', eqb s' s = true /\ reach_in root n s') /\ forall n' s', eqb s' s = true -> reach_in root n' s' -> n <= n'.
(** [==] is an equivalence and equal states have equal successors. *)
Definition equivalence : Prop := (forall a, eqb a a = true) /\ (forall a b, eqb a b = true -> eqb b a = true) /\ (forall a b c, eqb a b = true -> eqb b c = true -> eqb a c = true).
Definition congruent (root : St) : Prop := forall a b la lb s, reachable root a -> reachable root b -> eqb a b = true -> succ a = Ok la -> succ b = Ok lb -> In s lb -> exists s', In s' la /\ eqb s' s = true.
(** No two members of a list are equal. *)
Definition distinct (l : list St) : Prop := ForallOrdPairs (fun a b => eqb a b = false) l.
(** At most [N] different states are reachable. *)
Definition finitely_many (root : St) (N : nat) : Prop := forall l, distinct l -> (forall x, In x l -> reachable root x) -> List.length l <= N.
End Spec.
