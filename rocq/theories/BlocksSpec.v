(** Specification of blocksworld: towers of blocks and a hand. Not used by the model. *)
From Coq Require Import Permutation.
From Verif Require Import Base Syntax ModelState Subst Represent Blocks.

(** A world: the towers standing on the table, each listed from its top to its bottom, and the block in the hand. *)
Record world := { towers : list (list string); hand : option string }.
Definition held (w : world) : list string := match hand w with Some x => [x] | None => [] end.
(** Every block is in exactly one place: in one tower, or in the hand. *)
Definition valid (blocks : list string) (w : world) : Prop := Permutation (List.concat (towers w) ++ held w) blocks /\ ~ In [] (towers w).
(** [x] lies directly on [y] in the tower. *)
Definition directly_on (x y : string) (t : list string) : Prop := exists above below, t = above ++ x :: y :: below.
(** What is true in a world. *)
Inductive fact (w : world) : psym -> list term -> Prop :=
| f_on x y t : In t (towers w) -> directly_on x y t -> fact w on [block x; block y]
| f_ontable x above : In (above ++ [x]) (towers w) -> fact w ontable [block x]
| f_clear x below : In (x :: below) (towers w) -> fact w clear [block x]
| f_holding x : hand w = Some x -> fact w holding [block x]
| f_handempty : hand w = None -> fact w handempty [].
(** The state says exactly what is true in the world. *)
Definition describes (m : model) (w : world) : Prop := forall p pt, m_holds m p pt = true <-> fact w p pt.

(** The moves: the towers may be listed in any order. *)
Inductive move : world -> string -> list string -> world -> Prop :=
| m_pick_up w x ts : Permutation (towers w) ([x] :: ts) -> hand w = None -> move w "pick-up" [x] {| towers := ts; hand := Some x |}
| m_put_down w x : hand w = Some x -> move w "put-down" [x] {| towers := [x] :: towers w; hand := None |}
| m_unstack w x y t ts : Permutation (towers w) ((x :: y :: t) :: ts) -> hand w = None -> move w "unstack" [x; y] {| towers := (y :: t) :: ts; hand := Some x |}
| m_stack w x y t ts : Permutation (towers w) ((y :: t) :: ts) -> hand w = Some x -> move w "stack" [x; y] {| towers := (x :: y :: t) :: ts; hand := None |}.
(** Sequences of moves *)
Inductive moves : world -> list (string * list string) -> world -> Prop :=
| ms_nil w : moves w [] w
| ms_cons w a xs w1 plan w2 : move w a xs w1 -> moves w1 plan w2 -> moves w ((a, xs) :: plan) w2.

(** The binding of the parameters x, y to blocks *)
Definition binds (xs : list string) : subst := {| sub_t := combine [vx; vy] (map block xs); sub_f := [] |}.
(** The parameters of the action are bound to the blocks [xs]; the binding may mention anything else. *)
Definition instantiates (a : action) (s : subst) (xs : list string) : Prop := sub_f s = [] /\ map (get_t (sub_t s)) (a_params a) = map (fun x => Some (block x)) xs.
(** Two worlds that differ in the order of the towers only *)
Definition same_world (w w' : world) : Prop := Permutation (towers w) (towers w') /\ hand w = hand w'.
(** [x] stands on [y], a block or the table. *)
Definition placed (w : world) (x y : string) : Prop :=
  (y = "table"%string /\ exists above, In (above ++ [x]) (towers w)) \/ (y <> "table"%string /\ exists t, In t (towers w) /\ directly_on x y t).
(** The world is the one a pattern lays out, and the hand is empty. *)
Definition laid_out (pattern : list (string * string)) (w : world) : Prop := hand w = None /\ forall x y, In (x, y) pattern <-> placed w x y.
