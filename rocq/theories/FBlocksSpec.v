(** Specification vocabulary for the functional blocksworld. Not used by the model. *)
From Coq Require Import Permutation.
From Verif Require Import Base Syntax ModelState Eval Subst Effects Represent Blocks FBlocks.
#[local] Open Scope string_scope.
#[local] Open Scope list_scope.

(** Blocks are places. *)
Definition places_typed (sub : sort -> sort -> bool) : Prop := sub block_sort block_sort = true /\ sub block_sort place_sort = true /\ sub place_sort place_sort = true.
(** A pattern says for each block, once, where it is. *)
Definition lays_out (n : nat) (pat : list (string * string)) : Prop := Permutation (map fst pat) (block_names n) /\ Forall (fun xy => In (snd xy) (place_names n)) pat.
(** Nothing is on the place; the table is always clear. *)
Definition clear_in (pat : list (string * string)) (z : string) : Prop := z = "table" \/ ~ In z (map snd pat).
(** A pattern in an order in which the towers can be built: each block is put on the table, or on a block that is there already and has nothing on it. *)
Inductive stacking : list (string * string) -> Prop :=
| st_nil : stacking []
| st_put pat x y : stacking pat -> ~ In x (map fst pat) -> y = "table" \/ In y (map fst pat) /\ ~ In y (map snd pat) -> stacking (pat ++ [(x, y)]).
(** The blocks can stand like this. *)
Definition physical (pat : list (string * string)) : Prop := exists p, Permutation p pat /\ stacking p.
(** The pattern that is used: a random one (from a permutation of the blocks), or the one the user has given. *)
Definition chosen (n : nat) (l : layout) (pat : list (string * string)) : Prop :=
  (exists cl, pattern_of n l = Ok (cl, pat)) /\ match l with Random bs _ => Permutation bs (block_names n) | Given _ => lays_out n pat end.

(** What a state says: where the blocks are, and what is clear *)
Definition says (n : nat) (m : model) (at_ : string -> string) (free : string -> Prop) : Prop :=
  (forall x, In x (block_names n) -> m_value m floc [fplace x] = Ok (fplace (at_ x))) /\ (forall z, In z (place_names n) -> m_holds m fclear [fplace z] = true <-> free z).

(** Plans: which block is moved to which place. *)
Definition bind_move (x y : string) : subst := {| sub_t := [(bx, fplace x); (py, fplace y)]; sub_f := [] |}.
Definition legal (n : nat) (plan : list (string * string)) : Prop := Forall (fun xy => In (fst xy) (block_names n) /\ In (snd xy) (place_names n)) plan.
Inductive frun (sub : sort -> sort -> bool) : fstate -> list (string * string) -> fstate -> Prop :=
| fr_nil st : frun sub st [] st
| fr_step st x y pre effs st1 plan st2 : ground_schema fmove_action (bind_move x y) = Ok (pre, effs) -> is_applicable (fs_model st) pre = Ok true ->
    fprogress sub st effs = Ok st1 -> frun sub st1 plan st2 -> frun sub st ((x, y) :: plan) st2.
(** The state in which a search starts *)
Definition first_state (p : problem) : fstate := {| fs_model := p_init p; fs_none := [] |}.
