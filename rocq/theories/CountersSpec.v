(** Specification vocabulary for the counters problem. Not used by the model. *)
From Verif Require Import Base Syntax ModelState Counters.
#[local] Open Scope string_scope.

(** The state gives the counter [c] the value [vals c]. *)
Definition shows (m : model) (vals : string -> Z) (c : string) : Prop := exists s, m_value m fvalue [counter c] = Ok (Cst (CInt (vals c)) s).
(** The counters increase strictly, in the alphabetical order of their names. *)
Definition increasing (cs : list string) (vals : string -> Z) : Prop := forall c d, In c cs -> In d cs -> String.ltb c d = true -> (vals c < vals d)%Z.
(** What an operator computes on integers *)
Definition op_value (b : bfun) (x y : Z) : option Z := match b with BAdd => Some (x + y)%Z | BSub => Some (x - y)%Z | BMul => Some (x * y)%Z | _ => None end.
