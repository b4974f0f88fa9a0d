(** The texts of actions: src/tarski/fstrips/action.py:16-26. The names of ground operators (src/tarski/syntax/transform/action_grounding.py:18-19) are in LpGround. *)
From Verif Require Import Base Syntax Represent Grounding ModelText LpGround.
#[local] Open Scope string_scope.

(** action.py:19-21 [ident], :23-26: f"{p.symbol}: {p.sort.name}", joined by "," *)
Definition param_text (v : var) : string := fst v ++ ": " ++ snd v.
Definition action_ident (a : action) : string := a_name a ++ "(" ++ LpGround.join "," (map param_text (param_vars a)) ++ ")".
(** action.py:16-17: actions are ordered by their names, as Python orders texts *)
Fixpoint text_lt (s t : string) : bool :=
  match s, t with
  | _, "" => false
  | "", _ => true
  | String c s', String d t' => if Ascii.eqb c d then text_lt s' t' else Nat.ltb (Ascii.nat_of_ascii c) (Ascii.nat_of_ascii d)
  end.
Definition action_lt (a b : action) : bool := text_lt (a_name a) (a_name b).
