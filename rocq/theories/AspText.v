(** The text of a reachability program: src/tarski/reachability/asp.py:318-324, 395-424 and src/tarski/reachability/clingo_wrapper.py:35-38 *)
From Coq Require Import Ascii.
From Verif Require Import Base Syntax ModelText Asp.
#[local] Open Scope string_scope.

(** asp.py:318-323 [LPAtom.__str__] *)
Definition lp_text (a : lpatom) : string :=
  match lp_infix a, lp_args a with
  | true, x :: y :: _ => x ++ " " ++ lp_sym a ++ " " ++ y
  | _, args => lp_sym a ++ "(" ++ join ", " args ++ ")"
  end.
(** asp.py:418-424 [_print_rule], [_print_body]. A fact (body None) is printed without ":-". The model of the compiler keeps facts as rules with an empty body;
    [fact] says which of the two the call was: lp.rule(head) for the constants and the initial atoms, lp.rule(head, []) e.g. for an action without parameters and preconditions. *)
Definition rule_text (fact : bool) (r : rule) : string :=
  match r_body r, fact with
  | [], true => lp_text (r_head r) ++ "."
  | body, _ => lp_text (r_head r) ++ " :- " ++ join ", " (map lp_text body) ++ "."
  end.
Definition nl : string := String (ascii_of_nat 10) EmptyString.
(** clingo_wrapper.py:36: print(str(r), file=f) for each rule; there are no directives *)
Fixpoint program_text (facts : list bool) (rules : list rule) : string :=
  match rules with
  | [] => ""
  | r :: rules' => rule_text (match facts with b :: _ => b | [] => false end) r ++ nl ++ program_text (tl facts) rules'
  end.
