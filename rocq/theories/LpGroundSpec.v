(** Specification vocabulary for grounding with a logic program: what a solver prints, and when two planning problems have the same transitions. *)
From Coq Require Import Ascii.
From Verif Require Import Base Syntax Semantics ModelState ModelText Lang Subst QElim Effects Represent Grounding Asp AspSpec.
#[local] Open Scope string_scope.

(** Identifiers: no character with a meaning in the answer of the solver *)
Definition word_character (c : ascii) : Prop := ~ In c ["("; ")"; ","; "."; " "; ascii_of_nat 10]%char.
Fixpoint word (s : string) : Prop := match s with EmptyString => True | String c s' => word_character c /\ word s' end.
(** "p." or "p(a,b)." on a line of its own *)
Fixpoint comma_separated (l : list string) : string := match l with [] => "" | [x] => x | x :: l' => x ++ "," ++ comma_separated l' end.
Definition atom_text (symbol : string) (args : list string) : string := match args with [] => symbol | _ => symbol ++ "(" ++ comma_separated args ++ ")" end.
Definition atom_line (a : string * list string) : string := atom_text (fst a) (snd a) ++ "." ++ String (ascii_of_nat 10) "".
Fixpoint answer_text (atoms : list (string * list string)) : string := match atoms with [] => "" | a :: l => atom_line a ++ answer_text l end.
Definition words (atoms : list (string * list string)) : Prop := Forall (fun a => word (fst a) /\ Forall word (snd a)) atoms.
(** The answer of a solver: the atoms of the least model, in any order *)
Definition answers (P : list rule) (text : string) : Prop :=
  exists atoms, words atoms /\ (forall s l, In (s, l) atoms <-> derives P s l) /\ text = answer_text atoms.
(** [x] is the name of a constant of sort [s]. *)
Definition names_constant (D : domains) (s : sort) (x : string) : Prop := exists cs c, D s = Some cs /\ In c cs /\ text c = x.
(** Names of sorts and actions that can be told apart after translation (see AspNamesSpec.v) *)
Definition clear_names (l : lang) (p : problem) : Prop :=
  (forall s r, In (s, r) (l_sorts l) -> AspNamesSpec.unambiguous ("type_" ++ s)) /\ (forall a, In a (p_actions p) -> AspNamesSpec.unambiguous ("action_" ++ a_name a)).
(** [x] is the name of the constant [c] of the language. *)
Definition called (l : lang) (x : string) (c : term) : Prop := exists sym s, In (CStr x, (sym, s)) (l_consts l) /\ c = Cst sym s.
