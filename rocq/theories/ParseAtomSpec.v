(** Specification vocabulary for reading atoms. Not used by the model. *)
From Coq Require Import Ascii.
From Verif Require Import Base Syntax ModelState Lang LangSpec FormulaText.
#[local] Open Scope string_scope.

Fixpoint every (P : ascii -> Prop) (s : string) : Prop := match s with "" => True | String c r => P c /\ every P r end.
Definition begins (P : ascii -> Prop) (s : string) : Prop := match s with "" => False | String c _ => P c end.
Fixpoint ends (P : ascii -> Prop) (s : string) : Prop := match s with "" => False | String c r => match r with "" => P c | _ => ends P r end end.
(** White space in ASCII: tab, line feed, vertical tab, form feed, carriage return, the four separators, space *)
Definition white (c : ascii) : Prop := In (nat_of_ascii c) [9; 10; 11; 12; 13; 28; 29; 30; 31; 32].
(** [x] is the word [w] with white space around it. *)
Definition padded (w x : string) : Prop := ~ begins white w /\ ~ ends white w /\ exists a b, x = a ++ w ++ b /\ every white a /\ every white b.
(** the same text, with a comma for each opening parenthesis *)
Inductive opened : string -> string -> Prop :=
| opened_nil : opened "" ""
| opened_paren s s' : opened s s' -> opened (String "(" s) (String "," s')
| opened_other c s s' : c <> "("%char -> opened s s' -> opened (String c s) (String c s').
Fixpoint separated (parts : list string) : string := match parts with [] => "" | [x] => x | x :: r => x ++ "," ++ separated r end.
(** The text [s] is a list of words, with white space around them, a comma or an opening parenthesis between two of them, and any number of closing parentheses at the end. *)
Definition reads (s : string) (words : list string) : Prop :=
  exists s' parts closing, opened s s' /\ s' = separated parts ++ closing /\ every (fun c => c = ")"%char) closing /\ ~ ends (fun c => c = ")"%char) (separated parts) /\
    parts <> [] /\ Forall (every (fun c => c <> ","%char)) parts /\ Forall2 padded words parts.
(** The constant that the language has under a name *)
Definition constant_named (l : lang) (c : string) (t : term) : Prop := exists sym s, In (CStr c, (sym, s)) (l_consts l) /\ t = Cst sym s.
(** A constant of the sort or of a sort below *)
Definition conforms (l : lang) (t : term) (s : sort) : Prop := exists c r, t = Cst c r /\ le l r s.
(** A word without white space, commas and parentheses *)
Definition word (s : string) : Prop := every (fun c => ~ white c /\ c <> ","%char /\ c <> "("%char /\ c <> ")"%char) s.
(** A constant that the language has under the name that is printed for it *)
Definition under_its_text (l : lang) (t : term) : Prop := exists c, constant_named l c t /\ term_text t = c /\ word c /\ c <> "".
