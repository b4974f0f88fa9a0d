(** Independent specification: names without the signs that separate the parts of the text of an action or operator *)
From Coq Require Import Ascii.
From Verif Require Import Base.
#[local] Open Scope string_scope.
Definition without (signs : list ascii) (s : string) : Prop := forall c, In c (list_ascii_of_string s) -> ~ In c signs.
(** names of actions, of constants, of variables and sorts *)
Definition action_name_ok (s : string) : Prop := without ["("%char] s.
Definition constant_name_ok (s : string) : Prop := s <> "" /\ without [","%char; ")"%char] s.
Definition variable_name_ok (s : string) : Prop := without [":"%char; ","%char; ")"%char] s.
