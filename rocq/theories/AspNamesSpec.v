(** Specification vocabulary for the translation of names. Not used by the model. *)
From Verif Require Import Base Asp.
#[local] Open Scope string_scope.

Definition contains (sub s : string) : Prop := exists a b, s = a ++ sub ++ b.
(** Names for which no other name can be confused with the translation: those with a hyphen, and those without two consecutive underscores *)
Definition unambiguous (n : string) : Prop := contains "-" n \/ ~ contains "__" n.
(** The name that is translated: the prefix, an underscore, the name; only the name when the prefix is empty *)
Definition full_name (call : string * string) : string := match snd call with EmptyString => fst call | _ => snd call ++ "_" ++ fst call end.
(** A history of calls normalize(name, prefix); a call that raises leaves the translator as it was. *)
Definition call_normalize (t : trans) (call : string * string) : res string * trans :=
  match normalize t (fst call) (snd call) with Ok (s, t') => (Ok s, t') | Err e => (Err e, t) end.
Inductive translates : list (string * string) -> trans -> list (res string) -> trans -> Prop :=
| tr_nil t : translates [] t [] t
| tr_cons call calls t r t1 rs t2 : call_normalize t call = (r, t1) -> translates calls t1 rs t2 -> translates (call :: calls) t (r :: rs) t2.
