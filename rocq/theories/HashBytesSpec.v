(** Independent specification: numbers as bytes *)
From Coq Require Import NArith Ascii.
From Verif Require Import Base HashBytes.
#[local] Open Scope Z_scope.

(** The number that bytes stand for, highest first; and in two's complement *)
Definition unsigned (bs : list Z) : Z := fold_left (fun a b => 256 * a + b) bs 0.
Definition signed (bs : list Z) : Z := let m := 2 ^ (8 * Z.of_nat (List.length bs)) in if 2 * unsigned bs <? m then unsigned bs else unsigned bs - m.
Definition byte (b : Z) : Prop := 0 <= b < 256.
(** A number whose digits fill some bytes completely, so that there is no room for a sign *)
Definition no_room (z : Z) : Prop := exists k, 1 <= k /\ (2 ^ (8 * k - 1) <= z < 2 ^ (8 * k) \/ - 2 ^ (8 * k) < z < - 2 ^ (8 * k - 1)).
(** The text of a class; its name has no quotation mark. *)
Definition class_text (q : string) : string := ("<class '" ++ q ++ "'>")%string.
Definition quote : ascii := "'".
Definition no_quote (q : string) : Prop := ~ In quote (list_ascii_of_string q).
Definition number_of (e : helem) : option Z := match e with HInt z | HObject z => Some z | _ => None end.
