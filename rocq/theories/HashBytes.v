(** Hashes over bytes: src/tarski/utils/hashing.py, which the description logic uses (src/tarski/dl/concepts.py:17, 79, 102, ..., src/tarski/dl/features.py:87, 123, ...). *)
From Coq Require Import NArith Ascii.
From Verif Require Import Base.
#[local] Open Scope Z_scope.

(** [int.bit_length]: the number of binary digits of the absolute value *)
Definition bit_length (z : Z) : Z := if z =? 0 then 0 else Z.log2 (Z.abs z) + 1.
(** The last [n] bytes of the two's complement of [z], the highest first *)
Fixpoint low_bytes (n : nat) (z : Z) : list Z := match n with O => [] | S n' => (z / 2 ^ (8 * Z.of_nat n')) mod 256 :: low_bytes n' z end.
(** [int.to_bytes(n, "big", signed=True)]; [None] is OverflowError. *)
Definition to_bytes_signed (n : nat) (z : Z) : option (list Z) :=
  if (n =? 0)%nat then (if z =? 0 then Some [] else None)
  else if (- 2 ^ (8 * Z.of_nat n - 1) <=? z) && (z <? 2 ^ (8 * Z.of_nat n - 1)) then Some (low_bytes n z) else None.
(** hashing.py:5-6 [int_to_bytes] *)
Definition int_to_bytes (z : Z) : option (list Z) :=
  match to_bytes_signed (Z.to_nat ((bit_length z + 7) / 8)) z with Some [] => Some [0] | r => r end.

(** The elements of the iterable (hashing.py:11-25): text, numbers, classes by their text, and other objects, of which only [object.__hash__], which stands for their identity, is used. Everything
    has an attribute [__hash__], so that the last branch is not reached. Simplification: texts are ASCII. *)
Inductive helem : Set := HText (s : string) | HInt (z : Z) | HClass (s : string) | HObject (identity : Z).
Definition text_bytes (s : string) : list Z := map (fun c => Z.of_N (N_of_ascii c)) (list_ascii_of_string s).
Definition elem_bytes (e : helem) : option (list Z) := match e with HText s | HClass s => Some (text_bytes s) | HInt z | HObject z => int_to_bytes z end.
(** What [h.update] has received; [None]: OverflowError *)
Fixpoint all_bytes (es : list helem) : option (list Z) :=
  match es with
  | [] => Some []
  | e :: r => match elem_bytes e with None => None | Some b => match all_bytes r with None => None | Some bs => Some (b ++ bs)%list end end
  end.
Section Hash.
(** SHA-256, as a number, and [sys.hash_info.width] *)
Variable sha256 : list Z -> Z.
Variable width : Z.
(** hashing.py:9-26 [consistent_hash] *)
Definition consistent_hash (es : list helem) : option Z := match all_bytes es with None => None | Some bs => Some (Z.land (sha256 bs) (2 ^ width - 1)) end.
End Hash.
