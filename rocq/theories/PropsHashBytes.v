(** C85: hashes over bytes (utils/hashing.py) *)
From Coq Require Import NArith Ascii Lia.
From Verif Require Import Base HashBytes HashBytesSpec.
#[local] Open Scope Z_scope.

Lemma pow_pos k : 0 <= k -> 0 < 2 ^ k. Proof. intros. apply Z.pow_pos_nonneg; lia. Qed.
Lemma pow8 n : 2 ^ (8 * Z.of_nat (S n)) = 2 ^ (8 * Z.of_nat n) * 256.
Proof. replace (8 * Z.of_nat (S n)) with (8 * Z.of_nat n + 8) by lia. rewrite Z.pow_add_r by lia. reflexivity. Qed.
Lemma low_unsigned n z : forall a, fold_left (fun a b => 256 * a + b) (low_bytes n z) a = a * 2 ^ (8 * Z.of_nat n) + z mod 2 ^ (8 * Z.of_nat n).
Proof.
  induction n as [|n IH]; intros a.
  - cbn [low_bytes fold_left]. replace (2 ^ (8 * Z.of_nat 0)) with 1 by reflexivity. rewrite Z.mod_1_r. lia.
  - cbn [low_bytes fold_left]. rewrite IH, pow8. assert (P := pow_pos (8 * Z.of_nat n)). rewrite Z.rem_mul_r by lia. lia.
Qed.
Lemma low_length n z : List.length (low_bytes n z) = n.
Proof. induction n as [|n IH]; cbn [low_bytes List.length]; congruence. Qed.
Lemma low_byte n z : Forall byte (low_bytes n z).
Proof. induction n as [|n IH]; cbn [low_bytes]; constructor; [unfold byte; apply Z.mod_pos_bound; lia|exact IH]. Qed.
Lemma low_signed n z : - 2 ^ (8 * Z.of_nat n - 1) <= z < 2 ^ (8 * Z.of_nat n - 1) -> (0 < n)%nat -> signed (low_bytes n z) = z.
Proof.
  intros H N. unfold signed, unsigned. rewrite low_unsigned, low_length. cbn zeta. rewrite Z.mul_0_l, Z.add_0_l.
  assert (E : 2 ^ (8 * Z.of_nat n) = 2 * 2 ^ (8 * Z.of_nat n - 1)). { rewrite <- Z.pow_succ_r by lia. f_equal. lia. }
  set (h := 2 ^ (8 * Z.of_nat n - 1)) in *. set (m := 2 ^ (8 * Z.of_nat n)) in *. assert (0 < h) by (unfold h; apply pow_pos; lia).
  destruct (Z.ltb_spec z 0) as [L|L].
  - assert (Q : z mod m = z + m) by (symmetry; apply Z.mod_unique with (-1); lia). rewrite Q. destruct (Z.ltb_spec (2 * (z + m)) m); lia.
  - rewrite Z.mod_small by lia. destruct (Z.ltb_spec (2 * z) m); lia.
Qed.
(** The number of bytes, from the digits *)
Lemma digits z : z <> 0 -> 2 ^ (bit_length z - 1) <= Z.abs z < 2 ^ bit_length z /\ 1 <= bit_length z.
Proof.
  intros H. unfold bit_length. destruct (Z.eqb_spec z 0); [contradiction|]. destruct (Z.log2_spec (Z.abs z)) as [A B]; [lia|]. assert (L := Z.log2_nonneg (Z.abs z)). rewrite Z.add_simpl_r, Z.add_1_r. repeat split; lia.
Qed.
Definition room (z : Z) : nat := Z.to_nat ((bit_length z + 7) / 8).
Lemma room_bounds z : z <> 0 -> 1 <= Z.of_nat (room z) /\ 8 * Z.of_nat (room z) - 8 < bit_length z <= 8 * Z.of_nat (room z).
Proof.
  intros H. destruct (digits z H) as [_ L]. unfold room. rewrite Z2Nat.id by (apply Z.div_pos; lia). assert (D := Z.div_mod (bit_length z + 7) 8). assert (M := Z.mod_pos_bound (bit_length z + 7) 8). lia.
Qed.
Lemma int_to_bytes_eq z : z <> 0 -> int_to_bytes z = if (- 2 ^ (8 * Z.of_nat (room z) - 1) <=? z) && (z <? 2 ^ (8 * Z.of_nat (room z) - 1)) then Some (low_bytes (room z) z) else None.
Proof.
  intros H. destruct (room_bounds z H) as [R _]. unfold int_to_bytes. fold (room z). unfold to_bytes_signed. destruct (Nat.eqb_spec (room z) 0) as [Q|Q]; [lia|]. destruct ((- 2 ^ (8 * Z.of_nat (room z) - 1) <=? z) && (z <? 2 ^ (8 * Z.of_nat (room z) - 1))); [|reflexivity]. destruct (room z); [lia|reflexivity].
Qed.
(** The bytes of a number give the number back. *)
Theorem C85_round_trip z bs : int_to_bytes z = Some bs -> signed bs = z /\ Forall byte bs /\ bs <> [].
Proof.
  destruct (Z.eq_dec z 0) as [-> | N].
  - intros H. assert (bs = [0]) by (vm_compute in H; congruence). subst bs. split; [reflexivity|]. split; [|discriminate]. constructor; [unfold byte; lia|constructor].
  - rewrite int_to_bytes_eq by exact N. destruct (room_bounds z N) as [R _]. destruct (Z.leb_spec (- 2 ^ (8 * Z.of_nat (room z) - 1)) z) as [A|A]; [|discriminate]. destruct (Z.ltb_spec z (2 ^ (8 * Z.of_nat (room z) - 1))) as [B|B]; [|discriminate]. cbn [andb]. intros H. assert (bs = low_bytes (room z) z) by congruence. subst bs. split; [apply low_signed; lia|]. split; [apply low_byte|]. destruct (room z); [lia|discriminate].
Qed.
(** So different numbers have different bytes. *)
Theorem C85_injective z w bs : int_to_bytes z = Some bs -> int_to_bytes w = Some bs -> z = w.
Proof. intros A B. apply C85_round_trip in A as [A _]. apply C85_round_trip in B as [B _]. congruence. Qed.
(** The bytes are as few as possible. *)
Theorem C85_shortest z bs : int_to_bytes z = Some bs -> forall cs, Forall byte cs -> cs <> [] -> signed cs = z -> (List.length bs <= List.length cs)%nat.
Proof.
  intros H cs F Ne S. destruct (Z.eq_dec z 0) as [-> | N].
  - assert (bs = [0]) by (vm_compute in H; congruence). subst bs. destruct cs; [contradiction|cbn; lia].
  - rewrite int_to_bytes_eq in H by exact N. destruct (room_bounds z N) as [R [R1 R2]]. destruct ((- 2 ^ (8 * Z.of_nat (room z) - 1) <=? z) && (z <? 2 ^ (8 * Z.of_nat (room z) - 1))); [|discriminate H]. assert (bs = low_bytes (room z) z) by congruence. subst bs. rewrite low_length.
    destruct (le_lt_dec (room z) (List.length cs)) as [L|L]; [exact L|exfalso].
    assert (U : forall l a, Forall byte l -> 0 <= a -> 0 <= fold_left (fun a b => 256 * a + b) l a < (a + 1) * 2 ^ (8 * Z.of_nat (List.length l))).
    { clear. induction l as [|b l IH]; intros a F A; [cbn; lia|]. inversion F as [|? ? Fb Fl]; subst. unfold byte in Fb. cbn [fold_left List.length]. rewrite pow8. specialize (IH (256 * a + b) Fl ltac:(lia)). assert (P := pow_pos (8 * Z.of_nat (List.length l))). nia. }
    specialize (U cs 0 F (Z.le_refl 0)). destruct (digits z N) as [[D _] _].
    set (n := List.length cs) in *. assert (L' : 8 * Z.of_nat n <= bit_length z - 1) by lia. assert (M : 2 ^ (8 * Z.of_nat n) <= 2 ^ (bit_length z - 1)) by (apply Z.pow_le_mono_r; lia).
    unfold signed, unsigned in S. cbn zeta in S. fold n in S. set (u := fold_left _ cs 0) in *. destruct (Z.ltb_spec (2 * u) (2 ^ (8 * Z.of_nat n))); lia.
Qed.
(** A number has no bytes (OverflowError) exactly when its digits fill some bytes, such as 128 up to 255: there is no room for the sign. *)
Theorem C85_overflow z : int_to_bytes z = None <-> no_room z.
Proof.
  destruct (Z.eq_dec z 0) as [-> | N].
  - split; [discriminate|]. intros (k & K & [H|H]); assert (P := pow_pos (8 * k - 1)); lia.
  - rewrite int_to_bytes_eq by exact N. destruct (room_bounds z N) as [R [R1 R2]]. destruct (digits z N) as [[D1 D2] L]. set (k := Z.of_nat (room z)) in *.
    assert (U : 2 ^ bit_length z <= 2 ^ (8 * k)) by (apply Z.pow_le_mono_r; lia). assert (P := pow_pos (8 * k - 1)).
    split.
    + intros H. exists k. split; [exact R|]. destruct (Z.leb_spec (- 2 ^ (8 * k - 1)) z) as [A|A]; destruct (Z.ltb_spec z (2 ^ (8 * k - 1))) as [B|B]; cbn [andb] in H; try discriminate H; lia.
    + intros (j & J & H). assert (Pj := pow_pos (8 * j - 1)). assert (A : 2 ^ (8 * j - 1) <= Z.abs z < 2 ^ (8 * j)) by lia.
      assert (E : bit_length z = 8 * j). { assert (X : bit_length z - 1 < 8 * j). { apply (Z.pow_lt_mono_r_iff 2); lia. } assert (Y : 8 * j - 1 < bit_length z). { apply (Z.pow_lt_mono_r_iff 2); lia. } lia. }
      assert (j = k) by lia. subst j. destruct (Z.leb_spec (- 2 ^ (8 * k - 1)) z) as [B|B]; destruct (Z.ltb_spec z (2 ^ (8 * k - 1))) as [C|C]; cbn [andb]; try reflexivity. lia.
Qed.
Theorem C85_overflow_example : no_room 128 /\ no_room 255 /\ no_room (-200) /\ ~ no_room 127 /\ ~ no_room (-128) /\ ~ no_room 256 /\ int_to_bytes 256 = Some [1; 0] /\ int_to_bytes (-128) = Some [128].
Proof.
  split; [exists 1; lia|]. split; [exists 1; lia|]. split; [exists 1; lia|]. split; [rewrite <- C85_overflow; discriminate|]. split; [rewrite <- C85_overflow; discriminate|]. split; [rewrite <- C85_overflow; discriminate|]. split; reflexivity.
Qed.

(** ** Hashes *)
Lemma bytes_app es : forall fs, all_bytes (es ++ fs)%list = match all_bytes es, all_bytes fs with Some a, Some b => Some (a ++ b)%list | _, _ => None end.
Proof.
  induction es as [|e es IH]; intros fs; cbn [all_bytes app]; [destruct (all_bytes fs); reflexivity|]. rewrite IH. destruct (elem_bytes e); [|reflexivity]. destruct (all_bytes es); [|reflexivity]. destruct (all_bytes fs); [|reflexivity]. now rewrite app_assoc.
Qed.
Lemma text_app a : forall b, text_bytes (a ++ b)%string = (text_bytes a ++ text_bytes b)%list.
Proof. induction a as [|c a IH]; intros b; [reflexivity|]. unfold text_bytes in *. cbn. f_equal. apply IH. Qed.
Lemma text_inj a : forall b, text_bytes a = text_bytes b -> a = b.
Proof.
  induction a as [|c a IH]; intros [|d b] H; try discriminate H; [reflexivity|]. unfold text_bytes in H. cbn in H. injection H as H1 H2. f_equal; [|now apply IH]. apply N2Z.inj in H1. rewrite <- (ascii_N_embedding c), <- (ascii_N_embedding d). congruence.
Qed.
Section Hash.
Variable sha256 : list Z -> Z.
Variable width : Z.
Hypothesis Hw : 0 < width.
Notation hash := (consistent_hash sha256 width).
(** A hash is there unless a number, or the identity of an object, has no room for the sign. *)
Theorem C85_defined es : hash es = None <-> exists e z, In e es /\ number_of e = Some z /\ no_room z.
Proof.
  assert (A : all_bytes es = None <-> exists e z, In e es /\ number_of e = Some z /\ no_room z).
  { induction es as [|e es IH]; cbn [all_bytes]; [split; [discriminate|intros (e & z & [] & _)]|].
    destruct (elem_bytes e) as [b|] eqn:B.
    - assert (Ne : forall z, number_of e = Some z -> ~ no_room z). { intros z Q K. apply C85_overflow in K. destruct e; cbn in B, Q; try discriminate Q; injection Q as ->; congruence. }
      destruct (all_bytes es) as [bs|]; [split; [discriminate|]|split; [|reflexivity]].
      + intros (f & z & [<-|I] & Q & K); [destruct (Ne z Q K)|]. assert (X : Some bs = None) by (apply IH; exists f, z; exact (conj I (conj Q K))). discriminate X.
      + intros _. destruct (proj1 IH eq_refl) as (f & z & I & Q). exists f, z. split; [now right|exact Q].
    - split; [|reflexivity]. intros _. destruct e as [s|z|s|z]; cbn in B; try discriminate B; [exists (HInt z), z|exists (HObject z), z]; (split; [left; reflexivity|split; [reflexivity|now apply C85_overflow]]). }
  unfold consistent_hash. destruct (all_bytes es); [|split; [intros _; exact (proj1 A eq_refl)|reflexivity]]. split; [discriminate|]. intros H. apply A in H. discriminate H.
Qed.
(** It is a number below [2 ^ width]. *)
Theorem C85_range es h : hash es = Some h -> 0 <= h < 2 ^ width.
Proof.
  unfold consistent_hash. destruct (all_bytes es) as [bs|]; [|discriminate]. intros H. injection H as <-. replace (2 ^ width - 1) with (Z.ones width) by (rewrite Z.ones_equiv; lia). rewrite Z.land_ones by lia. apply Z.mod_pos_bound. apply pow_pos. lia.
Qed.
(** The borders between the elements do not count: texts that are the same when joined have the same hash. *)
Theorem C85_joined es fs a b : hash (es ++ HText a :: HText b :: fs)%list = hash (es ++ HText (a ++ b)%string :: fs)%list.
Proof.
  unfold consistent_hash. rewrite !bytes_app. cbn [all_bytes elem_bytes]. rewrite text_app. destruct (all_bytes fs); [now rewrite app_assoc|reflexivity].
Qed.
Theorem C85_collision : hash [HText "ab"; HText "c"] = hash [HText "a"; HText "bc"] /\ hash [HText "A"] = hash [HInt 65].
Proof. split; reflexivity. Qed.
End Hash.

(** What the description logic hashes: a class and a name are told apart from every other class and name. *)
Lemma quote_split (a : list ascii) : forall b x y, ~ In quote a -> ~ In quote b -> (a ++ quote :: x = b ++ quote :: y)%list -> a = b /\ x = y.
Proof.
  induction a as [|c a IH]; intros [|d b] x y A B H; cbn [app] in H.
  - injection H as H. split; [reflexivity|exact H].
  - injection H as H _. destruct B. left. symmetry. exact H.
  - injection H as H _. destruct A. left. exact H.
  - injection H as H1 H2. destruct (IH b x y) as [E1 E2]; [intros Q; apply A; now right|intros Q; apply B; now right|exact H2|]. split; [congruence|exact E2].
Qed.
Lemma class_inj p q : no_quote p -> no_quote q -> forall a b, (class_text p ++ a = class_text q ++ b)%string -> p = q /\ a = b.
Proof.
  intros P Q a b H. assert (L : forall s t, list_ascii_of_string (s ++ t)%string = (list_ascii_of_string s ++ list_ascii_of_string t)%list) by (induction s as [|c s IH]; intros t; cbn; [reflexivity|now rewrite IH]).
  assert (J : forall s t, list_ascii_of_string s = list_ascii_of_string t -> s = t) by (intros s t E; rewrite <- (string_of_list_ascii_of_string s), <- (string_of_list_ascii_of_string t); congruence).
  apply (f_equal list_ascii_of_string) in H. unfold class_text in H. rewrite !L in H. rewrite <- !app_assoc in H. apply app_inv_head in H.
  assert (H' : (list_ascii_of_string p ++ quote :: (">"%char :: list_ascii_of_string a) = list_ascii_of_string q ++ quote :: (">"%char :: list_ascii_of_string b))%list) by exact H.
  apply quote_split in H' as [E1 E2]; [|exact P|exact Q]. injection E2 as E2. split; apply J; assumption.
Qed.
Theorem C85_names p q a b : no_quote p -> no_quote q -> all_bytes [HClass (class_text p); HText a] = all_bytes [HClass (class_text q); HText b] -> p = q /\ a = b.
Proof.
  intros P Q H. cbn [all_bytes elem_bytes] in H. rewrite !app_nil_r in H. rewrite <- !text_app in H. assert (J : forall u v : list Z, Some u = Some v -> u = v) by (intros u v E; now injection E). apply J in H. apply text_inj in H. exact (class_inj p q P Q a b H).
Qed.
(** Other objects count by their identity only: a concept over a component and the same concept over a copy of the component hash different bytes. *)
Theorem C85_copies p x y bs cs : x <> y -> all_bytes [HClass (class_text p); HObject x] = Some bs -> all_bytes [HClass (class_text p); HObject y] = Some cs -> bs <> cs.
Proof.
  intros N A B E. subst cs. cbn [all_bytes elem_bytes] in A, B. destruct (int_to_bytes x) as [bx|] eqn:X; [|discriminate A]. destruct (int_to_bytes y) as [by_|] eqn:Y; [|discriminate B]. rewrite app_nil_r in A, B. assert (Q : (text_bytes (class_text p) ++ bx = text_bytes (class_text p) ++ by_)%list) by congruence. apply app_inv_head in Q. subst by_. exact (N (C85_injective x y bx X Y)).
Qed.
Theorem C85_nonvacuous : no_quote "tarski.dl.concepts.PrimitiveConcept" /\ no_quote "tarski.dl.concepts.NominalConcept" /\ (exists bs, all_bytes [HClass (class_text "tarski.dl.concepts.NotConcept"); HObject 8733] = Some bs /\ List.length bs = 41%nat) /\
  consistent_hash (fun bs => unsigned bs) 64 [HText "a"; HInt (-1)] = Some 25087.
Proof.
  split; [vm_compute; intuition discriminate|]. split; [vm_compute; intuition discriminate|]. split; [|reflexivity]. exists (text_bytes (class_text "tarski.dl.concepts.NotConcept") ++ [34; 29])%list. split; reflexivity.
Qed.
