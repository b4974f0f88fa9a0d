(** Reading atoms: the words of a text *)
From Coq Require Import Ascii.
From Verif Require Import Base Syntax ModelState Lang LangSpec ParseAtom ParseAtomSpec.
#[local] Open Scope string_scope.

Lemma s_assoc (a b c : string) : (a ++ b) ++ c = a ++ (b ++ c).
Proof. induction a as [|x a IH]; [reflexivity|]. cbn [append]. rewrite IH. reflexivity. Qed.
Lemma s_nil (a : string) : a ++ "" = a.
Proof. induction a as [|x a IH]; [reflexivity|]. cbn [append]. rewrite IH. reflexivity. Qed.
Lemma every_app P a b : every P (a ++ b) <-> every P a /\ every P b.
Proof. induction a as [|x a IH]; cbn [append every]; [tauto|]. rewrite IH. tauto. Qed.
Lemma ends_cons P c r : r <> "" -> (ends P (String c r) <-> ends P r).
Proof. intros N. destruct r; [congruence|]. reflexivity. Qed.

Section Strip.
Variables (p : ascii -> bool) (P : ascii -> Prop).
Hypothesis HP : forall c, p c = true <-> P c.
Lemma rstrip_sound s : exists t, s = rstrip p s ++ t /\ every P t /\ ~ ends P (rstrip p s).
Proof.
  induction s as [|c r (t & E & F & N)]; [exists ""; split; [reflexivity|]; split; [exact I|exact (fun H => H)]|]. cbn [rstrip]. destruct (rstrip p r) as [|d q] eqn:Q.
  - destruct (p c) eqn:C.
    + exists (String c r). split; [reflexivity|]. split; [|exact (fun H => H)]. cbn [append] in E. split; [exact (proj1 (HP c) C)|]. rewrite E. exact F.
    + exists t. cbn [append] in *. split; [rewrite E; reflexivity|]. split; [exact F|]. cbn [ends]. intros H. apply HP in H. congruence.
  - exists t. split; [cbn [append] in *; rewrite E; reflexivity|]. split; [exact F|]. intros H. apply N. exact H.
Qed.
Lemma rstrip_all t : every P t -> rstrip p t = "".
Proof. induction t as [|c t IH]; intros F; [reflexivity|]. destruct F as [F1 F2]. cbn [rstrip]. rewrite (IH F2). apply HP in F1. rewrite F1. reflexivity. Qed.
Lemma rstrip_unique a t : every P t -> ~ ends P a -> rstrip p (a ++ t) = a.
Proof.
  intros F. induction a as [|c a IH]; intros N; [exact (rstrip_all t F)|]. cbn [append rstrip]. destruct a as [|d a].
  - cbn [append]. rewrite (rstrip_all t F). destruct (p c) eqn:C; [|reflexivity]. exfalso. apply N. apply HP. exact C.
  - rewrite IH; [reflexivity|]. intros H. apply N. exact H.
Qed.
Lemma lstrip_sound s : exists t, s = t ++ lstrip p s /\ every P t /\ ~ begins P (lstrip p s).
Proof.
  induction s as [|c r (t & E & F & N)]; [exists ""; split; [reflexivity|]; split; [exact I|exact (fun H => H)]|]. cbn [lstrip]. destruct (p c) eqn:C.
  - exists (String c t). split; [cbn [append]; rewrite <- E; reflexivity|]. split; [|exact N]. split; [apply HP; exact C|exact F].
  - exists "". split; [reflexivity|]. split; [exact I|]. cbn [begins]. intros H. apply HP in H. congruence.
Qed.
Lemma lstrip_unique a t : every P t -> ~ begins P a -> lstrip p (t ++ a) = a.
Proof.
  intros F. induction t as [|c t IH]; intros N; cbn [append].
  - destruct a as [|c a]; [reflexivity|]. cbn [lstrip]. destruct (p c) eqn:C; [|reflexivity]. exfalso. apply N. apply HP. exact C.
  - destruct F as [F1 F2]. cbn [lstrip]. apply HP in F1. rewrite F1. exact (IH F2 N).
Qed.
End Strip.
Lemma ends_app P a b : b <> "" -> (ends P (a ++ b) <-> ends P b).
Proof. intros N. induction a as [|c a IH]; [reflexivity|]. cbn [append]. rewrite ends_cons; [exact IH|]. destruct a; [exact N|discriminate]. Qed.
Lemma begins_app P a b : a <> "" -> (begins P (a ++ b) <-> begins P a).
Proof. destruct a; [congruence|]. reflexivity. Qed.

Lemma blank_white c : blank c = true <-> white c.
Proof.
  unfold blank, white. rewrite orb_true_iff, !andb_true_iff, !Nat.leb_le. cbn [In]. split; [intros [[A B]|[A B]]; lia|]. intros H. repeat (destruct H as [H|H]; [lia|]). contradiction.
Qed.
Lemma padded_strip w x : padded w x <-> strip x = w.
Proof.
  unfold strip. split.
  - intros (N1 & N2 & a & b & -> & A & B). destruct (string_dec w "") as [-> |W].
    + cbn [append]. assert (E : every white (a ++ b)) by (apply every_app; tauto). rewrite (rstrip_all blank white blank_white _ E). reflexivity.
    + rewrite <- s_assoc, (rstrip_unique blank white blank_white (a ++ w) b B); [|rewrite (ends_app white a w W); exact N2]. exact (lstrip_unique blank white blank_white w a A N1).
  - intros <-. destruct (rstrip_sound blank white blank_white x) as (b & E & B & N). destruct (lstrip_sound blank white blank_white (rstrip blank x)) as (a & E' & A & N'). split; [exact N'|]. split.
    + intros H. apply N. rewrite E'. rewrite ends_app; [exact H|]. intros Q. rewrite Q in H. exact H.
    + exists a, b. split; [|split; [exact A|exact B]]. rewrite <- s_assoc, <- E'. exact E.
Qed.
Lemma padded_fun ws parts : Forall2 padded ws parts <-> map strip parts = ws.
Proof.
  split.
  - induction 1 as [|w x ws xs H F IH]; [reflexivity|]. cbn [map]. rewrite IH, (proj1 (padded_strip w x) H). reflexivity.
  - intros <-. induction parts as [|x xs IH]; constructor; [apply padded_strip; reflexivity|exact IH].
Qed.
(** ** Parentheses as commas *)
Lemma opened_commas s s' : opened s s' <-> commas s = s'.
Proof.
  split.
  - induction 1 as [|s s' H IH|c s s' N H IH]; cbn [commas]; [reflexivity|rewrite IH; reflexivity|]. destruct (Ascii.eqb_spec c "("); [contradiction|]. rewrite IH. reflexivity.
  - intros <-. induction s as [|c s IH]; cbn [commas]; [constructor|]. destruct (Ascii.eqb_spec c "(") as [-> |N]; constructor; assumption.
Qed.
Lemma commas_app a b : commas (a ++ b) = commas a ++ commas b.
Proof. induction a as [|c a IH]; [reflexivity|]. cbn [append commas]. rewrite IH. reflexivity. Qed.
Definition isclose (c : ascii) : bool := Ascii.eqb c ")".
Lemma isclose_spec c : isclose c = true <-> c = ")"%char. Proof. apply Ascii.eqb_eq. Qed.
Lemma commas_rstrip s : commas (rstrip isclose s) = rstrip isclose (commas s).
Proof.
  induction s as [|c s IH]; [reflexivity|]. cbn [rstrip commas]. rewrite <- IH. destruct (rstrip isclose s) as [|d q]; cbn [commas].
  - unfold isclose. destruct (Ascii.eqb_spec c "(") as [-> |N]; [reflexivity|]. destruct (Ascii.eqb c ")"); cbn [commas]; [reflexivity|]. destruct (Ascii.eqb_spec c "("); [contradiction|reflexivity].
  - reflexivity.
Qed.
(** ** Commas *)
Definition no_comma := every (fun c => c <> ","%char).
Lemma split_nonempty s : split_commas s <> [].
Proof. induction s as [|c s IH]; cbn [split_commas]; [discriminate|]. destruct (Ascii.eqb c ","); [discriminate|]. destruct (split_commas s); discriminate. Qed.
Lemma split_sound s : separated (split_commas s) = s /\ Forall no_comma (split_commas s).
Proof.
  induction s as [|c s [IH F]]; [split; [reflexivity|constructor; [exact I|constructor]]|]. cbn [split_commas]. assert (N := split_nonempty s). destruct (Ascii.eqb_spec c ",") as [-> |C].
  - split; [|constructor; [exact I|exact F]]. destruct (split_commas s) as [|x l] eqn:E; [congruence|]. change (String "," (separated (x :: l)) = String "," s). rewrite IH. reflexivity.
  - destruct (split_commas s) as [|x l]; [congruence|]. inversion F as [|? ? F1 F2]; subst. split; [|constructor; [split; [exact C|exact F1]|exact F2]]. destruct l; reflexivity.
Qed.
Lemma split_unique parts : parts <> [] -> Forall no_comma parts -> split_commas (separated parts) = parts.
Proof.
  assert (One : forall x, no_comma x -> forall r, split_commas (x ++ String "," r) = x :: split_commas r).
  { induction x as [|c x IH]; intros F r; [reflexivity|]. destruct F as [F1 F2]. cbn [append split_commas]. destruct (Ascii.eqb_spec c ","); [contradiction|]. rewrite (IH F2 r). reflexivity. }
  assert (Last : forall x, no_comma x -> split_commas x = [x]).
  { induction x as [|c x IH]; intros F; [reflexivity|]. destruct F as [F1 F2]. cbn [split_commas]. destruct (Ascii.eqb_spec c ","); [contradiction|]. rewrite (IH F2). reflexivity. }
  induction parts as [|x parts IH]; intros N F; [congruence|]. inversion F as [|? ? F1 F2]; subst. destruct parts as [|y parts]; [exact (Last x F1)|]. change (split_commas (x ++ String "," (separated (y :: parts))) = x :: y :: parts). rewrite (One x F1), (IH ltac:(discriminate) F2). reflexivity.
Qed.
(** The words are those that the code finds. *)
Lemma reads_fields s ws : reads s ws <-> fields s = ws.
Proof.
  unfold fields. change (fun c => Ascii.eqb c ")") with isclose. split.
  - intros (s' & parts & cl & O & -> & C & N & Np & Fc & F). apply opened_commas in O. rewrite commas_rstrip, O, (rstrip_unique isclose _ isclose_spec _ _ C N), (split_unique parts Np Fc). apply padded_fun. exact F.
  - intros E. rewrite commas_rstrip in E. destruct (rstrip_sound isclose _ isclose_spec (commas s)) as (cl & Ec & C & N). destruct (split_sound (rstrip isclose (commas s))) as [S F]. exists (commas s), (split_commas (rstrip isclose (commas s))), cl. split; [apply opened_commas; reflexivity|]. rewrite S. split; [exact Ec|]. split; [exact C|]. split; [exact N|]. split; [apply split_nonempty|]. split; [exact F|]. apply padded_fun. exact E.
Qed.
