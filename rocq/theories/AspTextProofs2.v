(** Names that can be written. *)
From Coq Require Import Ascii DecimalString DecimalFacts DecimalPos DecimalZ.
From Verif Require Import Base Syntax ModelText Asp AspNamesSpec PropsAspNames AspText AspTextSpec AspTextProofs1.
#[local] Open Scope string_scope.

Definition bytes (p : ascii -> bool) : bool := forallb (fun n => p (ascii_of_nat n)) (seq 0 256).
Lemma bytes_ok p : bytes p = true -> forall c, p c = true.
Proof. unfold bytes. rewrite forallb_forall. intros H c. specialize (H (nat_of_ascii c)). rewrite ascii_nat_embedding in H. apply H, in_seq. pose proof (nat_ascii_bounded c). lia. Qed.
Ltac bytes_tac := intros c; match goal with |- ?b = true -> ?d = true => let f := eval pattern c in (implb b d) in
  match f with ?g _ => let H := fresh in assert (H := bytes_ok g ltac:(vm_compute; reflexivity) c); cbv beta in H; let X := fresh in intros X; rewrite X in H; exact H end end.
Lemma all_app P a b : all P (a ++ b) = (all P a && all P b)%bool.
Proof. induction a as [|c a IH]; cbn [append all]; [reflexivity|]. now rewrite IH, andb_assoc. Qed.
Lemma all_imp (P Q : ascii -> bool) s : (forall c, P c = true -> Q c = true) -> all P s = true -> all Q s = true.
Proof. intros H. induction s as [|c s IH]; cbn [all]; [reflexivity|]. rewrite !andb_true_iff. intros [A B]. auto. Qed.

Lemma sanitize_plain s : all name_char s = true -> all plain_char (sanitize s) = true.
Proof.
  induction s as [|c s IH]; [reflexivity|]. cbn [all sanitize]. rewrite andb_true_iff. intros [A B]. destruct (Ascii.eqb c "-") eqn:E.
  - cbn [append all]. rewrite IH by exact B. reflexivity.
  - cbn [all]. rewrite IH by exact B. rewrite andb_true_r. unfold name_char in A. rewrite E, orb_false_r in A. exact A.
Qed.
Lemma prefixed_pred q s : In q ["atom"; "type"; "action"] -> symbol_name s = true -> writable_pred (sanitize (full_name (s, q))).
Proof.
  unfold symbol_name. intros H A. apply sanitize_plain in A. repeat (destruct H as [<-|H]); try contradiction; (split; [exact A|reflexivity]).
Qed.
Lemma goal_pred : writable_pred (sanitize (full_name ("goal", ""))). Proof. split; reflexivity. Qed.
Lemma digits_all d : all digit (NilEmpty.string_of_uint d) = true.
Proof. induction d; cbn [NilEmpty.string_of_uint all]; [reflexivity|..]; rewrite IHd; reflexivity. Qed.
Lemma digit_plain : forall c, digit c = true -> plain_char c = true. Proof. bytes_tac. Qed.
Lemma digit_no_hyphen s : all digit s = true -> sanitize s = s.
Proof.
  induction s as [|c s IH]; [reflexivity|]. cbn [all sanitize]. rewrite andb_true_iff. intros [A B]. destruct (Ascii.eqb c "-") eqn:E; [|now rewrite IH]. apply Ascii.eqb_eq in E. subst c. discriminate.
Qed.
Lemma to_uint_norm p : Pos.to_uint p = Decimal.unorm (Pos.to_uint p).
Proof. rewrite <- (DecimalPos.Unsigned.to_of (Pos.to_uint p)), DecimalPos.Unsigned.of_to. reflexivity. Qed.
Lemma natural_numeral z : (0 <= z)%Z -> all digit (name_text (CInt z)) = true /\ numeral (name_text (CInt z)) = true.
Proof.
  intros H. destruct z as [|p|p]; [split; reflexivity| |lia]. unfold name_text. cbn [Z.to_int NilZero.string_of_int].
  assert (G : forall d, d = Decimal.unorm d -> all digit (NilZero.string_of_uint d) = true /\ numeral (NilZero.string_of_uint d) = true).
  { intros d E. assert (A : all digit (NilZero.string_of_uint d) = true) by (unfold NilZero.string_of_uint; destruct d; try reflexivity; apply digits_all). split; [exact A|].
    unfold Decimal.unorm in E. destruct (Decimal.nzhead d) as [| d'|d'|d'|d'|d'|d'|d'|d'|d'|d'] eqn:N; subst d; try reflexivity; try (unfold numeral; cbn [NilZero.string_of_uint NilEmpty.string_of_uint] in *; rewrite A; reflexivity).
    exfalso. exact (nzhead_nonzero _ _ N). }
  exact (G _ (to_uint_norm p)).
Qed.
Lemma aux_pred n : writable_pred (sanitize (full_name ("__f" ++ name_text (CInt (Z.of_nat n)), ""))).
Proof.
  destruct (natural_numeral (Z.of_nat n)) as [A _]; [lia|]. set (d := name_text _) in *. change (sanitize (full_name ("__f" ++ d, ""))) with ("__f" ++ sanitize d). rewrite digit_no_hyphen by exact A. split; [|reflexivity].
  rewrite all_app. cbn [all]. rewrite (all_imp _ _ _ digit_plain A). reflexivity.
Qed.
(** * Constants *)
Lemma starts_lower_sanitize s : starts_lower s = true -> starts lowercase (sanitize s) = true.
Proof.
  induction s as [|c s IH]; [discriminate|]. cbn [starts_lower sanitize]. destruct (Ascii.eqb c "_") eqn:U; cbn [orb].
  - apply Ascii.eqb_eq in U. subst c. exact IH.
  - destruct (Ascii.eqb c "-") eqn:H; [exact IH|]. intros L. cbn [starts]. rewrite U. cbn [orb]. destruct (Ascii.eqb c "'") eqn:Q; [|exact L]. apply Ascii.eqb_eq in Q. subst c. discriminate.
Qed.
Lemma sanitize_not s : sanitize s = "not" -> s = "not".
Proof.
  destruct s as [|a s]; cbn [sanitize]; [discriminate|]. destruct (Ascii.eqb a "-"); [discriminate|]. intros H. injection H as -> H. f_equal.
  destruct s as [|b s]; cbn [sanitize] in H; [discriminate|]. destruct (Ascii.eqb b "-"); [discriminate|]. injection H as -> H. f_equal.
  destruct s as [|c s]; cbn [sanitize] in H; [discriminate|]. destruct (Ascii.eqb c "-"); [discriminate|]. injection H as -> H. f_equal.
  destruct s as [|d s]; cbn [sanitize] in H; [reflexivity|]. destruct (Ascii.eqb d "-"); discriminate.
Qed.
Lemma digits_start s P : all digit s = true -> (forall c, digit c = true -> P c = false) -> starts P s = false.
Proof.
  intros A H. destruct s as [|c s]; [reflexivity|]. cbn [all] in A. apply andb_true_iff in A as [A _]. cbn [starts]. rewrite (H c A).
  destruct (Ascii.eqb c "_") eqn:U; [apply Ascii.eqb_eq in U; subst c; discriminate|]. destruct (Ascii.eqb c "'") eqn:Q; [apply Ascii.eqb_eq in Q; subst c; discriminate|]. reflexivity.
Qed.
Lemma digit_lower : forall c, digit c = true -> negb (lowercase c) = true. Proof. bytes_tac. Qed.
Lemma digit_upper : forall c, digit c = true -> negb (uppercase c) = true. Proof. bytes_tac. Qed.
(** A constant is written as an identifier or a number *)
Definition fixed (x : string) : Prop := writable x /\ arg_of x = Known x.
Lemma constant_fixed c : constant_name c -> fixed (sanitize (name_text c)).
Proof.
  destruct c as [s|z]; cbn [constant_name]; intros H.
  - destruct H as (A & S & N). cbn [name_text]. assert (W : word (sanitize s) = Some (Identifier (sanitize s))).
    { unfold word. destruct (String.eqb (sanitize s) "not") eqn:E; [apply String.eqb_eq in E; apply sanitize_not in E; contradiction|]. now rewrite starts_lower_sanitize. }
    split; [split; [now apply sanitize_plain|rewrite W; discriminate]|]. unfold arg_of. now rewrite W.
  - destruct (natural_numeral z H) as [A B]. rewrite digit_no_hyphen by exact A. set (d := name_text (CInt z)) in *. assert (W : word d = Some (Numeral d)).
    { unfold word. destruct (String.eqb d "not") eqn:E; [apply String.eqb_eq in E; rewrite E in A; discriminate|].
      rewrite (digits_start d lowercase A) by (intros c Hc; apply digit_lower in Hc; now apply negb_true_iff). rewrite (digits_start d uppercase A) by (intros c Hc; apply digit_upper in Hc; now apply negb_true_iff). now rewrite B. }
    split; [split; [exact (all_imp _ _ _ digit_plain A)|rewrite W; discriminate]|]. unfold arg_of. now rewrite W.
Qed.
Lemma uncapitalize_name c x : constant_name c -> uncapitalize c = Ok x -> x = name_text c.
Proof.
  destruct c as [[|a s]|z]; try discriminate. cbn [uncapitalize constant_name name_text]. intros (_ & S & _) H. injection H as <-. f_equal. cbn [starts_lower] in S.
  assert (G : forall b, implb (Ascii.eqb b "_" || Ascii.eqb b "-" || lowercase b) (Ascii.eqb (to_lower b) b) = true) by (apply (bytes_ok (fun b => implb (Ascii.eqb b "_" || Ascii.eqb b "-" || lowercase b) (Ascii.eqb (to_lower b) b))); vm_compute; reflexivity). specialize (G a).
  destruct (Ascii.eqb a "_" || Ascii.eqb a "-")%bool; [|cbn [orb] in G; rewrite S in G]; cbn [orb implb] in G; now apply Ascii.eqb_eq in G.
Qed.
(** * Variables *)
Lemma lower_names s : all name_char s = true -> all name_char (lower s) = true.
Proof.
  induction s as [|c s IH]; [reflexivity|]. cbn [all lower]. rewrite !andb_true_iff. intros [A B]. split; [|auto]. revert c A. clear. bytes_tac.
Qed.
Lemma letter_alpha : forall c, is_alpha c = letter c.
Proof. intros c. apply Bool.eqb_prop. revert c. apply (bytes_ok (fun c => Bool.eqb (is_alpha c) (letter c))). vm_compute. reflexivity. Qed.
Lemma upper_letter : forall c, letter c = true -> uppercase (to_upper c) = true. Proof. bytes_tac. Qed.
Definition unknown (x : string) : Prop := writable x /\ arg_of x = Unknown x.
Lemma capital_unknown c s : letter c = true -> all name_char s = true -> unknown (sanitize (capitalize (String c s))).
Proof.
  intros L A. cbn [capitalize]. apply upper_letter in L. set (d := to_upper c) in *. cbn [sanitize]. assert (H : Ascii.eqb d "-" = false) by (destruct (Ascii.eqb d "-") eqn:E; [apply Ascii.eqb_eq in E; rewrite E in L; discriminate|reflexivity]). rewrite H.
  assert (W : word (String d (sanitize (lower s))) = Some (VariableName (String d (sanitize (lower s))))).
  { assert (U : forall b, implb (uppercase b) (negb (Ascii.eqb b "n") && negb (Ascii.eqb b "_") && negb (Ascii.eqb b "'") && negb (lowercase b)) = true) by (apply (bytes_ok (fun b => implb (uppercase b) (negb (Ascii.eqb b "n") && negb (Ascii.eqb b "_") && negb (Ascii.eqb b "'") && negb (lowercase b)))); vm_compute; reflexivity). specialize (U d). rewrite L in U. cbn [implb] in U.
    apply andb_true_iff in U as [U Ul]. apply andb_true_iff in U as [U Uq]. apply andb_true_iff in U as [Un Uu]. apply negb_true_iff in Ul, Uq, Un, Uu.
    unfold word. cbn [String.eqb starts]. rewrite Un, Uu, Uq, Ul, L. reflexivity. }
  split; [split; [|rewrite W; discriminate]|unfold arg_of; now rewrite W]. cbn [all]. rewrite (sanitize_plain (lower s)) by now apply lower_names. unfold plain_char. rewrite L, orb_true_r. reflexivity.
Qed.
Lemma variable_unknown x y : variable_name x = true -> make_variable_name x = Ok y -> unknown (sanitize y).
Proof.
  destruct x as [|c s]; [discriminate|]. cbn [variable_name make_variable_name]. rewrite letter_alpha. destruct (letter c) eqn:L; intros H E; injection E as <-.
  - now apply capital_unknown.
  - destruct s as [|d s]; [discriminate|]. apply andb_true_iff in H as [A B]. now apply capital_unknown.
Qed.
Lemma variable_made x : variable_name x = true -> exists y, make_variable_name x = Ok y.
Proof. destruct x as [|c s]; [discriminate|]. cbn [make_variable_name]. eauto. Qed.
