(** Lexing and bracket matching of printed text *)
From Coq Require Import Ascii DecimalString DecimalZ Decimal.
From Verif Require Import Base Syntax ListUtil Asp ModelText Effects PddlText PddlRead PddlSpec.
Local Open Scope string_scope.

Lemma sapp_assoc (a b c : string) : (a ++ b) ++ c = a ++ b ++ c.
Proof. induction a as [|x a IH]; cbn; [reflexivity | now rewrite IH]. Qed.
Lemma sapp_nil (a : string) : a ++ "" = a.
Proof. induction a as [|x a IH]; cbn; [reflexivity | now rewrite IH]. Qed.

Definition delim (c : ascii) : bool := is_space c || is_paren c.
Lemma words_word w r cur : all_chars (fun c => negb (delim c)) w = true -> words (w ++ r) cur = words r (cur ++ w).
Proof.
  revert cur. induction w as [|c w IH]; intros cur H; cbn [String.append]; [now rewrite sapp_nil|].
  cbn [all_chars] in H. rewrite andb_true_iff, negb_true_iff in H. destruct H as [H1 H2]. unfold delim in H1. apply orb_false_iff in H1 as [H1 H3].
  cbn [words]. rewrite H1, H3, IH by assumption. now rewrite sapp_assoc.
Qed.
Lemma words_end s cur : words (s ++ " ") cur = words s cur.
Proof. revert cur. induction s as [|c s IH]; intros cur; cbn; [now rewrite app_nil_r|]. destruct (is_space c), (is_paren c); now rewrite !IH. Qed.
Lemma words_flush c r cur : delim c = true -> words (String c r) cur = (flush cur ++ words (String c r) "")%list.
Proof. unfold delim. intros H. cbn [words]. destruct (is_space c); cbn [flush app]; [reflexivity|]. cbn in H. now rewrite H. Qed.

(** Before a delimiter, [s] is cut into words whose tokens form the phrases [xs]. *)
Definition tok (w : string) (t : token) : Prop := token_of w = Ok t.
Definition reads (s : string) (xs : list sexp) : Prop := exists ws ts,
  (forall c r, delim c = true -> words (s ++ String c r) "" = (ws ++ words (String c r) "")%list) /\ Forall2 tok ws ts /\
  forall r acc st, brackets (ts ++ r)%list (acc :: st) = brackets r ((rev xs ++ acc) :: st)%list.

Lemma reads_nil : reads "" [].
Proof. exists [], []. split; [|split]; [reflexivity | constructor | reflexivity]. Qed.
Lemma reads_atom w t : w <> "" -> all_chars (fun c => negb (delim c)) w = true -> token_of w = Ok t -> t <> TLp -> t <> TRp -> reads w [A t].
Proof.
  intros Hn Hw Ht H1 H2. exists [w], [t]. split; [|split].
  - intros c r Hc. rewrite words_word by exact Hw. cbn [String.append]. rewrite words_flush by exact Hc. destruct w; [congruence|reflexivity].
  - constructor; [exact Ht | constructor].
  - intros r acc st. cbn. destruct t; try reflexivity; congruence.
Qed.
Lemma reads_space a b xs ys : reads a xs -> reads b ys -> reads (a ++ " " ++ b) (xs ++ ys)%list.
Proof.
  intros (ws & ts & W & T & B) (ws' & ts' & W' & T' & B'). exists (ws ++ ws')%list, (ts ++ ts')%list. split; [|split].
  - intros c r Hc. rewrite sapp_assoc. cbn [String.append]. rewrite W by reflexivity. rewrite <- app_assoc. f_equal.
    change (words (String " " (b ++ String c r)) "") with (words (b ++ String c r) ""). now apply W'.
  - now apply Forall2_app.
  - intros r acc st. rewrite <- app_assoc, B, B', rev_app_distr, app_assoc. reflexivity.
Qed.
Lemma reads_bracket s xs : reads s xs -> reads ("(" ++ s ++ ")") [L xs].
Proof.
  intros (ws & ts & W & T & B). exists ("(" :: ws ++ [")"])%list, (TLp :: ts ++ [TRp])%list. split; [|split].
  - intros c r Hc. rewrite sapp_assoc. rewrite sapp_assoc. cbn [String.append]. change (words (String "(" (s ++ String ")" (String c r))) "") with ("(" :: words (s ++ String ")" (String c r)) "").
    rewrite W by reflexivity. cbn [app]. rewrite <- app_assoc. reflexivity.
  - constructor; [reflexivity|]. apply Forall2_app; [exact T | constructor; [reflexivity | constructor]].
  - intros r acc st. cbn [app brackets]. rewrite <- app_assoc, B. cbn [app brackets]. rewrite app_nil_r, rev_involutive. reflexivity.
Qed.
Lemma reads_join l xs : Forall2 (fun s x => reads s [x]) l xs -> reads (join " " l) xs.
Proof.
  intros H. induction H as [|s x l xs Hx H IH]; [exact reads_nil|].
  destruct l as [|s' l]; [inversion H; subst; exact Hx|].
  change (join " " (s :: s' :: l)) with (s ++ " " ++ join " " (s' :: l)). apply (reads_space _ _ [x]); assumption.
Qed.
(** A text of the form (head argument ... argument) *)
Lemma reads_form w t s xs : reads w [A t] -> reads s xs -> reads ("(" ++ w ++ " " ++ s ++ ")") [L (A t :: xs)].
Proof.
  intros H1 H2. replace ("(" ++ w ++ " " ++ s ++ ")") with ("(" ++ (w ++ " " ++ s) ++ ")") by now rewrite !sapp_assoc.
  apply reads_bracket. exact (reads_space _ _ [A t] _ H1 H2).
Qed.
Lemma reads_phrase s x : reads s [x] -> phrase s = Ok x.
Proof.
  intros (ws & ts & W & T & B). unfold phrase, lex.
  assert (E : words s "" = ws). { rewrite <- words_end, W by reflexivity. now rewrite app_nil_r. }
  assert (M : mapM token_of ws = Ok ts). { clear -T. induction T as [|w t ws ts Ht T IH]; [reflexivity|]. cbn [mapM]. unfold tok in Ht. rewrite Ht. change (mapM token_of ws) with (mapM token_of ws) in IH. rewrite IH. reflexivity. }
  rewrite E, M. cbn [bind]. specialize (B [] [] []). rewrite !app_nil_r in B. rewrite B. reflexivity.
Qed.

(** ** Words *)
Lemma all_chars_imp (p q : ascii -> bool) s : (forall c, p c = true -> q c = true) -> all_chars p s = true -> all_chars q s = true.
Proof. intros H. induction s as [|c s IH]; cbn [all_chars]; [reflexivity|]. rewrite !andb_true_iff. intros [H1 H2]. auto. Qed.
(** Decide a property of all characters. *)
Definition all_bytes (p : ascii -> bool) : bool := forallb (fun n => p (ascii_of_nat n)) (seq 0 256).
Lemma all_bytes_ok p : all_bytes p = true -> forall c, p c = true.
Proof.
  unfold all_bytes. rewrite forallb_forall. intros H c. rewrite <- (ascii_nat_embedding c). apply H. apply in_seq. pose proof (nat_ascii_bounded c). lia.
Qed.
Lemma by_byte (p q : ascii -> bool) : all_bytes (fun c => implb (p c) (q c)) = true -> forall c, p c = true -> q c = true.
Proof. intros H c Hc. pose proof (all_bytes_ok _ H c) as G. cbn beta in G. rewrite Hc in G. exact G. Qed.
Ltac by_bytes := match goal with |- forall c, ?p c = true -> ?q c = true => apply (by_byte p q); vm_compute; reflexivity end.
Lemma small_alpha : forall c, small c = true -> is_alpha c = true. Proof. by_bytes. Qed.
Lemma small_name : forall c, small c = true -> name_char c = true. Proof. by_bytes. Qed.
Lemma name_any : forall c, name_char c = true -> any_char c = true. Proof. by_bytes. Qed.
Lemma name_delim : forall c, name_char c = true -> (fun c => negb (delim c)) c = true. Proof. by_bytes. Qed.
Lemma name_lower : forall c, name_char c = true -> (fun c => Ascii.eqb (to_lower c) c) c = true. Proof. by_bytes. Qed.
Lemma small_not : forall c, small c = true -> (fun c => negb (Ascii.eqb c "?") && negb (Ascii.eqb c "(") && negb (Ascii.eqb c ")")) c = true. Proof. by_bytes. Qed.
Lemma lower_id s : all_chars name_char s = true -> lower s = s.
Proof.
  induction s as [|c s IH]; cbn [all_chars lower]; [reflexivity|]. rewrite andb_true_iff. intros [H1 H2]. rewrite IH by exact H2.
  apply name_lower in H1. apply Ascii.eqb_eq in H1. now rewrite H1.
Qed.
Lemma plain_chars s : plain s = true -> s <> "" /\ all_chars name_char s = true /\ is_name s = true.
Proof.
  destruct s as [|c s]; cbn [plain]; [discriminate|]. rewrite andb_true_iff. intros [H1 H2]. split; [discriminate|]. split.
  - cbn [all_chars]. now rewrite (small_name _ H1), H2.
  - cbn [is_name]. rewrite (small_alpha _ H1). exact (all_chars_imp _ _ _ name_any H2).
Qed.
Lemma plain_lower s : plain s = true -> lower s = s.
Proof. intros H. apply lower_id, (plain_chars _ H). Qed.
Lemma plain_not_paren s : plain s = true -> String.eqb s "(" = false /\ String.eqb s ")" = false.
Proof.
  destruct s as [|c s]; cbn [plain]; [discriminate|]. rewrite andb_true_iff. intros [H1 _]. apply small_not in H1. cbn beta in H1. rewrite !andb_true_iff, !negb_true_iff in H1.
  destruct H1 as ((_ & H1) & H2). cbn [String.eqb]. now rewrite H1, H2.
Qed.
Lemma name_token n : legal_name n = true -> token_of n = Ok (TName n).
Proof.
  unfold legal_name. rewrite andb_true_iff, negb_true_iff, orb_false_iff. intros (H1 & H2 & H3). unfold token_of.
  destruct (plain_not_paren _ H1) as [-> ->]. rewrite H3, (plain_lower _ H1), H2. now destruct (plain_chars _ H1) as (_ & _ & ->).
Qed.
Lemma name_reads n : legal_name n = true -> reads n [A (TName n)].
Proof.
  intros H. assert (P : plain n = true) by (unfold legal_name in H; now apply andb_true_iff in H). destruct (plain_chars _ P) as (H1 & H2 & _).
  apply reads_atom; [exact H1 | exact (all_chars_imp _ _ _ name_delim H2) | now apply name_token | discriminate | discriminate].
Qed.
Lemma printed_name x : legal_variable x = true -> exists p, print_variable_name x = String "?" p /\ plain p = true.
Proof.
  unfold legal_variable, print_variable_name, starts_with_qm. destruct x as [|c r]; [discriminate|].
  destruct (Ascii.eqb c "?") eqn:E; intros H; [apply Ascii.eqb_eq in E; subst; now exists r | exists (String c r); split; [reflexivity | exact H]].
Qed.
Lemma variable_token x : legal_variable x = true -> token_of (print_variable_name x) = Ok (TVar (print_variable_name x)).
Proof.
  intros H. destruct (printed_name _ H) as (p & -> & Hp). unfold token_of.
  change (String.eqb (String "?" p) "(") with false. change (String.eqb (String "?" p) ")") with false. change (mem (String "?" p) literals) with false.
  change (mem (lower (String "?" p)) keywords) with false. change (is_name (String "?" p)) with false. cbv iota.
  assert (E : NilZero.int_of_string (String "?" p) = None). { unfold NilZero.int_of_string, NilEmpty.int_of_string. cbn. destruct (NilEmpty.uint_of_string p); reflexivity. }
  rewrite E. now destruct (plain_chars _ Hp) as (_ & _ & ->).
Qed.
Lemma variable_lower x : legal_variable x = true -> lower (print_variable_name x) = print_variable_name x.
Proof. intros H. destruct (printed_name _ H) as (p & -> & Hp). cbn [lower]. rewrite plain_lower by exact Hp. reflexivity. Qed.
Lemma variable_reads x : legal_variable x = true -> reads (print_variable_name x) [A (TVar (print_variable_name x))].
Proof.
  intros H. apply reads_atom; [| | now apply variable_token | discriminate | discriminate].
  - destruct (printed_name _ H) as (p & -> & Hp). discriminate.
  - destruct (printed_name _ H) as (p & -> & Hp). cbn [all_chars]. change (negb (delim "?")) with true. destruct (plain_chars _ Hp) as (_ & H2 & _). exact (all_chars_imp _ _ _ name_delim H2).
Qed.
(** Numerals *)
Definition numeral_char (c : ascii) : bool := is_digit c || Ascii.eqb c "-".
Lemma digits_chars d : all_chars is_digit (NilEmpty.string_of_uint d) = true.
Proof. induction d; cbn; auto. Qed.
Lemma numeral_chars z : exists c r, name_text (CInt z) = String c r /\ numeral_char c = true /\ all_chars numeral_char r = true.
Proof.
  assert (U : forall d, exists c r, NilZero.string_of_uint d = String c r /\ is_digit c = true /\ all_chars is_digit r = true).
  { intros d. destruct d; cbn; eexists; eexists; (split; [reflexivity|split; [reflexivity|]]); try apply digits_chars; reflexivity. }
  assert (D : forall c, is_digit c = true -> numeral_char c = true) by by_bytes.
  cbn [name_text]. destruct (Z.to_int z) as [d|d]; cbn [NilZero.string_of_int]; destruct (U d) as (c & r & E & H1 & H2).
  - exists c, r. split; [exact E|]. split; [now apply D | exact (all_chars_imp _ _ _ D H2)].
  - exists "-"%char, (String c r). rewrite E. split; [reflexivity|]. split; [reflexivity|]. cbn [all_chars]. rewrite (D _ H1). exact (all_chars_imp _ _ _ D H2).
Qed.
Lemma numeral_value z : NilZero.int_of_string (name_text (CInt z)) = Some (Z.to_int z).
Proof.
  cbn [name_text]. destruct (Z.to_int z) as [d|d] eqn:E.
  - apply NilZero.isi; [|discriminate]. intros H. injection H as ->. destruct z as [|p|p]; try discriminate. cbn in E. injection E as E. exact (DecimalPos.Unsigned.to_uint_nonnil _ E).
  - apply NilZero.isi; [discriminate|]. intros H. injection H as ->. destruct z as [|p|p]; try discriminate. cbn in E. injection E as E. exact (DecimalPos.Unsigned.to_uint_nonnil _ E).
Qed.
Lemma numeral_token z : token_of (name_text (CInt z)) = Ok (TNum z).
Proof.
  pose proof (numeral_value z) as V. destruct (numeral_chars z) as (c & r & E & H1 & H2). rewrite E in *.
  assert (P : String.eqb (String c r) "(" = false /\ String.eqb (String c r) ")" = false).
  { pose proof (by_byte numeral_char (fun c => negb (Ascii.eqb c "(") && negb (Ascii.eqb c ")")) eq_refl) as G.
    apply G in H1. cbn beta in H1. rewrite andb_true_iff, !negb_true_iff in H1. cbn [String.eqb]. destruct H1 as [-> ->]. auto. }
  unfold token_of. destruct P as [-> ->].
  assert (L : mem (String c r) literals = false).
  { destruct (mem (String c r) literals) eqn:M; [|reflexivity]. unfold mem in M. apply existsb_exists in M as (k & Hk & Eq). apply String.eqb_eq in Eq. rewrite Eq in V.
    assert (G : forallb (fun k => match NilZero.int_of_string k with None => true | Some _ => false end) literals = true) by (vm_compute; reflexivity).
    rewrite forallb_forall in G. specialize (G k Hk). rewrite V in G. discriminate. }
  assert (K : mem (lower (String c r)) keywords = false).
  { destruct (mem (lower (String c r)) keywords) eqn:M; [|reflexivity]. unfold mem in M. apply existsb_exists in M as (k & Hk & Eq). apply String.eqb_eq in Eq.
    assert (G : forallb (fun k => match k with String a _ => negb (numeral_char a) | EmptyString => true end) keywords = true) by (vm_compute; reflexivity).
    rewrite forallb_forall in G. specialize (G k Hk). rewrite <- Eq in G. cbn [lower] in G.
    pose proof (by_byte numeral_char (fun c => numeral_char (to_lower c)) eq_refl) as Q. apply Q in H1. cbn beta in H1. rewrite H1 in G. discriminate. }
  assert (N : is_name (String c r) = false).
  { cbn [is_name]. pose proof (by_byte numeral_char (fun c => negb (is_alpha c)) eq_refl) as Q. apply Q in H1. cbn beta in H1. rewrite negb_true_iff in H1. now rewrite H1. }
  rewrite L, K, N, V. now rewrite DecimalZ.of_to.
Qed.
Lemma numeral_reads z : reads (name_text (CInt z)) [A (TNum z)].
Proof.
  apply reads_atom; [| | apply numeral_token | discriminate | discriminate]; destruct (numeral_chars z) as (c & r & -> & H1 & H2); [discriminate|].
  pose proof (by_byte numeral_char (fun c => negb (delim c)) eq_refl) as Q. cbn [all_chars]. rewrite (Q _ H1). exact (all_chars_imp _ _ _ Q H2).
Qed.
Lemma key_reads w : (w <> "") -> all_chars (fun c => negb (delim c)) w = true -> token_of w = Ok (TKey w) -> reads w [A (TKey w)].
Proof. intros H1 H2 H3. apply reads_atom; try assumption; discriminate. Qed.
