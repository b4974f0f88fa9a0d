(** The pieces of a text are what the tokenizer finds. *)
From Coq Require Import Ascii ZArith Lia.
From Verif Require Import Base.
From Verif Require Import PddlLex PddlLexSpec.
From Verif Require Asp.
#[local] Open Scope string_scope.

Definition bytes (p : ascii -> bool) : bool := forallb (fun n => p (ascii_of_nat n)) (seq 0 256).
Lemma bytes_ok p : bytes p = true -> forall c, p c = true.
Proof. unfold bytes. rewrite forallb_forall. intros H c. specialize (H (nat_of_ascii c)). rewrite ascii_nat_embedding in H. apply H, in_seq. pose proof (nat_ascii_bounded c). lia. Qed.
Lemma bytes_eq p q : bytes (fun c => Bool.eqb (p c) (q c)) = true -> forall c, p c = q c.
Proof. intros H c. apply Bool.eqb_prop. exact (bytes_ok (fun c => Bool.eqb (p c) (q c)) H c). Qed.
Lemma bytes_imp p q : bytes (fun c => implb (p c) (q c)) = true -> forall c, p c = true -> q c = true.
Proof. intros H c Hc. generalize (bytes_ok (fun c => implb (p c) (q c)) H c). cbv beta. rewrite Hc. intros X; exact X. Qed.
Lemma alpha_letter c : alpha c = letter c. Proof. revert c. apply bytes_eq. vm_compute. reflexivity. Qed.
Lemma num_digit c : num c = digit c. Proof. revert c. apply bytes_eq. vm_compute. reflexivity. Qed.
Lemma id_char_eq c : id_char c = letter c || digit c || dash c. Proof. revert c. apply bytes_eq. vm_compute. reflexivity. Qed.
Lemma alnum_eq c : alnum c = letter c || digit c. Proof. unfold alnum. now rewrite alpha_letter, num_digit. Qed.
Lemma lower_eq s : Asp.lower s = lower_case s.
Proof.
  induction s as [|c s IH]; [reflexivity|]. cbn [Asp.lower lower_case]. rewrite IH. reflexivity.
Qed.
Lemma app_nil s : s ++ "" = s. Proof. induction s as [|c s IH]; [reflexivity|]. cbn. now rewrite IH. Qed.
Lemma app_ass a b c : (a ++ b) ++ c = a ++ (b ++ c). Proof. induction a as [|x a IH]; [reflexivity|]. cbn. now rewrite IH. Qed.
Lemma length_app a b : String.length (a ++ b) = String.length a + String.length b. Proof. induction a as [|x a IH]; [reflexivity|]. cbn. now rewrite IH. Qed.

(** * Repetition *)
Lemma span_all p w rest : all p w = true -> first_is p rest = false -> span p (w ++ rest) = (w, rest).
Proof.
  induction w as [|c w IH]; cbn [all append]; intros A F.
  - destruct rest as [|d rest]; [reflexivity|]. cbn [first_is] in F. cbn [span]. rewrite F. reflexivity.
  - apply andb_true_iff in A as [A1 A2]. cbn [span]. rewrite A1, IH by assumption. reflexivity.
Qed.
Lemma span_gen p s : forall w r, span p s = (w, r) -> s = w ++ r /\ all p w = true /\ first_is p r = false.
Proof.
  induction s as [|c s IH]; intros w r; cbn [span].
  - intros E. injection E as <- <-. auto.
  - destruct (p c) eqn:P.
    + destruct (span p s) as [k r0] eqn:Es. intros E. injection E as <- <-. destruct (IH k r0 eq_refl) as (-> & A & F). cbn [all append]. rewrite P, A. auto.
    + intros E. injection E as <- <-. cbn [append all first_is]. auto.
Qed.
Lemma first_is_eq p q s : (forall c, p c = q c) -> first_is p s = first_is q s.
Proof. intros H. destruct s; cbn; auto. Qed.
Lemma all_eq p q s : (forall c, p c = q c) -> all p s = all q s.
Proof. intros H. induction s as [|c s IH]; cbn; [reflexivity|]. now rewrite H, IH. Qed.
Lemma span_eq p q s : (forall c, p c = q c) -> span p s = span q s.
Proof. intros H. induction s as [|c s IH]; cbn; [reflexivity|]. now rewrite H, IH. Qed.
Lemma all_first p w rest : all p w = true -> w <> "" -> first_is p (w ++ rest) = true.
Proof. destruct w as [|c w]; [congruence|]. cbn. intros A _. apply andb_true_iff in A. apply A. Qed.

(** * Names *)
Definition tail_ok (w : string) : Prop := all (fun c => letter c || digit c || dash c) w = true /\ (w = "" \/ last_is (fun c => letter c || digit c) w = true).
Lemma id_tail_stop rest : ~ continues rest -> id_tail rest = ("", rest).
Proof.
  induction rest as [|c rest IH]; intros N; [reflexivity|]. cbn [id_tail]. rewrite id_char_eq. destruct (letter c || digit c) eqn:L.
  - exfalso. apply N. exists "", c, rest. auto.
  - cbn [orb]. destruct (dash c) eqn:D; [|reflexivity]. rewrite IH.
    + rewrite alnum_eq, L. reflexivity.
    + intros (a & d & b & -> & A & Hd). apply N. exists (String c a), d, b. cbn [append all]. rewrite D, A. auto.
Qed.
Lemma id_tail_app w rest : tail_ok w -> ~ continues rest -> id_tail (w ++ rest) = (w, rest).
Proof.
  induction w as [|c w IH]; intros [A L] N; [exact (id_tail_stop rest N)|]. cbn [all] in A. apply andb_true_iff in A as [A1 A2]. destruct L as [L|L]; [discriminate|]. cbn [append id_tail]. rewrite id_char_eq, A1. cbn [last_is] in L. destruct w as [|d w].
  - cbn [append]. rewrite (id_tail_stop rest N), alnum_eq, L. reflexivity.
  - rewrite IH; [reflexivity| |exact N]. split; auto.
Qed.
Lemma id_tail_gen s : forall w r, id_tail s = (w, r) -> s = w ++ r /\ tail_ok w /\ ~ continues r.
Proof.
  induction s as [|c s IH]; intros w r; cbn [id_tail].
  - intros E. injection E as <- <-. split; [reflexivity|]. split; [split; auto|]. intros (a & d & b & K & _). destruct a; discriminate.
  - rewrite id_char_eq, alnum_eq. destruct (id_tail s) as [k r0]. destruct (IH k r0 eq_refl) as (-> & [T1 T2] & N). clear IH. destruct (letter c || digit c) eqn:L; [|destruct (dash c) eqn:D]; cbn [orb negb].
    + rewrite andb_false_r. intros E. injection E as <- <-. split; [reflexivity|]. split; [|exact N]. split; [cbn [all]; rewrite L, T1; reflexivity|right]. cbn [last_is]. destruct k as [|d k]; [exact L|]. destruct T2 as [T2|T2]; [discriminate|exact T2].
    + destruct (String.eqb_spec k "") as [->|K]; cbn [andb]; intros E; injection E as <- <-.
      * split; [reflexivity|]. split; [split; auto|]. intros (a & d & b & E & A & Hd). destruct a as [|a0 a]; cbn [append] in E.
        -- injection E as <- <-. congruence.
        -- injection E as <- E. cbn [all] in A. apply andb_true_iff in A as [_ A]. apply N. exists a, d, b. auto.
      * split; [reflexivity|]. split; [|exact N]. split; [cbn [all]; rewrite D, T1, orb_true_r; reflexivity|right]. cbn [last_is]. destruct k as [|d k]; [congruence|]. destruct T2 as [T2|T2]; [discriminate|exact T2].
    + intros E. injection E as <- <-. split; [reflexivity|]. split; [split; auto|]. intros (a & d & b & E & A & Hd). destruct a as [|a0 a]; cbn [append] in E.
      * injection E as <- <-. congruence.
      * injection E as <- E. cbn [all] in A. rewrite D in A. discriminate.
Qed.
Lemma name_cons c k : letter c = true -> tail_ok k -> name (String c k).
Proof. intros L [A T]. split; [exact L|]. split; [cbn [all]; rewrite L; exact A|]. cbn [last_is]. destruct k as [|d k]; [rewrite L; reflexivity|]. destruct T as [T|T]; [discriminate|exact T]. Qed.
Lemma name_inv w : name w -> exists c k, w = String c k /\ letter c = true /\ tail_ok k.
Proof.
  intros (F & A & L). destruct w as [|c k]; [discriminate|]. exists c, k. split; [reflexivity|]. split; [exact F|]. cbn [all] in A. apply andb_true_iff in A as [_ A]. split; [exact A|]. destruct k as [|d k]; [auto|]. right. exact L.
Qed.
Lemma m_identifier_name w rest : name w -> ~ continues rest -> m_identifier (w ++ rest) = Some (w, rest).
Proof. intros Hw N. destruct (name_inv w Hw) as (c & k & -> & L & T). cbn [append m_identifier]. rewrite alpha_letter, L, (id_tail_app k rest T N). reflexivity. Qed.
Lemma m_identifier_some s w r : m_identifier s = Some (w, r) -> s = w ++ r /\ name w /\ ~ continues r.
Proof.
  destruct s as [|c s]; [discriminate|]. cbn [m_identifier]. rewrite alpha_letter. destruct (letter c) eqn:L; [|discriminate]. destruct (id_tail s) as [k r0] eqn:E. intros X. injection X as <- <-. destruct (id_tail_gen s k r0 E) as (-> & T & N). split; [reflexivity|]. split; [exact (name_cons c k L T)|exact N].
Qed.
Lemma m_identifier_none s : first_is letter s = false -> m_identifier s = None.
Proof. destruct s as [|c s]; [reflexivity|]. intros H. assert (A : alpha c = false) by exact (eq_trans (alpha_letter c) H). cbn [m_identifier]. rewrite A. reflexivity. Qed.
Lemma m_identifier_none_inv s : m_identifier s = None -> first_is letter s = false.
Proof. destruct s as [|c s]; [reflexivity|]. cbn [m_identifier first_is]. intros H. assert (A := alpha_letter c). destruct (alpha c); [|auto]. destruct (id_tail s). discriminate. Qed.

(** * Words of the language *)
Lemma find_lookup w l : option_map snd (find (fun p => String.eqb (fst p) w) l) = lookup w l.
Proof. induction l as [|[x t] l IH]; [reflexivity|]. cbn. destruct (String.eqb x w); [reflexivity|exact IH]. Qed.
Lemma lookup_None w l : ~ In w (map fst l) -> lookup w l = None.
Proof. induction l as [|[x t] l IH]; [reflexivity|]. cbn. intros N. destruct (String.eqb_spec x w) as [E|E]; [exfalso; auto|auto]. Qed.
Definition same (a b : option string) : bool := match a, b with Some x, Some y => String.eqb x y | None, None => true | _, _ => false end.
Definition agree (P : string -> bool) (l l' : list (string * string)) : bool := forallb (fun k => implb (P k) (same (lookup k l) (lookup k l'))) (map fst l ++ map fst l').
Lemma lookup_agree P l l' w : agree P l l' = true -> P w = true -> lookup w l = lookup w l'.
Proof.
  unfold agree. rewrite forallb_forall. intros H HP. destruct (in_dec string_dec w (map fst l ++ map fst l')) as [I|I].
  - specialize (H w I). rewrite HP in H. cbn [implb] in H. destruct (lookup w l), (lookup w l'); cbn in H; try discriminate; [|reflexivity]. apply String.eqb_eq in H. now rewrite H.
  - rewrite in_app_iff in I. rewrite !lookup_None by tauto. reflexivity.
Qed.
Lemma type_or_eq P l w d : agree P (rev symbols) l = true -> P w = true -> type_or w d = named w l d.
Proof. intros A HP. unfold type_or, named, reserved_get. rewrite find_lookup, (lookup_agree P _ l w A HP). reflexivity. Qed.
Lemma type_word w : name w -> type_or w "ID" = named w keywords "ID".
Proof. intros (F & _). apply (type_or_eq (first_is letter)); [vm_compute; reflexivity|exact F]. Qed.
Lemma type_directive w : type_or (":" ++ w) "UNKNOWN_DIRECTIVE" = named (":" ++ w) directives "UNKNOWN_DIRECTIVE".
Proof. apply (type_or_eq (first_is (Ascii.eqb ":"))); [vm_compute; reflexivity|reflexivity]. Qed.
Lemma type_variable w : type_or ("?" ++ w) "VAR" = "VAR".
Proof. apply (type_or_eq (first_is (Ascii.eqb "?")) []); [vm_compute; reflexivity|reflexivity]. Qed.

(** * Numbers *)
Lemma int_from_number s : forall acc, int_from acc s = (acc * 10 ^ Z.of_nat (String.length s) + number s)%Z.
Proof.
  induction s as [|c s IH]; intros acc; cbn [int_from number String.length]; [lia|]. rewrite IH. unfold digit_value. rewrite Nat2Z.inj_succ, Z.pow_succ_r by lia. lia.
Qed.
Lemma number_app a b : number (a ++ b) = (number a * 10 ^ Z.of_nat (String.length b) + number b)%Z.
Proof. induction a as [|c a IH]; cbn [append number String.length]; [lia|]. rewrite length_app, Nat2Z.inj_add, Z.pow_add_r, IH by lia. ring. Qed.

(** * Steps *)
Lemma not_class p q c : bytes (fun c => implb (p c) (negb (q c))) = true -> p c = true -> q c = false.
Proof. intros H Hc. apply negb_true_iff. exact (bytes_imp p (fun c => negb (q c)) H c Hc). Qed.
Lemma m_newline_none c s : Ascii.eqb newline c = false -> m_newline (String c s) = None.
Proof. intros H. unfold m_newline, m_plus. cbn [span]. rewrite H. reflexivity. Qed.
Lemma m_after_none x m c s : Ascii.eqb c x = false -> m_after x m (String c s) = None.
Proof. intros H. cbn [m_after]. rewrite H. reflexivity. Qed.
Lemma step_letter c s : letter c = true -> lex_step c s = match id_tail s with (k, r) => Emit (type_or (String c k) "ID") (Text (Asp.lower (String c k))) r end.
Proof.
  intros L. unfold lex_step. rewrite (not_class letter ignored c) by (vm_compute; reflexivity || exact L). rewrite m_newline_none by (apply (not_class letter (Ascii.eqb newline) c); [vm_compute; reflexivity|exact L]).
  unfold m_comment. rewrite m_after_none by (apply (not_class letter (fun c => Ascii.eqb c ";") c); [vm_compute; reflexivity|exact L]). cbn [m_identifier]. rewrite alpha_letter, L. destruct (id_tail s). reflexivity.
Qed.
Lemma step_question s : lex_step "?" s = match m_identifier s with Some m => Emit (type_or (String "?" (fst m)) "VAR") (Text (String "?" (fst m))) (snd m) | None => Emit "QUESTION" (Text "?") s end.
Proof. unfold lex_step. destruct (m_identifier s) as [m|] eqn:E; cbn - [m_identifier type_or]; rewrite E; reflexivity. Qed.
Lemma step_colon s : lex_step ":" s = match m_identifier s with Some m => Emit (type_or (String ":" (fst m)) "UNKNOWN_DIRECTIVE") (Text (String ":" (fst m))) (snd m) | None =>
  match m_after "(" m_identifier s with Some m => Skip 0 (snd m) | None => Skip 0 s end end.
Proof.
  unfold lex_step. change (ignored ":") with false. change (m_newline (String ":" s)) with (@None (string * string)). change (m_comment (String ":" s)) with (@None (string * string)). change (m_identifier (String ":" s)) with (@None (string * string)).
  change (m_variable (String ":" s)) with (@None (string * string)). change (m_directive (String ":" s)) with (option_map (fun r => (String ":" (fst r), snd r)) (m_identifier s)).
  change (m_section (String ":" s)) with (option_map (fun r => (String ":" (fst r), snd r)) (m_after "(" m_identifier s)). destruct (m_identifier s) as [m|]; [reflexivity|]. destruct (m_after "(" m_identifier s) as [m|]; reflexivity.
Qed.
Lemma step_digit c s : digit c = true -> lex_step c s =
  match m_real (String c s) with Some m => Emit "REAL" (Decimals (int_from 0 (fst (fst m) ++ snd (fst m))) (String.length (snd (fst m)))) (snd m) | None => Emit "NAT" (Int (int_from 0 (fst (span num (String c s))))) (snd (span num (String c s))) end.
Proof.
  intros L. unfold lex_step. rewrite (not_class digit ignored c) by (vm_compute; reflexivity || exact L). rewrite m_newline_none by (apply (not_class digit (Ascii.eqb newline) c); [vm_compute; reflexivity|exact L]).
  unfold m_comment. rewrite m_after_none by (apply (not_class digit (fun c => Ascii.eqb c ";") c); [vm_compute; reflexivity|exact L]). rewrite (m_identifier_none (String c s)) by (apply (not_class digit letter c); [vm_compute; reflexivity|exact L]).
  unfold m_variable, m_directive, m_section. rewrite m_after_none by (apply (not_class digit (fun c => Ascii.eqb c "?") c); [vm_compute; reflexivity|exact L]). rewrite !m_after_none by (apply (not_class digit (fun c => Ascii.eqb c ":") c); [vm_compute; reflexivity|exact L]).
  destruct (m_real (String c s)); [reflexivity|]. unfold m_nat, m_plus. destruct (span num (String c s)) as [k r] eqn:E. cbn [span] in E. rewrite num_digit, L in E. destruct (span num s). injection E as <- <-. reflexivity.
Qed.
Lemma step_dot s : lex_step "." s = match m_plus num s with Some m => Emit "REAL" (Decimals (int_from 0 (fst m)) (String.length (fst m))) (snd m) | None => match strip "." s with Some r => Emit "DOUBLEDOT" (Text "..") r | None => Skip 0 s end end.
Proof.
  unfold lex_step. change (ignored ".") with false. change (m_newline (String "." s)) with (@None (string * string)). change (m_comment (String "." s)) with (@None (string * string)). change (m_identifier (String "." s)) with (@None (string * string)).
  change (m_variable (String "." s)) with (@None (string * string)). change (m_directive (String "." s)) with (@None (string * string)). change (m_section (String "." s)) with (@None (string * string)). cbv iota.
  change (m_real (String "." s)) with (option_map (fun m : string * string => ("", fst m, snd m)) (m_plus num s)). change (m_nat (String "." s)) with (@None (string * string)). destruct (m_plus num s) as [m|]; [reflexivity|]. cbn [option_map].
  change (first_rule string_rules (String "." s)) with (match strip "." s with Some r => Some ("..", "DOUBLEDOT", r) | None => None end). destruct (strip "." s); reflexivity.
Qed.
Lemma step_ignored c s : ignored c = true -> lex_step c s = Skip 0 s. Proof. intros H. unfold lex_step. rewrite H. reflexivity. Qed.
Lemma step_newline s : lex_step newline s = Skip (S (String.length (fst (span (Ascii.eqb newline) s)))) (snd (span (Ascii.eqb newline) s)).
Proof. unfold lex_step, m_newline, m_plus. change (ignored newline) with false. cbn [span]. change (Ascii.eqb newline newline) with true. cbv iota. destruct (span (Ascii.eqb newline) s). reflexivity. Qed.
Lemma step_semicolon s : lex_step ";" s = Skip 0 (snd (span (fun c => negb (Ascii.eqb c newline)) s)). Proof. reflexivity. Qed.
Definition sign_char (c : ascii) : bool := existsb (Ascii.eqb c) ["("; ")"; "="; "<"; ">"; "+"; "-"; "*"; "/"; "?"; "."; ":"; ";"]%char.
Lemma strip_none x p c s : Ascii.eqb x c = false -> strip (String x p) (String c s) = None. Proof. intros H. cbn [strip]. rewrite H. reflexivity. Qed.
Lemma step_strange c s : blank c = false -> letter c = false -> digit c = false -> sign_char c = false -> lex_step c s = Skip 0 s.
Proof.
  intros B L D S. unfold lex_step. assert (X : forall x, In x ["("; ")"; "="; "<"; ">"; "+"; "-"; "*"; "/"; "?"; "."; ":"; ";"]%char -> Ascii.eqb c x = false).
  { intros x I. apply not_true_is_false. intros E. assert (sign_char c = true) by (apply existsb_exists; eauto). congruence. }
  assert (X' : forall x, In x ["("; ")"; "="; "<"; ">"; "+"; "-"; "*"; "/"; "?"; "."; ":"; ";"]%char -> Ascii.eqb x c = false) by (intros x I; rewrite Ascii.eqb_sym; auto).
  unfold blank in B. apply orb_false_iff in B as [B B3]. change (ignored c) with (Ascii.eqb c " " || Ascii.eqb c (ascii_of_nat 9)). rewrite B. rewrite m_newline_none by (rewrite Ascii.eqb_sym; exact B3).
  unfold m_comment. rewrite m_after_none by (apply X; cbn; tauto). rewrite (m_identifier_none (String c s)) by exact L. unfold m_variable, m_directive, m_section. rewrite !m_after_none by (apply X; cbn; tauto).
  assert (Sp : span num (String c s) = ("", String c s)) by (cbn [span]; rewrite num_digit, D; reflexivity).
  unfold m_real. rewrite Sp. cbn [snd]. rewrite (X "."%char) by (cbn; tauto). unfold m_nat, m_plus. rewrite Sp. cbn [fst String.eqb]. unfold string_rules. cbn [first_rule]. rewrite !strip_none by (apply X'; cbn; tauto). reflexivity.
Qed.
