(** The tokenizer and the pieces. *)
From Coq Require Import Ascii ZArith Lia.
From Verif Require Import Base.
From Verif Require Import PddlLex PddlLexSpec PddlLexProofs.
From Verif Require Asp.
#[local] Open Scope string_scope.

(** * Every step consumes something *)
Definition rest_of (a : action) : string := match a with Emit _ _ r => r | Skip _ r => r end.
Lemma span_length p s : String.length (fst (span p s)) + String.length (snd (span p s)) = String.length s.
Proof. destruct (span p s) as [w r] eqn:E. destruct (span_gen p s w r E) as (-> & _). now rewrite length_app. Qed.
Lemma m_plus_length p s m : m_plus p s = Some m -> String.length (snd m) < String.length s.
Proof. unfold m_plus. destruct (String.eqb_spec (fst (span p s)) "") as [E|E]; [discriminate|]. intros X. injection X as <-. assert (H := span_length p s). destruct (fst (span p s)); [congruence|]. cbn [String.length] in H. lia. Qed.
Lemma m_identifier_length s m : m_identifier s = Some m -> String.length (snd m) < String.length s.
Proof. destruct m as [w r]. intros H. destruct (m_identifier_some s w r H) as (-> & (F & _) & _). destruct w; [discriminate|]. cbn [snd append String.length]. rewrite length_app. lia. Qed.
Lemma m_after_length x f s m : (forall s' m', f s' = Some m' -> String.length (snd m') <= String.length s') -> m_after x f s = Some m -> String.length (snd m) < String.length s.
Proof. intros H. destruct s as [|c s]; [discriminate|]. cbn [m_after]. destruct (Ascii.eqb c x); [|discriminate]. destruct (f s) as [m'|] eqn:E; [|discriminate]. intros X. injection X as <-. cbn [snd String.length]. apply H in E. lia. Qed.
Lemma m_real_length s m : m_real s = Some m -> String.length (snd m) < String.length s.
Proof.
  unfold m_real. assert (H := span_length num s). destruct (snd (span num s)) as [|c r]; [discriminate|]. destruct (Ascii.eqb c "."); [|discriminate]. destruct (m_plus num r) as [m'|] eqn:E; [|discriminate]. intros X. injection X as <-. cbn [snd]. apply m_plus_length in E. cbn [String.length] in H. lia.
Qed.
Lemma strip_length x s : forall r, strip x s = Some r -> String.length r + String.length x = String.length s.
Proof. revert s. induction x as [|c x IH]; intros s r; [intros E; injection E as <-; cbn; lia|]. destruct s as [|d s]; [discriminate|]. cbn [strip]. destruct (Ascii.eqb c d); [|discriminate]. intros E. apply IH in E. cbn [String.length]. lia. Qed.
Lemma first_rule_length rules s m : Forall (fun p => fst p <> "") rules -> first_rule rules s = Some m -> String.length (snd m) < String.length s.
Proof.
  induction 1 as [|[x t] rules N _ IH]; cbn [first_rule]; [discriminate|]. destruct (strip x s) as [r|] eqn:E; [|exact IH]. intros X. injection X as <-. cbn [snd]. apply strip_length in E. cbn [fst] in N. destruct x; [congruence|]. cbn [String.length] in E. lia.
Qed.
Lemma step_length c s : String.length (rest_of (lex_step c s)) <= String.length s.
Proof.
  unfold lex_step. destruct (ignored c); [cbn; lia|]. set (t := String c s). assert (T : String.length t = S (String.length s)) by reflexivity.
  destruct (m_newline t) as [m|] eqn:E1; [apply m_plus_length in E1; cbn [rest_of]; lia|].
  destruct (m_comment t) as [m|] eqn:E2. { apply m_after_length in E2; [cbn [rest_of]; lia|]. intros s' m' X. injection X as <-. assert (H := span_length (fun c => negb (Ascii.eqb c newline)) s'). lia. }
  destruct (m_identifier t) as [m|] eqn:E3; [apply m_identifier_length in E3; cbn [rest_of]; lia|].
  assert (I : forall s' m', m_identifier s' = Some m' -> String.length (snd m') <= String.length s') by (intros s' m' H; apply m_identifier_length in H; lia).
  destruct (m_variable t) as [m|] eqn:E4; [apply (m_after_length "?" _ _ _ I) in E4; cbn [rest_of]; lia|].
  destruct (m_directive t) as [m|] eqn:E5; [apply (m_after_length ":" _ _ _ I) in E5; cbn [rest_of]; lia|].
  destruct (m_section t) as [m|] eqn:E6. { apply m_after_length in E6; [cbn [rest_of]; lia|]. intros s' m' H. apply (m_after_length "(" _ _ _ I) in H. lia. }
  destruct (m_real t) as [m|] eqn:E7; [apply m_real_length in E7; cbn [rest_of]; lia|].
  destruct (m_nat t) as [m|] eqn:E8; [apply m_plus_length in E8; cbn [rest_of]; lia|].
  destruct (first_rule string_rules t) as [m|] eqn:E9; [|cbn [rest_of]; lia]. apply first_rule_length in E9; [cbn [rest_of]; lia|]. unfold string_rules. repeat (apply Forall_cons; [cbn [fst]; discriminate|]). apply Forall_nil.
Qed.
Lemma lex_enough n : forall m line s, String.length s <= n -> n <= m -> lex m line s = lex n line s.
Proof.
  induction n as [|n IH]; intros m line s L M.
  - destruct s; [|cbn in L; lia]. destruct m; reflexivity.
  - destruct m as [|m]; [lia|]. destruct s as [|c s]; [reflexivity|]. cbn [lex]. cbn [String.length] in L. assert (H := step_length c s). destruct (lex_step c s) as [ty v r|k r]; cbn [rest_of] in H; rewrite (IH m) by lia; reflexivity.
Qed.
Lemma tokenize_step line c s : tokenize line (String c s) =
  match lex_step c s with Emit ty v r => ({| t_line := line; t_type := ty; t_value := v |} :: fst (tokenize line r), snd (tokenize line r))%list | Skip k r => tokenize (line + k) r end.
Proof.
  unfold tokenize. cbn [String.length lex]. assert (H := step_length c s). destruct (lex_step c s) as [ty v r|k r]; cbn [rest_of] in H.
  - rewrite (lex_enough (String.length r) (String.length s)) by lia. destruct (lex (String.length r) line r). reflexivity.
  - rewrite (lex_enough (String.length r) (String.length s)) by lia. reflexivity.
Qed.

(** * The pieces determine the tokens *)
Lemma tokenize_newline s : forall line, tokenize line (String newline s) = tokenize (line + 1) s.
Proof.
  intros line. rewrite tokenize_step, step_newline. destruct (span (Ascii.eqb newline) s) as [w r] eqn:E. cbn [fst snd]. destruct (span_gen _ _ _ _ E) as (-> & A & F). destruct w as [|c w]; [cbn [append String.length]; reflexivity|].
  cbn [all] in A. apply andb_true_iff in A as [A1 A2]. apply Ascii.eqb_eq in A1. subst c. cbn [append String.length]. rewrite tokenize_step, step_newline, (span_all _ w r A2 F). cbn [fst snd]. f_equal. lia.
Qed.
Lemma not_continues_dashless rest : ~ continues rest -> first_is letter rest = false.
Proof. intros N. destruct rest as [|c rest]; [reflexivity|]. cbn. apply not_true_is_false. intros L. apply N. exists "", c, rest. rewrite L. auto. Qed.
Definition emitted (line : nat) (p : piece) : list token := match sense p with Some (ty, v) => [{| t_line := line; t_type := ty; t_value := v |}] | None => [] end.
Lemma digits_cons ds : digits ds -> exists c k, ds = String c k /\ digit c = true /\ all digit k = true.
Proof. intros [N A]. destruct ds as [|c k]; [congruence|]. cbn [all] in A. apply andb_true_iff in A as [A1 A2]. eauto. Qed.
Lemma span_num ds rest : all digit ds = true -> first_is digit rest = false -> span num (ds ++ rest) = (ds, rest).
Proof. intros A F. rewrite (span_eq num digit) by apply num_digit. apply span_all; assumption. Qed.
Lemma m_plus_num ds rest : digits ds -> first_is digit rest = false -> m_plus num (ds ++ rest) = Some (ds, rest).
Proof. intros [N A] F. unfold m_plus. rewrite span_num by assumption. cbn [fst]. destruct (String.eqb_spec ds ""); [congruence|reflexivity]. Qed.
Lemma m_plus_num_none rest : first_is digit rest = false -> m_plus num rest = None.
Proof. intros F. unfold m_plus. assert (E := span_num "" rest eq_refl F). cbn [append] in E. rewrite E. reflexivity. Qed.
Lemma m_real_app ds fs rest : all digit ds = true -> digits fs -> first_is digit rest = false -> m_real (ds ++ "." ++ fs ++ rest) = Some (ds, fs, rest).
Proof. intros A D F. unfold m_real. rewrite span_num by (exact A || reflexivity). cbn [snd append]. change (Ascii.eqb "." ".") with true. cbv iota. rewrite m_plus_num by assumption. reflexivity. Qed.
Lemma m_real_none ds rest : all digit ds = true -> first_is digit rest = false -> (forall r, rest = "." ++ r -> first_is digit r = false) -> m_real (ds ++ rest) = None.
Proof.
  intros A F H. unfold m_real. rewrite span_num by assumption. cbn [snd]. destruct rest as [|c r]; [reflexivity|]. destruct (Ascii.eqb_spec c ".") as [->|N]; [|reflexivity]. rewrite (m_plus_num_none r) by (apply H; reflexivity). reflexivity.
Qed.
Lemma strange_sign c rest : proper_piece (Strange c) rest -> c <> ":"%char -> c <> "."%char -> sign_char c = false.
Proof.
  intros (_ & _ & _ & S & N & _) N1 N2. apply not_true_is_false. intros H. apply existsb_exists in H as (x & I & E). apply Ascii.eqb_eq in E. subst x.
  cbn [In] in I. repeat (destruct I as [<-|I]; [solve [congruence | (eapply N; unfold signs; cbn [In]; eauto 20)]|]). destruct I.
Qed.
Lemma piece_step p rest : proper_piece p rest -> forall line, tokenize line (written p ++ rest) = ((emitted line p ++ fst (tokenize (line + line_end p) rest))%list, snd (tokenize (line + line_end p) rest)).
Proof.
  assert (Z : forall line, line + 0 = line) by (intros; lia).
  assert (P : forall line s, (([] ++ fst (tokenize line s))%list, snd (tokenize line s)) = tokenize line s) by (intros line s; destruct (tokenize line s); reflexivity).
  intros Hp line. destruct p as [w|w|w|w|ds|ds fs|x|c|s|c]; cbn [proper_piece] in Hp; unfold emitted; cbn [sense line_end written]; rewrite ?Z, ?P.
  - destruct Hp as [Hw N]. destruct (name_inv w Hw) as (c & k & -> & L & T). cbn [append]. rewrite tokenize_step, (step_letter c _ L), (id_tail_app k rest T N), (type_word _ Hw), lower_eq. reflexivity.
  - destruct Hp as [Hw N]. cbn [append]. rewrite tokenize_step, step_question, (m_identifier_name w rest Hw N). cbn [fst snd]. change (String "?" w) with ("?" ++ w). rewrite type_variable. reflexivity.
  - destruct Hp as [Hw N]. cbn [append]. rewrite tokenize_step, step_colon, (m_identifier_name w rest Hw N). cbn [fst snd]. change (String ":" w) with (":" ++ w). rewrite type_directive. reflexivity.
  - destruct Hp as [Hw N]. cbn [append]. rewrite tokenize_step, step_colon. rewrite (m_identifier_none (String "(" (w ++ rest)) eq_refl). cbn [m_after]. change (Ascii.eqb "(" "(") with true. cbv iota. rewrite (m_identifier_name w rest Hw N). cbn [option_map snd]. rewrite Z. reflexivity.
  - destruct Hp as (D & F & H). destruct (digits_cons ds D) as (c & k & -> & Dc & Dk). destruct D as [_ D]. cbn [append]. rewrite tokenize_step, (step_digit c _ Dc). change (String c (k ++ rest)) with (String c k ++ rest). rewrite (m_real_none _ rest D F H), (span_num _ rest D F). cbn [fst snd]. rewrite int_from_number. reflexivity.
  - destruct Hp as (D & Df & F). destruct ds as [|c k].
    + cbn [append]. rewrite tokenize_step, step_dot, (m_plus_num fs rest Df F). cbn [fst snd]. rewrite int_from_number. reflexivity.
    + assert (Dc := D). cbn [all] in Dc. apply andb_true_iff in Dc as [Dc _]. rewrite app_ass. cbn [append]. rewrite tokenize_step, (step_digit c _ Dc). change (String c (k ++ String "." (fs ++ rest))) with (String c k ++ "." ++ fs ++ rest). rewrite (m_real_app _ fs rest D Df F). cbn [fst snd]. rewrite int_from_number, number_app. reflexivity.
  - destruct Hp as ((t & I) & H1 & H2). unfold signs in I. cbn [In] in I.
    repeat (destruct I as [I|I]; [injection I as <- <-|]); [..|destruct I]; cbn [append]; rewrite tokenize_step.
    all: try reflexivity.
    + assert (F := H1 (or_introl eq_refl)). destruct rest as [|d r]; [reflexivity|]. cbn [first_is] in F. rewrite Ascii.eqb_sym in F. replace (lex_step "<" (String d r)) with (Emit "LT" (Text "<") (String d r)); [reflexivity|]. unfold lex_step. cbn - [Ascii.eqb]. change (Ascii.eqb "<" "<") with true. cbv iota. rewrite F. reflexivity.
    + assert (F := H1 (or_intror eq_refl)). destruct rest as [|d r]; [reflexivity|]. cbn [first_is] in F. rewrite Ascii.eqb_sym in F. replace (lex_step ">" (String d r)) with (Emit "GT" (Text ">") (String d r)); [reflexivity|]. unfold lex_step. cbn - [Ascii.eqb]. change (Ascii.eqb ">" ">") with true. cbv iota. rewrite F. reflexivity.
    + rewrite step_question, (m_identifier_none rest (H2 eq_refl)). reflexivity.
  - cbn [append]. unfold blank in Hp. destruct (Ascii.eqb c end_of_line) eqn:E.
    + apply Ascii.eqb_eq in E. subst c. change end_of_line with newline. rewrite tokenize_newline. reflexivity.
    + rewrite orb_false_r in Hp. rewrite tokenize_step, (step_ignored c rest Hp). reflexivity.
  - destruct Hp as [A F]. cbn [append]. rewrite tokenize_step, step_semicolon, span_all. 
    + cbn [snd]. rewrite Z. reflexivity. + exact A. + destruct F as [->|F]; [reflexivity|]. destruct rest; [discriminate|]. cbn [first_is] in *. change newline with end_of_line. rewrite F. reflexivity.
  - cbn [append]. assert (Hp' := Hp : proper_piece (Strange c) rest). destruct Hp as (B & L & D & S & N & H1 & H2). rewrite tokenize_step. destruct (Ascii.eqb_spec c ":") as [E|E1]; [|destruct (Ascii.eqb_spec c ".") as [E|E2]].
    + subst c. destruct (H1 eq_refl) as [F1 F2]. rewrite step_colon, (m_identifier_none rest F1). destruct rest as [|d r]; [cbn [m_after]; rewrite Z; reflexivity|]. cbn [m_after]. destruct (Ascii.eqb_spec d "(") as [->|Nd]; [|rewrite Z; reflexivity].
      rewrite (m_identifier_none r (F2 r eq_refl)). cbn [option_map]. rewrite Z. reflexivity.
    + subst c. destruct (H2 eq_refl) as [F1 F2]. rewrite step_dot, (m_plus_num_none rest F1). destruct rest as [|d r]; [cbn [strip]; rewrite Z; reflexivity|]. cbn [first_is] in F2. rewrite Ascii.eqb_sym in F2. cbn [strip]. rewrite F2, Z. reflexivity.
    + rewrite (step_strange c rest B L D (strange_sign c rest Hp' E1 E2)), Z. reflexivity.
Qed.
Lemma splits_tokens s ps : splits s ps -> forall line, fst (tokenize line s) = tokens_of line ps.
Proof. induction 1 as [|p ps rest Hp _ IH]; intros line; [reflexivity|]. rewrite (piece_step p rest Hp). cbn [fst tokens_of]. rewrite IH. reflexivity. Qed.

(** * Every text has pieces *)
Lemma exists_piece c s : exists p rest, String c s = written p ++ rest /\ proper_piece p rest /\ String.length rest <= String.length s.
Proof.
  destruct (blank c) eqn:B. { exists (Blank c), s. auto. }
  destruct (letter c) eqn:L. { destruct (id_tail s) as [k r] eqn:E. destruct (id_tail_gen s k r E) as (-> & T & N). exists (Word (String c k)), r. split; [reflexivity|]. split; [split; [exact (name_cons c k L T)|exact N]|]. rewrite length_app. lia. }
  destruct (digit c) eqn:D.
  { destruct (span digit (String c s)) as [ds r] eqn:E. destruct (span_gen _ _ _ _ E) as (Es & A & F). assert (Nd : ds <> ""). { intros ->. cbn [append] in Es. subst r. cbn in F. congruence. }
    assert (Lr : String.length r <= String.length s). { apply (f_equal String.length) in Es. rewrite length_app in Es. destruct ds; [congruence|]. cbn [String.length] in Es. lia. }
    destruct r as [|d r']; [|destruct (Ascii.eqb_spec d ".") as [->|Nd']; [destruct (first_is digit r') eqn:F'|]].
    - exists (Natural ds), "". split; [exact Es|]. split; [|exact Lr]. split; [split; assumption|]. split; [exact F|]. intros r K. discriminate.
    - destruct (span digit r') as [fs r2] eqn:E2. destruct (span_gen _ _ _ _ E2) as (-> & A2 & F2). exists (Decimal ds fs), r2. split; [rewrite Es; cbn [written]; rewrite app_ass; reflexivity|]. split.
      + split; [exact A|]. split; [|exact F2]. split; [|exact A2]. intros ->. cbn [append] in F'. congruence.
      + cbn [String.length] in Lr. rewrite length_app in Lr. lia.
    - exists (Natural ds), (String "." r'). split; [exact Es|]. split; [|exact Lr]. split; [split; assumption|]. split; [exact F|]. intros r K. cbn [append] in K. injection K as <-. exact F'.
    - exists (Natural ds), (String d r'). split; [exact Es|]. split; [|exact Lr]. split; [split; assumption|]. split; [exact F|]. intros r K. cbn [append] in K. congruence. }
  destruct (Ascii.eqb_spec c ";") as [->|Nc].
  { destruct (span (fun c => negb (Ascii.eqb c end_of_line)) s) as [w r] eqn:E. destruct (span_gen _ _ _ _ E) as (-> & A & F). exists (Comment w), r. split; [reflexivity|]. split; [|rewrite length_app; lia]. split; [exact A|]. destruct r as [|d r]; [auto|right]. cbn [first_is] in *. apply negb_false_iff. exact F. }
  destruct (Ascii.eqb_spec c "?") as [->|Nq].
  { destruct (m_identifier s) as [[w r]|] eqn:E.
    - destruct (m_identifier_some s w r E) as (-> & Hw & N). exists (VarName w), r. split; [reflexivity|]. split; [split; assumption|]. rewrite length_app. lia.
    - exists (Sign "?"), s. split; [reflexivity|]. split; [|lia]. split; [exists "QUESTION"; unfold signs; cbn [In]; eauto 20|]. split; [intros [K|K]; discriminate|]. intros _. exact (m_identifier_none_inv s E). }
  destruct (Ascii.eqb_spec c ":") as [->|Nk].
  { destruct (m_identifier s) as [[w r]|] eqn:E.
    - destruct (m_identifier_some s w r E) as (-> & Hw & N). exists (Directive w), r. split; [reflexivity|]. split; [split; assumption|]. rewrite length_app. lia.
    - apply m_identifier_none_inv in E. assert (St : (forall r, s = "(" ++ r -> first_is letter r = false) -> proper_piece (Strange ":") s).
      { intros H. split; [exact B|]. split; [exact L|]. split; [exact D|]. split; [discriminate|]. split; [|split; [auto|intros K; discriminate]]. intros t I. unfold signs in I. cbn [In] in I. repeat (destruct I as [I|I]; [discriminate|]). exact I. }
      destruct s as [|d s']; [|destruct (Ascii.eqb_spec d "(") as [->|Nd]; [destruct (m_identifier s') as [[w r]|] eqn:E'|]].
      + exists (Strange ":"), "". split; [reflexivity|]. split; [apply St; intros r K; discriminate|lia].
      + destruct (m_identifier_some s' w r E') as (-> & Hw & N). exists (Opening w), r. split; [reflexivity|]. split; [split; assumption|]. cbn [String.length]. rewrite length_app. lia.
      + apply m_identifier_none_inv in E'. exists (Strange ":"), (String "(" s'). split; [reflexivity|]. split; [apply St; intros r K; cbn [append] in K; injection K as <-; exact E'|lia].
      + exists (Strange ":"), (String d s'). split; [reflexivity|]. split; [apply St; intros r K; cbn [append] in K; congruence|lia]. }
  destruct (Ascii.eqb_spec c ".") as [->|Np].
  { destruct s as [|d s']; [|destruct (digit d) eqn:Dd; [|destruct (Ascii.eqb d ".") eqn:Ed]].
    - exists (Strange "."), "". split; [reflexivity|]. split; [|lia]. split; [exact B|]. split; [exact L|]. split; [exact D|]. split; [discriminate|]. split; [|split; [intros K; discriminate|auto]]. intros t I. unfold signs in I. cbn [In] in I. repeat (destruct I as [I|I]; [discriminate|]). exact I.
    - destruct (span digit (String d s')) as [fs r] eqn:E. destruct (span_gen _ _ _ _ E) as (Es & A & F). rewrite Es. exists (Decimal "" fs), r. split; [reflexivity|]. split; [|rewrite length_app; lia]. split; [reflexivity|]. split; [|exact F]. split; [|exact A]. intros ->. cbn [append] in Es. subst r. cbn [first_is] in F. congruence.
    - apply Ascii.eqb_eq in Ed. subst d. exists (Sign ".."), s'. split; [reflexivity|]. split; [|cbn [String.length]; lia]. split; [exists "DOUBLEDOT"; unfold signs; cbn [In]; eauto 20|]. split; [intros [K|K]; discriminate|intros K; discriminate].
    - exists (Strange "."), (String d s'). split; [reflexivity|]. split; [|lia]. split; [exact B|]. split; [exact L|]. split; [exact D|]. split; [discriminate|]. split; [|split; [intros K; discriminate|auto]]. intros t I. unfold signs in I. cbn [In] in I. repeat (destruct I as [I|I]; [discriminate|]). exact I. }
  assert (One : forall x t, In (String x "", t) signs -> x <> "<"%char -> x <> ">"%char -> x <> "?"%char -> c = x -> exists p rest, String c s = written p ++ rest /\ proper_piece p rest /\ String.length rest <= String.length s).
  { intros x t I N1 N2 N3 ->. exists (Sign (String x "")), s. split; [reflexivity|]. split; [|lia]. split; [exists t; exact I|]. split; [intros [K|K]; congruence|intros K; congruence]. }
  assert (Two : forall x t t', In (String x "", t) signs -> In (String x "=", t') signs -> x <> "?"%char -> c = x -> exists p rest, String c s = written p ++ rest /\ proper_piece p rest /\ String.length rest <= String.length s).
  { intros x t t' I I' N3 ->. destruct s as [|d r]; [|destruct (Ascii.eqb d "=") eqn:Ed].
    - exists (Sign (String x "")), "". split; [reflexivity|]. split; [|lia]. split; [exists t; exact I|]. split; [intros _; reflexivity|intros K; congruence].
    - apply Ascii.eqb_eq in Ed. subst d. exists (Sign (String x "=")), r. split; [reflexivity|]. split; [|cbn [String.length]; lia]. split; [exists t'; exact I'|]. split; [intros [K|K]; discriminate|intros K; discriminate].
    - exists (Sign (String x "")), (String d r). split; [reflexivity|]. split; [|lia]. split; [exists t; exact I|]. split; [intros _; exact Ed|intros K; congruence]. }
  destruct (Ascii.eqb_spec c "<") as [E|N1]; [apply (Two _ "LT" "LEQ") in E; [exact E|unfold signs; cbn [In]; eauto 20|unfold signs; cbn [In]; eauto 20|discriminate]|].
  destruct (Ascii.eqb_spec c ">") as [E|N2]; [apply (Two _ "GT" "GEQ") in E; [exact E|unfold signs; cbn [In]; eauto 20|unfold signs; cbn [In]; eauto 20|discriminate]|].
  destruct (existsb (fun p => String.eqb (fst p) (String c "")) signs) eqn:Ex.
  - apply existsb_exists in Ex as ([x t] & I & E). cbn [fst] in E. apply String.eqb_eq in E. subst x. exact (One c t I N1 N2 Nq eq_refl).
  - exists (Strange c), s. split; [reflexivity|]. split; [|lia]. split; [exact B|]. split; [exact L|]. split; [exact D|]. split; [exact Nc|]. split; [|split; intros K; congruence]. intros t I. assert (K : existsb (fun p => String.eqb (fst p) (String c "")) signs = true). { apply existsb_exists. exists (String c "", t). split; [exact I|apply String.eqb_refl]. } congruence.
Qed.
Lemma splits_exists n : forall s, String.length s <= n -> exists ps, splits s ps.
Proof.
  induction n as [|n IH]; intros s L; (destruct s as [|c s]; [exists []; constructor|]); cbn [String.length] in L; [lia|]. destruct (exists_piece c s) as (p & rest & E & Hp & Lr). destruct (IH rest) as [ps Hs]; [lia|]. exists (p :: ps). rewrite E. constructor; assumption.
Qed.
(** * Lines *)
Lemma line_ends_app a b : line_ends (a ++ b) = line_ends a + line_ends b.
Proof. induction a as [|c a IH]; [reflexivity|]. cbn [append line_ends]. rewrite IH. lia. Qed.
Lemma line_ends_none p s : all p s = true -> p end_of_line = false -> line_ends s = 0.
Proof. intros A N. induction s as [|c s IH]; [reflexivity|]. cbn [all] in A. apply andb_true_iff in A as [A1 A2]. cbn [line_ends]. rewrite IH by exact A2. destruct (Ascii.eqb_spec c end_of_line); [subst; congruence|reflexivity]. Qed.
Lemma piece_lines p rest : proper_piece p rest -> line_ends (written p) = line_end p.
Proof.
  destruct p as [w|w|w|w|ds|ds fs|x|c|s|c]; cbn [proper_piece written line_end]; intros H.
  1-4: destruct H as [(_ & A & _) _]; cbn [append line_ends]; try exact (line_ends_none _ w A eq_refl).
  - destruct H as ((_ & A) & _). exact (line_ends_none _ _ A eq_refl).
  - destruct H as (A & (_ & A') & _). rewrite line_ends_app. cbn [append line_ends]. rewrite (line_ends_none _ _ A eq_refl), (line_ends_none _ _ A' eq_refl). reflexivity.
  - destruct H as ((t & I) & _). unfold signs in I. cbn [In] in I. repeat (destruct I as [I|I]; [injection I as <- _; reflexivity|]). destruct I.
  - cbn [line_ends]. lia.
  - destruct H as (A & _). cbn [append line_ends]. rewrite (line_ends_none _ _ A eq_refl). reflexivity.
  - destruct H as (B & _). cbn [line_ends]. unfold blank in B. apply orb_false_iff in B as [_ B]. rewrite B. reflexivity.
Qed.
Lemma splits_lines s ps : splits s ps -> forall line, snd (tokenize line s) = line + line_ends s.
Proof.
  induction 1 as [|p ps rest Hp _ IH]; intros line; [cbn; lia|]. rewrite (piece_step p rest Hp). cbn [snd]. rewrite IH, line_ends_app, (piece_lines p rest Hp). lia.
Qed.
