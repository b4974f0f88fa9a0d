(** Reading the text of a program: the printed rules are read back. *)
From Coq Require Import Ascii.
From Verif Require Import Base Syntax ModelText Asp AspText AspTextSpec.
#[local] Open Scope string_scope.

(** Letters, digits and underscores *)
Definition plain_char (c : ascii) : bool := lowercase c || uppercase c || digit c || Ascii.eqb c "_".
Definition writable (x : string) : Prop := all plain_char x = true /\ word x <> None.
Definition writable_pred (p : string) : Prop := all plain_char p = true /\ word p = Some (Identifier p).
Definition comparison_symbols : list string := ["="; "!="; "<"; "<="; ">"; ">="].
Definition writable_atom (a : lpatom) : Prop :=
  Forall writable (lp_args a) /\ if lp_infix a then In (lp_sym a) comparison_symbols /\ List.length (lp_args a) = 2 else writable_pred (lp_sym a).
Definition writable_rule (r : rule) : Prop := lp_infix (r_head r) = false /\ writable_atom (r_head r) /\ Forall writable_atom (r_body r).
(** What is read *)
Definition arg_of (x : string) : argument := match word x with Some (VariableName y) => Unknown y | _ => Known x end.
Definition literal_of (a : lpatom) : literal :=
  match lp_infix a, lp_args a with true, x :: y :: _ => Compares (lp_sym a) (arg_of x) (arg_of y) | _, args => Holds (lp_sym a) (map arg_of args) end.
Definition clause_of (r : rule) : clause := {| c_pred := lp_sym (r_head r); c_args := map arg_of (lp_args (r_head r)); c_body := map literal_of (r_body r) |}.

Lemma s_app_assoc a b c : (a ++ b) ++ c = a ++ (b ++ c).
Proof. induction a as [|x a IH]; cbn; [reflexivity|now rewrite IH]. Qed.
Lemma s_app_nil a : a ++ "" = a.
Proof. induction a as [|x a IH]; cbn; [reflexivity|now rewrite IH]. Qed.
Lemma plain_word c : plain_char c = true -> word_char c = true.
Proof. unfold plain_char, word_char. intros ->. reflexivity. Qed.
Lemma all_plain x : all plain_char x = true -> all word_char x = true.
Proof. induction x as [|c x IH]; [reflexivity|]. cbn [all]. rewrite !andb_true_iff. intros [A B]. split; [now apply plain_word|auto]. Qed.
Lemma word_token x t : word x = Some t -> t = Identifier x \/ t = VariableName x \/ t = Numeral x.
Proof. unfold word. destruct (String.eqb x "not"); [discriminate|]. destruct (starts lowercase x); [intros H; injection H as <-; auto|]. destruct (starts uppercase x); [intros H; injection H as <-; auto|]. destruct (numeral x); [intros H; injection H as <-; auto|discriminate]. Qed.
Definition tok (x : string) : token := match word x with Some t => t | None => Dot end.
Lemma tok_arg x : writable x -> argument_of (tok x) = Some (arg_of x).
Proof. intros [_ H]. unfold tok, arg_of. destruct (word x) as [t|] eqn:E; [|contradiction]. destruct (word_token _ _ E) as [-> | [-> | ->]]; reflexivity. Qed.

(** * Tokens *)
Definition prepend (l : list token) (r : option (list token)) : option (list token) := match r with Some m => Some (l ++ m)%list | None => None end.
Lemma prepend_app l m r : prepend l (prepend m r) = prepend (l ++ m) r.
Proof. destruct r; cbn; [now rewrite app_assoc|reflexivity]. Qed.
Lemma more_prepend t r : more t r = prepend [t] r. Proof. destruct r; reflexivity. Qed.
Lemma tokens_word x : forall w s, all word_char x = true -> tokens w (x ++ s) = tokens (w ++ x) s.
Proof.
  induction x as [|c x IH]; intros w s H; [cbn [append]; now rewrite s_app_nil|]. cbn [all] in H. apply andb_true_iff in H as [A B]. cbn [append tokens]. rewrite A, IH by exact B. f_equal. rewrite s_app_assoc. reflexivity.
Qed.
Definition delimited (s : string) : Prop := match s with "" => True | String c _ => word_char c = false end.
Lemma tokens_delimited w s : delimited s -> tokens w s = after w (tokens "" s).
Proof. destruct s as [|c s]; [reflexivity|]. cbn [delimited tokens]. intros ->. reflexivity. Qed.
Lemma tokens_writable x s : writable x -> delimited s -> tokens "" (x ++ s) = prepend [tok x] (tokens "" s).
Proof.
  intros [A B] D. rewrite tokens_word by now apply all_plain. cbn [append]. rewrite tokens_delimited by exact D. unfold tok. destruct x as [|c x]; [contradiction B; reflexivity|]. cbn [after]. destruct (word (String c x)); [|contradiction]. destruct (tokens "" s); reflexivity.
Qed.
Lemma pred_writable p : writable_pred p -> writable p.
Proof. intros [A B]. split; [exact A|]. now rewrite B. Qed.
Lemma tok_pred p : writable_pred p -> tok p = Identifier p.
Proof. intros [_ B]. unfold tok. now rewrite B. Qed.
Fixpoint arg_toks (args : list string) : list token := match args with [] => [RParen] | x :: l => Comma :: tok x :: arg_toks l end.
Definition args_toks (args : list string) : list token := LParen :: match args with [] => [RParen] | x :: l => tok x :: arg_toks l end.
Lemma tokens_args args s : Forall writable args -> tokens "" ("(" ++ join ", " args ++ ")" ++ s) = prepend (args_toks args) (tokens "" s).
Proof.
  intros H. change (tokens "" ("(" ++ join ", " args ++ ")" ++ s)) with (more LParen (tokens "" (join ", " args ++ ")" ++ s))). unfold args_toks.
  destruct args as [|x l]; [change (tokens "" (join ", " [] ++ ")" ++ s)) with (more RParen (tokens "" s)); destruct (tokens "" s); reflexivity|].
  assert (G : tokens "" (join ", " (x :: l) ++ ")" ++ s) = prepend (tok x :: arg_toks l) (tokens "" s)).
  { revert x H. induction l as [|y l IH]; intros x H; inversion H as [|? ? Hx Hl]; subst.
    - cbn [join]. rewrite tokens_writable; [|exact Hx|reflexivity]. change (tokens "" (")" ++ s)) with (more RParen (tokens "" s)). destruct (tokens "" s); reflexivity.
    - change (join ", " (x :: y :: l)) with (x ++ ", " ++ join ", " (y :: l)). rewrite !s_app_assoc. rewrite tokens_writable; [|exact Hx|reflexivity].
      change (tokens "" (", " ++ join ", " (y :: l) ++ ")" ++ s)) with (more Comma (tokens "" (join ", " (y :: l) ++ ")" ++ s))). rewrite (IH y Hl). destruct (tokens "" s); reflexivity. }
  rewrite G. destruct (tokens "" s); reflexivity.
Qed.
Definition atom_toks (a : lpatom) : list token :=
  match lp_infix a, lp_args a with true, x :: y :: _ => [tok x; Op (lp_sym a); tok y] | _, args => tok (lp_sym a) :: args_toks args end.
Lemma writable_two a : writable_atom a -> lp_infix a = true -> exists x y, lp_args a = [x; y] /\ writable x /\ writable y /\ In (lp_sym a) comparison_symbols.
Proof.
  intros [F H] E. rewrite E in H. destruct H as [H L]. destruct (lp_args a) as [|x [|y [|z l]]]; try discriminate. exists x, y. inversion F as [|? ? Hx F2]; subst. inversion F2; subst. auto.
Qed.
Lemma tokens_op o s : In o comparison_symbols -> tokens "" (" " ++ o ++ " " ++ s) = prepend [Op o] (tokens "" s).
Proof.
  intros H. repeat (destruct H as [<-|H]); try contradiction;
  match goal with |- _ = prepend [Op ?o] _ => change (more (Op o) (tokens "" s) = prepend [Op o] (tokens "" s)) end; destruct (tokens "" s); reflexivity.
Qed.
Lemma tokens_atom a s : writable_atom a -> delimited s -> tokens "" (lp_text a ++ s) = prepend (atom_toks a) (tokens "" s).
Proof.
  intros W D. unfold lp_text, atom_toks. destruct (lp_infix a) eqn:E.
  - destruct (writable_two a W E) as (x & y & -> & Hx & Hy & Ho). rewrite !s_app_assoc. rewrite tokens_writable; [|exact Hx|reflexivity].
    rewrite tokens_op by exact Ho. rewrite tokens_writable by assumption. destruct (tokens "" s); reflexivity.
  - destruct W as [F W]. rewrite E in W. rewrite !s_app_assoc. rewrite tokens_writable; [|now apply pred_writable|reflexivity]. rewrite tokens_args by exact F. destruct (tokens "" s); reflexivity.
Qed.
Fixpoint more_toks (l : list lpatom) : list token := match l with [] => [Dot] | a :: l' => (Comma :: atom_toks a ++ more_toks l')%list end.
Lemma tokens_body a l s : Forall writable_atom (a :: l) -> tokens "" (join ", " (map lp_text (a :: l)) ++ "." ++ s) = prepend (atom_toks a ++ more_toks l) (tokens "" s).
Proof.
  revert a. induction l as [|b l IH]; intros a H; inversion H as [|? ? Ha Hl]; subst.
  - cbn [map join more_toks]. rewrite tokens_atom; [|exact Ha|reflexivity]. change (tokens "" ("." ++ s)) with (more Dot (tokens "" s)). rewrite more_prepend. apply prepend_app.
  - change (join ", " (map lp_text (a :: b :: l))) with (lp_text a ++ ", " ++ join ", " (map lp_text (b :: l))). rewrite !s_app_assoc. rewrite tokens_atom; [|exact Ha|reflexivity].
    change (tokens "" (", " ++ join ", " (map lp_text (b :: l)) ++ "." ++ s)) with (more Comma (tokens "" (join ", " (map lp_text (b :: l)) ++ "." ++ s))). rewrite (IH b Hl), more_prepend, prepend_app, prepend_app. f_equal. cbn [more_toks]. rewrite <- ?app_assoc. reflexivity.
Qed.
Definition rule_toks (fact : bool) (r : rule) : list token :=
  (atom_toks (r_head r) ++ match r_body r, fact with [], true => [Dot] | [], false => [If; Dot] | a :: l, _ => If :: atom_toks a ++ more_toks l end)%list.
Lemma tokens_rule fact r s : writable_rule r -> tokens "" (rule_text fact r ++ nl ++ s) = prepend (rule_toks fact r) (tokens "" s).
Proof.
  intros (_ & H & B). unfold rule_text, rule_toks. destruct (r_body r) as [|a l].
  - destruct fact.
    + rewrite !s_app_assoc. rewrite tokens_atom; [|exact H|reflexivity]. change (tokens "" ("." ++ nl ++ s)) with (more Dot (tokens "" s)). rewrite more_prepend. apply prepend_app.
    + rewrite !s_app_assoc. rewrite tokens_atom; [|exact H|reflexivity]. change (tokens "" (" :- " ++ join ", " (map lp_text []) ++ "." ++ nl ++ s)) with (more If (more Dot (tokens "" s))). rewrite !more_prepend, !prepend_app. f_equal.
      rewrite <- app_assoc. reflexivity.
  - rewrite !s_app_assoc. rewrite tokens_atom; [|exact H|reflexivity].
    change (tokens "" (" :- " ++ join ", " (map lp_text (a :: l)) ++ "." ++ nl ++ s)) with (more If (tokens "" (join ", " (map lp_text (a :: l)) ++ "." ++ nl ++ s))). rewrite tokens_body by exact B.
    change (tokens "" (nl ++ s)) with (tokens "" s). rewrite more_prepend, !prepend_app. f_equal. rewrite <- app_assoc. reflexivity.
Qed.
Fixpoint program_toks (facts : list bool) (rules : list rule) : list token :=
  match rules with [] => [] | r :: rules' => (rule_toks (match facts with b :: _ => b | [] => false end) r ++ program_toks (tl facts) rules')%list end.
Lemma tokens_program rules : forall facts, Forall writable_rule rules -> tokens "" (program_text facts rules) = Some (program_toks facts rules).
Proof.
  induction rules as [|r rules IH]; intros facts H; [reflexivity|]. inversion H; subst. cbn [program_text program_toks]. rewrite tokens_rule by assumption. rewrite IH by assumption. reflexivity.
Qed.

(** * Parsing *)
Lemma read_more_toks l rest : Forall writable l -> read_more (arg_toks l ++ rest) = Some (map arg_of l, rest).
Proof. induction l as [|x l IH]; intros H; [reflexivity|]. inversion H; subst. cbn [arg_toks app read_more map]. rewrite tok_arg by assumption. rewrite IH by assumption. reflexivity. Qed.
Lemma tok_not_close x : writable x -> tok x <> RParen.
Proof. intros [_ H]. unfold tok. destruct (word x) as [t|] eqn:E; [|contradiction]. destruct (word_token _ _ E) as [-> | [-> | ->]]; discriminate. Qed.
Lemma read_arguments_toks l rest : Forall writable l -> read_arguments (args_toks l ++ rest) = Some (map arg_of l, rest).
Proof.
  destruct l as [|x l]; intros H; [reflexivity|]. inversion H as [|? ? Hx Hl]; subst. unfold args_toks. cbn [app].
  assert (E : read_arguments (LParen :: tok x :: (arg_toks l ++ rest)) = match argument_of (tok x), read_more (arg_toks l ++ rest) with Some a, Some (args, rest') => Some (a :: args, rest') | _, _ => None end).
  { cbn [read_arguments]. pose proof (tok_not_close x Hx). destruct (tok x); try reflexivity. contradiction. }
  rewrite E, tok_arg, read_more_toks by assumption. reflexivity.
Qed.
Lemma read_literal_toks a rest : writable_atom a -> read_literal (atom_toks a ++ rest) = Some (literal_of a, rest).
Proof.
  intros W. unfold atom_toks, literal_of. destruct (lp_infix a) eqn:E.
  - destruct (writable_two a W E) as (x & y & -> & Hx & Hy & Ho). cbn [app].
    assert (G : read_literal (tok x :: Op (lp_sym a) :: tok y :: rest) = match argument_of (tok x), argument_of (tok y) with Some x', Some y' => Some (Compares (lp_sym a) x' y', rest) | _, _ => None end) by (destruct (tok x); reflexivity).
    rewrite G, !tok_arg by assumption. reflexivity.
  - destruct W as [F W]. rewrite E in W. rewrite tok_pred by exact W. change (((Identifier (lp_sym a) :: args_toks (lp_args a)) ++ rest)%list) with (Identifier (lp_sym a) :: (args_toks (lp_args a) ++ rest)%list).
    assert (G : forall l, read_literal (Identifier (lp_sym a) :: LParen :: l) = match read_arguments (LParen :: l) with Some (args, rest) => Some (Holds (lp_sym a) args, rest) | None => None end) by reflexivity.
    assert (Q : exists l, (args_toks (lp_args a) ++ rest)%list = LParen :: l) by (eexists; reflexivity). destruct Q as [l Q]. rewrite Q, G, <- Q, read_arguments_toks by exact F. reflexivity.
Qed.
Lemma read_literals_toks l : forall a n rest, Forall writable_atom (a :: l) -> List.length l < n -> read_literals n ((atom_toks a ++ more_toks l) ++ rest) = Some (map literal_of (a :: l), rest).
Proof.
  induction l as [|b l IH]; intros a n rest H L; inversion H as [|? ? Ha Hl]; subst; destruct n as [|n]; try (cbn in L; lia); cbn [read_literals]; rewrite <- app_assoc, read_literal_toks by exact Ha.
  - reflexivity.
  - cbn [more_toks app]. cbn [List.length] in L. rewrite (IH b n rest Hl) by lia. reflexivity.
Qed.
Lemma read_clause_toks fact r n rest : writable_rule r -> List.length (r_body r) <= n -> read_clause n (rule_toks fact r ++ rest) = Some (clause_of r, rest).
Proof.
  intros (I & H & B) L. unfold rule_toks, clause_of. assert (E : atom_toks (r_head r) = Identifier (lp_sym (r_head r)) :: args_toks (lp_args (r_head r))).
  { unfold atom_toks. rewrite I. destruct H as [F W]. rewrite I in W. now rewrite tok_pred. }
  rewrite E, <- app_assoc. clear E. set (X := (_ ++ rest)%list). change (((Identifier (lp_sym (r_head r)) :: args_toks (lp_args (r_head r))) ++ X)%list) with (Identifier (lp_sym (r_head r)) :: (args_toks (lp_args (r_head r)) ++ X)%list).
  cbn [read_clause]. rewrite read_arguments_toks by apply H. subst X. destruct (r_body r) as [|a l].
  - destruct fact; reflexivity.
  - cbn [app]. assert (Hd : exists t m, (atom_toks a ++ more_toks l)%list = t :: m /\ t <> Dot).
    { inversion B as [|? ? Wa _]; subst. unfold atom_toks. destruct (lp_infix a) eqn:Ei; [destruct (writable_two a Wa Ei) as (x & y & -> & [_ Hx] & _)|destruct Wa as [_ Wa]; rewrite Ei in Wa; destruct Wa as [_ Wa]]; do 2 eexists; (split; [reflexivity|]).
      - unfold tok. destruct (word x) as [t|] eqn:Ew; [|contradiction]. destruct (word_token _ _ Ew) as [-> | [-> | ->]]; discriminate.
      - unfold tok. rewrite Wa. discriminate. }
    destruct Hd as (t & m & Em & Ht). assert (Eb : read_body n (If :: ((atom_toks a ++ more_toks l) ++ rest)) = read_literals n ((atom_toks a ++ more_toks l) ++ rest)).
    { rewrite Em. cbn [app read_body]. destruct t; try reflexivity. contradiction. }
    rewrite Eb, read_literals_toks; [reflexivity|exact B|]. cbn [List.length] in L. lia.
Qed.
Lemma more_toks_length l : List.length l < List.length (more_toks l).
Proof. induction l as [|a l IH]; cbn [more_toks List.length]; [lia|]. rewrite app_length. lia. Qed.
Lemma rule_toks_length fact r : List.length (r_body r) < List.length (rule_toks fact r).
Proof.
  unfold rule_toks. rewrite app_length. destruct (r_body r) as [|a l]; [destruct fact; cbn [List.length]; lia|]. cbn [List.length]. rewrite app_length. pose proof (more_toks_length l). lia.
Qed.
Lemma read_clauses_toks rules : forall facts n, Forall writable_rule rules -> List.length (program_toks facts rules) <= n -> read_clauses n (program_toks facts rules) = Some (map clause_of rules).
Proof.
  induction rules as [|r rules IH]; intros facts n H L; [destruct n; reflexivity|]. inversion H as [|? ? Hr Hl]; subst. cbn [program_toks] in *. set (b := match facts with b :: _ => b | [] => false end) in *. pose proof (rule_toks_length b r) as Q.
  rewrite app_length in L. destruct n as [|n]; [lia|]. destruct (rule_toks b r ++ program_toks (tl facts) rules)%list as [|t m] eqn:E; [apply (f_equal (@List.length _)) in E; rewrite app_length in E; cbn in E; lia|].
  cbn [read_clauses]. rewrite <- E. rewrite read_clause_toks; [|exact Hr|lia]. rewrite IH; [reflexivity|exact Hl|lia].
Qed.
Lemma read_program_text facts rules : Forall writable_rule rules -> read_program (program_text facts rules) = Some (map clause_of rules).
Proof. intros H. unfold read_program. rewrite tokens_program by exact H. now apply read_clauses_toks. Qed.
