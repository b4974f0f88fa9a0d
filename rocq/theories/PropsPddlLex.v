(** C76: the tokenizer of the PDDL reader, src/tarski/io/pddl/lexer.py *)
From Coq Require Import Ascii ZArith Lia.
From Verif Require Import Base.
From Verif Require Import PddlLex PddlLexSpec PddlLexProofs PddlLexProofs2.
#[local] Open Scope string_scope.

(** Every text is made of pieces, and the tokens are those of the pieces, in order, with their lines. *)
Theorem C76_reads line s : exists ps, splits s ps /\ fst (tokenize line s) = tokens_of line ps /\ snd (tokenize line s) = line + line_ends s.
Proof. destruct (splits_exists (String.length s) s (le_n _)) as [ps H]. exists ps. split; [exact H|]. split; [exact (splits_tokens s ps H line)|exact (splits_lines s ps H line)]. Qed.
Theorem C76_pieces line s ps : splits s ps -> tokenize line s = (tokens_of line ps, line + line_ends s).
Proof. intros H. rewrite <- (splits_tokens s ps H), <- (splits_lines s ps H). destruct (tokenize line s). reflexivity. Qed.
(** Tokens that are written one after the other, with blanks between them, are read. *)
Lemma proper_blank p rest : sense p <> None -> proper_piece p "" -> proper_piece p (String " " rest).
Proof.
  assert (N : ~ continues (String " " rest)). { intros (a & c & b & E & A & L). destruct a as [|d a]; cbn [append] in E; injection E as <- _; [discriminate|]. cbn [all] in A. discriminate. }
  destruct p as [w|w|w|w|ds|ds fs|x|c|s|c]; cbn [sense proper_piece]; intros S H; try congruence.
  - destruct H as [H _]; auto.
  - destruct H as [H _]; auto.
  - destruct H as [H _]; auto.
  - destruct H as (H & _). split; [exact H|]. split; [reflexivity|]. intros r K. discriminate.
  - destruct H as (H1 & H2 & _). auto.
  - destruct H as (H & _). split; [exact H|]. split; reflexivity.
Qed.
Theorem C76_written line ps : Forall (fun p => sense p <> None /\ proper_piece p "") ps -> tokenize line (String.concat " " (map written ps)) = (flat_map (fun p => tokens_of line [p]) ps, line).
Proof.
  intros H. assert (X : exists qs, splits (String.concat " " (map written ps)) qs /\ tokens_of line qs = flat_map (fun p => tokens_of line [p]) ps /\ line_ends (String.concat " " (map written ps)) = 0).
  { induction H as [|p ps [S W] H IH]; [exists []; split; [constructor|auto]|]. assert (L := piece_lines p _ W). assert (L0 : line_end p = 0) by (destruct p; try reflexivity; cbn [sense] in S; congruence). cbn [map flat_map]. destruct ps as [|q ps].
    - exists [p]. cbn [map String.concat flat_map]. split; [|split; [rewrite app_nil_r; reflexivity|lia]]. rewrite <- (app_nil (written p)). constructor; [exact W|constructor].
    - destruct IH as (qs & Hs & Ht & Hl). exists (p :: Blank " " :: qs).
      assert (E : String.concat " " (written p :: map written (q :: ps)) = written p ++ (written (Blank " ") ++ String.concat " " (map written (q :: ps)))) by reflexivity. rewrite E. split; [|split].
      + constructor; [exact (proper_blank p _ S W)|]. constructor; [reflexivity|exact Hs].
      + cbn [tokens_of sense line_end]. rewrite L0. change (Ascii.eqb " " end_of_line) with false. cbn [app]. rewrite !Nat.add_0_r, Ht, app_nil_r. reflexivity.
      + rewrite !line_ends_app, L, L0, Hl. reflexivity. }
  destruct X as (qs & Hs & Ht & Hl). rewrite (C76_pieces line _ qs Hs), Ht, Hl, Nat.add_0_r. reflexivity.
Qed.
(** A name with a capital letter is an identifier in small letters, also if that is a keyword. *)
Lemma lookup_In w l t : lookup w l = Some t -> In (w, t) l.
Proof. induction l as [|[x u] l IH]; cbn [lookup]; [discriminate|]. destruct (String.eqb_spec x w) as [->|N]; [intros E; injection E as ->; left; reflexivity|intros E; right; auto]. Qed.
Lemma keywords_small w t : In (w, t) keywords -> lower_case w = w.
Proof. assert (H : forallb (fun p => String.eqb (lower_case (fst p)) (fst p)) keywords = true) by (vm_compute; reflexivity). rewrite forallb_forall in H. intros I. apply String.eqb_eq. exact (H (w, t) I). Qed.
Theorem C76_capitals line w : name w -> lower_case w <> w -> tokenize line w = ([{| t_line := line; t_type := "ID"; t_value := Text (lower_case w) |}], line).
Proof.
  intros Hw N. assert (P : proper_piece (Word w) ""). { split; [exact Hw|]. intros (a & c & b & E & _). destruct a; discriminate. }
  assert (X : tokenize line w = (flat_map (fun p => tokens_of line [p]) [Word w], line)). { apply (C76_written line [Word w]). constructor; [split; [cbn; discriminate|exact P]|constructor]. }
  rewrite X. cbn [flat_map tokens_of sense app]. unfold named. destruct (lookup w keywords) as [t|] eqn:E; [|reflexivity]. exfalso. apply N. exact (keywords_small w t (lookup_In w _ t E)).
Qed.
(** No text has the token of #t. *)
Lemma named_In w l d : named w l d = d \/ In (named w l d) (map snd l).
Proof. unfold named. destruct (lookup w l) as [t|] eqn:E; [|auto]. right. apply lookup_In in E. exact (in_map snd _ _ E). Qed.
Theorem C76_types line s t : In t (fst (tokenize line s)) -> In (t_type t) (["ID"; "VAR"; "UNKNOWN_DIRECTIVE"; "NAT"; "REAL"] ++ map snd signs ++ map snd keywords ++ map snd directives).
Proof.
  destruct (C76_reads line s) as (ps & H & -> & _). revert line. induction H as [|p ps rest Hp _ IH]; intros line; [intros []|]. cbn [tokens_of]. rewrite in_app_iff. intros [I|I]; [|exact (IH _ I)].
  destruct p as [w|w|w|w|ds|ds fs|x|c|u|c]; cbn [sense] in I; try (destruct I; fail); destruct I as [<-|[]]; cbn [t_type]; rewrite !in_app_iff.
  - destruct (named_In w keywords "ID") as [->|I]; [left; cbn; auto|auto].
  - left; cbn; auto.
  - destruct (named_In (":" ++ w) directives "UNKNOWN_DIRECTIVE") as [->|I]; [left; cbn; auto|auto].
  - left; cbn; auto.
  - left; cbn; auto 10.
  - destruct Hp as ((t & I) & _). right; left. unfold named. destruct (lookup x signs) as [t'|] eqn:E; [apply lookup_In in E; exact (in_map snd _ _ E)|]. exfalso. unfold signs in I. cbn [In] in I. repeat (destruct I as [I|I]; [injection I as <- _; discriminate E|]). exact I.
Qed.
Theorem C76_no_dt line s t : In t (fst (tokenize line s)) -> t_type t <> "rwDT".
Proof.
  intros I E. apply C76_types in I. rewrite E in I. revert I. assert (X : existsb (String.eqb "rwDT") (["ID"; "VAR"; "UNKNOWN_DIRECTIVE"; "NAT"; "REAL"] ++ map snd signs ++ map snd keywords ++ map snd directives) = false) by (vm_compute; reflexivity).
  intros I. apply not_true_iff_false in X. apply X. apply existsb_exists. exists "rwDT". split; [exact I|apply String.eqb_refl].
Qed.
(** The lines go on from one input to the next. *)
Fixpoint total (l : list nat) : nat := match l with [] => 0 | n :: l' => n + total l' end.
Theorem C76_inputs inputs s line : let r := tokenize_all line (inputs ++ [s]) in
  exists before, fst r = (before ++ [fst (tokenize (line + total (map line_ends inputs)) s)])%list /\ snd r = line + total (map line_ends inputs) + line_ends s.
Proof.
  revert line. induction inputs as [|x inputs IH]; intros line; cbn [app tokenize_all map total].
  - destruct (C76_reads line s) as (ps & _ & _ & E). rewrite Nat.add_0_r. destruct (tokenize line s) as [ts l]. exists []. cbn [fst snd] in *. auto.
  - destruct (C76_reads line x) as (ps & _ & _ & E). destruct (tokenize line x) as [ts l]. cbn [snd] in E. subst l. destruct (IH (line + line_ends x)) as (before & E1 & E2). cbn zeta in E1, E2. destruct (tokenize_all (line + line_ends x) (inputs ++ [s])) as [tss l']. cbn [fst snd] in *. exists (ts :: before). rewrite E1, E2, <- !Nat.add_assoc. cbn [app]. auto.
Qed.
(** The checks for identifiers and variables look at the beginning only. *)
Theorem C76_checks s : is_identifier s = first_is letter s /\ (is_variable s = true <-> exists r, s = "?" ++ r /\ first_is letter r = true).
Proof.
  assert (I : forall u, is_identifier u = first_is letter u). { intros u. unfold is_identifier. destruct (m_identifier u) as [[w r]|] eqn:E; [|symmetry; exact (m_identifier_none_inv u E)]. destruct (m_identifier_some u w r E) as (-> & (F & _) & _). destruct w; [discriminate|]. symmetry. exact F. }
  split; [apply I|]. unfold is_variable, m_variable. destruct s as [|c s]; [split; [discriminate|intros (r & K & _); discriminate]|]. cbn [m_after]. destruct (Ascii.eqb_spec c "?") as [->|N].
  - specialize (I s). unfold is_identifier in I. destruct (m_identifier s); cbn [option_map]; (split; [intros K; first [discriminate K | exists s; split; [reflexivity|congruence]]|intros (r & K & F); cbn [append] in K; injection K as <-; congruence]).
  - split; [discriminate|]. intros (r & K & _). cbn [append] in K. congruence.
Qed.

(** * Known limits, and an example *)
Theorem C76_skips_refuted : fst (tokenize 1 "b#1") = fst (tokenize 1 "b 1") /\ fst (tokenize 1 "foo_") = fst (tokenize 1 "foo") /\ fst (tokenize 1 ":(foo") = [] /\
  fst (tokenize 1 "AND") = [{| t_line := 1; t_type := "ID"; t_value := Text "and" |}] /\ fst (tokenize 1 "and") = [{| t_line := 1; t_type := "rwAND"; t_value := Text "and" |}] /\
  fst (tokenize 1 "?X") = [{| t_line := 1; t_type := "VAR"; t_value := Text "?X" |}] /\ fst (tokenize 1 "x-y") <> fst (tokenize 1 "x - y") /\ is_identifier "a b" = true.
Proof. repeat split; try (vm_compute; reflexivity). vm_compute. discriminate. Qed.
Theorem C76_nonvacuous : exists ps, splits "(at-x ?y 1.5)" ps /\ ps = [Sign "("; Word "at-x"; Blank " "; VarName "y"; Blank " "; Decimal "1" "5"; Sign ")"] /\
  fst (tokenize 3 "(at-x ?y 1.5)") = map (fun p => {| t_line := 3; t_type := fst p; t_value := snd p |}) [("LPAREN", Text "("); ("ID", Text "at-x"); ("VAR", Text "?y"); ("REAL", Decimals 15 1); ("RPAREN", Text ")")].
Proof.
  eexists. split; [|split; [reflexivity|vm_compute; reflexivity]]. assert (N : forall c r, letter c || digit c || dash c = false -> ~ continues (String c r)).
  { intros c r H (a & d & b & E & A & L). destruct a as [|x a]; cbn [append] in E; injection E as -> _; [rewrite L in H; discriminate|]. cbn [all] in A. apply andb_true_iff in A as [A _]. rewrite A, orb_true_r in H. discriminate. }
  apply (s_piece (Sign "(") _ "at-x ?y 1.5)"). { split; [exists "LPAREN"; left; reflexivity|]. split; [intros [K|K]; discriminate|discriminate]. }
  apply (s_piece (Word "at-x") _ " ?y 1.5)"). { split; [split; [reflexivity|split; reflexivity]|apply N; reflexivity]. }
  apply (s_piece (Blank " ") _ "?y 1.5)"). { reflexivity. }
  apply (s_piece (VarName "y") _ " 1.5)"). { split; [split; [reflexivity|split; reflexivity]|apply N; reflexivity]. }
  apply (s_piece (Blank " ") _ "1.5)"). { reflexivity. }
  apply (s_piece (Decimal "1" "5") _ ")"). { split; [reflexivity|]. split; [split; [discriminate|reflexivity]|reflexivity]. }
  apply (s_piece (Sign ")") _ ""). { split; [exists "RPAREN"; right; left; reflexivity|]. split; [intros [K|K]; discriminate|discriminate]. }
  constructor.
Qed.
