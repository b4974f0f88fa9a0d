(** C77: the requirements of a PDDL domain, src/tarski/io/pddl/parser.py:128-223 *)
From Coq Require Import Ascii Lia.
From Verif Require Import Base PddlLex PddlLexSpec PddlLexProofs PddlLexProofs2 PropsPddlLex PddlReq PddlReqSpec.
#[local] Open Scope string_scope.

(** * Reading the words *)
Lemma blank_ends c r : (letter c || digit c || dash c)%bool = false -> ~ continues (String c r).
Proof. intros H (a & d & b & E & A & L). destruct a as [|x a]; cbn [append] in E; injection E as -> _; [rewrite L in H; discriminate|]. cbn [all] in A. apply andb_true_iff in A as [A _]. rewrite A, orb_true_r in H. discriminate. Qed.
Definition pieces (ws : list string) : list piece := [Sign "("; Directive "requirements"; Blank " "] ++ flat_map (fun w => [Directive w; Blank " "]) ws ++ [Sign ")"].
Lemma section_splits ws : Forall name ws -> splits (section ws) (pieces ws).
Proof.
  intros H. unfold section, pieces. apply (s_piece (Sign "(")). { split; [exists "LPAREN"; left; reflexivity|]. split; [intros [K|K]; discriminate|discriminate]. }
  apply (s_piece (Directive "requirements") _ (" " ++ fold_right (fun w s => ":" ++ w ++ " " ++ s) ")" ws)). { split; [split; [reflexivity|split; reflexivity]|apply blank_ends; reflexivity]. }
  apply (s_piece (Blank " ")); [reflexivity|]. induction H as [|w ws Hw _ IH]; cbn [fold_right flat_map app].
  - apply (s_piece (Sign ")") [] ""); [|constructor]. split; [exists "RPAREN"; right; left; reflexivity|]. split; [intros [K|K]; discriminate|discriminate].
  - assert (E : forall r, ":" ++ w ++ " " ++ r = written (Directive w) ++ (written (Blank " ") ++ r)) by (intros r; reflexivity). rewrite E. apply (s_piece (Directive w)); [split; [exact Hw|apply blank_ends; reflexivity]|]. apply (s_piece (Blank " ")); [reflexivity|exact IH].
Qed.
Definition key (line : nat) (w : string) : token := {| t_line := line; t_type := named (":" ++ w) directives "UNKNOWN_DIRECTIVE"; t_value := Text (":" ++ w) |}.
Lemma section_tokens line ws : Forall name ws -> fst (tokenize line (section ws)) =
  ({| t_line := line; t_type := "LPAREN"; t_value := Text "(" |} :: {| t_line := line; t_type := "rwREQUIREMENTS"; t_value := Text ":requirements" |} :: map (key line) ws ++ [{| t_line := line; t_type := "RPAREN"; t_value := Text ")" |}])%list.
Proof.
  intros H. rewrite (C76_pieces line _ _ (section_splits ws H)). cbn [fst]. unfold pieces. cbn [app tokens_of sense line_end]. change (Ascii.eqb " " end_of_line) with false. rewrite !Nat.add_0_r. cbn [app]. f_equal. f_equal.
  clear H. induction ws as [|w ws IH]; [reflexivity|]. cbn [flat_map app tokens_of sense line_end map]. change (Ascii.eqb " " end_of_line) with false. rewrite !Nat.add_0_r. cbn [app]. rewrite IH. reflexivity.
Qed.
Lemma directive_close w : named (":" ++ w) directives "UNKNOWN_DIRECTIVE" <> "RPAREN".
Proof.
  intros E. destruct (named_In (":" ++ w) directives "UNKNOWN_DIRECTIVE") as [K|K]; [congruence|]. rewrite E in K. assert (X : existsb (String.eqb "RPAREN") (map snd directives) = false) by (vm_compute; reflexivity). apply not_true_iff_false in X. apply X. apply existsb_exists. exists "RPAREN". split; [exact K|apply String.eqb_refl].
Qed.
Lemma until_close_keys line ws t : t_type t = "RPAREN" -> until_close (map (key line) ws ++ [t]) = Some (map (key line) ws).
Proof.
  intros T. induction ws as [|w ws IH]; cbn [map app until_close]; [rewrite T; reflexivity|]. cbn [key t_type]. destruct (String.eqb_spec (named (":" ++ w) directives "UNKNOWN_DIRECTIVE") "RPAREN") as [E|E]; [destruct (directive_close w E)|]. rewrite IH. reflexivity.
Qed.
Lemma require_section req line ws : Forall name ws -> require req line (section ws) = require_keys req (map (key line) ws).
Proof. intros H. unfold require. rewrite (section_tokens line ws H). cbn [t_type]. rewrite !String.eqb_refl. cbn [andb]. rewrite until_close_keys by reflexivity. reflexivity. Qed.
(** * The words *)
Definition known (w : string) : bool := existsb (fun p => String.eqb (fst p) w) words.
Lemma key_known w line : existsb (String.eqb (t_type (key line w))) key_tokens = known w.
Proof.
  cbn [key t_type]. assert (A : forallb (fun d => Bool.eqb (existsb (String.eqb (snd d)) key_tokens) (match fst d with String ":" w => known w | _ => false end)) directives = true) by (vm_compute; reflexivity). rewrite forallb_forall in A.
  assert (B : forallb (fun p => match lookup (":" ++ fst p) directives with Some _ => true | None => false end) words = true) by (vm_compute; reflexivity). rewrite forallb_forall in B.
  unfold named. destruct (lookup (":" ++ w) directives) as [t|] eqn:E.
  - apply lookup_In in E. specialize (A _ E). cbn [fst snd append] in A. apply Bool.eqb_prop in A. exact A.
  - symmetry. change (existsb (String.eqb "UNKNOWN_DIRECTIVE") key_tokens) with false. apply not_true_is_false. intros K. apply existsb_exists in K as (p & I & Ep). apply String.eqb_eq in Ep. specialize (B p I). rewrite Ep, E in B. discriminate.
Qed.
Lemma known_In w : known w = true <-> In w (map fst words).
Proof. unfold known. rewrite existsb_exists, in_map_iff. split; intros (p & A & B); exists p; [apply String.eqb_eq in B; auto|subst w; split; [exact B|apply String.eqb_refl]]. Qed.
Lemma chain_words w : In w (map fst words) -> exists fs, features_of (":" ++ w) chain = Some fs /\ forall f, In f fs <-> exists fs', In (w, fs') words /\ In f fs'.
Proof.
  assert (A : forallb (fun p => match features_of (":" ++ fst p) chain with Some fs => forallb (fun f => existsb (String.eqb f) (snd p)) fs && forallb (fun f => existsb (String.eqb f) fs) (snd p) | None => false end) words = true) by (vm_compute; reflexivity). rewrite forallb_forall in A.
  intros I. apply in_map_iff in I as ([x fs'] & E & I). cbn [fst] in E. subst x. assert (H := A _ I). cbn [fst snd] in H. destruct (features_of (":" ++ w) chain) as [fs|] eqn:Ef; [|discriminate]. exists fs. split; [reflexivity|]. apply andb_true_iff in H as [H1 H2]. rewrite forallb_forall in H1, H2.
  intros f. split.
  - intros J. exists fs'. split; [exact I|]. specialize (H1 f J). apply existsb_exists in H1 as (g & G & K). apply String.eqb_eq in K. subst g. exact G.
  - intros (fs2 & I2 & J). specialize (A _ I2). cbn [fst snd] in A. rewrite Ef in A. apply andb_true_iff in A as [_ A2]. rewrite forallb_forall in A2. specialize (A2 f J). apply existsb_exists in A2 as (g & G & K). apply String.eqb_eq in K. subst g. exact G.
Qed.
Lemma add_feature_In fs : forall req f, In f (fold_left add_feature fs req) <-> In f req \/ In f fs.
Proof.
  induction fs as [|g fs IH]; intros req f; cbn [fold_left]; [cbn; tauto|]. rewrite IH. unfold add_feature. destruct (existsb (String.eqb g) req) eqn:E.
  - apply existsb_exists in E as (h & I & K). apply String.eqb_eq in K. subst h. cbn [In]. split; [tauto|]. intros [J|[<-|J]]; auto.
  - cbn [In]. tauto.
Qed.
Lemma process_spec req line ws : Forall (fun w => In w (map fst words)) ws -> exists req', process_keys req (map (key line) ws) = (req', true) /\ forall f, In f req' <-> In f req \/ asks ws f.
Proof.
  induction 1 as [|w ws Hw _ IH]; cbn [map process_keys].
  - exists req. split; [reflexivity|]. intros f. split; [auto|]. intros [I|(w & fs & [] & _)]. exact I.
  - destruct IH as (req' & E & H). rewrite E. cbn [key t_value]. destruct (chain_words w Hw) as (fs & Ef & F). rewrite Ef. eexists. split; [reflexivity|]. intros f. rewrite add_feature_In, H, F. unfold asks. split.
    + intros [[I|(v & fs' & I1 & I2 & I3)]|(fs' & I2 & I3)]; [left; exact I|right; exists v, fs'; split; [right; exact I1|auto]|right; exists w, fs'; split; [left; reflexivity|auto]].
    + intros [I|(v & fs' & [<-|I1] & I2 & I3)]; [left; left; exact I|right; eauto|left; right; eauto].
Qed.
Lemma supported_same f : existsb (String.eqb f) supported_features = true <-> In f supported.
Proof.
  rewrite existsb_exists. assert (X : forall l l', forallb (fun f => existsb (String.eqb f) l') l = true -> forall f, In f l -> In f l'). { intros l l' H g I. rewrite forallb_forall in H. specialize (H g I). apply existsb_exists in H as (h & I' & K). apply String.eqb_eq in K. subst h. exact I'. }
  split; [intros (g & I & K); apply String.eqb_eq in K; subst g; revert f I; apply X; vm_compute; reflexivity|]. intros I. exists f. split; [revert f I; apply X; vm_compute; reflexivity|apply String.eqb_refl].
Qed.

(** * The theorems *)
Lemma words_names w : In w (map fst words) -> name w.
Proof.
  intros I. assert (A : forallb (fun w => first_is letter w && all (fun c => letter c || digit c || dash c) w && last_is (fun c => letter c || digit c) w) (map fst words) = true) by (vm_compute; reflexivity). rewrite forallb_forall in A. specialize (A w I). rewrite !andb_true_iff in A. destruct A as [[A1 A2] A3]. split; [exact A1|auto].
Qed.
(** A section of known words: the parser keeps exactly the features required before and those that the words ask for; the section is accepted iff all of them are supported. *)
Theorem C77_known req line ws : Forall (fun w => In w (map fst words)) ws -> exists req', (forall f, In f req' <-> In f req \/ asks ws f) /\
  ((Forall (fun f => In f supported) req' /\ require req line (section ws) = Accepted req') \/ (~ Forall (fun f => In f supported) req' /\ require req line (section ws) = Unsupported req')).
Proof.
  intros H. assert (N : Forall name ws) by (apply (Forall_impl _ (fun w I => words_names w I) H)). destruct (process_spec req line ws H) as (req' & E & F). exists req'. split; [exact F|]. rewrite (require_section req line ws N). unfold require_keys.
  assert (K : forallb (fun t => existsb (String.eqb (t_type t)) key_tokens) (map (key line) ws) = true). { apply forallb_forall. intros t I. apply in_map_iff in I as (w & <- & I). rewrite key_known. apply known_In. rewrite Forall_forall in H. auto. }
  rewrite K, E. unfold check_requirements_support. destruct (forallb (fun f => existsb (String.eqb f) supported_features) req') eqn:S.
  - left. split; [|reflexivity]. apply Forall_forall. intros f I. rewrite forallb_forall in S. apply supported_same. auto.
  - right. split; [|reflexivity]. intros A. apply not_true_iff_false in S. apply S. apply forallb_forall. intros f I. apply supported_same. rewrite Forall_forall in A. auto.
Qed.
(** A word that the grammar does not have is a syntax error, wherever it is. *)
Theorem C77_unknown req line ws w : Forall name ws -> In w ws -> ~ In w (map fst words) -> require req line (section ws) = Syntax.
Proof.
  intros N I U. rewrite (require_section req line ws N). unfold require_keys. destruct (forallb (fun t => existsb (String.eqb (t_type t)) key_tokens) (map (key line) ws)) eqn:K; [|reflexivity]. exfalso. apply U. rewrite forallb_forall in K. apply known_In. rewrite <- (key_known w line). apply K. exact (in_map (key line) ws w I).
Qed.
(** So a new parser accepts exactly these words. *)
Theorem C77_accepted line ws : Forall name ws -> (exists req, require [] line (section ws) = Accepted req) <->
  Forall (fun w => In w ["strips"; "typing"; "equality"; "negative-preconditions"; "durative-actions"; "derived-predicates"; "numeric-fluents"; "fluents"]) ws.
Proof.
  intros N. split.
  - intros [req E]. destruct (forallb known ws) eqn:K.
    + assert (H : Forall (fun w => In w (map fst words)) ws) by (apply Forall_forall; intros w I; apply known_In; rewrite forallb_forall in K; auto). destruct (C77_known [] line ws H) as (req' & F & [[S _]|[_ E']]); [|congruence]. apply Forall_forall. intros w I. rewrite Forall_forall in H, S.
      assert (A : forallb (fun p => implb (forallb (fun f => existsb (String.eqb f) supported) (snd p)) (existsb (String.eqb (fst p)) ["strips"; "typing"; "equality"; "negative-preconditions"; "durative-actions"; "derived-predicates"; "numeric-fluents"; "fluents"])) words = true) by (vm_compute; reflexivity).
      rewrite forallb_forall in A. assert (Hw := H w I). apply in_map_iff in Hw as ([x fs] & Ex & J). cbn [fst] in Ex. subst x. specialize (A _ J). cbn [fst snd] in A.
      assert (B : forallb (fun f => existsb (String.eqb f) supported) fs = true). { apply forallb_forall. intros f If. apply existsb_exists. exists f. split; [|apply String.eqb_refl]. apply S, F. right. exists w, fs. auto. }
      rewrite B in A. cbn [implb] in A. apply existsb_exists in A as (v & Iv & Ev). apply String.eqb_eq in Ev. subst v. exact Iv.
    + exfalso. apply not_true_iff_false in K. apply K. apply forallb_forall. intros w I. destruct (known w) eqn:Kw; [reflexivity|]. exfalso. rewrite (C77_unknown [] line ws w N I) in E; [discriminate|]. intros J. apply known_In in J. congruence.
  - intros H. rewrite Forall_forall in H. assert (X : forall w, In w ["strips"; "typing"; "equality"; "negative-preconditions"; "durative-actions"; "derived-predicates"; "numeric-fluents"; "fluents"] -> In w (map fst words) /\ forall fs f, In (w, fs) words -> In f fs -> In f supported).
    { intros w I. assert (A : forallb (fun w => known w && forallb (fun p => implb (String.eqb (fst p) w) (forallb (fun f => existsb (String.eqb f) supported) (snd p))) words) ["strips"; "typing"; "equality"; "negative-preconditions"; "durative-actions"; "derived-predicates"; "numeric-fluents"; "fluents"] = true) by (vm_compute; reflexivity).
      rewrite forallb_forall in A. specialize (A w I). apply andb_true_iff in A as [A1 A2]. split; [apply known_In; exact A1|]. intros fs f J If. rewrite forallb_forall in A2. specialize (A2 _ J). cbn [fst snd] in A2. rewrite String.eqb_refl in A2. cbn [implb] in A2. rewrite forallb_forall in A2. specialize (A2 f If). apply existsb_exists in A2 as (g & G & Eg). apply String.eqb_eq in Eg. subst g. exact G. }
    assert (K : Forall (fun w => In w (map fst words)) ws) by (apply Forall_forall; intros w I; apply X; auto). destruct (C77_known [] line ws K) as (req' & F & [[_ E]|[S _]]); [exists req'; exact E|]. exfalso. apply S. apply Forall_forall. intros f I. apply F in I as [[]|(w & fs & I1 & I2 & I3)]. exact (proj2 (X w (H w I1)) fs f I2 I3).
Qed.
(** What was required by the domain counts for the problem, also after a refusal. *)
Theorem C77_again req line ws f : Forall (fun w => In w (map fst words)) ws -> In f req -> ~ In f supported -> exists req', require req line (section ws) = Unsupported req'.
Proof.
  intros H I N. destruct (C77_known req line ws H) as (req' & F & [[S _]|[_ E]]); [|eauto]. exfalso. apply N. rewrite Forall_forall in S. apply S, F. auto.
Qed.
(** Object fluents are supported, but :object-fluents cannot be written; :fluents can. *)
Theorem C77_object_fluents_refuted : In "OBJECT_FLUENTS" supported /\ require [] 1 "(:requirements :typing :object-fluents )" = Syntax /\ require [] 1 "(:requirements :STRIPS )" = Syntax.
Proof. split; [cbn; auto 10|]. split; vm_compute; reflexivity. Qed.
Theorem C77_nonvacuous : require [] 1 (section ["typing"; "fluents"]) = Accepted ["TYPING"; "NUMERIC_FLUENTS"; "OBJECT_FLUENTS"] /\ require [] 1 (section ["typing"; "adl"]) <> Syntax /\ (exists r, require [] 1 (section ["adl"]) = Unsupported r).
Proof. split; [vm_compute; reflexivity|]. split; [vm_compute; discriminate|]. eexists. vm_compute. reflexivity. Qed.
