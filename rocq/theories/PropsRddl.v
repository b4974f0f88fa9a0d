(** C63: expressions written in RDDL *)
From Coq Require Import Ascii DecimalString.
From Verif Require Import ListUtil Base Syntax Semantics SemLemmas ModelText PddlText Rddl RddlSpec RddlProofs RddlProofs2 RddlProofs3.
#[local] Open Scope string_scope.
#[local] Open Scope list_scope.

(** The text of a writable expression is an RDDL expression with the same meaning. *)
Theorem C63_expression e : writable e -> variables_apart e -> exists s r, rewrite e = Ok s /\ reads s = Some r /\ same_meaning r e.
Proof. intros W A. destruct (reads_rewrite e W) as (s & E & R & _). exists s, (tr e). auto using tr_same. Qed.

(** For the terms and formulas of first-order logic, that meaning is the textbook one. *)
Theorem C63_terms t : wf_term t = true -> writable (of_term t) -> variables_apart (of_term t) -> exists s r, rewrite (of_term t) = Ok s /\ reads s = Some r /\
  forall M total dict (rho : env M) (eta : string -> carrier M), dictionary_of M dict (of_term t) -> (forall x s, In (x, s) (variables (of_term t)) -> eta (strip x) = rho (x, s)) ->
    rsem M total dict r eta = Some (VE (tsem M t rho)).
Proof.
  intros Hw W A. destruct (C63_expression _ W A) as (s & r & E & R & S). exists s, r. split; [exact E|]. split; [exact R|]. intros M total dict rho eta D G. rewrite (S M total dict rho eta D G). now apply of_syntax.
Qed.
Theorem C63_formulas f : wf f = true -> writable (of_formula f) -> variables_apart (of_formula f) -> exists s r, rewrite (of_formula f) = Ok s /\ reads s = Some r /\
  forall M total dict (rho : env M) (eta : string -> carrier M), dictionary_of M dict (of_formula f) -> (forall x s, In (x, s) (variables (of_formula f)) -> eta (strip x) = rho (x, s)) ->
    rsem M total dict r eta = Some (VB (fsem M f rho)).
Proof.
  intros Hw W A. destruct (C63_expression _ W A) as (s & r & E & R & S). exists s, r. split; [exact E|]. split; [exact R|]. intros M total dict rho eta D G. rewrite (S M total dict rho eta D G). now apply of_syntax.
Qed.

(** Numbers are always writable. *)
Lemma digits_names d : name_chars (NilEmpty.string_of_uint d) = true.
Proof. induction d; cbn [NilEmpty.string_of_uint name_chars]; [reflexivity|..]; rewrite IHd; reflexivity. Qed.
Theorem C63_numbers z s : writable (XCst (CInt z) s).
Proof.
  unfold writable. cbn [parts]. constructor; [|constructor]. cbn [writable_here]. unfold user_name, name_text.
  assert (P : forall d, user_name (NilZero.string_of_uint d)).
  { intros d. unfold user_name, name_ok. destruct d; cbn [NilZero.string_of_uint NilEmpty.string_of_uint]; [split; reflexivity|..]; (split; [cbn [name_chars]; rewrite digits_names; reflexivity|reflexivity]). }
  destruct (Z.to_int z) as [d|d]; cbn [NilZero.string_of_int]; [apply P|]. unfold name_ok. destruct d; cbn [NilZero.string_of_uint NilEmpty.string_of_uint append]; [split; reflexivity|..]; (split; [cbn [name_chars]; rewrite digits_names; reflexivity|reflexivity]).
Qed.

(** ** Sections of a file *)
Lemma lexes_lines ls tss : Forall2 lexes ls tss -> lexes (join newline ls) (List.concat tss).
Proof.
  induction 1 as [|s t ls tss H HF IH]; [intros rest _; reflexivity|]. destruct HF as [|s' t' ls tss H' HF]; [cbn [join List.concat]; rewrite app_nil_r; exact H|].
  intros rest S. change (join newline (s :: s' :: ls)) with (s ++ newline ++ join newline (s' :: ls))%string. cbn [List.concat]. rewrite !sassoc. rewrite H by reflexivity. rewrite <- app_assoc. f_equal.
  change (lex "" (newline ++ ?x)) with (lex "" x). now apply IH.
Qed.
Lemma lexes_constraint s t : lexes s t -> lexes (tab ++ s ++ ";")%string (t ++ [Semi]).
Proof. intros H rest S. rewrite !sassoc. change (lex "" (tab ++ ?x)) with (lex "" x). rewrite H by reflexivity. rewrite <- app_assoc. f_equal. Qed.
Lemma parse_constraints es n : Forall writable es -> List.length es <= n -> constraints n (List.concat (map (fun e => toks e ++ [Semi]) es)) = Some (map tr es).
Proof.
  intros F. revert n. induction F as [|e es W F IH]; intros n L; [destruct n; reflexivity|]. destruct n as [|n]; [cbn in L; lia|]. cbn [map List.concat].
  assert (N : exists t ts, (toks e ++ [Semi]) ++ List.concat (map (fun e => toks e ++ [Semi]) es) = t :: ts) by (destruct (toks e); cbn; eauto). destruct N as (t & ts & N).
  assert (Q : read_expression (t :: ts) = Some (tr e, Semi :: List.concat (map (fun e => toks e ++ [Semi]) es))).
  { rewrite <- N. unfold read_expression. rewrite <- app_assoc. apply (proj2 (writable_parses e W)); [rewrite app_length; lia|exact I|exact I]. }
  rewrite N. unfold constraints. fold constraints. rewrite Q. cbn [expect token_eqb]. rewrite IH by (cbn in L; lia). reflexivity.
Qed.
Lemma kept_map {A} k (cs : list (A * ctype)) x : In x (map fst (filter (fun c => ctype_eqb (snd c) k) cs)) -> In (x, k) cs.
Proof. intros H. apply in_map_iff in H as ([a c] & <- & H). apply filter_In in H as [H E]. cbn [fst snd] in *. destruct c, k; first [exact H|discriminate E]. Qed.
(** The constraints of one kind, in the order in which they were added. *)
Theorem C63_constraints k cs : (forall e, In (e, k) cs -> writable e /\ variables_apart e) ->
  exists s rs, constraints_of k cs = Ok s /\ reads_constraints s = Some rs /\ Forall2 same_meaning rs (map fst (filter (fun c => ctype_eqb (snd c) k) cs)).
Proof.
  intros H. unfold constraints_of. set (es := map fst (filter (fun c => ctype_eqb (snd c) k) cs)).
  assert (W : Forall (fun e => writable e /\ variables_apart e) es) by (apply Forall_forall; intros e He; apply H; now apply kept_map).
  clearbody es. assert (L : exists ls, mapM constraint_line es = Ok ls /\ Forall2 lexes ls (map (fun e => toks e ++ [Semi]) es)).
  { clear H. induction W as [|e es [We _] _ (ls & El & Fl)]; [exists []; split; [reflexivity|constructor]|]. destruct (reads_rewrite e We) as (s & Es & _ & Ls). exists ((tab ++ s ++ ";")%string :: ls). cbn [mapM map]. fold (mapM constraint_line es).
    unfold constraint_line at 1. rewrite Es. cbn [bind]. rewrite El. split; [reflexivity|]. constructor; [|exact Fl]. now apply lexes_constraint. }
  destruct L as (ls & El & Fl). rewrite El. cbn [bind]. exists (join newline ls), (map tr es). split; [reflexivity|]. split.
  - unfold reads_constraints. assert (T : lex "" (join newline ls) = List.concat (map (fun e => toks e ++ [Semi]) es)).
    { rewrite <- (sapp_nil (join newline ls)), (lexes_lines _ _ Fl "") by exact I. cbn [lex flush]. apply app_nil_r. }
    rewrite T. apply parse_constraints; [apply Forall_forall; intros e He; exact (proj1 (proj1 (Forall_forall _ _) W e He))|]. clear. induction es as [|e es IH]; [cbn; lia|]. cbn [map List.concat List.length]. rewrite !app_length. cbn [List.length]. lia.
  - induction W as [|e es [We Ae] W' IH]; [constructor|]. cbn [map]. constructor; [now apply tr_same|]. cbn [mapM] in El. fold (mapM constraint_line es) in El. clear - W'. induction W' as [|e es [We Ae] _ IH]; constructor; auto using tr_same.
Qed.
(** Constraints that are neither preconditions nor state invariants are in neither section. *)
Theorem C63_constraints_refuted e : get_preconditions [(e, INVARIANT)] = Ok "" /\ get_state_invariants [(e, INVARIANT)] = Ok "" /\ reads_constraints "" = Some [].
Proof. repeat split. Qed.

Definition simple_argument (t : xexpr) : Prop := match t with XVar _ _ | XCst _ _ => True | _ => False end.
Lemma fluent_arguments ts : Forall simple_argument ts -> mapM fluent_argument ts = mapM rewrite ts.
Proof. induction 1 as [|t ts H _ IH]; [reflexivity|]. cbn [mapM]. fold (mapM fluent_argument ts) (mapM rewrite ts). rewrite IH. destruct t; try destruct H; reflexivity. Qed.
Lemma prime_word f : name_ok f = true -> name_ok (f ++ "'") = false /\ unprime (f ++ "'") = Some f /\ variable_of (f ++ "'") = None /\ clean (f ++ "'") = true /\ (f ++ "'")%string <> "" /\
  String.eqb (f ++ "'") "if" = false /\ mem (f ++ "'") quantifier_words = false /\ String.eqb (f ++ "'") "~" = false /\ String.eqb (f ++ "'") "true" = false /\ String.eqb (f ++ "'") "false" = false.
Proof.
  intros K. pose proof (name_ok_clean f K) as [C N]. assert (P : name_chars (f ++ "'") = false). { clear. induction f as [|c f IH]; [reflexivity|]. cbn [append name_chars]. rewrite IH. apply andb_false_r. }
  assert (Q : forall w, name_chars w = true -> String.eqb (f ++ "'") w = false) by (intros w Hw; destruct (String.eqb_spec (f ++ "'") w) as [E|]; [rewrite E, Hw in P; discriminate P|reflexivity]).
  repeat split.
  - unfold name_ok. rewrite P, andb_false_r. reflexivity.
  - clear. induction f as [|c f IH]; [reflexivity|]. cbn [append]. cbn [unprime]. destruct (f ++ "'")%string as [|c' r] eqn:E; [destruct f; discriminate E|]. rewrite IH. reflexivity.
  - unfold name_ok in K. rewrite !andb_true_iff in K. destruct K as [[_ K] _]. destruct f as [|c f]; [contradiction|]. cbn [append variable_of]. destruct (Ascii.eqb_spec c "?") as [->|]; [vm_compute in K; discriminate K|reflexivity].
  - rewrite clean_app, C. reflexivity.
  - destruct f; discriminate.
  - now apply Q.
  - unfold mem. cbn [existsb quantifier_words]. rewrite !Q by reflexivity. reflexivity.
  - destruct (String.eqb_spec (f ++ "'") "~") as [E|]; [|reflexivity]. destruct f as [|c [|c' f]]; discriminate E.
  - now apply Q.
  - now apply Q.
Qed.
Lemma parse_fluent f ts : name_ok f = true -> Forall parses ts -> forall n top rest, List.length (call_tokens (f ++ "'") LP RP (map toks ts)) <= n -> follow rest -> noop rest ->
  expression n top (call_tokens (f ++ "'") LP RP (map toks ts) ++ rest) = Some (RNext f (map tr ts), rest).
Proof.
  intros K F n top rest L Fo No. destruct (prime_word f K) as (A1 & A2 & A3 & A4 & A5 & A6 & A7 & A8 & A9 & A10). destruct n as [|n]; [cbn in L; lia|]. rewrite expression_S. destruct ts as [|t ts].
  - cbn [map call_tokens List.app]. rewrite start_word by auto. unfold word. rewrite A9, A10, A3, A1, A2, K. now apply tail_noop.
  - unfold call_tokens in *. assert (Q : match map toks (t :: ts) with [] => [] | _ => LP :: sep (map toks (t :: ts)) ++ [RP] end = LP :: sep (map toks (t :: ts)) ++ [RP]) by reflexivity. rewrite Q in *. clear Q. cbn [List.length] in L. rewrite app_length in L. cbn [List.length] in L.
    rewrite <- !app_comm_cons, <- app_assoc. assert (Hs : start_of (Word (f ++ "'") :: LP :: sep (map toks (t :: ts)) ++ [RP] ++ rest) = SCall RP (f ++ "'") (sep (map toks (t :: ts)) ++ RP :: rest)).
    { unfold start_of. rewrite A6, A7, A8. reflexivity. }
    rewrite Hs, parse_arguments; [|now left|exact F|discriminate| |].
    + unfold call. rewrite A1, A2, K. now apply tail_noop.
    + intros u Hu. pose proof (sep_length _ _ (in_map toks (t :: ts) u Hu)). lia.
    + pose proof (sep_count (map toks (t :: ts))) as Z. rewrite map_length in Z. lia.
Qed.
Definition definition_ok (d : (string * list xexpr) * xexpr) : Prop :=
  name_ok (fst (fst d)) = true /\ Forall (fun t => simple_argument t /\ writable t) (snd (fst d)) /\ writable (snd d) /\ variables_apart (snd d).
Definition same_definition (r : string * list rexp * rexp) (d : (string * list xexpr) * xexpr) : Prop :=
  fst (fst r) = fst (fst d) /\ Forall2 same_meaning (snd (fst r)) (snd (fst d)) /\ same_meaning (snd r) (snd d).
Definition definition_tokens (d : (string * list xexpr) * xexpr) : list token := call_tokens (fst (fst d) ++ "'") LP RP (map toks (snd (fst d))) ++ Word "=" :: toks (snd d) ++ [Semi].
Definition definition_exp (d : (string * list xexpr) * xexpr) : string * list rexp * rexp := (fst (fst d), map tr (snd (fst d)), tr (snd d)).
Lemma lexes_definition d : definition_ok d -> exists s, cpf_line d = Ok s /\ lexes s (definition_tokens d).
Proof.
  destruct d as [[f ts] e]. intros (K & F & W & A). cbn [fst snd] in *. unfold cpf_line, get_fluent. cbn [fst snd]. rewrite fluent_arguments by (eapply Forall_impl; [|exact F]; intros t [Q _]; exact Q).
  destruct (mapM_lexes ts) as (ss & Es & Fs). { eapply Forall_impl; [|exact F]. intros t [_ Wt]. now apply rewrite_lexes. }
  rewrite Es. cbn [bind]. destruct (rewrite_lexes e W) as (s & E & L). rewrite E. cbn [bind]. eexists. split; [reflexivity|]. destruct (prime_word f K) as (_ & _ & _ & C & N & _).
  intros rest S. unfold definition_tokens. cbn [fst snd]. rewrite !sassoc. change (lex "" (tab ++ ?x)) with (lex "" x). rewrite <- (sassoc f "'"), <- (sassoc (f ++ "'")).
  rewrite (lexes_call (f ++ "'") ss (map toks ts) C N Fs) by reflexivity. rewrite <- app_assoc. f_equal. change (lex "" (" = " ++ ?x)) with (Word "=" :: lex "" x). rewrite <- app_comm_cons. f_equal. rewrite L by reflexivity. rewrite <- app_assoc. reflexivity.
Qed.
Lemma parse_definitions ds n : Forall definition_ok ds -> List.length ds <= n -> definitions n (List.concat (map definition_tokens ds)) = Some (map definition_exp ds).
Proof.
  intros F. revert n. induction F as [|d ds H F IH]; intros n L; [destruct n; reflexivity|]. destruct n as [|n]; [cbn in L; lia|]. cbn [map List.concat]. destruct d as [[f ts] e]. destruct H as (K & Ft & W & A). cbn [fst snd] in *.
  set (more := List.concat (map definition_tokens ds)) in *.
  assert (T : definition_tokens (f, ts, e) ++ more = call_tokens (f ++ "'") LP RP (map toks ts) ++ Word "=" :: toks e ++ Semi :: more) by (unfold definition_tokens; cbn [fst snd]; rewrite <- !app_assoc, <- app_comm_cons, <- app_assoc; reflexivity).
  rewrite T. assert (N : exists t r, call_tokens (f ++ "'") LP RP (map toks ts) ++ Word "=" :: toks e ++ Semi :: more = t :: r) by (unfold call_tokens; cbn [List.app]; eauto). destruct N as (t & r & N).
  assert (Q : read_expression (t :: r) = Some (RNext f (map tr ts), Word "=" :: toks e ++ Semi :: more)).
  { rewrite <- N. unfold read_expression. apply parse_fluent; [exact K| |rewrite app_length; lia|exact I|reflexivity]. eapply Forall_impl; [|exact Ft]. intros u [_ Wu]. now apply writable_parses. }
  assert (Q' : read_expression (toks e ++ Semi :: more) = Some (tr e, Semi :: more)) by (unfold read_expression; apply (proj2 (writable_parses e W)); [rewrite app_length; lia|exact I|exact I]).
  rewrite N. unfold definitions. fold definitions. rewrite Q. cbn [expect token_eqb]. change (String.eqb "=" "=") with true. cbv match. rewrite Q'. cbn [expect token_eqb]. rewrite IH by (cbn in L; lia). reflexivity.
Qed.
(** The definitions of the next-state fluents, in order. *)
Theorem C63_cpfs ds : Forall definition_ok ds -> exists s rs, get_cpfs ds = Ok s /\ reads_definitions s = Some rs /\ Forall2 same_definition rs ds.
Proof.
  intros H. assert (L : exists ls, mapM cpf_line ds = Ok ls /\ Forall2 lexes ls (map definition_tokens ds)).
  { induction H as [|d ds Hd _ (ls & El & Fl)]; [exists []; split; [reflexivity|constructor]|]. destruct (lexes_definition d Hd) as (s & Es & Ls). exists (s :: ls). cbn [mapM map]. fold (mapM cpf_line ds). rewrite Es, El. split; [reflexivity|now constructor]. }
  destruct L as (ls & El & Fl). unfold get_cpfs. rewrite El. cbn [bind]. exists (join newline ls), (map definition_exp ds). split; [reflexivity|]. split.
  - unfold reads_definitions. assert (T : lex "" (join newline ls) = List.concat (map definition_tokens ds)).
    { rewrite <- (sapp_nil (join newline ls)), (lexes_lines _ _ Fl "") by exact I. cbn [lex flush]. apply app_nil_r. }
    rewrite T. apply parse_definitions; [exact H|]. clear. induction ds as [|d ds IH]; [cbn; lia|]. cbn [map List.concat List.length]. rewrite app_length. assert (1 <= List.length (definition_tokens d)) by (unfold definition_tokens, call_tokens; cbn [List.app List.length]; lia). lia.
  - clear - H. induction H as [|d ds (K & Ft & W & A) _ IH]; [constructor|]. cbn [map]. constructor; [|exact IH]. unfold same_definition, definition_exp. cbn [fst snd]. split; [reflexivity|]. split; [|now apply tr_same].
    induction Ft as [|t ts [St Wt] _ IHt]; [constructor|]. cbn [map]. constructor; [|exact IHt]. apply tr_same; [exact Wt|]. destruct t; try destruct St; intros v w Hv Hw; cbn in Hv, Hw; [destruct Hv as [<-|[]], Hw as [<-|[]]; reflexivity|destruct Hv].
Qed.
(** The reward; no reward is the number 0.0. *)
Theorem C63_reward r : (forall e, r = Some e -> writable e /\ variables_apart e) ->
  exists s x, get_reward r = Ok s /\ reads s = Some x /\ match r with Some e => same_meaning x e | None => x = RName "0.0" [] end.
Proof.
  intros H. destruct r as [e|].
  - destruct (H e eq_refl) as [W A]. exact (C63_expression e W A).
  - exists "0.0", (RName "0.0" []). repeat split.
Qed.
