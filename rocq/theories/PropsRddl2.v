(** C63: what the RDDL writer cannot write; examples *)
From Coq Require Import Ascii DecimalString.
From Verif Require Import ListUtil Base Syntax Semantics SemLemmas ModelText PddlText Rddl RddlSpec RddlProofs RddlProofs2 RddlProofs3 PropsRddl.
#[local] Open Scope string_scope.
#[local] Open Scope list_scope.

(** A conjunction or disjunction of more than two formulas is written as that of the first two. *)
Theorem C63_connectives_refuted c f g fs s : c <> Not -> rewrite (XComp c (f :: g :: fs)) = Ok s -> rewrite (XComp c [f; g]) = Ok s.
Proof.
  intros _ H. cbn [rewrite mapM] in *. destruct (rewrite f) as [a|]; [|discriminate H]. destruct (rewrite g) as [b|]; [|discriminate H]. fold (mapM rewrite fs) in H. destruct (mapM rewrite fs) as [l|]; [|discriminate H]. exact H.
Qed.
(** No negation is written as an RDDL expression. *)
Lemma lex_word_first c w s : exists w' r, lex (String c w) s = Word (String c w') :: r.
Proof.
  revert w. induction s as [|d s IH]; intros w; cbn [lex]; [exists w, []; reflexivity|]. destruct (blank d); [exists w, (lex "" s); reflexivity|]. destruct (punctuation d) as [t|]; [exists w, (t :: lex "" s); reflexivity|]. apply IH.
Qed.
Lemma quote_not_name w : name_ok (String "'" w) = false.
Proof. unfold name_ok. cbn [name_chars]. change (name_char "'") with false. cbn [andb]. now rewrite andb_false_r. Qed.
Lemma quote_unprime w n : unprime (String "'" w) = Some n -> name_ok n = false.
Proof.
  destruct w as [|c w].
  - intros H. injection H as <-. reflexivity.
  - cbn [unprime]. intros H. change (option_map (String "'") (unprime (String c w)) = Some n) in H. destruct (unprime (String c w)) as [m|]; [|discriminate H]. cbn in H. injection H as <-. apply quote_not_name.
Qed.
Lemma quote_word w : word (String "'" w) = None.
Proof.
  unfold word. change (String.eqb (String "'" w) "true") with false. change (String.eqb (String "'" w) "false") with false. change (variable_of (String "'" w)) with (@None string). rewrite quote_not_name.
  destruct (unprime (String "'" w)) as [n|] eqn:E; [|reflexivity]. now rewrite (quote_unprime w n E).
Qed.
Lemma quote_call close w es : call close (String "'" w) es = None.
Proof.
  unfold call. rewrite quote_not_name. destruct (unprime (String "'" w)) as [n|] eqn:E; [rewrite (quote_unprime w n E)|]; now destruct close.
Qed.
Lemma quote_expression n top w r : expression n top (Word (String "'" w) :: r) = None.
Proof.
  destruct n as [|n]; [reflexivity|]. rewrite expression_S. unfold start_of. change (String.eqb (String "'" w) "if") with false. change (mem (String "'" w) quantifier_words) with false. change (String.eqb (String "'" w) "~") with false. cbv match.
  assert (A : forall close t, tail n top match arguments_of (expression n true) close n t with Some (es, t1) => match call close (String "'" w) es with Some e => Some (e, t1) | None => None end | None => None end = None).
  { intros close t. destruct (arguments_of _ _ _ _) as [[es t1]|]; [rewrite quote_call|]; reflexivity. }
  destruct r as [|[] r]; try (rewrite quote_word; reflexivity); apply A.
Qed.
Theorem C63_negation_refuted f s : rewrite (XComp Not [f]) = Ok s -> reads s = None.
Proof.
  cbn [rewrite mapM]. destruct (rewrite f) as [a|]; [|discriminate]. cbn [bind connective_symbol]. intros H. injection H as <-.
  match goal with |- reads ?x = _ => change x with ("~['" ++ a ++ "']")%string end.
  assert (T : exists w r, lex "" ("~['" ++ a ++ "']")%string = Word "~" :: LB :: Word (String "'" w) :: r).
  { change (lex "" ("~['" ++ a ++ "']")) with (Word "~" :: LB :: lex "'" (a ++ "']")). destruct (lex_word_first "'" "" (a ++ "']")) as (w & r & E). exists w, r. now rewrite E. }
  destruct T as (w & r & T). unfold reads, read_expression. rewrite T. cbn [List.length]. rewrite expression_S. change (start_of (Word "~" :: ?t)) with (SNot t). cbv match.
  destruct (List.length r) as [|k]; cbv beta; rewrite expression_S; cbn [start_of]; rewrite quote_expression; reflexivity.
Qed.
(** A conditional or an aggregate to the left of an operator takes in the right operand. *)
Lemma left_operand e n rest : writable e -> follow rest -> noop rest -> List.length (toks e) <= n ->
  forall top, expression n top (toks e ++ rest) = Some (tr e, rest).
Proof. intros W F O L top. now apply (proj2 (writable_parses e W)). Qed.
Definition arithmetic (b : bfun) : Prop := b = BAdd \/ b = BSub \/ b = BMul \/ b = BDiv.
Lemma arithmetic_infix b : arithmetic b -> exists op, infix_fun b = Some op /\ mem op operators = true /\ In op operators /\ clean op = true /\ op <> "".
Proof. intros [->|[->|[->| ->]]]; eexists; (split; [reflexivity|]); repeat split; try discriminate; cbn; tauto. Qed.
Lemma infix_of_prefix b l r : arithmetic b -> writable l -> writable r -> exists op s, infix_fun b = Some op /\ mem op operators = true /\ rewrite (XApp (FB b) [l; r]) = Ok s /\ lex "" s = LP :: toks l ++ Word op :: toks r ++ [RP].
Proof.
  intros Hb Wl Wr. destruct (arithmetic_infix b Hb) as (op & E & Hm & _ & C & N). destruct (rewrite_lexes l Wl) as (sl & El & Ll). destruct (rewrite_lexes r Wr) as (sr & Er & Lr).
  exists op. eexists. split; [exact E|]. split; [exact Hm|]. cbn [rewrite mapM]. rewrite El, Er, E. cbn [bind infix_text]. split; [reflexivity|].
  rewrite <- (sapp_nil (_ ++ _)), (lexes_infix op (toks l) (toks r) sl sr Ll Lr C N "") by exact I. cbn [lex flush]. apply app_nil_r.
Qed.
Lemma captured_if b c t u x : arithmetic b -> writable c -> writable t -> writable u -> writable x ->
  exists op s, infix_fun b = Some op /\ rewrite (XApp (FB b) [XIte c t u; x]) = Ok s /\ reads s = Some (RIf (tr c) (tr t) (RBin op (tr u) (tr x))).
Proof.
  intros Hb Wc Wt Wu Wx. assert (Wi : writable (XIte c t u)) by (unfold writable; cbn [parts]; constructor; [exact I|]; repeat (apply Forall_app; split); assumption).
  destruct (infix_of_prefix b _ _ Hb Wi Wx) as (op & s & E & Hm & Es & Ls). exists op, s. split; [exact E|]. split; [exact Es|]. unfold reads, read_expression. rewrite Ls. cbn [toks]. set (n := List.length _).
  assert (L : n = 1 + (2 + (List.length (toks c) + (3 + (List.length (toks t) + (3 + (List.length (toks u) + 2 + (List.length (toks x) + 1)))))))).
  { unfold n. repeat (cbn [List.length]; rewrite ?app_length). cbn [List.length]. lia. }
  clearbody n. destruct n as [|n]; [lia|]. rewrite expression_S. cbn [start_of]. destruct n as [|n]; [lia|]. rewrite expression_S. repeat (rewrite <- ?app_comm_cons, <- ?app_assoc). cbn [List.app]. change (start_of (Word "if" :: LP :: ?r)) with (SIf r). cbv match.
  rewrite (left_operand c) by (first [assumption|exact I|lia]). cbn [expect token_eqb]. change (String.eqb "then" "then") with true. cbv match.
  destruct n as [|n]; [lia|]. rewrite (expression_S n true (LP :: _)). cbn [start_of]. rewrite (left_operand t) by (first [assumption|exact I|lia]). cbn [expect token_eqb]. rewrite tail_noop by reflexivity. cbn [expect token_eqb]. change (String.eqb "else" "else") with true. cbv match.
  rewrite (expression_S n true (LP :: _)). cbn [start_of]. rewrite (left_operand u) by (first [assumption|exact I|lia]). cbn [expect token_eqb]. cbn [tail]. rewrite Hm. cbn [andb]. rewrite (left_operand x) by (first [assumption|exact I|lia]). cbn [expect token_eqb tail]. reflexivity.
Qed.
Lemma captured_block b m vs t x : arithmetic b -> binders_ok vs -> writable t -> writable x ->
  exists op s, infix_fun b = Some op /\ rewrite (XApp (FB b) [XAgg m vs t; x]) = Ok s /\ reads s = Some (RQuant (if m then "prod_" else "sum_") vs (RBin op (tr t) (tr x))).
Proof.
  intros Hb B Wt Wx. assert (Wi : writable (XAgg m vs t)) by (unfold writable; cbn [parts]; constructor; [exact B|exact Wt]).
  destruct (infix_of_prefix b _ _ Hb Wi Wx) as (op & s & E & Hm & Es & Ls). exists op, s. split; [exact E|]. split; [exact Es|]. unfold reads, read_expression. rewrite Ls. cbn [toks]. unfold block_tokens. set (q := if m then "prod_" else "sum_"). set (n := List.length _).
  assert (L : n = 1 + (2 + (List.length (sep (map binder_tokens vs)) + (2 + (List.length (toks t) + 2 + (List.length (toks x) + 1)))))).
  { unfold n. repeat (cbn [List.length]; rewrite ?app_length). cbn [List.length]. lia. }
  clearbody n. assert (Hq : mem q quantifier_words = true /\ String.eqb q "if" = false) by (destruct m; split; reflexivity). clearbody q. destruct Hq as [Hq Hi].
  destruct n as [|n]; [lia|]. rewrite expression_S. cbn [start_of]. destruct n as [|n]; [lia|]. rewrite expression_S. repeat (rewrite <- ?app_comm_cons, <- ?app_assoc). cbn [List.app].
  assert (Hs : forall r, start_of (Word q :: LC :: r) = SQuant q r) by (intros r; unfold start_of; now rewrite Hi, Hq). rewrite Hs, parse_binders by exact B.
  destruct n as [|n]; [lia|]. rewrite (expression_S n true (LP :: _)). cbn [start_of]. rewrite (left_operand t) by (first [assumption|exact I|lia]). cbn [expect token_eqb]. cbn [tail]. rewrite Hm. cbn [andb]. rewrite (left_operand x) by (first [assumption|exact I|lia]). cbn [expect token_eqb tail]. reflexivity.
Qed.
Theorem C63_conditional_captures_refuted b c t u x : arithmetic b -> writable c -> writable t -> writable u -> writable x -> prefix_form u = false ->
  variables_apart (XIte c t (XApp (FB b) [u; x])) ->
  exists s r, rewrite (XApp (FB b) [XIte c t u; x]) = Ok s /\ reads s = Some r /\ same_meaning r (XIte c t (XApp (FB b) [u; x])).
Proof.
  intros Hb Wc Wt Wu Wx Hp A. destruct (captured_if b c t u x Hb Wc Wt Wu Wx) as (op & s & E & Es & R). exists s. eexists. split; [exact Es|]. split; [exact R|]. destruct (arithmetic_infix b Hb) as (op' & E' & _ & Io & _). rewrite E in E'. injection E' as <-.
  assert (W : writable (XIte c t (XApp (FB b) [u; x]))).
  { unfold writable. cbn [parts flat_map]. constructor; [exact I|]. repeat (apply Forall_app; split); try assumption. constructor; [|repeat (apply Forall_app; split); try assumption; constructor]. cbn [writable_here]. rewrite E. split; [exact Io|]. exists u, x. auto. }
  pose proof (tr_same _ W A) as Q. cbn [tr] in Q. rewrite E in Q. exact Q.
Qed.
Theorem C63_aggregate_captures_refuted b m vs t x : arithmetic b -> binders_ok vs -> writable t -> writable x -> prefix_form t = false ->
  variables_apart (XAgg m vs (XApp (FB b) [t; x])) ->
  exists s r, rewrite (XApp (FB b) [XAgg m vs t; x]) = Ok s /\ reads s = Some r /\ same_meaning r (XAgg m vs (XApp (FB b) [t; x])).
Proof.
  intros Hb B Wt Wx Hp A. destruct (captured_block b m vs t x Hb B Wt Wx) as (op & s & E & Es & R). exists s. eexists. split; [exact Es|]. split; [exact R|]. destruct (arithmetic_infix b Hb) as (op' & E' & _ & Io & _). rewrite E in E'. injection E' as <-.
  assert (W : writable (XAgg m vs (XApp (FB b) [t; x]))).
  { unfold writable. cbn [parts flat_map]. constructor; [exact B|]. constructor; [|repeat (apply Forall_app; split); try assumption; constructor]. cbn [writable_here]. rewrite E. split; [exact Io|]. exists t, x. auto. }
  pose proof (tr_same _ W A) as Q. cbn [tr] in Q. rewrite E in Q. exact Q.
Qed.
(** The variables of quantifiers must not start with a question mark. *)
Theorem C63_question_mark_refuted q x s f t : name_chars x = true -> name_ok s = true -> rewrite (XQuant q [(("?" ++ x)%string, s)] f) = Ok t -> reads t = None.
Proof.
  intros C K. cbn [rewrite]. destruct (rewrite f) as [a|]; [|discriminate]. cbn [bind]. intros H. match type of H with Ok ?y = Ok _ => assert (Et : t = y) by congruence end. rewrite Et. clear H Et. apply name_ok_clean in K as [K1 K2].
  assert (T : exists r, lex "" (quant_symbol q ++ "_{" ++ binders [(("?" ++ x)%string, s)] ++ "} (" ++ a ++ ")") = Word (quant_symbol q ++ "_") :: LC :: Word ("??" ++ x) :: Word ":" :: Word s :: RC :: LP :: r).
  { exists (lex "" (a ++ ")")). unfold binders, binder. cbn [map join fst snd]. rewrite !sassoc. change ("_{" ++ ?r)%string with ("_" ++ "{" ++ r)%string. rewrite <- (sassoc (quant_symbol q) "_"). rewrite (lexes_word (quant_symbol q ++ "_")) by (destruct q; first [reflexivity|discriminate]). cbn [List.app]. f_equal.
    change (lex "" ("{" ++ ?s)) with (LC :: lex "" s). f_equal. change ("?" ++ "?" ++ x ++ ?r)%string with ("??" ++ x ++ r)%string. rewrite <- (sassoc "??" x). rewrite (lexes_word ("??" ++ x)) by (first [exact (names_clean x C)|discriminate|reflexivity]). cbn [List.app]. f_equal.
    change (lex "" (" : " ++ ?s)) with (Word ":" :: lex "" s). f_equal. rewrite (lexes_word s K1 K2) by reflexivity. reflexivity. }
  destruct T as (r & T). unfold reads, read_expression. rewrite T. cbn [List.length]. rewrite expression_S.
  assert (Hs : forall r, start_of (Word (quant_symbol q ++ "_") :: LC :: r) = SQuant (quant_symbol q ++ "_")%string r) by (intros ?; destruct q; reflexivity). rewrite Hs. cbn [binders_of].
  assert (V : variable_of ("??" ++ x) = None) by reflexivity. rewrite V. reflexivity.
Qed.
(** Powers and remainders are not written as RDDL expressions. *)
Theorem C63_power_refuted n a b : In n ["**"; "%"] -> writable a -> writable b -> prefix_form a = false -> exists s, rewrite (XApp (FB (BOther n)) [a; b]) = Ok s /\ reads s = None.
Proof.
  intros Hn Wa Wb Hp. assert (E : infix_fun (BOther n) = Some n /\ mem n operators = false /\ clean n = true /\ n <> "") by (destruct Hn as [<-|[<-|[]]]; repeat split; discriminate). destruct E as (E & Hm & C & N).
  destruct (rewrite_lexes a Wa) as (sa & Ea & La). destruct (rewrite_lexes b Wb) as (sb & Eb & Lb). eexists. cbn [rewrite mapM]. rewrite Ea, Eb, E. cbn [bind infix_text]. split; [reflexivity|].
  unfold reads, read_expression. rewrite <- (sapp_nil (_ ++ _)), (lexes_infix n (toks a) (toks b) sa sb La Lb C N "") by exact I. cbn [lex flush]. rewrite app_nil_r. set (k := List.length _).
  assert (L : k = S (List.length (toks a) + S (List.length (toks b) + 1))) by (unfold k; repeat (cbn [List.length]; rewrite ?app_length); cbn [List.length]; lia). rewrite L. rewrite expression_S. cbn [start_of].
  set (j := _ + _). assert (Lj : List.length (toks a) < j) by (unfold j; lia). clearbody j. destruct j as [|j]; [lia|].
  rewrite (proj1 (writable_parses a Wa) Hp) by (first [lia|exact I]). cbn [tail]. rewrite Hm. cbn [andb expect token_eqb tail]. reflexivity.
Qed.

(** ** Examples *)
(** a structure of integers with three way points *)
Definition MZ : structure := {|
  carrier := Z; dom := fun s => if String.eqb s "waypoint" then [1; 2; 3]%Z else [1]%Z;
  cint := fun c _ => match c with CInt z => z | CStr _ => 0%Z end;
  fint := fun f l => match f, l with
                     | FB BAdd, [a; b] => (a + b)%Z | FB BSub, [a; b] => (a - b)%Z | FB BMul, [a; b] => (a * b)%Z
                     | FB (BOther n), [a; b] => if String.eqb n "max" then Z.max a b else 0%Z
                     | FB (BOther n), [a] => Z.abs a
                     | FU n _ _, [a] => (10 * a)%Z
                     | FU n _ _, _ => 7%Z
                     | _, _ => 0%Z
                     end;
  pint := fun p l => match p, l with PB PEq, [a; b] => Z.eqb a b | PB PGe, [a; b] => Z.leb b a | PB PGt, [a; b] => Z.ltb b a | PB PLe, [a; b] => Z.leb a b | PU _ _, [a] => Z.eqb a 2 | _, _ => false end |}.
Definition totalZ (mul : bool) (l : list Z) : Z := if mul then fold_right Z.mul 1%Z l else fold_right Z.add 0%Z l.
Definition wv (t : xexpr) : xexpr := XApp (FU "wv" ["waypoint"] "Real") [t].
Definition dtx : xexpr := XApp (FU "dt" [] "Real") [].
Definition wpt : xexpr := XVar "wpt" "waypoint".
Definition visited (t : xexpr) : xexpr := XAtom (PU "visited" ["waypoint"]) [t].
Definition dictZ (next : bool) (n : string) (l : list Z) : option (val MZ) :=
  if next then None
  else if String.eqb n "wv" then Some (VE (M := MZ) (fint MZ (FU "wv" ["waypoint"] "Real") l)) else if String.eqb n "dt" then Some (VE (M := MZ) (fint MZ (FU "dt" [] "Real") l))
  else if String.eqb n "visited" then Some (VB (pint MZ (PU "visited" ["waypoint"]) l)) else if String.eqb n "5" then Some (VE (M := MZ) 5%Z) else if String.eqb n "1" then Some (VE (M := MZ) 1%Z) else None.
Definition five : xexpr := XCst (CInt 5) "Real".
(** dt + sum_wpt (if visited(wpt) ^ max(wv(wpt), 5) >= 5 then wv(wpt) else Normal(5, 5)) *)
Definition e_good : xexpr :=
  XApp (FB BAdd) [dtx; XAgg false [("wpt", "waypoint")]
    (XIte (XComp And [visited wpt; XAtom (PB PGe) [XApp (FB (BOther "max")) [wv wpt; five]; five]]) (wv wpt) (XApp (FB (BOther "normal")) [five; five]))].
Lemma good_writable : writable e_good.
Proof.
  unfold writable, e_good. cbn [parts flat_map List.app dtx wv wpt visited five]. repeat (apply Forall_cons || apply Forall_nil); cbn [writable_here infix_fun].
  all: try (split; [cbn; tauto|do 2 eexists; split; reflexivity]). all: try (split; reflexivity). all: try (split; [discriminate|]). all: try reflexivity. all: try (do 2 eexists; split; reflexivity). all: try exact I.
  - intros x s [E|[]]. injection E as <- <-. repeat split. discriminate.
  - exists "max". split; [reflexivity|cbn; tauto].
  - exists "normal". split; [reflexivity|cbn; tauto].
Qed.
Lemma good_apart : variables_apart e_good.
Proof. intros v w Hv Hw _. cbn in Hv, Hw. repeat (destruct Hv as [<-|Hv]; [repeat (destruct Hw as [<-|Hw]; [reflexivity|]); destruct Hw|]). destruct Hv. Qed.
Lemma good_dict : dictionary_of MZ dictZ e_good.
Proof.
  repeat split.
  - intros c s H. cbn in H. repeat (destruct H as [H|H]; [first [discriminate H|injection H as <- <-; reflexivity]|]). destruct H.
  - intros n ds r ts l H L. cbn in H. repeat (destruct H as [H|H]; [first [discriminate H|injection H as <- <- <- <-; reflexivity]|]). destruct H.
  - intros n ss ts l H L. cbn in H. repeat (destruct H as [H|H]; [first [discriminate H|injection H as <- <- <-; reflexivity]|]). destruct H.
Qed.
Theorem C63_nonvacuous : writable e_good /\ variables_apart e_good /\ dictionary_of MZ dictZ e_good /\
  rewrite e_good = Ok "(dt + sum_{?wpt : waypoint} (if ((visited(?wpt) ^ (max[wv(?wpt),5] >= 5))) then (wv(?wpt)) else (Normal(5,5))))" /\
  exists r, reads "(dt + sum_{?wpt : waypoint} (if ((visited(?wpt) ^ (max[wv(?wpt),5] >= 5))) then (wv(?wpt)) else (Normal(5,5))))" = Some r /\ rsem MZ totalZ dictZ r (fun _ => 0%Z) = Some (VE (M := MZ) 27%Z).
Proof.
  split; [exact good_writable|]. split; [exact good_apart|]. split; [exact good_dict|]. split; [vm_compute; reflexivity|]. eexists. split; [vm_compute; reflexivity|]. vm_compute. reflexivity.
Qed.
(** sum_wpt wv(wpt) - dt is read as sum_wpt (wv(wpt) - dt) *)
Theorem C63_nonvacuous_captured : exists s r, rewrite (XApp (FB BSub) [XAgg false [("wpt", "waypoint")] (wv wpt); dtx]) = Ok s /\ reads s = Some r /\
  rsem MZ totalZ dictZ r (fun _ => 0%Z) = Some (VE (M := MZ) 39%Z) /\ xsem MZ totalZ (XApp (FB BSub) [XAgg false [("wpt", "waypoint")] (wv wpt); dtx]) (fun _ => 0%Z) = Some (VE (M := MZ) 53%Z).
Proof. do 2 eexists. split; [vm_compute; reflexivity|]. split; [vm_compute; reflexivity|]. split; vm_compute; reflexivity. Qed.
(** if 5 >= 1 then dt else 1, plus 5 *)
Theorem C63_nonvacuous_conditional : exists s r, rewrite (XApp (FB BAdd) [XIte (XAtom (PB PGe) [five; XCst (CInt 1) "Real"]) dtx (XCst (CInt 1) "Real"); five]) = Ok s /\ reads s = Some r /\
  rsem MZ totalZ dictZ r (fun _ => 0%Z) = Some (VE (M := MZ) 7%Z) /\ xsem MZ totalZ (XApp (FB BAdd) [XIte (XAtom (PB PGe) [five; XCst (CInt 1) "Real"]) dtx (XCst (CInt 1) "Real"); five]) (fun _ => 0%Z) = Some (VE (M := MZ) 12%Z).
Proof. do 2 eexists. split; [vm_compute; reflexivity|]. split; [vm_compute; reflexivity|]. split; vm_compute; reflexivity. Qed.
(** three conjuncts: the third one is lost *)
Theorem C63_nonvacuous_conjuncts : let e := XComp And [XTop; XTop; XBot] in exists s r, rewrite e = Ok s /\ reads s = Some r /\
  rsem MZ totalZ dictZ r (fun _ => 0%Z) = Some (VB true) /\ xsem MZ totalZ e (fun _ => 0%Z) = Some (VB false).
Proof. do 2 eexists. split; [vm_compute; reflexivity|]. split; [vm_compute; reflexivity|]. split; vm_compute; reflexivity. Qed.
(** two variables that are written the same way *)
Theorem C63_variables_refuted : let e := XAtom (PB PEq) [XVar "x" "waypoint"; XVar "?x" "waypoint"] in writable e /\ exists s r, rewrite e = Ok s /\ reads s = Some r /\
  (forall eta, rsem MZ totalZ dictZ r eta = Some (VB true)) /\ exists rho, xsem MZ totalZ e rho = Some (VB false).
Proof.
  cbv zeta. split.
  - unfold writable. cbn [parts flat_map List.app]. repeat (apply Forall_cons || apply Forall_nil); cbn [writable_here]; [do 2 eexists; split; reflexivity|split; [discriminate|reflexivity]|split; [discriminate|reflexivity]].
  - do 2 eexists. split; [vm_compute; reflexivity|]. split; [vm_compute; reflexivity|]. split; [intros eta; transitivity (Some (VB (M := MZ) (Z.eqb (eta "x") (eta "x")))); [reflexivity|now rewrite Z.eqb_refl]|]. exists (fun v => if String.eqb (fst v) "x" then 1%Z else 2%Z). vm_compute. reflexivity.
Qed.
(** a definition with arguments, and constraints of two kinds *)
Theorem C63_nonvacuous_sections :
  definition_ok (("wv", [wpt]), XApp (FB BAdd) [wv wpt; dtx]) /\ get_cpfs [(("wv", [wpt]), XApp (FB BAdd) [wv wpt; dtx]); (("dt", []), dtx)] = Ok (tab ++ "wv'(?wpt) = (wv(?wpt) + dt);" ++ newline ++ tab ++ "dt' = dt;")%string /\
  reads_definitions (tab ++ "wv'(?wpt) = (wv(?wpt) + dt);" ++ newline ++ tab ++ "dt' = dt;")%string = Some [("wv", [RVar "wpt"], RBin "+" (RName "wv" [RVar "wpt"]) (RName "dt" [])); ("dt", [], RName "dt" [])] /\
  get_preconditions [(visited wpt, ACTION); (XTop, STATE); (XBot, ACTION)] = Ok (tab ++ "visited(?wpt);" ++ newline ++ tab ++ "false;")%string.
Proof.
  split; [|repeat split; vm_compute; reflexivity]. split; [reflexivity|]. split; [|split].
  - constructor; [|constructor]. cbn [fst snd]. split; [exact I|]. unfold writable. constructor; [|constructor]. split; [discriminate|reflexivity].
  - unfold writable. cbn [parts flat_map List.app snd wv wpt dtx]. repeat (apply Forall_cons || apply Forall_nil); cbn [writable_here infix_fun]; try (split; [cbn; tauto|do 2 eexists; split; reflexivity]); split; first [discriminate|reflexivity].
  - intros v w Hv Hw _. cbn in Hv, Hw. destruct Hv as [<-|[]], Hw as [<-|[]]. reflexivity.
Qed.
