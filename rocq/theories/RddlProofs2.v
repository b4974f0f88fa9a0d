(** Parsing the tokens of an expression *)
From Coq Require Import Ascii.
From Verif Require Import ListUtil Base Syntax Semantics SemLemmas ModelText PddlText Rddl RddlSpec RddlProofs.
#[local] Open Scope string_scope.
#[local] Open Scope list_scope.

Definition tail (n : nat) (top : bool) (r : option (rexp * list token)) : option (rexp * list token) :=
  match r with
  | Some (a, Word w :: t) => if top && mem w operators then match expression n false t with Some (b, t') => Some (RBin w a b, t') | None => None end else r
  | _ => r
  end.
Lemma expression_S n top ts : expression (S n) top ts =
  match start_of ts with
  | SIf t => match expect (Word "then") (expect RP (expression n true t)) with
             | Some (c, t1) => match expect (Word "else") (expression n true t1) with
                               | Some (a, t2) => match expression n true t2 with Some (b, t3) => Some (RIf c a b, t3) | None => None end
                               | None => None
                               end
             | None => None
             end
  | SQuant q t => match binders_of t with
                  | Some (vs, t1) => match expression n true t1 with Some (b, t2) => Some (RQuant q vs b, t2) | None => None end
                  | None => None
                  end
  | SNot t => tail n top (match expression n false t with Some (a, t1) => Some (RNot a, t1) | None => None end)
  | SOpen close t => tail n top (expect close (expression n true t))
  | SCall close w t => tail n top (match arguments_of (expression n true) close n t with
                             | Some (es, t1) => match call close w es with Some e => Some (e, t1) | None => None end
                             | None => None
                             end)
  | SWord w t => tail n top (match word w with Some e => Some (e, t) | None => None end)
  | SBad => None
  end.
Proof. reflexivity. Qed.

Definition follow (rest : list token) : Prop := match rest with LP :: _ | LB :: _ => False | _ => True end.
Definition noop (rest : list token) : Prop := match rest with Word w :: _ => mem w operators = false | _ => True end.
Lemma tail_noop n top a rest : noop rest -> tail n top (Some (a, rest)) = Some (a, rest).
Proof. destruct rest as [|[] rest]; try reflexivity. cbn [noop tail]. intros ->. now rewrite andb_false_r. Qed.

Definition parses (e : xexpr) : Prop :=
  (prefix_form e = false -> forall n top rest, List.length (toks e) <= S n -> follow rest -> expression (S n) top (toks e ++ rest) = tail n top (Some (tr e, rest))) /\
  (forall n top rest, List.length (toks e) <= n -> follow rest -> noop rest -> expression n top (toks e ++ rest) = Some (tr e, rest)).
Lemma parses_plain e : toks e <> [] ->
  (forall n top rest, List.length (toks e) <= S n -> follow rest -> expression (S n) top (toks e ++ rest) = tail n top (Some (tr e, rest))) -> parses e.
Proof.
  intros N H. split; [intros _; exact H|]. intros n top rest L F O. destruct n as [|n]; [destruct (toks e); [contradiction|cbn in L; lia]|]. rewrite H by auto. now apply tail_noop.
Qed.
Lemma reserved_out w : name_ok w = true -> String.eqb w "if" = false /\ mem w quantifier_words = false /\ String.eqb w "~" = false /\ String.eqb w "true" = false /\ String.eqb w "false" = false.
Proof.
  unfold name_ok. rewrite !andb_true_iff, !negb_true_iff. intros [[_ C] R].
  assert (Q : forall v, In v reserved -> String.eqb w v = false).
  { intros v I. destruct (String.eqb_spec w v) as [->|]; [|reflexivity]. unfold mem in R. rewrite <- R. symmetry. apply existsb_exists. exists v. split; [exact I|apply String.eqb_refl]. }
  assert (T : String.eqb w "~" = false) by (destruct (String.eqb_spec w "~") as [->|]; [vm_compute in C; discriminate C|reflexivity]).
  repeat split; [apply Q; cbn; tauto| |exact T|apply Q; cbn; tauto|apply Q; cbn; tauto]. unfold mem. cbn [existsb quantifier_words]. rewrite !Q by (cbn; tauto). reflexivity.
Qed.
Lemma start_word w rest : String.eqb w "if" = false -> mem w quantifier_words = false -> String.eqb w "~" = false -> follow rest -> start_of (Word w :: rest) = SWord w rest.
Proof. intros A B C F. unfold start_of. rewrite A, B, C. destruct rest as [|[] rest]; try reflexivity; destruct F. Qed.
Lemma name_not_variable w : name_ok w = true -> variable_of w = None.
Proof.
  unfold name_ok. rewrite !andb_true_iff, !negb_true_iff. intros [[_ C] _]. destruct w as [|c w]; [reflexivity|]. cbn [variable_of]. destruct (Ascii.eqb_spec c "?") as [->|]; [vm_compute in C; discriminate C|reflexivity].
Qed.
Lemma word_name w : name_ok w = true -> word w = Some (RName w []).
Proof. intros K. unfold word. pose proof (reserved_out w K) as (_ & _ & _ & A & B). rewrite A, B, (name_not_variable w K), K. reflexivity. Qed.
Lemma word_variable x : x <> "" -> name_chars x = true -> word ("?" ++ x) = Some (RVar x).
Proof.
  intros N C. unfold word. change (String.eqb ("?" ++ x) "true") with false. change (String.eqb ("?" ++ x) "false") with false. unfold variable_of. cbn [append]. rewrite C.
  destruct (String.eqb_spec x ""); [contradiction|]. reflexivity.
Qed.
Lemma parses_word e w r : toks e = [Word w] -> tr e = r -> String.eqb w "if" = false -> mem w quantifier_words = false -> String.eqb w "~" = false -> word w = Some r -> parses e.
Proof.
  intros Et Er A B C Hw. apply parses_plain; [rewrite Et; discriminate|]. intros n top rest _ F. rewrite Et, Er. change ([Word w] ++ rest) with (Word w :: rest). rewrite expression_S, start_word, Hw by auto. reflexivity.
Qed.
(** Arguments *)
Definition closing (t : token) : Prop := t = RP \/ t = RB.
Lemma sep_length (l : list (list token)) x : In x l -> List.length x <= List.length (sep l).
Proof.
  induction l as [|y l IH]; [intros []|]. destruct l as [|z l]; [intros [<-|[]]; cbn; lia|]. change (sep (y :: z :: l)) with (y ++ Comma :: sep (z :: l)). rewrite app_length. cbn [List.length].
  intros [<-|H]; [lia|]. apply IH in H. lia.
Qed.
Lemma sep_count (l : list (list token)) : List.length l <= S (List.length (sep l)).
Proof. induction l as [|y l IH]; [cbn; lia|]. destruct l as [|z l]; [cbn; lia|]. change (sep (y :: z :: l)) with (y ++ Comma :: sep (z :: l)). rewrite app_length. cbn [List.length] in *. lia. Qed.
Lemma parse_arguments n close ts : closing close -> Forall parses ts -> ts <> [] -> (forall t, In t ts -> List.length (toks t) <= n) ->
  forall m rest, List.length ts <= m -> arguments_of (expression n true) close m (sep (map toks ts) ++ close :: rest) = Some (map tr ts, rest).
Proof.
  intros Hc F. induction F as [|t ts Ht F IH]; intros N L m rest Lm; [contradiction|]. destruct m as [|m]; [cbn in Lm; lia|].
  assert (Fc : follow (close :: rest) /\ noop (close :: rest)) by (destruct Hc as [->| ->]; split; exact I).
  destruct ts as [|t' ts].
  - cbn [map sep]. unfold arguments_of. rewrite (proj2 Ht) by (try apply Fc; apply L; now left). assert (E : token_eqb close close = true) by (destruct Hc as [->| ->]; reflexivity). rewrite E. reflexivity.
  - change (map toks (t :: t' :: ts)) with (toks t :: toks t' :: map toks ts). change (sep (toks t :: toks t' :: map toks ts)) with (toks t ++ Comma :: sep (toks t' :: map toks ts)). rewrite <- app_assoc, <- app_comm_cons.
    unfold arguments_of at 1. fold (arguments_of (expression n true) close). rewrite (proj2 Ht) by (first [exact I|apply L; now left]). assert (E : token_eqb Comma close = false) by (destruct Hc as [->| ->]; reflexivity). rewrite E.
    change (toks t' :: map toks ts) with (map toks (t' :: ts)). rewrite IH; [reflexivity|discriminate|intros u Hu; apply L; now right|cbn in *; lia].
Qed.
Lemma parses_call e w l r ts res : toks e = call_tokens w l r (map toks ts) -> tr e = res -> (l = LP /\ r = RP \/ l = LB /\ r = RB) -> String.eqb w "if" = false -> mem w quantifier_words = false -> String.eqb w "~" = false ->
  call r w (map tr ts) = Some res -> ts <> [] -> Forall parses ts -> parses e.
Proof.
  intros Et Er Hlr A B C Hcall N F. apply parses_plain; [rewrite Et; discriminate|]. intros n top rest L Fo. rewrite Er. rewrite Et in *. unfold call_tokens in *.
  assert (Q : match map toks ts with [] => [] | _ => l :: sep (map toks ts) ++ [r] end = l :: sep (map toks ts) ++ [r]) by (destruct ts; [contradiction|reflexivity]).
  rewrite Q in *. clear Q. rewrite <- !app_comm_cons, <- app_assoc. cbn [List.length] in L. rewrite app_length in L. cbn [List.length] in L. cbn [List.app].
  assert (Hs : start_of (Word w :: l :: sep (map toks ts) ++ r :: rest) = SCall r w (sep (map toks ts) ++ r :: rest)).
  { unfold start_of. rewrite A, B, C. destruct Hlr as [[-> ->]|[-> ->]]; reflexivity. }
  rewrite expression_S, Hs. rewrite parse_arguments; [rewrite Hcall; reflexivity| |exact F|exact N| |].
  - destruct Hlr as [[_ ->]|[_ ->]]; [now left|now right].
  - intros t Ht. pose proof (sep_length (map toks ts) (toks t) (in_map toks ts t Ht)). lia.
  - pose proof (sep_count (map toks ts)) as K. rewrite map_length in K. lia.
Qed.
Lemma parses_named e w ts : toks e = call_tokens w LP RP (map toks ts) -> tr e = RName w (map tr ts) -> name_ok w = true -> Forall parses ts -> parses e.
Proof.
  intros Et Er K F. destruct (reserved_out w K) as (A & B & C & D & E). destruct ts as [|t ts].
  - apply (parses_word e w (RName w [])); auto. now apply word_name.
  - apply (parses_call e w LP RP (t :: ts) (RName w (map tr (t :: ts)))); auto; [|discriminate]. unfold call. now rewrite K.
Qed.
(** Operators *)
Lemma parses_infix e op ts : toks e = infix_tokens op (map toks ts) -> tr e = infix_exp op (map tr ts) -> mem op operators = true -> operands_ok ts -> Forall parses ts -> parses e.
Proof.
  intros Et Er Ho (a & b & -> & Hp) F. cbn [map infix_tokens infix_exp] in *. inversion_clear F as [|? ? Pa F1]. inversion_clear F1 as [|? ? Pb _].
  apply parses_plain; [rewrite Et; discriminate|]. intros n top rest L Fo. rewrite Er. rewrite Et in *. rewrite <- app_comm_cons. rewrite expression_S. cbn [start_of]. f_equal.
  cbn [List.length] in L. rewrite app_length in L. cbn [List.length] in L. rewrite app_length in L. cbn [List.length] in L. rewrite <- app_assoc, <- app_comm_cons, <- app_assoc.
  destruct n as [|n]; [lia|]. rewrite (proj1 Pa Hp) by (first [lia|exact I]). cbn [tail]. rewrite Ho. cbn [andb List.app]. rewrite (proj2 Pb) by (first [lia|exact I]). reflexivity.
Qed.
(** Quantifiers and aggregates *)
Lemma parse_binders vs : binders_ok vs -> forall rest, binders_of (sep (map binder_tokens vs) ++ RC :: rest) = Some (vs, rest).
Proof.
  intros [N H]. induction vs as [|[x s] vs IH]; [contradiction|]. intros rest. destruct (H x s (or_introl eq_refl)) as (_ & Nx & Cx & Ks).
  assert (V : variable_of ("?" ++ x) = Some x).
  { cbn [append variable_of]. rewrite Cx. destruct (String.eqb_spec x ""); [contradiction|reflexivity]. }
  destruct vs as [|v vs].
  - cbn [map sep binder_tokens fst snd List.app]. cbn [binders_of]. rewrite V, Ks. reflexivity.
  - change (map binder_tokens ((x, s) :: v :: vs)) with (binder_tokens (x, s) :: map binder_tokens (v :: vs)). change (sep (binder_tokens (x, s) :: map binder_tokens (v :: vs))) with (binder_tokens (x, s) ++ Comma :: sep (map binder_tokens (v :: vs))).
    rewrite <- app_assoc, <- app_comm_cons. unfold binder_tokens at 1. cbn [fst snd List.app]. cbn [binders_of]. rewrite V, Ks. cbn [andb String.eqb Ascii.eqb Bool.eqb]. rewrite IH; [reflexivity|discriminate|]. intros y t I. apply H. now right.
Qed.
Lemma parse_block e q vs f : toks e = block_tokens q vs (toks f) -> tr e = RQuant q vs (tr f) -> prefix_form e = true -> mem q quantifier_words = true -> binders_ok vs -> parses f -> parses e.
Proof.
  intros Et Er Hp Hq B Pf. split; [rewrite Hp; discriminate|]. intros n top rest L Fo No. rewrite Er. rewrite Et in *. unfold block_tokens in *. cbn [List.length] in L. rewrite app_length in L. cbn [List.length] in L. rewrite app_length in L. cbn [List.length] in L.
  destruct n as [|n]; [lia|]. rewrite expression_S. rewrite <- !app_comm_cons, <- app_assoc. assert (Hs : start_of (Word q :: LC :: sep (map binder_tokens vs) ++ (RC :: LP :: toks f ++ [RP]) ++ rest) = SQuant q (sep (map binder_tokens vs) ++ RC :: LP :: toks f ++ RP :: rest)).
  { unfold start_of. assert (E : String.eqb q "if" = false) by (destruct (String.eqb_spec q "if") as [->|]; [discriminate Hq|reflexivity]). rewrite E, Hq. now rewrite <- !app_comm_cons, <- app_assoc. }
  rewrite Hs, parse_binders by exact B. destruct n as [|n]; [lia|]. rewrite expression_S. cbn [start_of]. rewrite (proj2 Pf) by (first [lia|exact I]). cbn [expect token_eqb]. rewrite tail_noop by exact No. reflexivity.
Qed.
Lemma parses_if e c a b : e = XIte c a b -> parses c -> parses a -> parses b -> parses e.
Proof.
  intros -> Pc Pa Pb. split; [discriminate|]. intros n top rest L Fo No. cbn [toks tr] in *. cbn [List.length] in L. repeat (rewrite app_length in L; cbn [List.length] in L). repeat (rewrite <- ?app_comm_cons, <- ?app_assoc). cbn [List.app].
  destruct n as [|n]; [lia|]. rewrite expression_S. change (start_of (Word "if" :: LP :: ?r)) with (SIf r). cbv match. rewrite (proj2 Pc) by (first [lia|exact I]). cbn [expect token_eqb]. change (String.eqb "then" "then") with true. cbv match.
  destruct n as [|n]; [lia|]. rewrite (expression_S n true (LP :: _)). cbn [start_of]. rewrite (proj2 Pa) by (first [lia|exact I]). cbn [expect token_eqb]. rewrite tail_noop by reflexivity. cbn [expect token_eqb]. change (String.eqb "else" "else") with true. cbv match.
  rewrite (expression_S n true (LP :: _)). cbn [start_of]. rewrite (proj2 Pb) by (first [lia|exact I]). cbn [expect token_eqb]. rewrite tail_noop by exact No. reflexivity.
Qed.
Lemma writable_parses e : writable e -> parses e.
Proof.
  induction e as [x s|c s|f ts IH|c a b IHc IHa IHb| | |p ts IH|c fs IH|q vs f IH|m vs f IH] using xexpr_ind_nested; intros W; pose proof (writable_here_of _ W) as Wh; cbn [writable_here] in Wh.
  - destruct Wh as [N C]. apply (parses_word _ ("?" ++ strip x) (RVar (strip x))); try reflexivity. now apply word_variable.
  - destruct Wh as [K _]. apply (parses_named _ (name_text c) []); auto.
  - assert (WS : Forall parses ts).
    { pose proof (writable_args (XApp f ts) ts (fun t Ht => incl_tl' _ _ _ (args_parts ts t Ht)) W) as WS. rewrite Forall_forall in *. auto. }
    destruct f as [b|n ds r].
    + destruct (infix_fun b) as [op|] eqn:Ei.
      * destruct Wh as [I O]. apply (parses_infix _ op ts); [cbn [toks]; now rewrite Ei|cbn [tr]; now rewrite Ei| |exact O|exact WS]. unfold mem. apply existsb_exists. exists op. split; [exact I|apply String.eqb_refl].
      * destruct Wh as (NE & n & -> & I). apply function_words_clean in I as (_ & m & Em & C & N & K & Q). destruct (reserved_out m K) as (A & B & D & _). destruct (random_binary (BOther n)) eqn:Er.
        { apply (parses_named _ m ts); [cbn [toks]; rewrite Ei, Er; unfold fun_word; now rewrite Em|cbn [tr]; rewrite Ei, Er; unfold fun_word; now rewrite Em|exact K|exact WS]. }
        { apply (parses_call _ m LB RB ts (RFun m (map tr ts))); [cbn [toks]; rewrite Ei, Er; unfold fun_word; now rewrite Em|cbn [tr]; rewrite Ei, Er; unfold fun_word; now rewrite Em|now right|exact A|exact B|exact D| |exact NE|exact WS]. unfold call. now rewrite K. }
    + destruct Wh as [K _]. now apply (parses_named _ n ts).
  - assert (WS : Forall writable [c; a; b]).
    { apply (writable_args _ _) with (2 := W). cbn [parts]. intros t Ht u Hu. right. rewrite !in_app_iff. destruct Ht as [<-|[<-|[<-|[]]]]; auto. }
    inversion_clear WS as [|? ? Wc WS1]. inversion_clear WS1 as [|? ? Wa WS2]. inversion_clear WS2 as [|? ? Wb _]. now apply (parses_if _ c a b); auto.
  - now apply (parses_word _ "true" RTrue).
  - now apply (parses_word _ "false" RFalse).
  - assert (WS : Forall parses ts).
    { pose proof (writable_args (XAtom p ts) ts (fun t Ht => incl_tl' _ _ _ (args_parts ts t Ht)) W) as WS. rewrite Forall_forall in *. auto. }
    destruct p as [b|n ds].
    + apply (parses_infix _ (infix_pred b) ts); auto. now destruct b.
    + destruct Wh as [K _]. now apply (parses_named _ n ts).
  - assert (WS : Forall parses fs).
    { pose proof (writable_args (XComp c fs) fs (fun t Ht => incl_tl' _ _ _ (args_parts fs t Ht)) W) as WS. rewrite Forall_forall in *. auto. }
    destruct Wh as [N O]. apply (parses_infix _ (connective_symbol c) fs); auto. now destruct c.
  - assert (Wf : writable f) by (apply Forall_forall; intros u Hu; apply (proj1 (Forall_forall _ _) W); right; exact Hu).
    apply (parse_block _ (quant_symbol q ++ "_")%string vs f); auto. now destruct q.
  - assert (Wf : writable f) by (apply Forall_forall; intros u Hu; apply (proj1 (Forall_forall _ _) W); right; exact Hu).
    apply (parse_block _ (if m then "prod_" else "sum_") vs f); auto. now destruct m.
Qed.
Theorem reads_rewrite e : writable e -> exists s, rewrite e = Ok s /\ reads s = Some (tr e) /\ lexes s (toks e).
Proof.
  intros W. destruct (rewrite_lexes e W) as (s & E & L). exists s. split; [exact E|]. split; [|exact L]. unfold reads, read_expression. rewrite <- (sapp_nil s), (L "") by exact I. cbn [lex flush].
  rewrite app_nil_r. rewrite <- (app_nil_r (toks e)) at 2. rewrite (proj2 (writable_parses e W)) by (first [exact I|reflexivity]). reflexivity.
Qed.
