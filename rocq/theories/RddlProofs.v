(** Reading back the RDDL text of an expression *)
From Coq Require Import Ascii DecimalString.
From Verif Require Import ListUtil Base Syntax Semantics SemLemmas ModelText PddlText Rddl RddlSpec.
#[local] Open Scope string_scope.
#[local] Open Scope list_scope.

Section Induction.
  Variable P : xexpr -> Prop.
  Hypothesis H1 : forall x s, P (XVar x s).
  Hypothesis H2 : forall c s, P (XCst c s).
  Hypothesis H3 : forall f ts, Forall P ts -> P (XApp f ts).
  Hypothesis H4 : forall c a b, P c -> P a -> P b -> P (XIte c a b).
  Hypothesis H5 : P XTop.
  Hypothesis H6 : P XBot.
  Hypothesis H7 : forall p ts, Forall P ts -> P (XAtom p ts).
  Hypothesis H8 : forall c fs, Forall P fs -> P (XComp c fs).
  Hypothesis H9 : forall q vs f, P f -> P (XQuant q vs f).
  Hypothesis H10 : forall m vs f, P f -> P (XAgg m vs f).
  Fixpoint xexpr_ind_nested (e : xexpr) : P e :=
    let all := fix all (l : list xexpr) : Forall P l := match l with [] => Forall_nil P | u :: us => Forall_cons u (xexpr_ind_nested u) (all us) end in
    match e with
    | XVar x s => H1 x s | XCst c s => H2 c s | XApp f ts => H3 f ts (all ts)
    | XIte c a b => H4 c a b (xexpr_ind_nested c) (xexpr_ind_nested a) (xexpr_ind_nested b)
    | XTop => H5 | XBot => H6 | XAtom p ts => H7 p ts (all ts) | XComp c fs => H8 c fs (all fs)
    | XQuant q vs f => H9 q vs f (xexpr_ind_nested f) | XAgg m vs f => H10 m vs f (xexpr_ind_nested f)
    end.
End Induction.

Lemma sassoc (a b c : string) : ((a ++ b) ++ c = a ++ (b ++ c))%string.
Proof. induction a; cbn; [auto|now f_equal]. Qed.
Lemma sapp_nil (a : string) : (a ++ "" = a)%string.
Proof. induction a; cbn; [auto|now f_equal]. Qed.

(** ** Tokens *)
Definition sep (l : list (list token)) : list token := (fix go l := match l with [] => [] | [x] => x | x :: l' => x ++ Comma :: go l' end) l.
Definition binder_tokens (v : var) : list token := [Word ("?" ++ fst v)%string; Word ":"; Word (snd v)].
Definition call_tokens (n : string) (l r : token) (ts : list (list token)) : list token := Word n :: match ts with [] => [] | _ => l :: sep ts ++ [r] end.
Definition infix_tokens (op : string) (ts : list (list token)) : list token := match ts with a :: b :: _ => LP :: a ++ Word op :: b ++ [RP] | _ => [] end.
Definition block_tokens (q : string) (vs : list var) (t : list token) : list token := Word q :: LC :: sep (map binder_tokens vs) ++ RC :: LP :: t ++ [RP].
Definition fun_word (b : bfun) : string := match function_name b with Some n => n | None => bfun_text b end.
Fixpoint toks (e : xexpr) : list token :=
  match e with
  | XVar x _ => [Word ("?" ++ strip x)%string]
  | XCst c _ => [Word (name_text c)]
  | XApp (FB b) ts => match infix_fun b with
                      | Some op => infix_tokens op (map toks ts)
                      | None => if random_binary b then call_tokens (fun_word b) LP RP (map toks ts) else call_tokens (fun_word b) LB RB (map toks ts)
                      end
  | XApp (FU n _ _) ts => call_tokens n LP RP (map toks ts)
  | XIte c a b => Word "if" :: LP :: toks c ++ RP :: Word "then" :: LP :: toks a ++ RP :: Word "else" :: LP :: toks b ++ [RP]
  | XTop => [Word "true"]
  | XBot => [Word "false"]
  | XAtom (PB b) ts => infix_tokens (infix_pred b) (map toks ts)
  | XAtom (PU n _) ts => call_tokens n LP RP (map toks ts)
  | XComp c fs => infix_tokens (connective_symbol c) (map toks fs)
  | XQuant q vs f => block_tokens (quant_symbol q ++ "_")%string vs (toks f)
  | XAgg m vs f => block_tokens (if m then "prod_" else "sum_") vs (toks f)
  end.
Definition infix_exp (op : string) (ts : list rexp) : rexp := match ts with a :: b :: _ => RBin op a b | _ => RTrue end.
Fixpoint tr (e : xexpr) : rexp :=
  match e with
  | XVar x _ => RVar (strip x)
  | XCst c _ => RName (name_text c) []
  | XApp (FB b) ts => match infix_fun b with
                      | Some op => infix_exp op (map tr ts)
                      | None => if random_binary b then RName (fun_word b) (map tr ts) else RFun (fun_word b) (map tr ts)
                      end
  | XApp (FU n _ _) ts => RName n (map tr ts)
  | XIte c a b => RIf (tr c) (tr a) (tr b)
  | XTop => RTrue
  | XBot => RFalse
  | XAtom (PB b) ts => infix_exp (infix_pred b) (map tr ts)
  | XAtom (PU n _) ts => RName n (map tr ts)
  | XComp c fs => infix_exp (connective_symbol c) (map tr fs)
  | XQuant q vs f => RQuant (quant_symbol q ++ "_")%string vs (tr f)
  | XAgg m vs f => RQuant (if m then "prod_" else "sum_") vs (tr f)
  end.

(** ** Lexing *)
Definition plain_char (c : ascii) : bool := negb (blank c) && match punctuation c with None => true | Some _ => false end.
Fixpoint clean (w : string) : bool := match w with "" => true | String c r => plain_char c && clean r end.
Lemma name_plain c : name_char c = true -> plain_char c = true.
Proof. destruct c as [[] [] [] [] [] [] [] []]; vm_compute; intros H; first [reflexivity|discriminate H]. Qed.
Lemma names_clean w : name_chars w = true -> clean w = true.
Proof. induction w as [|c w IH]; cbn; [auto|]. rewrite !andb_true_iff. intros [A B]. auto using name_plain. Qed.
Lemma clean_app u v : clean (u ++ v) = clean u && clean v.
Proof. induction u as [|c u IH]; cbn; [reflexivity|]. rewrite IH. apply andb_assoc. Qed.
Lemma lex_clean u : forall w s, clean u = true -> lex w (u ++ s) = lex (w ++ u) s.
Proof.
  induction u as [|c u IH]; intros w s C; cbn [append]; [now rewrite sapp_nil|]. cbn [clean] in C. apply andb_true_iff in C as [A B]. unfold plain_char in A. apply andb_true_iff in A as [A1 A2]. apply negb_true_iff in A1.
  cbn [lex]. rewrite A1. destruct (punctuation c); [discriminate A2|]. rewrite IH by exact B. rewrite sassoc. reflexivity.
Qed.
Definition stop (s : string) : Prop := match s with "" => True | String c _ => plain_char c = false end.
Lemma lex_stop w s : stop s -> lex w s = flush w ++ lex "" s.
Proof.
  destruct s as [|c s]; cbn [lex stop]; [intros _; now rewrite app_nil_r|]. unfold plain_char. intros H. destruct (blank c); [reflexivity|]. destruct (punctuation c); [reflexivity|discriminate H].
Qed.
Definition lexes (s : string) (ts : list token) : Prop := forall rest, stop rest -> lex "" (s ++ rest) = ts ++ lex "" rest.
Lemma lexes_word w : clean w = true -> w <> "" -> lexes w [Word w].
Proof. intros C N rest S. rewrite lex_clean by exact C. cbn [append]. rewrite lex_stop by exact S. destruct w; [contradiction|reflexivity]. Qed.
Lemma lexes_infix op ta tb a b : lexes a ta -> lexes b tb -> clean op = true -> op <> "" -> lexes ("(" ++ a ++ " " ++ op ++ " " ++ b ++ ")")%string (LP :: ta ++ Word op :: tb ++ [RP]).
Proof.
  intros Ha Hb C N rest S. rewrite !sassoc. cbn [append]. change (lex "" (String "(" ?s)) with (LP :: lex "" s). rewrite <- !app_comm_cons, <- app_assoc. f_equal. rewrite Ha by reflexivity. f_equal.
  change (lex "" (String " " ?s)) with (lex "" s). rewrite (lexes_word op C N) by reflexivity. cbn [List.app]. f_equal.
  change (lex "" (String " " ?s)) with (lex "" s). rewrite Hb by reflexivity. rewrite <- app_assoc. f_equal.
Qed.
Lemma lexes_join l ts : Forall2 lexes l ts -> l <> [] -> lexes (join "," l) (sep ts).
Proof.
  induction 1 as [|s t l ts H HF IH]; intros N; [contradiction|]. destruct HF as [|s' t' l ts H' HF]; [exact H|].
  intros rest S. change (join "," (s :: s' :: l)) with (s ++ "," ++ join "," (s' :: l))%string. change (sep (t :: t' :: ts)) with (t ++ Comma :: sep (t' :: ts)).
  rewrite !sassoc. rewrite H by reflexivity. rewrite <- app_assoc. f_equal. cbn [append]. change (lex "" (String "," ?s)) with (Comma :: lex "" s). rewrite <- app_comm_cons. f_equal. apply IH; [discriminate|exact S].
Qed.
Lemma lexes_call n l ts : clean n = true -> n <> "" -> Forall2 lexes l ts -> lexes (n ++ arguments "(" ")" l) (call_tokens n LP RP ts).
Proof.
  intros C N F. unfold call_tokens, arguments. destruct F as [|s t l ts H F]; [rewrite sapp_nil; now apply lexes_word|].
  intros rest S. rewrite !sassoc. rewrite (lexes_word n C N) by reflexivity. cbn [List.app]. f_equal. cbn [append]. change (lex "" (String "(" ?s)) with (LP :: lex "" s). f_equal.
  rewrite (lexes_join (s :: l) (t :: ts)) by (first [now constructor|discriminate|reflexivity]). rewrite <- app_assoc. f_equal.
Qed.
Lemma lexes_brackets n l ts : clean n = true -> n <> "" -> Forall2 lexes l ts -> lexes (n ++ arguments "[" "]" l) (call_tokens n LB RB ts).
Proof.
  intros C N F. unfold call_tokens, arguments. destruct F as [|s t l ts H F]; [rewrite sapp_nil; now apply lexes_word|].
  intros rest S. rewrite !sassoc. rewrite (lexes_word n C N) by reflexivity. cbn [List.app]. f_equal. cbn [append]. change (lex "" (String "[" ?s)) with (LB :: lex "" s). f_equal.
  rewrite (lexes_join (s :: l) (t :: ts)) by (first [now constructor|discriminate|reflexivity]). rewrite <- app_assoc. f_equal.
Qed.
Lemma lexes_if tc ta tb c a b : lexes c tc -> lexes a ta -> lexes b tb ->
  lexes ("if (" ++ c ++ ") then (" ++ a ++ ") else (" ++ b ++ ")")%string (Word "if" :: LP :: tc ++ RP :: Word "then" :: LP :: ta ++ RP :: Word "else" :: LP :: tb ++ [RP]).
Proof.
  intros Hc Ha Hb rest S. rewrite !sassoc. change (lex "" ("if (" ++ ?s)) with (Word "if" :: LP :: lex "" s). rewrite Hc by reflexivity.
  change (lex "" (") then (" ++ ?s)) with (RP :: Word "then" :: LP :: lex "" s). rewrite Ha by reflexivity. change (lex "" (") else (" ++ ?s)) with (RP :: Word "else" :: LP :: lex "" s). rewrite Hb by reflexivity.
  change (lex "" (")" ++ ?s)) with (RP :: lex "" s). repeat (rewrite <- ?app_comm_cons, <- ?app_assoc; cbn [List.app]). reflexivity.
Qed.
Lemma strip_name_clean x : name_chars (strip x) = true -> clean ("?" ++ strip x) = true.
Proof. intros H. change (clean ("?" ++ strip x)) with (clean (strip x)). now apply names_clean. Qed.
Lemma name_ok_clean n : name_ok n = true -> clean n = true /\ n <> "".
Proof. unfold name_ok. rewrite !andb_true_iff, !negb_true_iff. intros [[A B] _]. split; [now apply names_clean|]. now apply String.eqb_neq. Qed.
Lemma lexes_binder v : (let '(x, s) := v in strip x = x /\ x <> "" /\ name_chars x = true /\ name_ok s = true) -> lexes (binder v) (binder_tokens v).
Proof.
  destruct v as [x s]. intros (_ & N & C & K). apply name_ok_clean in K as [K1 K2]. unfold binder, binder_tokens. cbn [fst snd]. intros rest S.
  rewrite <- sassoc, !sassoc. rewrite <- (sassoc "?" x). rewrite (lexes_word ("?" ++ x)%string) by (first [exact (names_clean x C)|discriminate|reflexivity]). cbn [List.app]. f_equal.
  change (lex "" (" : " ++ ?s)) with (Word ":" :: lex "" s). f_equal. apply (lexes_word s K1 K2); exact S.
Qed.
Lemma lexes_binders vs : binders_ok vs -> lexes (binders vs) (sep (map binder_tokens vs)).
Proof.
  intros [N H]. unfold binders. apply lexes_join; [|now destruct vs]. clear N. induction vs as [|v vs IH]; constructor.
  - apply lexes_binder. destruct v as [x s]. apply H. now left.
  - apply IH. intros x s I. apply H. now right.
Qed.
Lemma lexes_block q vs s t : clean q = true -> q <> "" -> binders_ok vs -> lexes s t -> lexes (q ++ "{" ++ binders vs ++ "} (" ++ s ++ ")")%string (block_tokens q vs t).
Proof.
  intros C N B H rest S. unfold block_tokens. rewrite !sassoc. rewrite (lexes_word q C N) by reflexivity. cbn [List.app]. f_equal. change (lex "" ("{" ++ ?s)) with (LC :: lex "" s). f_equal.
  rewrite (lexes_binders vs B) by reflexivity. rewrite <- app_assoc. f_equal. change (lex "" ("} (" ++ ?s)) with (RC :: LP :: lex "" s). rewrite H by reflexivity. rewrite <- !app_comm_cons, <- app_assoc. reflexivity.
Qed.

Lemma parts_self e : In e (parts e). Proof. destruct e; now left. Qed.
Lemma writable_here_of e : writable e -> writable_here e.
Proof. intros H. exact (proj1 (Forall_forall _ _) H e (parts_self e)). Qed.
Lemma writable_args e ts : (forall t, In t ts -> incl (parts t) (parts e)) -> writable e -> Forall writable ts.
Proof. intros I H. apply Forall_forall. intros t Ht. apply Forall_forall. intros u Hu. exact (proj1 (Forall_forall _ _) H u (I t Ht u Hu)). Qed.
Lemma args_parts ts t : In t ts -> incl (parts t) (flat_map parts ts).
Proof. intros H u Hu. apply in_flat_map. eauto. Qed.
Lemma incl_tl' {A} (x : A) l m : incl l m -> incl l (x :: m). Proof. intros H y Hy. right. auto. Qed.

Lemma mapM_lexes ts : Forall (fun e => exists s, rewrite e = Ok s /\ lexes s (toks e)) ts -> exists ss, mapM rewrite ts = Ok ss /\ Forall2 lexes ss (map toks ts).
Proof. induction 1 as [|e ts (s & E & L) _ (ss & Es & F)]; [exists []; split; [reflexivity|constructor]|]. exists (s :: ss). cbn [mapM map]. rewrite E. fold (mapM rewrite ts). rewrite Es. split; [reflexivity|now constructor]. Qed.
Lemma infix_lexes op ts ss : operands_ok ts -> Forall2 lexes ss (map toks ts) -> clean op = true -> op <> "" -> exists s, infix_text op ss = Ok s /\ lexes s (infix_tokens op (map toks ts)).
Proof.
  intros (a & b & -> & _) F C N. cbn [map] in *. inversion F as [|sa ta l1 l2 Ha F1]; subst. inversion F1 as [|sb tb l3 l4 Hb F2]; subst. inversion F2; subst.
  eexists. split; [reflexivity|]. now apply lexes_infix.
Qed.
Definition function_words : list string := map fst rddl_functions ++ ["normal"; "gamma"].
Lemma function_words_clean n : In n function_words -> (infix_fun (BOther n) = None /\ exists m, function_name (BOther n) = Some m /\ clean m = true /\ m <> "" /\ name_ok m = true /\
  (if random_binary (BOther n) then lookup m rddl_random = Some (BOther n) else lookup m rddl_functions = Some (BOther n))).
Proof. intros H. repeat (destruct H as [<-|H]; [split; [reflexivity|]; eexists; split; [reflexivity|]; repeat split; first [reflexivity|discriminate]|]). destruct H. Qed.

Lemma rewrite_lexes e : writable e -> exists s, rewrite e = Ok s /\ lexes s (toks e).
Proof.
  induction e as [x s|c s|f ts IH|c a b IHc IHa IHb| | |p ts IH|c fs IH|q vs f IH|m vs f IH] using xexpr_ind_nested; intros W; pose proof (writable_here_of _ W) as Wh; cbn [writable_here] in Wh.
  - eexists. split; [reflexivity|]. cbn [toks]. destruct Wh as [N C]. apply lexes_word; [now apply strip_name_clean|discriminate].
  - eexists. split; [reflexivity|]. cbn [toks]. destruct Wh as [C _]. apply name_ok_clean in C as [C N]. now apply lexes_word.
  - assert (WS : Forall writable ts) by (apply (writable_args (XApp f ts) ts (fun t Ht => incl_tl' _ _ _ (args_parts ts t Ht)) W)).
    assert (K : exists ss, mapM rewrite ts = Ok ss /\ Forall2 lexes ss (map toks ts)).
    { apply mapM_lexes. rewrite Forall_forall in *. auto. }
    destruct K as (ss & E & F). cbn [rewrite toks]. rewrite E. cbn [bind]. destruct f as [b|n ds r].
    + destruct (infix_fun b) as [op|] eqn:Ei.
      * destruct Wh as [I O]. apply infix_lexes; [exact O|exact F|..]; repeat (destruct I as [<-|I]; [first [reflexivity|discriminate]|]); destruct I.
      * destruct Wh as (NE & n & -> & I). apply function_words_clean in I as (_ & m & Em & C & N & _ & _). unfold fun_word. rewrite Em. eexists. split; [reflexivity|].
        destruct (random_binary (BOther n)); [now apply lexes_call|now apply lexes_brackets].
    + destruct Wh as [C _]. apply name_ok_clean in C as [C N]. eexists. split; [reflexivity|]. now apply lexes_call.
  - assert (WS : Forall writable [c; a; b]).
    { apply (writable_args _ _) with (2 := W). cbn [parts]. intros t Ht u Hu. right. rewrite !in_app_iff. destruct Ht as [<-|[<-|[<-|[]]]]; auto. }
    inversion_clear WS as [|? ? Wc WS1]. inversion_clear WS1 as [|? ? Wa WS2]. inversion_clear WS2 as [|? ? Wb _].
    destruct (IHc Wc) as (sc & Ec & Lc). destruct (IHa Wa) as (sa & Ea & La). destruct (IHb Wb) as (sb & Eb & Lb). cbn [rewrite toks]. rewrite Ec, Ea, Eb. cbn [bind]. eexists. split; [reflexivity|]. now apply lexes_if.
  - eexists. split; [reflexivity|]. apply lexes_word; [reflexivity|discriminate].
  - eexists. split; [reflexivity|]. apply lexes_word; [reflexivity|discriminate].
  - assert (WS : Forall writable ts) by (apply (writable_args (XAtom p ts) ts (fun t Ht => incl_tl' _ _ _ (args_parts ts t Ht)) W)).
    assert (K : exists ss, mapM rewrite ts = Ok ss /\ Forall2 lexes ss (map toks ts)).
    { apply mapM_lexes. rewrite Forall_forall in *. auto. }
    destruct K as (ss & E & F). cbn [rewrite toks]. rewrite E. cbn [bind]. destruct p as [b|n ds].
    + apply infix_lexes; [exact Wh|exact F|..]; destruct b; first [reflexivity|discriminate].
    + destruct Wh as [C _]. apply name_ok_clean in C as [C N]. eexists. split; [reflexivity|]. now apply lexes_call.
  - assert (WS : Forall writable fs) by (apply (writable_args (XComp c fs) fs (fun t Ht => incl_tl' _ _ _ (args_parts fs t Ht)) W)).
    assert (K : exists ss, mapM rewrite fs = Ok ss /\ Forall2 lexes ss (map toks fs)).
    { apply mapM_lexes. rewrite Forall_forall in *. auto. }
    destruct K as (ss & E & F). cbn [rewrite toks]. rewrite E. cbn [bind]. destruct Wh as [N O].
    assert (Q : exists s, infix_text (connective_symbol c) ss = Ok s /\ lexes s (infix_tokens (connective_symbol c) (map toks fs))) by (apply infix_lexes; auto; destruct c; first [reflexivity|discriminate]).
    destruct Q as (s & Es & L). exists s. split; [|exact L]. destruct ss as [|s1 [|s2 ss]]; [exact Es|discriminate Es|exact Es].
  - assert (Wf : writable f) by (apply Forall_forall; intros u Hu; apply (proj1 (Forall_forall _ _) W); right; exact Hu).
    destruct (IH Wf) as (s & Es & L). cbn [rewrite toks]. rewrite Es. cbn [bind]. eexists. split; [reflexivity|].
    change ("_{" ++ binders vs ++ "} (" ++ s ++ ")")%string with ("_" ++ "{" ++ binders vs ++ "} (" ++ s ++ ")")%string. rewrite <- sassoc. apply lexes_block; [destruct q; reflexivity|destruct q; discriminate|exact Wh|exact L].
  - assert (Wf : writable f) by (apply Forall_forall; intros u Hu; apply (proj1 (Forall_forall _ _) W); right; exact Hu).
    destruct (IH Wf) as (s & Es & L). cbn [rewrite toks]. rewrite Es. cbn [bind]. eexists. split; [reflexivity|].
    destruct m; [change ("prod" ++ "_{" ++ ?r)%string with ("prod_" ++ "{" ++ r)%string|change ("sum" ++ "_{" ++ ?r)%string with ("sum_" ++ "{" ++ r)%string]; (apply lexes_block; [reflexivity|discriminate|exact Wh|exact L]).
Qed.
