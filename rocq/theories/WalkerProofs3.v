(** Walkers that replace nodes by others with the same meaning, or suppress them *)
From Verif Require Import Base Syntax Semantics Effects Represent Walker WalkerSpec WalkerProofs WalkerProofs2.

Section Meaning.
Variable S : Type.
Variable h : option context -> node -> S -> res (reply * S).
Hypothesis Hh : forall c n s, exists m s', h c n s = Ok (Keep m, s') /\ same n m.
Lemma visit_same n st : exists m st', visit h n st = Ok (Keep m, st') /\ same n m.
Proof. unfold visit. destruct (Hh (fst st) n (snd st)) as (m & s' & -> & X). exists m, (fst st, s'). auto. Qed.
Definition good_t (t : term) : Prop := wf_term t = true -> forall st, exists u st', visit_t h t st = Ok (Keep (NT u), st') /\ same_value t u /\ (is_var t = true -> u = t).
Definition good_f (f : formula) : Prop := wf f = true -> forall st, exists g st', visit_f h f st = Ok (Keep (NF g), st') /\ equivalent f g.
Lemma walk_terms ts : Forall good_t ts -> forallb wf_term ts = true -> forall st, exists us st', walk_list (visit_t h) ts st = Ok (map (fun u => Keep (NT u)) us, st') /\ Forall2 (fun t u => same_value t u /\ (is_var t = true -> u = t)) ts us.
Proof.
  intros H. induction H as [|t ts Ht H IH]; intros W st; [exists [], st; split; [reflexivity|constructor]|]. cbn [forallb] in W. apply andb_true_iff in W as [W1 W2]. cbn [walk_list]. destruct (Ht W1 st) as (u & s1 & -> & X). cbn [bind fst snd].
  destruct (IH W2 s1) as (us & s2 & -> & Y). exists (u :: us), s2. split; [reflexivity|]. constructor; auto.
Qed.
Lemma walk_formulas ts : Forall good_f ts -> forallb wf ts = true -> forall st, exists us st', walk_list (visit_f h) ts st = Ok (map (fun u => Keep (NF u)) us, st') /\ Forall2 equivalent ts us.
Proof.
  intros H. induction H as [|t ts Ht H IH]; intros W st; [exists [], st; split; [reflexivity|constructor]|]. cbn [forallb] in W. apply andb_true_iff in W as [W1 W2]. cbn [walk_list]. destruct (Ht W1 st) as (u & s1 & -> & X). cbn [bind fst snd].
  destruct (IH W2 s1) as (us & s2 & -> & Y). exists (u :: us), s2. split; [reflexivity|]. constructor; auto.
Qed.
Lemma terms_sem ts us : Forall2 (fun t u => same_value t u /\ (is_var t = true -> u = t)) ts us -> forall M e, map (fun t => tsem M t e) ts = map (fun t => tsem M t e) us.
Proof. intros H M e. induction H as [|t u ts us [X _] H IH]; [reflexivity|]. cbn [map]. rewrite IH, (X M e). reflexivity. Qed.
Lemma comp_sem c fs gs : Forall2 equivalent fs gs -> equivalent (Comp c fs) (Comp c gs).
Proof.
  intros H M e. assert (X : map (fun f => fsem M f e) fs = map (fun f => fsem M f e) gs). { induction H as [|f g fs gs X H IH]; [reflexivity|]. cbn [map]. rewrite IH, (X M e). reflexivity. }
  destruct c; cbn [fsem].
  - clear H. revert gs X. induction fs as [|f fs IH]; intros [|g gs] X; try discriminate; [reflexivity|]. cbn [map forallb] in *. injection X as X1 X2. rewrite X1, (IH gs X2). reflexivity.
  - clear H. revert gs X. induction fs as [|f fs IH]; intros [|g gs] X; try discriminate; [reflexivity|]. cbn [map existsb] in *. injection X as X1 X2. rewrite X1, (IH gs X2). reflexivity.
  - destruct fs as [|f [|f2 fs]], gs as [|g [|g2 gs]]; try discriminate; try reflexivity. cbn [map] in X. injection X as ->. reflexivity.
Qed.
Lemma qsem_same M q vs k k' : (forall e, k e = k' e) -> forall e, qsem M q vs k e = qsem M q vs k' e.
Proof.
  intros H. induction vs as [|v vs IH]; intros e; [apply H|]. cbn [qsem]. destruct v as [x s|c s|f ts|c a b]; try apply IH. destruct q.
  - induction (dom M s) as [|d ds ID]; [reflexivity|]. cbn [existsb]. rewrite IH, ID. reflexivity.
  - induction (dom M s) as [|d ds ID]; [reflexivity|]. cbn [forallb]. rewrite IH, ID. reflexivity.
Qed.
Lemma meaning_both : (forall t, good_t t) /\ (forall f, good_f f).
Proof.
  apply syntax_ind; unfold good_t, good_f.
  - intros x s _ st. cbn [visit_t]. destruct (visit_same (NT (Var x s)) st) as ([u|g|e] & st' & E & X); try (destruct X; fail). exists u, st'. auto.
  - intros x s _ st. cbn [visit_t]. destruct (visit_same (NT (Cst x s)) st) as ([u|g|e] & st' & E & X); try (destruct X; fail). exists u, st'. auto.
  - intros f ts H W st. cbn [visit_t]. cbn [wf_term] in W. destruct (walk_terms ts H W st) as (us & s1 & -> & X). cbn [bind fst snd]. rewrite accept_terms_keep. cbn [bind].
    destruct (visit_same (NT (App f us)) s1) as ([u|g|e] & st' & E & Y); try (destruct Y; fail). exists u, st'. split; [exact E|]. split; [|discriminate]. intros M e. rewrite <- (proj1 Y M e). cbn [tsem]. rewrite (terms_sem ts us X M e). reflexivity.
  - intros c a b Hc Ha Hb W st. cbn [wf_term] in W. apply andb_true_iff in W as [W W3]. apply andb_true_iff in W as [W1 W2]. cbn [visit_t]; fold (@visit_f S h). destruct (Hc W1 st) as (c' & s1 & -> & X1). cbn [bind fst snd a_formula].
    destruct (Ha W2 s1) as (a' & s2 & -> & X2 & _). cbn [bind fst snd]. destruct (Hb W3 s2) as (b' & s3 & -> & X3 & _). cbn [bind fst snd accept_terms].
    destruct (visit_same (NT (Ite c' a' b')) s3) as ([u|g|e] & st' & E & Y); try (destruct Y; fail). exists u, st'. split; [exact E|]. split; [|discriminate]. intros M e. rewrite <- (proj1 Y M e). cbn [tsem]. rewrite (X1 M e), (X2 M e), (X3 M e). reflexivity.
  - intros _ st. cbn [visit_f]. destruct (visit_same (NF Top) st) as ([u|g|e] & st' & E & X); try (destruct X; fail). exists g, st'. auto.
  - intros _ st. cbn [visit_f]. destruct (visit_same (NF Bot) st) as ([u|g|e] & st' & E & X); try (destruct X; fail). exists g, st'. auto.
  - intros p ts H W st. cbn [visit_f]; fold (@visit_t S h). cbn [wf] in W. destruct (walk_terms ts H W st) as (us & s1 & -> & X). cbn [bind fst snd]. rewrite accept_terms_keep. cbn [bind].
    destruct (visit_same (NF (Atom p us)) s1) as ([u|g|e] & st' & E & Y); try (destruct Y; fail). exists g, st'. split; [exact E|]. intros M e. rewrite <- (Y M e). cbn [fsem]. rewrite (terms_sem ts us X M e). reflexivity.
  - intros c fs H W st. cbn [visit_f]; fold (@visit_t S h). cbn [wf] in W. apply andb_true_iff in W as [_ W]. destruct (walk_formulas fs H W st) as (us & s1 & -> & X). cbn [bind fst snd]. rewrite accept_formulas_keep. cbn [bind].
    destruct (visit_same (NF (Comp c us)) s1) as ([u|g|e] & st' & E & Y); try (destruct Y; fail). exists g, st'. split; [exact E|]. intros M e. rewrite <- (Y M e). apply comp_sem. exact X.
  - intros q vs f H Hf W st. cbn [visit_f]; fold (@visit_t S h). cbn [wf] in W. apply andb_true_iff in W as [W W3]. apply andb_true_iff in W as [_ W2]. destruct (Hf W3 st) as (g & s1 & -> & X). cbn [bind fst snd a_formula].
    assert (WT : forallb wf_term vs = true). { apply forallb_forall. intros v Iv. rewrite forallb_forall in W2. assert (K := W2 v Iv). destruct v; [reflexivity|discriminate..]. }
    destruct (walk_terms vs H WT s1) as (us & s2 & -> & Z). cbn [bind fst snd]. rewrite accept_terms_keep. cbn [bind].
    assert (us = vs). { clear - Z W2. induction Z as [|t u ts us [_ K] Z IH]; [reflexivity|]. cbn [forallb] in W2. apply andb_true_iff in W2 as [A B]. rewrite (K A), (IH B). reflexivity. } subst us.
    destruct (visit_same (NF (Quant q vs g)) s2) as ([u|g'|e] & st' & E & Y); try (destruct Y; fail). exists g', st'. split; [exact E|]. intros M e. rewrite <- (Y M e). cbn [fsem]. apply qsem_same. intros e'. apply X.
Qed.
Lemma effect_formula_same f st : wf f = true -> exists g st', visit_effect_formula h f st = Ok (g, st') /\ equivalent f g.
Proof. intros W. unfold visit_effect_formula. destruct (proj2 meaning_both f W (Some InEffect, snd st)) as (g & s1 & -> & X). cbn [bind fst snd a_formula]. eexists _, _. split; [reflexivity|exact X]. Qed.
Lemma effect_term_same t st : wf_term t = true -> exists g st', visit_effect_term h t st = Ok (g, st') /\ same_value t g.
Proof. intros W. unfold visit_effect_term. destruct (proj1 meaning_both t W (Some InEffect, snd st)) as (g & s1 & -> & X & _). cbn [bind fst snd a_term]. eexists _, _. split; [reflexivity|exact X]. Qed.
Lemma walk_effects es : Forall (fun e => wf_effect e = true -> forall st, exists e' st', visit_effect h e st = Ok (Keep (NE e'), st') /\ same_effect e e') es -> forallb wf_effect es = true ->
  forall st, exists us st', walk_list (visit_effect h) es st = Ok (map (fun u => Keep (NE u)) us, st') /\ Forall2 same_effect es us.
Proof.
  intros H. induction H as [|t ts Ht H IH]; intros W st; [exists [], st; split; [reflexivity|constructor]|]. cbn [forallb] in W. apply andb_true_iff in W as [W1 W2]. cbn [walk_list]. destruct (Ht W1 st) as (u & s1 & -> & X). cbn [bind fst snd].
  destruct (IH W2 s1) as (us & s2 & -> & Y). exists (u :: us), s2. split; [reflexivity|]. constructor; auto.
Qed.
Lemma meaning_e e : wf_effect e = true -> forall st, exists e' st', visit_effect h e st = Ok (Keep (NE e'), st') /\ same_effect e e'.
Proof.
  assert (V : forall e st, exists st', visit h (NE e) st = Ok (Keep (NE e), st')). { intros e0 st. destruct (visit_same (NE e0) st) as ([u|g|e'] & st' & E & X); try (destruct X; fail). cbn [same] in X. subst e'. exists st'. exact E. }
  induction e as [c a|c a|i c l r|c vs es IH|c l|c] using effect_ind_nested; cbn [wf_effect visit_effect]; intros W st; try discriminate.
  - apply andb_true_iff in W as [W1 W2]. destruct (proj2 meaning_both c W1 st) as (c' & s1 & -> & X). cbn [bind fst snd a_formula]. destruct (effect_formula_same a s1 W2) as (a' & s2 & -> & Y). cbn [bind fst snd]. destruct (V (EAdd c' a') s2) as [s3 E]. exists (EAdd c' a'), s3. split; [exact E|constructor; assumption].
  - apply andb_true_iff in W as [W1 W2]. destruct (proj2 meaning_both c W1 st) as (c' & s1 & -> & X). cbn [bind fst snd a_formula]. destruct (effect_formula_same a s1 W2) as (a' & s2 & -> & Y). cbn [bind fst snd]. destruct (V (EDel c' a') s2) as [s3 E]. exists (EDel c' a'), s3. split; [exact E|constructor; assumption].
  - apply andb_true_iff in W as [W W3]. apply andb_true_iff in W as [W1 W2]. destruct (proj2 meaning_both c W1 st) as (c' & s1 & -> & X). cbn [bind fst snd a_formula]. destruct (effect_term_same l s1 W2) as (l' & s2 & -> & Y). cbn [bind fst snd]. destruct (effect_term_same r s2 W3) as (r' & s3 & -> & Z). cbn [bind fst snd].
    destruct (V (EFun i c' l' r') s3) as [s4 E]. exists (EFun i c' l' r'), s4. split; [exact E|constructor; assumption].
  - destruct (walk_effects es IH W st) as (us & s1 & -> & X). cbn [bind fst snd]. rewrite accept_effects_keep. cbn [bind]. destruct (V (EUni c vs us) s1) as [s2 E]. exists (EUni c vs us), s2. split; [exact E|constructor; exact X].
Qed.
Lemma meaning_actions l : Forall (fun a => wf (a_pre a) = true /\ forallb wf_effect (a_effs a) = true) l -> forall st, exists l' st', visit_actions h l st = Ok (l', st') /\ Forall2 same_action l l'.
Proof.
  intros H. induction H as [|a l [W1 W2] H IH]; intros st; [exists [], st; split; [reflexivity|constructor]|]. cbn [visit_actions]. unfold visit_action. destruct (proj2 meaning_both _ W1 st) as (p & s1 & -> & X). cbn [bind fst snd a_formula].
  assert (F : Forall (fun e => wf_effect e = true -> forall st, exists e' st', visit_effect h e st = Ok (Keep (NE e'), st') /\ same_effect e e') (a_effs a)) by (apply Forall_forall; intros e _; exact (meaning_e e)).
  destruct (walk_effects (a_effs a) F W2 s1) as (us & s2 & -> & Y). cbn [bind fst snd]. rewrite accept_effects_keep. cbn [bind fst snd]. destruct (IH s2) as (l' & s3 & -> & Z). cbn [bind fst snd]. eexists _, s3. split; [reflexivity|]. constructor; [|exact Z]. unfold same_action. cbn. auto.
Qed.
End Meaning.

(** Suppression *)
Section Suppress.
Variable S : Type.
Variable h : option context -> node -> S -> res (reply * S).
Variable test : effect -> bool.
Hypothesis He : forall c n s, expression n -> exists s', h c n s = Ok (Keep n, s').
Hypothesis Hn : forall c e s, exists s', h c (NE e) s = Ok (if negb (universal e) && test e then Suppress else Keep (NE e), s').
Definition rest (c : option context) (n : node) (s : S) : res S := let! x := h c n s in Ok (snd x).
Lemma rest_expr c n s : expression n -> h c n s = let! s' := rest c n s in Ok (Keep n, s').
Proof. intros X. unfold rest. destruct (He c n s X) as [s' ->]. reflexivity. Qed.
Lemma rest_total c n s : exists s', rest c n s = Ok s'.
Proof. unfold rest. destruct n as [t|f|e]; [destruct (He c (NT t) s I) as [s' ->]|destruct (He c (NF f) s I) as [s' ->]|destruct (Hn c e s) as [s' ->]]; exists s'; reflexivity. Qed.
Lemma play_total l : no_reject l -> forall st, exists st', play S rest l st = Ok st'.
Proof.
  intros N. induction l as [|x l IH]; intros st; [exists st; reflexivity|]. assert (N' : no_reject l) by (intros I; apply N; right; exact I). cbn [play]. destruct x as [n| | |]; cbn [step bind].
  - destruct (rest_total (fst st) n (snd st)) as [s' ->]. cbn [bind]. apply IH. exact N'.
  - apply IH. exact N'.
  - apply IH. exact N'.
  - exfalso. apply N. left. reflexivity.
Qed.
Lemma keeps_f f st : exists st', visit_f h f st = Ok (Keep (NF f), st').
Proof. rewrite (proj2 (keep_both S rest h rest_expr)). destruct (play_total (log_f f) (visits_no_reject _ (proj2 log_visits f)) st) as [s ->]. exists s. reflexivity. Qed.
Lemma keeps_t f st : exists st', visit_t h f st = Ok (Keep (NT f), st').
Proof. rewrite (proj1 (keep_both S rest h rest_expr)). destruct (play_total (log_t f) (visits_no_reject _ (proj1 log_visits f)) st) as [s ->]. exists s. reflexivity. Qed.
Lemma keeps_ef f st : exists st', visit_effect_formula h f st = Ok (f, st').
Proof. unfold visit_effect_formula. destruct (keeps_f f (Some InEffect, snd st)) as [s ->]. eexists. reflexivity. Qed.
Lemma keeps_et f st : exists st', visit_effect_term h f st = Ok (f, st').
Proof. unfold visit_effect_term. destruct (keeps_t f (Some InEffect, snd st)) as [s ->]. eexists. reflexivity. Qed.
Definition outcome_of (e : effect) (r : reply) : Prop := match r with Keep (NE e') => leaves e' = filter (fun x => negb (test x)) (leaves e) | Suppress => filter (fun x => negb (test x)) (leaves e) = [] | _ => False end.
Lemma outcomes es rs : Forall2 outcome_of es rs -> exists us, accept_effects rs = Ok us /\ flat_map leaves us = filter (fun x => negb (test x)) (flat_map leaves es).
Proof.
  intros H. induction H as [|e r es rs X H (us & E & L)]; [exists []; auto|]. cbn [accept_effects flat_map]. rewrite filter_app. destruct r as [[t|f|e']|]; try (destruct X; fail); cbn [outcome_of] in X.
  - rewrite E. cbn [bind]. exists (e' :: us). split; [reflexivity|]. cbn [flat_map]. rewrite X, L. reflexivity.
  - rewrite X, E. exists us. auto.
Qed.
Lemma leaf_reply e st : universal e = false -> exists r st', visit h (NE e) st = Ok (r, st') /\ outcome_of e r.
Proof.
  intros U. unfold visit. destruct (Hn (fst st) e (snd st)) as [s' ->]. cbn [bind fst snd]. eexists _, _. split; [reflexivity|]. rewrite U. cbn [negb andb]. assert (L : leaves e = [e]) by (destruct e; try reflexivity; discriminate).
  destruct (test e) eqn:T; cbn [outcome_of]; rewrite ?L; cbn [filter]; rewrite T; reflexivity.
Qed.
Lemma suppress_e e : analysable e = true -> forall st, exists r st', visit_effect h e st = Ok (r, st') /\ outcome_of e r.
Proof.
  induction e as [c a|c a|i c l r|c vs es IH|c l|c] using effect_ind_nested; cbn [analysable visit_effect]; intros W st; try discriminate.
  - destruct (keeps_f c st) as [s1 ->]. cbn [bind fst snd a_formula]. destruct (keeps_ef a s1) as [s2 ->]. cbn [bind fst snd]. apply leaf_reply. reflexivity.
  - destruct (keeps_f c st) as [s1 ->]. cbn [bind fst snd a_formula]. destruct (keeps_ef a s1) as [s2 ->]. cbn [bind fst snd]. apply leaf_reply. reflexivity.
  - destruct (keeps_f c st) as [s1 ->]. cbn [bind fst snd a_formula]. destruct (keeps_et l s1) as [s2 ->]. cbn [bind fst snd]. destruct (keeps_et r s2) as [s3 ->]. cbn [bind fst snd]. apply leaf_reply. reflexivity.
  - assert (X : exists rs st', walk_list (visit_effect h) es st = Ok (rs, st') /\ Forall2 outcome_of es rs).
    { revert W st. induction IH as [|x es Hx H IH2]; intros W st; [exists [], st; split; [reflexivity|constructor]|]. cbn [forallb] in W. apply andb_true_iff in W as [W1 W2]. cbn [walk_list]. destruct (Hx W1 st) as (r & s1 & -> & X). cbn [bind fst snd].
      destruct (IH2 W2 s1) as (rs & s2 & -> & Y). cbn [bind fst snd]. exists (r :: rs), s2. split; [reflexivity|constructor; assumption]. }
    destruct X as (rs & s1 & -> & X). cbn [bind fst snd]. destruct (outcomes es rs X) as (us & -> & L). cbn [bind]. unfold visit. destruct (Hn (fst s1) (EUni c vs us) (snd s1)) as [s' ->]. cbn [bind fst snd universal negb andb]. eexists _, _. split; [reflexivity|]. exact L.
Qed.
Lemma suppress_action a st : forallb analysable (a_effs a) = true -> exists a' st', visit_action h a st = Ok (a', st') /\ a_name a' = a_name a /\ a_params a' = a_params a /\ a_pre a' = a_pre a /\ flat_map leaves (a_effs a') = filter (fun x => negb (test x)) (flat_map leaves (a_effs a)).
Proof.
  intros W. unfold visit_action. destruct (keeps_f (a_pre a) st) as [s1 ->]. cbn [bind fst snd a_formula].
  assert (X : forall es st, forallb analysable es = true -> exists rs st', walk_list (visit_effect h) es st = Ok (rs, st') /\ Forall2 outcome_of es rs).
  { intros es. induction es as [|x es IH2]; intros s W'; [exists [], s; split; [reflexivity|constructor]|]. cbn [forallb] in W'. apply andb_true_iff in W' as [W1 W2]. cbn [walk_list]. destruct (suppress_e x W1 s) as (r & s2 & -> & X). cbn [bind fst snd].
    destruct (IH2 s2 W2) as (rs & s3 & -> & Y). cbn [bind fst snd]. exists (r :: rs), s3. split; [reflexivity|constructor; assumption]. }
  destruct (X (a_effs a) s1 W) as (rs & s2 & -> & Y). cbn [bind fst snd]. destruct (outcomes _ rs Y) as (us & -> & L). cbn [bind]. eexists _, s2. split; [reflexivity|]. cbn. auto.
Qed.
End Suppress.
Section Conjuncts.
Variable S : Type.
Variable h : option context -> node -> S -> res (reply * S).
Variable test : formula -> bool.
Hypothesis Hh : forall c n s, exists s', h c n s = Ok (match n with NF f => if is_atom f && test f then Suppress else Keep n | _ => Keep n end, s').
Lemma plain_kept t : plain t = true -> forall st, exists st', visit_t h t st = Ok (Keep (NT t), st').
Proof.
  assert (V : forall t st, exists st', visit h (NT t) st = Ok (Keep (NT t), st')). { intros u st. unfold visit. destruct (Hh (fst st) (NT u) (snd st)) as [s' ->]. eexists. reflexivity. }
  revert t. apply (term_ind_nested (fun t => plain t = true -> forall st, exists st', visit_t h t st = Ok (Keep (NT t), st')) (fun _ => True)); cbn [plain visit_t]; try discriminate; auto.
  intros f ts H W st. assert (X : exists st', walk_list (visit_t h) ts st = Ok (map (fun t => Keep (NT t)) ts, st')).
  { revert W st. induction H as [|x ts Hx H IH]; intros W st; [exists st; reflexivity|]. cbn [forallb] in W. apply andb_true_iff in W as [W1 W2]. cbn [walk_list]. destruct (Hx W1 st) as [s1 ->]. cbn [bind fst snd]. destruct (IH W2 s1) as [s2 ->]. exists s2. reflexivity. }
  destruct X as [s1 ->]. cbn [bind fst snd]. rewrite accept_terms_keep. cbn [bind]. apply V.
Qed.
Lemma plain_terms ts : forallb plain ts = true -> forall st, exists st', walk_list (visit_t h) ts st = Ok (map (fun t => Keep (NT t)) ts, st').
Proof. induction ts as [|x ts IH]; intros W st; [exists st; reflexivity|]. cbn [forallb] in W. apply andb_true_iff in W as [W1 W2]. cbn [walk_list]. destruct (plain_kept x W1 st) as [s1 ->]. cbn [bind fst snd]. destruct (IH W2 s1) as [s2 ->]. exists s2. reflexivity. Qed.
Lemma conjuncts_kept fs : forallb plain_atom fs = true -> forall st, exists rs st', walk_list (visit_f h) fs st = Ok (rs, st') /\ accept_formulas rs = Ok (filter (fun f => negb (test f)) fs).
Proof.
  induction fs as [|f fs IH]; intros W st; [exists [], st; split; reflexivity|]. cbn [forallb] in W. apply andb_true_iff in W as [W1 W2]. destruct f as [| |p ts|c gs|q vs g]; try discriminate. cbn [plain_atom] in W1. cbn [walk_list visit_f]; fold (@visit_t S h).
  destruct (plain_terms ts W1 st) as [s1 ->]. cbn [bind fst snd]. rewrite accept_terms_keep. cbn [bind]. unfold visit. destruct (Hh (fst s1) (NF (Atom p ts)) (snd s1)) as [s2 ->]. cbn [bind fst snd is_atom andb].
  destruct (IH W2 (fst s1, s2)) as (rs & s3 & -> & E). cbn [bind fst snd]. destruct (test (Atom p ts)) eqn:T; eexists _, s3; (split; [reflexivity|]); cbn [accept_formulas filter negb]; rewrite T, E; reflexivity.
Qed.
End Conjuncts.
