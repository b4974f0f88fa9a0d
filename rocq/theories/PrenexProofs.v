From Verif Require Import Base Syntax Semantics FolSpec SubstSpec SemLemmas NnfProofs Subst SubstProofs Nnf Prenex PrenexSpec.

Lemma qsem_app M q vs ws k e : qsem M q (vs ++ ws) k e = qsem M q vs (fun e' => qsem M q ws k e') e.
Proof.
  revert e; induction vs as [|v vs IH]; intros e; simpl; [reflexivity|]. destruct v; auto.
  destruct q; [apply existsb_ext_in|apply forallb_ext_in]; intros; apply IH.
Qed.

Lemma existsb_op {A} op (Hop : op = andb \/ op = orb) b (g : A -> bool) l : l <> [] ->
  existsb (fun d => op b (g d)) l = op b (existsb g l).
Proof.
  destruct l as [|a l]; [congruence|]. intros _. revert a. induction l as [|a' l IH]; intros a.
  - simpl. rewrite !orb_false_r. reflexivity.
  - change (op b (g a) || existsb (fun d => op b (g d)) (a' :: l) = op b (g a || existsb g (a' :: l))). rewrite IH.
    destruct Hop as [-> | ->], b, (g a), (existsb g (a' :: l)); reflexivity.
Qed.
Lemma forallb_op {A} op (Hop : op = andb \/ op = orb) b (g : A -> bool) l : l <> [] ->
  forallb (fun d => op b (g d)) l = op b (forallb g l).
Proof.
  destruct l as [|a l]; [congruence|]. intros _. revert a. induction l as [|a' l IH]; intros a.
  - simpl. rewrite !andb_true_r. reflexivity.
  - change (op b (g a) && forallb (fun d => op b (g d)) (a' :: l) = op b (g a && forallb g (a' :: l))). rewrite IH.
    destruct Hop as [-> | ->], b, (g a), (forallb g (a' :: l)); reflexivity.
Qed.
Definition op_of (c : connective) : bool -> bool -> bool := match c with And => andb | _ => orb end.
Lemma qsem_op M (Hne : nonempty_sorts M) q op (Hop : op = andb \/ op = orb) vs (c k : env M -> bool) :
  (forall e x d, In x (vars_of vs) -> c (upd e x d) = c e) ->
  forall e, qsem M q vs (fun e' => op (c e') (k e')) e = op (c e) (qsem M q vs k e).
Proof.
  induction vs as [|v vs IH]; intros Hc e; simpl; [reflexivity|].
  destruct v as [x s|c0 s|f ts|f a b]; try (apply IH; exact Hc).
  assert (Hd : forall d, qsem M q vs (fun e' => op (c e') (k e')) (upd e (x, s) d) = op (c e) (qsem M q vs k (upd e (x, s) d))).
  { intros d. rewrite IH; [|intros; apply Hc; now right]. f_equal. apply Hc. now left. }
  specialize (Hne s). destruct q.
  - rewrite (existsb_ext_in _ (fun d => op (c e) (qsem M QEx vs k (upd e (x, s) d))) _ (fun d _ => Hd d)). now apply (existsb_op op).
  - rewrite (forallb_ext_in _ (fun d => op (c e) (qsem M QAll vs k (upd e (x, s) d))) _ (fun d _ => Hd d)). now apply (forallb_op op).
Qed.

Lemma distinct_app a b : distinct (a ++ b) = true <-> distinct a = true /\ distinct b = true /\ (forall x, In x a -> In x b -> False).
Proof.
  induction a as [|x a IH]; simpl; [intuition|]. rewrite !andb_true_iff, IH, !negb_true_iff, !mem_var_false, in_app_iff.
  split; [intros (H & A & B & C)|intros ((H & A) & B & C)]; repeat split; auto; try tauto.
  - intros y [<-|Hy] Hb; [tauto|eauto].
  - intros [Hin|Hin]; [tauto|]. eapply C; eauto.
  - intros y Hy Hb. eapply C; eauto.
Qed.
Lemma vars_of_app a b : vars_of (a ++ b) = vars_of a ++ vars_of b.
Proof. unfold vars_of. apply flat_map_app. Qed.
Lemma same_var_spec v u : is_var v = true -> is_var u = true -> same_var v u = true <-> v = u.
Proof.
  destruct v, u; try discriminate. intros _ _. simpl. rewrite andb_true_iff, !String.eqb_eq. split; [intros [-> ->]; auto|intros H; inversion H; auto].
Qed.
Lemma vars_of_In x s vs : forallb is_var vs = true -> In (Var x s) vs <-> In (x, s) (vars_of vs).
Proof.
  induction vs as [|v vs IH]; simpl; [tauto|]. rewrite andb_true_iff. intros [Hv Hvs]. destruct v; try discriminate. simpl.
  rewrite <- IH by auto. split; intros [H|H]; auto; left; congruence.
Qed.
Lemma existsb_same_var v vs : is_var v = true -> forallb is_var vs = true -> existsb (same_var v) vs = true <-> In v vs.
Proof.
  intros Hv Hvs. rewrite existsb_exists. rewrite forallb_forall in Hvs. split.
  - intros (u & Hu & E). apply same_var_spec in E; auto. now subst.
  - intros Hin. exists v. split; [auto|]. apply same_var_spec; auto.
Qed.
Lemma dedup_id vs : forallb is_var vs = true -> forall seen, forallb is_var seen = true -> distinct (vars_of vs) = true ->
  (forall v, In v vs -> ~ In v seen) -> dedup seen vs = vs.
Proof.
  induction vs as [|v vs IH]; intros Hv seen Hs Hd Hx; simpl; [reflexivity|].
  simpl in Hv. apply andb_true_iff in Hv as [Hv1 Hv2].
  destruct (existsb (same_var v) seen) eqn:E.
  - apply existsb_same_var in E; auto. exfalso. apply (Hx v); [now left|auto].
  - f_equal. destruct v as [x s| | |]; try discriminate. simpl in Hd. apply andb_true_iff in Hd as [Hd1 Hd2]. apply IH; auto.
    intros u Hu [<-|Hin]; [|apply (Hx u); [now right|auto]].
    apply negb_true_iff, mem_var_false in Hd1. apply Hd1. now apply vars_of_In.
Qed.

Lemma indep M f (x : var) d (e : env M) : free_in x f = false -> fsem M f (upd e x d) = fsem M f e.
Proof.
  intros H. apply (proj2 (coincidence M)). intros y Hy. unfold upd. destruct (var_eqb x y) eqn:E; [|reflexivity].
  apply var_eqb_eq in E. subst. congruence.
Qed.

Lemma qsem_ext1 M q vs (k k' : env M -> bool) e : (forall e', k e' = k' e') -> qsem M q vs k e = qsem M q vs k' e.
Proof.
  intros H. revert e. induction vs as [|v vs IH]; intros e; simpl; [apply H|]. destruct v; auto.
  destruct q; [apply existsb_ext_in|apply forallb_ext_in]; intros; apply IH.
Qed.
Lemma qsem_op_r M (Hne : nonempty_sorts M) q op (Hop : op = andb \/ op = orb) vs (c k : env M -> bool) :
  (forall e x d, In x (vars_of vs) -> c (upd e x d) = c e) ->
  forall e, qsem M q vs (fun e' => op (k e') (c e')) e = op (qsem M q vs k e) (c e).
Proof.
  intros Hc e. assert (Cm : forall a b, op a b = op b a) by (intros; destruct Hop as [-> | ->]; [apply andb_comm|apply orb_comm]).
  rewrite Cm, <- (qsem_op M Hne q op Hop vs c k Hc e). apply qsem_ext1. intros e'. apply Cm.
Qed.
Lemma fsem_pair M c a b e : c <> Not -> fsem M (Comp c [a; b]) e = op_of c (fsem M a e) (fsem M b e).
Proof. destruct c; simpl; try congruence; intros; [now rewrite andb_true_r|now rewrite orb_false_r]. Qed.
Lemma op_of_cases c : op_of c = andb \/ op_of c = orb.
Proof. destruct c; simpl; auto. Qed.
Lemma no_quant_nil f : has_quantifier f = true -> forall g : formula, has_quantifier g = false -> f <> g.
Proof. congruence. Qed.

Definition frag_result (q : quant) (f h : formula) : Prop :=
  (has_quantifier f = false /\ h = f) \/
  (exists vs body, has_quantifier f = true /\ h = Quant q vs body /\ forallb is_var vs = true /\ vs <> [] /\ has_quantifier body = false /\
     incl (vars_of vs) (binders f) /\ distinct (vars_of vs) = true).

Lemma convert_frag q : forall n f, size f <= n -> wf f = true -> is_nnf f = true -> binary f = true -> only_quantifier q f = true ->
  conjunctions_ok f = true -> distinct (binders f) = true -> (forall b, In b (binders f) -> free_in b f = false) ->
  exists h, convert n f = Ok h /\ (forall M, nonempty_sorts M -> forall e, fsem M h e = fsem M f e) /\
    (forall x, free_in x h = true -> free_in x f = true) /\ frag_result q f h.
Proof.
  induction n as [|n IH]; intros f Hsz Hwf Hnnf Hbin Hq Hc Hd Hfr.
  { destruct f; simpl in Hsz; lia. }
  assert (Triv : convert (S n) f = Ok f -> has_quantifier f = false ->
    exists h, convert (S n) f = Ok h /\ (forall M, nonempty_sorts M -> forall e, fsem M h e = fsem M f e) /\
    (forall x, free_in x h = true -> free_in x f = true) /\ frag_result q f h).
  { intros E N. exists f. repeat split; auto. left. auto. }
  destruct f as [| |p ts|c fs|r vs g]; try (apply Triv; reflexivity).
  - (* compound *)
    destruct (connective_eq_dec c Not) as [->|Hn].
    { destruct fs as [|[| |p ts| |] [|]]; try discriminate. apply Triv; reflexivity. }
    assert (Hfs : exists f1 f2, fs = [f1; f2]).
    { destruct c; try congruence; simpl in Hbin; apply andb_true_iff in Hbin as [L _]; apply Nat.eqb_eq in L;
      destruct fs as [|f1 [|f2 [|]]]; try discriminate; eauto. }
    destruct Hfs as (f1 & f2 & ->).
    assert (W : wf f1 = true /\ wf f2 = true).
    { apply wf_Comp in Hwf as [_ W]. inversion W as [|? ? W1 W']; subst. inversion W'; auto. }
    assert (N : is_nnf f1 = true /\ is_nnf f2 = true).
    { destruct c; try congruence; simpl in Hnnf; rewrite !andb_true_iff in Hnnf; tauto. }
    assert (Bi : binary f1 = true /\ binary f2 = true).
    { destruct c; try congruence; simpl in Hbin; rewrite !andb_true_iff in Hbin; tauto. }
    assert (Co : conjunctions_ok f1 = true /\ conjunctions_ok f2 = true /\ (c = And -> has_quantifier f1 = true -> has_quantifier f2 = true -> False)).
    { destruct c; try congruence; cbn [conjunctions_ok forallb] in Hc; rewrite ?andb_true_iff in Hc; repeat split; try tauto.
      - intros _ Q1 Q2. destruct Hc as [Hl _]. cbn [filter] in Hl. rewrite Q1, Q2 in Hl. discriminate.
      - congruence. }
    assert (Qs : only_quantifier q f1 = true /\ only_quantifier q f2 = true).
    { simpl in Hq. rewrite !andb_true_iff in Hq. tauto. }
    assert (Bd : binders (Comp c [f1; f2]) = binders f1 ++ binders f2) by (simpl; now rewrite app_nil_r).
    assert (Fr : forall x, free_in x (Comp c [f1; f2]) = free_in x f1 || free_in x f2) by (intros; simpl; now rewrite orb_false_r).
    rewrite Bd in Hd. apply distinct_app in Hd as (D1 & D2 & D3). rewrite Bd in Hfr.
    assert (F1 : forall b, In b (binders f1) \/ In b (binders f2) -> free_in b f1 = false /\ free_in b f2 = false).
    { intros b Hb. apply orb_false_iff. rewrite <- Fr. apply Hfr, in_app_iff, Hb. }
    assert (Sz : size f1 <= n /\ size f2 <= n).
    { assert (S (size f1 + (size f2 + 0)) <= S n) by exact Hsz. lia. }
    destruct (IH f1) as (l & El & Sl & Frl & Rl); try tauto. { intros b Hb. apply F1. auto. }
    destruct (IH f2) as (r & Er & Sr & Frr & Rr); try tauto. { intros b Hb. apply F1. auto. }
    assert (Conv : convert (S n) (Comp c [f1; f2]) = match l, r with
              | Quant ql vl fl, Quant qr vr fr =>
                  match ql, qr with
                  | QEx, QEx | QAll, QAll => merge ql vl fl vr fr
                  | QAll, QEx => Ok (nest false vr vl c fl fr)
                  | QEx, QAll => Ok (nest true vl vr c fl fr)
                  end
              | _, Quant qr vr fr => Ok (merge_mixed qr vr l c fr)
              | Quant ql vl fl, _ => Ok (merge_mixed ql vl fl c r)
              | _, _ => Ok (Comp c [f1; f2])
              end).
    { destruct c; try congruence; cbn [convert]; rewrite El, Er; reflexivity. }
    rewrite Conv. clear Conv El Er.
    assert (NQ : forall g : formula, has_quantifier g = false -> match g with Quant _ _ _ => False | _ => True end) by (intros []; simpl; auto; discriminate).
    destruct Rl as [[Ql ->]|(vl & bl & Ql & -> & Vl & Nel & Qbl & Il & Dl)], Rr as [[Qr ->]|(vr & br & Qr & -> & Vr & Ner & Qbr & Ir & Dr)].
    + (* neither *) exists (Comp c [f1; f2]). repeat split; auto.
      * pose proof (NQ _ Ql). pose proof (NQ _ Qr). destruct f1, f2; try tauto; reflexivity.
      * left. split; [simpl; rewrite Ql, Qr; reflexivity|auto].
    + (* right only *) exists (Quant q vr (Comp c [f1; br])). repeat split.
      * pose proof (NQ _ Ql). destruct f1; try tauto; reflexivity.
      * intros M HM e. rewrite (fsem_pair M c f1 f2) by auto. rewrite <- (Sr M HM e).
        change (qsem M q vr (fun e' => fsem M (Comp c [f1; br]) e') e = op_of c (fsem M f1 e) (qsem M q vr (fun e' => fsem M br e') e)).
        rewrite (qsem_ext1 M q vr _ (fun e' => op_of c (fsem M f1 e') (fsem M br e'))); [|intros; now apply fsem_pair].
        apply qsem_op; auto using op_of_cases. intros e' x d Hx. apply indep. apply F1. right. now apply Ir.
      * intros x. rewrite Fr. cbn [free_in existsb]. rewrite orb_false_r. intros Hx. apply andb_true_iff in Hx as [H1 H2]. apply orb_true_iff in H2 as [H2|H2].
        { now rewrite H2. } rewrite (Frr x); [now rewrite orb_true_r|]. simpl. now rewrite H1.
      * right. exists vr, (Comp c [f1; br]). repeat split; auto.
        { simpl. now rewrite Ql, Qr. } { simpl. now rewrite Ql, Qbr. } { intros x Hx. rewrite Bd. apply in_app_iff. auto. }
    + exists (Quant q vl (Comp c [bl; f2])). repeat split.
      * pose proof (NQ _ Qr). destruct f2; try tauto; reflexivity.
      * intros M HM e. rewrite (fsem_pair M c f1 f2) by auto. rewrite <- (Sl M HM e).
        change (qsem M q vl (fun e' => fsem M (Comp c [bl; f2]) e') e = op_of c (qsem M q vl (fun e' => fsem M bl e') e) (fsem M f2 e)).
        rewrite (qsem_ext1 M q vl _ (fun e' => op_of c (fsem M bl e') (fsem M f2 e'))); [|intros; now apply fsem_pair].
        apply qsem_op_r; auto using op_of_cases. intros e' x d Hx. apply indep. apply F1. left. now apply Il.
      * intros x. rewrite Fr. cbn [free_in existsb]. rewrite orb_false_r. intros Hx. apply andb_true_iff in Hx as [H1 H2]. apply orb_true_iff in H2 as [H2|H2].
        { rewrite (Frl x); [reflexivity|]. simpl. now rewrite H1. } { rewrite H2. now rewrite orb_true_r. }
      * right. exists vl, (Comp c [bl; f2]). repeat split; auto.
        { simpl. now rewrite Ql. } { simpl. now rewrite Qr, Qbl. } { intros x Hx. rewrite Bd. apply in_app_iff. auto. }
    + assert (c = Or) as ->. { destruct c; try congruence. exfalso. now apply Co. }
      assert (Dis : forall v, In v vl -> In v vr -> False).
      { intros v H1 H2. assert (Vv : is_var v = true) by (rewrite forallb_forall in Vl; auto). destruct v as [x s| | |]; try discriminate.
        apply (D3 (x, s)); [apply Il|apply Ir]; now apply vars_of_In. }
      assert (Vlr : forallb is_var (vl ++ vr) = true) by (rewrite forallb_app; now rewrite Vl, Vr).
      assert (Dlr : distinct (vars_of (vl ++ vr)) = true).
      { rewrite vars_of_app. apply distinct_app. repeat split; auto. intros x H1 H2. eapply D3; eauto. }
      assert (Mg : merge q vl bl vr br = Ok (Quant q (vl ++ vr) (Comp Or [bl; br]))).
      { unfold merge. destruct (existsb (fun y => existsb (same_var y) vl) vr) eqn:E.
        - exfalso. apply existsb_exists in E as (y & Hy & E). apply existsb_same_var in E; auto; [|rewrite forallb_forall in Vr; auto]. eauto.
        - rewrite dedup_id; auto. }
      assert (Fbl : forall x, In x (vars_of vr) -> free_in x bl = false).
      { intros x Hx. destruct (free_in x bl) eqn:E; [|reflexivity]. exfalso. assert (Hb : In x (binders f2)) by now apply Ir.
        assert (free_in x (Quant q vl bl) = true).
        { simpl. rewrite E, andb_true_r. apply negb_true_iff, mem_var_false. intros H. apply (D3 x); auto. }
        apply Frl in H. destruct (F1 x); auto. congruence. }
      assert (Fbr : forall x, In x (vars_of vl) -> free_in x f2 = false).
      { intros x Hx. apply F1. left. now apply Il. }
      exists (Quant q (vl ++ vr) (Comp Or [bl; br])). repeat split.
      * destruct q; exact Mg.
      * intros M HM e. rewrite (fsem_pair M Or f1 f2) by auto. rewrite <- (Sl M HM e).
        change (qsem M q (vl ++ vr) (fun e' => fsem M (Comp Or [bl; br]) e') e = orb (qsem M q vl (fun e' => fsem M bl e') e) (fsem M f2 e)).
        rewrite qsem_app. rewrite (qsem_ext1 M q vl _ (fun e' => orb (fsem M bl e') (fsem M f2 e'))).
        -- apply qsem_op_r; auto. intros e' x d Hx. now apply indep, Fbr.
        -- intros e'. rewrite <- (Sr M HM e').
           rewrite (qsem_ext1 M q vr _ (fun e'' => orb (fsem M bl e'') (fsem M br e''))); [|intros; now apply (fsem_pair M Or)].
           apply qsem_op; auto. intros e'' x d Hx. now apply indep, Fbl.
      * intros x. rewrite Fr. cbn [free_in existsb]. rewrite orb_false_r, vars_of_app. intros Hx. apply andb_true_iff in Hx as [H1 H2].
        apply negb_true_iff, mem_var_false in H1. rewrite in_app_iff in H1. apply orb_true_iff in H2 as [H2|H2].
        { rewrite (Frl x); [reflexivity|]. simpl. rewrite H2, andb_true_r. apply negb_true_iff, mem_var_false. tauto. }
        { rewrite (Frr x); [now rewrite orb_true_r|]. simpl. rewrite H2, andb_true_r. apply negb_true_iff, mem_var_false. tauto. }
      * right. exists (vl ++ vr), (Comp Or [bl; br]). repeat split; auto.
        { simpl. now rewrite Ql. } { destruct vl; [congruence|discriminate]. } { simpl. now rewrite Qbl, Qbr. }
        { intros x. rewrite Bd, vars_of_app, !in_app_iff. intros [?|?]; auto. }
  - (* quantified *)
    assert (r = q) as ->. { simpl in Hq. destruct q, r; try discriminate; reflexivity. }
    simpl in Hwf. rewrite !andb_true_iff in Hwf. destruct Hwf as [[Hlen Hvs] Hwf].
    cbn [binders] in Hd, Hfr. apply distinct_app in Hd as (D1 & D2 & D3).
    assert (Hq' : only_quantifier q g = true) by (simpl in Hq; apply andb_true_iff in Hq; tauto).
    destruct (IH g) as (h & Eh & Sh & Frh & Rh); auto. { simpl in Hsz. lia. }
    { intros b Hb. specialize (Hfr b). rewrite in_app_iff in Hfr. specialize (Hfr (or_intror Hb)). simpl in Hfr.
      apply andb_false_iff in Hfr as [H|H]; [|auto]. apply negb_false_iff, mem_var_In in H. exfalso. eauto. }
    assert (Nevs : vs <> []) by (destruct vs; [discriminate|congruence]).
    destruct Rh as [[Qg ->]|(ws & body & Qg & -> & Vw & New & Qb & Iw & Dw)].
    + exists (Quant q vs g). repeat split; auto.
      * cbn [convert]. rewrite Eh. cbn [bind]. destruct g; try discriminate; reflexivity.
      * right. exists vs, g. repeat split; auto. intros x Hx. simpl. apply in_app_iff. auto.
    + exists (Quant q (vs ++ ws) body). repeat split.
      * cbn [convert]. rewrite Eh. cbn [bind]. destruct q; reflexivity.
      * intros M HM e. cbn [fsem]. rewrite qsem_app. apply qsem_ext1. intros e'. now rewrite <- (Sh M HM e').
      * intros x. cbn [free_in]. rewrite vars_of_app. intros Hx. apply andb_true_iff in Hx as [H1 H2]. apply negb_true_iff, mem_var_false in H1.
        rewrite in_app_iff in H1. apply andb_true_iff. split; [apply negb_true_iff, mem_var_false; tauto|]. apply Frh. simpl. rewrite H2, andb_true_r.
        apply negb_true_iff, mem_var_false. tauto.
      * right. exists (vs ++ ws), body. repeat split; auto.
        { rewrite forallb_app. now rewrite Hvs, Vw. } { destruct vs; [congruence|discriminate]. }
        { intros x. rewrite vars_of_app. simpl. rewrite !in_app_iff. intros [?|?]; auto. }
        { rewrite vars_of_app. apply distinct_app. repeat split; auto. intros x H1 H2. eapply D3; eauto. }
Qed.
