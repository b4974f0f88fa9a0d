(** The reader of RDDL expressions: meaning, continued *)
From Coq Require Import Ascii Field_theory Ring.
From Verif Require Import Base Syntax Build BuildProofs Semantics SemLemmas ListUtil SubstSpec Subst SubstProofs ArithSpec RddlSpec ModelState Lang LangSpec Theories QElim QElimProofs Arith PropsProgress PropsArith RddlRead RddlReadSpec RddlReadProofs RddlReadProofs2.
#[local] Open Scope string_scope.
#[local] Open Scope list_scope.

Lemma plain_unquote n : plain_name n = true -> unquote n = n /\ has_quote n = false.
Proof. induction n as [|c n IH]; [auto|]. cbn [plain_name unquote has_quote]. intros H. apply andb_prop in H as [H1 H2]. apply negb_true_iff in H1. rewrite H1. destruct (IH H2) as [-> ->]. auto. Qed.
Lemma prime_unquote n m : unprime n = Some m -> plain_name m = true -> unquote n = m /\ has_quote n = true.
Proof.
  revert m. induction n as [|c n IH]; intros m H P; [discriminate H|]. cbn [unprime] in H. destruct n as [|d n].
  - destruct (Ascii.eqb c "'") eqn:E; [|discriminate H]. injection H as <-. cbn [unquote has_quote]. now rewrite E.
  - destruct (unprime (String d n)) as [k|] eqn:E; [|discriminate H]. injection H as <-. cbn [plain_name] in P. apply andb_prop in P as [P1 P2]. apply negb_true_iff in P1. destruct (IH k eq_refl P2) as [I1 I2].
    remember (String d n) as r. cbn [unquote has_quote]. rewrite P1, I1, I2. auto.
Qed.
Lemma fluent_is n next m : fluent_of n = Some (next, m) -> unquote n = m /\ has_quote n = next.
Proof.
  unfold fluent_of. destruct (plain_name n) eqn:P; [intros H; injection H as <- <-; now apply plain_unquote|]. destruct (unprime n) as [k|] eqn:E; [|discriminate]. destruct (plain_name k) eqn:Q; [|discriminate].
  intros H. injection H as <- <-. now apply prime_unquote.
Qed.

Section Meaning.
Variable parse : bool -> string -> option Z.
Variable fuel : nat.
Variable st : tlang.
Variable D : domains.
Notation l := (t_lang st).
Notation tr := (translate parse fuel st D).
Variable K : field.
Variable U : rest K.
Notation M := (arith K U).
Variable dict : bool -> string -> list (carrier M) -> option (val M).
Hypothesis HN : names_stand_for l K U dict.
Hypothesis HE : elements_named D K U.
Add Ring Kring' : (K_ring K).

Lemma sorts_named n s : lget l (CStr n) = Ok (ESort s) -> s = n.
Proof. intros H. exact (HN n _ H). Qed.
Lemma domains_named s cs : D s = Some cs -> Forall (fun u => exists c s', u = Cst c s') cs.
Proof. intros H. exact (proj1 (HE s cs H)). Qed.

(** The value [o] that an expression is supposed to have, if any, is that of the translation *)
Definition agrees (e : env M) (o : option (val M)) (x : arg) : Prop := forall v, o = Some v -> v = meaning M x e.
Lemma elements_are e os ts xs : Forall2 (agrees e) os (map ATerm ts) -> elements M os = Some xs -> xs = map (fun t => tsem M t e) ts.
Proof.
  revert ts xs. induction os as [|o os IH]; intros ts xs H E; destruct ts as [|t ts]; inversion H as [|? ? ? ? Ho Hos]; subst; [now injection E|].
  cbn [elements] in E. destruct o as [[a|]|]; try discriminate E. fold (elements M os) in E. destruct (elements M os) as [ys|]; [|discriminate E]. injection E as <-. cbn [map]. f_equal; [|now apply IH].
  specialize (Ho _ eq_refl). cbn [meaning] in Ho. now injection Ho.
Qed.
Lemma booleans_are e os fs bs : Forall2 (agrees e) os (map AForm fs) -> booleans M os = Some bs -> bs = map (fun f => fsem M f e) fs.
Proof.
  revert fs bs. induction os as [|o os IH]; intros fs bs H E; destruct fs as [|f fs]; inversion H as [|? ? ? ? Ho Hos]; subst; [now injection E|].
  cbn [booleans] in E. destruct o as [[|b]|]; try discriminate E. fold (booleans M os) in E. destruct (booleans M os) as [ys|]; [|discriminate E]. injection E as <-. cbn [map]. f_equal; [|now apply IH].
  specialize (Ho _ eq_refl). cbn [meaning] in Ho. now injection Ho.
Qed.
(** The number that a translated operand has *)
Definition number_of (e : env M) (x : arg) : option (F K) := match x with ATerm t => tsem M t e | AForm f => Some (if fsem M f e then f1 K else f0 K) end.
Lemma number_is e x v : v = meaning M x e -> number K U v = number_of e x.
Proof. intros ->. destruct x as [t|f]; cbn [meaning number number_of]; [now destruct (tsem M t e)|now destruct (fsem M f e)]. Qed.
Lemma numbers_are e os xs ns : Forall2 (agrees e) os xs -> numbers K U os = Some ns -> map (number_of e) xs = map Some ns.
Proof.
  revert xs ns. induction os as [|o os IH]; intros xs ns H E; inversion H as [|? x ? xs' Ho Hos]; subst; [injection E as <-; reflexivity|].
  cbn [numbers] in E. destruct o as [v|]; [|discriminate E]. destruct (number K U v) as [n|] eqn:En; [|discriminate E]. destruct (numbers K U os) as [ms|]; [|discriminate E]. injection E as <-. cbn [map]. f_equal; [|now apply IH].
  rewrite <- En. symmetry. apply number_is. now apply Ho.
Qed.
Lemma arguments_agree eta rho gs ss ts : (forall x s, In (x, s) (flat_map (fun gs => match gs with (GName w, s) => if is_variable w then [(w, s)] else [] | _ => [] end) (combine gs ss)) -> rho (x, s) = eta x) ->
  List.length gs = List.length ss -> Forall2 (argument_is st) (combine gs ss) ts -> Forall2 (agrees rho) (map (fun g => argument K U dict g eta) gs) (map ATerm ts).
Proof.
  revert ss ts. induction gs as [|g gs IH]; intros ss ts He HL A; destruct ss as [|s ss]; try discriminate HL; cbn [combine] in *; inversion A as [|? t ? ts' (w & Hg & Ht) A' E1 E2]; subst; cbn [map]; constructor.
  - cbn [fst snd] in *. subst g. intros v Hv. cbn [argument] in Hv. destruct (is_variable w) eqn:W.
    + injection Hv as <-. subst t. cbn [meaning tsem]. f_equal. symmetry. apply He. cbn [flat_map]. rewrite W. now left.
    + destruct Ht as (c & s' & Hc & ->). pose proof (HN _ _ Hc) as Hd. cbn beta iota in Hd. rewrite Hd in Hv. injection Hv as <-. reflexivity.
  - apply IH with (ss := ss); [|now injection HL|exact A']. intros x s' Hx. apply He. cbn [flat_map]. apply in_app_iff. now right.
Qed.

(** Sums and products of lists of values *)
Lemma sum_is (g : option (F K) -> option (F K) -> option (F K)) (h : F K -> F K -> F K) z ns : (forall a b, g (Some a) (Some b) = Some (h a b)) -> fold_right g (Some z) (map Some ns) = Some (fold_right h z ns).
Proof. intros H. induction ns as [|n ns IH]; [reflexivity|]. cbn [map fold_right]. now rewrite IH, H. Qed.
Lemma numbers_pointwise {A} (f : A -> option (val M)) (k : A -> option (F K)) ds ns : (forall d v, In d ds -> f d = Some v -> number K U v = k d) -> numbers K U (map f ds) = Some ns -> map k ds = map Some ns.
Proof.
  revert ns. induction ds as [|d ds IH]; intros ns H E; [injection E as <-; reflexivity|]. cbn [map numbers] in E. destruct (f d) as [v|] eqn:Ed; [|discriminate E]. destruct (number K U v) as [n|] eqn:En; [|discriminate E].
  destruct (numbers K U (map f ds)) as [ms|]; [|discriminate E]. injection E as <-. cbn [map]. rewrite <- (H d v) by (simpl; auto). rewrite En. f_equal. apply IH; [|reflexivity]. intros; apply H; simpl; auto.
Qed.
Lemma booleans_pointwise {A} (f : A -> option (val M)) (k : A -> bool) ds bs : (forall d v, In d ds -> f d = Some v -> v = VB (k d)) -> booleans M (map f ds) = Some bs -> bs = map k ds.
Proof.
  revert bs. induction ds as [|d ds IH]; intros bs H E; [now injection E|]. cbn [map booleans] in E. destruct (f d) as [[|b]|] eqn:Ed; try discriminate E. fold (booleans M (map f ds)) in E.
  destruct (booleans M (map f ds)) as [ms|]; [|discriminate E]. injection E as <-. cbn [map]. pose proof (H d _ ltac:(simpl; auto) Ed) as Q. injection Q as ->. f_equal. apply IH; [|reflexivity]. intros; apply H; simpl; auto.
Qed.
Lemma flat_single {A B} (f : A -> B) ds : flat_map (fun d => [f d]) ds = map f ds.
Proof. induction ds as [|d ds IH]; [reflexivity|]. cbn [flat_map map app]. now rewrite IH. Qed.
Lemma product_single {A} (cs : list A) : product [cs] = map (fun c => [c]) cs.
Proof. cbn [product map]. apply flat_single. Qed.

Definition reads_well (a : rast) : Prop := forall x eta rho v, single_variables a -> not_requantified a -> well_typed_variables l a -> (forall y s, In (y, s) (uses l a) -> rho (y, s) = eta y) ->
  tr a = Ok x -> rmeaning K U dict a eta = Some v -> v = meaning M x rho.
Lemma children_agree a eta rho : single_variables a -> not_requantified a -> well_typed_variables l a -> (forall y s, In (y, s) (uses l a) -> rho (y, s) = eta y) ->
  forall es xs, incl es (children a) -> Forall reads_well es -> mapM tr es = Ok xs -> Forall2 (agrees rho) (map (fun b => rmeaning K U dict b eta) es) xs.
Proof.
  intros SV NR WT He es xs Qs IH E. apply mapM_ok_Forall2 in E.
  induction E as [|e y es xs Hy E IHE]; [constructor|]. inversion IH as [|? ? I1 I2]; subst. cbn [map]. constructor; [|apply IHE; [intros z Hz; apply Qs; simpl; auto|exact I2]].
  intros w Hw. assert (Hc := Qs e (or_introl eq_refl)). apply (I1 y eta rho w (single_child _ _ SV Hc) (notreq_child _ _ NR Hc) (typed_child _ _ _ WT Hc)); auto. intros z s Hz. apply He. exact (uses_child l _ _ Hc _ Hz).
Qed.
Theorem translate_meaning a : forall x eta rho v, single_variables a -> not_requantified a -> well_typed_variables l a -> (forall y s, In (y, s) (uses l a) -> rho (y, s) = eta y) ->
  tr a = Ok x -> rmeaning K U dict a eta = Some v -> v = meaning M x rho.
Proof.
  induction a as [lit|n gs|y ty|es IH|op es IH|op es IH|op es IH|op es IH|op es IH|ty] using rast_ind_nested; intros x eta rho v SV NR WT He H Hv; cbn [translate] in H.
  - destruct lit as [z|c|b]; [| |discriminate H].
    + destruct (real_constant parse st _) as [t|] eqn:E; [|discriminate H]; cbn [bind] in H; injection H as <-; apply real_constant_is in E as ->. cbn in Hv. injection Hv as <-. reflexivity.
    + destruct (real_constant parse st _) as [t|] eqn:E; [|discriminate H]; cbn [bind] in H; injection H as <-; apply real_constant_is in E as ->. destruct c; cbn in Hv; injection Hv as <-; reflexivity.
  - cbn [rmeaning] in Hv. destruct (fluent_of n) as [[next m]|] eqn:Ef; [|discriminate Hv]. destruct (fluent_is _ _ _ Ef) as [Eu Eq]. destruct (elements M _) as [xs|] eqn:Ex in Hv; [|discriminate Hv].
    assert (Hu : forall ss, parameter_sorts l m = ss -> forall x s, In (x, s) (flat_map (fun gs => match gs with (GName w, s) => if is_variable w then [(w, s)] else [] | _ => [] end) (combine (given gs) ss)) -> rho (x, s) = eta x).
    { intros ss Es x' s' Hx. apply He. destruct gs as [gs|]; [|destruct Hx]. cbn [uses]. unfold argument_uses. rewrite Ef, Es. exact Hx. }
    assert (Hgs : (match gs with Some gs => gs | None => [] end) = given gs) by reflexivity. rewrite Hgs in Ex.
    destruct (pvar_is fuel st n gs x H) as [(p & ss & ts & El & -> & A & HL)|(f & ss & ts & Hq & El & -> & A & HL)]; rewrite Eu in El; try rewrite Eq in *.
    + assert (Ep : parameter_sorts l m = ss) by (unfold parameter_sorts; now rewrite El). pose proof (arguments_agree eta rho (given gs) ss ts (Hu ss Ep) HL A) as Ag. pose proof (elements_are _ _ _ _ Ag Ex) as ->.
      pose proof (HN _ _ El) as Hd. cbn beta iota in Hd. assert (LL : List.length (map (fun t => tsem M t rho) ts) = List.length ss).
      { rewrite map_length. rewrite <- HL. apply Forall2_len in Ag. rewrite !map_length in Ag. congruence. }
      destruct (Hd _ LL) as [H1 H2]. cbn [meaning fsem pint arith]. destruct next; [rewrite H2 in Hv|rewrite H1 in Hv]; injection Hv as <-; reflexivity.
    + assert (Ep : parameter_sorts l m = removelast ss) by (unfold parameter_sorts; now rewrite El). pose proof (arguments_agree eta rho (given gs) (removelast ss) ts (Hu _ Ep) HL A) as Ag. pose proof (elements_are _ _ _ _ Ag Ex) as ->.
      pose proof (HN _ _ El) as Hd. cbn beta iota in Hd. assert (LL : List.length (map (fun t => tsem M t rho) ts) = List.length (removelast ss)).
      { rewrite map_length. rewrite <- HL. apply Forall2_len in Ag. rewrite !map_length in Ag. congruence. }
      rewrite Hq, (Hd _ LL) in Hv. injection Hv as <-. reflexivity.
  - discriminate Hv.
  - cbn [rmeaning] in Hv. destruct (mapM tr es) as [xs|] eqn:E; [|discriminate H]. cbn [bind] in H.
    assert (A : Forall2 (agrees rho) (map (fun b => rmeaning K U dict b eta) es) xs).
    { exact (children_agree (NIf es) eta rho SV NR WT He es xs (fun e H => H) IH E). }
    destruct xs as [|c [|a [|b [|]]]]; try discriminate H. destruct (make_ite_is _ _ _ _ _ H) as (f & t & u & -> & -> & -> & ->).
    destruct es as [|e1 [|e2 [|e3 [|]]]]; cbn [map] in *; inversion A as [|? ? ? ? A1 A']; subst; inversion A' as [|? ? ? ? A2 A'']; subst; inversion A'' as [|? ? ? ? A3 A3']; subst; try now inversion A3'.
    cbn [choose] in Hv. destruct (rmeaning K U dict e1 eta) as [[|b]|] eqn:E1; try discriminate Hv. pose proof (A1 _ eq_refl) as Q. cbn [meaning] in Q. injection Q as ->. cbn [meaning tsem].
    destruct (fsem M f rho); [exact (A2 _ Hv)|exact (A3 _ Hv)].
  - cbn [rmeaning] in Hv. destruct (relational op) as [b|] eqn:Eb; [|discriminate H]. destruct (mapM tr es) as [xs|] eqn:E; [|discriminate H]. cbn [bind] in H.
    assert (A : Forall2 (agrees rho) (map (fun b => rmeaning K U dict b eta) es) xs).
    { exact (children_agree (NRel op es) eta rho SV NR WT He es xs (fun e H => H) IH E). }
    destruct (read_rel_is _ _ _ _ _ H) as (t & u & r & -> & ->). destruct es as [|e1 [|e2 es]]; cbn [map] in *; inversion A as [|? ? ? ? A1 A']; subst; inversion A' as [|? ? ? ? A2 A'']; subst.
    destruct (rmeaning K U dict e1 eta) as [[p|p]|] eqn:E1; [|pose proof (A1 _ eq_refl) as Q; discriminate Q|discriminate Hv].
    destruct (rmeaning K U dict e2 eta) as [[q|q]|] eqn:E2; [|pose proof (A2 _ eq_refl) as Q; discriminate Q|discriminate Hv].
    pose proof (A1 _ eq_refl) as Q1. pose proof (A2 _ eq_refl) as Q2. cbn [meaning] in Q1, Q2. injection Q1 as ->. injection Q2 as ->. destruct (map _ es); [|discriminate Hv]. cbn [relate] in Hv. cbn [meaning fsem map pint arith].
    unfold relational in Eb. destruct (String.eqb_spec op "==") as [-> |_]. { injection Eb as <-. injection Hv as <-. reflexivity. }
    destruct (String.eqb_spec op "<=") as [-> |_]. { injection Eb as <-. injection Hv as <-. reflexivity. }
    destruct (String.eqb_spec op ">=") as [-> |_]; [|discriminate Eb]. injection Eb as <-. injection Hv as <-. reflexivity.
  - destruct (SV op es (nodes_self (NAgg op es))) as (y & ty & b & ->). assert (Hb : In b (children (NAgg op [NTyped y ty; b]))) by (simpl; auto).
    assert (Hr : ranging_over K U (rmeaning K U dict) [NTyped y ty; b] eta = map (fun d => rmeaning K U dict b (bind_name eta y d)) (r_dom U ty)) by (rewrite <- flat_single; destruct b; reflexivity).
    change (total_of K U op (ranging_over K U (rmeaning K U dict) [NTyped y ty; b] eta) = Some v) in Hv. rewrite Hr in Hv. clear Hr.
    assert (Hty : In (y, ty) (uses l (NAgg op [NTyped y ty; b]))) by (simpl; auto).
    assert (C : forall z d w, tr b = Ok z -> rmeaning K U dict b (bind_name eta y d) = Some w -> w = meaning M z (upd rho (y, ty) d)).
    { rewrite Forall_forall in IH. intros z d w Ez Ew. apply (IH b ltac:(simpl; auto) z (bind_name eta y d) (upd rho (y, ty) d) w (single_child _ _ SV Hb) (notreq_child _ _ NR Hb) (typed_child _ _ _ WT Hb)); auto.
      intros y' s' Hy'. assert (Hy2 := uses_child l _ _ Hb _ Hy'). unfold bind_name, upd. destruct (var_eqb (y, ty) (y', s')) eqn:V.
      - apply var_eqb_eq in V. injection V as <- <-. now rewrite String.eqb_refl.
      - destruct (String.eqb_spec y y') as [<-|]; [|now apply He]. exfalso. assert (T : var_eqb (y, ty) (y, s') = true) by (apply var_eqb_eq; f_equal; exact (WT y ty s' Hty Hy2)). pose proof (eq_trans (eq_sym T) V) as B. discriminate B. }
    assert (Tot : op <> "forall" -> forall o, (let! y := tr (NTyped y ty) in let! x := tr b in read_total parse fuel st D o y x) = Ok x ->
      exists t u cs, x = ATerm u /\ aggregate (parent_sort st) (numeric_sort fuel st) o D [(y, ty)] t = Ok u /\ D ty = Some cs /\ (forall p, In p (binders_t t) -> ~ In p [(y, ty)]) /\
        (forall ns, numbers K U (map (fun d => rmeaning K U dict b (bind_name eta y d)) (r_dom U ty)) = Some ns ->
           map (fun cs => tsem M t (assign [(y, ty)] (map (fun c => tsem M c rho) cs) rho)) (product [cs]) = map Some ns)).
    { intros Hop o E. cbn [translate] in E. destruct (lget l (CStr ty)) as [e|] eqn:Es; [|discriminate E]. cbn [bind] in E. destruct e; try discriminate E. cbn [bind] in E. apply sorts_named in Es as ->. destruct (tr b) as [z|] eqn:Ez; [|discriminate E]. cbn [bind] in E.
      destruct (read_total_is _ _ _ _ _ _ _ _ E) as (y' & s' & t & u & Ev & Ag & -> & Et). injection Ev as <- <-.
      assert (Ed : exists cs, D ty = Some cs). { unfold aggregate, variable_domains in Ag. cbn [mapM snd] in Ag. destruct (D ty) as [cs|]; [eauto|discriminate Ag]. } destruct Ed as (cs & Ed).
      exists t, u, cs. split; [reflexivity|]. split; [exact Ag|]. split; [exact Ed|]. split.
      - intros p Hp [<-|[]]. assert (Hp' : In (y, ty) (arg_binders z)). { destruct Et as [-> |(f & -> & ->)]; [exact Hp|]. cbn [binders_t app] in Hp. now rewrite app_nil_r in Hp. }
        destruct (translate_binders parse fuel st D sorts_named domains_named b z (notreq_child _ _ NR Hb) (single_child _ _ SV Hb) Ez _ Hp') as (es & Hes). exact (NR op y ty b ty es (nodes_self _) Hop Hes).
      - intros ns Hns. destruct (HE ty cs Ed) as [Hc Hr]. rewrite Hr, map_map in Hns.
        assert (Cst_env : forall c e, In c cs -> tsem M c e = tsem M c (fun _ => None)). { intros c e Hin. rewrite Forall_forall in Hc. destruct (Hc c Hin) as (k & s' & ->). reflexivity. }
        rewrite product_single, map_map. cbn [assign map]. refine (numbers_pointwise _ (fun c => tsem M t (upd rho (y, ty) (tsem M c rho))) cs ns _ Hns).
        intros c w Hin Hw. rewrite (Cst_env c rho Hin). pose proof (C z _ w eq_refl Hw) as Q. rewrite (number_is _ _ _ Q). destruct Et as [-> |(f & -> & ->)]; [reflexivity|]. cbn [number_of tsem cint arith]. destruct (fsem M f _); now rewrite ?f_int_1, ?f_int_0. }
    unfold total_of in Hv. destruct (String.eqb_spec op "sum") as [-> |_].
    { destruct (Tot ltac:(discriminate) _ H) as (t & u & cs & -> & Ag & Ed & Hbn & Hns). destruct (numbers K U _) as [ns|] eqn:En in Hv; [|discriminate Hv]. injection Hv as <-. cbn [meaning]. f_equal.
      rewrite (C41_summation (parent_sort st) (numeric_sort fuel st) D K U rho [(y, ty)] t [cs] u domains_named ltac:(repeat constructor; exact Ed) Hbn Ag). rewrite (Hns ns En). unfold sum_of. symmetry. apply sum_is. reflexivity. }
    destruct (String.eqb_spec op "prod") as [-> |_].
    { destruct (Tot ltac:(discriminate) _ H) as (t & u & cs & -> & Ag & Ed & Hbn & Hns). destruct (numbers K U _) as [ns|] eqn:En in Hv; [|discriminate Hv]. injection Hv as <-. cbn [meaning]. f_equal.
      rewrite (C41_product (parent_sort st) (numeric_sort fuel st) D K U rho [(y, ty)] t [cs] u domains_named ltac:(repeat constructor; exact Ed) Hbn Ag). rewrite (Hns ns En). unfold prod_of. symmetry. apply sum_is. reflexivity. }
    destruct (String.eqb_spec op "forall") as [-> |_]; [|discriminate H]. cbn [translate] in H. destruct (lget l (CStr ty)) as [e|] eqn:Es; [|discriminate H]. cbn [bind] in H. destruct e; try discriminate H. cbn [bind] in H. apply sorts_named in Es as ->.
    destruct (tr b) as [[t|f]|]; try discriminate H. cbn in H. injection H as <-. destruct (booleans M _) as [bs|] eqn:En in Hv; [|discriminate Hv]. injection Hv as <-. cbn [meaning fsem qsem]. f_equal.
    rewrite (booleans_pointwise _ (fun d => fsem M f (upd rho (y, ty) d)) (r_dom U ty) bs) by (try exact En; intros d w _ Hw; exact (C _ d w eq_refl Hw)).
    cbn [dom arith]. clear. induction (r_dom U ty) as [|d ds IH]; [reflexivity|]. cbn [map forallb]. now rewrite IH.
  - cbn [rmeaning] in Hv. destruct (arithmetical_op op) as [o|] eqn:Eo; [|discriminate H]. destruct (mapM tr es) as [xs|] eqn:E; [|discriminate H]. cbn [bind] in H.
    assert (A : Forall2 (agrees rho) (map (fun b => rmeaning K U dict b eta) es) xs).
    { exact (children_agree (NArith op es) eta rho SV NR WT He es xs (fun e H => H) IH E). }
    unfold calculate in Hv. destruct (numbers K U _) as [ns|] eqn:En in Hv; [|discriminate Hv]. pose proof (numbers_are _ _ _ _ A En) as N. clear A En E.
    assert (Ho : (op = "-" /\ o = OpSub) \/ (op = "+" /\ o = OpAdd) \/ (op = "*" /\ o = OpMul) \/ (op = "/" /\ o = OpDiv)).
    { unfold arithmetical_op in Eo. destruct (String.eqb_spec op "-") as [-> |]; [injection Eo as <-; auto|]. destruct (String.eqb_spec op "+") as [-> |]; [injection Eo as <-; auto|].
      destruct (String.eqb_spec op "*") as [-> |]; [injection Eo as <-; auto|]. destruct (String.eqb_spec op "/") as [-> |]; [injection Eo as <-; auto|]. discriminate Eo. }
    assert (Ho' : o = OpAdd \/ o = OpSub \/ o = OpMul \/ o = OpDiv) by (destruct Ho as [[_ ->]|[[_ ->]|[[_ ->]|[_ ->]]]]; auto).
    destruct (read_arith_is _ _ _ _ _ _ Ho' H) as [(-> & f & u & Hx & s & ->)|[(-> & t & -> & ->)|(t & u & b & -> & Hbf & ->)]].
    + destruct Ho as [[_ Q]|[[_ Q]|[[-> _]|[_ Q]]]]; try discriminate Q. destruct Hx as [-> | ->]; cbn [map number_of] in N.
      * destruct ns as [|n1 [|n2 [|]]]; try discriminate N. injection N as <- Nu. cbn [String.eqb] in Hv. cbn in Hv. injection Hv as <-. cbn [meaning tsem cint arith]. rewrite Nu, f_int_0. destruct (fsem M f rho); do 2 f_equal; ring.
      * destruct ns as [|n1 [|n2 [|]]]; try discriminate N. injection N as Nu <-. cbn in Hv. injection Hv as <-. cbn [meaning tsem cint arith]. rewrite Nu, f_int_0. destruct (fsem M f rho); do 2 f_equal; ring.
    + destruct Ho as [[-> _]|[[_ Q]|[[_ Q]|[_ Q]]]]; try discriminate Q. cbn [map number_of] in N. destruct ns as [|n1 [|]]; try discriminate N. injection N as Nu. cbn in Hv. injection Hv as <-.
      cbn [meaning tsem map fint cint arith]. rewrite Nu, f_int_m1. cbn [mul_ strict2]. do 2 f_equal. ring.
    + cbn [map number_of] in N. destruct ns as [|n1 [|n2 [|]]]; try discriminate N. injection N as N1 N2. cbn [meaning tsem map].
      destruct Ho as [[-> ->]|[[-> ->]|[[-> ->]|[-> ->]]]]; cbn in Hbf; injection Hbf as <-; cbn [fint arith]; rewrite N1, N2; cbn [add_ sub_ mul_ div_ strict2]; cbn in Hv; try (injection Hv as <-; reflexivity).
      destruct (f_is0 K n2); [discriminate Hv|]. injection Hv as <-. reflexivity.
  - cbn [rmeaning] in Hv. destruct (functional op) as [[b n]|] eqn:Eo; [|discriminate H]. destruct (mapM tr es) as [xs|] eqn:E; [|discriminate H]. cbn [bind] in H.
    assert (A : Forall2 (agrees rho) (map (fun b => rmeaning K U dict b eta) es) xs).
    { exact (children_agree (NFunc op es) eta rho SV NR WT He es xs (fun e H => H) IH E). }
    destruct (read_func_is _ _ _ _ _ _ H) as (ts & -> & ->). destruct (elements M _) as [vs|] eqn:Ev in Hv; [|discriminate Hv]. pose proof (elements_are _ _ _ _ A Ev) as ->.
    assert (Hl : lookup op functions = Some b).
    { unfold functional in Eo. destruct (String.eqb_spec op "abs") as [-> |]; [injection Eo as <- _; reflexivity|]. destruct (String.eqb_spec op "Normal") as [-> |]; [injection Eo as <- _; reflexivity|].
      destruct (String.eqb_spec op "sqrt") as [-> |]; [injection Eo as <- _; reflexivity|]. destruct (String.eqb_spec op "pow") as [-> |]; [injection Eo as <- _; reflexivity|].
      destruct (String.eqb_spec op "exp") as [-> |]; [injection Eo as <- _; reflexivity|]. destruct (String.eqb_spec op "max") as [-> |]; [injection Eo as <- _; reflexivity|].
      destruct (String.eqb_spec op "Gamma") as [-> |]; [injection Eo as <- _; reflexivity|]. discriminate Eo. }
    match type of Hv with match ?k with _ => _ end = _ => replace k with (Some b) in Hv end. injection Hv as <-. reflexivity.
  - cbn [rmeaning] in Hv. destruct (logical op) eqn:Eo; [|discriminate H]. destruct (mapM tr es) as [xs|] eqn:E; [|discriminate H]. cbn [bind] in H.
    assert (A : Forall2 (agrees rho) (map (fun b => rmeaning K U dict b eta) es) xs).
    { exact (children_agree (NBool op es) eta rho SV NR WT He es xs (fun e H => H) IH E). }
    unfold connect in Hv. destruct (booleans M _) as [bs|] eqn:Eb in Hv; [|discriminate Hv]. destruct (read_bool_is _ _ _ H) as [(y & -> & -> & Hop)|(fs & g & -> & -> & Q)].
    + destruct es as [|e1 [|]]; cbn [map] in *; inversion A as [|? ? ? ? A1 A']; subst; try now inversion A'. destruct (rmeaning K U dict e1 eta) as [[|c]|]; try discriminate Eb. cbn in Eb. injection Eb as <-.
      rewrite <- (A1 _ eq_refl). destruct Hop as [-> | ->]; cbn in Hv; injection Hv as <-; now rewrite ?andb_true_r, ?orb_false_r.
    + pose proof (booleans_are _ _ _ _ A Eb) as ->. cbn [meaning]. destruct Q as [(-> & Q)|[(-> & Q)|[(-> & f & -> & Q)|(-> & f & h & -> & Q)]]].
      * rewrite (land_value _ _ _ _ Q). cbn in Hv. injection Hv as <-. f_equal. clear. induction fs as [|f fs IH]; [reflexivity|]. cbn [map forallb]. now rewrite IH.
      * rewrite (lor_value _ _ _ _ Q). cbn in Hv. injection Hv as <-. f_equal. clear. induction fs as [|f fs IH]; [reflexivity|]. cbn [map existsb]. now rewrite IH.
      * cbn in Q. injection Q as <-. cbn in Hv. injection Hv as <-. reflexivity.
      * unfold implies in Q. cbn [neg compound bind] in Q. change (lor [Comp Not [f]; h] false = Ok g) in Q. rewrite (lor_value _ _ _ _ Q). cbn in Hv. injection Hv as <-. cbn [existsb fsem]. now destruct (fsem M f rho), (fsem M h rho).
  - discriminate H.
Qed.
End Meaning.
