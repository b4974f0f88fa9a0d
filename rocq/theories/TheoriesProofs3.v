From Verif Require Import Base Syntax Semantics SemLemmas ListUtil ModelState ModelProofs Lang LangSpec LangProofs LangProofs2 LangProofs3 Theories TheoriesSpec TheoriesProofs TheoriesProofs2.
Local Open Scope string_scope.

Section Load.
Variable parse : bool -> string -> option Z.
Definition with_symbols (st : tlang) (l : lang) (xs : list string) : tlang := {| t_lang := l; t_theories := t_theories st; t_handlers := t_handlers st ++ xs; t_symbols := t_symbols st ++ xs |}.
Lemma own_ok st t : inv_tree (t_lang st) -> (forall n e, In (n, e) (own_names t) -> unused (t_lang st) n) -> (numerical t -> is_sort (t_lang st) "Real") -> (forall x, In x (symbols_of t) -> ~ In x (t_symbols st)) ->
  exists l', own_part parse t st = (with_symbols st l' (symbols_of t), Ok tt) /\ inv_tree l' /\ extends (t_lang st) l' (rev (own_names t)) /\
    (forall s p, parent_of l' s = Some p <-> (In (CStr s, ESort s) (own_names t) /\ In (s, p) sort_parents) \/ parent_of (t_lang st) s = Some p).
Proof.
  intros I U R F. assert (ND : NoDup (symbols_of t)) by (destruct t; repeat constructor; cbn; intros K; repeat (destruct K as [K|K]; [discriminate|]); contradiction).
  destruct t; cbn [own_part].
  - destruct (bool_new parse st I U) as (l' & E & I' & X & P). exists l'. split; [rewrite E; unfold with_lang, with_symbols; cbn [symbols_of]; now rewrite !app_nil_r|]. split; [exact I'|]. split; [exact X|].
    intros s p. rewrite P. assert (Un := unused_sort (t_lang st) "Boolean" I (U _ _ (or_introl eq_refl))).
    destruct (String.eqb_spec "Boolean" s) as [<-|N].
    + assert (Pn : parent_of (t_lang st) "Boolean" = None). { destruct (parent_of (t_lang st) "Boolean") as [q|] eqn:Q; [|reflexivity]. apply (parent_sort _ _ _ I) in Q. contradiction. } rewrite Pn. cbn. split.
      * intros K. injection K as <-. left. split; [now left|]. left. reflexivity.
      * intros [[_ [K|[K|[K|[K|[]]]]]]|K]; try discriminate. now injection K as <-.
    + split; [now right|]. intros [[K _]|K]; [|exact K]. cbn in K. destruct K as [K|[K|[K|[]]]]; try discriminate. injection K as <-. contradiction.
  - exists (t_lang st). unfold load_equality. rewrite (proj2 (has_sort_spec _ _) (object_sort _ I)). rewrite register_all_ok; [|now apply object_sort|exact ND|exact F].
    split; [reflexivity|]. split; [exact I|]. split; [apply extends_refl|]. intros s p. cbn. tauto.
  - specialize (R (or_introl eq_refl)). destruct (ite_new parse (t_lang st) I (U _ _ (or_introl eq_refl))) as (l' & E & I' & X & P). exists l'. unfold load_arithmetic. rewrite E. unfold lift, andthen. cbn [fst snd].
    rewrite register_all_ok; [|cbn [t_lang]|exact ND|exact F]; cbn [t_lang t_theories t_handlers t_symbols].
    + split; [reflexivity|]. split; [exact I'|]. split; [exact X|]. intros s p. unfold parent_of. rewrite P. cbn. split; [now right|]. intros [[[K|[]] _]|K]; [discriminate|exact K].
    + apply (extends_sort _ _ _ _ I I' X R). intros e K. cbn in K. destruct K as [K|[]]. discriminate.
  - exists (t_lang st). specialize (R (or_intror (or_introl eq_refl))). unfold load_special. rewrite register_all_ok; [|exact R|exact ND|exact F]. split; [reflexivity|]. split; [exact I|]. split; [apply extends_refl|]. intros s p. cbn. tauto.
  - exists (t_lang st). specialize (R (or_intror (or_intror (or_introl eq_refl)))). unfold load_random. rewrite register_all_ok; [|exact R|exact ND|exact F]. split; [reflexivity|]. split; [exact I|]. split; [apply extends_refl|]. intros s p. cbn. tauto.
Qed.
Lemma own_names_sorts t n e n' e' : In (n, e) (own_names t) -> In (n', e') arithmetic_sorts -> n <> n'.
Proof. intros H K. destruct t; cbn in H, K; decompose [or] H; decompose [or] K; try contradiction; repeat match goal with H : (_, _) = (_, _) |- _ => injection H as <- <- end; discriminate. Qed.
Lemma arith_names_In l t n e : In (n, e) (arith_names l t) <-> numerical t /\ ~ is_sort l "Integer" /\ In (n, e) arithmetic_sorts.
Proof.
  unfold arith_names. rewrite numerical_iff, not_has. destruct (requires_arithmetic_sorts t); cbn [andb]; [|split; [intros []|intros [K _]; discriminate]]. destruct (has_sort l "Integer"); cbn [negb]; [split; [intros []|intros (_ & K & _); discriminate]|].
  rewrite <- in_rev. tauto.
Qed.
Lemma load_ok st t : inv_tree (t_lang st) -> ~ In t (t_theories st) -> loadable (t_lang st) t -> (forall x, In x (symbols_of t) -> ~ In x (t_symbols st)) ->
  exists l', load_theory parse st t = ({| t_lang := l'; t_theories := t_theories st ++ [t]; t_handlers := t_handlers st ++ symbols_of t; t_symbols := t_symbols st ++ symbols_of t |}, Ok tt) /\ inv_tree l' /\
    (forall n e, lget l' n = Ok e <-> declared (t_lang st) t n e \/ lget (t_lang st) n = Ok e) /\
    (forall s p, parent_of l' s = Some p <-> (declared (t_lang st) t (CStr s) (ESort s) /\ In (s, p) sort_parents) \/ parent_of (t_lang st) s = Some p) /\
    (numerical t -> is_sort l' "Real" /\ is_sort l' "Integer").
Proof.
  intros I Nt [U S] F. unfold load_theory. assert (M : th_mem t (t_theories st) = false) by (unfold th_mem; destruct (in_dec theory_dec t (t_theories st)); [contradiction|reflexivity]). rewrite M.
  destruct (arith_ok parse st t I S) as (l1 & E1 & I1 & X1 & P1 & R1). unfold arith_part in E1. rewrite E1. unfold andthen at 1. cbn [fst snd].
  assert (Ua : forall n e, In (n, e) (arith_names (t_lang st) t) -> unused (t_lang st) n).
  { intros n e K. apply arith_names_In in K as (Nu & Ni & K). destruct (S Nu) as [[A _]|[_ A]]; [contradiction|]. exact (A n e K). }
  assert (NDa : NoDup (map fst (arith_names (t_lang st) t))). { unfold arith_names. destruct (_ && _); [|constructor]. repeat constructor; cbn; intros K; repeat (destruct K as [K|K]; [discriminate|]); contradiction. }
  pose proof (extends_rel _ _ _ NDa Ua X1) as Rel1.
  assert (U1 : forall n e, In (n, e) (own_names t) -> unused l1 n).
  { intros n e K. destruct (lget_cases l1 n) as [[e' G]|V]; [|exact V]. exfalso. apply Rel1 in G as [G|G]; [|apply (used_ok _ _ _ G); eauto]. apply arith_names_In in G as (_ & _ & G). now apply (own_names_sorts t n e n e' K G). }
  destruct (own_ok (with_lang st l1) t I1 U1 (fun Nu => proj1 (R1 Nu)) F) as (l2 & E2 & I2 & X2 & P2).
  change (match t with TBoolean => load_bool parse | TEquality => load_equality | TArithmetic => load_arithmetic parse | TSpecial => load_special | TRandom => load_random end) with (own_part parse t).
  rewrite E2. exists l2. split; [reflexivity|]. split; [exact I2|].
  assert (NDo : NoDup (map fst (rev (own_names t)))) by (destruct t; repeat constructor; cbn; intros K; repeat (destruct K as [K|K]; [discriminate|]); contradiction).
  assert (Uo : forall n e, In (n, e) (rev (own_names t)) -> unused l1 n) by (intros n e K; apply in_rev in K; eauto).
  pose proof (extends_rel _ _ _ NDo Uo X2) as Rel2. cbn [with_lang t_lang] in *.
  split; [|split].
  - intros n e. rewrite Rel2, <- in_rev, Rel1, arith_names_In. unfold declared. tauto.
  - intros s p. rewrite P2, P1, arith_names_In. unfold declared. tauto.
  - intros Nu. destruct (R1 Nu) as [A B]. split; apply (sort_lget l2 _ I2); apply Rel2; right; now apply sort_lget.
Qed.
Lemma own_keeps_symbols st t e : inv_tree (t_lang st) -> (forall x, In x (symbols_of t) -> ~ In x (t_symbols st)) -> snd (own_part parse t st) = Err e ->
  t_theories (fst (own_part parse t st)) = t_theories st /\ t_symbols (fst (own_part parse t st)) = t_symbols st /\ exists h, t_handlers (fst (own_part parse t st)) = (t_handlers st ++ h)%list.
Proof.
  intros I F E. assert (ND : NoDup (symbols_of t)) by (destruct t; repeat constructor; cbn; intros K; repeat (destruct K as [K|K]; [discriminate|]); contradiction).
  assert (G : forall st1 x xs, t_theories st1 = t_theories st -> t_handlers st1 = t_handlers st -> t_symbols st1 = t_symbols st -> symbols_of t = x :: xs -> forall s, snd (register_all s st1 (x :: xs)) = Err e ->
    t_theories (fst (register_all s st1 (x :: xs))) = t_theories st /\ t_symbols (fst (register_all s st1 (x :: xs))) = t_symbols st /\ exists h, t_handlers (fst (register_all s st1 (x :: xs))) = (t_handlers st ++ h)%list).
  { intros st1 x xs E1 E2 E3 Q s H. destruct (has_sort (t_lang st1) s) eqn:Hs.
    - apply has_sort_spec in Hs. rewrite register_all_ok in H; [discriminate|exact Hs|now rewrite <- Q|]. rewrite <- Q, E3. exact F.
    - apply not_has in Hs. rewrite (register_all_err s st1 x xs Hs). cbn [fst t_theories t_symbols t_handlers]. split; [exact E1|]. split; [exact E3|]. exists [x]. now rewrite E2. }
  assert (Z : exists h, t_handlers st = (t_handlers st ++ h)%list) by (exists []; now rewrite app_nil_r).
  destruct t; cbn [own_part] in *.
  - unfold load_bool, andthen, lift in *. cbn [fst snd t_lang] in *. destruct (snd (lstep parse (t_lang st) (OSort "Boolean" None))); [|cbn; auto]. cbn [fst snd t_lang] in *.
    destruct (snd (lstep parse (fst (lstep parse (t_lang st) (OSort "Boolean" None))) (OConst (CStr "True") "Boolean"))); cbn; auto.
  - unfold load_equality in *. destruct (has_sort _ _); [|cbn; auto]. now apply G.
  - unfold load_arithmetic, andthen, lift in *. cbn [fst snd] in *. destruct (snd (lstep parse (t_lang st) _)); [|cbn; auto]. now apply G.
  - unfold load_special in *. now apply G.
  - unfold load_random in *. now apply G.
Qed.
Lemma unused_dec l n : {unused l n} + {~ unused l n}.
Proof. unfold unused, lget. destruct (dget cname_eqb (l_index l) n); [right; discriminate|now left]. Qed.
Lemma some_used l (ps : list (cname * elem)) : (forall n e, In (n, e) ps -> unused l n) \/ exists n e e', In (n, e) ps /\ lget l n = Ok e'.
Proof.
  induction ps as [|[n e] ps IH]; [left; intros n e []|]. destruct (lget_cases l n) as [[e' G]|U]; [right; exists n, e, e'; split; [now left|exact G]|].
  destruct IH as [H|(n' & e0 & e' & H & G)]; [left|right; exists n', e0, e'; split; [now right|exact G]]. intros m x [K|K]; [now injection K as <- <-|eauto].
Qed.
Lemma load_err st t : inv_tree (t_lang st) -> ~ loadable (t_lang st) t -> (forall x, In x (symbols_of t) -> ~ In x (t_symbols st)) -> exists e, snd (load_theory parse st t) = Err e.
Proof.
  intros I NL F. unfold load_theory. destruct (th_mem t (t_theories st)); [eexists; reflexivity|].
  change (exists e, snd (andthen (arith_part parse st t) (fun st1 => andthen (own_part parse t st1) (fun st2 => ({| t_lang := t_lang st2; t_theories := (t_theories st2 ++ [t])%list; t_handlers := t_handlers st2; t_symbols := t_symbols st2 |}, Ok tt)))) = Err e).
  assert (D : sorts_ok (t_lang st) t \/ (numerical t /\ is_sort (t_lang st) "Integer" /\ ~ is_sort (t_lang st) "Real") \/ (numerical t /\ ~ is_sort (t_lang st) "Integer" /\ exists n e e', In (n, e) arithmetic_sorts /\ lget (t_lang st) n = Ok e')).
  { destruct (requires_arithmetic_sorts t) eqn:R; [|left; intros K; apply numerical_iff in K; congruence]. apply numerical_iff in R.
    destruct (has_sort (t_lang st) "Integer") eqn:Hi; [apply has_sort_spec in Hi|apply not_has in Hi].
    - destruct (has_sort (t_lang st) "Real") eqn:Hr; [apply has_sort_spec in Hr; left; intros _; left; auto|apply not_has in Hr; right; left; auto].
    - destruct (some_used (t_lang st) arithmetic_sorts) as [U|U]; [left; intros _; right; auto|right; right; auto]. }
  destruct D as [D|[(R & Hi & Hr)|(R & Hi & n & e & e' & Hin & Hg)]].
  - destruct (some_used (t_lang st) (own_names t)) as [U|(n & e & e' & Hin & Hg)]; [exfalso; apply NL; split; auto|].
    destruct (arith_ok parse st t I D) as (l1 & E1 & I1 & X1 & _). rewrite E1. unfold andthen at 1. cbn [fst snd].
    assert (G1 : lget l1 n = Ok e').
    { rewrite X1. assert (A : assoc (arith_names (t_lang st) t) n = None). { unfold assoc. destruct (dget cname_eqb _ n) as [e2|] eqn:E; [|reflexivity]. exfalso. apply (dget_In cname_eqb cname_eqb_eq) in E. apply arith_names_In in E as (_ & _ & E). now apply (own_names_sorts t n e n e2 Hin E). } now rewrite A. }
    destruct t; cbn [own_part]; try contradiction.
    + exists DuplicateDefinition. unfold andthen. now rewrite (bool_used parse (with_lang st l1) n e e' I1 Hin G1).
    + cbn in Hin. destruct Hin as [Hin|[]]. injection Hin as <- <-. unfold load_arithmetic. cbn [with_lang t_lang]. rewrite (ite_used parse l1 e' G1). eexists; reflexivity.
  - assert (E : arith_part parse st t = (st, Ok tt)). { unfold arith_part. apply has_sort_spec in Hi. now rewrite Hi, andb_false_r. } rewrite E. unfold andthen at 1. cbn [fst snd].
    assert (X : exists e, snd (own_part parse t st) = Err e).
    { destruct t; cbn [own_part]; [exfalso; destruct R as [R|[R|[R|[]]]]; discriminate|exfalso; destruct R as [R|[R|[R|[]]]]; discriminate|..].
      - unfold load_arithmetic, andthen. destruct (lstep parse (t_lang st) (OFun "ite" ["object"; "object"; "object"])) as [l1 r1] eqn:E1. unfold lift. cbn [fst snd]. destruct r1 as [[]|x]; [|exists x; reflexivity].
        change ("@" :: arithmetic_predicates ++ arithmetic_binary ++ arithmetic_unary)%list with ("@" :: tl (symbols_of TArithmetic))%list. rewrite register_all_err; [eexists; reflexivity|]. cbn [t_lang]. intros K. apply Hr.
        destruct (lget_cases (t_lang st) (CStr "ite")) as [[x G]|U]; [rewrite (ite_used parse _ _ G) in E1; discriminate|]. destruct (ite_new parse _ I U) as (l2 & E2 & I2 & X2 & _). rewrite E1 in E2. injection E2 as <-.
        apply (sort_lget _ _ I2) in K. rewrite X2 in K. now apply sort_lget.
      - unfold load_special. change (special_binary ++ special_unary)%list with ("min" :: tl (symbols_of TSpecial))%list. rewrite register_all_err; [eexists; reflexivity|exact Hr].
      - unfold load_random. change random_binary with ("normal" :: tl (symbols_of TRandom))%list. rewrite register_all_err; [eexists; reflexivity|exact Hr]. }
    destruct X as [x X]. exists x. unfold andthen. now rewrite X.
  - exists DuplicateDefinition. assert (E : snd (arith_part parse st t) = Err DuplicateDefinition).
    { unfold arith_part. apply numerical_iff in R. rewrite R. apply not_has in Hi. rewrite Hi. cbn [andb negb lift snd lstep]. eapply arith_used; eauto. now apply not_has. }
    unfold andthen. now rewrite E.
Qed.
Lemma load_twice st t : In t (t_theories st) -> load_theory parse st t = (st, Err DuplicateDefinition).
Proof. intros H. unfold load_theory, th_mem. destruct (in_dec theory_dec t (t_theories st)); [reflexivity|contradiction]. Qed.
Lemma arith_part_rest st t : t_theories (fst (arith_part parse st t)) = t_theories st /\ t_handlers (fst (arith_part parse st t)) = t_handlers st /\ t_symbols (fst (arith_part parse st t)) = t_symbols st.
Proof. unfold arith_part. destruct (_ && _); cbn; auto. Qed.
Lemma load_err_rest st t e : inv_tree (t_lang st) -> (forall x, In x (symbols_of t) -> ~ In x (t_symbols st)) -> snd (load_theory parse st t) = Err e ->
  t_theories (fst (load_theory parse st t)) = t_theories st /\ t_symbols (fst (load_theory parse st t)) = t_symbols st /\ exists h, t_handlers (fst (load_theory parse st t)) = (t_handlers st ++ h)%list.
Proof.
  intros I F. assert (Z : exists h, t_handlers st = (t_handlers st ++ h)%list) by (exists []; now rewrite app_nil_r). unfold load_theory. destruct (th_mem t (t_theories st)); [auto|].
  change (let k := andthen (arith_part parse st t) (fun st1 => andthen (own_part parse t st1) (fun st2 => ({| t_lang := t_lang st2; t_theories := (t_theories st2 ++ [t])%list; t_handlers := t_handlers st2; t_symbols := t_symbols st2 |}, Ok tt))) in
    snd k = Err e -> t_theories (fst k) = t_theories st /\ t_symbols (fst k) = t_symbols st /\ exists h, t_handlers (fst k) = (t_handlers st ++ h)%list). cbv zeta.
  destruct (arith_part_rest st t) as (A & B & C).
  assert (I1 : inv_tree (t_lang (fst (arith_part parse st t)))). { unfold arith_part. destruct (_ && _); [|exact I]. cbn [lift fst t_lang]. now apply lstep_inv. }
  destruct (arith_part parse st t) as [st1 [[]|x]]; unfold andthen at 1 3 5 7; cbn [fst snd] in *; [|rewrite A, B, C; auto].
  destruct (own_part parse t st1) as [st2 r] eqn:E2. pose proof (own_keeps_symbols st1 t) as K. rewrite E2 in K. unfold andthen. cbn [fst snd] in *. destruct r as [[]|x]; [discriminate|]. intros H. cbn [fst snd] in *.
  destruct (K x I1 ltac:(rewrite C; exact F) eq_refl) as (K1 & K2 & K3). rewrite <- A, <- B, <- C. auto.
Qed.

(** * Histories *)
Record tinv (st : tlang) : Prop := {
  ti_tree : inv_tree (t_lang st);
  ti_sym : forall x, In x (t_symbols st) <-> exists t, In t (t_theories st) /\ In x (symbols_of t);
  ti_hand : forall x, In x (t_symbols st) -> In x (t_handlers st);
  ti_sorts : forall t, In t (t_theories st) -> numerical t -> is_sort (t_lang st) "Real" /\ is_sort (t_lang st) "Integer" }.
Lemma symbols_disjoint t t' x : In x (symbols_of t) -> In x (symbols_of t') -> t = t'.
Proof. intros H K. destruct t, t'; try reflexivity; exfalso; cbn in H, K; decompose [or] H; decompose [or] K; try contradiction; congruence. Qed.
Lemma tinv_fresh st t : tinv st -> ~ In t (t_theories st) -> forall x, In x (symbols_of t) -> ~ In x (t_symbols st).
Proof. intros T N x Hx K. apply (ti_sym st T) in K as (t' & Ht & Hx'). now rewrite (symbols_disjoint t t' x Hx Hx') in N. Qed.
Lemma tinv0 : tinv tlang0.
Proof. constructor; cbn; try contradiction; [exact lang0_tree|]. intros x. split; [intros []|intros (t & [] & _)]. Qed.
Lemma load_inv st t : tinv st -> tinv (fst (load_theory parse st t)).
Proof.
  intros T. destruct (in_dec theory_dec t (t_theories st)) as [Hin|Hn]; [now rewrite (load_twice st t Hin)|]. pose proof (tinv_fresh st t T Hn) as F. assert (I := ti_tree st T).
  destruct (snd (load_theory parse st t)) as [u|e] eqn:E.
  - assert (L : loadable (t_lang st) t).
    { split.
      - intros n x Hx. destruct (unused_dec (t_lang st) n) as [U|U]; [exact U|]. exfalso. destruct (load_err st t I) as [y Y]; [|exact F|congruence]. intros [A _]. exact (U (A n x Hx)).
      - intros R. destruct (has_sort (t_lang st) "Integer") eqn:Hi; [apply has_sort_spec in Hi|apply not_has in Hi].
        + destruct (has_sort (t_lang st) "Real") eqn:Hr; [apply has_sort_spec in Hr; left; auto|apply not_has in Hr]. exfalso. destruct (load_err st t I) as [y Y]; [|exact F|congruence]. intros [_ B]. destruct (B R) as [[_ B1]|[B1 _]]; contradiction.
        + right. split; [exact Hi|]. intros n x Hx. destruct (unused_dec (t_lang st) n) as [U|U]; [exact U|]. exfalso. destruct (load_err st t I) as [y Y]; [|exact F|congruence]. intros [_ B]. destruct (B R) as [[B1 _]|[_ B1]]; [contradiction|]. exact (U (B1 n x Hx)). }
    destruct (load_ok st t I Hn L F) as (l' & Q & I' & N & P & R). rewrite Q. constructor; cbn [fst t_lang t_theories t_handlers t_symbols].
    + exact I'.
    + intros x. rewrite in_app_iff, (ti_sym st T). split.
      * intros [(t' & A & B)|B]; [exists t'|exists t]; rewrite in_app_iff; cbn; tauto.
      * intros (t' & A & B). apply in_app_or in A as [A|[<-|[]]]; [left; eauto|now right].
    + intros x. rewrite !in_app_iff. intros [H|H]; [left; now apply (ti_hand st T)|now right].
    + intros t' H Nu. apply in_app_or in H as [H|[<-|[]]]; [|auto]. destruct (ti_sorts st T t' H Nu) as [A B]. split; apply (sort_lget l' _ I'); apply N; right; now apply sort_lget.
  - destruct (load_err_rest st t e I F E) as (A & B & h & C). destruct (load_steps parse st t) as (os & Fo & Eo). destruct (steps_frame parse (t_lang st) os I Fo) as (I' & _ & S). rewrite <- Eo in *.
    constructor.
    + exact I'.
    + intros x. rewrite A, B. apply T.
    + intros x. rewrite B, C, in_app_iff. intros H. left. now apply (ti_hand st T).
    + intros t' H Nu. rewrite A in H. destruct (ti_sorts st T t' H Nu) as [H1 H2]. split; now apply S.
Qed.
Lemma loadable_dec st t : tinv st -> ~ In t (t_theories st) -> snd (load_theory parse st t) = Ok tt -> loadable (t_lang st) t.
Proof.
  intros T Hn E. assert (I := ti_tree st T). pose proof (tinv_fresh st t T Hn) as F. split.
  - intros n x Hx. destruct (unused_dec (t_lang st) n) as [U|U]; [exact U|]. exfalso. destruct (load_err st t I) as [y Y]; [|exact F|congruence]. intros [A _]. exact (U (A n x Hx)).
  - intros R. destruct (has_sort (t_lang st) "Integer") eqn:Hi; [apply has_sort_spec in Hi|apply not_has in Hi].
    + destruct (has_sort (t_lang st) "Real") eqn:Hr; [apply has_sort_spec in Hr; left; auto|apply not_has in Hr]. exfalso. destruct (load_err st t I) as [y Y]; [|exact F|congruence]. intros [_ B]. destruct (B R) as [[_ B1]|[B1 _]]; contradiction.
    + right. split; [exact Hi|]. intros n x Hx. destruct (unused_dec (t_lang st) n) as [U|U]; [exact U|]. exfalso. destruct (load_err st t I) as [y Y]; [|exact F|congruence]. intros [_ B]. destruct (B R) as [[B1 _]|[_ B1]]; [contradiction|]. exact (U (B1 n x Hx)).
Qed.
Lemma trun_inv ops : forallb tnative ops = true -> tinv (trun parse ops).
Proof.
  induction ops as [|o ops IH] using rev_ind; intros H; [exact tinv0|]. rewrite forallb_app in H. apply andb_true_iff in H as [H1 H2]. specialize (IH H1). rewrite trun_snoc.
  destruct o as [o|t]; cbn [tstep]; [|now apply load_inv]. cbn in H2. rewrite andb_true_r in H2. destruct (lstep_inv parse _ o (ti_tree _ IH) H2) as [I' _].
  constructor; cbn [lift fst t_lang t_theories t_handlers t_symbols]; [exact I'|apply IH|apply IH|].
  intros t Ht Nu. destruct (ti_sorts _ IH t Ht Nu) as [A B]. split; now apply lstep_parent_stable; [apply IH| |].
Qed.
End Load.
