From Verif Require Import Base Syntax Semantics SemLemmas ListUtil ModelState ModelProofs Lang LangSpec LangProofs LangProofs2 LangProofs3 Theories TheoriesSpec TheoriesProofs.
Local Open Scope string_scope.

Lemma extends_rel l l' ps : NoDup (map fst ps) -> (forall n e, In (n, e) ps -> unused l n) -> extends l l' ps -> forall n e, lget l' n = Ok e <-> In (n, e) ps \/ lget l n = Ok e.
Proof.
  intros ND U X n e. rewrite X. unfold assoc. destruct (dget cname_eqb ps n) as [e'|] eqn:E.
  - apply (dget_Some_In cname_eqb cname_eqb_eq _ _ _ ND) in E. split.
    + intros H. injection H as <-. now left.
    + intros [H|H]; [|apply U in E; unfold unused in E; congruence]. apply (dget_Some_In cname_eqb cname_eqb_eq _ _ _ ND) in E. apply (dget_Some_In cname_eqb cname_eqb_eq _ _ _ ND) in H. congruence.
  - split; [now right|]. intros [H|H]; [|exact H]. apply (dget_Some_In cname_eqb cname_eqb_eq _ _ _ ND) in H. congruence.
Qed.
Lemma unused_iff l l' : (forall n e, lget l' n = Ok e <-> lget l n = Ok e) -> forall n, unused l' n <-> unused l n.
Proof.
  intros H n. destruct (lget_cases l n) as [[e G]|U].
  - split; intros K; [apply H in G|]; exfalso; eapply used_ok; eauto.
  - split; [auto|]. intros _. destruct (lget_cases l' n) as [[e G]|U']; [|exact U']. apply H in G. unfold unused in U. congruence.
Qed.

(** The sort Boolean *)
Section Step.
Variable parse : bool -> string -> option Z.
Lemma sort_new l : inv_tree l -> unused l (CStr "Boolean") -> exists l', lstep parse l (OSort "Boolean" None) = (l', Ok tt) /\ inv_tree l' /\ extends l l' [(CStr "Boolean", ESort "Boolean")] /\
  (forall s, parent_of l' s = if String.eqb "Boolean" s then Some "object" else parent_of l s) /\ (exists r, sget (l_sorts l') "Boolean" = Some r /\ s_kind r = KPlain).
Proof.
  intros I U. cbn [lstep]. unfold declare_sort. rewrite (proj2 (has_sort_spec l "object") (object_sort l I)).
  destruct (attach_new l "Boolean" plain_rec "object" I (object_sort l I) eq_refl (fun _ => eq_refl) U) as (l' & E & I' & X & P & S). exists l'. split; [exact E|]. split; [exact I'|]. split; [exact X|]. split; [exact P|].
  exists plain_rec. split; [|reflexivity]. rewrite S. unfold sget. rewrite (dget_dset String.eqb seqb). now rewrite String.eqb_refl.
Qed.
Lemma sort_used l e : inv_tree l -> lget l (CStr "Boolean") = Ok e -> lstep parse l (OSort "Boolean" None) = (l, Err DuplicateDefinition).
Proof. intros I H. cbn [lstep]. unfold declare_sort. rewrite (proj2 (has_sort_spec l "object") (object_sort l I)). exact (attach_used _ _ _ _ _ H). Qed.
Lemma const_used l c s r e : inv_tree l -> sget (l_sorts l) s = Some r -> s_kind r = KPlain -> lget l c = Ok e -> lstep parse l (OConst c s) = (l, Err DuplicateDefinition).
Proof.
  intros I Hs Hk H. cbn [lstep]. unfold declare_constant. rewrite Hs.
  assert (Hin : In (s, r) (l_sorts l)) by now apply (sget_In _ _ _ (ii_sorts l (it_index l I))). destruct (it_dom l I s r Hin) as (_ & B & _). destruct (B Hk) as [B1 _]. rewrite B1. now rewrite (check_used l _ _ e H).
Qed.
Definition with_lang (st : tlang) (l : lang) : tlang := {| t_lang := l; t_theories := t_theories st; t_handlers := t_handlers st; t_symbols := t_symbols st |}.
Lemma bool_new st : inv_tree (t_lang st) -> (forall n e, In (n, e) (own_names TBoolean) -> unused (t_lang st) n) ->
  exists l', load_bool parse st = (with_lang st l', Ok tt) /\ inv_tree l' /\ extends (t_lang st) l' (rev (own_names TBoolean)) /\
  (forall s, parent_of l' s = if String.eqb "Boolean" s then Some "object" else parent_of (t_lang st) s).
Proof.
  intros I U. set (l := t_lang st) in *. assert (U1 := U _ _ (or_introl eq_refl)). assert (U2 := U _ _ (or_intror (or_introl eq_refl))). assert (U3 := U _ _ (or_intror (or_intror (or_introl eq_refl)))).
  destruct (sort_new l I U1) as (l1 & E1 & I1 & X1 & P1 & r1 & S1 & K1).
  assert (V2 : unused l1 (CStr "True")) by (unfold unused; rewrite X1; exact U2).
  destruct (const_new parse l1 (CStr "True") "Boolean" r1 I1 S1 K1 V2) as (l2 & E2 & I2 & X2 & P2 & r2 & S2 & K2).
  assert (V3 : unused l2 (CStr "False")) by (unfold unused; rewrite X2; cbn [assoc]; rewrite X1; exact U3).
  destruct (const_new parse l2 (CStr "False") "Boolean" r2 I2 S2 K2 V3) as (l3 & E3 & I3 & X3 & P3 & _).
  exists l3. unfold load_bool. fold l. unfold lift at 1. rewrite E1. unfold andthen at 1. cbn [fst snd t_lang]. rewrite E2. unfold lift at 1, andthen at 1. cbn [fst snd t_lang]. rewrite E3.
  split; [reflexivity|]. split; [exact I3|]. split.
  - change (rev (own_names TBoolean)) with ([(CStr "False", EConst (CStr "False") "Boolean")] ++ ([(CStr "True", EConst (CStr "True") "Boolean")] ++ [(CStr "Boolean", ESort "Boolean")]))%list.
    apply (extends_trans l l2 l3); [|exact X3]. now apply (extends_trans l l1 l2).
  - intros s. rewrite <- P1. unfold parent_of. now rewrite P3, P2.
Qed.
Lemma bool_used st n e e' : inv_tree (t_lang st) -> In (n, e) (own_names TBoolean) -> lget (t_lang st) n = Ok e' -> snd (load_bool parse st) = Err DuplicateDefinition.
Proof.
  intros I Hin Hg. set (l := t_lang st) in *. unfold load_bool. fold l.
  destruct (lget_cases l (CStr "Boolean")) as [[e1 G1]|U1]; [now rewrite (sort_used l e1 I G1)|].
  destruct (sort_new l I U1) as (l1 & E1 & I1 & X1 & P1 & r1 & S1 & K1). rewrite E1. unfold lift at 1, andthen at 1. cbn [fst snd t_lang].
  destruct (lget_cases l (CStr "True")) as [[e2 G2]|U2]. { rewrite (const_used l1 (CStr "True") "Boolean" r1 e2 I1 S1 K1); [reflexivity|]. rewrite X1. exact G2. }
  assert (V2 : unused l1 (CStr "True")) by (unfold unused; rewrite X1; exact U2).
  destruct (const_new parse l1 (CStr "True") "Boolean" r1 I1 S1 K1 V2) as (l2 & E2 & I2 & X2 & P2 & r2 & S2 & K2). rewrite E2. unfold lift at 1, andthen at 1. cbn [fst snd t_lang].
  assert (Hn : n = CStr "False"). { destruct Hin as [H|[H|[H|[]]]]; injection H as <- <-; [now apply used_ok in Hg|now apply used_ok in Hg|reflexivity]. }
  subst n. rewrite (const_used l2 (CStr "False") "Boolean" r2 e' I2 S2 K2); [reflexivity|]. rewrite X2. cbn [assoc dget]. rewrite X1. exact Hg.
Qed.
(** Registering symbols *)
Lemma register_all_ok s st syms : is_sort (t_lang st) s -> NoDup syms -> (forall x, In x syms -> ~ In x (t_symbols st)) ->
  register_all s st syms = ({| t_lang := t_lang st; t_theories := t_theories st; t_handlers := t_handlers st ++ syms; t_symbols := t_symbols st ++ syms |}, Ok tt).
Proof.
  intros Hs. revert st Hs. induction syms as [|x r IH]; intros st Hs ND F; cbn [register_all].
  - rewrite !app_nil_r. now destruct st.
  - inversion ND as [|? ? Nx Nr]; subst. unfold register. rewrite (proj2 (has_sort_spec _ _) Hs).
    assert (M : str_mem x (t_symbols st) = false). { destruct (str_mem x (t_symbols st)) eqn:E; [|reflexivity]. apply existsb_exists in E as (y & Hy & E). apply seqb in E. subst. exfalso. apply (F y); [now left|exact Hy]. }
    rewrite M. unfold andthen. cbn [fst snd]. rewrite IH; [|exact Hs|exact Nr|].
    + cbn [t_lang t_theories t_handlers t_symbols]. now rewrite <- !app_assoc.
    + cbn [t_symbols]. intros y Hy K. apply in_app_or in K as [K|[->|[]]]; [|contradiction]. apply (F y); [now right|exact K].
Qed.
Lemma register_all_err s st x syms : ~ is_sort (t_lang st) s ->
  register_all s st (x :: syms) = ({| t_lang := t_lang st; t_theories := t_theories st; t_handlers := t_handlers st ++ [x]; t_symbols := t_symbols st |}, Err UndefinedElement).
Proof. intros Hs. cbn [register_all]. unfold register. destruct (has_sort (t_lang st) s) eqn:E; [apply has_sort_spec in E; contradiction|reflexivity]. Qed.

Lemma numerical_iff t : numerical t <-> requires_arithmetic_sorts t = true.
Proof. unfold numerical. destruct t; cbn; split; intros H; auto; try discriminate; try tauto; repeat (destruct H as [H|H]; [discriminate|]); contradiction. Qed.
Lemma not_has l s : ~ is_sort l s <-> has_sort l s = false.
Proof. rewrite <- has_sort_spec. destruct (has_sort l s); split; intros; try discriminate; auto. exfalso; auto. Qed.
(** The sorts, if they are needed *)
Definition arith_names (l : lang) (t : theory) : list (cname * elem) := if requires_arithmetic_sorts t && negb (has_sort l "Integer") then rev arithmetic_sorts else [].
Definition arith_part (st : tlang) (t : theory) := if requires_arithmetic_sorts t && negb (has_sort (t_lang st) "Integer") then lift st (lstep parse (t_lang st) OArith) else (st, Ok tt).
Definition own_part (t : theory) : tlang -> tlang * res unit := match t with TBoolean => load_bool parse | TEquality => load_equality | TArithmetic => load_arithmetic parse | TSpecial => load_special | TRandom => load_random end.
Definition sorts_ok (l : lang) (t : theory) : Prop := numerical t -> (is_sort l "Integer" /\ is_sort l "Real") \/ (~ is_sort l "Integer" /\ forall n e, In (n, e) arithmetic_sorts -> unused l n).
Lemma arith_parents (s : string) (o : option string) (p : string) : In s ["Real"; "Integer"; "Natural"] -> o = None ->
  (if String.eqb "Natural" s then Some "Integer" else if String.eqb "Integer" s then Some "Real" else if String.eqb "Real" s then Some "object" else o) = Some p <-> In (s, p) sort_parents.
Proof.
  intros H ->. unfold sort_parents. split.
  - destruct H as [<-|[<-|[<-|[]]]]; cbn; intros H; injection H as <-; tauto.
  - intros [K|[K|[K|[K|[]]]]]; injection K as <- <-; try reflexivity. cbn in H. exfalso. repeat (destruct H as [H|H]; [discriminate|]). contradiction.
Qed.
Lemma arith_ok st t : inv_tree (t_lang st) -> sorts_ok (t_lang st) t -> exists l', arith_part st t = (with_lang st l', Ok tt) /\ inv_tree l' /\ extends (t_lang st) l' (arith_names (t_lang st) t) /\
  (forall s p, parent_of l' s = Some p <-> (In (CStr s, ESort s) (arith_names (t_lang st) t) /\ In (s, p) sort_parents) \/ parent_of (t_lang st) s = Some p) /\ (numerical t -> is_sort l' "Real" /\ is_sort l' "Integer").
Proof.
  intros I H. unfold arith_part, arith_names. destruct (requires_arithmetic_sorts t) eqn:R; cbn [andb].
  2:{ exists (t_lang st). split; [unfold with_lang; now destruct st|]. split; [exact I|]. split; [apply extends_refl|]. split; [intros s p; cbn; tauto|]. intros K. apply numerical_iff in K. congruence. }
  apply numerical_iff in R. specialize (H R). destruct (has_sort (t_lang st) "Integer") eqn:Hi; cbn [negb].
  - apply has_sort_spec in Hi. destruct H as [[_ Hr]|[K _]]; [|contradiction].
    exists (t_lang st). split; [unfold with_lang; now destruct st|]. split; [exact I|]. split; [apply extends_refl|]. split; [intros s p; cbn; tauto|]. auto.
  - apply not_has in Hi. destruct H as [[K _]|[_ U]]; [contradiction|]. destruct (arith_new (t_lang st) I U) as (l' & E & I' & X & P). exists l'. cbn [lstep]. rewrite E. split; [reflexivity|]. split; [exact I'|]. split; [exact X|].
    assert (S : forall s, In s ["Real"; "Integer"; "Natural"] -> is_sort l' s).
    { intros s Hs. apply (sort_lget l' s I'). rewrite X. destruct Hs as [<-|[<-|[<-|[]]]]; reflexivity. }
    split; [|intros _; split; apply S; cbn; tauto].
    intros s p. rewrite P. destruct (in_dec string_dec s ["Real"; "Integer"; "Natural"]) as [Hs|Hs].
    + assert (Un : ~ is_sort (t_lang st) s). { apply unused_sort; [exact I|]. apply (U _ (ESort s)). destruct Hs as [<-|[<-|[<-|[]]]]; cbn; tauto. }
      assert (Pn : parent_of (t_lang st) s = None). { destruct (parent_of (t_lang st) s) as [q|] eqn:Q; [|reflexivity]. apply (parent_sort _ _ _ I) in Q. contradiction. }
      rewrite (arith_parents s _ p Hs Pn), Pn. split; [intros K; left; split; [|exact K]|intros [[_ K]|K]; [exact K|discriminate]].
      destruct Hs as [<-|[<-|[<-|[]]]]; cbn; tauto.
    + assert (N : String.eqb "Natural" s = false /\ String.eqb "Integer" s = false /\ String.eqb "Real" s = false).
      { split; [|split]; apply String.eqb_neq; intros <-; apply Hs; cbn; tauto. }
      destruct N as (-> & -> & ->). split; [now right|]. intros [[K _]|K]; [|exact K]. exfalso. apply Hs. cbn in K. repeat (destruct K as [K|K]; [injection K as <-; cbn; tauto|]). contradiction.
Qed.

(** Declarations keep what the other names mean *)
Definition keeps (l l' : lang) : Prop := forall n e, lget l n = Ok e -> lget l' n = Ok e.
Lemma keeps_refl l : keeps l l. Proof. intros n e H. exact H. Qed.
Lemma keeps_trans l1 l2 l3 : keeps l1 l2 -> keeps l2 l3 -> keeps l1 l3. Proof. intros H K n e G. auto. Qed.
Lemma keeps_index l l' b n e : check_name l b n = Ok tt -> l_index l' = dset cname_eqb (l_index l) n e -> keeps l l'.
Proof.
  intros C X m e' H. apply (proj2 (lget_index l m)) in H. unfold check_name in C. destruct b; [discriminate|]. unfold lget. rewrite X, cidx. destruct (cname_eqb n m) eqn:E; [|now rewrite H].
  apply cname_eqb_eq in E. subst m. rewrite H in C. discriminate.
Qed.
Lemma keeps_same l l' : l_index l' = l_index l -> keeps l l'. Proof. intros X n e. unfold lget. now rewrite X. Qed.
Lemma set_parent_index ow l s p : l_index (fst (set_parent ow l s p)) = l_index l.
Proof. unfold set_parent. destruct (sget (l_parent l) s) as [[|]|]; try destruct ow; try destruct (closure _ _ p); reflexivity. Qed.
Lemma attach_keeps l n r p : keeps l (fst (attach l n r p)).
Proof.
  unfold attach. destruct (check_name l (has_sort l n) (CStr n)) as [[]|] eqn:E; [|apply keeps_refl]. eapply keeps_index; [exact E|]. rewrite set_parent_index. reflexivity.
Qed.
Lemma lstep_keeps l o : inv_tree l -> native o = true -> (forall n, o <> Lang.ORemove n) -> keeps l (fst (lstep parse l o)).
Proof.
  intros I Hn Hr. destruct o as [n p|n p lb ub|c s|n args|n args|n|fuel t st| |n]; cbn [lstep]; try discriminate.
  - unfold declare_sort. destruct (match p with None => _ | Some q => _ end); [|apply keeps_refl]. apply attach_keeps.
  - unfold declare_interval. destruct (check_name l (has_sort l n) (CStr n)) as [[]|] eqn:E; [|apply keeps_refl]. destruct (retrieve l p); [|apply keeps_refl].
    destruct (negb _); [apply keeps_refl|]. destruct (negb _); [apply keeps_refl|]. destruct (Z.leb ub lb); [apply keeps_refl|]. eapply keeps_index; [exact E|]. rewrite set_parent_index. reflexivity.
  - unfold declare_constant. destruct (sget (l_sorts l) s) as [r|] eqn:Es; [|apply keeps_refl]. destruct (s_builtin r).
    { destruct (s_kind r); [apply keeps_refl|]. destruct (cast _ _ _ _ _); apply keeps_refl. }
    destruct (check_name l (has_constant l c) c) as [[]|] eqn:E; [|apply keeps_refl]. destruct (s_kind r).
    + destruct (extend _ l s c) as [l1|] eqn:X; [|apply keeps_refl]. apply extend_same in X. destruct X as (_ & _ & _ & _ & _ & _ & X & _). eapply keeps_index; [exact E|]. cbn [fst l_index set_index]. now rewrite <- X.
    + destruct (cast _ _ _ _ _); [|apply keeps_refl]. eapply keeps_index; [exact E|reflexivity].
  - unfold declare_predicate. destruct (check_name l (has_predicate l n) (CStr n)) as [[]|] eqn:E; [|apply keeps_refl]. destruct (mapM (retrieve l) args); [|apply keeps_refl]. eapply keeps_index; [exact E|reflexivity].
  - unfold declare_function. destruct (check_name l (has_function l n) (CStr n)) as [[]|] eqn:E; [|apply keeps_refl]. destruct (mapM (retrieve l) args) as [[|]|]; try apply keeps_refl. eapply keeps_index; [exact E|reflexivity].
  - exfalso. now apply (Hr n).
  - destruct (is_subtype fuel l t st) as [l' r] eqn:E. apply keeps_same. destruct (subtype_sound fuel l t st l' r I E) as (_ & _ & _ & _ & _ & X & _). cbn [fst]. exact X.
  - unfold attach_arithmetic. destruct (attach l "Real" _ "object") as [l1 r1] eqn:E1. assert (K1 : keeps l l1) by (pose proof (attach_keeps l "Real" (arith_sort true (- real_bound) real_bound) "object") as K; rewrite E1 in K; exact K).
    destruct r1; [|exact K1]. destruct (attach l1 "Integer" _ "Real") as [l2 r2] eqn:E2. assert (K2 : keeps l1 l2) by (pose proof (attach_keeps l1 "Integer" (arith_sort false (- (2 ^ 31 - 1)) (2 ^ 31 - 1)) "Real") as K; rewrite E2 in K; exact K).
    destruct r2; [|exact (keeps_trans _ _ _ K1 K2)]. eapply keeps_trans; [exact K1|]. eapply keeps_trans; [exact K2|]. apply attach_keeps.
Qed.
(** Loading a theory is a sequence of declarations *)
Definition declaration (o : lop) : Prop := native o = true /\ forall n, o <> Lang.ORemove n.
Definition steps (l : lang) (os : list lop) : lang := fold_left (fun l o => fst (lstep parse l o)) os l.
Lemma andthen_fst x k : exists st1, st1 = fst x /\ (fst (andthen x k) = st1 \/ fst (andthen x k) = fst (k st1)).
Proof. exists (fst x). split; [reflexivity|]. unfold andthen. destruct (snd x); auto. Qed.
Lemma register_lang s st syms : t_lang (fst (register_all s st syms)) = t_lang st /\ t_theories (fst (register_all s st syms)) = t_theories st.
Proof.
  revert st. induction syms as [|x r IH]; intros st; cbn [register_all]; [auto|]. unfold andthen, register. destruct (has_sort _ _); [destruct (str_mem _ _)|]; cbn [fst snd]; auto. destruct (IH {| t_lang := t_lang st; t_theories := t_theories st; t_handlers := t_handlers st ++ [x]; t_symbols := t_symbols st ++ [x] |}) as [H1 H2]. auto.
Qed.
Lemma load_steps st t : exists os, Forall declaration os /\ t_lang (fst (load_theory parse st t)) = steps (t_lang st) os.
Proof.
  assert (D0 : Forall declaration []) by constructor.
  assert (DA : declaration OArith) by (split; [reflexivity|discriminate]).
  assert (DS : declaration (OSort "Boolean" None)) by (split; [reflexivity|discriminate]).
  assert (DC : forall c, declaration (OConst c "Boolean")) by (intros c; split; [reflexivity|discriminate]).
  assert (DF : declaration (OFun "ite" ["object"; "object"; "object"])) by (split; [reflexivity|discriminate]).
  unfold load_theory. destruct (th_mem t (t_theories st)); [exists []; auto|].
  change (exists os, Forall declaration os /\ t_lang (fst (andthen (arith_part st t) (fun st1 => andthen (own_part t st1) (fun st2 => ({| t_lang := t_lang st2; t_theories := (t_theories st2 ++ [t])%list; t_handlers := t_handlers st2; t_symbols := t_symbols st2 |}, Ok tt))))) = steps (t_lang st) os).
  assert (A : exists os, Forall declaration os /\ t_lang (fst (arith_part st t)) = steps (t_lang st) os).
  { unfold arith_part. destruct (_ && _); [exists [OArith]; split; [auto|reflexivity]|exists []; auto]. }
  assert (O : forall st1, exists os, Forall declaration os /\ t_lang (fst (own_part t st1)) = steps (t_lang st1) os).
  { intros st1. destruct t; cbn [own_part].
    - unfold load_bool. set (o1 := OSort "Boolean" None) in *. set (o2 := OConst (CStr "True") "Boolean"). set (o3 := OConst (CStr "False") "Boolean"). assert (D2 : declaration o2) by apply DC. assert (D3 : declaration o3) by apply DC.
      unfold andthen, lift. cbn [fst snd t_lang]. destruct (snd (lstep parse (t_lang st1) o1)); [|exists [o1]; split; [auto|reflexivity]]. cbn [fst snd t_lang].
      destruct (snd (lstep parse (fst (lstep parse (t_lang st1) o1)) o2)); [|exists [o1; o2]; split; [auto|reflexivity]]. exists [o1; o2; o3]. split; [auto|reflexivity].
    - unfold load_equality. exists []. split; [auto|]. destruct (has_sort _ _); [apply register_lang|reflexivity].
    - unfold load_arithmetic. set (o1 := OFun "ite" ["object"; "object"; "object"]) in *. exists [o1]. split; [auto|]. unfold andthen, lift. cbn [fst snd t_lang].
      destruct (snd (lstep parse (t_lang st1) o1)); [|reflexivity]. rewrite (proj1 (register_lang _ _ _)). reflexivity.
    - unfold load_special. exists []. split; [auto|]. apply register_lang.
    - unfold load_random. exists []. split; [auto|]. apply register_lang. }
  destruct A as (os1 & F1 & E1). unfold andthen at 1. destruct (snd (arith_part st t)); [|exists os1; auto]. destruct (O (fst (arith_part st t))) as (os2 & F2 & E2).
  exists (os1 ++ os2)%list. split; [apply Forall_app; auto|]. unfold steps. rewrite fold_left_app. fold (steps (t_lang st) os1). rewrite <- E1. unfold andthen. destruct (snd (own_part t _)); exact E2.
Qed.
Lemma steps_frame l os : inv_tree l -> Forall declaration os -> inv_tree (steps l os) /\ keeps l (steps l os) /\ forall s, is_sort l s -> is_sort (steps l os) s /\ parent_of (steps l os) s = parent_of l s.
Proof.
  revert l. induction os as [|o os IH]; intros l I F; [split; [exact I|split; [apply keeps_refl|auto]]|]. inversion F as [|? ? [Dn Dr] F']; subst. destruct (lstep_inv parse l o I Dn) as [I' _].
  destruct (IH _ I' F') as (A & B & C). split; [exact A|]. split; [exact (keeps_trans _ _ _ (lstep_keeps l o I Dn Dr) B)|]. intros s Hs.
  destruct (lstep_parent_stable parse l o s I Dn Hs) as [P S]. destruct (C s S) as [C1 C2]. split; [exact C1|]. unfold steps in *. cbn [fold_left]. congruence.
Qed.
Lemma trun_snoc ops o : trun parse (ops ++ [o]) = fst (tstep parse (trun parse ops) o).
Proof. unfold trun. now rewrite fold_left_app. Qed.
(** The language of a history with theories is that of a history of declarations. *)
Lemma trun_lrun ops : forallb tnative ops = true -> exists os, forallb native os = true /\ t_lang (trun parse ops) = lrun parse os.
Proof.
  induction ops as [|o ops IH] using rev_ind; intros H; [exists []; auto|]. rewrite forallb_app in H. apply andb_true_iff in H as [H1 H2]. destruct (IH H1) as (os & N & E). rewrite trun_snoc.
  destruct o as [o|t]; cbn [tstep].
  - exists (os ++ [o])%list. split; [rewrite forallb_app, N; exact H2|]. rewrite lrun_snoc, <- E. reflexivity.
  - destruct (load_steps (trun parse ops) t) as (ds & F & E'). exists (os ++ ds)%list. split.
    + rewrite forallb_app, N. cbn [andb]. apply forallb_forall. intros x Hx. rewrite Forall_forall in F. now apply F.
    + rewrite E', E. unfold steps, lrun. now rewrite fold_left_app.
Qed.
Lemma trun_tree ops : forallb tnative ops = true -> inv_tree (t_lang (trun parse ops)).
Proof. intros H. destruct (trun_lrun ops H) as (os & N & ->). now apply lrun_tree. Qed.
End Step.
