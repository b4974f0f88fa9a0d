From Verif Require Import Base Syntax SemLemmas ModelState ModelProofs Lang LangSpec.
#[local] Open Scope string_scope.

Lemma cname_eqb_eq a b : cname_eqb a b = true <-> a = b.
Proof. unfold cname_eqb. destruct (cname_eq_dec a b); split; congruence. Qed.
Lemma seqb a b : String.eqb a b = true <-> a = b. Proof. apply String.eqb_eq. Qed.
Lemma str_mem_In x l : str_mem x l = true <-> In x l.
Proof. unfold str_mem. rewrite existsb_exists. split; [intros (y & H & E); apply seqb in E; now subst|intros H; exists x; split; auto; apply String.eqb_refl]. Qed.
Lemma cn_mem_In x l : cn_mem x l = true <-> In x l.
Proof. unfold cn_mem. rewrite existsb_exists. split; [intros (y & H & E); apply cname_eqb_eq in E; now subst|intros H; exists x; split; auto; now apply cname_eqb_eq]. Qed.
Lemma sget_dset {V} (d : list (string * V)) k v k' : sget (dset String.eqb d k v) k' = if String.eqb k k' then Some v else sget d k'.
Proof. apply (dget_dset String.eqb seqb). Qed.
Lemma dget_Some_In {K V} eqb (H : forall a b : K, eqb a b = true <-> a = b) (d : list (K * V)) k v :
  NoDup (map fst d) -> dget eqb d k = Some v <-> In (k, v) d.
Proof.
  intros N. split; [now apply dget_In|]. induction d as [|[a w] d IH]; simpl; [tauto|]. inversion N as [|? ? N1 N2]; subst.
  intros [E|Hin].
  - inversion E; subst. now rewrite (eqb_refl_ eqb H).
  - destruct (eqb a k) eqn:E; [|now apply IH]. apply H in E. subst. exfalso. apply N1. now apply (in_map fst) in Hin.
Qed.
Lemma sget_In {V} (d : list (string * V)) k v : NoDup (map fst d) -> sget d k = Some v <-> In (k, v) d.
Proof. apply (dget_Some_In String.eqb seqb). Qed.
Lemma sget_key {V} (d : list (string * V)) k : (exists v, sget d k = Some v) <-> In k (map fst d).
Proof.
  split.
  - intros [v H]. apply (dget_In String.eqb seqb) in H. now apply (in_map fst) in H.
  - intros H. destruct (sget d k) as [v|] eqn:E; [eauto|]. apply (dget_keys String.eqb seqb) in E. tauto.
Qed.
Lemma has_sort_spec l n : has_sort l n = true <-> is_sort l n.
Proof. unfold has_sort, is_sort. rewrite <- sget_key. destruct (sget (l_sorts l) n); split; eauto; try discriminate. intros [v H]. discriminate. Qed.

(** ** The name index (all histories) *)
Record inv_index (l : lang) : Prop := {
  ii_sorts : NoDup (map fst (l_sorts l));
  ii_preds : NoDup (map fst (l_preds l));
  ii_funs : NoDup (map fst (l_funs l));
  ii_consts : NoDup (map fst (l_consts l));
  ii_index : NoDup (map fst (l_index l));
  ii_spec : forall n e, dget cname_eqb (l_index l) n = Some e <-> defined_as l n e
}.
Lemma defined_as_eq l n e : inv_index l -> defined_as l n e <->
  match e with
  | ESort s => n = CStr s /\ has_sort l s = true
  | EPred p ts => n = CStr p /\ sget (l_preds l) p = Some ts
  | EFun f ts => n = CStr f /\ sget (l_funs l) f = Some ts
  | EConst c s => n = c /\ exists sym, dget cname_eqb (l_consts l) c = Some (sym, s)
  end.
Proof.
  intros I. destruct e; simpl.
  - rewrite has_sort_spec. unfold is_sort. tauto.
  - rewrite (sget_In _ _ _ (ii_preds l I)). tauto.
  - rewrite (sget_In _ _ _ (ii_funs l I)). tauto.
  - split; intros [E [sym H]]; (split; [auto|exists sym]); now apply (dget_Some_In cname_eqb cname_eqb_eq (l_consts l) c (sym, s) (ii_consts l I)).
Qed.
Lemma check_name_ok l b n : check_name l b n = Ok tt -> dget cname_eqb (l_index l) n = None.
Proof. unfold check_name. destruct b; [discriminate|]. destruct (dget cname_eqb (l_index l) n); [discriminate|reflexivity]. Qed.
Lemma cidx l n e k : dget cname_eqb (dset cname_eqb l n e) k = if cname_eqb n k then Some e else dget (V:=elem) cname_eqb l k.
Proof. apply (dget_dset cname_eqb cname_eqb_eq). Qed.

(** Index update lemma: one new name is defined, everything else is as before. *)
Lemma inv_index_add l l' n e :
  inv_index l -> dget cname_eqb (l_index l) n = None ->
  l_index l' = dset cname_eqb (l_index l) n e ->
  NoDup (map fst (l_sorts l')) -> NoDup (map fst (l_preds l')) -> NoDup (map fst (l_funs l')) -> NoDup (map fst (l_consts l')) ->
  (forall m x, defined_as l' m x <-> (m = n /\ x = e) \/ (m <> n /\ defined_as l m x)) -> inv_index l'.
Proof.
  intros I N E A B C D H. constructor; auto.
  - rewrite E. apply (dset_NoDup cname_eqb cname_eqb_eq). apply I.
  - intros m x. rewrite H, E, cidx. destruct (cname_eqb n m) eqn:Q.
    + apply cname_eqb_eq in Q. subst. split; [intros X; left; split; congruence|intros [[_ ->]|[X _]]; congruence].
    + assert (m <> n). { intros ->. assert (cname_eqb n n = true) by now apply cname_eqb_eq. congruence. }
      rewrite (ii_spec l I). split; [right; auto|]. intros [[? _]|[_ ?]]; [contradiction|auto].
Qed.
Lemma not_defined l n : inv_index l -> dget cname_eqb (l_index l) n = None -> forall e, ~ defined_as l n e.
Proof. intros I N e H. apply (ii_spec l I) in H. congruence. Qed.
Lemma In_dset_iff {V} (d : list (string * V)) k v k' v' : ~ In k (map fst d) -> In (k', v') (dset String.eqb d k v) <-> (k' = k /\ v' = v) \/ In (k', v') d.
Proof.
  induction d as [|[a w] d IH]; simpl; intros N.
  - intuition congruence.
  - destruct (String.eqb a k) eqn:E; [apply seqb in E; subst; tauto|]. simpl. rewrite IH by tauto. intuition congruence.
Qed.
Lemma In_cdset_iff {V} (d : list (cname * V)) k v k' v' : ~ In k (map fst d) -> In (k', v') (dset cname_eqb d k v) <-> (k' = k /\ v' = v) \/ In (k', v') d.
Proof.
  induction d as [|[a w] d IH]; simpl; intros N.
  - intuition congruence.
  - destruct (cname_eqb a k) eqn:E; [apply cname_eqb_eq in E; subst; tauto|]. simpl. rewrite IH by tauto. intuition congruence.
Qed.

Lemma register_sort_index l n r : inv_index l -> dget cname_eqb (l_index l) (CStr n) = None -> inv_index (register_sort l n r).
Proof.
  intros I N. apply (inv_index_add l _ (CStr n) (ESort n)); auto; simpl; try apply I.
  - apply (dset_NoDup String.eqb seqb). apply I.
  - assert (ND := not_defined l _ I N). intros m x. destruct x as [s|p ts|f ts|c s]; simpl.
    + rewrite (dset_keys String.eqb seqb). split.
      * intros [-> [->|Hin]]; [left; auto|right]. split; [|auto]. intros X; inversion X; subst. apply (ND (ESort n)). simpl; auto.
      * intros [[-> X]|[? [-> ?]]]; [inversion X; subst; auto|auto].
    + split; [intros [-> H]; right; split; [|auto]|intros [[_ X]|[_ H]]; [discriminate|auto]].
      intros X; inversion X; subst. apply (ND (EPred n ts)). simpl; auto.
    + split; [intros [-> H]; right; split; [|auto]|intros [[_ X]|[_ H]]; [discriminate|auto]].
      intros X; inversion X; subst. apply (ND (EFun n ts)). simpl; auto.
    + split; [intros [-> H]; right; split; [|auto]|intros [[_ X]|[_ H]]; [discriminate|auto]].
      intros ->. apply (ND (EConst (CStr n) s)). simpl; auto.
Qed.
(** [set_par] does not touch the name tables. *)
Lemma inv_index_ext l l' : l_preds l' = l_preds l -> l_funs l' = l_funs l -> l_consts l' = l_consts l -> l_index l' = l_index l ->
  map fst (l_sorts l') = map fst (l_sorts l) -> inv_index l -> inv_index l'.
Proof.
  intros P F C X S I. constructor; rewrite ?P, ?F, ?C, ?X, ?S; try apply I.
  intros n e. rewrite (ii_spec l I). destruct e; simpl; rewrite ?P, ?F, ?C, ?S; tauto.
Qed.
Lemma set_parent_index ow l s p : inv_index l -> inv_index (fst (set_parent ow l s p)).
Proof.
  intros I. unfold set_parent.
  destruct (sget (l_parent l) s) as [[q|]|]; [destruct ow; [|exact I]| |]; destruct (closure _ _ p); simpl; apply (inv_index_ext l); auto.
Qed.
Lemma attach_index l n r p : inv_index l -> inv_index (fst (attach l n r p)).
Proof.
  intros I. unfold attach. destruct (check_name l (has_sort l n) (CStr n)) as [[]|] eqn:E; [|exact I].
  apply set_parent_index, register_sort_index; auto. eapply check_name_ok; eauto.
Qed.
Lemma dset_keys_same {V} (d : list (string * V)) k v r : sget d k = Some r -> map fst (dset String.eqb d k v) = map fst d.
Proof.
  induction d as [|[a w] d IH]; cbn; [discriminate|]. destruct (String.eqb a k) eqn:E; [reflexivity|].
  intros H. cbn. f_equal. auto.
Qed.
(** What [extend] leaves alone *)
Definition same_but_sorts (l l' : lang) : Prop :=
  l_parent l' = l_parent l /\ l_anc l' = l_anc l /\ l_ind l' = l_ind l /\
  l_preds l' = l_preds l /\ l_funs l' = l_funs l /\ l_consts l' = l_consts l /\ l_index l' = l_index l /\ map fst (l_sorts l') = map fst (l_sorts l).
Lemma same_refl l : same_but_sorts l l. Proof. repeat split. Qed.
Lemma same_trans a b c : same_but_sorts a b -> same_but_sorts b c -> same_but_sorts a c.
Proof. unfold same_but_sorts. intros (A1 & A2 & A3 & A4 & A5 & A6 & A7 & A8) (B1 & B2 & B3 & B4 & B5 & B6 & B7 & B8). repeat split; congruence. Qed.
Lemma extend_same n : forall l s c l', extend n l s c = Ok l' -> same_but_sorts l l'.
Proof.
  induction n as [|n IH]; intros l s c l' H; simpl in H; [discriminate|].
  destruct (sget (l_sorts l) s) as [r|] eqn:E; [|discriminate]. destruct (s_kind r); [|inversion H; subst; apply same_refl].
  destruct (sget (l_anc l) s) as [a|]; [|discriminate].
  assert (G : forall a l0, fold_left (fun acc p => let! l' := acc in extend n l' p c) a (Ok l0) = Ok l' -> same_but_sorts l0 l').
  { induction a0 as [|p a0 IHa]; intros l0 H0; cbn [fold_left] in H0; [inversion H0; subst; apply same_refl|].
    cbn [bind] in H0. destruct (extend n l0 p c) as [l1|e] eqn:E1.
    - eapply same_trans; eauto.
    - exfalso. clear -H0. induction a0; simpl in H0; [discriminate|auto]. }
  apply G in H. eapply same_trans; [|exact H]. repeat split. simpl. eapply dset_keys_same; eauto.
Qed.
Lemma lstep_index parse l o : inv_index l -> inv_index (fst (lstep parse l o)).
Proof.
  intros I. destruct o as [n p|n p lb ub|c s|n args|n args|n|fuel t st| |n]; cbn [lstep].
  - unfold declare_sort. destruct p as [p|].
    + destruct (retrieve l p); [now apply attach_index|exact I].
    + destruct (has_sort l "object"); [now apply attach_index|exact I].
  - unfold declare_interval. destruct (check_name l (has_sort l n) (CStr n)) as [[]|] eqn:E; [|exact I].
    destruct (retrieve l p); [|exact I]. destruct (negb _); [exact I|]. destruct (negb _); [exact I|]. destruct (Z.leb ub lb); [exact I|].
    apply set_parent_index, register_sort_index; auto. eapply check_name_ok; eauto.
  - unfold declare_constant. destruct (sget (l_sorts l) s) as [r|]; [|exact I]. destruct (s_builtin r).
    { destruct (s_kind r); [exact I|]. destruct (cast _ _ _ _ _); exact I. }
    destruct (check_name l (has_constant l c) c) as [[]|] eqn:E; [|exact I]. apply check_name_ok in E.
    assert (Add : forall l' sym, same_but_sorts l l' ->
      inv_index (set_index (set_consts l' (dset cname_eqb (l_consts l') c (sym, s))) (dset cname_eqb (l_index l') c (EConst c s)))).
    { intros l' sym (P & A & B & C & D & F & G & H). apply (inv_index_add l _ c (EConst c s)); auto; simpl; rewrite ?C, ?D, ?F, ?G, ?H; try apply I; auto.
      - apply (dset_NoDup cname_eqb cname_eqb_eq). apply I.
      - assert (ND := not_defined l _ I E). assert (NC : ~ In c (map fst (l_consts l))).
        { intros Hin. apply in_map_iff in Hin as ([c' [sy s']] & X & Hin). simpl in X. subst. apply (ND (EConst c s')). simpl. eauto. }
        intros m x. destruct x as [s'|q ts|f ts|d s']; simpl; rewrite ?C, ?D, ?F, ?H.
        + split; [intros [-> Hs]; right; split; [|auto]|intros [[_ X]|[_ X]]; [discriminate|auto]]. intros <-. apply (ND (ESort s')). simpl; auto.
        + split; [intros [-> Hs]; right; split; [|auto]|intros [[_ X]|[_ X]]; [discriminate|auto]]. intros <-. apply (ND (EPred q ts)). simpl; auto.
        + split; [intros [-> Hs]; right; split; [|auto]|intros [[_ X]|[_ X]]; [discriminate|auto]]. intros <-. apply (ND (EFun f ts)). simpl; auto.
        + split.
          * intros [-> [sy Hin]]. apply In_cdset_iff in Hin; [|auto]. destruct Hin as [[-> X]|Hin]; [inversion X; subst; left; auto|].
            right. split; [|eauto]. intros ->. apply NC. now apply (in_map fst) in Hin.
          * intros [[-> X]|[X [-> [sy Hin]]]].
            -- inversion X; subst. split; [auto|]. exists sym. apply In_cdset_iff; auto.
            -- split; [auto|]. exists sy. apply In_cdset_iff; auto. }
    destruct (s_kind r).
    + destruct (extend _ l s c) as [l1|] eqn:Ex; [|exact I]. apply extend_same in Ex. now apply Add.
    + destruct (cast _ _ _ _ _) as [y|]; [|exact I]. apply Add. apply same_refl.
  - unfold declare_predicate. destruct (check_name l (has_predicate l n) (CStr n)) as [[]|] eqn:E; [|exact I]. apply check_name_ok in E.
    destruct (mapM (retrieve l) args) as [ts|]; [|exact I]. assert (ND := not_defined l _ I E).
    assert (NC : ~ In n (map fst (l_preds l))).
    { intros Hin. apply in_map_iff in Hin as ([n' ts'] & X & Hin). simpl in X. subst. apply (ND (EPred n ts')). simpl. auto. }
    apply (inv_index_add l _ (CStr n) (EPred n ts)); auto; simpl; try apply I.
    + apply (dset_NoDup String.eqb seqb). apply I.
    + intros m x. destruct x as [s'|q us|f us|d s']; simpl.
      * split; [intros [-> Hs]; right; split; [|auto]|intros [[_ X]|[_ X]]; [discriminate|auto]]. intros X; inversion X; subst. apply (ND (ESort n)). simpl; auto.
      * rewrite In_dset_iff by auto. split.
        -- intros [-> [[-> ->]|Hin]]; [left; auto|]. right. split; [|auto]. intros X; inversion X; subst. apply NC. now apply (in_map fst) in Hin.
        -- intros [[-> X]|[X [-> Hin]]]; [inversion X; subst; auto|auto].
      * split; [intros [-> Hs]; right; split; [|auto]|intros [[_ X]|[_ X]]; [discriminate|auto]]. intros X; inversion X; subst. apply (ND (EFun n us)). simpl; auto.
      * split; [intros [-> Hs]; right; split; [|auto]|intros [[_ X]|[_ X]]; [discriminate|auto]]. intros ->. apply (ND (EConst (CStr n) s')). simpl; auto.
  - unfold declare_function. destruct (check_name l (has_function l n) (CStr n)) as [[]|] eqn:E; [|exact I]. apply check_name_ok in E.
    destruct (mapM (retrieve l) args) as [[|t0 ts0]|]; try exact I. set (ts := t0 :: ts0). assert (ND := not_defined l _ I E).
    assert (NC : ~ In n (map fst (l_funs l))).
    { intros Hin. apply in_map_iff in Hin as ([n' ts'] & X & Hin). simpl in X. subst. apply (ND (EFun n ts')). simpl. auto. }
    apply (inv_index_add l _ (CStr n) (EFun n ts)); auto; simpl; try apply I.
    + apply (dset_NoDup String.eqb seqb). apply I.
    + intros m x. destruct x as [s'|q us|f us|d s']; simpl.
      * split; [intros [-> Hs]; right; split; [|auto]|intros [[_ X]|[_ X]]; [discriminate|auto]]. intros X; inversion X; subst. apply (ND (ESort n)). simpl; auto.
      * split; [intros [-> Hs]; right; split; [|auto]|intros [[_ X]|[_ X]]; [discriminate|auto]]. intros X; inversion X; subst. apply (ND (EPred n us)). simpl; auto.
      * rewrite In_dset_iff by auto. split.
        -- intros [-> [[-> ->]|Hin]]; [left; auto|]. right. split; [|auto]. intros X; inversion X; subst. apply NC. now apply (in_map fst) in Hin.
        -- intros [[-> X]|[X [-> Hin]]]; [inversion X; subst; auto|auto].
      * split; [intros [-> Hs]; right; split; [|auto]|intros [[_ X]|[_ X]]; [discriminate|auto]]. intros ->. apply (ND (EConst (CStr n) s')). simpl; auto.
  - unfold remove_symbol.
    assert (Fun : forall m e e', defined_as l m e -> defined_as l m e' -> e = e').
    { intros m e e' H1 H2. apply (ii_spec l I) in H1. apply (ii_spec l I) in H2. congruence. }
    assert (Hd : forall V (d : list (string * V)) k k' v, NoDup (map fst d) -> In (k', v) (ddel String.eqb d k) <-> k' <> k /\ In (k', v) d).
    { intros V d k k' v N. rewrite <- !(dget_Some_In String.eqb seqb) by (try apply (ddel_NoDup String.eqb); auto).
      rewrite (dget_ddel String.eqb seqb) by auto. destruct (String.eqb k k') eqn:Q.
      - apply seqb in Q. subst. split; [discriminate|tauto].
      - split; [|tauto]. split; [|auto]. intros ->. rewrite String.eqb_refl in Q. discriminate. }
    assert (Di : forall k e, dget cname_eqb (ddel cname_eqb (l_index l) (CStr n)) k = Some e <-> k <> CStr n /\ defined_as l k e).
    { intros k e. rewrite (dget_ddel cname_eqb cname_eqb_eq) by apply I. destruct (cname_eqb (CStr n) k) eqn:Q.
      - apply cname_eqb_eq in Q. subst. split; [discriminate|tauto].
      - rewrite (ii_spec l I). split; [|tauto]. split; [|auto]. intros ->. assert (cname_eqb (CStr n) (CStr n) = true) by now apply cname_eqb_eq. congruence. }
    destruct (has_predicate l n) eqn:HP; [|destruct (has_function l n) eqn:HF; [|exact I]].
    + unfold has_predicate in HP. destruct (sget (l_preds l) n) as [ts|] eqn:Q; [|discriminate]. apply (sget_In _ _ _ (ii_preds l I)) in Q.
      assert (D : defined_as l (CStr n) (EPred n ts)) by (simpl; auto).
      constructor; simpl; try apply I. { apply ddel_NoDup, I. } { apply ddel_NoDup, I. }
      intros m e. rewrite Di. destruct e as [s'|q us|f us|d s']; simpl; try rewrite Hd by apply I.
      * split; [tauto|]. intros [-> H]. repeat split; auto. intros X; inversion X; subst. specialize (Fun _ _ (ESort n) D). simpl in Fun. discriminate Fun; auto.
      * split; [|intros [-> [A B]]; repeat split; auto; congruence]. intros [A [-> B]]. repeat split; auto. congruence.
      * split; [tauto|]. intros [-> H]. repeat split; auto. intros X; inversion X; subst. specialize (Fun _ _ (EFun n us) D). simpl in Fun. discriminate Fun; auto.
      * split; [tauto|]. intros [-> H]. repeat split; auto. intros ->. specialize (Fun _ _ (EConst (CStr n) s') D). simpl in Fun. discriminate Fun; auto.
    + unfold has_function in HF. destruct (sget (l_funs l) n) as [ts|] eqn:Q; [|discriminate]. apply (sget_In _ _ _ (ii_funs l I)) in Q.
      assert (D : defined_as l (CStr n) (EFun n ts)) by (simpl; auto).
      constructor; simpl; try apply I. { apply ddel_NoDup, I. } { apply ddel_NoDup, I. }
      intros m e. rewrite Di. destruct e as [s'|q us|f us|d s']; simpl; try rewrite Hd by apply I.
      * split; [tauto|]. intros [-> H]. repeat split; auto. intros X; inversion X; subst. specialize (Fun _ _ (ESort n) D). simpl in Fun. discriminate Fun; auto.
      * split; [tauto|]. intros [-> H]. repeat split; auto. intros X; inversion X; subst. specialize (Fun _ _ (EPred n us) D). simpl in Fun. discriminate Fun; auto.
      * split; [|intros [-> [A B]]; repeat split; auto; congruence]. intros [A [-> B]]. repeat split; auto. congruence.
      * split; [tauto|]. intros [-> H]. repeat split; auto. intros ->. specialize (Fun _ _ (EConst (CStr n) s') D). simpl in Fun. discriminate Fun; auto.
  - assert (X : inv_index (fst (is_subtype fuel l t st))).
    { unfold is_subtype. destruct (retrieve l t); [|exact I]. destruct (retrieve l st); [|exact I]. destruct (String.eqb a a0); [exact I|].
      destruct (str_mem a0 (get_set (l_anc l) a)); [exact I|]. unfold connected. destruct (str_mem a0 (get_set (l_ind l) a)); [exact I|].
      destruct (search fuel l a0 _) as [[]|]; try exact I. simpl. apply (inv_index_ext l); auto. }
    destruct (is_subtype fuel l t st); exact X.
  - unfold attach_arithmetic. assert (X := attach_index l "Real" (arith_sort true (- real_bound) real_bound) "object" I).
    destruct (attach l "Real" _ "object") as [l1 [|]]; [|exact X]. simpl in X.
    assert (Y := attach_index l1 "Integer" (arith_sort false (- (2 ^ 31 - 1)) (2 ^ 31 - 1)) "Real" X).
    destruct (attach l1 "Integer" _ "Real") as [l2 [|]]; [|exact Y]. now apply attach_index.
  - unfold attach_foreign. destruct (check_name l (has_sort l n) (CStr n)) as [[]|] eqn:E; [|exact I]. apply register_sort_index; auto. eapply check_name_ok; eauto.
Qed.
Lemma lang0_index : inv_index lang0.
Proof.
  constructor; simpl; try (repeat constructor; simpl; tauto).
  intros n e. destruct (cname_eq_dec (CStr "object") n) as [<-|N].
  - unfold cname_eqb; simpl. split; [intros H; inversion H; subst; simpl; auto|]. destruct e; simpl; try tauto.
    + intros [H _]. now inversion H.
    + intros [_ [? []]].
  - unfold cname_eqb. destruct (cname_eq_dec (CStr "object") n); [contradiction|]. split; [discriminate|].
    destruct e; simpl; try tauto. { intros [-> [<-|[]]]. contradiction. } { intros [_ [? []]]. }
Qed.
Lemma lrun_snoc parse ops o : lrun parse (ops ++ [o]) = fst (lstep parse (lrun parse ops) o).
Proof. unfold lrun. now rewrite fold_left_app. Qed.
Lemma lrun_index parse ops : inv_index (lrun parse ops).
Proof.
  induction ops as [|o ops IH] using rev_ind; [apply lang0_index|]. rewrite lrun_snoc. now apply lstep_index.
Qed.
