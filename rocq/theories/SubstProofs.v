From Verif Require Import Base Syntax Semantics SemLemmas Subst SubstSpec.

(** Syntactic equality tests decide equality. *)
Lemma eqb_spec_both : (forall t u, term_eqb t u = true <-> t = u) /\ (forall f g, formula_eqb f g = true <-> f = g).
Proof.
  assert (Hts : forall ts us, Forall (fun t => forall u, term_eqb t u = true <-> t = u) ts ->
     ((fix terms (ts us : list term) : bool :=
    match ts, us with [], [] => true | a :: ts', b :: us' => term_eqb a b && terms ts' us' | _, _ => false end) ts us = true <-> ts = us)).
  { induction ts as [|t ts IH]; intros [|u us] H; try (split; [discriminate|congruence]).
    - tauto.
    - inversion H as [|? ? H1 H2]; subst. rewrite andb_true_iff, H1, IH; auto.
      split; [intros [-> ->]; reflexivity | intros E; inversion E; auto]. }
  assert (Hfs : forall ts us, Forall (fun t => forall u, formula_eqb t u = true <-> t = u) ts ->
     ((fix formulas (ts us : list formula) : bool :=
    match ts, us with [], [] => true | a :: ts', b :: us' => formula_eqb a b && formulas ts' us' | _, _ => false end) ts us = true <-> ts = us)).
  { induction ts as [|t ts IH]; intros [|u us] H; try (split; [discriminate|congruence]).
    - tauto.
    - inversion H as [|? ? H1 H2]; subst. rewrite andb_true_iff, H1, IH; auto.
      split; [intros [-> ->]; reflexivity | intros E; inversion E; auto]. }
  apply syntax_ind.
  - intros x s [y r|d r|g us|d a' b']; simpl; try (split; [discriminate|congruence]).
    rewrite andb_true_iff, !String.eqb_eq. split; [intros [-> ->]; reflexivity | intros E; inversion E; auto].
  - intros c s [y r|d r|g us|d a' b']; simpl; try (split; [discriminate|congruence]).
    destruct (cname_eq_dec c d) as [->|n]; simpl; [rewrite String.eqb_eq|]; split; try discriminate; congruence.
  - intros f ts H [y r|d r|g us|d a' b']; simpl; try (split; [discriminate|congruence]).
    destruct (fsym_eq_dec f g) as [->|n]; simpl; [rewrite Hts by auto|]; split; try discriminate; congruence.
  - intros c a b Hc Ha Hb [y r|d r|g us|d a' b']; simpl; try (split; [discriminate|congruence]).
    rewrite !andb_true_iff, Hc, Ha, Hb. split; [intros [-> [-> ->]]; reflexivity | intros E; inversion E; auto].
  - intros [| | | |]; simpl; split; congruence.
  - intros [| | | |]; simpl; split; congruence.
  - intros p ts H [| |q us| |]; simpl; try (split; [discriminate|congruence]).
    destruct (psym_eq_dec p q) as [->|n]; simpl; [rewrite Hts by auto|]; split; try discriminate; congruence.
  - intros p ts H [| | |q us|]; simpl; try (split; [discriminate|congruence]).
    destruct (connective_eq_dec p q) as [->|n]; simpl; [rewrite Hfs by auto|]; split; try discriminate; congruence.
  - intros q vs f Hv Hf [| | | |r us g]; simpl; try (split; [discriminate|congruence]).
    destruct (quant_eq_dec q r) as [->|n]; simpl; [|split; [discriminate|congruence]].
    rewrite andb_true_iff, Hts, Hf by auto. split; [intros [-> ->]; reflexivity | intros E; inversion E; auto].
Qed.
Definition term_eqb_eq := proj1 eqb_spec_both.
Definition formula_eqb_eq := proj2 eqb_spec_both.
Lemma term_eqb_refl t : term_eqb t t = true. Proof. now apply term_eqb_eq. Qed.
Lemma formula_eqb_refl t : formula_eqb t t = true. Proof. now apply formula_eqb_eq. Qed.

Lemma mem_var_In x l : mem_var x l = true <-> In x l.
Proof.
  unfold mem_var. rewrite existsb_exists. split.
  - intros (y & Hy & E). apply var_eqb_eq in E. now subst.
  - intros H. exists x. split; [auto|apply var_eqb_refl].
Qed.
Lemma mem_var_false x l : mem_var x l = false <-> ~ In x l.
Proof. rewrite <- mem_var_In. destruct (mem_var x l); split; congruence. Qed.

(** Substitutions of variables as Python dictionaries. *)
Definition of_vars (s : vsubst) : subst :=
  {| sub_t := map (fun kv => (Var (fst (fst kv)) (snd (fst kv)), snd kv)) s; sub_f := [] |}.

Lemma get_t_of_vars s x r : get_t (sub_t (of_vars s)) (Var x r) = lookup s (x, r).
Proof.
  simpl. induction s as [|[[y q] v] s IH]; simpl; [reflexivity|]. rewrite IH. reflexivity.
Qed.
Lemma get_t_of_vars_none s t : is_var t = false -> get_t (sub_t (of_vars s)) t = None.
Proof.
  intros H. simpl. induction s as [|[[y q] v] s IH]; simpl; [reflexivity|].
  destruct t; try discriminate; apply IH.
Qed.
Lemma subst_var s x r : subst_term (of_vars s) (Var x r) = match lookup s (x, r) with Some t => t | None => Var x r end.
Proof. cbn [subst_term]. unfold visit_t. rewrite get_t_of_vars. destruct (lookup s (x, r)); reflexivity. Qed.
Lemma subst_nonvar s t : is_var t = false -> is_var (subst_term (of_vars s) t) = false.
Proof. intros H. destruct t; try discriminate; cbn [subst_term]; unfold visit_t; rewrite get_t_of_vars_none; reflexivity. Qed.
Lemma subst_cst s c r : subst_term (of_vars s) (Cst c r) = Cst c r.
Proof. cbn [subst_term]. unfold visit_t. now rewrite get_t_of_vars_none. Qed.
Lemma subst_app s f ts : subst_term (of_vars s) (App f ts) = App f (map (subst_term (of_vars s)) ts).
Proof. cbn [subst_term]. unfold visit_t. now rewrite get_t_of_vars_none. Qed.
Lemma subst_ite s c a b : subst_term (of_vars s) (Ite c a b) =
  Ite (subst_formula (of_vars s) c) (subst_term (of_vars s) a) (subst_term (of_vars s) b).
Proof. cbn [subst_term]. unfold visit_t. now rewrite get_t_of_vars_none. Qed.
Lemma subst_f_unfold s f : subst_formula (of_vars s) f =
    match f with
    | Top | Bot => f
    | Atom p ts => Atom p (map (subst_term (of_vars s)) ts)
    | Comp c fs => Comp c (map (subst_formula (of_vars s)) fs)
    | Quant q vs g => Quant q (map (subst_term (of_vars s)) vs) (subst_formula (of_vars s) g)
    end.
Proof. destruct f; reflexivity. Qed.

(** Coincidence: the value depends on the free variables only. *)
Definition agree {M} (P : var -> bool) (e e' : env M) : Prop := forall x, P x = true -> e x = e' x.
Lemma qsem_agree M q vs (k : env M -> bool) (P : var -> bool) :
  (forall a b, agree P a b -> k a = k b) ->
  forall e e', agree (fun x => negb (mem_var x (vars_of vs)) && P x) e e' -> qsem M q vs k e = qsem M q vs k e'.
Proof.
  intros Hk. induction vs as [|v vs IH]; intros e e' H.
  - apply Hk. intros x Hx. apply H. simpl. exact Hx.
  - destruct v as [x s|c s|f ts|c a b]; cbn [qsem]; try (apply IH; exact H).
    assert (Hd : forall d, qsem M q vs k (upd e (x, s) d) = qsem M q vs k (upd e' (x, s) d)).
    { intros d. apply IH. intros y Hy. unfold upd. destruct (var_eqb (x, s) y) eqn:E; [reflexivity|].
      apply H. change (vars_of (Var x s :: vs)) with ((x, s) :: vars_of vs).
      change (mem_var y ((x, s) :: vars_of vs)) with (var_eqb y (x, s) || mem_var y (vars_of vs)).
      apply andb_true_iff in Hy as [Hy1 Hy2]. rewrite Hy2, andb_true_r. rewrite negb_true_iff in *.
      rewrite Hy1, orb_false_r.
      apply var_eqb_neq. apply var_eqb_neq in E. congruence. }
    destruct q; [apply existsb_ext_in | apply forallb_ext_in]; intros; apply Hd.
Qed.

Lemma coincidence M :
  (forall t e e', agree (fun x => free_in_t x t) e e' -> tsem M t e = tsem M t e') /\
  (forall f e e', agree (fun x => free_in x f) e e' -> fsem M f e = fsem M f e').
Proof.
  assert (Hm : forall (ts : list term) e e', Forall (fun t => forall e e', agree (fun x => free_in_t x t) e e' -> tsem M t e = tsem M t e') ts ->
    agree (fun x => existsb (free_in_t x) ts) e e' -> map (fun u => tsem M u e) ts = map (fun u => tsem M u e') ts).
  { intros ts e e' HF H. rewrite Forall_forall in HF. apply map_ext_in. intros t Ht. apply HF; auto.
    intros x Hx. apply H. apply existsb_exists. eauto. }
  apply syntax_ind.
  - intros x s e e' H. simpl. apply H. simpl. apply var_eqb_refl.
  - reflexivity.
  - intros f ts HF e e' H. simpl. f_equal. apply Hm; auto.
  - intros c a b Hc Ha Hb e e' H. simpl.
    rewrite (Hc e e'), (Ha e e'), (Hb e e'); [reflexivity| | |]; intros x Hx; apply H; simpl; rewrite Hx, ?orb_true_r; reflexivity.
  - reflexivity.
  - reflexivity.
  - intros p ts HF e e' H. simpl. f_equal. apply Hm; auto.
  - intros c fs HF e e' H. rewrite Forall_forall in HF.
    assert (HE : forall g, In g fs -> fsem M g e = fsem M g e').
    { intros g Hg. apply HF; auto. intros x Hx. apply H. simpl. apply existsb_exists. eauto. }
    simpl. destruct c; [apply forallb_ext_in | apply existsb_ext_in | ]; auto.
    destruct fs as [|g [|]]; auto. f_equal. apply HE. now left.
  - intros q vs f _ Hf e e' H. cbn [fsem]. apply qsem_agree with (P := fun x => free_in x f); auto.
Qed.
Definition tsem_coincidence M := proj1 (coincidence M).
Definition fsem_coincidence M := proj2 (coincidence M).

(** Substitution lemma. *)
Lemma env_subst_upd M s (e : env M) b d :
  forallb (fun kv => negb (var_eqb (fst kv) b) && negb (free_in_t b (snd kv))) s = true ->
  env_eq (env_subst s (upd e b d)) (upd (env_subst s e) b d).
Proof.
  intros H x. change (upd (env_subst s e) b d x) with (if var_eqb b x then d else env_subst s e x).
  unfold env_subst. induction s as [|[y t] s IH]; [reflexivity|].
  cbn [forallb fst snd] in H. apply andb_true_iff in H as [H Hs]. apply andb_true_iff in H as [H1 H2].
  specialize (IH Hs). cbn [lookup]. rewrite negb_true_iff in H1, H2.
  destruct (var_eqb y x) eqn:E.
  - apply var_eqb_eq in E. subst y. apply var_eqb_neq in H1.
    assert (Hn : var_eqb b x = false) by (apply var_eqb_neq; congruence). rewrite Hn.
    apply tsem_coincidence. intros z Hz. unfold upd. destruct (var_eqb b z) eqn:E2; [|reflexivity].
    apply var_eqb_eq in E2. subst. congruence.
  - exact IH.
Qed.

Lemma subst_binders_qsem M q s (k k' : env M -> bool) vs :
  forallb (fun b => forallb (fun kv => negb (var_eqb (fst kv) b) && negb (free_in_t b (snd kv))) s) (vars_of vs) = true ->
  (forall e, k' e = k (env_subst s e)) ->
  (forall a b, env_eq a b -> k a = k b) ->
  forall e, qsem M q (map (subst_term (of_vars s)) vs) k' e = qsem M q vs k (env_subst s e).
Proof.
  intros Hb Hk Hext. induction vs as [|v vs IH]; intros e; [apply Hk|].
  destruct (is_var v) eqn:Ev.
  - destruct v as [x r| | |]; try discriminate. cbn [map].
    cbn [vars_of flat_map app forallb] in Hb. apply andb_true_iff in Hb as [Hb1 Hb2]. specialize (IH Hb2).
    assert (Hl : lookup s (x, r) = None).
    { clear - Hb1. induction s as [|[y t] s IH]; [reflexivity|]. cbn [forallb fst snd] in Hb1.
      apply andb_true_iff in Hb1 as [H Hs]. apply andb_true_iff in H as [H1 H2]. rewrite negb_true_iff in H1.
      cbn [lookup]. rewrite H1. auto. }
    rewrite subst_var, Hl. cbn [qsem].
    assert (E : forall d, qsem M q (map (subst_term (of_vars s)) vs) k' (upd e (x, r) d) =
                          qsem M q vs k (upd (env_subst s e) (x, r) d)).
    { intros d. rewrite IH. apply qsem_ext; auto. apply env_subst_upd; auto. }
    destruct q; [apply existsb_ext_in | apply forallb_ext_in]; intros; apply E.
  - assert (Hv : vars_of (v :: vs) = vars_of vs) by (destruct v; [discriminate|reflexivity..]).
    rewrite Hv in Hb. specialize (IH Hb).
    assert (E1 : forall k0 e0, qsem M q (v :: vs) k0 e0 = qsem M q vs k0 e0) by (destruct v; [discriminate|reflexivity..]).
    rewrite E1, <- IH. cbn [map]. pose proof (subst_nonvar s v Ev) as Hn.
    destruct (subst_term (of_vars s) v); [discriminate|reflexivity..].
Qed.

Lemma no_clash_app s l l' : no_clash (l ++ l') s = true <-> no_clash l s = true /\ no_clash l' s = true.
Proof. unfold no_clash. rewrite forallb_app, andb_true_iff. reflexivity. Qed.
Lemma no_clash_flat_map {A} (g : A -> list var) s l :
  no_clash (flat_map g l) s = true <-> forall x, In x l -> no_clash (g x) s = true.
Proof.
  unfold no_clash. rewrite forallb_forall. setoid_rewrite in_flat_map. split.
  - intros H x Hx. apply forallb_forall. intros b Hb. apply H. eauto.
  - intros H b (x & Hx & Hb). specialize (H x Hx). rewrite forallb_forall in H. auto.
Qed.

Lemma subst_lemma_both M s :
  (forall t e, no_clash (binders_t t) s = true -> tsem M (subst_term (of_vars s) t) e = tsem M t (env_subst s e)) /\
  (forall f e, no_clash (binders f) s = true -> fsem M (subst_formula (of_vars s) f) e = fsem M f (env_subst s e)).
Proof.
  assert (Hm : forall (ts : list term) e,
    Forall (fun t => forall e, no_clash (binders_t t) s = true -> tsem M (subst_term (of_vars s) t) e = tsem M t (env_subst s e)) ts ->
    no_clash (flat_map binders_t ts) s = true ->
    map (fun u => tsem M u e) (map (subst_term (of_vars s)) ts) = map (fun u => tsem M u (env_subst s e)) ts).
  { intros ts e HF H. rewrite map_map. rewrite Forall_forall in HF. apply map_ext_in. intros t Ht. apply HF; auto.
    eapply no_clash_flat_map in H; eauto. }
  apply syntax_ind.
  - intros x r e _. rewrite subst_var. unfold env_subst. cbn [tsem]. destruct (lookup s (x, r)); reflexivity.
  - intros c r e _. rewrite subst_cst. reflexivity.
  - intros f ts HF e H. rewrite subst_app. cbn [tsem]. f_equal. apply Hm; auto.
  - intros c a b Hc Ha Hb e H. rewrite subst_ite. cbn [tsem]. cbn [binders_t] in H.
    apply no_clash_app in H as [H1 H]. apply no_clash_app in H as [H2 H3].
    rewrite Hc, Ha, Hb; auto.
  - reflexivity.
  - reflexivity.
  - intros p ts HF e H. rewrite subst_f_unfold. cbn [fsem]. f_equal. apply Hm; auto.
  - intros c fs HF e H. rewrite subst_f_unfold. rewrite Forall_forall in HF. cbn [binders] in H.
    rewrite no_clash_flat_map in H. cbn [fsem].
    assert (HF2 : Forall2 (fun g g' => fsem M g' e = fsem M g (env_subst s e)) fs (map (subst_formula (of_vars s)) fs)).
    { clear - HF H. induction fs as [|g fs IH]; simpl; constructor.
      - apply HF; [now left|]. apply H. now left.
      - apply IH; intros; [apply HF | apply H]; auto; now right. }
    destruct c; [apply forallb_Forall2; exact HF2 | apply existsb_Forall2; exact HF2 |].
    destruct fs as [|g [|]]; auto. simpl. f_equal. apply HF; [now left|]. apply H; now left.
  - intros q vs f _ Hf e H. rewrite subst_f_unfold. cbn [fsem]. cbn [binders] in H.
    apply no_clash_app in H as [H1 H2].
    apply subst_binders_qsem; auto. intros a b Hab. apply fsem_ext; auto.
Qed.
Definition subst_lemma_t M s := proj1 (subst_lemma_both M s).
Definition subst_lemma M s := proj2 (subst_lemma_both M s).

(** The free variables of the result. *)
Lemma lookup_In s x t : lookup s x = Some t -> In (x, t) s.
Proof.
  induction s as [|[y u] s IH]; simpl; [discriminate|]. destruct (var_eqb y x) eqn:E; intros H; [|auto].
  apply var_eqb_eq in E. inversion H; subst. auto.
Qed.
Lemma no_clash_lookup_none s bs b : no_clash bs s = true -> In b bs -> lookup s b = None.
Proof.
  unfold no_clash. rewrite forallb_forall. intros H Hb. specialize (H b Hb). rewrite forallb_forall in H.
  destruct (lookup s b) eqn:E; [|reflexivity]. apply lookup_In in E. apply H in E. simpl in E.
  rewrite var_eqb_refl in E. discriminate.
Qed.
Lemma no_clash_lookup_free s bs b x t : no_clash bs s = true -> In b bs -> lookup s x = Some t -> free_in_t b t = false.
Proof.
  unfold no_clash. rewrite forallb_forall. intros H Hb E. specialize (H b Hb). rewrite forallb_forall in H.
  apply lookup_In in E. apply H in E. simpl in E. apply andb_true_iff in E as [_ E]. now rewrite negb_true_iff in E.
Qed.
Lemma subst_binders_vars s vs : no_clash (vars_of vs) s = true -> vars_of (map (subst_term (of_vars s)) vs) = vars_of vs.
Proof.
  intros H. induction vs as [|v vs IH]; [reflexivity|]. destruct (is_var v) eqn:Ev.
  - destruct v as [x r| | |]; try discriminate. cbn [map]. rewrite subst_var.
    rewrite (no_clash_lookup_none s (vars_of (Var x r :: vs)) (x, r)); [|exact H|now left].
    cbn [vars_of flat_map app]. f_equal. apply IH.
    change (vars_of (Var x r :: vs)) with ([(x, r)] ++ vars_of vs) in H. now apply no_clash_app in H as [_ H].
  - assert (E1 : forall v0 vs0, is_var v0 = false -> vars_of (v0 :: vs0) = vars_of vs0) by (intros [] ? ?; [discriminate|reflexivity..]).
    cbn [map]. rewrite !E1 in *; auto using subst_nonvar.
Qed.

(** [y] is free in the result exactly when it is free in the term replacing a free variable, or a free variable that is kept. *)
Definition free_after (s : vsubst) (fr : var -> bool) (y : var) : Prop :=
  exists x, fr x = true /\ match lookup s x with Some t => free_in_t y t = true | None => x = y end.

Lemma free_in_subst_both s :
  (forall t y, no_clash (binders_t t) s = true ->
     (free_in_t y (subst_term (of_vars s) t) = true <-> free_after s (fun x => free_in_t x t) y)) /\
  (forall f y, no_clash (binders f) s = true ->
     (free_in y (subst_formula (of_vars s) f) = true <-> free_after s (fun x => free_in x f) y)).
Proof.
  assert (Hm : forall (ts : list term) y,
    Forall (fun t => forall y, no_clash (binders_t t) s = true ->
     (free_in_t y (subst_term (of_vars s) t) = true <-> free_after s (fun x => free_in_t x t) y)) ts ->
    no_clash (flat_map binders_t ts) s = true ->
    (existsb (free_in_t y) (map (subst_term (of_vars s)) ts) = true <-> free_after s (fun x => existsb (free_in_t x) ts) y)).
  { intros ts y HF H. rewrite Forall_forall in HF. rewrite existsb_exists. rewrite no_clash_flat_map in H. unfold free_after. split.
    - intros (u & Hu & Hy). apply in_map_iff in Hu as (t & <- & Ht). apply HF in Hy as (x & Hx & Hy); auto.
      exists x. split; [apply existsb_exists; eauto | exact Hy].
    - intros (x & Hx & Hy). apply existsb_exists in Hx as (t & Ht & Hx).
      exists (subst_term (of_vars s) t). split; [now apply in_map|]. apply HF; auto. exists x; auto. }
  apply syntax_ind.
  - intros x r y _. rewrite subst_var. unfold free_after. split.
    + intros H. exists (x, r). split; [simpl; apply var_eqb_refl|]. destruct (lookup s (x, r)); auto.
      simpl in H. apply var_eqb_eq in H. auto.
    + intros (z & Hz & Hy). simpl in Hz. apply var_eqb_eq in Hz. subst z. destruct (lookup s (x, r)); auto. subst. simpl. apply var_eqb_refl.
  - intros c r y _. rewrite subst_cst. unfold free_after. split; [discriminate|]. intros (x & Hx & _). discriminate.
  - intros f ts HF y H. rewrite subst_app. apply Hm; auto.
  - intros c a b Hc Ha Hb y H. rewrite subst_ite. cbn [binders_t] in H.
    apply no_clash_app in H as [H1 H]. apply no_clash_app in H as [H2 H3].
    cbn [free_in_t]. rewrite !orb_true_iff, Hc, Ha, Hb by auto. unfold free_after. split.
    + intros [[(x & Hx & Hy)|(x & Hx & Hy)]|(x & Hx & Hy)]; exists x; rewrite Hx, ?orb_true_r; auto.
    + intros (x & Hx & Hy). rewrite !orb_true_iff in Hx. destruct Hx as [[Hx|Hx]|Hx]; eauto.
  - intros y _. simpl. split; [discriminate|]. intros (x & Hx & _). discriminate.
  - intros y _. simpl. split; [discriminate|]. intros (x & Hx & _). discriminate.
  - intros p ts HF y H. rewrite subst_f_unfold. apply Hm; auto.
  - intros c fs HF y H. rewrite subst_f_unfold. rewrite Forall_forall in HF. cbn [binders] in H.
    rewrite no_clash_flat_map in H. cbn [free_in]. rewrite existsb_exists. unfold free_after. split.
    + intros (u & Hu & Hy). apply in_map_iff in Hu as (t & <- & Ht). apply HF in Hy as (x & Hx & Hy); auto.
      exists x. split; [apply existsb_exists; eauto | exact Hy].
    + intros (x & Hx & Hy). apply existsb_exists in Hx as (t & Ht & Hx).
      exists (subst_formula (of_vars s) t). split; [now apply in_map|]. apply HF; auto. exists x; auto.
  - intros q vs f _ Hf y H. rewrite subst_f_unfold. cbn [binders] in H. apply no_clash_app in H as [H1 H2].
    cbn [free_in]. rewrite subst_binders_vars by auto. rewrite andb_true_iff, negb_true_iff, mem_var_false, Hf by auto.
    unfold free_after. split.
    + intros (Hn & x & Hx & Hy). exists x. rewrite Hx. split; [|exact Hy]. rewrite andb_true_r, negb_true_iff.
      apply mem_var_false. intros Hin. rewrite (no_clash_lookup_none s _ _ H1 Hin) in Hy. subst. auto.
    + intros (x & Hx & Hy). apply andb_true_iff in Hx as [Hn Hx]. rewrite negb_true_iff, mem_var_false in Hn.
      split; [|eauto]. intros Hin. destruct (lookup s x) eqn:E; [|subst; auto].
      rewrite (no_clash_lookup_free s _ _ _ _ H1 Hin E) in Hy. discriminate.
Qed.
Definition free_in_subst s := proj2 (free_in_subst_both s).
Definition free_in_t_subst s := proj1 (free_in_subst_both s).

(** Well-formedness is preserved. *)
Lemma subst_wf_both s (Hs : forall x t, In (x, t) s -> wf_term t = true) :
  (forall t, no_clash (binders_t t) s = true -> wf_term t = true -> wf_term (subst_term (of_vars s) t) = true) /\
  (forall f, no_clash (binders f) s = true -> wf f = true -> wf (subst_formula (of_vars s) f) = true).
Proof.
  assert (Hm : forall (ts : list term),
    Forall (fun t => no_clash (binders_t t) s = true -> wf_term t = true -> wf_term (subst_term (of_vars s) t) = true) ts ->
    no_clash (flat_map binders_t ts) s = true -> forallb wf_term ts = true -> forallb wf_term (map (subst_term (of_vars s)) ts) = true).
  { intros ts HF H Hw. rewrite Forall_forall in HF. rewrite no_clash_flat_map in H. rewrite forallb_forall in Hw.
    apply forallb_forall. intros u Hu. apply in_map_iff in Hu as (t & <- & Ht). auto. }
  apply syntax_ind.
  - intros x r _ _. rewrite subst_var. destruct (lookup s (x, r)) eqn:E; auto. apply lookup_In in E. eauto.
  - intros c r _ _. now rewrite subst_cst.
  - intros f ts HF H Hw. rewrite subst_app. apply Hm; auto.
  - intros c a b Hc Ha Hb H Hw. rewrite subst_ite. cbn [binders_t] in H.
    apply no_clash_app in H as [H1 H]. apply no_clash_app in H as [H2 H3].
    cbn [wf_term] in *. apply andb_true_iff in Hw as [Hw Hw3]. apply andb_true_iff in Hw as [Hw1 Hw2].
    rewrite Hc, Ha, Hb; auto.
  - reflexivity.
  - reflexivity.
  - intros p ts HF H Hw. rewrite subst_f_unfold. apply Hm; auto.
  - intros c fs HF H Hw. rewrite subst_f_unfold. rewrite Forall_forall in HF. cbn [binders] in H.
    rewrite no_clash_flat_map in H. cbn [wf] in *. rewrite map_length.
    apply andb_true_iff in Hw as [Hw1 Hw2]. rewrite Hw1. rewrite forallb_forall in Hw2.
    apply forallb_forall. intros u Hu. apply in_map_iff in Hu as (t & <- & Ht). auto.
  - intros q vs f _ Hf H Hw. rewrite subst_f_unfold. cbn [binders] in H. apply no_clash_app in H as [H1 H2].
    cbn [wf] in *. rewrite map_length. apply andb_true_iff in Hw as [Hw Hw3]. apply andb_true_iff in Hw as [Hw1 Hw2].
    rewrite Hw1, Hf by auto. rewrite andb_true_r. simpl.
    apply forallb_forall. intros u Hu. apply in_map_iff in Hu as (t & <- & Ht).
    rewrite forallb_forall in Hw2. specialize (Hw2 t Ht). destruct t as [x r| | |]; try discriminate.
    rewrite subst_var. rewrite (no_clash_lookup_none s (vars_of vs) (x, r)); auto.
    unfold vars_of. apply in_flat_map. exists (Var x r). split; [auto|now left].
Qed.
Definition subst_wf s Hs := proj2 (subst_wf_both s Hs).
