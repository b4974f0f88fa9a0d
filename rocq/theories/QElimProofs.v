From Verif Require Import Base Syntax Semantics SemLemmas Build BuildProofs NnfProofs Subst SubstSpec SubstProofs FreeVarsProofs QElim.

Lemma create_compound_pred c (P : formula -> Prop) args g :
  (forall a b, P a -> P b -> P (Comp c [a; b])) -> Forall P args ->
  create_compound args c false = Ok g -> P g.
Proof.
  intros HP HF H. destruct args as [|a [|b args]].
  - discriminate.
  - simpl in H. inversion H; subst. now inversion HF.
  - cbn [create_compound] in H. unfold to_binary_tree in H.
    assert (HR : Forall P (rev (a :: b :: args))) by (apply Forall_rev; auto).
    destruct (rev (a :: b :: args)) as [|l [|p rest]]; try discriminate.
    inversion HR as [|? ? Hl HR']; subst. inversion HR' as [|? ? Hp Hrest]; subst.
    assert (G : forall acc, (forall x, acc = Ok x -> P x) ->
        forall y, fold_left (fun acc arg => let! phi := acc in compound c [arg; phi]) rest acc = Ok y -> P y).
    { clear - HP Hrest. induction Hrest as [|x rest Hx _ IH]; intros acc Hacc y Hy; cbn [fold_left] in Hy; [auto|].
      eapply IH; [|exact Hy]. intros z Hz. destruct acc as [w|]; cbn [bind] in Hz; [|discriminate].
      unfold compound in Hz. destruct (comp_arity_ok c (Datatypes.length [x; w])); inversion Hz; subst. apply HP; auto. }
    eapply G; [|exact H]. intros x Hx. unfold compound in Hx.
    destruct (comp_arity_ok c (Datatypes.length [p; l])); inversion Hx; subst. auto.
Qed.

(** Structures whose sorts hold exactly the values of the language's constants. *)
Definition constants_only (D : domains) : Prop :=
  forall s cs t, D s = Some cs -> In t cs -> exists c r, t = Cst c r.
Definition respects (D : domains) (M : structure) : Prop :=
  forall s cs d, D s = Some cs -> (In d (dom M s) <-> exists c r, In (Cst c r) cs /\ d = cint M c r).

(** Substitutions of constants preserve the bookkeeping predicates. *)
Definition const_subst (s : vsubst) : Prop := forall x t, In (x, t) s -> exists c r, t = Cst c r.

Lemma const_subst_no_clash s bs : const_subst s -> (forall b, In b bs -> forall t, ~ In (b, t) s) -> no_clash bs s = true.
Proof.
  intros Hc Hk. unfold no_clash. apply forallb_forall. intros b Hb. apply forallb_forall. intros [x t] Hin. simpl.
  destruct (Hc x t Hin) as (c & r & ->). simpl. rewrite andb_true_r, negb_true_iff. apply var_eqb_neq. intros ->.
  apply (Hk b Hb _ Hin).
Qed.

Lemma binders_subst_both s : const_subst s ->
  (forall t, no_clash (binders_t t) s = true -> binders_t (subst_term (of_vars s) t) = binders_t t) /\
  (forall f, no_clash (binders f) s = true -> binders (subst_formula (of_vars s) f) = binders f).
Proof.
  intros Hc.
  assert (Hm : forall (ts : list term),
    Forall (fun t => no_clash (binders_t t) s = true -> binders_t (subst_term (of_vars s) t) = binders_t t) ts ->
    no_clash (flat_map binders_t ts) s = true -> flat_map binders_t (map (subst_term (of_vars s)) ts) = flat_map binders_t ts).
  { intros ts HF H. rewrite no_clash_flat_map in H. rewrite Forall_forall in HF. rewrite !flat_map_concat_map, map_map. f_equal.
    apply map_ext_in. auto. }
  apply syntax_ind.
  - intros x r _. rewrite subst_var. destruct (lookup s (x, r)) eqn:E; [|reflexivity]. apply lookup_In in E.
    apply Hc in E as (c & r' & ->). reflexivity.
  - intros c r _. now rewrite subst_cst.
  - intros f ts HF H. rewrite subst_app. apply Hm; auto.
  - intros c a b H1 H2 H3 H. rewrite subst_ite. cbn [binders_t] in *. apply no_clash_app in H as [A H]. apply no_clash_app in H as [B C].
    rewrite H1, H2, H3; auto.
  - reflexivity.
  - reflexivity.
  - intros p ts HF H. rewrite subst_f_unfold. apply Hm; auto.
  - intros c fs HF H. rewrite subst_f_unfold. cbn [binders] in *. rewrite no_clash_flat_map in H. rewrite Forall_forall in HF.
    rewrite !flat_map_concat_map, map_map. f_equal. apply map_ext_in. auto.
  - intros q vs f _ Hf H. rewrite subst_f_unfold. cbn [binders] in *. apply no_clash_app in H as [A B].
    rewrite subst_binders_vars, Hf; auto.
Qed.
Definition binders_subst s Hc := proj2 (binders_subst_both s Hc).

Lemma no_shadowing_subst s : const_subst s ->
  forall f, no_clash (binders f) s = true -> no_shadowing f = true -> no_shadowing (subst_formula (of_vars s) f) = true.
Proof.
  intros Hc. refine (formula_ind_simple _ _ _ _ _ _); auto.
  - intros c fs HF H Hn. rewrite subst_f_unfold. cbn [binders no_shadowing] in *. rewrite no_clash_flat_map in H.
    rewrite Forall_forall in HF. rewrite forallb_forall in Hn. apply forallb_forall. intros g Hg.
    apply in_map_iff in Hg as (x & <- & Hx). auto.
  - intros q vs f Hf H Hn. rewrite subst_f_unfold. cbn [binders no_shadowing] in *. apply no_clash_app in H as [A B].
    apply andb_true_iff in Hn as [N1 N2]. rewrite subst_binders_vars, binders_subst, N1, Hf; auto.
Qed.
Lemma qdepth_subst s : forall f, qdepth (subst_formula (of_vars s) f) = qdepth f.
Proof.
  refine (formula_ind_simple _ _ _ _ _ _); auto.
  - intros c fs HF. rewrite subst_f_unfold. cbn [qdepth]. induction HF as [|g fs Hg _ IH]; simpl; [reflexivity|]. now rewrite Hg, IH.
  - intros q vs f Hf. rewrite subst_f_unfold. cbn [qdepth]. now rewrite Hf.
Qed.
Lemma sorts_subst s qs : forall f, no_clash (binders f) s = true -> quantified_sorts qs (subst_formula (of_vars s) f) = quantified_sorts qs f.
Proof.
  refine (formula_ind_simple _ _ _ _ _ _); auto.
  - intros c fs HF H. rewrite subst_f_unfold. cbn [quantified_sorts binders] in *. rewrite no_clash_flat_map in H.
    rewrite Forall_forall in HF. rewrite !flat_map_concat_map, map_map. f_equal. apply map_ext_in. auto.
  - intros q vs f Hf H. rewrite subst_f_unfold. cbn [quantified_sorts binders] in *. apply no_clash_app in H as [A B].
    rewrite subst_binders_vars, Hf; auto.
Qed.

(** The groundings of a list of variables. *)
Lemma enumerate_spec D vs : forallb is_var vs = true ->
  match enumerate_groundings D vs with
  | Ok inst => Forall2 (fun v cs => exists x s, v = Var x s /\ D s = Some cs) vs inst
  | Err e => e = UnableToGroundError /\ exists s, In s (map snd (vars_of vs)) /\ D s = None
  end.
Proof.
  induction vs as [|v vs IH]; intros H; [constructor|]. destruct v as [x s| | |]; try discriminate.
  cbn [enumerate_groundings]. cbn [vars_of flat_map app map snd].
  destruct (D s) as [cs|] eqn:E.
  - specialize (IH H). destruct (enumerate_groundings D vs) as [inst|e]; cbn [bind].
    + constructor; eauto.
    + destruct IH as (-> & r & Hr & Hd). split; [reflexivity|]. exists r. split; [now right|auto].
  - split; [reflexivity|]. exists s. split; [now left|auto].
Qed.

Lemma cardinality_zero inst : cardinality inst = 0 <-> In [] inst.
Proof.
  unfold cardinality.
  assert (G : forall n, fold_left (fun n (l : list term) => n * List.length l) inst n = 0 <-> n = 0 \/ In [] inst).
  { induction inst as [|l inst IH]; intros n; simpl; [tauto|]. rewrite IH. split.
    - intros [H|H]; [|auto]. apply Nat.eq_mul_0 in H as [H|H]; [auto|]. destruct l; [auto|discriminate].
    - intros [->|[->|H]]; auto. }
  rewrite G. split; [intros [H|H]; [discriminate|auto] | auto].
Qed.

Lemma product_length {A} (ls : list (list A)) v : In v (product ls) -> List.length v = List.length ls.
Proof.
  revert v; induction ls as [|l ls IH]; simpl; intros v H.
  - destruct H as [<-|[]]. reflexivity.
  - apply in_flat_map in H as (x & _ & H). apply in_map_iff in H as (w & <- & H). simpl. f_equal. auto.
Qed.
Lemma product_nonempty {A} (ls : list (list A)) : ~ In [] ls -> product ls <> [].
Proof.
  induction ls as [|l ls IH]; simpl; intros H; [discriminate|]. destruct l as [|x l]; [exfalso; auto|].
  simpl. intros E. apply app_eq_nil in E as [E _]. apply map_eq_nil in E. apply IH in E; auto.
Qed.
Lemma product_In {A} (ls : list (list A)) v : In v (product ls) <-> Forall2 (fun x l => In x l) v ls.
Proof.
  revert v; induction ls as [|l ls IH]; simpl; intros v.
  - split; [intros [<-|[]]; constructor | intros H; inversion H; auto].
  - rewrite in_flat_map. split.
    + intros (x & Hx & H). apply in_map_iff in H as (w & <- & H). constructor; [auto|]. now apply IH.
    + intros H. inversion H as [|x l' w ls' Hx Hw]; subst. exists x. split; [auto|]. apply in_map_iff. exists w. split; [auto|]. now apply IH.
Qed.

Lemma create_pairs_ok vs values : List.length values = List.length vs -> create_pairs vs values = Ok (combine vs values).
Proof.
  revert values; induction vs as [|v vs IH]; intros [|c values] H; simpl; try discriminate; [reflexivity|].
  rewrite IH by (simpl in H; lia). reflexivity.
Qed.
Lemma create_substitution_ok vs values : forallb is_var vs = true -> List.length values = List.length vs ->
  create_substitution vs values = Ok (of_vars (rev (combine (vars_of vs) values))).
Proof.
  intros Hv Hl. unfold create_substitution. rewrite create_pairs_ok by auto. cbn [bind]. unfold of_vars. do 2 f_equal.
  rewrite map_rev. f_equal. clear Hl. revert values. induction vs as [|v vs IH]; intros values; [reflexivity|].
  destruct v as [x s| | |]; try discriminate. destruct values as [|c values]; [reflexivity|].
  cbn [combine]. cbn [vars_of flat_map app combine map fst snd]. f_equal. apply IH. exact Hv.
Qed.

Lemma lookup_app s s' x : lookup (s ++ s') x = match lookup s x with Some t => Some t | None => lookup s' x end.
Proof. induction s as [|[y t] s IH]; simpl; [reflexivity|]. destruct (var_eqb y x); auto. Qed.

Lemma forallb_In_equiv {A B} (P : A -> bool) (v : B -> A) l l' :
  (forall d, In d l <-> exists c, In c l' /\ d = v c) -> forallb P l = forallb (fun c => P (v c)) l'.
Proof.
  intros H. apply eq_true_iff_eq. rewrite !forallb_forall. split.
  - intros Hp c Hc. apply Hp. apply H. eauto.
  - intros Hp d Hd. apply H in Hd as (c & Hc & ->). auto.
Qed.
Lemma existsb_In_equiv {A B} (P : A -> bool) (v : B -> A) l l' :
  (forall d, In d l <-> exists c, In c l' /\ d = v c) -> existsb P l = existsb (fun c => P (v c)) l'.
Proof.
  intros H. apply eq_true_iff_eq. rewrite !existsb_exists. split.
  - intros (d & Hd & Hp). apply H in Hd as (c & Hc & ->). eauto.
  - intros (c & Hc & Hp). exists (v c). split; [apply H; eauto|auto].
Qed.
Lemma forallb_flat_map {A B} (P : B -> bool) (f : A -> list B) l : forallb P (flat_map f l) = forallb (fun x => forallb P (f x)) l.
Proof. induction l as [|x l IH]; simpl; [reflexivity|]. now rewrite forallb_app, IH. Qed.
Lemma existsb_flat_map {A B} (P : B -> bool) (f : A -> list B) l : existsb P (flat_map f l) = existsb (fun x => existsb P (f x)) l.
Proof. induction l as [|x l IH]; simpl; [reflexivity|]. now rewrite existsb_app, IH. Qed.
Lemma forallb_map {A B} (P : B -> bool) (f : A -> B) l : forallb P (map f l) = forallb (fun x => P (f x)) l.
Proof. induction l as [|x l IH]; simpl; [reflexivity|]. now rewrite IH. Qed.
Lemma existsb_map {A B} (P : B -> bool) (f : A -> B) l : existsb P (map f l) = existsb (fun x => P (f x)) l.
Proof. induction l as [|x l IH]; simpl; [reflexivity|]. now rewrite IH. Qed.

Section Expansion.
  Context (D : domains) (M : structure) (HD : constants_only D) (HM : respects D M).

  Lemma dom_values s cs (e : env M) : D s = Some cs -> forall d, In d (dom M s) <-> exists t, In t cs /\ d = tsem M t e.
  Proof.
    intros E d. rewrite (HM s cs d E). split.
    - intros (c & r & Hin & ->). exists (Cst c r). auto.
    - intros (t & Hin & ->). destruct (HD s cs t E Hin) as (c & r & ->). exists c, r. auto.
  Qed.

  Lemma qsem_product q vs inst : Forall2 (fun v cs => exists x s, v = Var x s /\ D s = Some cs) vs inst ->
    forall (k : env M -> bool), (forall a b, env_eq a b -> k a = k b) -> forall e,
    qsem M q vs k e =
    match q with
    | QAll => forallb (fun values => k (env_subst (rev (combine (vars_of vs) values)) e)) (product inst)
    | QEx => existsb (fun values => k (env_subst (rev (combine (vars_of vs) values)) e)) (product inst)
    end.
  Proof.
    induction 1 as [|v cs vs inst (x & s & -> & E) HF2 IH]; intros k Hk e.
    - cbn [qsem]. destruct q; cbn [product forallb existsb combine vars_of flat_map rev]; rewrite ?orb_false_r, ?andb_true_r; apply Hk; intros y; reflexivity.
    - assert (Hv : forall values, Forall (fun t => exists c r, t = Cst c r) values ->
         forall t, env_eq (env_subst (rev (combine (vars_of vs) values)) (upd e (x, s) (tsem M t e)))
         (env_subst (rev (combine (vars_of (Var x s :: vs)) (t :: values))) e)).
      { intros values HF t y. unfold env_subst. change (vars_of (Var x s :: vs)) with ((x, s) :: vars_of vs). cbn [combine rev].
        rewrite lookup_app. destruct (lookup (rev (combine (vars_of vs) values)) y) as [u|] eqn:El.
        - apply lookup_In in El. apply in_rev in El. apply in_combine_r in El. rewrite Forall_forall in HF.
          destruct (HF u El) as (c & r & ->). reflexivity.
        - cbn [lookup]. unfold upd. destruct (var_eqb (x, s) y); reflexivity. }
      assert (Hval : forall values, In values (product inst) -> Forall (fun t => exists c r, t = Cst c r) values).
      { intros values Hin. apply Forall_forall. intros t Ht. apply product_In in Hin.
        destruct (Forall2_In_l _ _ _ _ Hin Ht) as (cs' & Hcs & Htc).
        assert (exists s', D s' = Some cs') as [s' Hs'].
        { clear - Hcs HF2. destruct (Forall2_In_r _ _ _ _ HF2 Hcs) as (v & _ & x & s & -> & Hs). eauto. }
        exact (HD s' cs' t Hs' Htc). }
      destruct q; cbn [qsem product].
      + rewrite existsb_flat_map. rewrite (existsb_In_equiv _ (fun t => tsem M t e) _ cs (dom_values s cs e E)).
        apply existsb_ext_in. intros t Ht. rewrite existsb_map, IH by auto. apply existsb_ext_in. intros values Hin. apply Hk. apply Hv; auto.
      + rewrite forallb_flat_map. rewrite (forallb_In_equiv _ (fun t => tsem M t e) _ cs (dom_values s cs e E)).
        apply forallb_ext_in. intros t Ht. rewrite forallb_map, IH by auto. apply forallb_ext_in. intros values Hin. apply Hk. apply Hv; auto.
  Qed.
End Expansion.

Lemma qe_unfold D m n f : qe D m n f =
    match f with
    | Top | Bot | Atom _ _ => Ok f
    | Comp c fs => let! fs' := mapM (qe D m n) fs in Ok (Comp c fs')
    | Quant q vs g =>
        if eliminated m q then
          match n with
          | O => Err OutOfFuel
          | S n' => let! h := expand D q vs g in qe D m n' h
          end
        else let! g' := qe D m n g in Ok (Quant q vs g')
    end.
Proof. destruct n, f; reflexivity. Qed.

(** What a call guarantees. *)
Definition qe_result (D : domains) (m : qmode) (f : formula) (r : res formula) : Prop :=
  match r with
  | Ok f' => wf f' = true /\ has_quantifier_in (eliminated m) f' = false /\
      (forall s, In s (quantified_sorts (eliminated m) f) -> exists c cs, D s = Some (c :: cs)) /\
      (forall M e, respects D M -> fsem M f' e = fsem M f e)
  | Err e => (e = TransformationError /\ exists s, In s (quantified_sorts (eliminated m) f) /\ D s = Some []) \/
             (e = UnableToGroundError /\ exists s, In s (quantified_sorts (eliminated m) f) /\ D s = None)
  end.

Lemma Forall2_map_right {A B} (R : A -> B -> Prop) (h : A -> B) l : Forall (fun x => R x (h x)) l -> Forall2 R l (map h l).
Proof. induction 1; simpl; constructor; auto. Qed.

Lemma qdepth_Comp_le c fs n : qdepth (Comp c fs) <= n <-> Forall (fun g => qdepth g <= n) fs.
Proof.
  cbn [qdepth]. induction fs as [|g fs IH]; simpl; [split; [constructor|lia]|]. split.
  - intros H. constructor; [lia|]. apply IH. lia.
  - intros H. inversion H as [|? ? H1 H2]; subst. apply IH in H2. lia.
Qed.

Lemma mapM_inst D m n fs : Forall (fun f => qe_result D m f (qe D m n f)) fs ->
  match mapM (qe D m n) fs with
  | Ok fs' => Forall2 (fun f f' => qe_result D m f (Ok f')) fs fs'
  | Err e => exists f, In f fs /\ qe_result D m f (Err e)
  end.
Proof.
  intros HF. destruct (mapM (qe D m n) fs) as [fs'|e] eqn:E.
  - apply mapM_Forall2 in E. rewrite Forall_forall in HF. refine (Forall2_impl_In _ _ _ _ _ E).
    intros x y Hx _ Hy. rewrite <- Hy. auto.
  - apply mapM_err in E as (x & Hx & Hy). exists x. split; [auto|]. rewrite <- Hy. rewrite Forall_forall in HF. auto.
Qed.

Lemma expand_spec D (HD : constants_only D) q vs g : wf (Quant q vs g) = true -> no_shadowing (Quant q vs g) = true ->
  match expand D q vs g with
  | Ok h => wf h = true /\ no_shadowing h = true /\ qdepth h <= qdepth g /\
      (forall s, In s (map snd (vars_of vs)) -> exists c cs, D s = Some (c :: cs)) /\
      (forall qs s, In s (quantified_sorts qs h) <-> In s (quantified_sorts qs g)) /\
      (forall M e, respects D M -> fsem M h e = fsem M (Quant q vs g) e)
  | Err e => (e = TransformationError /\ exists s, In s (map snd (vars_of vs)) /\ D s = Some []) \/
             (e = UnableToGroundError /\ exists s, In s (map snd (vars_of vs)) /\ D s = None)
  end.
Proof.
  intros Hw Hn. cbn [wf] in Hw. apply andb_true_iff in Hw as [Hw Hwg]. apply andb_true_iff in Hw as [_ Hv].
  cbn [no_shadowing] in Hn. apply andb_true_iff in Hn as [Hn1 Hn2].
  unfold expand. pose proof (enumerate_spec D vs Hv) as HE.
  destruct (enumerate_groundings D vs) as [inst|e]; cbn [bind]; [|right; exact HE].
  destruct (Nat.eqb (cardinality inst) 0) eqn:Ec.
  { left. split; [reflexivity|]. apply Nat.eqb_eq, cardinality_zero in Ec.
    destruct (Forall2_In_r _ _ _ _ HE Ec) as (v & Hin & x & s & -> & Hs). exists s. split; [|auto].
    apply in_map_iff. exists (x, s). split; [reflexivity|]. unfold vars_of. apply in_flat_map. exists (Var x s). split; [auto|now left]. }
  apply Nat.eqb_neq in Ec. rewrite cardinality_zero in Ec.
  set (sub := fun values => subst_formula (of_vars (rev (combine (vars_of vs) values))) g).
  assert (Hlen : forall values, In values (product inst) -> List.length values = List.length vs).
  { intros values Hin. apply product_length in Hin. rewrite Hin. clear - HE. induction HE; simpl; auto. }
  assert (Hconst : forall values, In values (product inst) -> const_subst (rev (combine (vars_of vs) values))).
  { intros values Hin x t Hx. apply in_rev in Hx. apply in_combine_r in Hx. apply product_In in Hin.
    destruct (Forall2_In_l _ _ _ _ Hin Hx) as (cs & Hcs & Htc).
    destruct (Forall2_In_r _ _ _ _ HE Hcs) as (v & _ & y & s & -> & Hs). exact (HD s cs t Hs Htc). }
  assert (Hnc : forall values, In values (product inst) -> no_clash (binders g) (rev (combine (vars_of vs) values)) = true).
  { intros values Hin. apply const_subst_no_clash; [auto|]. intros b Hb t Hbt. apply in_rev in Hbt. apply in_combine_l in Hbt.
    rewrite forallb_forall in Hn1. specialize (Hn1 b Hbt). rewrite negb_true_iff, mem_var_false in Hn1. auto. }
  assert (Hmap : mapM (fun values => let! s := create_substitution vs values in Ok (subst_formula s g)) (product inst) =
                 Ok (map sub (product inst))).
  { apply mapM_Forall2. apply Forall2_map_right. apply Forall_forall. intros values Hin.
    rewrite create_substitution_ok by auto. reflexivity. }
  rewrite Hmap. cbn [bind].
  assert (Hwfs : Forall (fun f => wf f = true) (map sub (product inst))).
  { apply Forall_forall. intros f Hf. apply in_map_iff in Hf as (values & <- & Hin). unfold sub. apply subst_wf; auto.
    intros x t Hx. destruct (Hconst values Hin x t Hx) as (c & r & ->). reflexivity. }
  assert (Hne : map sub (product inst) <> []).
  { intros E. apply map_eq_nil in E. exact (product_nonempty inst Ec E). }
  set (c := match q with QAll => And | QEx => Or end).
  assert (Hcr : match q with QAll => land (map sub (product inst)) false | QEx => lor (map sub (product inst)) false end =
                create_compound (map sub (product inst)) c false).
  { unfold c. destruct q, (map sub (product inst)); try congruence; reflexivity. }
  rewrite Hcr.
  destruct (create_compound_correct c (map sub (product inst)) false) as (h & Hh & Hwh & Hsem);
    [unfold c; destruct q; discriminate | auto | auto |].
  rewrite Hh. split; [auto|]. split; [|split; [|split; [|split]]].
  - eapply (create_compound_pred c (fun f => no_shadowing f = true)); [| |exact Hh].
    + intros a b Ha Hb. cbn [no_shadowing forallb]. now rewrite Ha, Hb.
    + apply Forall_forall. intros f Hf. apply in_map_iff in Hf as (values & <- & Hin). apply no_shadowing_subst; auto.
  - eapply (create_compound_pred c (fun f => qdepth f <= qdepth g)); [| |exact Hh].
    + intros a b Ha Hb. apply qdepth_Comp_le. repeat constructor; auto.
    + apply Forall_forall. intros f Hf. apply in_map_iff in Hf as (values & <- & Hin). unfold sub. rewrite qdepth_subst. lia.
  - intros s Hs. apply in_map_iff in Hs as ([x s'] & E & Hx). simpl in E. subst s'. unfold vars_of in Hx. apply in_flat_map in Hx as (v & Hv' & Hx).
    destruct v as [y r| | |]; simpl in Hx; try tauto. destruct Hx as [Hx|[]]. inversion Hx; subst.
    destruct (Forall2_In_l _ _ _ _ HE Hv') as (cs & Hcs & z & r' & Ez & Hd). inversion Ez; subst.
    destruct cs as [|t cs]; [contradiction|]. eauto.
  - intros qs s. eapply (create_compound_pred c (fun f => In s (quantified_sorts qs f) <-> In s (quantified_sorts qs g))); [| |exact Hh].
    + intros a b Ha Hb. cbn [quantified_sorts flat_map]. rewrite app_nil_r, in_app_iff. tauto.
    + apply Forall_forall. intros f Hf. apply in_map_iff in Hf as (values & <- & Hin). unfold sub. rewrite sorts_subst; auto. tauto.
  - intros M e HM. rewrite Hsem. cbn [fsem].
    rewrite (qsem_product D M HD HM q vs inst HE); [|intros a b Hab; apply fsem_ext; auto].
    unfold c. destruct q; cbn [conn_sem].
    + rewrite existsb_map. apply existsb_ext_in. intros values Hin. unfold sub. apply subst_lemma. auto.
    + rewrite forallb_map. apply forallb_ext_in. intros values Hin. unfold sub. apply subst_lemma. auto.
Qed.

Lemma qe_correct D (HD : constants_only D) m : forall n f,
  qdepth f <= n -> wf f = true -> no_shadowing f = true -> qe_result D m f (qe D m n f).
Proof.
  induction n as [|n IHn].
  - intros f. induction f as [ | | p ts | c fs IH | q vs f IH] using formula_ind_simple; intros Hd Hw Hn; rewrite qe_unfold.
    1-3: cbn [qe_result]; repeat split; auto; intros s [].
    2: cbn [qdepth] in Hd; lia.
    assert (HF : Forall (fun f => qe_result D m f (qe D m 0 f)) fs).
    { apply qdepth_Comp_le in Hd. cbn [wf] in Hw. apply andb_true_iff in Hw as [_ Hw]. cbn [no_shadowing] in Hn.
      rewrite Forall_forall in *. rewrite forallb_forall in Hw, Hn. intros g Hg. apply IH; auto. }
    clear IH. apply mapM_inst in HF. revert HF.
    destruct (mapM (qe D m 0) fs) as [fs'|e] eqn:E; cbn [bind]; intros HF.
    + cbn [qe_result]. assert (Hlen : List.length fs' = List.length fs) by (eapply mapM_length; eauto).
      cbn [wf] in *. rewrite Hlen. apply andb_true_iff in Hw as [Hw1 Hw2]. rewrite Hw1. split; [|split; [|split]].
      * apply forallb_forall. intros g' Hg'. destruct (Forall2_In_r _ _ _ _ HF Hg') as (g & _ & H & _). exact H.
      * cbn [has_quantifier_in]. apply not_true_iff_false. intros H. apply existsb_exists in H as (g' & Hg' & H).
        destruct (Forall2_In_r _ _ _ _ HF Hg') as (g & _ & _ & H' & _). congruence.
      * cbn [quantified_sorts]. intros s Hs. apply in_flat_map in Hs as (g & Hg & Hs).
        destruct (Forall2_In_l _ _ _ _ HF Hg) as (g' & _ & _ & _ & H & _). auto.
      * intros M e HM. cbn [fsem].
        assert (HF2 : Forall2 (fun g g' => fsem M g' e = fsem M g e) fs fs').
        { refine (Forall2_impl_In _ _ _ _ _ HF). intros x y _ _ (_ & _ & _ & H). auto. }
        destruct c; [apply forallb_Forall2; auto | apply existsb_Forall2; auto |].
        inversion HF2 as [|a b l l' H1 H2]; subst; auto. inversion H2; subst; auto. now rewrite H1.
    + destruct HF as (g & Hg & H). cbn [qe_result] in *. cbn [quantified_sorts].
      destruct H as [(-> & s & Hs & Hd')|(-> & s & Hs & Hd')]; [left|right]; (split; [reflexivity|]); exists s; (split; [apply in_flat_map; eauto|auto]).
  - intros f. induction f as [ | | p ts | c fs IH | q vs f IH] using formula_ind_simple; intros Hd Hw Hn; rewrite qe_unfold.
    1-3: cbn [qe_result]; repeat split; auto; intros s [].
    + assert (HF : Forall (fun f => qe_result D m f (qe D m (S n) f)) fs).
      { apply qdepth_Comp_le in Hd. cbn [wf] in Hw. apply andb_true_iff in Hw as [_ Hw]. cbn [no_shadowing] in Hn.
        rewrite Forall_forall in *. rewrite forallb_forall in Hw, Hn. intros g Hg. apply IH; auto. }
      clear IH. apply mapM_inst in HF. revert HF.
      destruct (mapM (qe D m (S n)) fs) as [fs'|e] eqn:E; cbn [bind]; intros HF.
      * cbn [qe_result]. assert (Hlen : List.length fs' = List.length fs) by (eapply mapM_length; eauto).
        cbn [wf] in *. rewrite Hlen. apply andb_true_iff in Hw as [Hw1 Hw2]. rewrite Hw1. split; [|split; [|split]].
        -- apply forallb_forall. intros g' Hg'. destruct (Forall2_In_r _ _ _ _ HF Hg') as (g & _ & H & _). exact H.
        -- cbn [has_quantifier_in]. apply not_true_iff_false. intros H. apply existsb_exists in H as (g' & Hg' & H).
           destruct (Forall2_In_r _ _ _ _ HF Hg') as (g & _ & _ & H' & _). congruence.
        -- cbn [quantified_sorts]. intros s Hs. apply in_flat_map in Hs as (g & Hg & Hs).
           destruct (Forall2_In_l _ _ _ _ HF Hg) as (g' & _ & _ & _ & H & _). auto.
        -- intros M e HM. cbn [fsem].
           assert (HF2 : Forall2 (fun g g' => fsem M g' e = fsem M g e) fs fs').
           { refine (Forall2_impl_In _ _ _ _ _ HF). intros x y _ _ (_ & _ & _ & H). auto. }
           destruct c; [apply forallb_Forall2; auto | apply existsb_Forall2; auto |].
           inversion HF2 as [|a b l l' H1 H2]; subst; auto. inversion H2; subst; auto. now rewrite H1.
      * destruct HF as (g & Hg & H). cbn [qe_result] in *. cbn [quantified_sorts].
        destruct H as [(-> & s & Hs & Hd')|(-> & s & Hs & Hd')]; [left|right]; (split; [reflexivity|]); exists s; (split; [apply in_flat_map; eauto|auto]).
    + cbn [qdepth] in Hd. destruct (eliminated m q) eqn:Eq.
      * pose proof (expand_spec D HD q vs f Hw Hn) as HX. destruct (expand D q vs f) as [h|e]; cbn [bind].
        -- destruct HX as (W & N & Q & S1 & S2 & Sem). specialize (IHn h ltac:(lia) W N).
           destruct (qe D m n h) as [h'|e]; cbn [qe_result] in *; cbn [quantified_sorts]; rewrite Eq.
           ++ destruct IHn as (A1 & A2 & A3 & A4). split; [auto|]. split; [auto|]. split.
              ** intros s Hs. apply in_app_iff in Hs as [Hs|Hs]; auto. apply A3. apply S2. auto.
              ** intros M e HM. rewrite A4, Sem; auto.
           ++ destruct IHn as [(-> & s & Hs & Hd')|(-> & s & Hs & Hd')]; [left|right]; (split; [reflexivity|]); exists s; (split; [apply in_app_iff; right; apply S2; auto|auto]).
        -- cbn [qe_result quantified_sorts]. rewrite Eq.
           destruct HX as [(-> & s & Hs & Hd')|(-> & s & Hs & Hd')]; [left|right]; (split; [reflexivity|]); exists s; (split; [apply in_app_iff; auto|auto]).
      * cbn [wf] in Hw. apply andb_true_iff in Hw as [Hw1 Hw2]. cbn [no_shadowing] in Hn. apply andb_true_iff in Hn as [Hn1 Hn2].
        specialize (IH ltac:(lia) Hw2 Hn2). destruct (qe D m (S n) f) as [f'|e]; cbn [bind qe_result] in *; cbn [quantified_sorts]; rewrite Eq; cbn [app].
        -- destruct IH as (A1 & A2 & A3 & A4). cbn [wf has_quantifier_in]. rewrite A1, A2, Eq, andb_true_r. repeat split; auto.
           intros M e HM. cbn [fsem]. apply qsem_ext; [|apply env_eq_refl]. intros a b Hab. rewrite A4 by auto. apply fsem_ext; auto.
        -- exact IH.
Qed.

Lemma remove_quantifiers_correct D m f : constants_only D -> wf f = true -> no_shadowing f = true ->
  qe_result D m f (remove_quantifiers D m f).
Proof. intros HD Hw Hn. apply qe_correct; auto. Qed.
