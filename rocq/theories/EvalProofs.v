From Verif Require Import Base Syntax Semantics SemLemmas Subst SubstSpec SubstProofs ModelState ModelSpec ModelProofs Eval EvalSpec.

Section Unfold.
  Context (m : model).
  Definition eval_all := fix all (fs : list formula) : res bool :=
    match fs with [] => Ok true | g :: gs => match eval_f m g with Err e => Err e | Ok true => all gs | Ok false => Ok false end end.
  Definition eval_any := fix any (fs : list formula) : res bool :=
    match fs with [] => Ok false | g :: gs => match eval_f m g with Err e => Err e | Ok true => Ok true | Ok false => any gs end end.
  Lemma eval_app n d c ts : eval_term m (App (FU n d c) ts) =
    match mapM (evaluate_t m) ts with
    | Err e => Err e
    | Ok vs => match m_value m (FU n d c) vs with Ok v => Ok v | Err KeyError => Err UndefinedTerm | Err e => Err e end
    end.
  Proof. reflexivity. Qed.
  Lemma eval_atom n ss ts : eval_f m (Atom (PU n ss) ts) =
    match mapM (evaluate_t m) ts with Err e => Err e | Ok vs => Ok (m_holds m (PU n ss) vs) end.
  Proof. reflexivity. Qed.
  Lemma eval_batom b ts : eval_f m (Atom (PB b) ts) =
    match ts with
    | [x; y] => match mapM (evaluate_t m) ts with Err e => Err e | Ok [v; w] => compare_values b v w | Ok _ => Err IndexError end
    | _ => Err IndexError
    end.
  Proof. destruct ts as [|x [|y [|z ts]]]; reflexivity. Qed.
  Lemma eval_and fs : eval_f m (Comp And fs) = eval_all fs. Proof. reflexivity. Qed.
  Lemma eval_or fs : eval_f m (Comp Or fs) = eval_any fs. Proof. reflexivity. Qed.
End Unfold.

Lemma evaluate_t_ok m t v : evaluate_t m t = Ok v -> eval_term m t = Ok v.
Proof. destruct t; simpl; auto; discriminate. Qed.

Lemma name_cmp_compare b x y v : compare_names b x y = Ok v <-> name_cmp b x y = Some v.
Proof.
  assert (S : forall s r, (s <? r)%string = match (s ?= r)%string with Lt => true | _ => false end) by reflexivity.
  assert (S' : forall s r, (s <=? r)%string = match (s ?= r)%string with Gt => false | _ => true end)
    by (intros; unfold String.leb; destruct (s ?= r)%string; reflexivity).
  destruct b; simpl; try (destruct (cname_eq_dec x y); intuition congruence);
    destruct x as [a|a], y as [c|c]; try (split; discriminate);
    rewrite ?S, ?S'; unfold Z.ltb, Z.leb;
    rewrite ?(Z.compare_antisym a c), ?(String.compare_antisym c a);
    try destruct (Z.compare a c); try destruct (a ?= c)%string; simpl; intuition congruence.
Qed.
Lemma arith_value_arith b x s y r v : arith b (Cst (CInt x) s) (Cst (CInt y) r) = Ok v <->
  exists z, arith_value b x y = Some z /\ v = Cst (CInt z) int_sort.
Proof.
  assert (B : forall z, (Z.leb (- int_max) z && Z.leb z int_max)%bool = Z.leb (Z.abs z) (2 ^ 31 - 1)).
  { intros z. unfold int_max. destruct (Z.leb_spec (Z.abs z) (2 ^ 31 - 1)); [apply andb_true_iff; rewrite !Z.leb_le; lia|].
    apply andb_false_iff. rewrite !Z.leb_gt. lia. }
  unfold arith, arith_value, mk_integer.
  destruct b; try (split; [discriminate|intros (z & E & _); discriminate]); rewrite B;
    destruct (Z.leb _ _); split;
    try (intros (z & E & ->); inversion E; reflexivity); try discriminate;
    intros H; inversion H; eexists; split; reflexivity.
Qed.

Lemma eval_sound_both m (Hm : constant_valued m) :
  (forall t, wf_term t = true -> forall v, eval_term m t = Ok v ->
     is_constant v /\ forall M e, agrees M m -> tsem M t e = value_in M v) /\
  (forall f, wf f = true -> forall b, eval_f m f = Ok b -> forall M e, agrees M m -> fsem M f e = b).
Proof.
  assert (args : forall ts, Forall (fun t => wf_term t = true -> forall v, eval_term m t = Ok v ->
     is_constant v /\ forall M e, agrees M m -> tsem M t e = value_in M v) ts -> forallb wf_term ts = true ->
     forall vs, mapM (evaluate_t m) ts = Ok vs ->
     Forall is_constant vs /\ forall M e, agrees M m -> map (fun t => tsem M t e) ts = map (value_in M) vs).
  { induction 1 as [|t ts Ht _ IH]; intros Hw vs H; simpl in *; [inversion H; split; auto|].
    apply andb_true_iff in Hw as [Hw1 Hw2].
    destruct (evaluate_t m t) as [v|] eqn:E; [|discriminate]. destruct (mapM (evaluate_t m) ts) as [ws|]; [|discriminate].
    inversion H; subst. apply evaluate_t_ok in E. destruct (Ht Hw1 v E) as [C1 C2]. destruct (IH Hw2 ws eq_refl) as [D1 D2].
    split; [constructor; auto|]. intros M e A. simpl. now rewrite C2, D2. }
  apply syntax_ind.
  - intros x s _ v H. discriminate.
  - intros c s _ v H. inversion H; subst. split; [now exists c, s|]. reflexivity.
  - intros [b|n d c] ts Hts Hw v H.
    + cbn [eval_term] in H. destruct ts as [|x [|y [|]]]; try discriminate.
      destruct (eval_term m x) as [vx|] eqn:Ex; [|discriminate]. destruct (eval_term m y) as [vy|] eqn:Ey; [|discriminate].
      inversion Hts as [|? ? Hx Hts']; subst. inversion Hts' as [|? ? Hy _]; subst. cbn [wf_term forallb] in Hw.
      rewrite !andb_true_iff in Hw. destruct Hw as (Hw1 & Hw2 & _).
      destruct (Hx Hw1 _ Ex) as [_ Sx]. destruct (Hy Hw2 _ Ey) as [_ Sy].
      unfold arith in H. destruct vx as [|[|a] s| |]; try discriminate. destruct vy as [|[|a'] s'| |]; try discriminate.
      change (arith b (Cst (CInt a) s) (Cst (CInt a') s') = Ok v) in H. apply arith_value_arith in H as (z & Ez & ->).
      split; [eexists; eexists; reflexivity|]. intros M e A. cbn [tsem map]. rewrite Sx, Sy by auto. cbn [value_in].
      now apply agree_arith with (m := m).
    + rewrite eval_app in H. destruct (mapM (evaluate_t m) ts) as [vs|] eqn:E; [|discriminate].
      destruct (args ts Hts Hw vs E) as [C1 C2]. destruct (m_value m (FU n d c) vs) as [w|[]] eqn:Ev; try discriminate.
      inversion H; subst. split; [eapply Hm; eauto|]. intros M e A. cbn [tsem]. rewrite C2 by auto.
      now apply agree_fun with (m := m).
  - intros c a b Hc Ha Hb Hw v H. cbn [wf_term] in Hw. rewrite !andb_true_iff in Hw. destruct Hw as ((Hwc & Hwa) & Hwb).
    cbn [eval_term] in H. destruct (eval_f m c) as [[]|] eqn:Ec; [| |discriminate].
    + assert (Ev : eval_term m a = Ok v) by (destruct a; auto; discriminate). destruct (Ha Hwa v Ev) as [C1 C2].
      split; [auto|]. intros M e A. cbn [tsem]. rewrite (Hc Hwc true eq_refl M e A). auto.
    + assert (Ev : eval_term m b = Ok v) by (destruct b; auto; discriminate). destruct (Hb Hwb v Ev) as [C1 C2].
      split; [auto|]. intros M e A. cbn [tsem]. rewrite (Hc Hwc false eq_refl M e A). auto.
  - intros _ b H. inversion H. reflexivity.
  - intros _ b H. inversion H. reflexivity.
  - intros [b|n ss] ts Hts Hw v H.
    + rewrite eval_batom in H. destruct ts as [|x [|y [|]]]; try discriminate.
      destruct (mapM (evaluate_t m) [x; y]) as [vs|] eqn:E; [|discriminate].
      destruct (args _ Hts Hw vs E) as [C1 C2]. destruct vs as [|vx [|vy [|]]]; try discriminate.
      inversion C1 as [|? ? [cx [sx ->]] C1']; subst. inversion C1' as [|? ? [cy [sy ->]] _]; subst.
      cbn [compare_values] in H. apply name_cmp_compare in H. intros M e A. cbn [fsem]. rewrite C2 by auto. cbn [map value_in].
      now apply agree_cmp with (m := m).
    + rewrite eval_atom in H. destruct (mapM (evaluate_t m) ts) as [vs|] eqn:E; [|discriminate]. inversion H; subst.
      destruct (args ts Hts Hw vs E) as [C1 C2]. intros M e A. cbn [fsem]. rewrite C2 by auto. now apply agree_pred.
  - intros [] fs Hfs Hw b H M e A.
    + rewrite eval_and in H. cbn [wf] in Hw. apply andb_true_iff in Hw as [_ Hw]. cbn [fsem].
      revert Hw H. induction Hfs as [|g gs Hg _ IH]; simpl; intros Hw H; [congruence|].
      apply andb_true_iff in Hw as [Hw1 Hw2]. destruct (eval_f m g) as [[]|] eqn:Eg; [| |discriminate].
      * rewrite (Hg Hw1 true eq_refl M e A). auto.
      * rewrite (Hg Hw1 false eq_refl M e A). inversion H. reflexivity.
    + rewrite eval_or in H. cbn [wf] in Hw. apply andb_true_iff in Hw as [_ Hw]. cbn [fsem].
      revert Hw H. induction Hfs as [|g gs Hg _ IH]; simpl; intros Hw H; [congruence|].
      apply andb_true_iff in Hw as [Hw1 Hw2]. destruct (eval_f m g) as [[]|] eqn:Eg; [| |discriminate].
      * rewrite (Hg Hw1 true eq_refl M e A). inversion H. reflexivity.
      * rewrite (Hg Hw1 false eq_refl M e A). auto.
    + destruct fs as [|g [|]]; try discriminate. cbn [wf forallb] in Hw. rewrite !andb_true_iff in Hw. destruct Hw as (_ & Hw & _).
      inversion Hfs as [|? ? Hg _]; subst. cbn [eval_f] in H. destruct (eval_f m g) as [v|] eqn:Eg; [|discriminate].
      inversion H. cbn [fsem]. now rewrite (Hg Hw v eq_refl M e A).
  - intros q vs f _ _ _ b H. discriminate.
Qed.

Lemma sequence_cons {A} (x : option A) l ys : sequence (x :: l) = Some ys -> exists y ys', x = Some y /\ sequence l = Some ys' /\ ys = y :: ys'.
Proof. simpl. destruct x as [y|]; [|discriminate]. destruct (sequence l) as [zs|]; [|discriminate]. intros H. inversion H. eauto. Qed.

Lemma eval_complete_both m :
  (forall t, flat_ite_t t = true -> forall v, den_t m t = Some v -> evaluate_t m t = Ok v /\ eval_term m t = Ok v) /\
  (forall f, flat_ite f = true -> forall b, den m f = Some b -> eval_f m f = Ok b).
Proof.
  assert (args : forall ts, Forall (fun t => flat_ite_t t = true -> forall v, den_t m t = Some v -> evaluate_t m t = Ok v /\ eval_term m t = Ok v) ts ->
    forallb flat_ite_t ts = true -> forall vs, sequence (map (den_t m) ts) = Some vs ->
    mapM (evaluate_t m) ts = Ok vs /\ mapM (eval_term m) ts = Ok vs).
  { induction 1 as [|t ts Ht _ IH]; intros Hw vs H; [inversion H; split; reflexivity|].
    simpl in Hw. apply andb_true_iff in Hw as [Hw1 Hw2]. cbn [map] in H.
    apply sequence_cons in H as (y & ys & E1 & E2 & ->). destruct (Ht Hw1 y E1) as [A1 A2]. destruct (IH Hw2 ys E2) as [B1 B2].
    simpl. rewrite A1, A2, B1, B2. auto. }
  apply syntax_ind.
  - intros; discriminate.
  - intros c s _ v H. inversion H. split; reflexivity.
  - intros f ts Hts Hw v H. cut (eval_term m (App f ts) = Ok v); [intros E; split; exact E|].
    cbn [den_t] in H. destruct (sequence (map (den_t m) ts)) as [vs|] eqn:E; [|discriminate].
    destruct (args ts Hts Hw vs E) as [A1 A2]. destruct f as [b|n d c].
    + destruct vs as [|[|[|x] sx| |] [|[|[|y] sy| |] [|]]]; try discriminate.
      destruct (arith_value b x y) as [z|] eqn:Ez; [|discriminate]. inversion H; subst.
      destruct ts as [|t1 [|t2 [|]]]; cbn [mapM] in A2; try discriminate.
      * destruct (eval_term m t1); [|discriminate]. simpl in A2. discriminate.
      * cbn [eval_term]. destruct (eval_term m t1); [|discriminate]. destruct (eval_term m t2); [|discriminate]. inversion A2; subst.
        apply arith_value_arith. eauto.
      * destruct (eval_term m t1); [|discriminate]. destruct (eval_term m t2); [|discriminate].
        destruct (eval_term m t); [|discriminate]. destruct (mapM (eval_term m) l); discriminate.
    + rewrite eval_app, A1. destruct (m_value m (FU n d c) vs); [now inversion H|discriminate].
  - intros c a b Hc Ha Hb Hw v H. cut (eval_term m (Ite c a b) = Ok v); [intros E; split; exact E|].
    cbn [flat_ite_t] in Hw. rewrite !andb_true_iff in Hw. destruct Hw as ((((Hwc & Hia) & Hib) & Hwa) & Hwb).
    cbn [den_t] in H. destruct (den m c) as [bc|] eqn:Ec; [|discriminate]. specialize (Hc Hwc bc eq_refl).
    destruct (den_t m a) as [va|] eqn:Ea; [|destruct bc; discriminate].
    destruct (den_t m b) as [vb|] eqn:Eb; [|destruct bc; discriminate].
    destruct (Ha Hwa va eq_refl) as [_ A]. destruct (Hb Hwb vb eq_refl) as [_ B].
    cbn [eval_term]. rewrite Hc. destruct bc; inversion H; subst.
    + rewrite A. destruct a; try reflexivity. discriminate.
    + rewrite B. destruct b; try reflexivity. discriminate.
  - intros _ b H. inversion H. reflexivity.
  - intros _ b H. inversion H. reflexivity.
  - intros p ts Hts Hw v H. cbn [den] in H. destruct (sequence (map (den_t m) ts)) as [vs|] eqn:E; [|discriminate].
    destruct (args ts Hts Hw vs E) as [A1 A2]. destruct p as [b|n ss].
    + destruct vs as [|[|x sx| |] [|[|y sy| |] [|]]]; try discriminate.
      assert (L : List.length ts = 2) by (apply mapM_length in A2; simpl in A2; congruence).
      rewrite eval_batom, A1. destruct ts as [|t1 [|t2 [|]]]; try discriminate. cbn [compare_values]. now apply name_cmp_compare.
    + rewrite eval_atom, A1. congruence.
  - intros c fs Hfs Hw v H. cbn [den flat_ite] in *. destruct (sequence (map (den m) fs)) as [bs|] eqn:E; [|discriminate]. destruct c.
    + rewrite eval_and. inversion H; subst. clear H. revert bs E Hw. induction Hfs as [|g gs Hg _ IH]; intros bs E Hw; [inversion E; reflexivity|].
      cbn [map] in E. apply sequence_cons in E as (y & ys & E1 & E2 & ->). simpl in Hw. apply andb_true_iff in Hw as [Hw1 Hw2].
      simpl. rewrite (Hg Hw1 y E1). unfold id at 1. destruct y; [|reflexivity]. apply IH; auto.
    + rewrite eval_or. inversion H; subst. clear H. revert bs E Hw. induction Hfs as [|g gs Hg _ IH]; intros bs E Hw; [inversion E; reflexivity|].
      cbn [map] in E. apply sequence_cons in E as (y & ys & E1 & E2 & ->). simpl in Hw. apply andb_true_iff in Hw as [Hw1 Hw2].
      simpl. rewrite (Hg Hw1 y E1). unfold id at 1. destruct y; [reflexivity|]. apply IH; auto.
    + destruct bs as [|b [|]]; try discriminate. inversion H; subst. destruct fs as [|g gs]; [discriminate|].
      cbn [map] in E. apply sequence_cons in E as (y & ys & E1 & E2 & Eq). inversion Eq; subst.
      simpl in Hw. apply andb_true_iff in Hw as [Hw1 _]. inversion Hfs as [|? ? Hg _]; subst. cbn [eval_f]. rewrite (Hg Hw1 y E1). reflexivity.
  - intros. discriminate.
Qed.

Lemma herbrand_value m t : is_constant t -> value_in (herbrand m) t = t.
Proof. intros (c & s & ->). reflexivity. Qed.
Lemma herbrand_values m pt : Forall is_constant pt -> map (value_in (herbrand m)) pt = pt.
Proof. induction 1 as [|t l Ht _ IH]; [reflexivity|]. cbn [map]. rewrite herbrand_value by auto. exact (f_equal (cons t) IH). Qed.
Lemma herbrand_agrees m : constant_valued m -> agrees (herbrand m) m.
Proof.
  intros Hm. constructor.
  - intros n ss pt H. rewrite herbrand_values by auto. reflexivity.
  - intros n d c pt v H E. rewrite herbrand_values by auto. cbn. rewrite E. symmetry. apply herbrand_value. eapply Hm; eauto.
  - intros b x s y r v E. cbn. now rewrite E.
  - intros b x s y r z E. cbn. now rewrite E.
Qed.

(** Reachable models store constants only. *)
Definition const_inv (m : model) : Prop := forall s ext pt v, In (s, ext) (funs m) -> In (pt, v) ext -> is_constant v.
Lemma const_inv_valued m : const_inv m -> constant_valued m.
Proof.
  intros H f pt v. unfold m_value. destruct (dget sig_eqb (funs m) (fsig f)) as [ext|] eqn:E; [|discriminate].
  destruct (dget points_eqb ext pt) as [w|] eqn:E'; [|discriminate]. intros Hv. inversion Hv; subst.
  apply (dget_In sig_eqb sig_eqb_eq) in E. apply (dget_In points_eqb points_eqb_eq) in E'. eapply H; eauto.
Qed.
Lemma reachable_constants sub ops : forallb op_constants ops = true -> constant_valued (snd (outcomes (mstep sub) ops empty_model)).
Proof.
  cut (forall m, const_inv m -> forallb op_constants ops = true -> const_inv (snd (outcomes (mstep sub) ops m))).
  { intros H Hc. apply const_inv_valued, H; [|auto]. intros s ext pt v []. }
  induction ops as [|o ops IH]; intros m Hm Hc; [exact Hm|]. simpl in Hc. apply andb_true_iff in Hc as [Hc1 Hc2].
  cbn [outcomes]. assert (H1 : const_inv (snd (mstep sub m o))).
  { assert (Hdel : forall s m', funs m' = ddel sig_eqb (funs m) s -> const_inv m').
    { intros s m' E r ext pt v. rewrite E. intros Hin. apply ddel_entries in Hin. eapply Hm; eauto. }
    destruct o as [p args|t v|p args|p args|p|f]; cbn [mstep].
    - unfold m_add. destruct p as [b|n ss]; cbn [of_res snd]; auto. destruct (check_assignment sub ss args); cbn [bind of_res snd]; auto.
    - destruct t as [x r|c r|f args|c a b]; cbn [m_set of_res snd]; auto. destruct f as [b|n d c]; cbn [m_set of_res snd]; auto.
      destruct (forallb is_cst args); cbn [of_res snd]; auto.
      destruct (check_assignment sub (d ++ [c]) (args ++ [v])); cbn [bind of_res snd]; auto.
      intros s ext pt w Hin Hw. cbn [funs] in Hin. apply dset_entries in Hin as [->|Hin]; [|eapply Hm; eauto].
      apply dset_entries in Hw as [->|Hw].
      + simpl in Hc1. apply andb_true_iff in Hc1 as [Hv _]. destruct v; try discriminate. eexists; eexists; reflexivity.
      + destruct (dget sig_eqb (funs m) (fsig (FU n d c))) eqn:E; [|destruct Hw]. apply (dget_In sig_eqb sig_eqb_eq) in E. eapply Hm; eauto.
    - unfold m_remove. destruct (dget sig_eqb (preds m) (psig p)); [|exact Hm]. destruct (pt_mem args l); exact Hm.
    - unfold m_discard. cbn [snd]. destruct (dget sig_eqb (preds m) (psig p)); exact Hm.
    - unfold remove_signature. cbn [snd]. destruct (dget sig_eqb (funs m) (psig p)); [eapply Hdel; reflexivity|].
      destruct (dget sig_eqb (preds m) (psig p)); exact Hm.
    - unfold remove_signature. cbn [snd]. destruct (dget sig_eqb (funs m) (fsig f)); [eapply Hdel; reflexivity|].
      destruct (dget sig_eqb (preds m) (fsig f)); exact Hm. }
  destruct (mstep sub m o) as [e m1]. cbn [snd] in H1. specialize (IH m1 H1 Hc2).
  destruct (outcomes (mstep sub) ops m1). exact IH.
Qed.
