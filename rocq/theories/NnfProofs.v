From Verif Require Import Base Syntax Semantics FolSpec SemLemmas Nnf.

Lemma wf_Comp c fs : wf (Comp c fs) = true -> comp_arity_ok c (List.length fs) = true /\ Forall (fun f => wf f = true) fs.
Proof. simpl. rewrite andb_true_iff, forallb_forall, Forall_forall. tauto. Qed.

Lemma wf_Not fs : wf (Comp Not fs) = true -> exists g, fs = [g] /\ wf g = true.
Proof.
  intros H. apply wf_Comp in H as [Ha Hf]. simpl in Ha. apply Nat.eqb_eq in Ha.
  destruct fs as [|g [|h fs]]; try discriminate. exists g. split; [reflexivity|]. now inversion Hf.
Qed.

Lemma nnf_correct f : forall b g, wf f = true -> nnf b f = Ok g ->
  (forall M e, fsem M g e = (if b then negb (fsem M f e) else fsem M f e)) /\ is_nnf g = true /\ wf g = true /\ atoms_of g = atoms_of f.
Proof.
  induction f as [ | | p ts | c fs IH | q vs f IH] using formula_ind_simple; intros b g Hwf H.
  - destruct b; inversion H; subst. repeat split.
  - destruct b; inversion H; subst. repeat split.
  - simpl in Hwf. destruct b; inversion H; subst; repeat split; simpl; try rewrite Hwf; try reflexivity;
      intros; match goal with |- context[pint ?M ?p ?l] => now destruct (pint M p l) end.
  - assert (Hgen : forall c', c = c' -> c' <> Not -> 
      exists fs', mapM (nnf b) fs = Ok fs' /\ g = Comp (if b then negate_connective c else c) fs').
    { intros c' <- Hc. destruct c; try congruence; simpl in H;
        destruct (mapM (nnf b) fs) as [fs'|] eqn:E; simpl in H; try discriminate; inversion H; eauto. }
    destruct (connective_eq_dec c Not) as [->|Hc].
    + apply wf_Not in Hwf as (h & -> & Hh). simpl in H. inversion IH as [|? ? Hi _]; subst.
      destruct (Hi _ _ Hh H) as (H1 & H2 & H3 & H4). repeat split; auto.
      * intros M e. rewrite H1. simpl. now destruct b, (fsem M h e).
      * rewrite H4. simpl. now rewrite app_nil_r.
    + destruct (Hgen c eq_refl Hc) as (fs' & Hm & ->). clear Hgen H.
      apply wf_Comp in Hwf as [Ha Hfs].
      pose proof (mapM_length _ _ _ Hm) as Hlen.
      apply mapM_Forall2 in Hm.
      assert (HF : Forall2 (fun x y => (forall M e, fsem M y e = (if b then negb (fsem M x e) else fsem M x e)) /\ is_nnf y = true /\ wf y = true
                                        /\ atoms_of y = atoms_of x) fs fs').
      { rewrite Forall_forall in IH, Hfs. eapply Forall2_impl_In; [|exact Hm]. intros x y Hx _ Hxy. apply IH; auto. }
      clear IH Hm. repeat split.
      * intros M e. destruct b, c; try congruence; simpl.
        -- rewrite <- existsb_negb. apply existsb_Forall2. eapply Forall2_impl_In; [|exact HF]. intros x y _ _ (Hxy & _).
           rewrite Hxy. now destruct (fsem M x e).
        -- rewrite <- forallb_negb. apply forallb_Forall2. eapply Forall2_impl_In; [|exact HF]. intros x y _ _ (Hxy & _).
           rewrite Hxy. now destruct (fsem M x e).
        -- apply forallb_Forall2. eapply Forall2_impl_In; [|exact HF]. intros x y _ _ (Hxy & _). exact (Hxy M e).
        -- apply existsb_Forall2. eapply Forall2_impl_In; [|exact HF]. intros x y _ _ (Hxy & _). exact (Hxy M e).
      * assert (forallb is_nnf fs' = true).
        { apply forallb_forall. intros y Hy. destruct (Forall2_In_r _ _ _ _ HF Hy) as (x & _ & _ & Hn & _). exact Hn. }
        destruct b, c; try congruence; exact H.
      * assert (forallb wf fs' = true).
        { apply forallb_forall. intros y Hy. destruct (Forall2_In_r _ _ _ _ HF Hy) as (x & _ & _ & _ & Hn & _). exact Hn. }
        simpl. rewrite H, Hlen. destruct b, c; try congruence; simpl in *; now rewrite Ha.
      * simpl. clear -HF. induction HF as [|x y l l' (_ & _ & _ & H) _ IH]; simpl; [reflexivity|]. now rewrite H, IH.
  - simpl in Hwf. apply andb_true_iff in Hwf as [Hv Hf]. simpl in H.
    destruct (nnf b f) as [f'|] eqn:E; simpl in H; [|discriminate]. inversion H; subst; clear H.
    destruct (IH _ _ Hf E) as (H1 & H2 & H3 & H4). repeat split; auto.
    + intros M e. simpl. destruct b; simpl.
      * rewrite <- (qsem_dual M q vs). transitivity (qsem M (negate_quantifier q) vs (fun x => negb (fsem M f x)) e).
        -- apply qsem_ext; [|apply env_eq_refl]. intros a c Hac. rewrite H1. simpl. now rewrite (fsem_ext M f _ _ Hac).
        -- destruct q; reflexivity.
      * apply qsem_ext; [|apply env_eq_refl]. intros a c Hac. now rewrite H1, (fsem_ext M f _ _ Hac).
    + simpl. now rewrite Hv, H3.
Qed.

Lemma nnf_ok_iff f : forall b, wf f = true ->
  ((exists g, nnf b f = Ok g) <-> negated_constant_at b f = false) /\ (forall e, nnf b f = Err e -> e = NotAFormula).
Proof.
  induction f as [ | | p ts | c fs IH | q vs f IH] using formula_ind_simple; intros b Hwf.
  - simpl. destruct b; (split; [split|]); try congruence; eauto; intros [? ?]; discriminate.
  - simpl. destruct b; (split; [split|]); try congruence; eauto; intros [? ?]; discriminate.
  - simpl. destruct b; (split; [split|]); try congruence; eauto.
  - destruct (connective_eq_dec c Not) as [->|Hc].
    + apply wf_Not in Hwf as (h & -> & Hh). inversion IH as [|? ? Hi _]; subst. simpl. rewrite orb_false_r. auto.
    + apply wf_Comp in Hwf as [_ Hfs].
      rewrite Forall_forall in IH, Hfs.
      assert (Hm : ((exists fs', mapM (nnf b) fs = Ok fs') <-> existsb (negated_constant_at b) fs = false)
                   /\ forall e, mapM (nnf b) fs = Err e -> e = NotAFormula).
      { split; [split|].
        - intros [fs' Hm]. apply mapM_Forall2 in Hm. destruct existsb eqn:E; [|reflexivity].
          apply existsb_exists in E as (x & Hx & Hc'). destruct (Forall2_In_l _ _ _ _ Hm Hx) as (y & _ & Hy).
          destruct (IH x Hx b (Hfs x Hx)) as [Hi _]. rewrite (proj1 Hi) in Hc'; [discriminate|eauto].
        - intros E. apply mapM_total. intros x Hx. apply IH; auto.
          destruct (negated_constant_at b x) eqn:Ex; [|reflexivity].
          exfalso. assert (existsb (negated_constant_at b) fs = true) by (apply existsb_exists; eauto). congruence.
        - intros e He. apply mapM_err in He as (x & Hx & Hex). eapply IH; eauto. }
      destruct Hm as [Hm1 Hm2].
      destruct c; try congruence; simpl; (split; [split|]).
      all: try (intros [g Hg]; apply Hm1; destruct (mapM (nnf b) fs); simpl in Hg; [eauto|discriminate]).
      all: try (intros Hn; apply Hm1 in Hn as [fs' ->]; simpl; eauto).
      all: intros e He; destruct (mapM (nnf b) fs); simpl in He; [discriminate|]; inversion He; subst; auto.
  - simpl in Hwf. apply andb_true_iff in Hwf as [Hv Hf]. destruct (IH b Hf) as [H1 H2]. simpl. split; [split|].
    + intros [g Hg]. apply H1. destruct (nnf b f); simpl in Hg; [eauto|discriminate].
    + intros Hn. apply H1 in Hn as [g ->]. simpl; eauto.
    + intros e He. destruct (nnf b f); simpl in He; [discriminate|]. inversion He; subst; auto.
Qed.

Lemma nnf_id f : is_nnf f = true -> nnf false f = Ok f.
Proof.
  induction f as [ | | p ts | c fs IH | q vs f IH] using formula_ind_simple; intros H; try reflexivity.
  - destruct c; simpl in *.
    + rewrite mapM_id; [reflexivity|]. rewrite Forall_forall in *. rewrite forallb_forall in H. auto.
    + rewrite mapM_id; [reflexivity|]. rewrite Forall_forall in *. rewrite forallb_forall in H. auto.
    + destruct fs as [|[ | | p ts | | ] [|]]; try discriminate. reflexivity.
  - simpl in *. now rewrite IH.
Qed.
