From Verif Require Import Base Syntax Semantics FolSpec SemLemmas NnfProofs NegBuiltin.

Lemma complement_correct M b l r : standard_comparisons M ->
  pint M (PB (complement b)) [l; r] = negb (pint M (PB b) [l; r]).
Proof.
  intros H. destruct (H l r) as (H1 & H2 & H3). destruct b; simpl; rewrite ?H1, ?H2, ?H3, ?negb_involutive; reflexivity.
Qed.

Lemma absorb_correct f : wf f = true -> binary f = true -> builtin_binary f = true ->
  exists g, absorb f = Ok g /\ forall M e, standard_comparisons M -> fsem M g e = fsem M f e.
Proof.
  induction f as [ | | p ts | c fs IH | q vs f IH] using formula_ind_simple; intros Hw Hb Hbb.
  1-3: eexists; repeat split.
  - destruct (connective_eq_dec c Not) as [->|Hc].
    + apply wf_Not in Hw as (g & -> & _). simpl in Hbb. rewrite andb_true_r in Hbb.
      destruct g as [ | | [b|n ss] ts | | ]; try (eexists; repeat split; fail).
      simpl in Hbb. apply Nat.eqb_eq in Hbb. destruct ts as [|l [|r [|]]]; try discriminate.
      eexists; split; [reflexivity|]. intros M e HM. simpl. now apply complement_correct.
    + apply wf_Comp in Hw as [_ Hw].
      assert (Hb' : List.length fs = 2 /\ forallb binary fs = true).
      { destruct c; try congruence; simpl in Hb; apply andb_true_iff in Hb as [H1 H2]; apply Nat.eqb_eq in H1; auto. }
      destruct Hb' as [Hl Hb']. destruct fs as [|a [|b [|]]]; try discriminate.
      simpl in Hb', Hbb. rewrite andb_true_r in Hb', Hbb.
      apply andb_true_iff in Hb' as [Ba Bb]. apply andb_true_iff in Hbb as [Ca Cb].
      inversion Hw as [|? ? Wa Hw']; subst. inversion Hw' as [|? ? Wb _]; subst.
      inversion IH as [|? ? Ia IH']; subst. inversion IH' as [|? ? Ib _]; subst.
      destruct (Ia Wa Ba Ca) as (a' & Ea & Sa). destruct (Ib Wb Bb Cb) as (b' & Eb & Sb).
      exists (Comp c [a'; b']). split.
      * destruct c; try congruence; simpl; rewrite Ea; simpl; rewrite Eb; reflexivity.
      * intros M e HM. destruct c; try congruence; simpl; now rewrite Sa, Sb.
  - simpl in Hw. apply andb_true_iff in Hw as [_ Hw]. destruct (IH Hw Hb Hbb) as (g & Hg & Hs).
    exists (Quant q vs g). simpl. rewrite Hg. split; [reflexivity|]. intros M e HM.
    apply qsem_ext; [|apply env_eq_refl]. intros x y Hxy. rewrite Hs by auto. now apply fsem_ext.
Qed.
