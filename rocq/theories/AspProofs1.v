(** Quantifier elimination keeps the conditions that the reachability compiler needs. *)
From Verif Require Import Base Syntax Semantics SemLemmas Build BuildProofs NnfProofs Subst SubstSpec SubstProofs FreeVarsProofs QElim QElimProofs ModelState Effects Asp AspSpec.

Lemma fold_and {A} (P : A -> Prop) l : fold_right (fun x Q => P x /\ Q) True l <-> Forall P l.
Proof. induction l as [|x l IH]; cbn; [split; [constructor|auto]|]. rewrite IH. split; [intros [H H']; now constructor|intros H; inversion H; auto]. Qed.

Section Fine.
Variables (C : cname -> Prop) (V : list var).
Record fine (W : list var) (f : formula) : Prop := {
  fi_atoms : plain_atoms C f;
  fi_free : forall v, free_in v f = true -> In v W;
  fi_binders : incl (binders f) V }.

Lemma fine_comp W c fs : fine W (Comp c fs) <-> Forall (fine W) fs.
Proof.
  split.
  - intros [A F B]. cbn [plain_atoms] in A. apply fold_and in A. rewrite Forall_forall in A. apply Forall_forall. intros g Hg. constructor; [auto| |].
    + intros v Hv. apply F. cbn [free_in]. apply existsb_exists. eauto.
    + intros v Hv. apply B. cbn [binders]. apply in_flat_map. eauto.
  - intros H. rewrite Forall_forall in H. constructor.
    + cbn [plain_atoms]. apply fold_and. apply Forall_forall. intros g Hg. apply (H g Hg).
    + intros v Hv. cbn [free_in] in Hv. apply existsb_exists in Hv as (g & Hg & Hv). exact (fi_free _ _ (H g Hg) v Hv).
    + intros v Hv. cbn [binders] in Hv. apply in_flat_map in Hv as (g & Hg & Hv). exact (fi_binders _ _ (H g Hg) v Hv).
Qed.
Lemma fine_quant W q vs g : fine W (Quant q vs g) <-> incl (vars_of vs) V /\ fine (vars_of vs ++ W) g.
Proof.
  split.
  - intros [A F B]. cbn [plain_atoms binders] in *. split; [intros v Hv; apply B; rewrite in_app_iff; auto|]. constructor; [exact A| |intros v Hv; apply B; rewrite in_app_iff; auto].
    intros v Hv. rewrite in_app_iff. destruct (mem_var v (vars_of vs)) eqn:E; [left; now apply mem_var_In|]. right. apply F. cbn [free_in]. now rewrite E, Hv.
  - intros [I [A F B]]. constructor; [exact A| |].
    + intros v Hv. cbn [free_in] in Hv. apply andb_true_iff in Hv as [N Hv]. rewrite negb_true_iff, mem_var_false in N. apply F in Hv. rewrite in_app_iff in Hv. tauto.
    + cbn [binders]. apply incl_app; auto.
Qed.
Lemma plain_atoms_subst s : const_subst s -> (forall x c r, In (x, Cst c r) s -> C c) -> forall f, plain_atoms C f -> plain_atoms C (subst_formula (of_vars s) f).
Proof.
  intros Hs Hc. refine (formula_ind_simple _ _ _ _ _ _).
  - intros _. exact I.
  - intros _. exact I.
  - intros p ts [H1 H2]. rewrite subst_f_unfold. cbn [plain_atoms]. split; [|exact H2]. intros c r Hin. apply in_map_iff in Hin as (t & E & Hin). destruct t as [x q|c' q| |].
    + rewrite subst_var in E. destruct (lookup s (x, q)) as [u|] eqn:L; [|discriminate]. subst u. apply lookup_In in L. exact (Hc _ _ _ L).
    + rewrite subst_cst in E. injection E as -> ->. exact (H1 _ _ Hin).
    + rewrite subst_app in E. discriminate.
    + rewrite subst_ite in E. discriminate.
  - intros c fs HF H. rewrite subst_f_unfold. cbn [plain_atoms] in *. apply fold_and in H. apply fold_and. rewrite Forall_forall in *. intros g Hg. apply in_map_iff in Hg as (g' & <- & Hg). auto.
  - intros q vs g IH H. rewrite subst_f_unfold. cbn [plain_atoms] in *. auto.
Qed.
Lemma fine_subst W W' s f : const_subst s -> (forall x c r, In (x, Cst c r) s -> C c) -> no_clash (binders f) s = true ->
  (forall v, In v W -> In v W' \/ lookup s v <> None) -> fine W f -> fine W' (subst_formula (of_vars s) f).
Proof.
  intros Hs Hc Hn HW [A F B]. constructor; [now apply plain_atoms_subst| |].
  - intros v Hv. apply free_in_subst in Hv; [|exact Hn]. destruct Hv as (x & Hx & Hv). apply F in Hx. destruct (HW x Hx) as [H|H]; destruct (lookup s x) as [t|] eqn:L; subst; auto; try (now contradiction H).
    + apply lookup_In in L. destruct (Hs _ _ L) as (c & r & ->). discriminate.
    + apply lookup_In in L. destruct (Hs _ _ L) as (c & r & ->). discriminate.
  - rewrite binders_subst; auto.
Qed.
Variable D : domains.
Hypothesis HD : constants_only D.
Hypothesis HDC : forall v cs c r, In v V -> D (snd v) = Some cs -> In (Cst c r) cs -> C c.
Lemma lookup_combine_rev vs (values : list term) v : List.length values = List.length vs -> In v vs -> lookup (rev (combine vs values)) v <> None.
Proof.
  revert values. induction vs as [|x vs IH]; intros [|t values] H; cbn [List.length] in H; try discriminate; [intros []|]. intros Hin. cbn [combine rev]. rewrite lookup_app. destruct (lookup (rev (combine vs values)) v) as [u|] eqn:E; [discriminate|].
  destruct Hin as [->|Hin]; [cbn [lookup]; now rewrite var_eqb_refl|]. exfalso. apply (IH values) in Hin; [contradiction|lia].
Qed.
Lemma fine_expand q vs g W h : wf (Quant q vs g) = true -> no_shadowing (Quant q vs g) = true -> fine W (Quant q vs g) -> expand D q vs g = Ok h -> fine W h.
Proof.
  intros Hw Hn Hf. apply fine_quant in Hf as [HV Hf]. cbn [wf] in Hw. apply andb_true_iff in Hw as [Hw Hwg]. apply andb_true_iff in Hw as [_ Hv].
  cbn [no_shadowing] in Hn. apply andb_true_iff in Hn as [Hn1 Hn2].
  unfold expand. pose proof (enumerate_spec D vs Hv) as HE.
  destruct (enumerate_groundings D vs) as [inst|e]; cbn [bind]; [|discriminate].
  destruct (Nat.eqb (cardinality inst) 0); [discriminate|].
  assert (Hlen : forall values, In values (product inst) -> List.length values = List.length vs).
  { intros values Hin. apply product_length in Hin. rewrite Hin. clear - HE. induction HE; simpl; auto. }
  assert (Lv : List.length (vars_of vs) = List.length vs). { clear - Hv. induction vs as [|[] vs IH]; cbn in *; try discriminate; auto. }
  assert (Hconst : forall values, In values (product inst) -> forall x t, In (x, t) (rev (combine (vars_of vs) values)) -> exists c r, t = Cst c r /\ C c).
  { intros values Hin x t Hx. apply in_rev in Hx. apply product_In in Hin.
    assert (G : exists cs, D (snd x) = Some cs /\ In t cs /\ In x (vars_of vs)).
    { clear - HE Hin Hx Hv. revert values Hin Hx. induction HE as [|v cs vs inst (y & s & -> & Hs) HE IH]; intros values Hin Hx; [destruct Hx|]. inversion Hin as [|u cs' us inst' A B]; subst. cbn in Hx. destruct Hx as [E|Hx].
      - injection E as <- <-. exists cs. split; [exact Hs|]. split; [exact A|]. left. reflexivity.
      - cbn in Hv. destruct (IH Hv us B Hx) as (cs' & X & Y & Z). exists cs'. split; [auto|]. split; [auto|]. right. auto. }
    destruct G as (cs & E1 & E2 & E3). destruct (HD _ _ _ E1 E2) as (c & r & ->). exists c, r. split; [reflexivity|]. exact (HDC x cs c r (HV x E3) E1 E2). }
  assert (Hmap : mapM (fun values => let! s := create_substitution vs values in Ok (subst_formula s g)) (product inst) =
                 Ok (map (fun values => subst_formula (of_vars (rev (combine (vars_of vs) values))) g) (product inst))).
  { apply mapM_Forall2. apply Forall2_map_right. apply Forall_forall. intros values Hin. rewrite create_substitution_ok by auto. reflexivity. }
  rewrite Hmap. cbn [bind]. clear Hmap.
  assert (HF : Forall (fine W) (map (fun values => subst_formula (of_vars (rev (combine (vars_of vs) values))) g) (product inst))).
  { apply Forall_forall. intros f Hf'. apply in_map_iff in Hf' as (values & <- & Hin). assert (K : const_subst (rev (combine (vars_of vs) values))). { intros x t Hx. destruct (Hconst _ Hin _ _ Hx) as (c & r & -> & _). eauto. }
    apply (fine_subst (vars_of vs ++ W)); auto.
    - intros x c r Hx. destruct (Hconst _ Hin _ _ Hx) as (c' & r' & E & HC). injection E as -> ->. exact HC.
    - apply const_subst_no_clash; [auto|]. intros b Hb t Hbt. apply in_rev in Hbt. apply in_combine_l in Hbt. rewrite forallb_forall in Hn1. specialize (Hn1 b Hbt). rewrite negb_true_iff, mem_var_false in Hn1. auto.
    - intros v Hx. rewrite in_app_iff in Hx. destruct Hx as [Hx|Hx]; [right|left; auto]. apply lookup_combine_rev; [rewrite Hlen by auto; auto|exact Hx]. }
  assert (Top_fine : fine W Top) by (constructor; [exact I|discriminate|intros v []]).
  assert (Bot_fine : fine W Bot) by (constructor; [exact I|discriminate|intros v []]).
  intros E. assert (Hcr : exists c, create_compound (map (fun values => subst_formula (of_vars (rev (combine (vars_of vs) values))) g) (product inst)) c false = Ok h \/ fine W h).
  { destruct q; [exists Or|exists And]; destruct (map _ (product inst)) as [|a l]; cbn in E; try (injection E as <-; right; assumption); left; exact E. }
  destruct Hcr as (c & [Hcr|Hcr]); [|exact Hcr]. refine (create_compound_pred c (fine W) _ h _ HF Hcr). intros a b Ha Hb. apply fine_comp. auto.
Qed.
Lemma fine_qe m : forall n f W f', wf f = true -> no_shadowing f = true -> fine W f -> qe D m n f = Ok f' -> fine W f'.
Proof.
  induction n as [|n IHn].
  - refine (formula_ind_simple _ _ _ _ _ _).
    + intros W f' _ _ Hf E. injection E as <-. exact Hf.
    + intros W f' _ _ Hf E. injection E as <-. exact Hf.
    + intros p ts W f' _ _ Hf E. injection E as <-. exact Hf.
    + intros c fs HF W f' Hw Hn Hf E. rewrite qe_unfold in E. destruct (mapM (qe D m 0) fs) as [fs'|] eqn:M; cbn [bind] in E; [|discriminate]. injection E as <-. apply mapM_Forall2 in M. apply wf_Comp in Hw as [_ Hw]. cbn [no_shadowing] in Hn. rewrite forallb_forall in Hn.
      apply fine_comp. apply fine_comp in Hf. rewrite Forall_forall in *. intros g Hg. destruct (Forall2_In_r _ _ _ _ M Hg) as (g0 & Hg0 & Eg). exact (HF g0 Hg0 W g (Hw g0 Hg0) (Hn g0 Hg0) (Hf g0 Hg0) Eg).
    + intros q vs g IH W f' Hw Hn Hf E. rewrite qe_unfold in E. destruct (eliminated m q); [discriminate|]. destruct (qe D m 0 g) as [g'|] eqn:G; cbn [bind] in E; [|discriminate]. injection E as <-. apply fine_quant in Hf as [A B]. apply fine_quant. split; [exact A|].
      cbn [wf] in Hw. apply andb_true_iff in Hw as [_ Hw]. cbn [no_shadowing] in Hn. apply andb_true_iff in Hn as [_ Hn]. exact (IH _ _ Hw Hn B eq_refl).
  - refine (formula_ind_simple _ _ _ _ _ _).
    + intros W f' _ _ Hf E. injection E as <-. exact Hf.
    + intros W f' _ _ Hf E. injection E as <-. exact Hf.
    + intros p ts W f' _ _ Hf E. injection E as <-. exact Hf.
    + intros c fs HF W f' Hw Hn Hf E. rewrite qe_unfold in E. destruct (mapM (qe D m (S n)) fs) as [fs'|] eqn:M; cbn [bind] in E; [|discriminate]. injection E as <-. apply mapM_Forall2 in M. apply wf_Comp in Hw as [_ Hw]. cbn [no_shadowing] in Hn. rewrite forallb_forall in Hn.
      apply fine_comp. apply fine_comp in Hf. rewrite Forall_forall in *. intros g Hg. destruct (Forall2_In_r _ _ _ _ M Hg) as (g0 & Hg0 & Eg). exact (HF g0 Hg0 W g (Hw g0 Hg0) (Hn g0 Hg0) (Hf g0 Hg0) Eg).
    + intros q vs g IH W f' Hw Hn Hf E. rewrite qe_unfold in E. destruct (eliminated m q).
      * destruct (expand D q vs g) as [h|] eqn:Ex; cbn [bind] in E; [|discriminate]. pose proof (expand_spec D HD q vs g Hw Hn) as S. rewrite Ex in S. destruct S as (S1 & S2 & _). exact (IHn h W f' S1 S2 (fine_expand q vs g W h Hw Hn Hf Ex) E).
      * destruct (qe D m (S n) g) as [g'|] eqn:G; cbn [bind] in E; [|discriminate]. injection E as <-. apply fine_quant in Hf as [A B]. apply fine_quant. split; [exact A|].
        cbn [wf] in Hw. apply andb_true_iff in Hw as [_ Hw]. cbn [no_shadowing] in Hn. apply andb_true_iff in Hn as [_ Hn]. exact (IH _ _ Hw Hn B eq_refl).
Qed.
Lemma fine_remove m f W f' : wf f = true -> no_shadowing f = true -> fine W f -> remove_quantifiers D m f = Ok f' -> fine W f'.
Proof. intros. eapply fine_qe; eauto. Qed.
End Fine.
