(** Proofs about ground operators. *)
From Verif Require Import Base Syntax Semantics SemLemmas SubstSpec SubstProofs NnfProofs Subst QElim QElimProofs FreeVars ListUtil ModelState ModelProofs ModelText Index PropsIndex Lang LangSpec LangProofs LangProofs2 LangProofs3 Effects Represent Build BuildProofs Grounding
  Asp AspNamesSpec AspSpec AspProofs1 AspProofs2 AspProofs3 AspProofs4 LpGround LpGroundSpec OperatorSpec PropsGrounding.
#[local] Open Scope string_scope.

Lemma over_clash P V f s : expression_over P V f -> (forall x t, In (x, t) s -> In x P /\ exists c r, t = Cst c r) -> no_clash (binders f) s = true.
Proof.
  intros [_ H] Hs. unfold no_clash. apply forallb_forall. intros b Hb. apply forallb_forall. intros [x t] Hin. destruct (Hs x t Hin) as [Hx (c & r & ->)]. cbn [fst snd free_in_t negb]. rewrite andb_true_r. apply negb_true_iff. destruct (var_eqb x b) eqn:E; [|reflexivity]. apply var_eqb_eq in E. subst. exfalso. exact (H b Hx Hb).
Qed.
Section Sub.
Variables (D : domains) (S : state) (P : list var) (s : vsubst).
Hypothesis Hs : forall x t, In (x, t) s -> In x P /\ exists c r, t = Cst c r.
Let M := structure_of D S.
Lemma env_const (e e' : assignment) v : (forall x, ~ In x P -> e x = e' x) -> lookup s v <> None \/ ~ In v P -> env_subst (M := M) s e v = env_subst (M := M) s e' v.
Proof.
  intros H Hv. unfold env_subst. destruct (lookup s v) as [t|] eqn:E; [|destruct Hv as [X|X]; [contradiction|exact (H v X)]]. apply lookup_In in E. destruct (Hs v t E) as [_ (c & r & ->)]. reflexivity.
Qed.
Lemma true_sub V f e : expression_over P V f -> true_in D S (subst_formula (of_vars s) f) e <-> true_in D S f (env_subst (M := M) s e).
Proof. intros H. unfold true_in. fold M. rewrite (proj2 (subst_lemma_both M s) f e (over_clash P V f s H Hs)). reflexivity. Qed.
Lemma true_agree V f e e' : expression_over P V f -> (forall v, In v V -> e v = e' v) -> true_in D S f e <-> true_in D S f e'.
Proof. intros [H _] He. unfold true_in. fold M. rewrite (proj2 (coincidence M) f e e'); [reflexivity|]. intros v Hv. apply He, H, Hv. Qed.
Lemma value_sub V p ts t e : expression_over P V (Atom p ts) -> In t ts -> value D S (subst_term (of_vars s) t) e = value D S t (env_subst (M := M) s e).
Proof.
  intros H Ht. apply (proj1 (subst_lemma_both M s)). assert (X := over_clash P V _ s H Hs). cbn [binders] in X. rewrite no_clash_flat_map in X. exact (X t Ht).
Qed.
Lemma value_agree V p ts t e e' : expression_over P V (Atom p ts) -> In t ts -> (forall v, In v V -> e v = e' v) -> value D S t e = value D S t e'.
Proof. intros [H _] Ht He. apply (proj1 (coincidence M)). intros v Hv. apply He, H. cbn [free_in]. apply existsb_exists. eauto. Qed.
Lemma fold_Forall {A} (Q : A -> Prop) l : fold_right (fun e R => Q e /\ R) True l <-> Forall Q l.
Proof. induction l as [|x l IH]; cbn [fold_right]; [split; auto|]. rewrite IH. split; [intros [A1 A2]; constructor; auto|intros X; inversion X; auto]. Qed.

(** changes [adds] / [deletes], in one proof *)
Lemma adds_agree eff : forall V e e' n ss pt, effect_over P V eff -> (forall v, In v V -> e v = e' v) -> adds D S e eff n ss pt -> adds D S e' eff n ss pt.
Proof.
  induction eff as [c a|c a|i c l r|c vs es IH|c l|c] using effect_ind_nested; intros V e e' n ss pt Ho He H; inversion H as [? ? ? ? ts Hc|? ? ? ? e1 eff ? ? ? Hc Hr Hin Had]; subst.
  - destruct Ho as [Hc' Ha]. replace (map (fun t => value D S t e) ts) with (map (fun t => value D S t e') ts); [constructor; apply (true_agree V _ e e' Hc' He); exact Hc|]. apply map_ext_in. intros t Ht. symmetry. exact (value_agree V _ ts t e e' Ha Ht He).
  - cbn [effect_over] in Ho. destruct Ho as (Hc' & Hv & Hd & Hes). rewrite fold_Forall in Hes. rewrite Forall_forall in IH, Hes. destruct Hr as [R1 R2].
    apply (adds_universal D S e' c vs es (fun v => if mem_var v (vars_of vs) then e1 v else e' v) eff); auto.
    + apply (true_agree V _ e e' Hc' He). exact Hc.
    + split; intros v Hin'; [assert (E : mem_var v (vars_of vs) = true) by now apply mem_var_In|assert (E : mem_var v (vars_of vs) = false) by now apply mem_var_false]; rewrite E; auto.
    + apply (IH eff Hin (vars_of vs ++ V)%list e1); [auto| |exact Had]. intros v Hin'. destruct (mem_var v (vars_of vs)) eqn:E; [reflexivity|]. apply mem_var_false in E. apply in_app_iff in Hin' as [X|X]; [contradiction|]. rewrite R2 by exact E. auto.
Qed.
Lemma deletes_agree eff : forall V e e' n ss pt, effect_over P V eff -> (forall v, In v V -> e v = e' v) -> deletes D S e eff n ss pt -> deletes D S e' eff n ss pt.
Proof.
  induction eff as [c a|c a|i c l r|c vs es IH|c l|c] using effect_ind_nested; intros V e e' n ss pt Ho He H; inversion H as [? ? ? ? ts Hc|? ? ? ? e1 eff ? ? ? Hc Hr Hin Had]; subst.
  - destruct Ho as [Hc' Ha]. replace (map (fun t => value D S t e) ts) with (map (fun t => value D S t e') ts); [constructor; apply (true_agree V _ e e' Hc' He); exact Hc|]. apply map_ext_in. intros t Ht. symmetry. exact (value_agree V _ ts t e e' Ha Ht He).
  - cbn [effect_over] in Ho. destruct Ho as (Hc' & Hv & Hd & Hes). rewrite fold_Forall in Hes. rewrite Forall_forall in IH, Hes. destruct Hr as [R1 R2].
    apply (deletes_universal D S e' c vs es (fun v => if mem_var v (vars_of vs) then e1 v else e' v) eff); auto.
    + apply (true_agree V _ e e' Hc' He). exact Hc.
    + split; intros v Hin'; [assert (E : mem_var v (vars_of vs) = true) by now apply mem_var_In|assert (E : mem_var v (vars_of vs) = false) by now apply mem_var_false]; rewrite E; auto.
    + apply (IH eff Hin (vars_of vs ++ V)%list e1); [auto| |exact Had]. intros v Hin'. destruct (mem_var v (vars_of vs)) eqn:E; [reflexivity|]. apply mem_var_false in E. apply in_app_iff in Hin' as [X|X]; [contradiction|]. rewrite R2 by exact E. auto.
Qed.
Lemma effect_over_all V eff : effect_over P V eff -> forall W, (forall v, In v V -> In v W) -> effect_over P W eff.
Proof.
  revert V. induction eff as [c a|c a|i c l r|c vs es IH|c l|c] using effect_ind_nested; intros V H W HW; cbn [effect_over] in *; auto.
  - destruct H as [[A B] [A' B']]. repeat split; auto.
  - destruct H as [[A B] [A' B']]. repeat split; auto.
  - destruct H as ([A B] & Hv & Hd & Hes). split; [split; auto|]. split; [exact Hv|]. split; [exact Hd|]. rewrite fold_Forall in *. rewrite Forall_forall in *. intros e He. apply (IH e He _ (Hes e He)). intros v Hin. apply in_app_iff in Hin as [X|X]; apply in_app_iff; auto.
Qed.
(** the variables of universal effects are not keys *)
Lemma uni_vars vs : forallb is_var vs = true -> (forall v, In v (vars_of vs) -> ~ In v P) -> filter (fun v => negb (in_subst (of_vars s) v)) vs = vs.
Proof.
  induction vs as [|v vs IH]; intros Hv Hd; [reflexivity|]. cbn [filter forallb] in *. apply andb_true_iff in Hv as [Hv1 Hv2]. destruct v as [x r| | |]; try discriminate. unfold in_subst at 1. rewrite get_t_of_vars.
  destruct (lookup s (x, r)) as [t|] eqn:E; [exfalso; apply lookup_In in E; destruct (Hs _ _ E) as [HP _]; apply (Hd (x, r)); [left; reflexivity|exact HP]|]. cbn [negb]. rewrite IH; auto. intros w Hw. apply Hd. right. exact Hw.
Qed.
Lemma cs : const_subst s.
Proof. intros x t H. exact (proj2 (Hs x t H)). Qed.
Lemma sub_over V f : expression_over P V f -> expression_over P V (subst_formula (of_vars s) f).
Proof.
  intros H. assert (Hc := over_clash P V f s H Hs). destruct H as [A B]. split.
  - intros v Hv. apply (proj2 (free_in_subst_both s) f v Hc) in Hv. unfold free_after in Hv. destruct Hv as (x & X & Y). destruct (lookup s x) as [t|] eqn:E; [|subst; auto]. apply lookup_In in E. destruct (Hs x t E) as [_ (c & r & ->)]. discriminate Y.
  - rewrite (proj2 (binders_subst_both s cs) f Hc). exact B.
Qed.
Lemma sub_twice V f e : expression_over P V f -> true_in D S (subst_formula (of_vars s) (subst_formula (of_vars s) f)) e <-> true_in D S f (env_subst (M := M) s e).
Proof.
  intros H. rewrite (true_sub V _ e (sub_over V f H)), (true_sub V f _ H). apply (true_agree V f _ _ H). intros v _. unfold env_subst. destruct (lookup s v) as [t|] eqn:E; [|reflexivity]. apply lookup_In in E. destruct (Hs v t E) as [_ (c & r & ->)]. reflexivity.
Qed.
Lemma adds_sub eff : forall V eff' e n ss pt, effect_over P V eff -> subst_effect (of_vars s) eff = Ok eff' -> adds D S e eff' n ss pt <-> adds D S (env_subst (M := M) s e) eff n ss pt.
Proof.
  induction eff as [c a|c a|i c l r|c vs es IH|c l|c] using effect_ind_nested; intros V eff' e n ss pt Ho E; cbn [subst_effect] in E.
  - injection E as <-. destruct Ho as [Hc Ha]. rewrite (subst_f_unfold s a). split; intros H.
    + destruct a as [| |p ts|k fs|q vs g]; inversion H as [? ? ? ? ts' Hc'|]; subst. rewrite map_map. rewrite (map_ext_in _ (fun t => value D S t (env_subst (M := M) s e)) ts) by (intros t Ht; exact (value_sub V _ ts t e Ha Ht)). constructor. apply (true_sub V c e Hc). exact Hc'.
    + inversion H as [? ? ? ? ts' Hc'|]; subst. rewrite <- (map_ext_in (fun t => value D S (subst_term (of_vars s) t) e) (fun t => value D S t (env_subst (M := M) s e)) ts') by (intros t Ht; exact (value_sub V _ ts' t e Ha Ht)). rewrite <- (map_map (subst_term (of_vars s)) (fun t => value D S t e)). constructor. apply (true_sub V c e Hc). exact Hc'.
  - injection E as <-. split; intros H; inversion H.
  - injection E as <-. split; intros H; inversion H.
  - destruct (mapM (subst_effect (of_vars s)) es) as [es'|] eqn:Ee; [|discriminate]. cbn [bind] in E. injection E as <-. cbn [effect_over] in Ho. destruct Ho as (Hc & Hv & Hd & Hes). rewrite fold_Forall in Hes. rewrite Forall_forall in IH, Hes. rewrite (uni_vars vs Hv Hd). apply mapM_Forall2 in Ee.
    split; intros H; inversion H as [|? ? ? ? e1 eff ? ? ? Hc' [R1 R2] Hin Had]; subst.
    + destruct (Forall2_In_r _ _ _ _ Ee Hin) as (eff0 & Hin0 & E0). apply (adds_universal D S _ c vs es (env_subst (M := M) s e1) eff0); [apply (sub_twice V c e Hc); exact Hc'| |exact Hin0|apply (IH eff0 Hin0 _ eff e1 n ss pt (Hes _ Hin0) E0); exact Had].
      split; intros v Hin'.
      * destruct (R1 v Hin') as (cs0 & A & B). exists cs0. split; [exact A|]. unfold env_subst. destruct (lookup s v) as [t|] eqn:El; [|exact B]. apply lookup_In in El. destruct (Hs _ _ El) as [X _]. destruct (Hd v Hin' X).
      * unfold env_subst. destruct (lookup s v) as [t|] eqn:El; [|exact (R2 v Hin')]. apply lookup_In in El. destruct (Hs _ _ El) as [_ (c0 & r0 & ->)]. reflexivity.
    + destruct (Forall2_In_l _ _ _ _ Ee Hin) as (eff' & Hin' & E'). apply (adds_universal D S e _ vs es' (fun v => if mem_var v (vars_of vs) then e1 v else e v) eff'); [apply (sub_twice V c e Hc); exact Hc'| |exact Hin'|].
      * split; intros v Hv'; [assert (Em : mem_var v (vars_of vs) = true) by now apply mem_var_In|assert (Em : mem_var v (vars_of vs) = false) by now apply mem_var_false]; rewrite Em; auto.
      * apply (IH eff Hin _ eff' _ n ss pt (Hes _ Hin) E'). apply (adds_agree eff (vars_of vs ++ V)%list e1); [auto| |exact Had]. intros v _. unfold env_subst. destruct (mem_var v (vars_of vs)) eqn:Em.
        -- apply mem_var_In in Em. destruct (lookup s v) as [t|] eqn:El; [|reflexivity]. apply lookup_In in El. destruct (Hs _ _ El) as [X _]. destruct (Hd v Em X).
        -- apply mem_var_false in Em. rewrite (R2 v Em). unfold env_subst. destruct (lookup s v) as [t|] eqn:El; [|reflexivity]. apply lookup_In in El. destruct (Hs _ _ El) as [_ (c0 & r0 & ->)]. reflexivity.
  - injection E as <-. split; intros H; inversion H.
  - discriminate.
Qed.
Lemma deletes_sub eff : forall V eff' e n ss pt, effect_over P V eff -> subst_effect (of_vars s) eff = Ok eff' -> deletes D S e eff' n ss pt <-> deletes D S (env_subst (M := M) s e) eff n ss pt.
Proof.
  induction eff as [c a|c a|i c l r|c vs es IH|c l|c] using effect_ind_nested; intros V eff' e n ss pt Ho E; cbn [subst_effect] in E.
  - injection E as <-. split; intros H; inversion H.
  - injection E as <-. destruct Ho as [Hc Ha]. rewrite (subst_f_unfold s a). split; intros H.
    + destruct a as [| |p ts|k fs|q vs g]; inversion H as [? ? ? ? ts' Hc'|]; subst. rewrite map_map. rewrite (map_ext_in _ (fun t => value D S t (env_subst (M := M) s e)) ts) by (intros t Ht; exact (value_sub V _ ts t e Ha Ht)). constructor. apply (true_sub V c e Hc). exact Hc'.
    + inversion H as [? ? ? ? ts' Hc'|]; subst. rewrite <- (map_ext_in (fun t => value D S (subst_term (of_vars s) t) e) (fun t => value D S t (env_subst (M := M) s e)) ts') by (intros t Ht; exact (value_sub V _ ts' t e Ha Ht)). rewrite <- (map_map (subst_term (of_vars s)) (fun t => value D S t e)). constructor. apply (true_sub V c e Hc). exact Hc'.
  - injection E as <-. split; intros H; inversion H.
  - destruct (mapM (subst_effect (of_vars s)) es) as [es'|] eqn:Ee; [|discriminate]. cbn [bind] in E. injection E as <-. cbn [effect_over] in Ho. destruct Ho as (Hc & Hv & Hd & Hes). rewrite fold_Forall in Hes. rewrite Forall_forall in IH, Hes. rewrite (uni_vars vs Hv Hd). apply mapM_Forall2 in Ee.
    split; intros H; inversion H as [|? ? ? ? e1 eff ? ? ? Hc' [R1 R2] Hin Had]; subst.
    + destruct (Forall2_In_r _ _ _ _ Ee Hin) as (eff0 & Hin0 & E0). apply (deletes_universal D S _ c vs es (env_subst (M := M) s e1) eff0); [apply (sub_twice V c e Hc); exact Hc'| |exact Hin0|apply (IH eff0 Hin0 _ eff e1 n ss pt (Hes _ Hin0) E0); exact Had].
      split; intros v Hin'.
      * destruct (R1 v Hin') as (cs0 & A & B). exists cs0. split; [exact A|]. unfold env_subst. destruct (lookup s v) as [t|] eqn:El; [|exact B]. apply lookup_In in El. destruct (Hs _ _ El) as [X _]. destruct (Hd v Hin' X).
      * unfold env_subst. destruct (lookup s v) as [t|] eqn:El; [|exact (R2 v Hin')]. apply lookup_In in El. destruct (Hs _ _ El) as [_ (c0 & r0 & ->)]. reflexivity.
    + destruct (Forall2_In_l _ _ _ _ Ee Hin) as (eff' & Hin' & E'). apply (deletes_universal D S e _ vs es' (fun v => if mem_var v (vars_of vs) then e1 v else e v) eff'); [apply (sub_twice V c e Hc); exact Hc'| |exact Hin'|].
      * split; intros v Hv'; [assert (Em : mem_var v (vars_of vs) = true) by now apply mem_var_In|assert (Em : mem_var v (vars_of vs) = false) by now apply mem_var_false]; rewrite Em; auto.
      * apply (IH eff Hin _ eff' _ n ss pt (Hes _ Hin) E'). apply (deletes_agree eff (vars_of vs ++ V)%list e1); [auto| |exact Had]. intros v _. unfold env_subst. destruct (mem_var v (vars_of vs)) eqn:Em.
        -- apply mem_var_In in Em. destruct (lookup s v) as [t|] eqn:El; [|reflexivity]. apply lookup_In in El. destruct (Hs _ _ El) as [X _]. destruct (Hd v Em X).
        -- apply mem_var_false in Em. rewrite (R2 v Em). unfold env_subst. destruct (lookup s v) as [t|] eqn:El; [|reflexivity]. apply lookup_In in El. destruct (Hs _ _ El) as [_ (c0 & r0 & ->)]. reflexivity.
  - injection E as <-. split; intros H; inversion H.
  - discriminate.
Qed.
End Sub.
