(** C28: the delete relaxation *)
From Verif Require Import ListUtil Base Syntax Semantics SemLemmas FolSpec Build ModelState ModelSpec ModelProofs Eval Subst SubstProofs QElim Effects ProgressSpec StateLemmas ProgressProofs PropsProgress SearchModelProofs Represent RelaxSpec.

(** * The relaxation as a syntactic operation *)
Lemma remove_cons x xs : remove_delete_effects (x :: xs) = (let! l := relax_effect x in let! r := remove_delete_effects xs in Ok (l ++ r)%list).
Proof. reflexivity. Qed.
Lemma relax_uni c vs es : relax_effect (EUni c vs es) = (let! es' := remove_delete_effects es in Ok [EUni c vs es']).
Proof. reflexivity. Qed.
Lemma relax_total : forall e, (exists l, relax_effect e = Ok l) <-> add_delete_only e = true.
Proof.
  induction e as [| | |c vs es IH| |] using effect_ind_nested; try (cbn; split; [intros [? ?]; discriminate|discriminate]); try (split; [reflexivity|eexists; reflexivity]).
  rewrite relax_uni. cbn [add_delete_only]. transitivity (exists l, remove_delete_effects es = Ok l).
  - split; [intros [l H]; destruct (remove_delete_effects es); [eauto|discriminate]|intros [l ->]; eexists; reflexivity].
  - clear c vs. induction IH as [|e es He _ IH]; [cbn; split; eauto|]. rewrite remove_cons. cbn [forallb]. rewrite andb_true_iff, <- He, <- IH. split.
    + intros [l H]. destruct (relax_effect e); [|discriminate]. cbn [bind] in H. destruct (remove_delete_effects es); [|discriminate]. eauto.
    + intros [[l ->] [r ->]]. eexists. reflexivity.
Qed.
Lemma relax_err : forall e x, relax_effect e = Err x -> x = RuntimeError.
Proof.
  induction e as [| | |c vs es IH| |] using effect_ind_nested; intros x H; try discriminate; try (cbn in H; congruence). rewrite relax_uni in H. destruct (remove_delete_effects es) as [|y] eqn:E; [discriminate|]. cbn [bind] in H. injection H as <-.
  clear c vs. induction IH as [|e es He _ IH]; [discriminate|]. rewrite remove_cons in E. destruct (relax_effect e) as [l|z]; [|cbn [bind] in E; injection E as <-; auto]. cbn [bind] in E. destruct (remove_delete_effects es); [discriminate|]. cbn [bind] in E. injection E as <-. auto.
Qed.
Lemma relax_no_delete : forall e l, relax_effect e = Ok l -> forallb no_delete l = true /\ forallb add_delete_only l = true.
Proof.
  induction e as [| | |c vs es IH| |] using effect_ind_nested; intros lx H; try discriminate; try (injection H as <-; split; reflexivity).
  rewrite relax_uni in H. destruct (remove_delete_effects es) as [es'|] eqn:E; [|discriminate]. cbn [bind] in H. injection H as <-. cbn [forallb no_delete add_delete_only]. rewrite !andb_true_r. clear c vs.
  revert es' E. induction IH as [|e es He _ IH]; intros es' E; [injection E as <-; split; reflexivity|]. rewrite remove_cons in E. destruct (relax_effect e) as [l|]; [|discriminate]. cbn [bind] in E. destruct (remove_delete_effects es) as [r|]; [|discriminate]. cbn [bind] in E. injection E as <-.
  rewrite !forallb_app. destruct (He l eq_refl) as [-> ->], (IH r eq_refl) as [-> ->]. split; reflexivity.
Qed.
Lemma remove_no_delete es es' : remove_delete_effects es = Ok es' -> forallb no_delete es' = true /\ forallb add_delete_only es' = true.
Proof.
  intros E. assert (H := relax_no_delete (EUni Top [] es) [EUni Top [] es']). rewrite relax_uni, E in H. specialize (H eq_refl). cbn [forallb no_delete add_delete_only] in H. rewrite !andb_true_r in H. exact H.
Qed.
Lemma contains_spec : forall e, add_delete_only e = true -> contains_delete_subeffects e = Ok (negb (no_delete e)).
Proof.
  induction e as [| | |c vs es IH| |] using effect_ind_nested; intros H; try discriminate; try reflexivity. cbn [contains_delete_subeffects no_delete add_delete_only] in *. clear c vs.
  induction IH as [|e es He _ IH]; [reflexivity|]. cbn [forallb] in *. apply andb_true_iff in H as [H1 H2]. rewrite (He H1). cbn [bind]. destruct (no_delete e); cbn [negb andb]; auto.
Qed.
Lemma delete_free_spec p : (forall a e, In a (p_actions p) -> In e (a_effs a) -> add_delete_only e = true) ->
  is_delete_free p = Ok (forallb (fun a => forallb no_delete (a_effs a)) (p_actions p)).
Proof.
  intros H. unfold is_delete_free. assert (A : forall es, (forall e, In e es -> add_delete_only e = true) -> any_res contains_delete_subeffects es = Ok (negb (forallb no_delete es))).
  { induction es as [|e es IH]; intros He; [reflexivity|]. cbn [any_res forallb]. rewrite contains_spec by (apply He; left; auto). cbn [bind]. destruct (no_delete e); cbn [negb andb]; [apply IH; intros; apply He; right; auto|reflexivity]. }
  set (acts := p_actions p) in *. clearbody acts. induction acts as [|a acts IH]; [reflexivity|]. cbn [any_res forallb]. rewrite A by (intros; apply (H a); [left; auto|auto]). cbn [bind]. destruct (forallb no_delete (a_effs a)); cbn [negb andb bind].
  - apply IH. intros a' e Ha. apply H. right; auto.
  - reflexivity.
Qed.
Definition same_but_effects (a a' : action) : Prop := a_name a' = a_name a /\ a_params a' = a_params a /\ a_pre a' = a_pre a.
(** The relaxation fails exactly on problems with effects other than add, delete and universal ones; otherwise it only changes effects, and its result has
    no delete effect at any depth, which the library's own check confirms. *)
Theorem C28_delete_free p : match compute_delete_free_relaxation p with
  | Ok p' => p_init p' = p_init p /\ p_goal p' = p_goal p /\ Forall2 same_but_effects (p_actions p) (p_actions p') /\
             (forall a e, In a (p_actions p') -> In e (a_effs a) -> no_delete e = true) /\ is_delete_free p' = Ok true
  | Err x => x = RuntimeError /\ exists a e, In a (p_actions p) /\ In e (a_effs a) /\ add_delete_only e = false
  end.
Proof.
  unfold compute_delete_free_relaxation. destruct (mapM relax_action (p_actions p)) as [acts|x] eqn:E; cbn [bind].
  - apply mapM_ok_Forall2 in E. assert (F : forall a, In a acts -> forallb no_delete (a_effs a) = true /\ forallb add_delete_only (a_effs a) = true).
    { intros a Ha. destruct (Forall2_In_r _ _ _ _ E Ha) as (a0 & _ & H). unfold relax_action in H. destruct (remove_delete_effects (a_effs a0)) as [es|] eqn:R; [|discriminate]. cbn [bind] in H. injection H as <-. cbn. eapply remove_no_delete; eauto. }
    cbn [p_init p_goal p_actions]. split; [auto|]. split; [auto|]. split; [|split].
    + eapply Forall2_impl_In; [|exact E]. intros a a' _ _ H. unfold relax_action in H. destruct (remove_delete_effects (a_effs a)); [|discriminate]. cbn [bind] in H. injection H as <-. repeat split.
    + intros a e Ha He. destruct (F a Ha) as [H _]. rewrite forallb_forall in H. auto.
    + rewrite delete_free_spec.
      * cbn [p_actions]. f_equal. apply forallb_forall. intros a Ha. apply F; auto.
      * cbn [p_actions]. intros a e Ha He. destruct (F a Ha) as [_ H]. rewrite forallb_forall in H. auto.
  - set (l := p_actions p) in *. clearbody l. clear p. induction l as [|a l IH]; [discriminate|]. cbn [mapM] in E. destruct (relax_action a) as [a'|y] eqn:R.
    + destruct (mapM relax_action l) as [|z]; [discriminate|]. injection E as <-. destruct (IH eq_refl) as (-> & b & e & Hb & He & H). split; [auto|]. exists b, e. split; [right; auto|auto].
    + injection E as <-. unfold relax_action in R. destruct (remove_delete_effects (a_effs a)) as [|z] eqn:R'; [discriminate|]. cbn [bind] in R. injection R as <-.
      assert (X := relax_err (EUni Top [] (a_effs a)) z). rewrite relax_uni, R' in X. split; [auto|].
      assert (Y : add_delete_only (EUni Top [] (a_effs a)) = false). { apply not_true_iff_false. intros T. apply relax_total in T as [t T]. rewrite relax_uni, R' in T. discriminate. }
      cbn [add_delete_only] in Y. assert (Z : exists e, In e (a_effs a) /\ add_delete_only e = false).
      { clear - Y. induction (a_effs a) as [|e es IH]; [discriminate|]. cbn [forallb] in Y. destruct (add_delete_only e) eqn:Ee; [destruct (IH Y) as (e' & ? & ?); exists e'; split; [right; auto|auto]|exists e; split; [left; auto|auto]]. }
      destruct Z as (e & He & Z). exists a, e. split; [left; auto|auto].
Qed.

(** * Monotonicity *)
Lemma ite_free_preds : forall t, ite_free t = true -> t_preds t = [].
Proof.
  apply (term_ind_nested (fun t => ite_free t = true -> t_preds t = []) (fun _ => True)); auto; try discriminate. intros f ts IH H. cbn in *. induction IH as [|t ts Ht _ IH]; [reflexivity|]. cbn in *. apply andb_true_iff in H as [H1 H2]. rewrite Ht, IH; auto.
Qed.
Lemma args_same m m' : (forall f pt, m_value m f pt = m_value m' f pt) -> forall ts, forallb ite_free ts = true ->
  (fix args (ts : list term) : res (list term) := match ts with [] => Ok [] | u :: us => match (match u with Var _ _ => Err TypeError | _ => eval_term m u end) with Err e => Err e | Ok v => match args us with Err e => Err e | Ok vs => Ok (v :: vs) end end end) ts =
  (fix args (ts : list term) : res (list term) := match ts with [] => Ok [] | u :: us => match (match u with Var _ _ => Err TypeError | _ => eval_term m' u end) with Err e => Err e | Ok v => match args us with Err e => Err e | Ok vs => Ok (v :: vs) end end end) ts.
Proof.
  intros V. induction ts as [|t ts IH]; intros H; [reflexivity|]. cbn [forallb] in H. apply andb_true_iff in H as [H1 H2]. rewrite IH by auto.
  rewrite (proj1 (eval_local m m') t); [reflexivity| |auto]. rewrite ite_free_preds by auto. intros ? ? [].
Qed.
Lemma atom_mono m m' p ts : included m m' -> forallb ite_free ts = true -> (exists b, eval_f m (Atom p ts) = Ok b) ->
  exists b b', eval_f m (Atom p ts) = Ok b /\ eval_f m' (Atom p ts) = Ok b' /\ (b = true -> b' = true).
Proof.
  intros [H V] Hi [b E]. exists b. destruct p as [q|n ss]; cbn [eval_f] in *.
  - destruct ts as [|x [|y [|]]]; try discriminate. rewrite <- (args_same m m' V [x; y] Hi). exists b. auto.
  - rewrite <- (args_same m m' V ts Hi). match goal with |- context [match ?a with Ok _ => _ | Err _ => _ end] => destruct a as [vs|] end; [|discriminate]. injection E as <-. eexists. repeat split; auto.
Qed.
Lemma eval_mono m m' : included m m' -> forall f, positive f = true -> evaluable m f -> exists b b', eval_f m f = Ok b /\ eval_f m' f = Ok b' /\ (b = true -> b' = true).
Proof.
  intros Hi. induction f as [| |p ts|c fs IH|q vs f IH] using formula_ind_simple; intros Hp He; try discriminate.
  - exists true, true. auto.
  - exists false, false. auto.
  - apply atom_mono; auto. apply He. left. auto.
  - destruct c; [| |discriminate]; cbn [positive eval_f] in *.
    + unfold evaluable in He. cbn [atoms_of] in He. induction IH as [|g gs Hg _ IHs]; [exists true, true; auto|]. cbn [forallb flat_map] in *. apply andb_true_iff in Hp as [P1 P2].
      destruct (Hg P1) as (b & b' & E & E' & I); [intros a Ha; apply He; apply in_or_app; auto|]. destruct IHs as (c & c' & F & F' & J); [auto|intros a Ha; apply He; apply in_or_app; auto|].
      rewrite E, E'. destruct b; [rewrite (I eq_refl); eauto|]. exists false. destruct b'; [exists c'|exists false]; repeat split; auto; discriminate.
    + unfold evaluable in He. cbn [atoms_of] in He. induction IH as [|g gs Hg _ IHs]; [exists false, false; auto|]. cbn [forallb flat_map] in *. apply andb_true_iff in Hp as [P1 P2].
      destruct (Hg P1) as (b & b' & E & E' & I); [intros a Ha; apply He; apply in_or_app; auto|]. destruct IHs as (c & c' & F & F' & J); [auto|intros a Ha; apply He; apply in_or_app; auto|].
      rewrite E, E'. destruct b; [rewrite (I eq_refl); exists true, true; auto|]. destruct b'; [exists c, true; auto|]. exists c, c'. auto.
Qed.
Lemma atoms_ite_free f : positive f = true -> forall a, In a (atoms_of f) -> exists p ts, a = Atom p ts /\ forallb ite_free ts = true.
Proof.
  induction f as [| |p ts|c fs IH|q vs f IH] using formula_ind_simple; intros H a Ha; try contradiction; try discriminate.
  - destruct Ha as [<-|[]]. eauto.
  - cbn [atoms_of] in Ha. apply in_flat_map in Ha as (g & Hg & Ha). rewrite Forall_forall in IH. apply (IH g); auto. cbn [positive] in H. destruct c; try discriminate; rewrite forallb_forall in H; auto.
Qed.
Definition same_values (m m' : model) : Prop := forall f pt, m_value m f pt = m_value m' f pt.
Lemma evaluable_same m m' f : same_values m m' -> positive f = true -> evaluable m f -> evaluable m' f.
Proof.
  intros V P H a Ha. destruct (atoms_ite_free f P a Ha) as (p & ts & -> & Hi). destruct (H _ Ha) as [b E]. destruct p as [q|n ss]; cbn [eval_f] in *.
  - destruct ts as [|x [|y [|]]]; try discriminate. rewrite <- (args_same m m' V [x; y] Hi). eauto.
  - rewrite <- (args_same m m' V ts Hi). match goal with |- context [match ?a with Ok _ => _ | Err _ => _ end] => destruct a as [vs|] end; [|discriminate]. eauto.
Qed.

(** * Substitution and relaxation *)
Lemma subst_total s : forall e, add_delete_only e = true -> exists e', subst_effect s e = Ok e'.
Proof.
  induction e as [| | |c vs es IH| |] using effect_ind_nested; intros H; try discriminate; try (eexists; reflexivity). cbn [subst_effect add_delete_only] in *.
  assert (X : exists l, mapM (subst_effect s) es = Ok l). { clear c vs. induction IH as [|e es He _ IH]; [eexists; reflexivity|]. cbn [forallb] in H. apply andb_true_iff in H as [H1 H2]. destruct (He H1) as [e' E], (IH H2) as [l L]. cbn [mapM]. rewrite E, L. eauto. }
  destruct X as [l ->]. eexists. reflexivity.
Qed.
Lemma mapM_app {A B} (f : A -> res B) l1 l2 r1 r2 : mapM f l1 = Ok r1 -> mapM f l2 = Ok r2 -> mapM f (l1 ++ l2) = Ok (r1 ++ r2)%list.
Proof. revert r1. induction l1 as [|x l1 IH]; intros r1 H1 H2; [injection H1 as <-; auto|]. cbn [mapM app] in *. destruct (f x); [|discriminate]. destruct (mapM f l1) as [r|]; [|discriminate]. injection H1 as <-. rewrite (IH r eq_refl H2). reflexivity. Qed.
Lemma relax_subst s : forall e l e', relax_effect e = Ok l -> subst_effect s e = Ok e' -> exists l', relax_effect e' = Ok l' /\ mapM (subst_effect s) l = Ok l'.
Proof.
  induction e as [| | |c vs es IH| |] using effect_ind_nested; intros lx e' H S; try discriminate; try (injection H as <-; injection S as <-; eexists; split; reflexivity).
  rewrite relax_uni in H. cbn [subst_effect] in S. destruct (remove_delete_effects es) as [r|] eqn:E; [|discriminate]. destruct (mapM (subst_effect s) es) as [es'|] eqn:M; [|discriminate]. cbn [bind] in *. injection H as <-. injection S as <-.
  assert (X : exists r', remove_delete_effects es' = Ok r' /\ mapM (subst_effect s) r = Ok r').
  { clear c vs. revert r es' E M. induction IH as [|e es He _ IH]; intros r es' E M; [injection E as <-; injection M as <-; exists []; split; reflexivity|].
    rewrite remove_cons in E. cbn [mapM] in M. destruct (relax_effect e) as [l|]; [|discriminate]. cbn [bind] in E. destruct (remove_delete_effects es) as [r0|]; [|discriminate]. cbn [bind] in E. injection E as <-.
    destruct (subst_effect s e) as [e'|]; [|discriminate]. destruct (mapM (subst_effect s) es) as [es0|]; [|discriminate]. injection M as <-.
    destruct (He l e' eq_refl eq_refl) as (l' & R1 & M1), (IH r0 es0 eq_refl eq_refl) as (r' & R2 & M2). exists (l' ++ r')%list. rewrite remove_cons, R1, R2. cbn [bind]. split; [reflexivity|]. apply mapM_app; auto. }
  destruct X as (r' & R & M'). rewrite relax_uni, R. cbn [bind]. eexists. split; [reflexivity|]. cbn [mapM subst_effect]. rewrite M'. reflexivity.
Qed.
Lemma remove_subst s es r es' : remove_delete_effects es = Ok r -> mapM (subst_effect s) es = Ok es' -> exists r', remove_delete_effects es' = Ok r' /\ mapM (subst_effect s) r = Ok r'.
Proof.
  revert r es'. induction es as [|e es IH]; intros r es' E M; [injection E as <-; injection M as <-; exists []; split; reflexivity|].
  rewrite remove_cons in E. cbn [mapM] in M. destruct (relax_effect e) as [l|] eqn:R0; [|discriminate]. cbn [bind] in E. destruct (remove_delete_effects es) as [r0|]; [|discriminate]. cbn [bind] in E. injection E as <-.
  destruct (subst_effect s e) as [e'|] eqn:S0; [|discriminate]. destruct (mapM (subst_effect s) es) as [es0|]; [|discriminate]. injection M as <-.
  destruct (relax_subst s e l e' R0 S0) as (l' & R1 & M1), (IH r0 es0 eq_refl eq_refl) as (r' & R2 & M2). exists (l' ++ r')%list. rewrite remove_cons, R1, R2. cbn [bind]. split; [reflexivity|]. apply mapM_app; auto.
Qed.

(** * Simulation *)
Section Sim.
Variables (D : domains) (sub : sort -> sort -> bool).
Notation apply := (apply_effect D sub).
Notation run := (run_effects D sub).
Lemma apply_uni m c vs es : apply m (EUni c vs es) =
  (let! b := eval_f m c in if negb b then Ok m else let! ss := enumerate_substitutions D vs in loop_with (fun s m => run_with (fun m e => let! e' := subst_effect s e in apply m e') es m) ss m).
Proof.
  unfold apply_effect. cbn [edepth apply_effect_n econd]. destruct (eval_f m c) as [b|]; cbn [bind]; [|reflexivity]. destruct (negb b); [reflexivity|]. destruct (enumerate_substitutions D vs) as [ss|]; cbn [bind]; [|reflexivity].
  set (k := fold_right (fun e n => Nat.max (edepth e) n) 0 es).
  refine (loop_ext (fun s m => run_with (fun m e => let! e' := subst_effect s e in apply_effect_n D sub k m e') es m) (fun s m => run_with (fun m e => let! e' := subst_effect s e in apply_effect_n D sub (edepth e') m e') es m) _ ss m).
  intros s m1. apply run_with_ext. intros m0 e He. destruct (subst_effect s e) as [e'|] eqn:Es; [|reflexivity]. cbn [bind]. apply fuel_irrelevant. rewrite (subst_effect_depth s e e' Es). apply depth_le. auto.
Qed.
Lemma run_app l1 l2 m : run (l1 ++ l2) m = (let! m' := run l1 m in run l2 m').
Proof. apply run_with_app. Qed.
Variable m0 : model.
(** The relaxed counterpart of an effect always runs, and only adds. *)
Definition grows (l : list effect) : Prop := forall m, proper m -> same_values m0 m -> exists m', run l m = Ok m' /\ proper m' /\ included m m'.
Definition simulates (es l : list effect) : Prop := forall m m1 mp, proper m -> proper mp -> same_values m0 m -> included m mp -> run es m = Ok m1 ->
  exists mp1, run l mp = Ok mp1 /\ proper m1 /\ proper mp1 /\ same_values m0 m1 /\ included m1 mp1.
Lemma included_refl m : included m m. Proof. split; auto. Qed.
Lemma included_trans a b c : included a b -> included b c -> included a c. Proof. intros [A B] [A' B']. split; auto. intros. rewrite B. auto. Qed.
Lemma grows_app l1 l2 : grows l1 -> grows l2 -> grows (l1 ++ l2).
Proof.
  intros G1 G2 m P V. destruct (G1 m P V) as (m1 & E1 & P1 & I1). destruct (G2 m1 P1) as (m2 & E2 & P2 & I2); [intros f pt; rewrite V; apply I1|]. exists m2. rewrite run_app, E1. cbn [bind]. split; [auto|]. split; [auto|]. eapply included_trans; eauto.
Qed.
Lemma grows_nil : grows []. Proof. intros m P V. exists m. split; [reflexivity|]. split; [auto|apply included_refl]. Qed.
Lemma sim_app e1 e2 l1 l2 : simulates e1 l1 -> simulates e2 l2 -> simulates (e1 ++ e2) (l1 ++ l2).
Proof.
  intros S1 S2 m m2 mp P Pp V I H. rewrite run_app in H. destruct (run e1 m) as [m1|] eqn:E1; [|discriminate]. cbn [bind] in H. destruct (S1 m m1 mp P Pp V I E1) as (mp1 & F1 & P1 & Pp1 & V1 & I1).
  destruct (S2 m1 m2 mp1 P1 Pp1 V1 I1 H) as (mp2 & F2 & R). exists mp2. rewrite run_app, F1. cbn [bind]. auto.
Qed.
Lemma sim_nil : simulates [] []. Proof. intros m m1 mp P Pp V I H. cbn in H. injection H as <-. exists mp. split; [reflexivity|]. auto. Qed.
Lemma run_one e m : run [e] m = apply m e. Proof. unfold run_effects. cbn [run_with]. destruct (apply m e); reflexivity. Qed.
Lemma add_included m p a m' : m_add sub m p a = Ok m' -> proper m -> proper m' /\ included m m'.
Proof. intros H P. destruct (add_spec sub m p a m' H P) as (P' & H' & V'). split; [auto|]. split; [intros q b X; rewrite H', X; apply orb_true_r|intros; symmetry; auto]. Qed.

(** Lists of instances of the sub-effects of a universal effect *)
Lemma remove_lists (P : effect -> list effect -> Prop) es r : (forall e l, In e es -> relax_effect e = Ok l -> P e l) -> remove_delete_effects es = Ok r -> exists ls, Forall2 (fun e l => relax_effect e = Ok l /\ P e l) es ls /\ r = List.concat ls.
Proof.
  revert r. induction es as [|e es IH]; intros r H E; [injection E as <-; exists []; split; [constructor|reflexivity]|]. rewrite remove_cons in E. destruct (relax_effect e) as [l|] eqn:R; [|discriminate]. cbn [bind] in E.
  destruct (remove_delete_effects es) as [r0|] eqn:R0; [|discriminate]. cbn [bind] in E. injection E as <-. destruct (IH r0) as (ls & F & ->); [intros e' l' He; apply H; right; auto|auto|]. exists (l :: ls). split; [|reflexivity]. constructor; [split; [auto|apply H; [left; auto|auto]]|auto].
Qed.
Lemma grows_list es r : (forall e l, In e es -> relax_effect e = Ok l -> grows l) -> remove_delete_effects es = Ok r -> grows r.
Proof. intros H E. destruct (remove_lists (fun _ l => grows l) es r H E) as (ls & F & ->). clear - F. induction F as [|e l es ls [_ G] F IH]; [apply grows_nil|]. cbn [List.concat]. apply grows_app; auto. Qed.
Lemma sim_list es r : (forall e l, In e es -> relax_effect e = Ok l -> simulates [e] l) -> remove_delete_effects es = Ok r -> simulates es r.
Proof. intros H E. destruct (remove_lists (fun e l => simulates [e] l) es r H E) as (ls & F & ->). clear - F. induction F as [|e l es ls [_ G] F IH]; [apply sim_nil|]. cbn [List.concat]. apply (sim_app [e] es); auto. Qed.

Lemma typed_add m a : typed_atom sub a -> exists p ts m', a = Atom p ts /\ m_add sub m p ts = Ok m'.
Proof.
  intros (n & ss & ts & -> & F). exists (PU n ss), ts. assert (X : is_ok (m_add sub m (PU n ss) ts) = true) by (apply add_ok; exists n, ss; auto). destruct (m_add sub m (PU n ss) ts) as [m'|]; [|discriminate]. eauto.
Qed.
Lemma inner_run s es es' : mapM (subst_effect s) es = Ok es' -> forall m, run_with (fun m e => let! e' := subst_effect s e in apply m e') es m = run es' m.
Proof. intros M m. apply (run_mapM apply (subst_effect s) es es' M). Qed.
Lemma mapM_forall2_In {A B} (f : A -> res B) l l' y : mapM f l = Ok l' -> In y l' -> exists x, In x l /\ f x = Ok y.
Proof. intros H Hy. apply mapM_ok_Forall2 in H. destruct (Forall2_In_r _ _ _ _ H Hy) as (x & ? & ?). eauto. Qed.

Lemma positive_grows e : positive_effect D sub m0 e -> forall l, relax_effect e = Ok l -> grows l.
Proof.
  induction 1 as [c a Hc Ec Ta|c a Hc Ec Ta|c vs es ss Hc Ec Es Hes IH]; intros l R.
  - injection R as <-. intros m P V. destruct (eval_mono m0 m0 (included_refl m0) c Hc Ec) as (b & _ & Eb & _).
    destruct (eval_mono m m (included_refl m) c Hc (evaluable_same m0 m c V Hc Ec)) as (b1 & _ & Eb1 & _). rewrite run_one. unfold apply_effect. cbn [edepth apply_effect_n econd]. rewrite Eb1. cbn [bind]. destruct b1; cbn [negb].
    + destruct (typed_add m a Ta) as (p & ts & m' & -> & A). rewrite A. exists m'. destruct (add_included m p ts m' A P). auto.
    + exists m. split; [auto|]. split; [auto|apply included_refl].
  - injection R as <-. apply grows_nil.
  - rewrite relax_uni in R. destruct (remove_delete_effects es) as [es'|] eqn:RE; [|discriminate]. cbn [bind] in R. injection R as <-. intros m P V.
    destruct (eval_mono m m (included_refl m) c Hc (evaluable_same m0 m c V Hc Ec)) as (b1 & _ & Eb1 & _). rewrite run_one, apply_uni, Eb1. cbn [bind]. destruct b1; cbn [negb]; [|exists m; split; [auto|]; split; [auto|apply included_refl]].
    rewrite Es. cbn [bind]. assert (T : forall e, In e es -> add_delete_only e = true).
    { intros e He. apply relax_total. destruct (remove_lists (fun _ _ => True) es es' (fun _ _ _ _ => I) RE) as (ls & F & _). destruct (Forall2_In_l _ _ _ _ F He) as (l & _ & E & _). eauto. }
    assert (G : forall s, In s ss -> exists esr, mapM (subst_effect s) es' = Ok esr /\ grows esr).
    { intros s Hs. assert (X : exists ess, mapM (subst_effect s) es = Ok ess). { clear - T. induction es as [|e es IH]; [eexists; reflexivity|]. destruct (subst_total s e) as [e' E]; [apply T; left; auto|]. destruct IH as [l L]; [intros; apply T; right; auto|]. cbn [mapM]. rewrite E, L. eauto. }
      destruct X as [ess M]. destruct (remove_subst s es es' ess RE M) as (esr & R2 & M2). exists esr. split; [auto|]. apply (grows_list ess esr); [|auto].
      intros e l He Rl. destruct (mapM_forall2_In _ _ _ _ M He) as (e1 & He1 & Se). eapply IH; eauto. }
    clear Es Hes IH Eb1. revert m P V. induction ss as [|s ss IHs]; intros m P V; [exists m; cbn; split; [auto|]; split; [auto|apply included_refl]|].
    destruct (G s (or_introl eq_refl)) as (esr & M & Gr). cbn [loop_with]. rewrite (inner_run s es' esr M). destruct (Gr m P V) as (m1 & E1 & P1 & I1). rewrite E1. cbn [bind].
    destruct (IHs (fun s Hs => G s (or_intror Hs)) m1 P1) as (m2 & E2 & P2 & I2); [intros f pt; rewrite V; apply I1|]. exists m2. split; [exact E2|]. split; [auto|]. eapply included_trans; eauto.
Qed.
Lemma positive_simulates e : positive_effect D sub m0 e -> forall l, relax_effect e = Ok l -> simulates [e] l.
Proof.
  induction 1 as [c a Hc Ec Ta|c a Hc Ec Ta|c vs es ss Hc Ec Es Hes IH]; intros l R m m1 mp P Pp V I H; rewrite run_one in H.
  - injection R as <-. assert (Vp : same_values m0 mp) by (intros f pt; rewrite V; apply I). destruct (eval_mono m mp I c Hc (evaluable_same m0 m c V Hc Ec)) as (b & b' & Eb & Eb' & J).
    rewrite run_one. unfold apply_effect in *. cbn [edepth apply_effect_n econd] in *. rewrite Eb in H. rewrite Eb'. cbn [bind] in *. destruct b; cbn [negb] in *.
    + rewrite (J eq_refl). cbn [negb]. destruct (typed_add mp a Ta) as (p & ts & mp1 & -> & A). exists mp1. split; [auto|]. destruct (add_spec sub m p ts m1 H P) as (Q & Q1 & Q2), (add_spec sub mp p ts mp1 A Pp) as (Q' & Q1' & Q2').
      split; [auto|]. split; [auto|]. split; [intros f pt; rewrite Q2; apply V|]. split; [intros q pt; rewrite Q1, Q1'; destruct (same_atom _ _ _ _); [auto|apply I]|intros f pt; rewrite Q2, Q2'; apply I].
    + injection H as <-. destruct b'; cbn [negb].
      * destruct (typed_add mp a Ta) as (p & ts & mp1 & -> & A). exists mp1. destruct (add_included mp p ts mp1 A Pp) as [Q Q']. split; [auto|]. do 3 (split; [auto|]). eapply included_trans; eauto.
      * exists mp. auto.
  - injection R as <-. exists mp. split; [reflexivity|]. destruct (eval_mono m mp I c Hc (evaluable_same m0 m c V Hc Ec)) as (b & b' & Eb & _ & _).
    unfold apply_effect in H. cbn [edepth apply_effect_n econd] in H. rewrite Eb in H. cbn [bind] in H. destruct b; cbn [negb] in H; [|injection H as <-; auto].
    destruct Ta as (n & srt & ts & -> & _). injection H as <-. destruct (discard_spec m (PU n srt) ts P) as (Q & Q1 & Q2). split; [auto|]. split; [auto|]. split; [intros f pt; rewrite Q2; apply V|].
    split; [intros q pt; rewrite Q1; destruct (same_atom _ _ _ _); [discriminate|apply I]|intros f pt; rewrite Q2; apply I].
  - assert (PG := positive_grows (EUni c vs es) (pe_uni D sub m0 c vs es ss Hc Ec Es Hes) l R). rewrite apply_uni in H.
    assert (Vp : same_values m0 mp) by (intros f pt; rewrite V; apply I). destruct (eval_mono m mp I c Hc (evaluable_same m0 m c V Hc Ec)) as (b & b' & Eb & Eb' & J). rewrite Eb in H. cbn [bind] in H. destruct b; cbn [negb] in H.
    2: { injection H as <-. destruct (PG mp Pp Vp) as (mp1 & E & Q & Q'). exists mp1. do 4 (split; [auto|]). eapply included_trans; eauto. }
    rewrite relax_uni in R. destruct (remove_delete_effects es) as [es'|] eqn:RE; [|discriminate]. cbn [bind] in R. injection R as <-. rewrite run_one, apply_uni, Eb', (J eq_refl). cbn [bind negb]. rewrite Es in *. cbn [bind] in *.
    assert (T : forall e, In e es -> add_delete_only e = true).
    { intros e He. apply relax_total. destruct (remove_lists (fun _ _ => True) es es' (fun _ _ _ _ => Logic.I) RE) as (ls & F & _). destruct (Forall2_In_l _ _ _ _ F He) as (l & _ & E & _). eauto. }
    assert (G : forall s, In s ss -> exists ess esr, mapM (subst_effect s) es = Ok ess /\ mapM (subst_effect s) es' = Ok esr /\ simulates ess esr).
    { intros s Hs. assert (X : exists ess, mapM (subst_effect s) es = Ok ess). { clear - T. induction es as [|e es IH]; [eexists; reflexivity|]. destruct (subst_total s e) as [e' E]; [apply T; left; auto|]. destruct IH as [l L]; [intros; apply T; right; auto|]. cbn [mapM]. rewrite E, L. eauto. }
      destruct X as [ess M]. destruct (remove_subst s es es' ess RE M) as (esr & R2 & M2). exists ess, esr. split; [auto|]. split; [auto|]. apply (sim_list ess esr); [|auto].
      intros e l He Rl. destruct (mapM_forall2_In _ _ _ _ M He) as (e1 & He1 & Se). eapply IH; eauto. }
    clear Es Hes IH Eb Eb' PG. revert m mp m1 P Pp V I H Vp. induction ss as [|s ss IHs]; intros m mp m1 P Pp V I H Vp; [cbn in H; injection H as <-; exists mp; cbn; auto|].
    destruct (G s (or_introl eq_refl)) as (ess & esr & M & M' & Gr). cbn [loop_with] in *. rewrite (inner_run s es' esr M'). rewrite (inner_run s es ess M) in H. destruct (run ess m) as [m2|] eqn:E2; [|discriminate]. cbn [bind] in H.
    destruct (Gr m m2 mp P Pp V I E2) as (mp2 & F2 & P2 & Pp2 & V2 & I2). rewrite F2. cbn [bind]. apply (IHs (fun s Hs => G s (or_intror Hs)) m2 mp2 m1); auto. intros f pt. rewrite V2. apply I2.
Qed.
Lemma remove_filter es r : remove_delete_effects es = Ok r -> remove_delete_effects (filter is_del es ++ filter (fun e => negb (is_del e)) es) = Ok r /\ (filter is_del r ++ filter (fun e => negb (is_del e)) r)%list = r.
Proof.
  intros H. split.
  - assert (A : forall l l', remove_delete_effects (filter is_del l ++ l') = remove_delete_effects l'). { induction l as [|e l IH]; intros l'; [reflexivity|]. cbn [filter]. destruct e; cbn [is_del]; auto. cbn [app]. rewrite remove_cons. cbn [relax_effect bind]. rewrite IH. destruct (remove_delete_effects l'); reflexivity. }
    rewrite A. revert r H. induction es as [|e es IH]; intros r H; [auto|]. rewrite remove_cons in H. destruct (relax_effect e) as [l|] eqn:R; [|discriminate]. cbn [bind] in H. destruct (remove_delete_effects es) as [r0|]; [|discriminate]. cbn [bind] in H. injection H as <-.
    cbn [filter]. destruct e; cbn [is_del negb]; rewrite ?remove_cons, ?R, ?(IH r0 eq_refl); cbn [bind]; try reflexivity. injection R as <-. reflexivity.
  - apply remove_no_delete in H as [H _]. induction r as [|e r IH]; [reflexivity|]. cbn [forallb] in H. apply andb_true_iff in H as [H1 H2]. cbn [filter]. destruct (is_del e) eqn:E; [destruct e; discriminate|]. cbn [negb].
    assert (X : filter is_del r = []). { clear - H2. induction r as [|e r IH]; [reflexivity|]. cbn [forallb filter] in *. apply andb_true_iff in H2 as [H1 H2]. destruct e; cbn [is_del]; auto; discriminate. }
    rewrite X in *. cbn [app] in *. f_equal. auto.
Qed.
Lemma progress_simulates effs r : (forall e, In e effs -> positive_effect D sub m0 e) -> remove_delete_effects effs = Ok r ->
  forall m m1 mp, proper m -> proper mp -> same_values m0 m -> included m mp -> progress D sub m effs = Ok m1 -> exists mp1, progress D sub mp r = Ok mp1 /\ proper m1 /\ proper mp1 /\ same_values m0 m1 /\ included m1 mp1.
Proof.
  intros H R m m1 mp P Pp V I E. destruct (remove_filter effs r R) as [R' F]. unfold progress in *. rewrite F. apply (sim_list (filter is_del effs ++ filter (fun e => negb (is_del e)) effs) r) with (m := m); auto.
  intros e l He Rl. apply positive_simulates; auto. apply H. apply in_app_iff in He. rewrite !filter_In in He. tauto.
Qed.
End Sim.

(** Conditions on a plan: every step's precondition and effects, once grounded, are positive, defined in the initial state and type-correct. *)
Definition positive_step (D : domains) (sub : sort -> sort -> bool) (acts : list action) (m : model) (st : string * subst) : Prop :=
  forall a pre effs, In a acts -> a_name a = fst st -> ground_schema a (snd st) = Ok (pre, effs) -> positive pre = true /\ evaluable m pre /\ forall e, In e effs -> positive_effect D sub m e.
Lemma ground_relaxed a a' s pre effs : relax_action a = Ok a' -> ground_schema a s = Ok (pre, effs) -> exists r, remove_delete_effects effs = Ok r /\ ground_schema a' s = Ok (pre, r).
Proof.
  unfold relax_action. destruct (remove_delete_effects (a_effs a)) as [es|] eqn:R; [|discriminate]. cbn [bind]. intros [= <-]. unfold ground_schema. cbn [a_params a_effs a_pre]. destruct (forallb _ (a_params a)); [|discriminate].
  destruct (mapM (subst_effect s) (a_effs a)) as [ess|] eqn:M; [|discriminate]. cbn [bind]. destruct (flatten (subst_formula s (a_pre a))) as [f|]; [|discriminate]. cbn [bind]. intros [= <- <-].
  destruct (remove_subst s (a_effs a) es ess R M) as (r & R' & M'). exists r. rewrite M'. auto.
Qed.
Lemma execution_relaxed D sub m0 acts acts' : mapM relax_action acts = Ok acts' -> forall m plan m1, execution D sub acts m plan m1 -> Forall (positive_step D sub acts m0) plan ->
  forall mp, proper m -> proper mp -> same_values m0 m -> included m mp -> exists mp1, execution D sub acts' mp plan mp1 /\ same_values m0 m1 /\ included m1 mp1.
Proof.
  intros M. apply mapM_ok_Forall2 in M. induction 1 as [m|m a s pre effs m1 plan m2 Ha Hg Hap Hpr Hex IH]; intros Hp mp P Pp V I; [exists mp; split; [constructor|auto]|].
  inversion Hp as [|? ? H1 H2]; subst. destruct (H1 a pre effs Ha eq_refl Hg) as (P1 & E1 & PE). destruct (Forall2_In_l _ _ _ _ M Ha) as (a' & Ha' & Ra). destruct (ground_relaxed a a' s pre effs Ra Hg) as (r & Rr & Hg').
  destruct (eval_mono m mp I pre P1 (evaluable_same m0 m _ V P1 E1)) as (b & b' & F & F' & J). unfold is_applicable in Hap. rewrite Hap in F. injection F as <-. rewrite (J eq_refl) in F'.
  destruct (progress_simulates D sub m0 effs r PE Rr m m1 mp P Pp V I Hpr) as (mp1 & Epr & Q1 & Q2 & Q3 & Q4). destruct (IH H2 mp1 Q1 Q2 Q3 Q4) as (mp2 & X & Y). exists mp2. split; [|auto].
  assert (N : a_name a' = a_name a). { unfold relax_action in Ra. destruct (remove_delete_effects (a_effs a)); [|discriminate]. cbn [bind] in Ra. injection Ra as <-. reflexivity. }
  rewrite <- N. eapply ex_step; eauto.
Qed.
(** Every plan of the original problem can be run in the relaxation, where it reaches a superset of the atoms; a positive goal stays true. *)
Theorem C28_superset D sub p p' plan m1 : is_state sub (p_init p) -> compute_delete_free_relaxation p = Ok p' -> Forall (positive_step D sub (p_actions p) (p_init p)) plan ->
  execution D sub (p_actions p) (p_init p) plan m1 ->
  exists mp, execution D sub (p_actions p') (p_init p') plan mp /\ included m1 mp /\
    (positive (p_goal p) = true -> evaluable (p_init p) (p_goal p) -> eval_f m1 (p_goal p) = Ok true -> eval_f mp (p_goal p') = Ok true).
Proof.
  intros Hs R Hp H. assert (X : p_init p' = p_init p /\ p_goal p' = p_goal p /\ mapM relax_action (p_actions p) = Ok (p_actions p')).
  { unfold compute_delete_free_relaxation in R. destruct (mapM relax_action (p_actions p)); [|discriminate]. cbn [bind] in R. injection R as <-. auto. }
  destruct X as (-> & -> & M). clear R. apply state_proper in Hs. set (m0 := p_init p) in *. assert (V0 : same_values m0 m0) by (intros ? ?; reflexivity). assert (I0 := included_refl m0).
  destruct (execution_relaxed D sub m0 _ _ M m0 plan m1 H Hp m0 Hs Hs V0 I0) as (mpe & E & V & I). exists mpe. split; [exact E|]. split; [auto|]. intros Pg Eg G.
  destruct (eval_mono m1 mpe I (p_goal p) Pg (evaluable_same m0 m1 _ V Pg Eg)) as (b & b' & E1 & E2 & J). rewrite G in E1. injection E1 as <-. rewrite (J eq_refl) in E2. auto.
Qed.
(** A two-step plan with a universal, conditional effect meets the hypotheses. *)
#[local] Open Scope string_scope.
Definition xz := Var "z" "obj".
Definition act_move : action := {| a_name := "move"; a_params := [Var "x" "obj"]; a_pre := Atom pP [Var "x" "obj"];
  a_effs := [EDel Top (Atom pP [Var "x" "obj"]); EUni Top [xz] [EAdd (Atom pP [xz]) (Atom pQ [xz]); EDel Top (Atom pP [xz])]] |}.
Definition prob_move : problem := {| p_actions := [act_move]; p_init := sX; p_goal := Atom pQ [o1] |}.
Definition bind_x (c : term) : subst := {| sub_t := [(Var "x" "obj", c)]; sub_f := [] |}.
Example C28_example : exists p' m1, compute_delete_free_relaxation prob_move = Ok p' /\ is_state String.eqb (p_init prob_move) /\ Forall (positive_step DX String.eqb (p_actions prob_move) (p_init prob_move)) [("move", bind_x o1)] /\ execution DX String.eqb (p_actions prob_move) (p_init prob_move) [("move", bind_x o1)] m1 /\ m_holds m1 pP [o1] = false.
Proof.
  do 2 eexists. split; [reflexivity|]. split; [exact sX_state|]. split; [|split].
  - constructor; [|constructor]. intros a pre effs [<-|[]] _ G. injection G as <- <-.
    assert (T : forall c q, (c = o1 \/ c = o2) -> (q = pP \/ q = pQ) -> typed_atom String.eqb (Atom q [c])).
    { intros c q Hc Hq. destruct Hq as [-> | ->]; (eexists; eexists; eexists; split; [reflexivity|]); constructor; try constructor; destruct Hc as [-> | ->]; do 2 eexists; split; reflexivity. }
    assert (EV : forall c q, (c = o1 \/ c = o2) -> (q = pP \/ q = pQ) -> evaluable (p_init prob_move) (Atom q [c])).
    { intros c q Hc Hq a [<-|[]]. destruct Hq as [-> | ->], Hc as [-> | ->]; eexists; reflexivity. }
    assert (ET : evaluable (p_init prob_move) Top) by (intros a []).
    split; [reflexivity|]. split; [apply EV; auto|]. intros e [<-|[<-|[]]].
    + apply pe_del; [reflexivity|auto|apply T; auto].
    + eapply pe_uni; [reflexivity|auto|reflexivity|]. intros s e e' Hs He Se. cbn in Hs. destruct Hs as [<-|[<-|[]]]; destruct He as [<-|[<-|[]]]; injection Se as <-; ((apply pe_add; [reflexivity|apply EV; auto|apply T; auto]) || (apply pe_del; [reflexivity|auto|apply T; auto])).
  - eapply (ex_step _ _ _ _ act_move); [left; reflexivity|reflexivity|reflexivity|reflexivity|constructor].
  - reflexivity.
Qed.
(** With a negated precondition the relaxation can lose plans: [make] deletes p(a), then [use] needs not p(a). *)
Definition act_make : action := {| a_name := "make"; a_params := []; a_pre := Atom pP [o1]; a_effs := [EDel Top (Atom pP [o1])] |}.
Definition act_use : action := {| a_name := "use"; a_params := []; a_pre := Comp Not [Atom pP [o1]]; a_effs := [EAdd Top (Atom pQ [o1])] |}.
Definition prob_neg : problem := {| p_actions := [act_make; act_use]; p_init := sX; p_goal := Atom pQ [o1] |}.
Definition nosub : subst := {| sub_t := []; sub_f := [] |}.
Theorem C28_negation_refuted : exists p' m1, compute_delete_free_relaxation prob_neg = Ok p' /\ execution DX String.eqb (p_actions prob_neg) sX [("make", nosub); ("use", nosub)] m1 /\ forall mp, ~ execution DX String.eqb (p_actions p') sX [("make", nosub); ("use", nosub)] mp.
Proof.
  do 2 eexists. split; [reflexivity|]. split.
  - eapply (ex_step _ _ _ _ act_make); [left; reflexivity|reflexivity|reflexivity|reflexivity|]. eapply (ex_step _ _ _ _ act_use); [right; left; reflexivity|reflexivity|reflexivity|reflexivity|constructor].
  - intros mp H. remember [("make", nosub); ("use", nosub)] as plan eqn:Epl. remember sX as m0 eqn:Em. destruct H as [|m a s pre effs m1 plan m2 Ha Hg Hap Hpr Hex]; [discriminate|].
    destruct Ha as [<-|[<-|[]]]; [|discriminate Epl]. injection Epl as -> ->. subst m. injection Hg as <- <-. injection Hpr as <-.
    remember [("use", nosub)] as plan eqn:Epl. remember sX as m0 eqn:Em. destruct Hex as [|m a s pre effs m1 plan m2 Ha Hg Hap2 Hpr Hex]; [discriminate|].
    destruct Ha as [<-|[<-|[]]]; [discriminate Epl|]. injection Epl as -> ->. subst m. injection Hg as <- <-. vm_compute in Hap2. discriminate.
Qed.
Print Assumptions C28_superset.
