From Verif Require Import ListUtil Base Syntax Semantics SemLemmas FolSpec SubstSpec SubstProofs Subst QElim QElimProofs ModelState Eval EvalSpec EvalProofs NaiveGroundSpec NaiveGroundProofs NaiveGroundProofs2 PropsNaiveGround LpGroundProofs3 PropsGrounding Sas SasSpec.
From Coq Require Import Permutation.

(** * Instances under a binding to constants *)
Definition cbinding (vars : list term) (b : list (var * term)) : Prop := NoDup (map fst b) /\ const_subst b /\ forall x s, In (x, s) (map fst b) -> In (Var x s) vars.
Lemma cb_clash vars (b : list (var * term)) bs : cbinding vars (b : list (var * term)) -> (forall x s, In (Var x s) vars -> ~ In (x, s) bs) -> no_clash bs (rev b) = true.
Proof.
  intros (N & C & K) H. apply const_subst_no_clash; [intros x t Hx; apply in_rev in Hx; exact (C x t Hx)|]. intros [x s] Hb t Ht. apply in_rev in Ht. apply (H x s); [apply K; apply in_map_iff; exists ((x, s), t); auto|exact Hb].
Qed.
Lemma cb_env {M} vars (b : list (var * term)) (e : env M) x : cbinding vars (b : list (var * term)) -> env_subst (rev b) e x = env_subst b e x.
Proof. intros (N & _). unfold env_subst. now rewrite lookup_rev. Qed.
Lemma cb_truth vars (b : list (var * term)) f : cbinding vars (b : list (var * term)) -> unbound vars f -> same_truth b f (subst_formula (of_vars (rev b)) f).
Proof. intros B U M e. rewrite subst_lemma by (eapply cb_clash; eauto). apply fsem_ext. intros x. eapply cb_env; eauto. Qed.
Lemma cb_value vars (b : list (var * term)) t : cbinding vars (b : list (var * term)) -> unbound_t vars t -> same_value b t (subst_term (of_vars (rev b)) t).
Proof. intros B U M e. rewrite (proj1 (subst_lemma_both M (rev b))) by (eapply cb_clash; eauto). apply coincidence. intros x _. eapply cb_env; eauto. Qed.
Lemma cb_app vars (b : list (var * term)) t : cbinding vars (b : list (var * term)) -> unbound_t vars t -> (exists f ts, t = App f ts) -> same_application b t (subst_term (of_vars (rev b)) t).
Proof.
  intros B U (f & ts & ->). rewrite subst_app. split; [reflexivity|]. assert (H : forall t, In t ts -> unbound_t vars t) by (intros t Ht x s Hx Hb; apply (U x s Hx); cbn [binders_t]; apply in_flat_map; eauto). clear U. induction ts as [|t ts IH]; constructor; [eapply cb_value; eauto; apply H; now left|apply IH; intros u Hu; apply H; now right].
Qed.
Lemma cb_transitions vars a (b : list (var * term)) : cbinding vars (b : list (var * term)) -> good_body vars a -> Forall2 (same_transition b) (sc_transitions a) (ground_transitions (of_vars (rev b)) (sc_transitions a)).
Proof.
  intros B [_ H]. unfold ground_transitions. induction H as [|t ts (A & U1 & U2 & U3) H IH]; constructor; [|exact IH]. split; [eapply cb_app; eauto|]. split; eapply cb_value; eauto.
Qed.
Section Model.
Variables (m : model).
Hypothesis Hm : constant_valued m.
Lemma check_sound vars a (b : list (var * term)) r : cbinding vars (b : list (var * term)) -> good_body vars a -> check_constraints m (of_vars (rev b)) (sc_constraints a) = Ok r -> (r = true <-> satisfied m (sc_constraints a) b).
Proof.
  intros B [H _] E. unfold check_constraints in E. destruct (mapM _ _) as [bs|] eqn:Em; [|discriminate]. injection E as <-. apply mapM_Forall2 in Em.
  assert (X : Forall2 (fun c r => forall M (e : env M), agrees M m -> fsem M c (env_subst b e) = r) (sc_constraints a) bs).
  { clear - Em H Hm B. induction Em as [|c r cs bs E Em IH]; [constructor|]. inversion H as [|? ? [W U] H']; subst. constructor; [|auto]. intros M e A. rewrite <- (cb_truth vars b c B U M e). apply (proj2 (eval_sound_both m Hm)); auto. apply subst_wf_both; auto; [|eapply cb_clash; eauto]. intros x t Hx. apply in_rev in Hx. destruct B as (_ & C & _). destruct (C x t Hx) as (k & s & ->). reflexivity. }
  rewrite forallb_forall. unfold satisfied. split.
  - intros T M e A c Hc. destruct (Forall2_In_l _ _ _ _ X Hc) as (r & Hr & E). rewrite (E M e A). auto.
  - intros S r Hr. destruct (Forall2_In_r _ _ _ _ X Hr) as (c & Hc & E). set (M := herbrand m). assert (A : agrees M m) by (apply herbrand_agrees; auto). rewrite <- (E M (fun _ => cint M (CStr EmptyString) EmptyString) A). apply S; auto.
Qed.
(** * Simple constraints are always evaluated. *)
Lemma simple_arg vars (b : list (var * term)) t : (forall x s, In (Var x s) vars -> In (x, s) (map fst b)) -> cbinding vars (b : list (var * term)) -> simple_argument vars t -> is_constant (subst_term (of_vars (rev b)) t).
Proof.
  intros K (_ & C & _) [(c & s & ->)|[(x & s & ->) Hi]]; [rewrite subst_cst; unfold is_constant; eauto|]. rewrite subst_var. destruct (lookup (rev b) (x, s)) as [u|] eqn:E; [apply lookup_In in E; apply in_rev in E; exact (C _ _ E)|].
  exfalso. apply K in Hi. apply in_map_iff in Hi as ([v u] & Ev & Hv). cbn in Ev. subst v. apply (lookup_none_key _ _ E u). now apply -> in_rev.
Qed.
Lemma sequence_constants ts : Forall is_constant ts -> sequence (map (den_t m) ts) = Some ts.
Proof. induction 1 as [|t ts (c & s & ->) H IH]; [reflexivity|]. cbn in *. now rewrite IH. Qed.
Lemma simple_den vars (b : list (var * term)) f : (forall x s, In (Var x s) vars -> In (x, s) (map fst b)) -> cbinding vars (b : list (var * term)) -> simple_constraint vars f -> exists r, den m (subst_formula (of_vars (rev b)) f) = Some r.
Proof.
  intros K B. induction f as [| |p ts|c fs IH|q vs f IH] using formula_ind_simple; intros H; rewrite subst_f_unfold.
  - cbn. eauto.
  - cbn. eauto.
  - inversion H; subst; cbn [den map].
    + rewrite sequence_constants; [eauto|]. apply Forall_forall. intros u Hu. apply in_map_iff in Hu as (t & <- & Ht). eapply simple_arg; eauto. rewrite Forall_forall in H1. auto.
    + destruct (simple_arg vars b t K B) as (c1 & s1 & E1); [auto|]. destruct (simple_arg vars b u K B) as (c2 & s2 & E2); [auto|]. rewrite E1, E2. cbn. destruct H2 as [-> | ->]; cbn; eauto.
  - assert (X : Forall (fun f => exists r, den m (subst_formula (of_vars (rev b)) f) = Some r) fs).
    { inversion H; subst; [inversion IH; subst; constructor; auto|]. rewrite Forall_forall in *. auto. }
    assert (Y : exists bs, sequence (map (den m) (map (subst_formula (of_vars (rev b))) fs)) = Some bs /\ List.length bs = List.length fs). { clear - X. induction X as [|f fs (r & E) X (bs & IH & L)]; [exists []; auto|]. exists (r :: bs). cbn. cbn in IH. rewrite E, IH. cbn. auto. }
    destruct Y as (bs & Y & L). cbn [den]. rewrite Y. inversion H; subst; [|destruct H2 as [-> | ->]; eauto]. destruct bs as [|r [|]]; try discriminate. eauto.
  - inversion H.
Qed.
Lemma simple_flat vars (b : list (var * term)) f : cbinding vars (b : list (var * term)) -> simple_constraint vars f -> flat_ite (subst_formula (of_vars (rev b)) f) = true.
Proof.
  intros B. assert (Ha : forall t, simple_argument vars t -> flat_ite_t (subst_term (of_vars (rev b)) t) = true).
  { intros t [(c & s & ->)|[(x & s & ->) Hi]]; [now rewrite subst_cst|]. rewrite subst_var. destruct (lookup (rev b) (x, s)) as [u|] eqn:E; [|reflexivity]. apply lookup_In in E. apply in_rev in E. destruct B as (_ & C & _). destruct (C _ _ E) as (k & r & ->). reflexivity. }
  induction f as [| |p ts|c fs IH|q vs f IH] using formula_ind_simple; intros H; rewrite subst_f_unfold; try reflexivity.
  - cbn [flat_ite]. inversion H; subst; [|cbn; now rewrite !Ha]. apply forallb_forall. intros u Hu. apply in_map_iff in Hu as (t & <- & Ht). rewrite Forall_forall in H1. auto.
  - cbn [flat_ite]. apply forallb_forall. intros u Hu. apply in_map_iff in Hu as (t & <- & Ht). rewrite Forall_forall in IH. apply IH; auto. inversion H; subst; [destruct Ht as [<-|[]]; auto|]. rewrite Forall_forall in H3. auto.
  - inversion H.
Qed.
Lemma check_total vars (b : list (var * term)) cs : (forall x s, In (Var x s) vars -> In (x, s) (map fst b)) -> cbinding vars (b : list (var * term)) -> Forall (simple_constraint vars) cs -> exists r, check_constraints m (of_vars (rev b)) cs = Ok r.
Proof.
  intros K B H. unfold check_constraints. assert (X : exists bs, mapM (fun c => eval_f m (subst_formula (of_vars (rev b)) c)) cs = Ok bs).
  { induction H as [|c cs H HF (bs & IH)]; [exists []; reflexivity|]. destruct (simple_den vars b c K B H) as (r & E). exists (r :: bs). rewrite mapM_cons'. cbv beta. rewrite (proj2 (eval_complete_both m) _ (simple_flat vars b c B H) _ E). cbn [bind]. now rewrite IH. }
  destruct X as (bs & X). rewrite X. cbn. eauto.
Qed.

(** * One schema *)
Section One.
Variable table : option (string -> option (list term)).
Lemma has_domain_resolve d l : has_domain table d l <-> resolve table d = Ok l.
Proof.
  unfold has_domain, resolve. destruct table as [T|], d as [l'|n]; split.
  - intros [[X _]|(? & ? & _ & X & _)]; discriminate X.
  - discriminate.
  - intros [[X _]|(T' & n' & [= <-] & [= <-] & E)]; [discriminate X|]. now rewrite E.
  - destruct (T n) as [l'|] eqn:E; [|discriminate]. intros [= <-]. right. exists T, n. auto.
  - intros [[_ [= <-]]|(? & ? & X & _)]; [reflexivity|discriminate X].
  - intros [= <-]. now left.
  - intros [[_ X]|(? & ? & X & _)]; discriminate X.
  - discriminate.
Qed.
Lemma assigns_keys vars (b : list (var * term)) : assigns table vars b -> map fst vars = map (fun vt : var * term => Var (fst (fst vt)) (snd (fst vt))) b.
Proof. intros H. induction H as [|xd vt vars b (E & _) H IH]; [reflexivity|]. cbn. f_equal; auto. Qed.
Lemma assigns_cb a b : good_schema table a -> assigns table (sc_vars a) b -> cbinding (map fst (sc_vars a)) b /\ forall x s, In (Var x s) (map fst (sc_vars a)) -> In (x, s) (map fst b).
Proof.
  intros [N V _] H. pose proof (assigns_keys _ _ H) as K. split; [split; [|split]|].
  - rewrite K in N. apply (NoDup_map_inv (fun v : var => Var (fst v) (snd v))). rewrite map_map. exact N.
  - intros x t Hx. destruct (Forall2_In_r _ _ _ _ H Hx) as (xd & Hxd & _ & l & Hl & Hi). rewrite Forall_forall in V. destruct (V _ Hxd) as (_ & l' & Hl' & C). apply has_domain_resolve in Hl, Hl'. cbn in *. assert (l' = l) by congruence. subst l'. rewrite Forall_forall in C. exact (C t Hi).
  - intros x s Hx. rewrite K. apply in_map_iff in Hx as ([v t] & Ev & Hv). cbn in Ev. subst v. apply in_map_iff. exists ((x, s), t). auto.
  - intros x s Hx. rewrite K in Hx. apply in_map_iff in Hx as ([[y r] t] & Ev & Hv). cbn in Ev. injection Ev as -> ->. apply in_map_iff. exists ((x, s), t). auto.
Qed.
Lemma good_is_var a : good_schema table a -> forallb is_var (map fst (sc_vars a)) = true.
Proof. intros [_ V _]. apply forallb_forall. intros t Ht. apply in_map_iff in Ht as (xd & <- & Hx). rewrite Forall_forall in V. destruct (V _ Hx) as ((x & s & E) & _). rewrite E. reflexivity. Qed.
Lemma assigns_combine a ds : good_schema table a -> mapM (fun xd => resolve table (snd xd)) (sc_vars a) = Ok ds ->
  forall b, assigns table (sc_vars a) b <-> exists v, In v (product ds) /\ b = combine (vars_of (map fst (sc_vars a))) v.
Proof.
  intros [_ V _] E. apply mapM_Forall2 in E. induction E as [|[x d] l vars ds E F IH].
  - intros b. split; [intros H; inversion H; exists []; split; [now left|reflexivity]|]. intros (v & _ & ->). constructor.
  - inversion V as [|? ? [(y & s & Ey) _] V']; subst. cbn [fst snd] in *. subst x. specialize (IH V'). cbn [map]. change (vars_of (fst (Var y s, d) :: map fst vars)) with ((y, s) :: vars_of (map fst vars)). intros b. split.
    + intros H. inversion H as [|? [k t] ? b' (H1 & l' & H2 & H3) H4]; subst. cbn [fst snd] in *. apply IH in H4 as (v & Hv & ->). exists (t :: v). split; [apply product_In; constructor; [|now apply product_In]|cbn; destruct k; cbn in H1; injection H1 as <- <-; reflexivity]. apply has_domain_resolve in H2. congruence.
    + intros (v & Hv & ->). apply product_In in Hv. inversion Hv as [|t ? v' ? H1 H2]; subst. cbn [combine]. constructor; [|apply IH; exists v'; split; [now apply product_In|reflexivity]]. cbn. split; [reflexivity|]. exists l. split; [now apply has_domain_resolve|exact H1].
Qed.
Lemma rev_combine_snd (vs : list var) (v : list term) : List.length v = List.length vs -> map snd (combine vs v) = v.
Proof. revert v. induction vs as [|x vs IH]; intros [|t v] L; try discriminate; [reflexivity|]. cbn. f_equal. apply IH. now injection L. Qed.
Lemma ground_values_spec a vs r : good_schema table a -> (forall v, In v vs -> List.length v = List.length (sc_vars a) /\ assigns table (sc_vars a) (combine (vars_of (map fst (sc_vars a))) v)) -> ground_values m a vs = Ok r ->
  exists idx, Forall2 (instance_of a) idx r /\ (forall b, In b idx <-> satisfied m (sc_constraints a) b /\ exists v, In v vs /\ b = combine (vars_of (map fst (sc_vars a))) v) /\ (NoDup vs -> NoDup idx).
Proof.
  intros G. revert r. induction vs as [|v vs IH]; intros r H E.
  - injection E as <-. exists []. split; [constructor|]. split; [|constructor]. intros b. split; [intros []|]. intros (_ & v & [] & _).
  - cbn [ground_values] in E. pose proof (good_is_var a G) as HV. destruct (H v (or_introl eq_refl)) as [L A]. rewrite create_substitution_ok in E by (auto; now rewrite map_length). cbn [bind] in E. set (b0 := combine (vars_of (map fst (sc_vars a))) v) in *. destruct (assigns_cb a b0 G A) as [B K].
    destruct (check_constraints m _ (sc_constraints a)) as [k|] eqn:Ek; [|discriminate]. cbn [bind] in E. destruct (ground_values m a vs) as [rest|]; [|discriminate]. cbn [bind] in E. injection E as <-.
    destruct (IH rest (fun w Hw => H w (or_intror Hw)) eq_refl) as (idx & I1 & I2 & I3). pose proof (check_sound _ a b0 k B (gs_body _ _ G) Ek) as S. destruct k.
    + exists (b0 :: idx). split; [constructor; [|exact I1]|split].
      * split; [reflexivity|]. split; [cbn; symmetry; apply rev_combine_snd; rewrite vars_of_length, map_length by auto; exact L|]. cbn. eapply cb_transitions; eauto. exact (gs_body _ _ G).
      * intros b. cbn [In]. rewrite I2. split; [intros [<-|(S1 & w & Hw & ->)]; [split; [now apply S|exists v; auto]|split; [exact S1|exists w; auto]]|]. intros (S1 & w & [<-|Hw] & ->); [now left|right; split; [exact S1|exists w; auto]].
      * intros N. inversion N; subst. constructor; [|auto]. rewrite I2. intros (_ & w & Hw & Eb). apply combine_inj in Eb; [subst; contradiction| |]; rewrite vars_of_length, map_length by auto; [exact L|]. apply H. now right.
    + exists idx. split; [exact I1|]. split; [|intros N; inversion N; auto]. intros b. rewrite I2. split; [intros (S1 & w & Hw & ->); split; [exact S1|exists w; split; [now right|reflexivity]]|]. intros (S1 & w & [<-|Hw] & ->); [exfalso; apply S in S1; discriminate|split; [exact S1|exists w; auto]].
Qed.
Lemma ground_values_total a vs : good_schema table a -> Forall (simple_constraint (map fst (sc_vars a))) (sc_constraints a) -> (forall v, In v vs -> List.length v = List.length (sc_vars a) /\ assigns table (sc_vars a) (combine (vars_of (map fst (sc_vars a))) v)) -> exists r, ground_values m a vs = Ok r.
Proof.
  intros G S. induction vs as [|v vs IH]; intros H; [exists []; reflexivity|]. destruct IH as (r & E); [intros w Hw; apply H; now right|]. cbn [ground_values]. destruct (H v (or_introl eq_refl)) as [L A]. rewrite create_substitution_ok by (try apply good_is_var; auto; now rewrite map_length). cbn [bind].
  destruct (assigns_cb a _ G A) as [B K]. destruct (check_total _ _ _ K B S) as (k & Ek). rewrite Ek. cbn [bind]. rewrite E. cbn [bind]. eauto.
Qed.
Lemma domains_resolve a : good_schema table a -> exists ds, mapM (fun xd => resolve table (snd xd)) (sc_vars a) = Ok ds.
Proof. intros [_ V _]. induction V as [|xd vars (_ & l & Hl & _) V (ds & IH)]; [exists []; reflexivity|]. exists (l :: ds). rewrite mapM_cons'. cbv beta. apply has_domain_resolve in Hl. rewrite Hl. cbn [bind]. now rewrite IH. Qed.
Lemma product_lengths a ds v : mapM (fun xd => resolve table (snd xd)) (sc_vars a) = Ok ds -> In v (product ds) -> List.length v = List.length (sc_vars a).
Proof. intros E H. apply product_length in H. rewrite H. apply mapM_length in E. exact E. Qed.
End One.
End Model.
