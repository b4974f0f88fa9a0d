(** C55: grounding of SAS action schemas *)
From Verif Require Import ListUtil Base Syntax Semantics SemLemmas FolSpec SubstSpec SubstProofs Subst QElim QElimProofs ModelState ModelSpec Eval EvalSpec EvalProofs NaiveGroundSpec NaiveGroundProofs NaiveGroundProofs2 PropsNaiveGround PropsFol LpGroundProofs3 PropsGrounding Sas SasSpec SasProofs.
From Coq Require Import Permutation.
#[local] Open Scope string_scope.

Theorem C55_actions : forall sub ops table schemas acts, forallb op_constants ops = true -> Forall (good_schema table) schemas ->
  let m := snd (outcomes (mstep sub) ops empty_model) in
  ground_action_schemas m table schemas = Ok acts ->
  exists idx, Forall2 (fun ab g => instance_of (fst ab) (snd ab) g) idx acts /\
    (forall a b, In (a, b) idx <-> In a schemas /\ assigns table (sc_vars a) b /\ satisfied m (sc_constraints a) b) /\
    (NoDup schemas -> (forall a xd l, In a schemas -> In xd (sc_vars a) -> has_domain table (snd xd) l -> NoDup l) -> NoDup idx).
Proof.
  intros sub ops table schemas acts Hc HG m. pose proof (reachable_constants sub ops Hc) as Hm. fold m in Hm. clearbody m. revert acts. induction HG as [|a schemas G HG IH]; intros acts E.
  - injection E as <-. exists []. split; [constructor|]. split; [intros a b; cbn; tauto|constructor].
  - cbn [ground_action_schemas] in E. destruct (mapM _ (sc_vars a)) as [ds|] eqn:Ed; [|discriminate]. cbn [bind] in E. destruct (ground_values m a (product ds)) as [l|] eqn:El; [|discriminate]. cbn [bind] in E.
    destruct (ground_action_schemas m table schemas) as [rest|]; [|discriminate]. cbn [bind] in E. injection E as <-. destruct (IH rest eq_refl) as (idx' & J1 & J2 & J3).
    destruct (ground_values_spec m Hm table a (product ds) l G) as (idx & I1 & I2 & I3); [|exact El|].
    { intros v Hv. split; [eapply product_lengths; eauto|]. apply (assigns_combine table a ds G Ed). eauto. }
    exists (map (fun b => (a, b)) idx ++ idx')%list. split; [|split].
    + apply Forall2_app; [|exact J1]. clear - I1. induction I1; cbn; constructor; auto.
    + intros a' b. rewrite in_app_iff, J2, in_map_iff. cbn [In]. split.
      * intros [(b' & [= <- <-] & Hb)|(H1 & H2)]; [|auto]. apply I2 in Hb as (S & v & Hv & ->). split; [now left|]. split; [|exact S]. apply (assigns_combine table a ds G Ed). eauto.
      * intros ([<-|H1] & H2 & H3); [|auto]. left. exists b. split; [reflexivity|]. apply I2. split; [exact H3|]. apply (assigns_combine table a ds G Ed) in H2. exact H2.
    + intros N ND. inversion N; subst. apply NoDup_app_iff_simple.
      * apply NoDup_map_inj_in; [|intros x y _ _ E; congruence]. apply I3. apply product_NoDup. apply mapM_Forall2 in Ed. apply Forall_forall. intros d Hd. destruct (Forall2_In_r _ _ _ _ Ed Hd) as (xd & Hxd & Er). eapply (ND a xd); [now left|exact Hxd|]. now apply has_domain_resolve.
      * apply J3; [auto|]. intros a' xd d Ha. apply ND. now right.
      * intros [a' b] X1 X2. apply in_map_iff in X1 as (b' & [= <- <-] & _). apply J2 in X2 as [X2 _]. contradiction.
Qed.
Print Assumptions C55_actions.
(** Constraints made of predicates, equations and inequations can always be checked. *)
Theorem C55_total : forall m table schemas, Forall (good_schema table) schemas -> Forall (fun a => Forall (simple_constraint (map fst (sc_vars a))) (sc_constraints a)) schemas ->
  exists acts, ground_action_schemas m table schemas = Ok acts.
Proof.
  intros m table schemas HG HS. induction HG as [|a schemas G HG IH]; [exists []; reflexivity|]. inversion HS as [|? ? S HS']; subst. destruct (IH HS') as (rest & E). destruct (domains_resolve table a G) as (ds & Ed). cbn [ground_action_schemas]. rewrite Ed. cbn [bind].
  destruct (ground_values_total m table a (product ds) G S) as (l & El). { intros v Hv. split; [eapply product_lengths; eauto|]. apply (assigns_combine table a ds G Ed). eauto. }
  rewrite El. cbn [bind]. rewrite E. cbn [bind]. eauto.
Qed.
Print Assumptions C55_total.

(** ** Temporal actions *)
Lemma consolidate_aux evs : forall X, NoDup (map fst X) ->
  let X' := fold_left (fun X (xd : term * dref) => if existsb (fun p => term_eqb (fst p) (fst xd)) X then X else (X ++ [xd])%list) evs X in
  NoDup (map fst X') /\ (forall xd, In xd X' -> In xd X \/ In xd evs) /\ (forall x, In x (map fst X') <-> In x (map fst X) \/ In x (map fst evs)).
Proof.
  induction evs as [|[x d] evs IH]; intros X N; cbn [fold_left]; [split; [auto|split; [auto|cbn; tauto]]|]. cbn [fst].
  destruct (existsb (fun p => term_eqb (fst p) x) X) eqn:E.
  - destruct (IH X N) as (A & B & C). split; [exact A|]. split; [intros xd H; destruct (B xd H); cbn; auto|]. intros y. rewrite C. cbn. split; [tauto|]. intros [H|[<-|H]]; auto. left. apply existsb_exists in E as ([z d'] & Hz & Ez). apply term_eqb_eq in Ez. cbn in Ez. subst z. apply in_map_iff. exists (x, d'). auto.
  - destruct (IH (X ++ [(x, d)])%list) as (A & B & C).
    { rewrite map_app. cbn. apply NoDup_app_iff_simple; [exact N|repeat constructor; intros []|]. intros y H [<-|[]]. apply in_map_iff in H as ([z d'] & Ez & Hz). cbn in Ez. subst z. enough (T : existsb (fun p => term_eqb (fst p) x) X = true) by congruence. apply existsb_exists. exists (x, d'). split; [exact Hz|]. apply term_eqb_refl. }
    split; [exact A|]. split; [intros xd H; destruct (B xd H) as [H'|H']; [apply in_app_iff in H' as [H'|[<-|[]]]; cbn; auto|cbn; auto]|]. intros y. rewrite C, map_app, in_app_iff. cbn. tauto.
Qed.
Lemma consolidate_spec events : NoDup (map fst (consolidate events)) /\ (forall xd, In xd (consolidate events) -> In xd (flat_map sc_vars events)) /\ (forall x, In x (map fst (consolidate events)) <-> In x (map fst (flat_map sc_vars events))).
Proof. unfold consolidate. destruct (consolidate_aux (flat_map sc_vars events) [] (NoDup_nil _)) as (A & B & C). split; [exact A|]. split; [intros xd H; destruct (B xd H) as [[]|H']; exact H'|]. intros x. rewrite C. cbn. tauto. Qed.
Lemma get_domain_ok X x l : NoDup (map fst X) -> In (x, DList l) X -> get_domain X x = Ok l.
Proof.
  intros N H. unfold get_domain. induction X as [|[y d] X IH]; [destruct H|]. cbn in N. inversion N as [|? ? N1 N2]; subst. cbn [find fst]. destruct (term_eqb y x) eqn:E.
  - apply term_eqb_eq in E. subst y. destruct H as [[= ->]|H]; [reflexivity|]. exfalso. apply N1. apply in_map_iff. exists (x, DList l). auto.
  - destruct H as [[= -> _]|H]; [rewrite term_eqb_refl in E; discriminate|auto].
Qed.
Section Temporal.
Context {T : Type}.
Variables (m : model) (str : term -> string).
Hypothesis Hm : constant_valued m.
Lemma events_spec vars (b : list (var * term)) events r : cbinding vars b -> Forall (good_body vars) events -> ground_events m (of_vars (rev b)) (map snd b) events = Ok r ->
  match r with
  | Some l => (forall e, In e events -> satisfied m (sc_constraints e) b) /\ Forall2 (fun e g => instance_of e b g) events l
  | None => exists e, In e events /\ ~ satisfied m (sc_constraints e) b
  end.
Proof.
  intros B HF. revert r. induction HF as [|e events G HF IH]; intros r E; [injection E as <-; split; [intros e []|constructor]|]. cbn [ground_events] in E. destruct (check_constraints _ _ (sc_constraints e)) as [k|] eqn:Ek; [|discriminate]. cbn [bind] in E. pose proof (check_sound m Hm vars e b k B G Ek) as S. destruct k.
  - destruct (ground_events m _ _ events) as [rest|]; [|discriminate]. cbn [bind] in E. injection E as <-. specialize (IH rest eq_refl). destruct rest as [l|].
    + destruct IH as [I1 I2]. split; [intros e' [<-|H]; [now apply S|auto]|]. constructor; [|exact I2]. split; [reflexivity|]. split; [reflexivity|]. cbn. eapply cb_transitions; eauto.
    + destruct IH as (e' & H & N). exists e'. split; [now right|exact N].
  - injection E as <-. exists e. split; [now left|]. intros X. apply S in X. discriminate.
Qed.
Lemma events_total vars (b : list (var * term)) events : (forall x s, In (Var x s) vars -> In (x, s) (map fst b)) -> cbinding vars b -> Forall (fun e => Forall (simple_constraint vars) (sc_constraints e)) events -> exists r, ground_events m (of_vars (rev b)) (map snd b) events = Ok r.
Proof.
  intros K B HF. induction HF as [|e events S HF (r & IH)]; [eexists; reflexivity|]. cbn [ground_events]. destruct (check_total m vars b _ K B S) as (k & Ek). rewrite Ek. cbn [bind]. destruct k; [|eauto]. rewrite IH. cbn [bind]. eauto.
Qed.
Lemma with_deltas_ok (ds : list T) es : List.length ds = List.length es -> with_deltas ds es = Ok (combine ds es).
Proof. revert ds. induction es as [|e es IH]; intros [|d ds] L; try discriminate; [reflexivity|]. cbn [with_deltas combine]. rewrite IH by (now injection L). reflexivity. Qed.
Lemma combine_fst_snd {A B} (l : list A) (r : list B) : List.length l = List.length r -> map fst (combine l r) = l /\ map snd (combine l r) = r.
Proof. revert r. induction l as [|x l IH]; intros [|y r] L; try discriminate; [auto|]. destruct (IH r) as [A1 A2]; [now injection L|]. cbn. now rewrite A1, A2. Qed.
Lemma temporal_values_spec (a : taction T sschema) vars (xs : list term) vs gs : forallb is_var xs = true -> Forall (good_body vars) (ta_events a) -> List.length (ta_deltas a) = List.length (ta_events a) ->
  (forall v, In v vs -> List.length v = List.length xs /\ cbinding vars (combine (vars_of xs) v)) -> ground_temporal_values str m a xs vs = Ok gs ->
  exists idx, Forall2 (temporal_instance str a) idx gs /\ (forall b, In b idx <-> (forall e, In e (ta_events a) -> satisfied m (sc_constraints e) b) /\ exists v, In v vs /\ b = combine (vars_of xs) v) /\ (NoDup vs -> NoDup idx).
Proof.
  intros HV HB HL. revert gs. induction vs as [|v vs IH]; intros gs H E.
  - injection E as <-. exists []. split; [constructor|]. split; [|constructor]. intros b. split; [intros []|]. intros (_ & v & [] & _).
  - cbn [ground_temporal_values] in E. destruct (H v (or_introl eq_refl)) as [L B]. rewrite create_substitution_ok in E by auto. cbn [bind] in E. set (b0 := combine (vars_of xs) v) in *.
    assert (Ev : map snd b0 = v) by (apply rev_combine_snd; rewrite vars_of_length by auto; exact L). assert (Er0 : ground_events m (of_vars (rev b0)) v (ta_events a) = ground_events m (of_vars (rev b0)) (map snd b0) (ta_events a)) by now rewrite Ev. rewrite Er0 in E. destruct (ground_events m _ _ (ta_events a)) as [r|] eqn:Er; [|discriminate]. cbn [bind] in E. pose proof (events_spec vars b0 _ r B HB Er) as S.
    destruct r as [l|].
    + destruct S as [S1 S2]. assert (Ll : List.length (ta_deltas a) = List.length l) by (rewrite HL; clear - S2; induction S2; cbn; auto). rewrite with_deltas_ok in E by exact Ll. cbn [bind] in E. destruct (ground_temporal_values str m a xs vs) as [rest|]; [|discriminate]. injection E as <-.
      destruct (IH rest (fun w Hw => H w (or_intror Hw)) eq_refl) as (idx & I1 & I2 & I3). exists (b0 :: idx). split; [|split].
      * cbn [app]. constructor; [|exact I1]. destruct (combine_fst_snd _ _ Ll) as [F1 F2]. split; [cbn; now rewrite Ev|]. split; [exact F1|]. cbn. rewrite F2. exact S2.
      * intros b. cbn [In]. rewrite I2. split; [intros [<-|(S3 & w & Hw & ->)]; [split; [exact S1|exists v; auto]|split; [exact S3|exists w; auto]]|]. intros (S3 & w & [<-|Hw] & ->); [now left|right; split; [exact S3|exists w; auto]].
      * intros N. inversion N as [|? ? N1 N2]. subst x l0. constructor; [|auto]. rewrite I2. intros (_ & w & Hw & Eb). apply combine_inj in Eb; [apply N1; rewrite Eb; exact Hw| |]; rewrite vars_of_length by auto; [exact L|]. apply H. now right.
    + destruct S as (e & He & S). cbn [bind] in E. destruct (ground_temporal_values str m a xs vs) as [rest|]; [|discriminate]. injection E as <-. destruct (IH rest (fun w Hw => H w (or_intror Hw)) eq_refl) as (idx & I1 & I2 & I3). exists idx. split; [exact I1|]. split; [|intros N; inversion N; auto].
      intros b. rewrite I2. split; [intros (S3 & w & Hw & ->); split; [exact S3|exists w; split; [now right|reflexivity]]|]. intros (S3 & w & [<-|Hw] & ->); [exfalso; apply S; now apply S3|split; [exact S3|exists w; auto]].
Qed.
Lemma temporal_values_total (a : taction T sschema) vars (xs : list term) vs : forallb is_var xs = true -> List.length (ta_deltas a) = List.length (ta_events a) -> Forall (good_body vars) (ta_events a) ->
  Forall (fun e => Forall (simple_constraint vars) (sc_constraints e)) (ta_events a) ->
  (forall v, In v vs -> List.length v = List.length xs /\ cbinding vars (combine (vars_of xs) v) /\ forall x s, In (Var x s) vars -> In (x, s) (map fst (combine (vars_of xs) v))) -> exists gs, ground_temporal_values str m a xs vs = Ok gs.
Proof.
  intros HV HL HB HS. induction vs as [|v vs IH]; intros H; [eexists; reflexivity|]. destruct IH as (gs & E); [intros w Hw; apply H; now right|]. destruct (H v (or_introl eq_refl)) as (L & B & K). cbn [ground_temporal_values]. rewrite create_substitution_ok by auto. cbn [bind].
  destruct (events_total vars _ (ta_events a) K B HS) as (r & Er). rewrite rev_combine_snd in Er by (rewrite vars_of_length by auto; exact L). rewrite Er. cbn [bind]. rewrite E. destruct r as [l|]; cbn [bind]; [|eauto].
  assert (Ll : List.length (ta_deltas a) = List.length l). { rewrite HL. clear - Er. revert l Er. induction (ta_events a) as [|e es IH]; intros l E; [injection E as <-; reflexivity|]. cbn [ground_events] in E. destruct (check_constraints _ _ _) as [k|]; [|discriminate]. cbn [bind] in E. destruct k; [|discriminate]. destruct (ground_events _ _ _ es) as [[l'|]|]; try discriminate. injection E as <-. cbn. f_equal. auto. }
  rewrite with_deltas_ok by exact Ll. cbn [bind]. eauto.
Qed.
End Temporal.
Section Keys.
Variables (events : list sschema) (order : list term -> list term).
Hypothesis Ho : forall l, Permutation (order l) l.
Hypothesis HG : good_temporal events.
Let X := consolidate events.
Let xs := order (map fst X).
Lemma keys_In x : In x xs <-> exists e d, In e events /\ In (x, d) (sc_vars e).
Proof.
  unfold xs. transitivity (In x (map fst X)); [split; apply Permutation_in; [apply Ho|apply Permutation_sym, Ho]|]. unfold X. rewrite (proj2 (proj2 (consolidate_spec events))). rewrite in_map_iff. split.
  - intros ([y d] & <- & H). apply in_flat_map in H as (e & He & H). eauto.
  - intros (e & d & He & H). exists (x, d). split; [reflexivity|]. apply in_flat_map. eauto.
Qed.
Lemma keys_NoDup : NoDup xs. Proof. unfold xs. eapply Permutation_NoDup; [apply Permutation_sym, Ho|]. apply consolidate_spec. Qed.
Lemma keys_vars : forallb is_var xs = true.
Proof. apply forallb_forall. intros x Hx. apply keys_In in Hx as (e & d & He & H). destruct (gt_vars _ HG e x d He H) as ((y & s & ->) & _). reflexivity. Qed.
Lemma keys_domain x : In x xs -> exists l, get_domain X x = Ok l /\ Forall is_constant l /\ forall e d, In e events -> In (x, d) (sc_vars e) -> d = DList l.
Proof.
  intros Hx. assert (Hx' : In x (map fst X)) by (revert Hx; apply Permutation_in, Ho). apply in_map_iff in Hx' as ([y d] & <- & H). pose proof (proj1 (proj2 (consolidate_spec events)) _ H) as H'. apply in_flat_map in H' as (e & He & H'). destruct (gt_vars _ HG e y d He H') as (_ & l & -> & C). exists l. split; [apply get_domain_ok; [apply consolidate_spec|exact H]|]. split; [exact C|]. intros e' d' He' H2. symmetry. exact (gt_same _ HG e e' y _ d' He He' H' H2).
Qed.
Lemma domains_ok : exists ds, mapM (get_domain X) xs = Ok ds /\ Forall2 (fun x l => Forall is_constant l /\ forall e d, In e events -> In (x, d) (sc_vars e) -> d = DList l) xs ds.
Proof.
  assert (H : forall x, In x xs -> In x xs) by auto. revert H. generalize xs at 1 3 4. intros l. induction l as [|x l IH]; intros H; [exists []; split; constructor|]. destruct IH as (ds & E & F); [intros y Hy; apply H; now right|]. destruct (keys_domain x (H x (or_introl eq_refl))) as (d & Ed & C & U). exists (d :: ds). split; [rewrite mapM_cons'; rewrite Ed; now rewrite E|constructor; auto].
Qed.
Lemma in_vars_of y s : In (y, s) (vars_of xs) <-> In (Var y s) xs.
Proof. unfold vars_of. rewrite in_flat_map. split; [intros (t & Ht & H); destruct t as [z r| | |]; [destruct H as [H|[]]; injection H as -> ->; exact Ht|destruct H|destruct H|destruct H]|]. intros H. exists (Var y s). split; [exact H|now left]. Qed.
Lemma vars_of_NoDup : NoDup (vars_of xs).
Proof. pose proof keys_NoDup as N. pose proof keys_vars as V. revert N V. generalize xs. intros l. induction l as [|x l IH]; intros N V; [constructor|]. destruct x as [z r| | |]; try discriminate. inversion N; subst. change (vars_of (Var z r :: l)) with ((z, r) :: vars_of l). constructor; [|apply IH; auto]. intros H. apply H1. unfold vars_of in H. apply in_flat_map in H as (t & Ht & H). destruct t as [w q| | |]; [destruct H as [[= -> ->]|[]]; exact Ht|destruct H|destruct H|destruct H]. Qed.
Lemma binding_cb ds v : Forall2 (fun x l => Forall is_constant l /\ forall e d, In e events -> In (x, d) (sc_vars e) -> d = DList l) xs ds -> In v (product ds) ->
  List.length v = List.length xs /\ cbinding (flat_map (fun e => map fst (sc_vars e)) events) (combine (vars_of xs) v) /\ (forall x s, In (Var x s) (flat_map (fun e => map fst (sc_vars e)) events) -> In (x, s) (map fst (combine (vars_of xs) v))).
Proof.
  intros F Hv. assert (L : List.length v = List.length xs) by (apply product_length in Hv; rewrite Hv; clear - F; induction F; cbn; auto). assert (L' : List.length (vars_of xs) = List.length v) by (rewrite vars_of_length by apply keys_vars; auto). destruct (combine_fst_snd _ _ L') as [E1 E2].
  assert (K : forall x s, In (Var x s) (flat_map (fun e => map fst (sc_vars e)) events) <-> In (x, s) (vars_of xs)). { intros x s. rewrite in_vars_of, keys_In, in_flat_map. split; [intros (e & He & H); apply in_map_iff in H as ([y d] & <- & H); eauto|]. intros (e & d & He & H). exists e. split; [exact He|]. apply in_map_iff. exists (Var x s, d). auto. }
  split; [exact L|]. split; [split; [|split]|].
  - rewrite E1. apply vars_of_NoDup.
  - intros x t Hx. apply in_combine_r in Hx. apply product_In in Hv. destruct (Forall2_In_l _ _ _ _ Hv Hx) as (l & Hl & Ht). destruct (Forall2_In_r _ _ _ _ F Hl) as (z & _ & C & _). rewrite Forall_forall in C. exact (C t Ht).
  - intros x s Hx. rewrite E1 in Hx. now apply K.
  - intros x s Hx. rewrite E1. now apply K.
Qed.
Lemma binding_iff ds b : Forall2 (fun x l => Forall is_constant l /\ forall e d, In e events -> In (x, d) (sc_vars e) -> d = DList l) xs ds ->
  (exists v, In v (product ds) /\ b = combine (vars_of xs) v) <-> map fst b = vars_of xs /\ temporal_binding events b.
Proof.
  intros F. split.
  - intros (v & Hv & ->). destruct (binding_cb ds v F Hv) as (L & (N & _) & _). assert (L' : List.length (vars_of xs) = List.length v) by (rewrite vars_of_length by apply keys_vars; auto). destruct (combine_fst_snd _ _ L') as [E1 E2]. split; [exact E1|]. split; [exact N|]. split.
    + intros x s. rewrite E1, in_vars_of, keys_In. tauto.
    + intros x s t e l Hb He Hx. apply product_In in Hv. pose proof keys_vars as V. clear - F Hv Hb He Hx V. revert v Hv Hb. induction F as [|z d zs ds [_ U] F IH]; intros v Hv Hb; [destruct Hb|]. inversion Hv as [|u ? v' ? Hu Hv']; subst. destruct z as [zn zr| | |]; try discriminate. change (vars_of (Var zn zr :: zs)) with ((zn, zr) :: vars_of zs) in Hb. destruct Hb as [[= -> -> ->]|Hb]; [specialize (U e _ He Hx); congruence|]. eapply IH; eauto.
  - intros (E & N & K & D). exists (map snd b). split; [|rewrite <- E; clear; induction b as [|[v t] b IH]; [reflexivity|cbn; f_equal; exact IH]]. apply product_In. pose proof keys_vars as V. assert (Hin : forall x, In x xs -> In x xs) by auto. revert Hin F E V D. clear N K. generalize xs at 1 3 4 5. intros zs Hin F. revert b. induction F as [|z d zs ds [_ U] F IH]; intros b E V D.
    + destruct b; [constructor|discriminate E].
    + destruct z as [zn zr| | |]; try discriminate V. change (vars_of (Var zn zr :: zs)) with ((zn, zr) :: vars_of zs) in E. destruct b as [|[k t] b]; [discriminate E|]. injection E as -> E. cbn [map snd]. constructor.
      * assert (Hz : In (Var zn zr) xs) by (apply Hin; now left). apply keys_In in Hz as (e & dd & He & Hx). specialize (U e dd He Hx). subst dd. apply (D zn zr t e d); auto. now left.
      * apply IH; auto; [intros y Hy; apply Hin; now right|]. intros x s u e l Hb. apply D. now right.
Qed.
End Keys.
Theorem C55_temporal_actions : forall (T : Type) str sub ops order n evs more gs, (forall l, Permutation (order l) l) -> forallb op_constants ops = true ->
  let m := snd (outcomes (mstep sub) ops empty_model) in
  let a : taction T sschema := fold_left (fun a de => add_event a (fst de) (snd de)) more (make_taction n evs) in
  good_temporal (ta_events a) -> ground_temporal_action str m order a = Ok gs ->
  exists keys idx, NoDup keys /\ Forall2 (temporal_instance str a) idx gs /\
    (forall b, In b idx <-> map fst b = keys /\ temporal_binding (ta_events a) b /\ forall e, In e (ta_events a) -> satisfied m (sc_constraints e) b) /\
    ((forall e x l, In e (ta_events a) -> In (x, DList l) (sc_vars e) -> NoDup l) -> NoDup idx).
Proof.
  intros T str sub ops order n evs more gs Ho Hc m a HG E. pose proof (reachable_constants sub ops Hc) as Hm. fold m in Hm. clearbody m.
  assert (HL : List.length (ta_deltas a) = List.length (ta_events a)).
  { unfold a. clear. assert (L : List.length (ta_deltas (make_taction n evs)) = List.length (ta_events (make_taction n evs))) by (cbn; now rewrite !map_length). revert L. generalize (make_taction n evs). induction more as [|de more IH]; intros t L; [exact L|]. apply IH. cbn. rewrite !app_length, L. reflexivity. }
  clearbody a. unfold ground_temporal_action in E. set (X := consolidate (ta_events a)) in *. set (xs := order (map fst X)) in *. destruct (domains_ok (ta_events a) order Ho HG) as (ds & Ed & F). fold X xs in Ed, F. rewrite Ed in E. cbn [bind] in E.
  destruct (temporal_values_spec m str Hm a (flat_map (fun e => map fst (sc_vars e)) (ta_events a)) xs (product ds) gs) as (idx & I1 & I2 & I3); auto.
  - exact (keys_vars (ta_events a) order Ho HG).
  - exact (gt_body _ HG).
  - intros v Hv. destruct (binding_cb (ta_events a) order Ho HG ds v F Hv) as (L & B & _). auto.
  - exists (vars_of xs), idx. split; [exact (vars_of_NoDup (ta_events a) order Ho HG)|]. split; [exact I1|]. split.
    + intros b. destruct (binding_iff (ta_events a) order Ho HG ds b F) as [B1 B2]. rewrite I2. split.
      * intros [H1 H2]. destruct (B1 H2) as [H3 H4]. split; [exact H3|]. split; [exact H4|exact H1].
      * intros (H3 & H4 & H1). split; [exact H1|]. apply B2. split; [exact H3|exact H4].
    + intros ND. apply I3. apply product_NoDup. apply Forall_forall. intros d Hd. destruct (Forall2_In_r _ _ _ _ F Hd) as (x & Hx & _ & U). apply (keys_In (ta_events a) order Ho) in Hx as (e & dd & He & Hx). specialize (U e dd He Hx). subst dd. exact (ND e x d He Hx).
Qed.
Print Assumptions C55_temporal_actions.
Theorem C55_temporal_total : forall (T : Type) str m order (a : taction T sschema), (forall l, Permutation (order l) l) -> List.length (ta_deltas a) = List.length (ta_events a) -> good_temporal (ta_events a) ->
  Forall (fun e => Forall (simple_constraint (flat_map (fun e => map fst (sc_vars e)) (ta_events a))) (sc_constraints e)) (ta_events a) -> exists gs, ground_temporal_action str m order a = Ok gs.
Proof.
  intros T str m order a Ho HL HG HS. unfold ground_temporal_action. set (X := consolidate (ta_events a)) in *. set (xs := order (map fst X)) in *. destruct (domains_ok (ta_events a) order Ho HG) as (ds & Ed & F). fold X xs in Ed, F. rewrite Ed. cbn [bind].
  eapply temporal_values_total; eauto.
  - exact (keys_vars (ta_events a) order Ho HG).
  - exact (gt_body _ HG).
  - intros v Hv. exact (binding_cb (ta_events a) order Ho HG ds v F Hv).
Qed.
Print Assumptions C55_temporal_total.

(** ** Examples *)
Definition at_ (t : term) : term := App (FU "at" ["object"] "object") [t].
(** move ?x to ?y: the place of [x] changes from [y]'s place to [y]; different, and [x] in [p] *)
Definition move : sschema := {| sc_name := "move"; sc_vars := [(x_, DList [c_; d_]); (y_, DList [c_; d_])]; sc_constraints := [Atom (PB PNe) [x_; y_]; P_ x_]; sc_transitions := [(at_ x_, c_, y_)] |}.
Definition opsP : list mop := [OAdd (PU "p" ["object"]) [c_]].
Lemma move_body : good_body [x_; y_] move.
Proof. split; [constructor; [|constructor; [|constructor]]; (split; [reflexivity|intros x s _ H; vm_compute in H; exact H])|]. constructor; [|constructor]. cbn. split; [unfold at_; eauto|]. split; [|split]; intros x s _ H; vm_compute in H; exact H. Qed.
Lemma cd_const : Forall is_constant [c_; d_].
Proof. repeat constructor; unfold is_constant, c_, d_; eauto. Qed.
Lemma move_good : good_schema None move.
Proof.
  split; [repeat constructor; cbn; [intros [H|[]]; discriminate H|intros []]| |exact move_body].
  constructor; [|constructor; [|constructor]]; (split; [unfold x_, y_; cbn; eauto|exists [c_; d_]; split; [left; auto|exact cd_const]]).
Qed.
Lemma move_simple : Forall (simple_constraint [x_; y_]) (sc_constraints move).
Proof. assert (X : simple_argument [x_; y_] x_) by (right; unfold x_; split; [eauto|now left]). assert (Y : simple_argument [x_; y_] y_) by (right; unfold y_; split; [eauto|right; now left]). constructor; [|constructor; [|constructor]]; cbn; [apply sim_eq; auto|apply sim_pred; auto]. Qed.
Definition nosub : string -> string -> bool := String.eqb.
Example C55_nonvacuous : forallb op_constants opsP = true /\ Forall (good_schema None) [move] /\ Forall (fun a => Forall (simple_constraint (map fst (sc_vars a))) (sc_constraints a)) [move] /\
  ground_action_schemas (snd (outcomes (mstep nosub) opsP empty_model)) None [move] = Ok [{| sa_name := "move"; sa_args := [c_; d_]; sa_transitions := [(at_ c_, c_, d_)] |}].
Proof. split; [reflexivity|]. split; [constructor; [exact move_good|constructor]|]. split; [constructor; [exact move_simple|constructor]|]. vm_compute. reflexivity. Qed.
Definition shout : sschema := {| sc_name := "shout"; sc_vars := [(x_, DList [c_; d_])]; sc_constraints := [P_ x_]; sc_transitions := [(at_ x_, x_, c_)] |}.
Definition tmove : taction nat sschema := add_event (make_taction "tmove" [(0, move)]) 5 shout.
Definition tstr (t : term) : string := match t with Cst (CStr n) _ => n | _ => "?" end.
Lemma t_good : good_temporal (ta_events tmove).
Proof.
  split.
  - intros e x d [<-|[<-|[]]] H; cbn in H; [destruct H as [[= <- <-]|[[= <- <-]|[]]]|destruct H as [[= <- <-]|[]]]; (split; [unfold x_, y_; eauto|exists [c_; d_]; split; [reflexivity|exact cd_const]]).
  - intros e e' x d d' [<-|[<-|[]]] [<-|[<-|[]]] H H'; cbn in H, H'; repeat match goal with H : _ \/ _ |- _ => destruct H as [H|H] | H : False |- _ => destruct H | H : (_, _) = (_, _) |- _ => inversion H; clear H; subst end; try reflexivity; discriminate.
  - constructor; [|constructor; [|constructor]]; (split; [repeat (constructor; [split; [reflexivity|intros x s _ H; vm_compute in H; exact H]|]); constructor|]); (constructor; [|constructor]; cbn; split; [unfold at_; eauto|]; split; [|split]; intros x s _ H; vm_compute in H; exact H).
Qed.
Example C55_temporal_nonvacuous : (forall l : list term, Permutation l l) /\ good_temporal (ta_events tmove) /\
  ground_temporal_action tstr (snd (outcomes (mstep nosub) opsP empty_model)) (fun l => l) tmove =
    Ok [{| ta_name := "tmove(c,d)"; ta_events := [{| sa_name := "move"; sa_args := [c_; d_]; sa_transitions := [(at_ c_, c_, d_)] |}; {| sa_name := "shout"; sa_args := [c_; d_]; sa_transitions := [(at_ c_, c_, c_)] |}]; ta_deltas := [0; 5] |}].
Proof. split; [intros l; apply Permutation_refl|]. split; [exact t_good|]. vm_compute. reflexivity. Qed.

(** A later event may give a variable other values: they are ignored, and the action is grounded with values the event does not allow. *)
Definition narrow : sschema := {| sc_name := "shout"; sc_vars := [(x_, DList [c_])]; sc_constraints := []; sc_transitions := [] |}.
Definition wide : sschema := {| sc_name := "wait"; sc_vars := [(x_, DList [c_; d_])]; sc_constraints := []; sc_transitions := [] |}.
Theorem C55_later_domain_refuted : exists gs g, ground_temporal_action tstr empty_model (fun l => l) (make_taction "t" [(0, wide); (1, narrow)]) = Ok gs /\ In g gs /\ exists e, In e (ta_events g) /\ sa_name e = "shout" /\ ~ (exists b, assigns None (sc_vars narrow) b /\ sa_args e = map snd b).
Proof.
  eexists. eexists. split; [vm_compute; reflexivity|]. split; [right; left; reflexivity|]. eexists. split; [right; left; reflexivity|]. split; [reflexivity|]. intros (b & HA & E). inversion HA as [|xd vt ? ? [_ (l & Hl & Hv)] HA']; subst. inversion HA'; subst. destruct Hl as [[_ Hl]|(T & n & Hl & _)]; [|discriminate Hl]. injection Hl as <-. destruct vt as [vx vt]. cbn in E, Hv. destruct Hv as [<-|[]]. discriminate E.
Qed.
Print Assumptions C55_later_domain_refuted.
(** The constraints are all evaluated before any is looked at: an undefined value stops the grounding although another constraint already rules the values out. *)
Theorem C55_guarded_constraint_refuted : exists a e, good_schema None a /\ In Bot (sc_constraints a) /\
  ground_action_schemas empty_model None [a] = Err e.
Proof.
  exists {| sc_name := "a"; sc_vars := [(x_, DList [c_])]; sc_constraints := [Bot; Atom (PB PEq) [at_ x_; c_]]; sc_transitions := [] |}. eexists. split; [|split; [now left|vm_compute; reflexivity]].
  - split; [repeat constructor; intros []| |].
    + constructor; [|constructor]. split; [unfold x_; cbn; eauto|]. exists [c_]. split; [left; auto|]. repeat constructor. unfold is_constant, c_. eauto.
    + split; [constructor; [|constructor; [|constructor]]; (split; [reflexivity|intros x s _ H; vm_compute in H; exact H])|constructor].
Qed.
Print Assumptions C55_guarded_constraint_refuted.
