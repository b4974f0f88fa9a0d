(** C61: the blocksworld benchmark, src/tarski/benchmarks/blocksworld.py *)
From Coq Require Import Permutation.
From Verif Require Import ListUtil Base Syntax SemLemmas Build ModelState ModelProofs Eval EvalProofs Subst SubstProofs QElim Effects ProgressSpec StateLemmas ProgressProofs PropsProgress FreeVars Represent RelaxSpec
  SasText SasTextProofs Blocks BlocksSpec BlocksProofs BlocksProofs2 BlocksProofs3.
#[local] Open Scope string_scope.
#[local] Open Scope list_scope.

(** A problem made by the generator for [n] blocks, whatever the random numbers were: [bs] and [bs'] are the two shuffled lists of blocks. *)
Definition generated (sub : sort -> sort -> bool) (n : nat) (use_inequalities : bool) (bs : list string) (choice : nat -> nat) (bs' : list string) (choice' : nat -> nat) (p : problem) : Prop :=
  Permutation bs (block_names n) /\ Permutation bs' (block_names n) /\ generate_strips_blocksworld_problem sub use_inequalities bs choice bs' choice' = Ok p.
(** Bindings of parameters only *)
Definition binding_plan (plan : list (string * subst)) : Prop := Forall (fun step => sub_f (snd step) = []) plan.

Lemma perm_valid bs bs' w : Permutation bs bs' -> valid bs w -> valid bs' w.
Proof. intros P [V N]. split; [eapply perm_trans; eauto|auto]. Qed.
Lemma generated_inv sub n b bs choice bs' choice' p : sub obj obj = true -> generated sub n b bs choice bs' choice' p ->
  p_actions p = bw_actions b /\
  (exists cl pat w, generate_random_bw_pattern choice bs = Ok (cl, pat) /\ valid (block_names n) w /\ laid_out pat w /\ describes (p_init p) w /\ is_state sub (p_init p)) /\
  (exists cl pat w, generate_random_bw_pattern choice' bs' = Ok (cl, pat) /\ valid (block_names n) w /\ laid_out pat w /\ bw_goal pat = Ok (p_goal p)).
Proof.
  intros Ob (P & P' & G). assert (ND := block_names_NoDup n). assert (NT := block_names_table n).
  assert (ND1 := Permutation_NoDup (Permutation_sym P) ND). assert (ND2 := Permutation_NoDup (Permutation_sym P') ND).
  assert (NT1 : ~ In "table" bs) by (intros K; apply NT; exact (Permutation_in _ P K)). assert (NT2 : ~ In "table" bs') by (intros K; apply NT; exact (Permutation_in _ P' K)).
  destruct (pattern_spec choice bs ND1 NT1) as (cl & pat & w & E & V & L & C). destruct (pattern_spec choice' bs' ND2 NT2) as (cl' & pat' & w' & E' & V' & L' & C').
  destruct (init_spec sub bs cl pat w Ob ND1 NT1 V L C) as (m & Em & Sm & Dm). unfold generate_strips_blocksworld_problem in G. rewrite E in G. cbn [bind fst snd] in G. rewrite Em in G. cbn [bind] in G. rewrite E' in G. cbn [bind fst snd] in G.
  destruct (bw_goal pat') as [g|] eqn:Eg; [|discriminate]. cbn [bind] in G. injection G as <-. cbn [p_actions p_init p_goal]. split; [reflexivity|]. split.
  - exists cl, pat, w. split; [auto|]. split; [exact (perm_valid _ _ _ P V)|]. auto.
  - exists cl', pat', w'. split; [auto|]. split; [exact (perm_valid _ _ _ P' V')|]. auto.
Qed.

(** ** C61. The generator always succeeds. *)
Theorem C61_generates sub n b bs choice bs' choice' : sub obj obj = true -> Permutation bs (block_names n) -> Permutation bs' (block_names n) ->
  exists p, generate_strips_blocksworld_problem sub b bs choice bs' choice' = Ok p.
Proof.
  intros Ob P P'. assert (ND := block_names_NoDup n). assert (NT := block_names_table n).
  assert (ND1 := Permutation_NoDup (Permutation_sym P) ND). assert (ND2 := Permutation_NoDup (Permutation_sym P') ND).
  assert (NT1 : ~ In "table" bs) by (intros K; apply NT; exact (Permutation_in _ P K)). assert (NT2 : ~ In "table" bs') by (intros K; apply NT; exact (Permutation_in _ P' K)).
  destruct (pattern_spec choice bs ND1 NT1) as (cl & pat & w & E & V & L & C). destruct (pattern_spec choice' bs' ND2 NT2) as (cl' & pat' & w' & E' & V' & L' & C').
  destruct (init_spec sub bs cl pat w Ob ND1 NT1 V L C) as (m & Em & Sm & Dm). unfold generate_strips_blocksworld_problem. rewrite E. cbn [bind fst snd]. rewrite Em. cbn [bind]. rewrite E'. cbn [bind fst snd].
  assert (X : exists g, bw_goal pat' = Ok g). { unfold bw_goal, land. destruct (map goal_conjunct pat') as [|f [|f2 fs]]; cbn; eauto. } destruct X as [g ->]. cbn [bind]. eauto.
Qed.
(** Its initial state describes towers made of exactly the blocks b1 .. bn, laid out as the random pattern says, with an empty hand. *)
Theorem C61_initial sub n b bs choice bs' choice' p : sub obj obj = true -> generated sub n b bs choice bs' choice' p ->
  exists clearplaces pattern w, generate_random_bw_pattern choice bs = Ok (clearplaces, pattern) /\ valid (block_names n) w /\ laid_out pattern w /\ describes (p_init p) w.
Proof. intros Ob G. destruct (generated_inv _ _ _ _ _ _ _ _ Ob G) as (_ & (cl & pat & w & H) & _). exists cl, pat, w. tauto. Qed.
(** Every plan is a sequence of physical moves, and every state it leads to describes the resulting world. *)
Theorem C61_plans_are_moves D sub n b bs choice bs' choice' p plan m w : sub obj obj = true -> generated sub n b bs choice bs' choice' p ->
  valid (block_names n) w -> describes (p_init p) w -> binding_plan plan -> execution D sub (p_actions p) (p_init p) plan m ->
  exists steps w', moves w steps w' /\ valid (block_names n) w' /\ describes m w' /\
    Forall2 (fun s q => fst s = fst q /\ exists a, In a (p_actions p) /\ a_name a = fst s /\ instantiates a (snd s) (snd q)) plan steps.
Proof.
  intros Ob G V Dm B X. destruct (generated_inv _ _ _ _ _ _ _ _ Ob G) as (Ea & (cl & pat & w0 & _ & _ & _ & _ & Sm) & _). rewrite Ea in *.
  destruct (execution_moves D sub b _ _ _ _ (block_names_NoDup n) X w Sm Dm V B) as (steps & w' & M & D' & _ & F). exists steps, w'. split; [auto|]. split; [eapply moves_valid; eauto|]. auto.
Qed.
(** Conversely every sequence of physical moves is a plan. *)
Theorem C61_moves_are_plans D sub n b bs choice bs' choice' p steps w w' : sub obj obj = true -> generated sub n b bs choice bs' choice' p ->
  valid (block_names n) w -> describes (p_init p) w -> moves w steps w' ->
  exists m, execution D sub (p_actions p) (p_init p) (map (fun q => (fst q, binds (snd q))) steps) m /\ describes m w'.
Proof.
  intros Ob G V Dm M. destruct (generated_inv _ _ _ _ _ _ _ _ Ob G) as (Ea & (cl & pat & w0 & _ & _ & _ & _ & Sm) & _). rewrite Ea.
  destruct (moves_execution D sub b _ _ _ _ Ob (block_names_NoDup n) M _ Sm Dm V) as (m & X & D' & _). eauto.
Qed.

(** * What this means for the atoms of a state *)
Lemma reachable_world D sub n b bs choice bs' choice' p plan m : sub obj obj = true -> generated sub n b bs choice bs' choice' p -> binding_plan plan -> execution D sub (p_actions p) (p_init p) plan m ->
  exists w, valid (block_names n) w /\ describes m w /\ is_state sub m.
Proof.
  intros Ob G B X. destruct (generated_inv _ _ _ _ _ _ _ _ Ob G) as (Ea & (cl & pat & w0 & _ & V0 & _ & D0 & Sm) & _). rewrite Ea in X.
  destruct (execution_moves D sub b _ _ _ _ (block_names_NoDup n) X w0 Sm D0 V0 B) as (steps & w' & M & D' & S' & F). exists w'. split; [eapply moves_valid; eauto|]. auto.
Qed.
(** Every block is held, or on the table, or on exactly one other block; at most one block is on a block; clear and handempty mean what they say. *)
Theorem C61_places D sub n b bs choice bs' choice' p plan m : sub obj obj = true -> generated sub n b bs choice bs' choice' p -> binding_plan plan -> execution D sub (p_actions p) (p_init p) plan m ->
  let holds q xs := m_holds m q (map block xs) = true in
  (forall x, In x (block_names n) -> holds holding [x] \/ holds ontable [x] \/ exists y, In y (block_names n) /\ holds on [x; y]) /\
  (forall x, ~ (holds holding [x] /\ holds ontable [x])) /\ (forall x y, ~ (holds holding [x] /\ holds on [x; y])) /\ (forall x y, ~ (holds ontable [x] /\ holds on [x; y])) /\
  (forall x y z, holds on [x; y] -> holds on [x; z] -> y = z) /\ (forall x y z, holds on [x; z] -> holds on [y; z] -> x = y) /\ (forall x, ~ holds on [x; x]) /\
  (forall x, In x (block_names n) -> (holds clear [x] <-> ~ holds holding [x] /\ forall y, ~ holds on [y; x])) /\
  (holds handempty [] <-> forall x, ~ holds holding [x]) /\ (forall x y, holds holding [x] -> holds holding [y] -> x = y) /\
  (forall q pt, m_holds m q pt = true -> exists xs, pt = map block xs /\ Forall (fun x => In x (block_names n)) xs).
Proof.
  intros Ob G B X. destruct (reachable_world _ _ _ _ _ _ _ _ _ _ _ Ob G B X) as (w & V & Dm & _). clear B X G.
  assert (ND := block_names_NoDup n). assert (NT := block_names_table n). assert (N := valid_NoDup _ _ ND V). assert (Nt := nodup_app_l _ _ N). set (blocks := block_names n) in *. clearbody blocks.
  assert (Hold : forall x, m_holds m holding [block x] = true <-> hand w = Some x). { intros x. rewrite (Dm holding [block x]). split; [intros F; apply fact_holding in F as (x' & E & H); apply block_inj in E; congruence|apply f_holding]. }
  assert (Tab : forall x, m_holds m ontable [block x] = true <-> exists u, In (u ++ [x]) (towers w)). { intros x. rewrite (Dm ontable [block x]). split; [intros F; apply fact_ontable in F as (x' & u & E & H); apply block_inj in E; subst; eauto|intros (u & H); eapply f_ontable; eauto]. }
  assert (On : forall x y, m_holds m on [block x; block y] = true <-> exists u v, In (u ++ x :: y :: v) (towers w)).
  { intros x y. rewrite (Dm on [block x; block y]). split; [intros F; apply fact_on in F as (x' & y' & t & E & E' & H & (u & v & ->)); apply block_inj in E, E'; subst; eauto|]. intros (u & v & H). eapply f_on; [eauto|]. exists u, v. auto. }
  assert (Clr : forall x, m_holds m clear [block x] = true <-> exists u, In (x :: u) (towers w)). { intros x. rewrite (Dm clear [block x]). split; [intros F; apply fact_clear in F as (x' & u & E & H); apply block_inj in E; subst; eauto|intros (u & H); eapply f_clear; eauto]. }
  assert (Emp : m_holds m handempty [] = true <-> hand w = None). { rewrite (Dm handempty []). split; [apply fact_handempty|apply f_handempty]. }
  assert (Tin : forall x t, In t (towers w) -> In x t -> In x blocks). { intros x t H1 H2. destruct V as [P _]. eapply Permutation_in; [exact P|]. apply in_or_app. left. eapply concat_in; eauto. }
  assert (Hin : forall x t, hand w = Some x -> In t (towers w) -> In x t -> False). { intros x t H1 H2 H3. unfold held in N. rewrite H1 in N. apply NoDup_remove_2 in N. apply N. rewrite app_nil_r. eapply concat_in; eauto. }
  assert (Uniq : forall x u v u' v', In (u ++ x :: v) (towers w) -> In (u' ++ x :: v') (towers w) -> u = u' /\ v = v').
  { intros x u v u' v' H1 H2. assert (E : u ++ x :: v = u' ++ x :: v') by (eapply (nodup_unique x _ _ (towers w) Nt); eauto; apply in_or_app; right; now left). apply (split_unique x u v u' v'); [|auto]. eapply nodup_tower; eauto. }
  cbn [map]. cbv zeta. split; [|split; [|split; [|split; [|split; [|split; [|split; [|split; [|split; [|split]]]]]]]]].
  - intros x Hx. rewrite Hold, Tab. destruct V as [P _]. assert (Hx' := Permutation_in _ (Permutation_sym P) Hx). apply in_app_or in Hx' as [H|H].
    + right. apply in_concat in H as (t & Ht & H). apply in_split in H as (u & v & ->). destruct v as [|y v]; [left; eauto|]. right. exists y. split; [eapply Tin; [exact Ht|apply in_or_app; right; right; now left]|]. rewrite On. eauto.
    + left. unfold held in H. destruct (hand w); [destruct H as [->|[]]; auto|destruct H].
  - intros x [H1 H2]. rewrite Hold in H1. rewrite Tab in H2. destruct H2 as (u & H2). eapply Hin; [exact H1|exact H2|]. apply in_or_app. right. now left.
  - intros x y [H1 H2]. rewrite Hold in H1. rewrite On in H2. destruct H2 as (u & v & H2). eapply Hin; [exact H1|exact H2|]. apply in_or_app. right. now left.
  - intros x y [H1 H2]. rewrite Tab in H1. rewrite On in H2. destruct H1 as (u & H1), H2 as (u' & v' & H2). destruct (Uniq _ _ _ _ _ H1 H2). discriminate.
  - intros x y z. rewrite !On. intros (u & v & H1) (u' & v' & H2). destruct (Uniq _ _ _ _ _ H1 H2) as [_ E]. congruence.
  - intros x y z. rewrite !On. intros (u & v & H1) (u' & v' & H2). rewrite (app_assoc u [x] (z :: v)) in H1 || replace (u ++ x :: z :: v) with ((u ++ [x]) ++ z :: v) in H1 by (rewrite <- app_assoc; reflexivity).
    replace (u' ++ y :: z :: v') with ((u' ++ [y]) ++ z :: v') in H2 by (rewrite <- app_assoc; reflexivity). destruct (Uniq _ _ _ _ _ H1 H2) as [E _]. apply app_inj_tail in E. tauto.
  - intros x. rewrite On. intros (u & v & H). assert (H' := H). replace (u ++ x :: x :: v) with ((u ++ [x]) ++ x :: v) in H' by (rewrite <- app_assoc; reflexivity).
    destruct (Uniq _ _ _ _ _ H H') as [_ E]. apply (f_equal (@List.length string)) in E. cbn in E. lia.
  - intros x Hx. rewrite Clr, Hold. split.
    + intros (u & H). split; [intros K; eapply Hin; [exact K|exact H|now left]|]. intros y. rewrite On. intros (u' & v' & H'). replace (u' ++ y :: x :: v') with ((u' ++ [y]) ++ x :: v') in H' by (rewrite <- app_assoc; reflexivity).
      destruct (Uniq x [] u _ _ H H') as [E _]. destruct u'; discriminate.
    + intros [H1 H2]. destruct V as [P _]. assert (Hx' := Permutation_in _ (Permutation_sym P) Hx). apply in_app_or in Hx' as [H|H]; [|unfold held in H; destruct (hand w); [destruct H as [->|[]]; congruence|destruct H]].
      apply in_concat in H as (t & Ht & H). apply in_split in H as (u & v & ->). destruct u as [|a u _] using rev_ind; [eauto|]. exfalso. apply (H2 a). rewrite On. exists u, v. rewrite <- app_assoc in Ht. exact Ht.
  - rewrite Emp. split; [intros E x; rewrite Hold; congruence|]. intros H. destruct (hand w) as [x|] eqn:E; [|auto]. exfalso. apply (H x). now rewrite Hold.
  - intros x y. rewrite !Hold. congruence.
  - intros q pt H. apply Dm in H. destruct H as [x y t H1 H2|x u H1|x u H1|x H1|H1].
    + apply on_in in H2 as [I1 I2]. exists [x; y]. split; [auto|]. constructor; [eauto|]. constructor; eauto.
    + exists [x]. split; [auto|]. constructor; [|constructor]. eapply Tin; [exact H1|]. apply in_or_app. right. now left.
    + exists [x]. split; [auto|]. constructor; [|constructor]. eapply Tin; [exact H1|]. now left.
    + exists [x]. split; [auto|]. constructor; [|constructor]. destruct V as [P _]. eapply Permutation_in; [exact P|]. apply in_or_app. right. unfold held. rewrite H1. now left.
    + exists []. split; [auto|constructor].
Qed.
(** The goal holds in a reachable state exactly if the blocks stand as the goal pattern says and the hand is empty. *)
Theorem C61_goal D sub n b bs choice bs' choice' p plan m : sub obj obj = true -> generated sub n b bs choice bs' choice' p -> binding_plan plan -> execution D sub (p_actions p) (p_init p) plan m ->
  exists clearplaces pattern, generate_random_bw_pattern choice' bs' = Ok (clearplaces, pattern) /\ forall w, valid (block_names n) w -> describes m w -> (eval_f m (p_goal p) = Ok true <-> laid_out pattern w).
Proof.
  intros Ob G B X. destruct (reachable_world _ _ _ _ _ _ _ _ _ _ _ Ob G B X) as (_ & _ & _ & Sm). destruct (generated_inv _ _ _ _ _ _ _ _ Ob G) as (_ & _ & (cl & pat & v & E & V & L & Eg)).
  exists cl, pat. split; [auto|]. intros w Vw Dw. exact (goal_spec sub (block_names n) pat v m w (p_goal p) (block_names_NoDup n) (block_names_table n) V L Eg Sm Dw Vw).
Qed.
(** Every generated problem has a solution of at most four actions per block. *)
Theorem C61_solvable D sub n b bs choice bs' choice' p : sub obj obj = true -> generated sub n b bs choice bs' choice' p ->
  exists plan m, execution D sub (p_actions p) (p_init p) plan m /\ eval_f m (p_goal p) = Ok true /\ List.length plan <= 4 * n /\ binding_plan plan.
Proof.
  intros Ob G. destruct (generated_inv _ _ _ _ _ _ _ _ Ob G) as (Ea & (cl & pat & w & _ & V & [L1 _] & Dm & Sm) & (cl' & pat' & v & _ & V' & L' & Eg)).
  assert (ND := block_names_NoDup n). assert (NT := block_names_table n). destruct (connect _ _ _ V V' L1 (proj1 L')) as (steps & w' & M & S & Ln). rewrite Ea.
  destruct (moves_execution D sub b _ _ _ _ Ob ND M _ Sm Dm V) as (m & X & D' & S'). exists (written steps), m. split; [auto|]. split; [|split].
  - apply (goal_spec sub (block_names n) pat' v m v (p_goal p) ND NT V' L' Eg S' (describes_same _ _ _ S D') V'). exact L'.
  - unfold written. rewrite map_length. unfold block_names in Ln. rewrite map_length, seq_length in Ln. exact Ln.
  - unfold binding_plan, written. apply Forall_forall. intros s Hs. apply in_map_iff in Hs as (q & <- & _). reflexivity.
Qed.
(** The disequality in the precondition of "stack" is redundant: both variants of a problem have the same plans, with the same states. *)
Lemma other_stack b b' a xs pre effs : step_of a b xs pre effs -> forall a' pre' effs', step_of a' b' xs pre' effs' -> a_name a = a_name a' -> effs' = effs /\ a_params a' = a_params a.
Proof. intros H. destruct H; intros a' pre' effs' H' E; inversion H'; subst; cbn in E; try discriminate E; auto. Qed.
Lemma execution_variant D sub b b' blocks m plan m' : sub obj obj = true -> NoDup blocks -> execution D sub (bw_actions b) m plan m' -> forall w, is_state sub m -> describes m w -> valid blocks w -> binding_plan plan ->
  execution D sub (bw_actions b') m plan m'.
Proof.
  intros Ob ND. induction 1 as [m|m a s pre effs m1 plan m2 Ha G A Pr _ IH]; intros w Sm Dm V B; [constructor|]. inversion B as [|? ? B1 B2]; subst. cbn [snd] in B1.
  destruct (step_move D sub b blocks m w a s pre effs m1 ND Sm Dm V B1 Ha G A Pr) as (xs & w1 & St & I & M & D1 & S1).
  destruct (move_step D sub b' blocks m w _ xs w1 Ob ND Sm Dm V M) as (a' & pre' & effs' & m1' & Ha' & Ea & St' & A' & Pr' & _).
  destruct (other_stack _ _ _ _ _ _ St _ _ _ St' (eq_sym Ea)) as [-> Ep]. rewrite <- Ea. rewrite Pr in Pr'. injection Pr' as <-. econstructor; [exact Ha'|eapply step_ground; [exact St'|]|exact A'|exact Pr|].
  - destruct I as [I1 I2]. split; [auto|]. now rewrite Ep.
  - eapply IH; eauto. eapply move_valid; eauto.
Qed.
Theorem C61_inequalities_redundant D sub n bs choice bs' choice' p p' plan m : sub obj obj = true -> generated sub n true bs choice bs' choice' p -> generated sub n false bs choice bs' choice' p' -> binding_plan plan ->
  (execution D sub (p_actions p) (p_init p) plan m <-> execution D sub (p_actions p') (p_init p') plan m) /\ p_goal p = p_goal p'.
Proof.
  intros Ob G G' B. assert (E : p_init p = p_init p' /\ p_goal p = p_goal p').
  { destruct G as (_ & _ & G), G' as (_ & _ & G'). unfold generate_strips_blocksworld_problem in *. destruct (generate_random_bw_pattern choice bs) as [r|]; [|discriminate]. cbn [bind] in *.
    destruct (bw_init sub (fst r) (snd r)) as [i|]; [|discriminate]. cbn [bind] in *. destruct (generate_random_bw_pattern choice' bs') as [r'|]; [|discriminate]. cbn [bind] in *.
    destruct (bw_goal (snd r')) as [g|]; [|discriminate]. cbn [bind] in *. injection G as <-. injection G' as <-. auto. }
  destruct E as [Ei Eg]. split; [|auto]. destruct (generated_inv _ _ _ _ _ _ _ _ Ob G) as (Ea & (cl & pat & w & _ & V & _ & Dm & Sm) & _). destruct (generated_inv _ _ _ _ _ _ _ _ Ob G') as (Ea' & _). rewrite Ea, Ea', <- Ei.
  split; intros X; eapply execution_variant; eauto using block_names_NoDup.
Qed.

(** * Examples *)
Definition any_sub : sort -> sort -> bool := String.eqb.
Definition D0 : domains := fun _ => None.
(** Three blocks. Initially b2 is on b1, and b3 on the table; the goal is the tower b1, b2, b3. *)
Definition bw3 : res problem := generate_strips_blocksworld_problem any_sub true ["b1"; "b2"; "b3"] (fun i => i) ["b3"; "b2"; "b1"] (fun _ => 1).
Example C61_nonvacuous : exists p, generated any_sub 3 true ["b1"; "b2"; "b3"] (fun i => i) ["b3"; "b2"; "b1"] (fun _ => 1) p /\
  map (fun x => m_holds (p_init p) ontable [block x]) ["b1"; "b2"; "b3"] = [true; false; true] /\ m_holds (p_init p) on [block "b2"; block "b1"] = true /\
  p_goal p = Comp And [Atom ontable [block "b3"]; Atom on [block "b2"; block "b3"]; Atom on [block "b1"; block "b2"]] /\
  exists m, execution D0 any_sub (p_actions p) (p_init p) [("unstack", binds ["b2"; "b1"]); ("stack", binds ["b2"; "b3"]); ("pick-up", binds ["b1"]); ("stack", binds ["b1"; "b2"])] m /\ eval_f m (p_goal p) = Ok true.
Proof.
  eexists. split; [split; [|split; [|vm_compute; reflexivity]]|].
  - apply Permutation_refl.
  - change (block_names 3) with (rev ["b3"; "b2"; "b1"]). apply Permutation_rev.
  - split; [reflexivity|]. split; [reflexivity|]. split; [reflexivity|]. eexists. split.
    + eapply (ex_step _ _ _ _ unstack); [cbn; tauto|vm_compute; reflexivity|vm_compute; reflexivity|vm_compute; reflexivity|].
      eapply (ex_step _ _ _ _ (stack true)); [cbn; tauto|vm_compute; reflexivity|vm_compute; reflexivity|vm_compute; reflexivity|].
      eapply (ex_step _ _ _ _ pick_up); [cbn; tauto|vm_compute; reflexivity|vm_compute; reflexivity|vm_compute; reflexivity|].
      eapply (ex_step _ _ _ _ (stack true)); [cbn; tauto|vm_compute; reflexivity|vm_compute; reflexivity|vm_compute; reflexivity|]. constructor.
    + vm_compute. reflexivity.
Qed.
(** b1, under b2, cannot be picked up, and b3 cannot be stacked on itself. *)
Example C61_nonvacuous_blocked : exists p, bw3 = Ok p /\ (exists pre effs, ground_schema pick_up (binds ["b1"]) = Ok (pre, effs) /\ is_applicable (p_init p) pre = Ok false) /\
  (exists pre effs m pre' effs', ground_schema pick_up (binds ["b3"]) = Ok (pre, effs) /\ progress D0 any_sub (p_init p) effs = Ok m /\ ground_schema (stack false) (binds ["b3"; "b3"]) = Ok (pre', effs') /\ is_applicable m pre' = Ok false).
Proof.
  eexists. split; [vm_compute; reflexivity|]. split.
  - eexists. eexists. split; [vm_compute; reflexivity|vm_compute; reflexivity].
  - eexists. eexists. eexists. eexists. eexists. split; [vm_compute; reflexivity|]. split; [vm_compute; reflexivity|]. split; [vm_compute; reflexivity|vm_compute; reflexivity].
Qed.
Print Assumptions C61_generates. Print Assumptions C61_initial. Print Assumptions C61_plans_are_moves. Print Assumptions C61_moves_are_plans. Print Assumptions C61_places. Print Assumptions C61_goal.
Print Assumptions C61_solvable. Print Assumptions C61_inequalities_redundant.
