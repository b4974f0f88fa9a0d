(** C54: grounding of constraints, sensors, reactions and differential constraints by enumeration *)
From Verif Require Import ListUtil Base Syntax Semantics SemLemmas FolSpec SubstSpec SubstProofs Subst QElim QElimProofs NegBuiltin Nnf Cnf PropsFol Effects Represent NaiveGround NaiveGroundSpec NaiveGroundProofs NaiveGroundProofs2 LpGroundProofs3 PropsGrounding.
From Coq Require Import Permutation.
#[local] Open Scope string_scope.

(** ** Constraints *)
Theorem C54_constraints : forall D order eqb cs, constants_only D -> (forall l, Permutation (order l) l) -> (forall f g, eqb f g = true -> f = g) -> Forall (groundable_constraint D) cs ->
  exists gs, (NoDup gs -> calculate_constraints D order eqb cs ([], 0) = Ok (gs, List.length gs)) /\
    ((forall f, eqb f f = true) -> ~ NoDup gs -> calculate_constraints D order eqb cs ([], 0) = Err DuplicateDefinition) /\
    match calculate_constraints D order eqb cs ([], 0) with Ok r => r = (gs, List.length gs) | Err e => e = DuplicateDefinition end /\
    (forall g, In g gs -> is_cnf g = true /\ forall x s, free_in (x, s) g = false) /\
    forall M e, respects D M -> standard_comparisons M -> ((forall g, In g gs -> fsem M g e = true) <-> (forall c, In c cs -> universally_true M c)).
Proof.
  intros D order eqb cs HD Ho He HF. destruct (calculate_constraints_spec D order eqb HD Ho cs HF) as (gs & E & P & S). exists gs. rewrite E. split; [|split; [|split; [|split]]].
  - intros N. rewrite add_all_distinct; auto.
  - intros Hr N. rewrite add_all_repeated; auto. constructor.
  - pose proof (add_all_cases eqb gs []) as X. destruct (add_all eqb gs []); cbn [bind]; [now subst|exact X].
  - intros g Hg. rewrite Forall_forall in P. destruct (P g Hg). auto.
  - intros M e HM SM. rewrite <- (S M e HM SM), forallb_forall. tauto.
Qed.
Print Assumptions C54_constraints.

(** ** The other grounders *)
Lemma lookup_none_key b x : lookup b x = None -> forall t, ~ In (x, t) b.
Proof. induction b as [|[z u] b IH]; intros E t H; [destruct H|]. cbn in E. destruct (var_eqb z x) eqn:Ez; [discriminate|]. destruct H as [[= -> ->]|H]; [|exact (IH E t H)]. assert (var_eqb x x = true) by (apply var_eqb_eq; reflexivity). congruence. Qed.
Lemma lookup_rev b x : NoDup (map fst b) -> lookup (rev b) x = lookup b x.
Proof.
  intros N. assert (U : forall t u, In (x, t) b -> In (x, u) b -> t = u).
  { intros t u Ht Hu. clear - N Ht Hu. induction b as [|[y v] b IH]; [destruct Ht|]. cbn in N. inversion N as [|? ? N1 N2]; subst. destruct Ht as [[= -> ->]|Ht], Hu as [Hu|Hu]; [now injection Hu|exfalso; apply N1; apply in_map_iff; exists (x, u); auto|injection Hu as -> ->; exfalso; apply N1; apply in_map_iff; exists (x, t); auto|auto]. }
  destruct (lookup (rev b) x) as [t|] eqn:E1, (lookup b x) as [u|] eqn:E2; try reflexivity.
  - apply lookup_In in E1, E2. apply in_rev in E1. f_equal. auto.
  - apply lookup_In in E1. apply in_rev in E1. exfalso. exact (lookup_none_key _ _ E2 _ E1).
  - apply lookup_In in E2. apply in_rev in E2. exfalso. exact (lookup_none_key _ _ E1 _ E2).
Qed.
Section Schemas.
Variable D : domains.
Hypothesis HD : constants_only D.
Lemma binding_keys params b : good_params D params -> binding_for D params b -> NoDup (map fst b).
Proof. intros [N _] [E _]. rewrite E in N. clear - N. apply (NoDup_map_inv (fun v : var => Var (fst v) (snd v))). rewrite map_map. exact N. Qed.
Lemma binding_clash params b bs : binding_for D params b -> (forall x s, In (Var x s) params -> ~ In (x, s) bs) -> no_clash bs (rev b) = true.
Proof.
  intros [E HF] Hu. rewrite Forall_forall in HF. apply const_subst_no_clash.
  - intros x t H. apply in_rev in H. destruct (HF _ H) as (cs & Hs & Hi). exact (HD _ _ _ Hs Hi).
  - intros [x s] Hx t H. apply in_rev in H. apply (Hu x s); [|exact Hx]. rewrite E. apply in_map_iff. exists ((x, s), t). auto.
Qed.
Lemma truth_instance params b f : good_params D params -> binding_for D params b -> unbound params f -> same_truth b f (subst_formula (of_vars (rev b)) f).
Proof. intros G B U M e. rewrite subst_lemma by (eapply binding_clash; eauto). apply fsem_ext. intros x. unfold env_subst. rewrite lookup_rev; [reflexivity|]. eapply binding_keys; eauto. Qed.
Lemma value_instance params b t : good_params D params -> binding_for D params b -> unbound_t params t -> same_value b t (subst_term (of_vars (rev b)) t).
Proof.
  intros G B U M e. rewrite (proj1 (subst_lemma_both M (rev b))) by (eapply binding_clash; eauto). apply coincidence. intros x _. unfold env_subst. rewrite lookup_rev; [reflexivity|]. eapply binding_keys; eauto.
Qed.
Lemma values_instance params b ts : good_params D params -> binding_for D params b -> (forall t, In t ts -> unbound_t params t) -> Forall2 (same_value b) ts (map (subst_term (of_vars (rev b))) ts).
Proof. intros G B U. induction ts as [|t ts IH]; constructor; [apply (value_instance params); auto; apply U; now left|apply IH; intros u Hu; apply U; now right]. Qed.
Lemma literal_instance params b f : good_params D params -> binding_for D params b -> unbound params f -> (exists p ts, f = Atom p ts \/ f = Comp Not [Atom p ts]) ->
  same_literal b f (subst_formula (of_vars (rev b)) f) /\ is_literal (subst_formula (of_vars (rev b)) f) = true.
Proof.
  intros G B U (p & ts & [-> | ->]); rewrite subst_f_unfold; [|cbn [map]; rewrite subst_f_unfold]; (split; [|reflexivity]); (split; [reflexivity|]); eapply values_instance; eauto; intros t Ht x s Hx Hb; apply (U x s Hx); cbn [binders flat_map]; rewrite ?app_nil_r; apply in_flat_map; eauto.
Qed.
Lemma application_instance params b t : good_params D params -> binding_for D params b -> unbound_t params t -> (exists f ts, t = App f ts) ->
  same_application b t (subst_term (of_vars (rev b)) t) /\ exists f ts, subst_term (of_vars (rev b)) t = App f ts.
Proof. intros G B U (f & ts & ->). rewrite subst_app. split; [|eauto]. split; [reflexivity|]. eapply values_instance; eauto. intros t Ht x s Hx Hb. apply (U x s Hx). cbn [binders_t]. apply in_flat_map. eauto. Qed.

Section Loop.
Context {A B : Type} (params : A -> list term) (instance : subst -> A -> res B) (R : A -> list (var * term) -> B -> Prop).
Lemma combine_inj (vs : list var) (v w : list term) : List.length v = List.length vs -> List.length w = List.length vs -> combine vs v = combine vs w -> v = w.
Proof. revert v w. induction vs as [|x vs IH]; intros [|a v] [|b w] L1 L2 E; try discriminate; [reflexivity|]. injection E as -> E. f_equal. apply IH; auto. Qed.
Lemma binding_split ps b : binding_for D ps b -> vars_of ps = map fst b /\ b = combine (vars_of ps) (map snd b) /\ Forall2 (fun v cs => exists x s, v = Var x s /\ D s = Some cs) ps (map (fun vt => match D (snd (fst vt)) with Some cs => cs | None => [] end) b) /\ In (map snd b) (product (map (fun vt => match D (snd (fst vt)) with Some cs => cs | None => [] end) b)).
Proof.
  intros [Eq HF]. assert (E : vars_of ps = map fst b). { rewrite Eq. clear. induction b as [|[[x s] t] b IH]; [reflexivity|]. cbn. f_equal. exact IH. }
  rewrite E. split; [reflexivity|]. split; [clear; induction b as [|[v t] b IH]; [reflexivity|cbn; f_equal; exact IH]|]. split.
  - rewrite Eq. clear E Eq. induction HF as [|[[x s] t] b (cs & Hs & Hi) HF IH]; constructor; [|exact IH]. cbn in *. rewrite Hs. eauto.
  - clear E Eq. apply product_In. induction HF as [|[[x s] t] b (cs & Hs & Hi) HF IH]; constructor; [cbn in *; rewrite Hs; exact Hi|exact IH].
Qed.
Lemma good_params_vars ps : good_params D ps -> forallb is_var ps = true /\ forall s, In s (map snd (vars_of ps)) -> D s <> None.
Proof.
  intros [_ H]. split; [apply forallb_forall; intros t Ht; destruct (H t Ht) as (x & s & -> & _); reflexivity|]. intros s Hs. apply in_map_iff in Hs as ([x r] & E & Hx). cbn in E. subst r. unfold vars_of in Hx. apply in_flat_map in Hx as (t & Ht & Hx). destruct (H t Ht) as (y & r & -> & Hr). destruct Hx as [[= <- <-]|[]]. exact Hr.
Qed.
Lemma values_binding ps inst v : Forall2 (fun v cs => exists x s, v = Var x s /\ D s = Some cs) ps inst -> In v (product inst) -> binding_for D ps (combine (vars_of ps) v).
Proof.
  intros HS Hv. apply product_In in Hv. revert v Hv. induction HS as [|t cs ts inst (x & s & -> & Hs) HS IH]; intros v Hv; [split; constructor|]. inversion Hv as [|u ? v' ? Hu Hv']; subst. change (vars_of (Var x s :: ts)) with ((x, s) :: vars_of ts). destruct (IH v' Hv') as [E F]. cbn [combine]. split; [cbn; f_equal; exact E|]. constructor; [cbn; eauto|exact F].
Qed.
Lemma domains_unique (ps : list term) (i1 i2 : list (list term)) : Forall2 (fun v cs => exists x s, v = Var x s /\ D s = Some cs) ps i1 -> Forall2 (fun v cs => exists x s, v = Var x s /\ D s = Some cs) ps i2 -> i1 = i2.
Proof.
  intros HS. revert i2. induction HS as [|t cs ts inst (x & s & -> & Hs) HS IH]; intros l F; [inversion F; reflexivity|]. inversion F as [|t' cs' ts' l' Hex Hrest]; subst. destruct Hex as (y & r & Ey & Hr). injection Ey as <- <-. f_equal; [congruence|auto].
Qed.
Lemma one_schema a : good_params D (params a) -> (forall b, binding_for D (params a) b -> exists g, instance (of_vars (rev b)) a = Ok g /\ R a b g) ->
  exists inst gs idx, enumerate_groundings D (params a) = Ok inst /\ mapM (fun values => let! s := create_substitution (params a) values in instance s a) (product inst) = Ok gs /\
    Forall2 (fun ab g => R (fst ab) (snd ab) g) idx gs /\ (forall a' b, In (a', b) idx <-> a' = a /\ binding_for D (params a) b) /\ ((forall s cs, D s = Some cs -> NoDup cs) -> NoDup idx) /\ cardinality inst = List.length gs.
Proof.
  intros G HI. destruct (good_params_vars _ G) as [HV HN]. pose proof (enumerate_spec D (params a) HV) as HS. destruct (enumerate_groundings D (params a)) as [inst|e]; [|destruct HS as (_ & s & Hs & E); exfalso; exact (HN s Hs E)].
  assert (Hlen : forall v, In v (product inst) -> List.length v = List.length (vars_of (params a))). { intros v Hv. rewrite vars_of_length by auto. apply product_length in Hv. rewrite Hv. clear - HS. induction HS; simpl; auto. }
  assert (HB : forall v, In v (product inst) -> binding_for D (params a) (combine (vars_of (params a)) v)) by (intros v Hv; eapply values_binding; eauto).
  assert (HG : exists gs, mapM (fun values => let! s := create_substitution (params a) values in instance s a) (product inst) = Ok gs /\ Forall2 (fun v g => R a (combine (vars_of (params a)) v) g) (product inst) gs).
  { revert Hlen HB. clear HS. generalize (product inst). intros vs. induction vs as [|v vs IH]; intros Hlen HB; [exists []; split; constructor|]. destruct IH as (gs & E & F); [intros w Hw; apply Hlen; now right|intros w Hw; apply HB; now right|]. destruct (HI _ (HB v (or_introl eq_refl))) as (g & Eg & Rg). exists (g :: gs). split; [|constructor; auto].
    rewrite mapM_cons', create_substitution_ok; auto; [|rewrite <- (vars_of_length (params a)) by auto; apply Hlen; now left]. cbn [bind]. rewrite Eg. cbn [bind]. now rewrite E. }
  destruct HG as (gs & EG & FG). exists inst, gs, (map (fun v => (a, combine (vars_of (params a)) v)) (product inst)). split; [reflexivity|]. split; [exact EG|]. split; [|split; [|split]].
  - clear - FG. induction FG; cbn; constructor; auto.
  - intros a' b. rewrite in_map_iff. split; [intros (v & [= <- <-] & Hv); auto|]. intros [-> Hb]. exists (map snd b). destruct (binding_split _ _ Hb) as (E1 & E2 & E3 & E4). split; [f_equal; symmetry; exact E2|]. rewrite (domains_unique _ _ _ HS E3). exact E4.
  - intros ND. apply NoDup_map_inj_in; [apply product_NoDup; clear - HS ND; induction HS as [|t cs ts inst (x & s & -> & Hs) HS IH]; constructor; eauto|].
    intros v w Hv Hw [= E]. eapply combine_inj; eauto.
  - rewrite cardinality_product. symmetry. clear - FG. induction FG; cbn; auto.
Qed.
Lemma one_each_nil : one_each D params R [] [].
Proof. exists []. split; [constructor|]. split; [intros a b; cbn; tauto|]. constructor. Qed.
Lemma one_each_cons a r gs gs' idx : Forall2 (fun ab g => R (fst ab) (snd ab) g) idx gs -> (forall a' b, In (a', b) idx <-> a' = a /\ binding_for D (params a) b) -> ((forall s cs, D s = Some cs -> NoDup cs) -> NoDup idx) -> one_each D params R r gs' -> one_each D params R (a :: r) (gs ++ gs').
Proof.
  intros F1 F2 F3 (idx' & G1 & G2 & G3). exists (idx ++ idx')%list. split; [apply Forall2_app; auto|]. split.
  - intros a' b. rewrite in_app_iff, F2, G2. cbn. split; [intros [[-> H]|[H1 H2]]; auto|]. intros [[<-|H1] H2]; auto.
  - intros N ND. inversion N; subst. apply NoDup_app_iff_simple; auto. intros [a2 b2] X1 X2. apply F2 in X1 as [-> _]. apply G2 in X2 as [X2 _]. contradiction.
Qed.
Lemma schema_list_spec schemas : Forall (fun a => good_params D (params a) /\ forall b, binding_for D (params a) b -> exists g, instance (of_vars (rev b)) a = Ok g /\ R a b g) schemas ->
  exists gs, (forall st, ground_schema_list D params instance schemas st = Ok ((fst st ++ gs)%list, snd st + List.length gs)) /\ one_each D params R schemas gs.
Proof.
  intros HF. induction HF as [|a r [G HI] HF (gs' & E' & O')]; [exists []; split; [intros [l n]; cbn; now rewrite app_nil_r, Nat.add_0_r|apply one_each_nil]|].
  destruct (one_schema a G HI) as (inst & gs & idx & E1 & E2 & F1 & F2 & F3 & C). exists (gs ++ gs')%list. split; [|eapply one_each_cons; eauto].
  intros st. cbn [ground_schema_list]. rewrite E1. cbn [bind]. rewrite E2. cbn [bind]. rewrite E'. cbn [fst snd]. rewrite app_length, C, <- app_assoc, Nat.add_assoc. reflexivity.
Qed.
End Loop.
End Schemas.

Theorem C54_sensors : forall D ss, constants_only D -> Forall (good_sensor D) ss ->
  exists gs, calculate_sensors D ss = Ok (gs, List.length gs) /\
    one_each D se_params (fun a b g => se_name g = se_name a /\ se_params g = [] /\ same_truth b (se_cond a) (se_cond g) /\ same_literal b (se_obs a) (se_obs g)) ss gs.
Proof.
  intros D ss HD HF. destruct (schema_list_spec D se_params (fun s a => make_sensor (se_name a) [] (subst_formula s (se_cond a)) (subst_formula s (se_obs a)))
    (fun a b g => se_name g = se_name a /\ se_params g = [] /\ same_truth b (se_cond a) (se_cond g) /\ same_literal b (se_obs a) (se_obs g)) ss) as (gs & E & O); [|exists gs; split; [apply E|exact O]].
  eapply Forall_impl; [|exact HF]. intros a (G & U1 & U2 & L). split; [exact G|]. intros b Hb. destruct (literal_instance D HD _ b _ G Hb U2 L) as [L1 L2]. unfold make_sensor. rewrite L2. eexists. split; [reflexivity|]. cbn [se_name se_params se_cond se_obs]. split; [reflexivity|]. split; [reflexivity|]. split; [eapply truth_instance; eauto|exact L1].
Qed.
Print Assumptions C54_sensors.
Theorem C54_differential_constraints : forall D os, constants_only D -> Forall (good_ode D) os ->
  exists gs, calculate_differential_constraints D os = Ok (gs, List.length gs) /\
    one_each D od_params (fun a b g => od_name g = od_name a /\ od_params g = [] /\ same_truth b (od_cond a) (od_cond g) /\ same_application b (od_variate a) (od_variate g) /\ same_value b (od_rate a) (od_rate g)) os gs.
Proof.
  intros D os HD HF. destruct (schema_list_spec D od_params (fun s a => make_ode (od_name a) [] (subst_formula s (od_cond a)) (subst_term s (od_variate a)) (subst_term s (od_rate a)))
    (fun a b g => od_name g = od_name a /\ od_params g = [] /\ same_truth b (od_cond a) (od_cond g) /\ same_application b (od_variate a) (od_variate g) /\ same_value b (od_rate a) (od_rate g)) os) as (gs & E & O); [|exists gs; split; [apply E|exact O]].
  eapply Forall_impl; [|exact HF]. intros a (G & U1 & U2 & U3 & L). split; [exact G|]. intros b Hb. destruct (application_instance D HD _ b _ G Hb U2 L) as [L1 (f & ts & L2)]. unfold make_ode. rewrite L2 in L1 |- *. eexists. split; [reflexivity|]. cbn [od_name od_params od_cond od_variate od_rate]. split; [reflexivity|]. split; [reflexivity|]. split; [eapply truth_instance; eauto|]. split; [exact L1|eapply value_instance; eauto].
Qed.
Print Assumptions C54_differential_constraints.

Lemma same_truth_nil f : same_truth [] f f. Proof. intros M e. apply fsem_ext. intros x. reflexivity. Qed.
Lemma same_value_nil t : same_value [] t t. Proof. intros M e. apply coincidence. intros x _. reflexivity. Qed.
Lemma same_values_nil ts : Forall2 (same_value []) ts ts. Proof. induction ts; constructor; auto using same_value_nil. Qed.
Theorem C54_reactions : forall D rs, constants_only D -> Forall (good_reaction D) rs ->
  exists gs, calculate_reactions D rs ([], 0) = Ok (gs, List.length gs) /\
    one_each D re_params (fun a b g => re_name g = re_name a /\ re_params g = [] /\ same_truth b (re_cond a) (re_cond g) /\ same_effect b (re_eff a) (re_eff g)) rs gs.
Proof.
  intros D rs HD HF. set (R := fun a b g => re_name g = re_name a /\ re_params g = [] /\ same_truth b (re_cond a) (re_cond g) /\ same_effect b (re_eff a) (re_eff g)).
  enough (X : exists gs, (forall st, calculate_reactions D rs st = Ok ((fst st ++ gs)%list, snd st + List.length gs)) /\ one_each D re_params R rs gs) by (destruct X as (gs & E & O); exists gs; split; [apply E|exact O]).
  induction HF as [|a r (G & U1 & U2) HF (gs' & E' & O')]; [exists []; split; [intros [l n]; cbn; now rewrite app_nil_r, Nat.add_0_r|apply one_each_nil]|].
  destruct (re_params a) as [|p ps] eqn:Ep.
  - exists ([{| re_name := re_name a; re_params := []; re_cond := re_cond a; re_eff := re_eff a |}] ++ gs')%list. split.
    + intros st. cbn [calculate_reactions]. rewrite Ep, E'. cbn [fst snd app List.length]. rewrite <- app_assoc. cbn [app]. do 2 f_equal. lia.
    + apply (one_each_cons D re_params R a r _ gs' [(a, [])]); [repeat constructor; cbn; auto using same_truth_nil| | |exact O'].
      * destruct (re_eff a) as [c g|c g|i c l rr| | |]; cbn; try contradiction.
        -- destruct U2 as (_ & _ & q & ts & ->). cbn. auto using same_truth_nil, same_values_nil.
        -- destruct U2 as (_ & _ & q & ts & ->). cbn. auto using same_truth_nil, same_values_nil.
        -- destruct U2 as (_ & _ & _ & f & ts & ->). cbn. auto 8 using same_truth_nil, same_values_nil, same_value_nil.
      * intros a' b. rewrite Ep. cbn [In]. split; [intros [[= <- <-]|[]]; split; [reflexivity|split; constructor]|]. intros [-> [Eb _]]. destruct b; [auto|discriminate].
      * intros _. repeat constructor. intros [].
  - rewrite <- Ep in G, U1, U2.
    destruct (one_schema D re_params (fun s a => let! e := subst_effect s (re_eff a) in Ok {| re_name := re_name a; re_params := []; re_cond := subst_formula s (re_cond a); re_eff := e |}) R a G) as (inst & gs & idx & E1 & E2 & F1 & F2 & F3 & C).
    { intros b Hb. unfold R. destruct (re_eff a) as [c g|c g|i c l rr| | |]; cbn [subst_effect bind]; try contradiction.
      - destruct U2 as (V1 & V2 & q & ts & Eg). destruct (literal_instance D HD _ b g G Hb V2) as [L _]; [eauto|]. eexists. split; [reflexivity|]. cbn. repeat split; [eapply truth_instance; eauto|eapply truth_instance; eauto|exact L].
      - destruct U2 as (V1 & V2 & q & ts & Eg). destruct (literal_instance D HD _ b g G Hb V2) as [L _]; [eauto|]. eexists. split; [reflexivity|]. cbn. repeat split; [eapply truth_instance; eauto|eapply truth_instance; eauto|exact L].
      - destruct U2 as (V1 & V2 & V3 & L). destruct (application_instance D HD _ b l G Hb V2 L) as [L' _]. eexists. split; [reflexivity|]. cbn [re_name re_params re_cond re_eff same_effect]. split; [reflexivity|]. split; [reflexivity|]. split; [eapply truth_instance; eauto|]. split; [reflexivity|]. split; [eapply truth_instance; eauto|]. split; [exact L'|eapply value_instance; eauto]. }
    exists (gs ++ gs')%list. split; [|eapply one_each_cons; eauto]. intros st. cbn [calculate_reactions]. rewrite Ep. rewrite Ep in E1, E2. rewrite E1. cbn [bind]. cbv beta in E2. rewrite E2. cbn [bind]. rewrite E'. cbn [fst snd]. rewrite app_length, C, <- app_assoc, Nat.add_assoc. reflexivity.
Qed.
Print Assumptions C54_reactions.

(** ** Examples, and what does not hold *)
(** [x] is free, [y] quantified; two objects. *)
Definition con : formula := Comp Or [P_ x_; Quant QAll [y_] (Comp Not [Atom (PB PEq) [x_; y_]])].
Definition sen : sensor := {| se_name := "look"; se_params := [x_; y_]; se_cond := R_ x_ y_; se_obs := Comp Not [P_ y_] |}.
Definition rea : reaction := {| re_name := "fall"; re_params := [x_]; re_cond := P_ x_; re_eff := EDel Top (Q_ x_) |}.
Definition fuel : fsym := FU "fuel" ["object"] "Real".
Definition flow : ode := {| od_name := "flow"; od_params := [x_]; od_cond := P_ x_; od_variate := App fuel [x_]; od_rate := Cst (CInt 2) "Real" |}.
Lemma D2_constants : constants_only D2.
Proof. intros s cs t. unfold D2. destruct (String.eqb s "object"); intros H; inversion H; subst. intros [<-|[<-|[]]]; unfold c_, d_; eauto. Qed.
Lemma D2_respects : respects D2 M2.
Proof. intros s cs d. unfold D2. destruct (String.eqb s "object"); intros H; inversion H; subst. split; [intros _; destruct d; [exists (CStr "c"), "object"|exists (CStr "d"), "object"]; split; try reflexivity; simpl; auto|]. intros _. simpl. destruct d; auto. Qed.
Lemma con_free x s : free_in (x, s) con = true -> s = "object".
Proof.
  unfold con, P_, x_, y_. cbn [free_in free_in_t existsb]. rewrite !orb_false_r. intros H. apply orb_true_iff in H as [H|H]; [apply var_eqb_eq in H; now inversion H|].
  apply andb_true_iff in H as [_ H]. apply orb_true_iff in H as [H|H]; apply var_eqb_eq in H; now inversion H.
Qed.
Example C54_nonvacuous : groundable_constraint D2 con /\ constants_only D2 /\ respects D2 M2 /\ standard_comparisons M2 /\ (forall f g, formula_eqb f g = true -> f = g) /\
  calculate_constraints D2 (fun l => l) formula_eqb [con] ([], 0) =
    Ok ([Comp And [Comp Or [P_ c_; Atom (PB PNe) [c_; c_]]; Comp Or [P_ c_; Atom (PB PNe) [c_; d_]]]; Comp And [Comp Or [P_ d_; Atom (PB PNe) [d_; c_]]; Comp Or [P_ d_; Atom (PB PNe) [d_; d_]]]], 2).
Proof.
  split; [|split; [exact D2_constants|split; [exact D2_respects|split; [intros [] []; vm_compute; auto|split; [intros f g H; apply formula_eqb_eq in H; exact H|vm_compute; reflexivity]]]]].
  split; [reflexivity|reflexivity| |].
  - intros s H. vm_compute in H. destruct H as [<-|[]]. exists c_, [d_]. reflexivity.
  - intros x s H. rewrite (con_free x s H). discriminate.
Qed.
(** An existential constraint holds when some object makes it true. The grounded constraints ask it of every object: the bound variable is replaced by each constant. *)
Theorem C54_existential_refuted : exists gs e, calculate_constraints D2 (fun l => l) formula_eqb [Quant QEx [x_] (P_ x_)] ([], 0) = Ok (gs, 2) /\ universally_true M2 (Quant QEx [x_] (P_ x_)) /\ exists g, In g gs /\ fsem M2 g e = false.
Proof.
  exists [Quant QEx [c_] (P_ c_); Quant QEx [d_] (P_ d_)], e2. split; [vm_compute; reflexivity|]. split; [intros e _; vm_compute; reflexivity|]. exists (Quant QEx [d_] (P_ d_)). split; [now right; left|vm_compute; reflexivity].
Qed.
Print Assumptions C54_existential_refuted.
(** A conjunction of three members loses the third. *)
Theorem C54_wide_conjunction_refuted : exists gs e, calculate_constraints D2 (fun l => l) formula_eqb [Comp And [P_ c_; P_ c_; P_ d_]] ([], 0) = Ok (gs, 1) /\ (forall g, In g gs -> fsem M2 g e = true) /\ ~ universally_true M2 (Comp And [P_ c_; P_ c_; P_ d_]).
Proof.
  exists [Comp And [P_ c_; P_ c_]], e2. split; [vm_compute; reflexivity|]. split; [intros g [<-|[]]; vm_compute; reflexivity|]. intros H. specialize (H e2). assert (X : fsem M2 (Comp And [P_ c_; P_ c_; P_ d_]) e2 = true) by (apply H; intros x s E; vm_compute in E; discriminate). vm_compute in X. discriminate X.
Qed.
Print Assumptions C54_wide_conjunction_refuted.
(** Two constraints with a common instance cannot be grounded. *)
Theorem C54_shared_instance_refuted : Forall (groundable_constraint D2) [P_ x_; P_ c_] /\ calculate_constraints D2 (fun l => l) formula_eqb [P_ x_; P_ c_] ([], 0) = Err DuplicateDefinition.
Proof.
  split; [|vm_compute; reflexivity]. constructor; [|constructor; [|constructor]]; (split; [reflexivity|reflexivity|intros s []|]).
  - intros x s H. unfold P_, x_ in H. cbn [free_in free_in_t existsb] in H. rewrite orb_false_r in H. apply var_eqb_eq in H. inversion H; subst. discriminate.
  - intros x s H. discriminate H.
Qed.
Print Assumptions C54_shared_instance_refuted.
Lemma good_xy : good_params D2 [x_; y_].
Proof. split; [repeat constructor; cbn; [intros [H|[]]; discriminate H|intros []]|]. intros t [<-|[<-|[]]]; [exists "x", "object"|exists "y", "object"]; (split; [reflexivity|discriminate]). Qed.
Lemma good_x : good_params D2 [x_].
Proof. split; [repeat constructor; intros []|]. intros t [<-|[]]. exists "x", "object". split; [reflexivity|discriminate]. Qed.
Example C54_nonvacuous_schemas : good_sensor D2 sen /\ good_reaction D2 rea /\ good_ode D2 flow /\
  (exists gs, calculate_sensors D2 [sen] = Ok (gs, 4) /\ nth_error gs 1 = Some {| se_name := "look"; se_params := []; se_cond := R_ c_ d_; se_obs := Comp Not [P_ d_] |}) /\
  (exists gs, calculate_reactions D2 [rea] ([], 0) = Ok (gs, 2)) /\ (exists gs, calculate_differential_constraints D2 [flow] = Ok (gs, 2)).
Proof.
  split; [|split; [|split; [|split; [|split]]]].
  - split; [exact good_xy|]. split; [intros x s _ H; vm_compute in H; exact H|]. split; [intros x s _ H; vm_compute in H; exact H|]. exists (PU "p" ["object"]), [y_]. right. reflexivity.
  - split; [exact good_x|]. split; [intros x s _ H; vm_compute in H; exact H|]. cbn. split; [intros x s _ H; exact H|]. split; [intros x s _ H; vm_compute in H; exact H|]. unfold Q_. eauto.
  - split; [exact good_x|]. split; [intros x s _ H; vm_compute in H; exact H|]. split; [intros x s _ H; vm_compute in H; exact H|]. split; [intros x s _ H; vm_compute in H; exact H|]. unfold flow. cbn. eauto.
  - eexists. split; [vm_compute; reflexivity|vm_compute; reflexivity].
  - eexists. vm_compute. reflexivity.
  - eexists. vm_compute. reflexivity.
Qed.
