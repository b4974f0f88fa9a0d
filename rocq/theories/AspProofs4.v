(** The reachability compiler: universal effects, whole actions, the goal; reachable states. *)
From Coq Require Import Ascii.
From Verif Require Import Base Syntax Semantics SemLemmas Build NnfProofs Subst SubstSpec SubstProofs FreeVars FreeVarsProofs QElim QElimProofs ModelState ModelProofs ModelText EvalSpec Lang LangSpec LangProofs LangProofs2 LangProofs3 PropsLang Effects Represent Grounding Asp AspNamesSpec AspSpec PropsAspNames AspProofs1 AspProofs2 AspProofs3.
#[local] Open Scope string_scope.

Definition var_dec (a b : var) : {a = b} + {a <> b} := match Bool.bool_dec (var_eqb a b) true with left E => left (proj1 (var_eqb_eq a b) E) | right E => right (fun X => E (proj2 (var_eqb_eq a b) X)) end.

(** The substitution of an assignment *)
Definition values_of (vs : list var) (e : assignment) : vsubst := rev (combine vs (map e vs)).
Lemma values_In vs (e : assignment) x t : In (x, t) (values_of vs e) <-> In x vs /\ t = e x.
Proof.
  unfold values_of. rewrite <- in_rev. induction vs as [|v vs IH]; cbn [map combine In]; [tauto|]. rewrite IH. split; [intros [E|[H ->]]; [injection E as <- <-; auto|auto]|]. intros [[->|H] ->]; auto.
Qed.
Lemma values_lookup vs (e : assignment) v : In v vs -> lookup (values_of vs e) v = Some (e v).
Proof.
  intros H. destruct (lookup (values_of vs e) v) as [t|] eqn:E; [apply lookup_In in E; apply values_In in E as [_ ->]; reflexivity|]. exfalso. unfold values_of in E. apply (lookup_combine_rev vs (map e vs) v); auto. apply map_length.
Qed.
Lemma values_none vs (e : assignment) v : ~ In v vs -> lookup (values_of vs e) v = None.
Proof. intros H. destruct (lookup (values_of vs e) v) as [t|] eqn:E; [|reflexivity]. apply lookup_In, values_In in E. tauto. Qed.

Lemma enumerate_has D vs ss (e : assignment) : constants_only D -> enumerate_substitutions D vs = Ok ss -> (forall v, In v (vars_of vs) -> exists cs, D (snd v) = Some cs /\ In (e v) cs) -> forallb is_var vs = true /\ In (of_vars (values_of (vars_of vs) e)) ss.
Proof.
  intros HD E He. unfold enumerate_substitutions in E. destruct (forallb is_var vs) eqn:Hv; [|discriminate]. split; [reflexivity|]. destruct (mapM _ vs) as [doms|] eqn:M in E; cbn [bind] in E; [|discriminate].
  assert (HE : Forall2 (fun v cs => exists x s, v = Var x s /\ D s = Some cs) vs doms). { apply mapM_Forall2 in M. clear - M. induction M as [|v cs vs doms H M IH]; constructor; auto. destruct v as [x s| | |]; try discriminate. destruct (D s) as [c|] eqn:Ds; [|discriminate]. injection H as <-. eauto. }
  assert (Hin : In (map e (vars_of vs)) (product doms)). { apply product_In. clear - HE He Hv. induction HE as [|v cs vs doms (x & s & -> & Hs) HE IH]; [constructor|]. cbn in Hv. change (vars_of (Var x s :: vs)) with ((x, s) :: vars_of vs) in *. cbn [map]. constructor; [|apply IH; auto; intros w Hw; apply He; right; exact Hw]. destruct (He (x, s) (or_introl eq_refl)) as (cs' & E & Hin). cbn [snd] in E. congruence. }
  apply mapM_Forall2 in E. destruct (Forall2_In_l _ _ _ _ E Hin) as (s & Hs & Es). rewrite create_substitution_ok in Es; [|exact Hv|]. { injection Es as <-. exact Hs. }
  rewrite map_length. clear - Hv. induction vs as [|[] vs IH]; cbn in *; try discriminate; auto.
Qed.
Lemma env_values M vs (e e' : env M) (k : assignment) : (forall v, In v vs -> tsem M (k v) e = e' v) -> (forall v, ~ In v vs -> e' v = e v) -> forall v, env_subst (values_of vs k) e v = e' v.
Proof.
  intros H1 H2 v. unfold env_subst. destruct (in_dec var_dec v vs) as [I|N]; [rewrite (values_lookup vs k v I); auto|rewrite (values_none vs k v N); symmetry; auto].
Qed.

Section Program.
Variables (parse : bool -> string -> option Z) (ops : list lop).
Hypothesis Hn : forallb native ops = true.
Let l := lrun parse ops.
Variables (ga ineq : bool) (p : problem) (C : cname -> Prop) (F : cstate) (u : unit).
Let D := lang_domains l.
Hypothesis Hsu : suitable C l p.
Let st0 := {| c_tr := trans0; c_aux := 0; c_rules := [] |}.
Hypothesis HF : create_rules l ga ineq p st0 = Ok (u, F).
Let HDc : constants_only D := lang_constants_only l.
Definition in_program (n : string) (pt : list term) : Prop := Forall (named F C) pt /\ known (c_tr F) ("atom_" ++ n) /\ derives (c_rules F) (sanitize ("atom_" ++ n)) (map lp_name pt).

Section Action.
Variable a : action.
Hypothesis Ha : In a (p_actions p).
Let V := action_variables a.
Let W := param_vars a.
Variable e : assignment.
Hypothesis He : forall v, In v W -> exists cs, D (snd v) = Some cs /\ In (e v) cs.
Let HV : well_written l V := su_written _ _ _ Hsu a Ha.

Lemma inner_effect S pre es exps c vs st x st2 e' eff n ss pt : invariant F C S ->
  expand_effect D (EUni c vs es) = Ok exps -> inv_ok (c_tr st) -> mapS (fun e' => let* r := process_effect D ineq e' in add_effect_rule pre r) exps st = Ok (x, st2) -> ext st2 F -> Forall (sat F (theta_of V e)) pre ->
  reassigns D (vars_of vs) e e' -> In eff es -> plain_effect C (vars_of vs) (vars_of vs ++ W) eff -> incl (vars_of vs ++ effect_variables eff) V -> adds D S e' eff n ss pt -> in_program n pt.
Proof.
  intros HS Ex I H E Hpre [R1 R2] Hin Hpl Hinc Had. cbn [expand_effect] in Ex. destruct (is_top c); [|discriminate]. destruct (enumerate_substitutions D vs) as [subs|] eqn:En; cbn [bind] in Ex; [|discriminate].
  destruct (enumerate_has D vs subs e' HDc En R1) as [Hv Hsub]. set (s := values_of (vars_of vs) e') in *. destruct (mapM (fun s => mapM (subst_effect s) es) subs) as [ls|] eqn:M; cbn [bind] in Ex; [|discriminate]. injection Ex as <-.
  apply mapM_Forall2 in M. destruct (Forall2_In_l _ _ _ _ M Hsub) as (les & Hles & Mes). apply mapM_Forall2 in Mes. destruct (Forall2_In_l _ _ _ _ Mes Hin) as (eff' & Heff' & Es).
  assert (Hx : In eff' (List.concat ls)) by (apply in_concat; eauto).
  assert (Hc : const_subst s). { intros y t Hy. apply values_In in Hy as [Hy ->]. destruct (R1 y Hy) as (cs & Dy & Hcs). exact (HDc _ _ _ Dy Hcs). }
  assert (HsC : forall y c r, In (y, Cst c r) s -> C c). { intros y c' r Hy. apply values_In in Hy as [Hy Ec]. destruct (R1 y Hy) as (cs & Dy & Hcs). rewrite <- Ec in Hcs. apply (domain_in_C parse ops Hn p C Hsu (snd y) cs c' r); auto. apply (proj1 HV y). apply Hinc. rewrite in_app_iff. auto. }
  assert (G : Forall2 (fun e0 _ => exists s0 s1 s2 r z, inv_ok (c_tr s0) /\ process_effect D ineq e0 s0 = Ok (r, s1) /\ add_effect_rule pre r s1 = Ok (z, s2) /\ ext s2 F) (List.concat ls) x).
  { apply (mapS_all F (fun e' => let* r := process_effect D ineq e' in add_effect_rule pre r) _ _ (fun e0 _ => mono_effect_and_rule D ineq pre e0)) with (st := st) (st' := st2); auto. intros e0 y sa sb _ Ia Hp Eb. apply bnd_inv in Hp as (r & sc & X1 & X2). eauto 10. }
  destruct (Forall2_In_l _ _ _ _ G Hx) as (y & _ & s0 & s1 & s2 & r & z & I0 & X1 & X2 & E2).
  inversion Had as [e0 c' n' ss' ts Ht|e0 c' vs' es' e'' eff0 n' ss' pt' Ht Hr Hin' Had']; subst.
  - cbn [subst_effect] in Es. injection Es as <-. change (subst_formula (of_vars s) (Atom (PU n ss) ts)) with (Atom (PU n ss) (map (subst_term (of_vars s)) ts)) in X1. destruct Hpl as [(W1 & W2 & W3 & W4 & W5) (A1 & A2 & A3 & A4 & A5)].
    assert (Env : forall v, env_subst (M := structure_of D S) s e v = e' v). { apply env_values; [|exact R2]. intros v Hv'. destruct (R1 v Hv') as (cs & Dv & Hcs). destruct (HDc _ _ _ Dv Hcs) as (cc & rr & ->). reflexivity. }
    assert (N1 : no_clash (binders c') s = true). { apply const_subst_no_clash; [exact Hc|]. intros b Hb t Hbt. apply values_In in Hbt as [Hbt _]. exact (W5 b Hbt Hb). }
    assert (N2 : no_clash (binders (Atom (PU n ss) ts)) s = true). { apply const_subst_no_clash; [exact Hc|]. intros b Hb t Hbt. apply values_In in Hbt as [Hbt _]. exact (A5 b Hbt Hb). }
    assert (Swf : forall y t, In (y, t) s -> wf_term t = true). { intros y0 t0 Hy. destruct (Hc _ _ Hy) as (cc & rr & ->). reflexivity. }
    assert (Fine : fine C V (vars_of vs ++ W) c'). { constructor; auto. intros v Hv'. apply Hinc. rewrite in_app_iff. right. exact Hv'. }
    assert (HWs : forall v, In v (vars_of vs ++ W) -> In v W \/ lookup s v <> None). { intros v Hv'. rewrite in_app_iff in Hv'. destruct Hv' as [Hv'|Hv']; [right|left; exact Hv']. unfold s. rewrite (values_lookup _ _ _ Hv'). discriminate. }
    assert (Fine' := fine_subst C V _ W s c' Hc HsC N1 HWs Fine).
    assert (FineA : fine C (binders (Atom (PU n ss) ts)) (vars_of vs ++ W) (Atom (PU n ss) ts)) by (constructor; auto; apply incl_refl). assert (FineA' := fine_subst C _ _ W s _ Hc HsC N2 HWs FineA). rewrite subst_f_unfold in FineA'. destruct FineA' as [[Fa _] Fb _].
    assert (Hval : map (fun t => value D S t e) (map (subst_term (of_vars s)) ts) = map (fun t => value D S t e') ts).
    { rewrite map_map. apply map_ext_in. intros t Ht'. unfold value. rewrite (proj1 (subst_lemma_both (structure_of D S) s)).
      - exact (tsem_coincidence (structure_of D S) t _ _ (fun v _ => Env v)).
      - clear - N2 Ht'. cbn [binders] in N2. rewrite no_clash_flat_map in N2. auto. }
    assert (R := single_effect parse ops Hn ga ineq p C F u Hsu HF a Ha e He S pre (subst_formula (of_vars s) c') n ss (map (subst_term (of_vars s)) ts) s0 r s1 z s2 HS
      (proj2 (subst_wf_both s Swf) c' N1 W1) (no_shadowing_subst s Hc c' N1 W2) Fine' Fb Fa I0 X1 X2 E2 Hpre).
    unfold in_program. rewrite <- Hval. apply R. unfold true_in. rewrite (proj2 (subst_lemma_both (structure_of D S) s)) by exact N1. unfold true_in in Ht. rewrite <- Ht. exact (fsem_coincidence (structure_of D S) c' _ _ (fun v _ => Env v)).
  - cbn [subst_effect] in Es. destruct (mapM (subst_effect (of_vars s)) es') as [es''|]; cbn [bind] in Es; [|discriminate]. injection Es as <-. discriminate.
Qed.

Lemma effect_rules S pre eff exps st x st2 n ss pt : invariant F C S -> In eff (a_effs a) -> expand_effect D eff = Ok exps -> inv_ok (c_tr st) ->
  mapS (fun e' => let* r := process_effect D ineq e' in add_effect_rule pre r) exps st = Ok (x, st2) -> ext st2 F -> Forall (sat F (theta_of V e)) pre -> adds D S e eff n ss pt -> in_program n pt.
Proof.
  intros HS Hin Ex I H E Hpre Had. assert (Hpl := su_effs _ _ _ Hsu a eff Ha Hin). assert (Hinc := effect_binders a eff Hin). destruct eff as [c at_|c at_| |c vs es| |]; try (exfalso; inversion Had; fail).
  - inversion Had as [e0 c' n' ss' ts Ht|]; subst. cbn [expand_effect] in Ex. injection Ex as <-. cbn [mapS] in H. apply bnd_inv in H as (y & sa & H & H'). apply bnd_inv in H' as (ys & sb & H1 & H'). apply ret_inv in H1 as [-> ->]. apply ret_inv in H' as [-> ->]. apply bnd_inv in H as (r & sb & X1 & X2).
    destruct Hpl as [(W1 & W2 & W3 & W4 & W5) (A1 & A2 & A3 & A4 & A5)]. destruct A3 as [A3 _].
    assert (Fi : fine C V W c) by (constructor; auto).
    exact (single_effect parse ops Hn ga ineq p C F u Hsu HF a Ha e He S pre c n ss ts st r sb y sa HS W1 W2 Fi A4 A3 I X1 X2 E Hpre Ht).
  - inversion Had as [|e0 c' vs' es' e' eff n' ss' pt' Ht Hr Hin' Had']; subst. cbn [plain_effect] in Hpl. apply fold_and in Hpl. rewrite Forall_forall in Hpl. assert (Hp := Hpl eff Hin'). rewrite app_nil_r in Hp.
    apply (inner_effect S pre es exps c vs st x st2 e' eff n ss pt); auto. intros v Hv. apply Hinc. cbn [effect_variables]. rewrite in_app_iff in *. destruct Hv as [Hv|Hv]; [auto|]. right. apply in_flat_map. eauto.
Qed.
Lemma types_sat st types st' : inv_ok (c_tr st) -> mapS lp_type_atom (var_terms W) st = Ok (types, st') -> ext st' F -> Forall (sat F (theta_of V e)) types.
Proof.
  intros I H E. assert (G : Forall2 (fun v b => sat F (theta_of V e) b) (var_terms W) types).
  { apply (mapS_all F lp_type_atom _ _ (fun x _ => mono_type x)) with (st := st) (st' := st'); auto. intros t b s s' Ht I' Hp E'. unfold var_terms in Ht. apply in_map_iff in Ht as ([x r] & <- & Hin). cbn [fst snd] in Hp.
    exact (type_atom_spec F C l V D HV (types_derived parse ops Hn ga ineq p C F u Hsu HF) e W (params_typed parse ops a e He) x r s b s' I' Hp E' Hin). }
  clear - G. induction G; constructor; auto.
Qed.
Lemma precondition_sat S phi st body st' : invariant F C S -> true_in D S (a_pre a) e -> remove_quantifiers D MForall (a_pre a) = Ok phi -> inv_ok (c_tr st) -> process_formula ineq phi st = Ok (body, st') -> ext st' F -> Forall (sat F (theta_of V e)) body.
Proof.
  intros HS Ht Eq I H E. destruct (su_pre _ _ _ Hsu a Ha) as (W1 & W2 & W3 & W4 & _). assert (Fi : fine C V W (a_pre a)). { constructor; auto. intros v Hv. unfold V, action_variables. rewrite !in_app_iff. auto. }
  exact (condition_sound parse ops Hn ga ineq p C F u Hsu HF a Ha e He S (a_pre a) phi st body st' HS W1 W2 Fi Eq I H E Ht).
Qed.
Lemma process_action_sound S st x st' : inv_ok (c_tr st) -> process_action D ineq a st = Ok (x, st') -> ext st' F -> invariant F C S -> true_in D S (a_pre a) e ->
  (known (c_tr F) ("action_" ++ a_name a) /\ Forall (named F C) (map e W) /\ derives (c_rules F) (sanitize ("action_" ++ a_name a)) (map lp_name (map e W))) /\
  forall S1 eff n ss pt, invariant F C S1 -> In eff (a_effs a) -> adds D S1 e eff n ss pt -> in_program n pt.
Proof.
  intros I H E HS Ht. unfold process_action in H. apply bnd_inv in H as (names & s0 & H0 & H). apply lift_inv in H0 as [H0 ->]. apply bnd_inv in H as (atom & s1 & H1 & H). apply bnd_inv in H as (types & s2 & H2 & H). apply bnd_inv in H as (phi & s3 & H3 & H). apply lift_inv in H3 as [H3 ->].
  apply bnd_inv in H as (body & s3 & H4 & H). apply bnd_inv in H as (y & s4 & H5 & H). apply bnd_inv in H as (z & s5 & H6 & H). apply ret_inv in H as [-> ->].
  assert (E1 := mono_lp_atom _ _ _ action_prefix _ _ _ I H1). assert (E2 := mono_mapS lp_type_atom _ (fun x _ => mono_type x) _ _ _ (ex_inv _ _ E1) H2). assert (E3 := mono_formula ineq phi _ _ _ (ex_inv _ _ E2) H4). assert (E4 := mono_add_rule _ _ _ _ _ (ex_inv _ _ E3) H5).
  assert (E5 := mono_mapS (fun e => let* es := lift (expand_effect D e) in mapS (fun e' => let* r := process_effect D ineq e' in add_effect_rule [atom] r) es) _ (fun e0 _ => mono_expanded D ineq [atom] e0) _ _ _ (ex_inv _ _ E4) H6).
  assert (F4 := ext_trans _ _ _ E5 E). assert (F3 := ext_trans _ _ _ E4 F4). assert (F2 := ext_trans _ _ _ E3 F3). assert (F1 := ext_trans _ _ _ E2 F2).
  destruct (lp_atom_spec F _ _ _ _ _ _ I action_prefix H1 F1) as (-> & K & Ks). change (full_name (a_name a, "action")) with ("action_" ++ a_name a) in *.
  assert (HfW : forall v, existsb (free_in_t v) (var_terms W) = true -> In v W). { intros v Hv. apply existsb_exists in Hv as (t & Ht' & Hv). unfold var_terms in Ht'. apply in_map_iff in Ht' as ([n r] & <- & Hin). cbn in Hv. apply var_eqb_eq in Hv. now subst. }
  assert (HcW : forall c s, In (Cst c s) (var_terms W) -> C c). { intros c s Hin. exfalso. unfold var_terms in Hin. apply in_map_iff in Hin as (v & X & _). discriminate. }
  destruct (args_spec F C l V D (su_named _ _ _ Hsu) HV (types_derived parse ops Hn ga ineq p C F u Hsu HF) S e W (params_typed parse ops a e He) (var_terms W) names H0 HfW HcW Ks) as [N Ev].
  assert (Hval : map (fun t => value D S t e) (var_terms W) = map e W). { unfold var_terms. rewrite map_map. apply map_ext. intros [n r]. reflexivity. } rewrite Hval in *.
  assert (Hsat := rule_fires F (theta_of V e) _ _ (add_rule_spec F _ _ _ _ _ H5 F4) eq_refl). assert (Hbody : Forall (sat F (theta_of V e)) (types ++ body)).
  { apply Forall_app. split; [exact (types_sat _ _ _ (ex_inv _ _ E1) H2 F2)|exact (precondition_sat S phi _ _ _ HS Ht H3 (ex_inv _ _ E2) H4 F3)]. }
  apply Hsat in Hbody. clear Hsat. split.
  - split; [exact K|]. split; [exact N|]. unfold sat in Hbody. cbn [lp_infix lp_sym lp_args] in Hbody. rewrite Ev in Hbody. exact Hbody.
  - intros S1 eff n ss pt HS1 Hin Had.
    assert (G : Forall2 (fun eff _ => In eff (a_effs a) -> forall n ss pt, adds D S1 e eff n ss pt -> in_program n pt) (a_effs a) z).
    { apply (mapS_all F (fun e => let* es := lift (expand_effect D e) in mapS (fun e' => let* r := process_effect D ineq e' in add_effect_rule [{| lp_sym := sanitize ("action_" ++ a_name a); lp_args := map sanitize names; lp_infix := false |}] r) es) _ _ (fun e0 _ => mono_expanded D ineq _ e0)) with (st := s4) (st' := s5); auto; [|apply E4].
      intros ef y' sa sb _ Ia Hp Eb Hef n' ss' pt' Had'. apply bnd_inv in Hp as (exps & sc & X1 & X2). apply lift_inv in X1 as [X1 ->]. refine (effect_rules S1 _ ef exps sa y' sb n' ss' pt' HS1 Hef X1 Ia X2 Eb _ Had'). constructor; [exact Hbody|constructor]. }
    destruct (Forall2_In_l _ _ _ _ G Hin) as (y' & _ & Hy). exact (Hy Hin n ss pt Had).
Qed.
Lemma process_variables_sound S st x st' : inv_ok (c_tr st) -> process_action_variables D ineq a st = Ok (x, st') -> ext st' F -> invariant F C S -> true_in D S (a_pre a) e ->
  forall S1 eff n ss pt, invariant F C S1 -> In eff (a_effs a) -> adds D S1 e eff n ss pt -> in_program n pt.
Proof.
  intros I H E HS Ht S1 eff n ss pt HS1 Hin Had. unfold process_action_variables in H. apply bnd_inv in H as (types & s2 & H2 & H). apply bnd_inv in H as (phi & s3 & H3 & H). apply lift_inv in H3 as [H3 ->].
  apply bnd_inv in H as (body & s3 & H4 & H). apply bnd_inv in H as (z & s5 & H6 & H). apply ret_inv in H as [-> ->].
  assert (E2 := mono_mapS lp_type_atom _ (fun x _ => mono_type x) _ _ _ I H2). assert (E3 := mono_formula ineq phi _ _ _ (ex_inv _ _ E2) H4).
  assert (E5 := mono_mapS (fun e => let* r := process_effect D ineq e in add_effect_rule (types ++ body)%list r) _ (fun e0 _ => mono_effect_and_rule D ineq (types ++ body)%list e0) _ _ _ (ex_inv _ _ E3) H6).
  assert (F3 := ext_trans _ _ _ E5 E). assert (F2 := ext_trans _ _ _ E3 F3). 
  assert (Hbody : Forall (sat F (theta_of V e)) (types ++ body)).
  { apply Forall_app. split; [exact (types_sat _ _ _ I H2 F2)|exact (precondition_sat S phi _ _ _ HS Ht H3 (ex_inv _ _ E2) H4 F3)]. }
  assert (G : Forall2 (fun eff _ => In eff (a_effs a) -> forall n ss pt, adds D S1 e eff n ss pt -> in_program n pt) (a_effs a) z).
  { apply (mapS_all F (fun e => let* r := process_effect D ineq e in add_effect_rule (types ++ body)%list r) _ _ (fun e0 _ => mono_effect_and_rule D ineq _ e0)) with (st := s3) (st' := s5); auto; [|apply E3].
    intros ef y' sa sb _ Ia Hp Eb Hef n' ss' pt' Had'. assert (Hp' := Hp). apply bnd_inv in Hp' as (r & sc & X1 & _).
    assert (Ex : expand_effect D ef = Ok [ef]). { destruct ef; try reflexivity. cbn [process_effect] in X1. discriminate. }
    refine (effect_rules S1 (types ++ body)%list ef [ef] sa [y'] sb n' ss' pt' HS1 Hef Ex Ia _ Eb Hbody Had'). cbn [mapS]. unfold bnd at 1. rewrite Hp. reflexivity. }
  destruct (Forall2_In_l _ _ _ _ G Hin) as (y' & _ & Hy). exact (Hy Hin n ss pt Had).
Qed.
Lemma domains_nonempty_ok : nonempty_domains l W = Ok true.
Proof.
  assert (G : forall vs, incl vs W -> nonempty_domains l vs = Ok true). { induction vs as [|v vs IH]; intros Hi; [reflexivity|]. cbn [nonempty_domains]. destruct (He v (Hi v (or_introl eq_refl))) as (cs & Ec & Hin). unfold D, lang_domains in Ec. destruct (lang_domain l (snd v)) as [d|]; [|discriminate]. injection Ec as ->. cbn [bind]. destruct cs; [destruct Hin|]. apply IH. intros w Hw. apply Hi. right. exact Hw. }
  apply G, incl_refl.
Qed.
End Action.

Lemma action_sound a S e : In a (p_actions p) -> invariant F C S -> applicable D S a e ->
  (ga = true -> known (c_tr F) ("action_" ++ a_name a) /\ Forall (named F C) (map e (param_vars a)) /\ derives (c_rules F) (sanitize ("action_" ++ a_name a)) (map lp_name (map e (param_vars a)))) /\
  forall S1 eff n ss pt, invariant F C S1 -> In eff (a_effs a) -> adds D S1 e eff n ss pt -> in_program n pt.
Proof.
  intros Ha HS [He Ht]. destruct (create_parts parse ops ga ineq p F u HF) as (_ & st1 & st2 & st3 & st4 & st5 & u1 & u2 & u3 & u5 & _ & _ & _ & H5 & _ & _ & _ & I4 & _ & _ & _ & _ & E5).
  assert (G : Forall2 (fun a' _ => a' = a -> exists sa sb x, inv_ok (c_tr sa) /\ one_action l ga ineq a sa = Ok (x, sb) /\ ext sb F) (p_actions p) u5).
  { apply (mapS_all F (one_action l ga ineq) _ _ (fun x _ => mono_one _ _ _ _)) with (st := st4) (st' := st5); auto. intros a' y sa sb _ Ia Hp Eb ->. eauto 6. }
  destruct (Forall2_In_l _ _ _ _ G Ha) as (y & _ & Hy). destruct (Hy eq_refl) as (sa & sb & x & Ia & H & Eb). unfold one_action in H. apply bnd_inv in H as (b & sc & X1 & X2). apply lift_inv in X1 as [X1 ->]. rewrite (domains_nonempty_ok a e He) in X1. injection X1 as <-. fold D in X2. destruct (Bool.bool_dec ga true) as [Eg|Eg].
  - rewrite Eg in X2. destruct (process_action_sound a Ha e He S sa x sb Ia X2 Eb HS Ht) as [A B]. split; [intros _; exact A|exact B].
  - split; [intros X; contradiction|]. apply Bool.not_true_is_false in Eg. rewrite Eg in X2. exact (process_variables_sound a Ha e He S sa x sb Ia X2 Eb HS Ht).
Qed.
Lemma step_invariant S a e S' : In a (p_actions p) -> invariant F C S -> applicable D S a e -> successor_of D S a e S' -> invariant F C S'.
Proof.
  intros Ha HS Hap Hsuc n ss pt H. apply Hsuc in H as [(eff & Hin & Had)|[H _]]; [|exact (HS n ss pt H)]. exact (proj2 (action_sound a S e Ha HS Hap) S eff n ss pt HS Hin Had).
Qed.
Lemma reachable_invariant S : reachable D p S -> invariant F C S.
Proof.
  induction 1 as [S HSi|S a e S' _ IH Ha Hap Hsuc]; [exact (init_invariant parse ops Hn ga ineq p C F u Hsu HF S HSi)|exact (step_invariant S a e S' Ha IH Hap Hsuc)].
Qed.
Lemma goal_sound S (e : assignment) : invariant F C S -> true_in D S (p_goal p) e -> derives (c_rules F) "goal" [].
Proof.
  intros HS Ht. destruct (create_parts parse ops ga ineq p F u HF) as (IF & st1 & st2 & st3 & st4 & st5 & u1 & u2 & u3 & u5 & _ & _ & _ & _ & H & _ & _ & _ & I5 & _). unfold process_goal in H. apply bnd_inv in H as (phi & s1 & H1 & H). apply lift_inv in H1 as [H1 ->]. apply bnd_inv in H as (body & s1 & H2 & H). apply bnd_inv in H as (head & s2 & H3 & H4).
  fold l in H1, H2. fold D in H1, H2. destruct (su_goal _ _ _ Hsu) as [(W1 & W2 & W3 & W4 & _) HVg]. assert (E1 := mono_formula ineq phi _ _ _ I5 H2). assert (E2 := mono_lp_atom _ _ _ no_hyphen_empty _ _ _ (ex_inv _ _ E1) H3). assert (E3 := mono_add_rule _ _ _ _ _ (ex_inv _ _ E2) H4).
  assert (EF : ext F F) by (apply ext_refl; exact IF). assert (F2 := ext_trans _ _ _ E3 EF). assert (F1 := ext_trans _ _ _ E2 F2).
  set (V := binders (p_goal p)) in *. pose proof (remove_quantifiers_correct D MForall (p_goal p) HDc W1 W2) as R. rewrite H1 in R. destruct R as (Hw' & _ & _ & Hsem).
  assert (Fi : fine C V [] (p_goal p)) by (constructor; auto; apply incl_refl). assert (HDC : forall v cs c r, In v V -> D (snd v) = Some cs -> In (Cst c r) cs -> C c) by (intros v cs c r Hv; apply (domain_in_C parse ops Hn p C Hsu); exact (proj1 (proj1 HVg v Hv))).
  assert (Fi' := fine_remove C V D HDc HDC MForall _ [] phi W1 W2 Fi H1).
  assert (Hty : typed V D [] e) by (intros v []). assert (Ht' : true_in D S phi e). { unfold true_in in *. rewrite (Hsem _ _ (structure_respects l S)). exact Ht. }
  assert (Hb := formula_sound F C l V D IF (su_named _ _ _ Hsu) HVg (types_derived parse ops Hn ga ineq p C F u Hsu HF) S ineq HS phi st5 body s1 [] e I5 H2 F1 Hw' Fi' Hty Ht').
  destruct (lp_atom_spec F _ _ _ _ _ _ (ex_inv _ _ E1) no_hyphen_empty H3 F2) as (-> & _). exact (rule_fires F (theta_of V e) _ _ (add_rule_spec F _ _ _ _ _ H4 EF) eq_refl Hb).
Qed.
End Program.
