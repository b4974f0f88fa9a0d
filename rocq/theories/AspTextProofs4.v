(** Everything the compiler writes can be read: whole problems. *)
From Coq Require Import Ascii.
From Verif Require Import Base Syntax SemLemmas Build QElimProofs Subst FreeVars QElim ModelState ModelProofs ModelText Lang LangSpec LangProofs LangProofs2 LangProofs3 Effects Represent Grounding Index Asp AspNamesSpec PropsAspNames AspText AspTextSpec AspTextProofs1 AspTextProofs2 AspTextProofs3 AspProofs2 AspProofs1 AspSpec.
#[local] Open Scope string_scope.

Lemma dset_In_inv {V} (d : list (string * V)) k v x : In x (dset String.eqb d k v) -> In x d \/ x = (k, v).
Proof. induction d as [|[k' v'] d IH]; cbn [dset]; [intros [<-|[]]; auto|]. destruct (String.eqb k' k) eqn:E; intros [<-|H]; cbn [In]; auto; [|destruct (IH H); auto]. right. apply String.eqb_eq in E. now subst. Qed.
Lemma param_vars_incl a v : In v (param_vars a) -> In v (vars_of (a_params a)).
Proof.
  unfold param_vars, vb_vars, vb_make. cbn [vb_variables]. set (vs := vars_of (a_params a)). intros H. apply in_map_iff in H as ((k, w) & E & H). cbn [snd] in E. subst w.
  assert (G : forall ws d, In (k, v) (fold_left (fun d v => dset String.eqb d (fst v) v) ws d) -> In (k, v) d \/ In v ws).
  { induction ws as [|w ws IH]; intros d X; cbn [fold_left] in X; [auto|]. apply IH in X as [X|X]; [|right; right; exact X]. apply dset_In_inv in X as [X|X]; [auto|]. injection X as _ ->. right. left. reflexivity. }
  destruct (G vs [] H) as [[]|X]. exact X.
Qed.
Lemma vars_of_In ts v : In v (vars_of ts) -> In (Var (fst v) (snd v)) ts.
Proof. unfold vars_of. intros H. apply in_flat_map in H as (t & Ht & H). destruct t; cbn in H; try contradiction. destruct H as [<-|[]]. exact Ht. Qed.

Section Problem.
Variables (parse : bool -> string -> option Z) (ops : list lop).
Hypothesis Hn : forallb native ops = true.
Let l := lrun parse ops.
Variable p : problem.
Hypothesis HS : spelled l p.
Notation R := writable_rule.
Let D := lang_domains l.
Lemma tree : inv_tree l. Proof. now apply lrun_tree. Qed.
Lemma sget_In' {V} (d : list (string * V)) k v : sget d k = Some v -> In (k, v) d.
Proof. induction d as [|[k' v'] d IH]; cbn; [discriminate|]. destruct (String.eqb k' k) eqn:E; [intros H; injection H as ->; apply String.eqb_eq in E; subst; auto|auto]. Qed.
Lemma const_spelled c sym s : In (c, (sym, s)) (l_consts l) -> spelled_term (Cst sym s).
Proof. intros H. split; [exact (sp_constants _ _ HS _ _ _ H)|]. apply (sp_sorts _ _ HS). apply (it_const l tree c). exists sym. exact H. Qed.
Lemma domain_spelled s cs t : lang_domain l s = Ok cs -> In t cs -> spelled_term t.
Proof.
  unfold lang_domain. destruct (sget (l_sorts l) s) as [r|] eqn:E; [|discriminate]. apply sget_In' in E. destruct (s_kind r) as [|b lb ub] eqn:K.
  - intros H Hin. destruct (mapM_In _ _ _ _ H Hin) as (c & _ & Ec). destruct (dget cname_eqb (l_consts l) c) as [[sym srt]|] eqn:G; [|discriminate]. injection Ec as <-. apply (const_spelled c).
    clear - G. revert G. generalize (l_consts l). intros d. induction d as [|[k v] d IH]; cbn; [discriminate|]. destruct (cname_eqb k c) eqn:X; [|auto]. intros H. injection H as ->. left. f_equal. unfold cname_eqb in X. destruct (cname_eq_dec k c); [assumption|discriminate].
  - destruct (s_builtin r || Z.ltb 9999 (ub - lb))%bool; [discriminate|]. intros H Hin. injection H as <-. apply in_map_iff in Hin as (z & <- & Hz). split; [|apply (sp_sorts _ _ HS); unfold is_sort; apply in_map_iff; exists (s, r); auto].
    assert (Hl := sp_intervals _ _ HS _ _ _ _ _ E K). unfold zrange in Hz. apply in_map_iff in Hz as (i & <- & _). cbn [constant_name]. lia.
Qed.
Lemma HD : forall s cs t, D s = Some cs -> In t cs -> spelled_term t.
Proof. intros s cs t. unfold D, lang_domains. destruct (lang_domain l s) as [cs'|] eqn:E; [|discriminate]. intros H. injection H as <-. exact (domain_spelled s cs' t E). Qed.

Lemma params_spelled a : In a (p_actions p) -> Forall spelled_term (var_terms (param_vars a)).
Proof.
  intros Ha. destruct (sp_actions _ _ HS a Ha) as (_ & P & _). apply Forall_forall. intros t Ht. unfold var_terms in Ht. apply in_map_iff in Ht as (v & <- & Hv). apply param_vars_incl, vars_of_In in Hv. rewrite Forall_forall in P. exact (P _ Hv).
Qed.
Lemma post_action ineq a : In a (p_actions p) -> post R (process_action D ineq a) (fun _ => True).
Proof.
  intros Ha. assert (P := params_spelled a Ha). destruct (sp_actions _ _ HS a Ha) as (N & _ & Pre & Eff). unfold process_action.
  eapply post_bnd; [apply post_lift; intros xs E; exact (process_terms_writable _ xs P E)|]. intros xs W.
  eapply post_bnd; [apply post_lp_atom, action_prefix|]. intros atom Eatom. assert (WA : writable_atom atom /\ lp_infix atom = false) by (rewrite Eatom; split; [|reflexivity]; split; [exact W|apply prefixed_pred; [cbn; tauto|exact N]]). clear Eatom. destruct WA as [WA IA].
  eapply post_bnd; [apply post_types; exact P|]. intros types T. eapply post_bnd; [apply post_lift; intros f E; exact (remove_spelled D HD _ _ _ Pre E)|]. intros f Sf. eapply post_bnd; [apply post_formula; exact Sf|]. intros body B.
  eapply post_bnd; [apply post_add_rule; split; [exact IA|]; split; [exact WA|]; cbn [r_body]; apply Forall_app; auto|]. intros _ _.
  eapply post_bnd; [|intros _ _; apply post_ret; exact Logic.I]. apply post_each. intros e He. rewrite Forall_forall in Eff. eapply post_bnd; [apply post_lift; intros es E; exact (expand_effect_spelled D HD e es (Eff e He) E)|]. intros es Ses. apply post_each. intros e' He'. rewrite Forall_forall in Ses.
  eapply post_bnd; [apply (post_effect D HD); auto|]. intros r Hr. apply post_effect_rule; auto.
Qed.
Lemma post_action_variables ineq a : In a (p_actions p) -> post R (process_action_variables D ineq a) (fun _ => True).
Proof.
  intros Ha. assert (P := params_spelled a Ha). destruct (sp_actions _ _ HS a Ha) as (N & _ & Pre & Eff). unfold process_action_variables.
  eapply post_bnd; [apply post_types; exact P|]. intros types T. eapply post_bnd; [apply post_lift; intros f E; exact (remove_spelled D HD _ _ _ Pre E)|]. intros f Sf. eapply post_bnd; [apply post_formula; exact Sf|]. intros body B.
  eapply post_bnd; [|intros _ _; apply post_ret; exact Logic.I]. apply post_each. intros e He. rewrite Forall_forall in Eff. eapply post_bnd; [apply (post_effect D HD); auto|]. intros r Hr. apply post_effect_rule; [apply Forall_app; auto|exact Hr].
Qed.
Lemma post_goal ineq : post R (process_goal D ineq (p_goal p)) (fun _ => True).
Proof.
  unfold process_goal. eapply post_bnd; [apply post_lift; intros f E; exact (remove_spelled D HD _ _ _ (sp_goal _ _ HS) E)|]. intros f Sf. eapply post_bnd; [apply post_formula; exact Sf|]. intros body B.
  eapply post_bnd; [apply post_lp_atom, no_hyphen_empty|]. intros h ->. apply post_add_rule. split; [reflexivity|]. split; [|exact B]. split; [constructor|exact goal_pred].
Qed.
Lemma X_writable : writable (sanitize "X"). Proof. split; [reflexivity|discriminate]. Qed.
Lemma post_sort_rule s r : In (s, r) (l_sorts l) -> post R (sort_rule l s r) (fun _ => True).
Proof.
  intros Hin. assert (Ss : symbol_name s = true) by (apply (sp_sorts _ _ HS); unfold is_sort; apply in_map_iff; exists (s, r); auto). unfold sort_rule. destruct (s_kind r); [|apply post_ret; exact Logic.I].
  destruct (sget (l_parent l) s) as [[q|]|] eqn:E; [|apply post_ret; exact Logic.I|apply post_fail]. eapply post_bnd; [apply post_lift; intros; exact Logic.I|]. intros [|t d] _; [apply post_ret; exact Logic.I|].
  assert (Sq : symbol_name q = true) by (apply (sp_sorts _ _ HS); apply (it_parent l tree s); unfold parent_of; now rewrite E).
  eapply post_bnd; [apply post_lp_atom, type_prefix|]. intros h ->. eapply post_bnd; [apply post_lp_atom, type_prefix|]. intros b ->. apply post_add_rule. split; [reflexivity|].
  assert (G : forall x, symbol_name x = true -> writable_atom {| lp_sym := sanitize (full_name (x, "type")); lp_args := map sanitize ["X"]; lp_infix := false |}).
  { intros x Hx. split; [constructor; [exact X_writable|constructor]|]. apply prefixed_pred; [cbn; tauto|exact Hx]. }
  split; [apply G; exact Sq|]. constructor; [apply G; exact Ss|constructor].
Qed.
Lemma post_init_atom ke pt : In ke (preds (p_init p)) -> In pt (snd ke) -> post R (init_atom (fst ke) pt) (fun _ => True).
Proof.
  destruct ke as [[b names] pts]. cbn [fst snd]. intros Hk Hp. unfold init_atom. destruct b; [apply post_fail|]. destruct names as [|n ss]; [apply post_fail|]. destruct (sp_init _ _ HS n ss pts pt Hk Hp) as [A B].
  eapply post_bnd; [apply post_user; split; [exact A|exact B]|]. intros h [W I]. apply post_add_rule. split; [exact I|]. split; [exact W|constructor].
Qed.
Lemma post_init_functions cost m : post R (init_functions cost m) (fun _ => True).
Proof. unfold init_functions. eapply post_bnd; [|intros _ _; apply post_ret; exact Logic.I]. apply post_each. intros ke _. eapply post_weaken; [|apply (post_each R)]; [auto|]. intros x _. destruct (_ || _)%bool; [apply post_ret; exact Logic.I|apply post_fail]. Qed.
Lemma post_create ga ineq : post R (create_rules l ga ineq p) (fun _ => True).
Proof.
  unfold create_rules. eapply post_bnd; [apply (post_each R)|].
  - intros c Hc. unfold lang_constants in Hc. apply in_map_iff in Hc as ((k & (sym & s)) & <- & Hc). cbn [fst snd]. eapply post_bnd; [apply post_type; exact (const_spelled _ _ _ Hc)|]. intros a [W I]. apply post_add_rule. split; [exact I|]. split; [exact W|constructor].
  - intros _ _. eapply post_bnd; [apply (post_each R)|].
    + intros [s r] Hs. cbn [fst snd]. now apply post_sort_rule.
    + intros _ _. eapply post_bnd; [apply (post_each R)|].
      * intros ke Hk. eapply post_weaken; [|apply (post_each R)]; [auto|]. intros pt Hp. now apply post_init_atom.
      * intros _ _. eapply post_bnd; [apply post_init_functions|]. intros _ _. eapply post_bnd; [apply (post_each R)|].
        -- intros a Ha. eapply post_bnd; [apply post_lift; intros; exact Logic.I|]. intros b _. destruct b; [|apply post_ret; exact Logic.I]. destruct ga; [apply post_action|apply post_action_variables]; exact Ha.
        -- intros _ _. apply post_goal.
Qed.
Lemma create_writable ga ineq P t : create_reachability_lp l ga ineq p = Ok (P, t) -> Forall writable_rule P.
Proof.
  unfold create_reachability_lp. destruct (create_rules l ga ineq p _) as [[u F]|] eqn:E; cbn [bind snd]; [|discriminate]. intros H. injection H as <- <-. destruct (post_create ga ineq {| c_tr := trans0; c_aux := 0; c_rules := [] |} u F inv_ok0 (Forall_nil _) E) as (_ & G & _). exact G.
Qed.
End Problem.
(** What follows from the program that is read is what the rules derive. *)
Lemma underscore_like x : all plain_char x = true -> word x <> None -> arg_of x = if variable_like x then Unknown x else Known x.
Proof.
  intros A W. unfold arg_of. destruct (word x) as [t|] eqn:E; [|contradiction]. clear W. unfold word in E. destruct (String.eqb x "not") eqn:N; [discriminate|].
  assert (U : forall s, all plain_char s = true -> starts uppercase s = true -> variable_like s = true).
  { induction s as [|c s IH]; [discriminate|]. cbn [all starts variable_like]. intros H. apply andb_true_iff in H as [Hc Hs]. destruct (Ascii.eqb c "_"); cbn [orb]; [auto|]. destruct (Ascii.eqb c "'") eqn:Q; [apply Ascii.eqb_eq in Q; subst c; discriminate|]. intros X. exact X. }
  assert (K : forall s, all plain_char s = true -> starts lowercase s = true -> variable_like s = false).
  { induction s as [|c s IH]; [discriminate|]. cbn [all starts variable_like]. intros H. apply andb_true_iff in H as [Hc Hs]. destruct (Ascii.eqb c "_"); cbn [orb]; [auto|]. destruct (Ascii.eqb c "'") eqn:Q; [apply Ascii.eqb_eq in Q; subst c; discriminate|].
    intros X. assert (G : forall b, implb (lowercase b) (negb (is_upper b)) = true) by (apply (bytes_ok (fun b => implb (lowercase b) (negb (is_upper b)))); vm_compute; reflexivity). specialize (G c). rewrite X in G. cbn [implb] in G. now apply negb_true_iff in G. }
  destruct (starts lowercase x) eqn:L; [injection E as <-; now rewrite (K x A L)|]. destruct (starts uppercase x) eqn:V; [injection E as <-; now rewrite (U x A V)|].
  destruct (numeral x) eqn:M; [|discriminate]. injection E as <-. destruct x as [|c s]; [discriminate|]. cbn [numeral] in M. apply andb_true_iff in M as [M _]. cbn [all] in M. apply andb_true_iff in M as [M _]. cbn [variable_like].
  assert (G : forall b, implb (digit b) (negb (Ascii.eqb b "_") && negb (is_upper b)) = true) by (apply (bytes_ok (fun b => implb (digit b) (negb (Ascii.eqb b "_") && negb (is_upper b)))); vm_compute; reflexivity). specialize (G c). rewrite M in G. cbn [implb] in G.
  apply andb_true_iff in G as [G1 G2]. apply negb_true_iff in G1, G2. rewrite G1, G2. reflexivity.
Qed.
Lemma ground_instantiate theta xs : Forall writable xs -> map (ground theta) (map arg_of xs) = map (instantiate theta) xs.
Proof.
  intros H. rewrite map_map. apply map_ext_in. intros x Hx. rewrite Forall_forall in H. destruct (H x Hx) as [A B]. unfold instantiate. rewrite (underscore_like x A B). destruct (variable_like x); reflexivity.
Qed.
Lemma follows_derives P : Forall writable_rule P -> forall s args, follows (map clause_of P) s args <-> derives P s args.
Proof.
  intros HP s args. rewrite Forall_forall in HP. split.
  - revert s args. fix IH 3. intros s args H. destruct H as [c theta Hc Hb Hcmp]. apply in_map_iff in Hc as (r & <- & Hr). destruct (HP r Hr) as (I & W & B). cbn [clause_of c_pred c_args c_body] in *. rewrite ground_instantiate by apply W. rewrite Forall_forall in B.
    apply derives_rule; [exact Hr|exact I| |].
    + intros a Ha Ia. rewrite <- ground_instantiate by apply (B a Ha). apply IH. apply Hb. apply in_map_iff. exists a. split; [|exact Ha]. unfold literal_of. rewrite Ia. reflexivity.
    + intros a Ha Ia. destruct (writable_two a (B a Ha) Ia) as (x & y & E & Wx & Wy & _). rewrite E. rewrite <- ground_instantiate by (constructor; [exact Wx|constructor; [exact Wy|constructor]]). exists (ground theta (arg_of x)), (ground theta (arg_of y)). split; [reflexivity|].
      apply Hcmp. apply in_map_iff. exists a. split; [|exact Ha]. unfold literal_of. rewrite Ia, E. reflexivity.
  - revert s args. fix IH 3. intros s args H. destruct H as [r theta Hr I Hb Hcmp]. destruct (HP r Hr) as (_ & W & B). rewrite Forall_forall in B. rewrite <- ground_instantiate by apply W.
    change (lp_sym (r_head r)) with (c_pred (clause_of r)). change (map arg_of (lp_args (r_head r))) with (c_args (clause_of r)). apply follows_clause; [now apply in_map| |].
    + intros q qargs Hq. apply in_map_iff in Hq as (a & Ea & Ha). destruct (lp_infix a) eqn:Ia; [destruct (writable_two a (B a Ha) Ia) as (x & y & E & _); unfold literal_of in Ea; rewrite Ia, E in Ea; discriminate|].
      assert (Ea' : Holds (lp_sym a) (map arg_of (lp_args a)) = Holds q qargs) by (rewrite <- Ea; unfold literal_of; rewrite Ia; reflexivity). injection Ea' as <- <-. rewrite ground_instantiate by apply (B a Ha). apply IH. exact (Hb a Ha Ia).
    + intros op x y Hxy. apply in_map_iff in Hxy as (a & Ea & Ha). destruct (lp_infix a) eqn:Ia; [|unfold literal_of in Ea; rewrite Ia in Ea; discriminate]. destruct (writable_two a (B a Ha) Ia) as (x' & y' & E & Wx & Wy & _).
      unfold literal_of in Ea. rewrite Ia, E in Ea. injection Ea as <- <- <-. destruct (Hcmp a Ha Ia) as (u & v & Euv & H). rewrite E in Euv. rewrite <- ground_instantiate in Euv by (constructor; [exact Wx|constructor; [exact Wy|constructor]]). injection Euv as -> ->. exact H.
Qed.
