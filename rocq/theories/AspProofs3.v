(** The reachability compiler: types, initial atoms, actions, goal. *)
From Coq Require Import Ascii.
From Verif Require Import Base Syntax Semantics SemLemmas Build NnfProofs Subst SubstSpec SubstProofs FreeVars FreeVarsProofs QElim QElimProofs ModelState ModelProofs ModelText EvalSpec Lang LangSpec LangProofs LangProofs2 LangProofs3 PropsLang Effects Represent Grounding Asp AspNamesSpec AspSpec PropsAspNames AspProofs1 AspProofs2.
#[local] Open Scope string_scope.

Lemma mono_sort_rule l s r : mono (sort_rule l s r).
Proof.
  unfold sort_rule. destruct (s_kind r); [|apply mono_ret]. destruct (sget (l_parent l) s) as [[p|]|]; [|apply mono_ret|apply mono_fail]. apply mono_bnd; [apply mono_lift|]. intros [|t d]; [apply mono_ret|].
  apply mono_bnd; [apply mono_lp_atom, type_prefix|]. intros h. apply mono_bnd; [apply mono_lp_atom, type_prefix|]. intros b. apply mono_add_rule.
Qed.
Lemma mono_init_atom s pt : mono (init_atom s pt).
Proof. destruct s as [[|] [|n ss]]; cbn [init_atom]; try apply mono_fail. apply mono_bnd; [apply mono_atom|]. intros. apply mono_add_rule. Qed.
Lemma mono_init_functions cost m : mono (init_functions cost m).
Proof. apply mono_bnd; [|intros; apply mono_ret]. apply mono_mapS. intros ke _. apply mono_mapS. intros x _. cbv zeta. match goal with |- mono (if ?b then _ else _) => destruct b end; [apply mono_ret|apply mono_fail]. Qed.
Lemma mono_effect D ineq e : mono (process_effect D ineq e).
Proof. destruct e as [c a|c a| | | |]; cbn [process_effect]; try apply mono_fail; [|apply mono_ret]. destruct a; try apply mono_fail. apply mono_bnd; [apply mono_atom|]. intros. apply mono_bnd; [apply mono_lift|]. intros. apply mono_bnd; [apply mono_formula|]. intros. apply mono_ret. Qed.
Lemma mono_effect_rule pre r : mono (add_effect_rule pre r).
Proof. destruct r as [[h b]|]; [apply mono_add_rule|apply mono_ret]. Qed.
Lemma mono_effect_and_rule D ineq pre e : mono (let* r := process_effect D ineq e in add_effect_rule pre r).
Proof. apply mono_bnd; [apply mono_effect|]. intros. apply mono_effect_rule. Qed.
Lemma mono_expanded D ineq pre e : mono (let* es := lift (expand_effect D e) in mapS (fun e' => let* r := process_effect D ineq e' in add_effect_rule pre r) es).
Proof. apply mono_bnd; [apply mono_lift|]. intros es. apply mono_mapS. intros. apply mono_effect_and_rule. Qed.
Lemma mono_action D ineq a : mono (process_action D ineq a).
Proof.
  apply mono_bnd; [apply mono_lift|]. intros names. apply mono_bnd; [apply mono_lp_atom, action_prefix|]. intros atom. apply mono_bnd; [apply mono_mapS; intros; apply mono_type|]. intros types. apply mono_bnd; [apply mono_lift|]. intros phi.
  apply mono_bnd; [apply mono_formula|]. intros body. apply mono_bnd; [apply mono_add_rule|]. intros. apply mono_bnd; [apply mono_mapS; intros; apply mono_expanded|]. intros. apply mono_ret.
Qed.
Lemma mono_action_variables D ineq a : mono (process_action_variables D ineq a).
Proof.
  apply mono_bnd; [apply mono_mapS; intros; apply mono_type|]. intros types. apply mono_bnd; [apply mono_lift|]. intros phi.
  apply mono_bnd; [apply mono_formula|]. intros body. apply mono_bnd; [apply mono_mapS; intros; apply mono_effect_and_rule|]. intros. apply mono_ret.
Qed.
Lemma mono_goal D ineq g : mono (process_goal D ineq g).
Proof. apply mono_bnd; [apply mono_lift|]. intros. apply mono_bnd; [apply mono_formula|]. intros. apply mono_bnd; [apply mono_lp_atom, no_hyphen_empty|]. intros. apply mono_add_rule. Qed.
Definition one_action (l : lang) (ga ineq : bool) (a : action) : M unit :=
  let* b := lift (nonempty_domains l (param_vars a)) in if b then if ga then process_action (lang_domains l) ineq a else process_action_variables (lang_domains l) ineq a else ret tt.
Lemma mono_one (l : lang) (ga ineq : bool) (a : action) : mono (one_action l ga ineq a).
Proof. apply mono_bnd; [apply mono_lift|]. intros []; [|apply mono_ret]. destruct ga; [apply mono_action|apply mono_action_variables]. Qed.
Definition type_fact (c : term) : M unit := let* a := lp_type_atom c in add_rule a [].
Lemma mono_type_fact c : mono (type_fact c).
Proof. apply mono_bnd; [apply mono_type|]. intros. apply mono_add_rule. Qed.

(** * Domains *)
Lemma lang_constants_only l : constants_only (lang_domains l).
Proof.
  intros s cs t. unfold lang_domains, lang_domain. destruct (sget (l_sorts l) s) as [r|]; [|discriminate]. destruct (s_kind r) as [|real lb ub].
  - destruct (mapM _ (s_dom r)) as [d|] eqn:E; [|discriminate]. intros H. injection H as <-. intros Hin. apply mapM_Forall2 in E. destruct (Forall2_In_r _ _ _ _ E Hin) as (c & _ & Hc). destruct (dget cname_eqb (l_consts l) c) as [[sym srt]|]; [|discriminate]. injection Hc as <-. eauto.
  - destruct (s_builtin r || _)%bool; [discriminate|]. intros H. injection H as <-. intros Hin. apply in_map_iff in Hin as (z & <- & _). eauto.
Qed.
Lemma structure_respects l S : respects (lang_domains l) (structure_of (lang_domains l) S).
Proof.
  intros s cs d E. cbn [structure_of dom cint]. rewrite E. split; [|intros (c & r & H & ->); exact H]. intros H. destruct (lang_constants_only l s cs d E H) as (c & r & ->). eauto.
Qed.
Section Domains.
Variables (parse : bool -> string -> option Z) (ops : list lop).
Hypothesis Hn : forallb native ops = true.
Let l := lrun parse ops.
Lemma const_dget c s : const_of l c s -> exists sym, dget cname_eqb (l_consts l) c = Some (sym, s).
Proof. intros (sym & H). exists sym. apply (dget_Some_In cname_eqb cname_eqb_eq); [apply (ii_consts l (lrun_index parse ops))|exact H]. Qed.
Lemma dom_spec s r : sget (l_sorts l) s = Some r -> s_kind r = KPlain -> forall c, In c (s_dom r) <-> exists s', is_plain l s' /\ const_of l c s' /\ le l s' s.
Proof. intros Er K. apply (sget_In _ _ _ (ii_sorts l (lrun_index parse ops))) in Er. destruct (it_dom l (lrun_tree parse ops Hn) s r Er) as (_ & Dm & _). exact (proj2 (Dm K)). Qed.
Lemma plain_kind s r : is_plain l s -> sget (l_sorts l) s = Some r -> s_kind r = KPlain.
Proof. intros (r' & Hr' & K) Er. apply (sget_In _ _ _ (ii_sorts l (lrun_index parse ops))) in Hr'. congruence. Qed.
Lemma domain_constants s cs t : is_plain l s -> lang_domain l s = Ok cs -> In t cs -> exists c s', t = Cst c s' /\ const_of l c s' /\ is_plain l s' /\ le l s' s.
Proof.
  intros Hp E Hin. unfold lang_domain in E. destruct (sget (l_sorts l) s) as [r|] eqn:Er; [|discriminate]. assert (K := plain_kind s r Hp Er). assert (Hd := dom_spec s r Er K). rewrite K in E.
  apply mapM_Forall2 in E. destruct (Forall2_In_r _ _ _ _ E Hin) as (c & Hc & Ec). apply Hd in Hc as (s' & P1 & P2 & P3). destruct (const_dget c s' P2) as (sym & Eg). rewrite Eg in Ec. injection Ec as <-.
  assert (sym = c) by exact (plain_const_name parse ops Hn c sym s' P1 Eg). subst sym. eauto 6.
Qed.
Lemma domain_nonempty c s' u : const_of l c s' -> is_plain l s' -> le l s' u -> is_plain l u -> forall d, lang_domain l u = Ok d -> d <> [].
Proof.
  intros Hc Hp Hle Hu d E. unfold lang_domain in E. destruct (sget (l_sorts l) u) as [r|] eqn:Er; [|discriminate]. assert (K := plain_kind u r Hu Er). assert (Hd := dom_spec u r Er K). rewrite K in E.
  assert (Hin : In c (s_dom r)) by (apply Hd; eauto). apply mapM_Forall2 in E. destruct (Forall2_In_l _ _ _ _ E Hin) as (t & Ht & _). intros ->. destruct Ht.
Qed.

(** * The whole program *)
Variables (ga ineq : bool) (p : problem) (C : cname -> Prop) (F : cstate) (u : unit).
Let D := lang_domains l.
Hypothesis Hsu : suitable C l p.
Let st0 := {| c_tr := trans0; c_aux := 0; c_rules := [] |}.
Hypothesis HF : create_rules l ga ineq p st0 = Ok (u, F).
Lemma create_parts : inv_ok (c_tr F) /\ exists st1 st2 st3 st4 st5 u1 u2 u3 u5, 
  mapS type_fact (lang_constants l) st0 = Ok (u1, st1) /\ mapS (fun sr => sort_rule l (fst sr) (snd sr)) (l_sorts l) st1 = Ok (u2, st2) /\
  mapS (fun ke => mapS (init_atom (fst ke)) (snd ke)) (preds (p_init p)) st2 = Ok (u3, st3) /\ mapS (one_action l ga ineq) (p_actions p) st4 = Ok (u5, st5) /\ process_goal D ineq (p_goal p) st5 = Ok (u, F) /\
  inv_ok (c_tr st1) /\ inv_ok (c_tr st2) /\ inv_ok (c_tr st4) /\ inv_ok (c_tr st5) /\ ext st1 F /\ ext st2 F /\ ext st3 F /\ ext st5 F.
Proof.
  unfold create_rules in HF. apply bnd_inv in HF as (u1 & st1 & H1 & H). apply bnd_inv in H as (u2 & st2 & H2 & H). apply bnd_inv in H as (u3 & st3 & H3 & H). apply bnd_inv in H as (u4 & st4 & H4 & H). apply bnd_inv in H as (u5 & st5 & H5 & H6).
  assert (I0 : inv_ok (c_tr st0)) by apply inv_ok0. assert (E1 := mono_mapS type_fact _ (fun x _ => mono_type_fact x) _ _ _ I0 H1). assert (E2 := mono_mapS (fun sr => sort_rule l (fst sr) (snd sr)) _ (fun x _ => mono_sort_rule _ _ _) _ _ _ (ex_inv _ _ E1) H2).
  assert (E3 := mono_mapS (fun ke => mapS (init_atom (fst ke)) (snd ke)) _ (fun x _ => mono_mapS _ _ (fun y _ => mono_init_atom _ _)) _ _ _ (ex_inv _ _ E2) H3). assert (E4 := mono_init_functions _ _ _ _ _ (ex_inv _ _ E3) H4).
  assert (E5 := mono_mapS (one_action l ga ineq) _ (fun x _ => mono_one _ _ _ _) _ _ _ (ex_inv _ _ E4) H5). assert (E6 := mono_goal _ _ _ _ _ _ (ex_inv _ _ E5) H6).
  split; [apply E6|]. exists st1, st2, st3, st4, st5, u1, u2, u3, u5. split; [exact H1|]. split; [exact H2|]. split; [exact H3|]. split; [exact H5|]. split; [exact H6|]. split; [apply E1|]. split; [apply E2|]. split; [apply E4|]. split; [apply E5|].
  assert (E4F := ext_trans _ _ _ E5 E6). assert (E3F := ext_trans _ _ _ E4 E4F). assert (E2F := ext_trans _ _ _ E3 E3F). split; [exact (ext_trans _ _ _ E2 E2F)|]. auto.
Qed.
Lemma upper_first c s : is_upper c = true -> variable_like (sanitize (String c s)) = true.
Proof. intros H. cbn [sanitize]. destruct (Ascii.eqb c "-") eqn:E; [apply Ascii.eqb_eq in E as ->; discriminate|]. cbn [variable_like]. destruct (Ascii.eqb c "_") eqn:E'; [apply Ascii.eqb_eq in E' as ->; discriminate|exact H]. Qed.
Lemma fact_of c s : const_of l c s -> is_plain l s -> named F C (Cst c s) /\ derives (c_rules F) (sanitize ("type_" ++ s)) [lp_name (Cst c s)].
Proof.
  intros Hc Hp. assert (HCc : C c) by exact (su_declared _ _ _ Hsu c s Hc). destruct create_parts as (_ & st1 & st2 & st3 & st4 & st5 & u1 & u2 & u3 & u5 & H1 & _ & _ & _ & _ & I1 & _ & _ & _ & E1 & _).
  destruct (const_dget c s Hc) as (sym & Eg). assert (sym = c) by exact (plain_const_name parse ops Hn c sym s Hp Eg). subst sym. destruct Hc as (sym & Hin). assert (sym = c). { assert (X : dget cname_eqb (l_consts l) c = Some (sym, s)) by (apply (dget_Some_In cname_eqb cname_eqb_eq); [apply (ii_consts l (lrun_index parse ops))|exact Hin]). rewrite Eg in X. injection X as X. symmetry. exact X. } subst sym.
  assert (Hl : In (Cst c s) (lang_constants l)). { unfold lang_constants. apply in_map_iff. exists (c, (c, s)). auto. }
  assert (G : Forall2 (fun t _ => forall n r, t = Cst n r -> exists x, uncapitalize n = Ok x /\ known (c_tr F) x /\ In {| r_head := {| lp_sym := sanitize ("type_" ++ r); lp_args := [sanitize x]; lp_infix := false |}; r_body := [] |} (c_rules F)) (lang_constants l) u1).
  { apply (mapS_all F type_fact _ _ (fun x _ => mono_type_fact x)) with (st := st0) (st' := st1); auto; [|apply inv_ok0]. intros t y st st' Ht I' Hp' E' n r ->. unfold type_fact in Hp'. apply bnd_inv in Hp' as (a & s1 & X1 & X2). cbn [lp_type_atom] in X1. apply bnd_inv in X1 as (x & s2 & X3 & X4). apply lift_inv in X3 as [X3 ->].
    assert (Ea : ext st s1) by exact (mono_lp_atom _ _ _ type_prefix _ _ _ I' X4). assert (Eb := mono_add_rule _ _ _ _ _ (ex_inv _ _ Ea) X2).
    destruct (lp_atom_spec F _ _ _ _ _ _ I' type_prefix X4 (ext_trans _ _ _ Eb E')) as (-> & _ & K). inversion K; subst. exists x. split; [exact X3|]. split; [assumption|]. exact (add_rule_spec F _ _ _ _ _ X2 E'). }
  destruct (Forall2_In_l _ _ _ _ G Hl) as (y & _ & Hy). destruct (Hy c s eq_refl) as (x & Hx & K & Hr). destruct (proj1 (su_named _ _ _ Hsu) c HCc) as [_ Hv].
  assert (x = name_text c). { destruct c as [n|z]; [|discriminate]. destruct n as [|a n]; [discriminate|]. cbn [uncapitalize] in Hx. injection Hx as <-. cbn [name_text] in *. unfold to_lower. destruct (is_upper a) eqn:Ua; [|reflexivity]. rewrite (upper_first a n Ua) in Hv. discriminate. } subst x.
  split; [exists c, s; auto|]. assert (X := rule_fires F (fun x => x) _ _ Hr eq_refl (Forall_nil _)). unfold sat in X. cbn [lp_infix lp_sym lp_args map] in X. unfold instantiate in X. rewrite Hv in X. exact X.
Qed.
Lemma type_parent s r pa c s' : In (s, r) (l_sorts l) -> s_kind r = KPlain -> parent_of l s = Some pa -> const_of l c s' -> is_plain l s' -> le l s' s ->
  forall x, derives (c_rules F) (sanitize ("type_" ++ s)) [x] -> derives (c_rules F) (sanitize ("type_" ++ pa)) [x].
Proof.
  intros Hin K Hpa Hc Hp Hle x Hx. destruct create_parts as (_ & st1 & st2 & st3 & st4 & st5 & u1 & u2 & u3 & u5 & _ & H2 & _ & _ & _ & I1 & _ & _ & _ & _ & E2 & _).
  assert (G : Forall2 (fun sr _ => fst sr = s -> snd sr = r -> In {| r_head := {| lp_sym := sanitize ("type_" ++ pa); lp_args := ["X"]; lp_infix := false |}; r_body := [{| lp_sym := sanitize ("type_" ++ s); lp_args := ["X"]; lp_infix := false |}] |} (c_rules F)) (l_sorts l) u2).
  { apply (mapS_all F (fun sr => sort_rule l (fst sr) (snd sr)) _ _ (fun x _ => mono_sort_rule _ _ _)) with (st := st1) (st' := st2); auto. intros [s1 r1] y st st' Ht I' Hp' E' Es Er. cbn [fst snd] in *. subst s1 r1. unfold sort_rule in Hp'. rewrite K in Hp'.
    unfold parent_of in Hpa. destruct (sget (l_parent l) s) as [[p'|]|]; try discriminate. injection Hpa as ->. apply bnd_inv in Hp' as (d & s1 & X1 & X2). apply lift_inv in X1 as [X1 ->]. assert (Hd : d <> []) by (apply (domain_nonempty c s' s); auto; exists r; auto). destruct d as [|t d]; [now contradiction Hd|].
    apply bnd_inv in X2 as (h & s1 & X2 & X3). apply bnd_inv in X3 as (b & s2 & X3 & X4). assert (Ea := mono_lp_atom _ _ _ type_prefix _ _ _ I' X2). assert (Eb := mono_lp_atom _ _ _ type_prefix _ _ _ (ex_inv _ _ Ea) X3). assert (Ec := mono_add_rule _ _ _ _ _ (ex_inv _ _ Eb) X4).
    destruct (lp_atom_spec F _ _ _ _ _ _ I' type_prefix X2 (ext_trans _ _ _ Eb (ext_trans _ _ _ Ec E'))) as (-> & _). destruct (lp_atom_spec F _ _ _ _ _ _ (ex_inv _ _ Ea) type_prefix X3 (ext_trans _ _ _ Ec E')) as (-> & _). exact (add_rule_spec F _ _ _ _ _ X4 E'). }
  destruct (Forall2_In_l _ _ _ _ G Hin) as (y & _ & Hy). assert (Hr := Hy eq_refl eq_refl). assert (X := rule_fires F (fun _ => x) _ _ Hr eq_refl). apply X. constructor; [exact Hx|constructor].
Qed.
Lemma types_derived s cs t : is_plain l s -> D s = Some cs -> In t cs -> named F C t /\ derives (c_rules F) (sanitize ("type_" ++ s)) [lp_name t].
Proof.
  intros Hp E Hin. unfold D, lang_domains in E. destruct (lang_domain l s) as [d|] eqn:Ed; [|discriminate]. injection E as <-. destruct (domain_constants s d t Hp Ed Hin) as (c & s' & -> & Hc & Hp' & Hle). destruct (fact_of c s' Hc Hp') as [N Hd]. split; [exact N|].
  change (lp_name (Cst c s)) with (lp_name (Cst c s')). set (x := lp_name (Cst c s')) in *. destruct Hle as [<-|Ha]; [exact Hd|].
  assert (G : forall v w, anc l v w -> le l s' v -> derives (c_rules F) (sanitize ("type_" ++ v)) [x] -> derives (c_rules F) (sanitize ("type_" ++ w)) [x]).
  { assert (Hpl : forall v, le l s' v -> is_plain l v). { intros v [<-|Hv]; [exact Hp'|exact (su_sorts _ _ _ Hsu c s' v Hc Hp' Hv)]. }
    induction 1 as [v w Hv|v w z Hv Hw IH]; intros Hle Hx; destruct (Hpl v Hle) as (r & Hr & K).
    - exact (type_parent v r w c s' Hr K Hv Hc Hp' Hle x Hx).
    - apply IH; [|exact (type_parent v r w c s' Hr K Hv Hc Hp' Hle x Hx)]. apply (le_trans l s' v w Hle). right. apply anc_parent. exact Hv. }
  exact (G s' s Ha (or_introl eq_refl) Hd).
Qed.
Lemma domain_in_C s cs c r : is_plain l s -> D s = Some cs -> In (Cst c r) cs -> C c.
Proof.
  intros Hp E Hin. unfold D, lang_domains in E. destruct (lang_domain l s) as [d|] eqn:Ed; [|discriminate]. injection E as <-. destruct (domain_constants s d _ Hp Ed Hin) as (c' & s' & X & Hc & _). injection X as -> ->. exact (su_declared _ _ _ Hsu _ _ Hc).
Qed.
Lemma empty_written : well_written l [].
Proof. split; [intros v []|intros v w x []]. Qed.
Lemma init_invariant S : (forall n ss pt, true_atoms S (PU n ss) pt = m_holds (p_init p) (PU n ss) pt) -> invariant F C S.
Proof.
  intros HSi n ss pt H. rewrite HSi in H. assert (HCs := su_init _ _ _ Hsu n ss pt H). destruct create_parts as (IF & st1 & st2 & st3 & st4 & st5 & u1 & u2 & u3 & u5 & _ & _ & H3 & _ & _ & _ & I2 & _ & _ & _ & _ & E3 & _).
  unfold m_holds in H. destruct (dget sig_eqb (preds (p_init p)) (psig (PU n ss))) as [e|] eqn:Eg; [|discriminate]. unfold pt_mem in H. apply existsb_exists in H as (pt' & Hpt & Eq). apply points_eqb_eq in Eq. subst pt'.
  assert (Hk : In ((false, n :: ss), e) (preds (p_init p))). { clear - Eg. induction (preds (p_init p)) as [|[k v] d IH]; cbn [dget] in Eg; [discriminate|]. destruct (sig_eqb k (psig (PU n ss))) eqn:E; [|right; auto]. injection Eg as ->. left. f_equal. unfold sig_eqb in E. destruct k as [b ns]. cbn [fst snd psig] in E. apply andb_true_iff in E as [E1 E2]. apply Bool.eqb_prop in E1 as ->. destruct (list_eq_dec string_dec ns (n :: ss)); [congruence|discriminate]. }
  assert (G : Forall2 (fun ke _ => fst ke = (false, n :: ss) -> forall pt, In pt (snd ke) -> Forall (fun t => exists c s, t = Cst c s /\ C c) pt -> Forall (named F C) pt /\ known (c_tr F) ("atom_" ++ n) /\ derives (c_rules F) (sanitize ("atom_" ++ n)) (map lp_name pt)) (preds (p_init p)) u3).
  { apply (mapS_all F (fun ke => mapS (init_atom (fst ke)) (snd ke)) _ _ (fun x _ => mono_mapS _ _ (fun y _ => mono_init_atom _ _))) with (st := st2) (st' := st3); auto. intros [k v] y st st' _ I' Hp' E' Ek. cbn [fst snd] in *. subst k.
    assert (G' : Forall2 (fun pt _ => Forall (fun t => exists c s, t = Cst c s /\ C c) pt -> Forall (named F C) pt /\ known (c_tr F) ("atom_" ++ n) /\ derives (c_rules F) (sanitize ("atom_" ++ n)) (map lp_name pt)) v y).
    { apply (mapS_all F (init_atom (false, n :: ss)) _ _ (fun x _ => mono_init_atom _ _)) with (st := st) (st' := st'); auto. intros q z s s' _ I'' Hq E'' Hcs. cbn [init_atom] in Hq. apply bnd_inv in Hq as (h & s1 & X1 & X2). assert (Ea := mono_atom _ _ _ _ _ I'' X1). assert (Eb := mono_add_rule _ _ _ _ _ (ex_inv _ _ Ea) X2).
      assert (Hty : typed [] D [] (fun v => Var (fst v) (snd v))) by (intros x []). assert (Hfr : forall v, existsb (free_in_t v) q = true -> In v []). { intros x Hx. exfalso. apply existsb_exists in Hx as (t & Ht & Hx). rewrite Forall_forall in Hcs. destruct (Hcs t Ht) as (c & r & -> & _). discriminate. }
      assert (Hc : forall c r, In (Cst c r) q -> C c). { intros c r Hin. rewrite Forall_forall in Hcs. destruct (Hcs _ Hin) as (c' & r' & X & HC). injection X as -> ->. exact HC. }
      destruct (user_atom_spec F C l [] D (su_named _ _ _ Hsu) empty_written types_derived S (fun v => Var (fst v) (snd v)) [] Hty n ss q s h s1 I'' X1 (ext_trans _ _ _ Eb E'') Hfr Hc) as (A1 & A2 & A3 & A4 & A5).
      assert (Hq : map (fun t => value D S t (fun v => Var (fst v) (snd v))) q = q). { clear - Hcs. induction Hcs as [|t q (c & r & -> & _) _ IH]; [reflexivity|]. cbn [map]. now rewrite IH. } rewrite Hq in *.
      split; [exact A4|]. split; [exact A3|]. assert (X := rule_fires F (theta_of [] (fun v => Var (fst v) (snd v))) _ _ (add_rule_spec F _ _ _ _ _ X2 E'') A1 (Forall_nil _)). unfold sat in X. rewrite A1, A2, A5 in X. exact X. }
    intros q Hq. destruct (Forall2_In_l _ _ _ _ G' Hq) as (z & _ & Hz). exact Hz. }
  destruct (Forall2_In_l _ _ _ _ G Hk) as (y & _ & Hy). exact (Hy eq_refl pt Hpt HCs).
Qed.

(** ** One action *)
Section Action.
Variable a : action.
Hypothesis Ha : In a (p_actions p).
Let V := action_variables a.
Let W := param_vars a.
Let HV : well_written l V := su_written _ _ _ Hsu a Ha.
Let HDC : forall v cs c r, In v V -> D (snd v) = Some cs -> In (Cst c r) cs -> C c := fun v cs c r Hv => domain_in_C (snd v) cs c r (proj1 (proj1 HV v Hv)).
Variable e : assignment.
Hypothesis He : forall v, In v W -> exists cs, D (snd v) = Some cs /\ In (e v) cs.
Lemma params_typed : typed V D W e.
Proof. intros v Hv. split; [unfold V, action_variables; rewrite in_app_iff; auto|exact (He v Hv)]. Qed.
Lemma effect_binders eff : In eff (a_effs a) -> incl (effect_variables eff) V.
Proof. intros H v Hv. unfold V, action_variables. rewrite !in_app_iff. right. right. apply in_flat_map. eauto. Qed.
Lemma plain_fine U W' f : plain_formula C U W' f -> incl (binders f) V -> fine C V W' f.
Proof. intros (_ & _ & A & B & _) I. constructor; auto. Qed.
(** a condition: quantifier elimination, then the compiler *)
Lemma condition_sound S c phi st body st' : invariant F C S -> wf c = true -> no_shadowing c = true -> fine C V W c -> remove_quantifiers D MForall c = Ok phi -> inv_ok (c_tr st) -> process_formula ineq phi st = Ok (body, st') -> ext st' F -> true_in D S c e -> Forall (sat F (theta_of V e)) body.
Proof.
  intros HS Hw Hsh Hf Eq I Hp E Ht. pose proof (remove_quantifiers_correct D MForall c (lang_constants_only l) Hw Hsh) as R. rewrite Eq in R. destruct R as (Hw' & _ & _ & Hsem).
  destruct create_parts as [IF _].
  apply (formula_sound F C l V D IF (su_named _ _ _ Hsu) HV types_derived S ineq HS phi st body st' W e I Hp E Hw'); [|exact params_typed|].
  - exact (fine_remove C V D (lang_constants_only l) HDC MForall c W phi Hw Hsh Hf Eq).
  - unfold true_in in *. rewrite (Hsem _ _ (structure_respects l S)). exact Ht.
Qed.
(** one add effect *)
Lemma single_effect S pre c n ss ts st r st1 x st2 : invariant F C S -> wf c = true -> no_shadowing c = true -> fine C V W c -> (forall v, existsb (free_in_t v) ts = true -> In v W) -> (forall c s, In (Cst c s) ts -> C c) ->
  inv_ok (c_tr st) -> process_effect D ineq (EAdd c (Atom (PU n ss) ts)) st = Ok (r, st1) -> add_effect_rule pre r st1 = Ok (x, st2) -> ext st2 F -> Forall (sat F (theta_of V e)) pre -> true_in D S c e ->
  Forall (named F C) (map (fun t => value D S t e) ts) /\ known (c_tr F) ("atom_" ++ n) /\ derives (c_rules F) (sanitize ("atom_" ++ n)) (map lp_name (map (fun t => value D S t e) ts)).
Proof.
  intros HS Hw Hsh Hf Hfr Hc I H1 H2 E Hpre Ht. cbn [process_effect] in H1. apply bnd_inv in H1 as (h & s1 & X1 & H1). apply bnd_inv in H1 as (phi & s2 & X2 & H1). apply lift_inv in X2 as [X2 ->]. apply bnd_inv in H1 as (body & s3 & X3 & H1). apply ret_inv in H1 as [-> ->]. cbn [add_effect_rule] in H2.
  assert (Ea := mono_atom _ _ _ _ _ I X1). assert (Eb := mono_formula ineq phi _ _ _ (ex_inv _ _ Ea) X3). assert (Ec := mono_add_rule _ _ _ _ _ (ex_inv _ _ Eb) H2). assert (EbF := ext_trans _ _ _ Ec E).
  destruct (user_atom_spec F C l V D (su_named _ _ _ Hsu) HV types_derived S e W params_typed n ss ts st h s1 I X1 (ext_trans _ _ _ Eb EbF) Hfr Hc) as (A1 & A2 & A3 & A4 & A5).
  split; [exact A4|]. split; [exact A3|]. assert (Hb := condition_sound S c phi s1 body s3 HS Hw Hsh Hf X2 (ex_inv _ _ Ea) X3 EbF Ht).
  assert (X := rule_fires F (theta_of V e) _ _ (add_rule_spec F _ _ _ _ _ H2 E) A1). unfold sat in X at 2. rewrite A1, A2, A5 in X. apply X. apply Forall_app. auto.
Qed.
End Action.
End Domains.
