(** C49: grounding a problem into operators keeps its plans. *)
From Verif Require Import Base Syntax Semantics SemLemmas SubstSpec SubstProofs NnfProofs Subst QElim QElimProofs FreeVars ListUtil ModelState ModelProofs ModelText Index PropsIndex Lang LangSpec LangProofs LangProofs2 LangProofs3 PropsLang Effects Represent Build BuildProofs Grounding GroundingSpec PropsGrounding
  Asp AspNamesSpec AspSpec AspProofs1 AspProofs2 AspProofs3 AspProofs4 PropsAsp LpGround LpGroundSpec LpGroundProofs3 PropsLpGround PropsLpGround2 OperatorSpec OperatorProofs.
#[local] Open Scope string_scope.

Lemma vars_of_map vs : vars_of (map (fun v : var => Var (fst v) (snd v)) vs) = vs.
Proof. induction vs as [|[x s] vs IH]; cbn; [auto|f_equal; auto]. Qed.
Lemma groundable_params a : groundable a -> param_vars a = vb_values (vb_make (vars_of (a_params a))) /\ a_params a = map (fun v : var => Var (fst v) (snd v)) (param_vars a) /\ NoDup (map fst (param_vars a)).
Proof.
  intros [(vs & E & N) _]. unfold param_vars. rewrite E, vars_of_map. rewrite (vb_make_distinct vs N). auto.
Qed.
Lemma join_listed l : join ", " l = listed l.
Proof. induction l as [|x l IH]; [reflexivity|]. cbn [join listed]. now rewrite IH. Qed.
Lemma NoDup_fst_vars (vs : list var) : NoDup (map fst vs) -> NoDup vs.
Proof. apply NoDup_map_inv. Qed.
Section Instance.
Variables (parse : bool -> string -> option Z) (ops : list lop) (C : cname -> Prop) (p : problem).
Let l := lrun parse ops.
Let D := lang_domains l.
Hypothesis Hn : forallb native ops = true.
Hypothesis Hs : suitable C l p.
Lemma domain_named s cs c : is_plain l s -> D s = Some cs -> In c cs -> exists k s', c = Cst k s' /\ const_of l k s' /\ dget cname_eqb (l_consts l) k = Some (k, s').
Proof.
  intros Hp E Hin. unfold D, lang_domains in E. destruct (lang_domain l s) as [cs'|] eqn:E'; [|discriminate]. injection E as ->. destruct (domain_constants parse ops Hn s cs c Hp E' Hin) as (k & s' & -> & Hc & Hp' & _). exists k, s'. split; [reflexivity|]. split; [exact Hc|].
  destruct (const_dget parse ops k s' Hc) as (sym & Eg). fold l in Eg. rewrite Eg. rewrite (plain_const_name parse ops Hn k sym s' Hp' Eg). reflexivity.
Qed.
Lemma get_const s cs c c' : is_plain l s -> D s = Some cs -> In c cs -> get_constant l (text c) = Ok c' -> c' = c.
Proof.
  intros Hp E Hin Hg. destruct (domain_named s cs c Hp E Hin) as (k & s' & -> & Hc & Eg). unfold get_constant in Hg. destruct (dget cname_eqb (l_consts l) (CStr (text (Cst k s')))) as [[sym srt]|] eqn:Eg'; [|discriminate]. injection Hg as <-.
  assert (Hk : CStr (text (Cst k s')) = k). { apply (proj2 (su_named _ _ _ Hs)); [|exact (su_declared _ _ _ Hs k s' Hc)|reflexivity]. apply (su_declared _ _ _ Hs _ srt). exists sym. apply (dget_Some_In cname_eqb cname_eqb_eq _ _ _ (ii_consts l (lrun_index parse ops))). exact Eg'. }
  rewrite Hk in Eg'. rewrite Eg in Eg'. injection Eg' as <- <-. reflexivity.
Qed.
Definition fits_assignment (a : action) (e : assignment) (g : list string) : Prop := Forall2 (fun v x => (exists cs, D (snd v) = Some cs /\ In (e v) cs) /\ text (e v) = x) (param_vars a) g.
Lemma plain_param a v : In a (p_actions p) -> In v (param_vars a) -> is_plain l (snd v).
Proof. intros Ha Hv. apply (su_written _ _ _ Hs a Ha). unfold action_variables. rewrite in_app_iff. auto. Qed.
Lemma binding_values a e g binding : In a (p_actions p) -> fits_assignment a e g -> mapM (get_constant l) g = Ok binding -> binding = map e (param_vars a).
Proof.
  intros Ha F E. assert (Hp : forall v, In v (param_vars a) -> is_plain l (snd v)) by (intros; eapply plain_param; eauto). apply mapM_Forall2 in E. unfold fits_assignment in F. revert binding E. induction F as [|v x vs g [(cs & E1 & E2) E3] F IH]; intros binding E; inversion E as [|? c ? b Hc Hb]; subst; [reflexivity|]. cbn [map]. f_equal.
  - apply (get_const (snd v) cs (e v)); auto. apply Hp. left. reflexivity.
  - apply IH; auto. intros w Hw. apply Hp. right. exact Hw.
Qed.
Lemma values_const a e g : In a (p_actions p) -> fits_assignment a e g -> forall v, In v (param_vars a) -> exists k s', e v = Cst k s' /\ const_of l k s'.
Proof.
  intros Ha F v Hv. destruct (Forall2_In_l _ _ _ _ F Hv) as (x & _ & (cs & E & Hin) & _). destruct (domain_named (snd v) cs (e v)) as (k & s' & A & B & _); eauto. eapply plain_param; eauto.
Qed.
Lemma instance a e g o : In a (p_actions p) -> groundable a -> fits_assignment a e g -> operator_from_grounding l a g = Ok o -> is_instance D o a e.
Proof.
  intros Ha Hg F Ho. destruct (groundable_params a Hg) as (Epv & Epar & Nd). destruct Hg as (_ & Wf & Opre & Oeffs). assert (Vc := values_const a e g Ha F).
  unfold operator_from_grounding in Ho. destruct (mapM (get_constant l) g) as [binding|] eqn:Eb; [|discriminate]. cbn [bind] in Ho. rewrite (binding_values a e g binding Ha F Eb) in Ho. rewrite <- Epv in Ho.
  rewrite create_substitution_ok in Ho; [|apply forallb_forall; intros x Hx; apply in_map_iff in Hx as (v & <- & _); reflexivity|now rewrite !map_length]. rewrite vars_of_map in Ho. cbn [bind] in Ho. fold (values_of (param_vars a) e) in Ho. set (s := values_of (param_vars a) e) in *.
  assert (HsP : forall x t, In (x, t) s -> In x (param_vars a) /\ exists c r, t = Cst c r). { intros x t Hin. apply values_In in Hin as [Hx ->]. split; [exact Hx|]. destruct (Vc x Hx) as (k & s' & -> & _). eauto. }
  assert (Lk : forall v, In v (param_vars a) -> get_t (sub_t (of_vars s)) (Var (fst v) (snd v)) = Some (e v)) by (intros [x r] Hv; rewrite get_t_of_vars; now apply values_lookup).
  unfold ground_operator in Ho. destruct (forallb _ (param_vars a)) eqn:Ef in Ho; [|discriminate]. destruct (operator_name a (of_vars s)) as [name|] eqn:En; [|discriminate]. cbn [bind] in Ho. destruct (ground_schema _ (of_vars s)) as [[pre effs]|] eqn:Egs in Ho; [|discriminate]. cbn [bind fst snd] in Ho. injection Ho as <-.
  split.
  { cbn [o_name]. unfold operator_name in En. destruct (mapM _ (param_vars a)) as [names|] eqn:Em in En; [|discriminate]. cbn [bind] in En. injection En as <-. unfold instance_name. rewrite join_listed. apply (f_equal (fun z => a_name a ++ "(" ++ listed z ++ ")")).
    apply mapM_Forall2 in Em. clearbody s. clear - Em Lk Vc. induction Em as [|v x vs ns Hx Em IH]; [reflexivity|]. cbn [map]. rewrite IH; [|intros w Hw; first [apply Vc; right; exact Hw|apply Lk; right; exact Hw]..]. f_equal. rewrite Lk in Hx by (left; reflexivity). destruct (Vc v (or_introl eq_refl)) as (k & s' & E & _). rewrite E in *. destruct k; [|discriminate]. injection Hx as <-. reflexivity. }
  unfold ground_schema in Egs. cbn [a_params a_pre a_effs] in Egs. destruct (forallb _ (map _ (param_vars a))) in Egs; [|discriminate]. destruct (mapM (subst_effect (of_vars s)) (a_effs a)) as [effs'|] eqn:Ee; [|discriminate]. cbn [bind] in Egs. destruct (flatten (subst_formula (of_vars s) (a_pre a))) as [pre'|] eqn:Efl; [|discriminate]. cbn [bind] in Egs. injection Egs as -> ->. cbn [o_pre o_effs].
  intros S e0. assert (Ag : forall v, In v (param_vars a) -> env_subst (M := structure_of D S) s e0 v = e v). { intros v Hv. unfold env_subst. unfold s. rewrite values_lookup by exact Hv. destruct (Vc v Hv) as (k & s' & -> & _). reflexivity. }
  split.
  - assert (W : wf (subst_formula (of_vars s) (a_pre a)) = true). { assert (Wt : forall x t, In (x, t) s -> wf_term t = true) by (intros x t H; destruct (HsP x t H) as [_ (c & r & ->)]; reflexivity). apply (proj2 (subst_wf_both s Wt)); [exact (over_clash _ _ _ s Opre HsP)|exact Wf]. }
    destruct (flatten_correct _ W) as (g' & Eg & _ & Eq & _). rewrite Efl in Eg. injection Eg as <-. unfold true_in at 1. rewrite <- (Eq (structure_of D S) e0). fold (true_in D S (subst_formula (of_vars s) (a_pre a)) e0). rewrite (true_sub D S (param_vars a) s HsP (param_vars a) _ e0 Opre). apply (true_agree D S (param_vars a) (param_vars a) _ _ _ Opre Ag).
  - apply mapM_Forall2 in Ee. rewrite Forall_forall in Oeffs. intros n ss pt. split; split; intros (eff & Hin & H).
    + destruct (Forall2_In_r _ _ _ _ Ee Hin) as (eff0 & Hin0 & E0). exists eff0. split; [exact Hin0|]. apply (adds_agree D S (param_vars a) eff0 (param_vars a) (env_subst (M := structure_of D S) s e0)); [auto|exact Ag|]. apply (adds_sub D S (param_vars a) s HsP eff0 (param_vars a) eff e0 n ss pt (Oeffs _ Hin0) E0). exact H.
    + destruct (Forall2_In_l _ _ _ _ Ee Hin) as (eff' & Hin' & E'). exists eff'. split; [exact Hin'|]. apply (adds_sub D S (param_vars a) s HsP eff (param_vars a) eff' e0 n ss pt (Oeffs _ Hin) E'). apply (adds_agree D S (param_vars a) eff (param_vars a) e); [auto|intros v Hv; symmetry; auto|exact H].
    + destruct (Forall2_In_r _ _ _ _ Ee Hin) as (eff0 & Hin0 & E0). exists eff0. split; [exact Hin0|]. apply (deletes_agree D S (param_vars a) eff0 (param_vars a) (env_subst (M := structure_of D S) s e0)); [auto|exact Ag|]. apply (deletes_sub D S (param_vars a) s HsP eff0 (param_vars a) eff e0 n ss pt (Oeffs _ Hin0) E0). exact H.
    + destruct (Forall2_In_l _ _ _ _ Ee Hin) as (eff' & Hin' & E'). exists eff'. split; [exact Hin'|]. apply (deletes_sub D S (param_vars a) s HsP eff (param_vars a) eff' e0 n ss pt (Oeffs _ Hin) E'). apply (deletes_agree D S (param_vars a) eff (param_vars a) e); [auto|intros v Hv; symmetry; auto|exact H].
Qed.
End Instance.
Lemma mapS_each {A B} (f : A -> M B) xs : forall st ys st', mapS f xs st = Ok (ys, st') -> forall x, In x xs -> exists s1 y s2, f x s1 = Ok (y, s2).
Proof.
  induction xs as [|x xs IH]; intros st ys st' H z Hz; [destruct Hz|]. cbn [mapS] in H. apply bnd_inv in H as (y & st1 & H1 & H). apply bnd_inv in H as (ys' & st2 & H2 & _). destruct Hz as [<-|Hz]; [eauto|exact (IH _ _ _ H2 z Hz)].
Qed.
Lemma string_names parse ops ga ineq p P t : create_reachability_lp (lrun parse ops) ga ineq p = Ok (P, t) -> forall c sym s, In (c, (sym, s)) (l_consts (lrun parse ops)) -> exists n, sym = CStr n.
Proof.
  intros Hcr c sym s Hin. destruct (create_lp_inv _ _ _ _ _ _ Hcr) as (u & F & HF & _ & _). destruct (create_parts parse ops ga ineq p F u HF) as [_ (st1 & _ & _ & _ & _ & u1 & _ & _ & _ & H1 & _)].
  destruct (mapS_each type_fact _ _ _ _ H1 (Cst sym s)) as (s1 & y & s2 & H); [unfold lang_constants; apply in_map_iff; exists (c, (sym, s)); auto|]. destruct sym as [n|z]; [eauto|]. exfalso. unfold type_fact in H. apply bnd_inv in H as (a & st2 & H & _). cbn [lp_type_atom] in H. apply bnd_inv in H as (n & st3 & H & _). discriminate H.
Qed.
Lemma operators_In l acts gs : forall os, operators_of l acts gs = Ok os ->
  forall o, In o os <-> exists name xs a x, In (name, xs) gs /\ find (fun a => String.eqb (a_name a) name) acts = Some a /\ In x xs /\ operator_from_grounding l a x = Ok o.
Proof.
  induction gs as [|[name xs] gs IH]; intros os H o; cbn [operators_of] in H.
  - injection H as <-. split; [intros []|intros (? & ? & ? & ? & [] & _)].
  - destruct (find _ acts) as [a|] eqn:Ef; [|discriminate]. destruct (mapM (operator_from_grounding l a) xs) as [os1|] eqn:E1; [|discriminate]. cbn [bind] in H. destruct (operators_of l acts gs) as [os2|] eqn:E2; [|discriminate]. cbn [bind] in H. injection H as <-. rewrite in_app_iff, (IH os2 eq_refl). apply mapM_Forall2 in E1. split.
    + intros [H|(n & ys & b & x & A & B)]; [|exists n, ys, b, x; split; [right; exact A|exact B]]. destruct (Forall2_In_r _ _ _ _ E1 H) as (x & Hx & Ex). exists name, xs, a, x. split; [left; reflexivity|auto].
    + intros (n & ys & b & x & [A|A] & B & X & Y); [|right; exists n, ys, b, x; auto]. injection A as <- <-. rewrite Ef in B. injection B as <-. left. destruct (Forall2_In_l _ _ _ _ E1 X) as (o' & Ho' & Eo). congruence.
Qed.
Lemma operators_total l acts gs : (forall name xs, In (name, xs) gs -> exists a, find (fun a => String.eqb (a_name a) name) acts = Some a /\ forall x, In x xs -> exists o, operator_from_grounding l a x = Ok o) -> exists os, operators_of l acts gs = Ok os.
Proof.
  induction gs as [|[name xs] gs IH]; intros H; [exists []; reflexivity|]. destruct (H name xs (or_introl eq_refl)) as (a & Ef & Hx). destruct IH as (os2 & E2); [intros n ys Hin; apply H; right; exact Hin|]. cbn [operators_of]. rewrite Ef.
  assert (E1 : exists os1, mapM (operator_from_grounding l a) xs = Ok os1). { clear - Hx. induction xs as [|x xs IH]; [exists []; reflexivity|]. destruct (Hx x (or_introl eq_refl)) as (o & Eo). destruct IH as (os & E); [intros y Hy; apply Hx; right; exact Hy|]. exists (o :: os). rewrite mapM_cons', Eo, E. reflexivity. }
  destruct E1 as (os1 & E1). rewrite E1. cbn [bind]. rewrite E2. cbn [bind]. eauto.
Qed.
Lemma find_named acts a : NoDup (map a_name acts) -> In a acts -> find (fun b => String.eqb (a_name b) (a_name a)) acts = Some a.
Proof.
  induction acts as [|b acts IH]; intros N H; [destruct H|]. cbn [map] in N. inversion N as [|? ? N1 N2]; subst. cbn [find]. destruct (String.eqb (a_name b) (a_name a)) eqn:E.
  - apply String.eqb_eq in E. destruct H as [->|H]; [reflexivity|]. exfalso. apply N1. rewrite E. now apply in_map.
  - destruct H as [->|H]; [rewrite String.eqb_refl in E; discriminate|auto].
Qed.
Lemma choose_assignment D (vs : list var) xs : NoDup vs -> Forall2 (fun v x => names_constant D (snd v) x) vs xs -> exists e : assignment, Forall2 (fun v x => (exists cs, D (snd v) = Some cs /\ In (e v) cs) /\ text (e v) = x) vs xs.
Proof.
  intros N F. induction F as [|v x vs xs (cs & c & E & Hin & Et) F IH]; [exists (fun _ => Cst (CStr "") ""); constructor|]. inversion N as [|? ? N1 N2]; subst. destruct (IH N2) as (e & He). exists (fun w => if var_eqb w v then c else e w). constructor.
  - assert (Ev : var_eqb v v = true) by now apply var_eqb_eq. rewrite Ev. split; [exists cs; auto|reflexivity].
  - clear - He N1. induction He as [|w y vs xs Hw He IH]; constructor; [|apply IH; intros X; apply N1; right; exact X]. destruct (var_eqb w v) eqn:Ew; [apply var_eqb_eq in Ew; subst; exfalso; apply N1; left; reflexivity|exact Hw].
Qed.

Section Main.
Variables (parse : bool -> string -> option Z) (ops : list lop) (C : cname -> Prop) (p : problem) (ineq : bool) (gringo : list rule -> res string) (P : list rule) (t : trans).
Let l := lrun parse ops.
Let D := lang_domains l.
Hypothesis Hn : forallb native ops = true.
Hypothesis Hs : suitable C l p.
Hypothesis Hcl : clear_names l p.
Hypothesis Hcr : create_reachability_lp l true ineq p = Ok (P, t).
Hypothesis Hans : forall txt, gringo P = Ok txt -> answers P txt.
Hypothesis Hnames : NoDup (map a_name (p_actions p)).
Hypothesis Hgr : forall a, In a (p_actions p) -> groundable a.
Lemma get_total s cs c : is_plain l s -> D s = Some cs -> In c cs -> get_constant l (text c) = Ok c.
Proof.
  intros Hp E Hin. destruct (domain_named parse ops Hn s cs c Hp E Hin) as (k & s' & -> & Hc & Eg). destruct Hc as (sym & Hc). destruct (string_names parse ops true ineq p P t Hcr k sym s' Hc) as (n & ->).
  assert (Eg' : dget cname_eqb (l_consts l) k = Some (CStr n, s')) by (apply (dget_Some_In cname_eqb cname_eqb_eq _ _ _ (ii_consts l (lrun_index parse ops))); exact Hc). fold l in Eg. rewrite Eg in Eg'. injection Eg' as ->. unfold get_constant. cbn [text name_text]. rewrite Eg. reflexivity.
Qed.
Lemma operator_total a e g : In a (p_actions p) -> fits_assignment parse ops a e g -> exists o, operator_from_grounding l a g = Ok o.
Proof.
  intros Ha F. assert (Hg := Hgr a Ha). destruct (groundable_params a Hg) as (Epv & Epar & Nd). destruct Hg as (_ & Wf & Opre & Oeffs). assert (Vc := values_const parse ops C p Hn Hs a e g Ha F).
  assert (Vs : forall v, In v (param_vars a) -> exists n s', e v = Cst (CStr n) s'). { intros v Hv. destruct (Vc v Hv) as (k & s' & E & (sym & Hc)). destruct (string_names parse ops true ineq p P t Hcr k sym s' Hc) as (n & ->). destruct (Forall2_In_l _ _ _ _ F Hv) as (x & _ & (cs & E1 & E2) & _). destruct (domain_named parse ops Hn (snd v) cs (e v) (plain_param parse ops C p Hs a v Ha Hv) E1 E2) as (k' & s2 & E3 & _ & Eg). rewrite E in E3. injection E3 as <- <-. apply (dget_Some_In cname_eqb cname_eqb_eq _ _ _ (ii_consts l (lrun_index parse ops))) in Hc. fold l in Eg. rewrite Eg in Hc. injection Hc as ->. eauto. }
  assert (Eb : mapM (get_constant l) g = Ok (map e (param_vars a))). { assert (Hp : forall v, In v (param_vars a) -> is_plain l (snd v)) by (intros v Hv; exact (plain_param parse ops C p Hs a v Ha Hv)). unfold fits_assignment in F. clear - F Hp Hn Hs Hcr l D. induction F as [|v x vs g [(cs & E1 & E2) E3] F IH]; [reflexivity|]. rewrite mapM_cons'. subst x. rewrite (get_total (snd v) cs (e v)); auto; [|apply Hp; left; reflexivity]. rewrite IH; [reflexivity|]. intros w Hw. apply Hp. right. exact Hw. }
  unfold operator_from_grounding. rewrite Eb. cbn [bind]. rewrite <- Epv.
  rewrite create_substitution_ok; [|apply forallb_forall; intros x Hx; apply in_map_iff in Hx as (v & <- & _); reflexivity|now rewrite !map_length]. rewrite vars_of_map. cbn [bind]. fold (values_of (param_vars a) e). set (s := values_of (param_vars a) e) in *.
  assert (HsP : forall x t, In (x, t) s -> In x (param_vars a) /\ exists c r, t = Cst c r). { intros x u Hin. apply values_In in Hin as [Hx ->]. split; [exact Hx|]. destruct (Vs x Hx) as (k & s' & ->). eauto. }
  assert (Lk : forall v, In v (param_vars a) -> get_t (sub_t (of_vars s)) (Var (fst v) (snd v)) = Some (e v)) by (intros [x r] Hv; rewrite get_t_of_vars; now apply values_lookup).
  unfold ground_operator. assert (A1 : forallb (fun v : var => match get_t (sub_t (of_vars s)) (Var (fst v) (snd v)) with Some (Cst _ _) => true | _ => false end) (param_vars a) = true) by (apply forallb_forall; intros v Hv; rewrite (Lk v Hv); destruct (Vs v Hv) as (n & s' & ->); reflexivity). rewrite A1.
  assert (A2 : exists name, operator_name a (of_vars s) = Ok name). { unfold operator_name. assert (X : exists ns, mapM (fun v : var => match get_t (sub_t (of_vars s)) (Var (fst v) (snd v)) with Some (Cst (CStr n) _) => Ok n | Some (Cst (CInt _) _) => Err TypeError | _ => Err RuntimeError end) (param_vars a) = Ok ns). { clearbody s. clear - Lk Vs. induction (param_vars a) as [|v vs IH]; [exists []; reflexivity|]. destruct IH as (ns & E); [intros w Hw; apply Vs; right; exact Hw|intros w Hw; apply Lk; right; exact Hw|]. destruct (Vs v (or_introl eq_refl)) as (n & s' & Ev). exists (n :: ns). rewrite mapM_cons', (Lk v (or_introl eq_refl)), Ev, E. reflexivity. } destruct X as (ns & ->). cbn [bind]. eauto. }
  destruct A2 as (name & ->). cbn [bind]. unfold ground_schema. cbn [a_params a_effs a_pre].
  assert (A3 : forallb (fun x => match get_t (sub_t (of_vars s)) x with Some (Cst _ _) => true | _ => false end) (map (fun v : var => Var (fst v) (snd v)) (param_vars a)) = true) by (apply forallb_forall; intros x Hx; apply in_map_iff in Hx as (v & <- & Hv); rewrite (Lk v Hv); destruct (Vs v Hv) as (n & s' & ->); reflexivity). rewrite A3.
  assert (A4 : forall es, Forall (effect_over (param_vars a) (param_vars a)) es -> exists es', mapM (subst_effect (of_vars s)) es = Ok es').
  { assert (T : forall eff V, effect_over (param_vars a) V eff -> exists eff', subst_effect (of_vars s) eff = Ok eff').
    { clear. induction eff as [c f|c f|i c x r|c vs es IH|c f|c] using effect_ind_nested; intros V H; cbn [subst_effect]; eauto; [|destruct H]. cbn [effect_over] in H. destruct H as (_ & _ & _ & H). rewrite fold_Forall in H.
      assert (X : exists es', mapM (subst_effect (of_vars s)) es = Ok es'). { induction es as [|x es IHe]; [exists []; reflexivity|]. inversion IH; subst. inversion H; subst. match goal with H1 : forall V, effect_over _ V x -> _, H2 : effect_over _ _ x |- _ => destruct (H1 _ H2) as (x' & Ex) end. destruct IHe as (es' & E); auto. exists (x' :: es'). rewrite mapM_cons', Ex, E. reflexivity. } destruct X as (es' & ->). cbn [bind]. eauto. }
    intros es H. induction H as [|x es Hx H IH]; [exists []; reflexivity|]. destruct (T x _ Hx) as (x' & Ex). destruct IH as (es' & E). exists (x' :: es'). rewrite mapM_cons', Ex, E. reflexivity. }
  destruct (A4 _ Oeffs) as (effs & ->). cbn [bind].
  assert (W : wf (subst_formula (of_vars s) (a_pre a)) = true). { assert (Wt : forall x t, In (x, t) s -> wf_term t = true) by (intros x u H; destruct (HsP x u H) as [_ (c & r & ->)]; reflexivity). apply (proj2 (subst_wf_both s Wt)); [exact (over_clash _ _ _ s Opre HsP)|exact Wf]. }
  destruct (flatten_correct _ W) as (g' & -> & _). cbn [bind]. eauto.
Qed.
Variable os : list operator.
Hypothesis Hos : ground_into_operators gringo l p ineq = Ok os.
Lemma operators_instances : forall o, In o os -> exists a e, In a (p_actions p) /\ (forall v, In v (param_vars a) -> exists cs, D (snd v) = Some cs /\ In (e v) cs) /\ is_instance D o a e.
Proof.
  intros o Ho. unfold ground_into_operators in Hos. destruct (new_strategy l p true ineq) as [g|] eqn:Eg; [|discriminate]. cbn [bind] in Hos. destruct (lp_ground_actions gringo g) as [[gs|] g'] eqn:El; [|discriminate]. cbn [fst bind] in Hos.
  destruct (C48_actions parse ops C p ineq gringo P t Hn Hs Hcl Hcr Hans g g' gs Eg El) as (A1 & A2 & _). apply (operators_In _ _ _ _ Hos) in Ho as (name & xs & a & x & Hin & Hf & Hx & Eo). destruct (A2 name xs Hin) as (_ & _ & A3). destruct (A3 x Hx) as (a' & Ha' & <- & F).
  rewrite (find_named _ _ Hnames Ha') in Hf. injection Hf as <-. destruct (groundable_params _ (Hgr _ Ha')) as (_ & _ & Nd). destruct (choose_assignment D (param_vars a') x (NoDup_map_inv _ _ Nd) F) as (e & He). exists a', e. split; [exact Ha'|]. split.
  - intros v Hv. destruct (Forall2_In_l _ _ _ _ He Hv) as (y & _ & H & _). exact H.
  - exact (instance parse ops C p Hn Hs a' e x o Ha' (Hgr _ Ha') He Eo).
Qed.
Lemma operators_cover : forall S a e, reachable D p S -> In a (p_actions p) -> applicable D S a e -> exists o, In o os /\ is_instance D o a e.
Proof.
  intros S a e Hr Ha Hap. unfold ground_into_operators in Hos. destruct (new_strategy l p true ineq) as [g|] eqn:Eg; [|discriminate]. cbn [bind] in Hos. destruct (lp_ground_actions gringo g) as [[gs|] g'] eqn:El; [|discriminate]. cbn [fst bind] in Hos.
  destruct (C48_actions parse ops C p ineq gringo P t Hn Hs Hcl Hcr Hans g g' gs Eg El) as (_ & _ & A3). destruct (A3 S a e Hr Ha Hap) as (xs & Hin & Hx). set (x := map (fun v => text (e v)) (param_vars a)) in *.
  assert (F : fits_assignment parse ops a e x). { unfold fits_assignment, x. destruct Hap as [Ht _]. fold l. fold D. clear - Ht. induction (param_vars a) as [|v vs IH]; cbn [map]; constructor; [|apply IH; intros w Hw; apply Ht; right; exact Hw]. split; [apply Ht; left; reflexivity|reflexivity]. }
  destruct (operator_total a e x Ha F) as (o & Eo). exists o. split; [|exact (instance parse ops C p Hn Hs a e x o Ha (Hgr _ Ha) F Eo)]. apply (operators_In _ _ _ _ Hos). exists (a_name a), xs, a, x. split; [exact Hin|]. split; [exact (find_named _ _ Hnames Ha)|auto].
Qed.
Lemma plans_same e0 : forall names S S', reachable D p S -> operator_plan D os e0 S names S' <-> lifted_plan D p S names S'.
Proof.
  assert (Suc : forall o a e S S1, is_instance D o a e -> operator_successor D e0 S o S1 <-> successor_of D S a e S1).
  { intros o a e S S1 [_ H]. unfold operator_successor, successor_of. destruct (H S e0) as [_ X]. split; intros Y n ss pt; specialize (Y n ss pt); destruct (X n ss pt) as [X1 X2]; [rewrite <- X1, <- X2|rewrite X1, X2]; exact Y. }
  induction names as [|name names IH]; intros S S' Hr.
  - split; intros H; inversion H; subst; constructor.
  - split; intros H.
    + inversion H as [|? o S1 ? ? Ho Hp Hst Hrest]; subst. destruct (operators_instances o Ho) as (a & e & Ha & Ht & Hi). assert (Hi' := Hi). destruct Hi' as [En Hsem]. rewrite En. assert (Hap : applicable D S a e) by (split; [exact Ht|apply (Hsem S e0); exact Hp]). apply (Suc o a e S S1 Hi) in Hst. eapply lifted_step; eauto. apply IH; [eapply reachable_step; eauto|exact Hrest].
    + inversion H as [|? a e S1 ? ? Ha Hap Hst Hrest]; subst. destruct (operators_cover S a e Hr Ha Hap) as (o & Ho & Hi). assert (Hi' := Hi). destruct Hi' as [En Hsem]. rewrite <- En. eapply operator_step with (S1 := S1); [exact Ho|apply (Hsem S e0); apply Hap|apply (Suc o a e S S1 Hi); exact Hst|]. apply IH; [eapply reachable_step; eauto|exact Hrest].
Qed.
End Main.

(** ** Every operator is an instance of an action with constants of the parameters' sorts, and every instance that is applicable in a reachable state is one of the operators. *)
Theorem C49_operators : forall parse ops C p ineq gringo P t, let l := lrun parse ops in forallb native ops = true -> suitable C l p -> clear_names l p -> create_reachability_lp l true ineq p = Ok (P, t) ->
  (forall txt, gringo P = Ok txt -> answers P txt) -> NoDup (map a_name (p_actions p)) -> (forall a, In a (p_actions p) -> groundable a) ->
  forall os, ground_into_operators gringo l p ineq = Ok os ->
  (forall o, In o os -> exists a e, In a (p_actions p) /\ (forall v, In v (param_vars a) -> exists cs, lang_domains l (snd v) = Some cs /\ In (e v) cs) /\ is_instance (lang_domains l) o a e) /\
  (forall S a e, reachable (lang_domains l) p S -> In a (p_actions p) -> applicable (lang_domains l) S a e -> exists o, In o os /\ is_instance (lang_domains l) o a e).
Proof.
  intros parse ops C p ineq gringo P t l Hn Hs Hcl Hcr Ha Hnm Hg os Hos. split.
  - exact (operators_instances parse ops C p ineq gringo P t Hn Hs Hcl Hcr Ha Hnm Hg os Hos).
  - exact (operators_cover parse ops C p ineq gringo P t Hn Hs Hcl Hcr Ha Hnm Hg os Hos).
Qed.
Print Assumptions C49_operators.
(** ** From the initial state, the plans of the operators are exactly the plans of the problem, with the same names and the same final states; so a goal is reached by the one exactly if it is by the other. *)
Theorem C49_plans : forall parse ops C p ineq gringo P t, let l := lrun parse ops in forallb native ops = true -> suitable C l p -> clear_names l p -> create_reachability_lp l true ineq p = Ok (P, t) ->
  (forall txt, gringo P = Ok txt -> answers P txt) -> NoDup (map a_name (p_actions p)) -> (forall a, In a (p_actions p) -> groundable a) ->
  forall os, ground_into_operators gringo l p ineq = Ok os ->
  forall e0 S names S', (forall n ss pt, true_atoms S (PU n ss) pt = m_holds (p_init p) (PU n ss) pt) ->
    (operator_plan (lang_domains l) os e0 S names S' <-> lifted_plan (lang_domains l) p S names S').
Proof.
  intros parse ops C p ineq gringo P t l Hn Hs Hcl Hcr Ha Hnm Hg os Hos e0 S names S' Hi. apply (plans_same parse ops C p ineq gringo P t Hn Hs Hcl Hcr Ha Hnm Hg os Hos). constructor. exact Hi.
Qed.
Print Assumptions C49_plans.
(** ** The operators are there whenever the ground actions are. *)
Theorem C49_total : forall parse ops C p ineq gringo P t, let l := lrun parse ops in forallb native ops = true -> suitable C l p -> clear_names l p -> create_reachability_lp l true ineq p = Ok (P, t) ->
  (forall txt, gringo P = Ok txt -> answers P txt) -> NoDup (map a_name (p_actions p)) -> (forall a, In a (p_actions p) -> groundable a) ->
  forall g gs g', new_strategy l p true ineq = Ok g -> lp_ground_actions gringo g = (Ok gs, g') -> exists os, ground_into_operators gringo l p ineq = Ok os.
Proof.
  intros parse ops C p ineq gringo P t l Hn Hs Hcl Hcr Ha Hnm Hg g gs g' Eg El. unfold ground_into_operators. rewrite Eg. cbn [bind]. rewrite El. cbn [fst bind]. destruct (C48_actions parse ops C p ineq gringo P t Hn Hs Hcl Hcr Ha g g' gs Eg El) as (A1 & A2 & _).
  apply operators_total. intros name xs Hin. assert (Hname : In name (map a_name (p_actions p))) by (rewrite <- A1; exact (in_map fst _ _ Hin)). apply in_map_iff in Hname as (a & <- & Hin'). exists a. split; [exact (find_named _ _ Hnm Hin')|]. intros x Hx. destruct (A2 _ _ Hin) as (_ & _ & A3). destruct (A3 x Hx) as (a' & Ha' & En & F).
  assert (E : a' = a) by (assert (X := find_named _ _ Hnm Ha'); rewrite En, (find_named _ _ Hnm Hin') in X; congruence). subst a'. destruct (groundable_params _ (Hg _ Hin')) as (_ & _ & Nd). destruct (choose_assignment (lang_domains l) (param_vars a) x (NoDup_map_inv _ _ Nd) F) as (e & He).
  exact (operator_total parse ops C p ineq P t Hn Hs Hcr Hg a e x Hin' He).
Qed.
Print Assumptions C49_total.
(** The case of PropsLpGround2.v: one operator, go(loc-1), and a plan with it *)
Theorem C49_nonvacuous : forallb native opsG = true /\ suitable namesG langG probG /\ clear_names langG probG /\ (exists t, create_reachability_lp langG true false probG = Ok (fst (rulesG probG), t)) /\
  (forall txt, solverG probG (fst (rulesG probG)) = Ok txt -> answers (fst (rulesG probG)) txt) /\ NoDup (map a_name (p_actions probG)) /\ (forall a, In a (p_actions probG) -> groundable a) /\
  (exists os, ground_into_operators (solverG probG) langG probG false = Ok os /\ map o_name os = ["go(loc-1)"]) /\
  (forall n ss pt, true_atoms startG (PU n ss) pt = m_holds (p_init probG) (PU n ss) pt) /\ lifted_plan (lang_domains langG) probG startG ["go(loc-1)"] afterG.
Proof.
  destruct C48_nonvacuous as (A1 & A2 & A3 & A4 & A5 & _). split; [exact A1|]. split; [exact A2|]. split; [exact A3|]. split; [exact A4|]. split; [exact A5|]. split; [repeat constructor; intros []|].
  split.
  { intros a [<-|[]]. split; [exists [("?p", "place")]; split; [reflexivity|repeat constructor; intros []]|]. split; [reflexivity|]. split; [split; [intros v Hv; discriminate Hv|intros v _ []]|]. apply Forall_cons; [|apply Forall_nil]. split; [split; [intros v Hv; discriminate Hv|intros v _ []]|]. split; [|intros v _ []]. intros v Hv. cbn in Hv. rewrite orb_false_r in Hv. apply var_eqb_eq in Hv. left. auto. }
  split; [eexists; split; vm_compute; reflexivity|]. split; [reflexivity|].
  assert (R := reachableG). change "go(loc-1)" with (instance_name go (fun _ => loc1G)). eapply lifted_step with (S1 := afterG); [left; reflexivity| |exact successorG|constructor].
  split; [|reflexivity]. intros v [<-|[]]. eexists. split; [reflexivity|vm_compute; auto].
Qed.
Print Assumptions C49_nonvacuous.
