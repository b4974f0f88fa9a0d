(** The derived atoms of types, actions and the goal. *)
From Coq Require Import Ascii.
From Verif Require Import Base Syntax Semantics SemLemmas NnfProofs Subst QElim QElimProofs FreeVars ModelState ModelProofs ModelText Lang LangSpec LangProofs LangProofs2 LangProofs3 PropsLang Effects Represent Grounding Asp AspNamesSpec AspSpec PropsAspNames AspProofs1 AspProofs2 AspProofs3 LpGround LpGroundSpec LpGroundProofs2.
#[local] Open Scope string_scope.

Lemma mapM_cons' {A B} (f : A -> res B) x l : mapM f (x :: l) = match f x with Err e => Err e | Ok y => match mapM f l with Err e => Err e | Ok ys => Ok (y :: ys) end end.
Proof. reflexivity. Qed.
Section Program.
Variables (l : lang) (ga ineq : bool) (p : problem) (F : cstate) (u : unit).
Let T := c_tr F.
Let D := lang_domains l.
Hypothesis HF : create_rules l ga ineq p {| c_tr := trans0; c_aux := 0; c_rules := [] |} = Ok (u, F).
Hypothesis HT : inv_ok T.
Inductive shape (r : rule) : Prop :=
| sh_plain : plain_rule r -> shape r
| sh_fact c s : In (Cst c s) (lang_constants l) -> type_of F (Cst c s) (r_head r) -> r_body r = [] -> shape r
| sh_sort s q : is_plain l s -> parent_of l s = Some q -> is_atom_of F ("type_" ++ q) ["X"] (r_head r) -> (exists b, is_atom_of F ("type_" ++ s) ["X"] b /\ r_body r = [b]) -> shape r
| sh_action a names types body : In a (p_actions p) -> mapM process_term (var_terms (param_vars a)) = Ok names -> is_atom_of F ("action_" ++ a_name a) names (r_head r) ->
    Forall2 (type_of F) (var_terms (param_vars a)) types -> r_body r = (types ++ body)%list -> shape r
| sh_goal : is_atom_of F "goal" [] (r_head r) -> shape r.
Lemma plain_shape {A} (m : M A) : emits F plain_rule (fun _ => True) m -> emits F shape (fun _ => True) m.
Proof. apply emits_weaken; [intros r; apply sh_plain|auto]. Qed.
Lemma aux_shape {A} (m : M A) : emits F aux_rule (fun _ => True) m -> emits F shape (fun _ => True) m.
Proof. apply emits_weaken; [intros r H; apply sh_plain; left; exact H|auto]. Qed.
Lemma emits_type_fact c : In c (lang_constants l) -> emits F shape (fun _ => True) (type_fact c).
Proof.
  intros H. unfold type_fact. eapply emits_bnd; [apply mono_type|intros; apply mono_add_rule|apply emits_type|]. intros a Ha. apply emits_add_rule. destruct c as [x s|c s| |]; try contradiction; [|exact (sh_fact {| r_head := a; r_body := [] |} c s H Ha eq_refl)].
  exfalso. unfold lang_constants in H. apply in_map_iff in H as (kv & E & _). discriminate.
Qed.
Lemma emits_sort_rule s r : In (s, r) (l_sorts l) -> emits F shape (fun _ => True) (sort_rule l s r).
Proof.
  intros H. unfold sort_rule. destruct (s_kind r) eqn:K; [|now apply emits_ret]. destruct (sget (l_parent l) s) as [[q|]|] eqn:E; [|now apply emits_ret|apply emits_fail].
  eapply emits_bnd; [apply mono_lift| |apply emits_lift|].
  { intros [|t d]; [apply mono_ret|]. apply mono_bnd; [apply mono_lp_atom, type_prefix|]. intros. apply mono_bnd; [apply mono_lp_atom, type_prefix|]. intros. apply mono_add_rule. }
  intros [|t d] _; [now apply emits_ret|]. eapply emits_bnd; [apply mono_lp_atom, type_prefix| |exact (emits_lp_atom F shape q ["X"] "type" type_prefix)|].
  { intros. apply mono_bnd; [apply mono_lp_atom, type_prefix|]. intros. apply mono_add_rule. }
  intros h Hh. eapply emits_bnd; [apply mono_lp_atom, type_prefix|intros; apply mono_add_rule|exact (emits_lp_atom F shape s ["X"] "type" type_prefix)|]. intros b Hb. apply emits_add_rule.
  apply (sh_sort {| r_head := h; r_body := [b] |} s q); [exists r; auto|unfold parent_of; now rewrite E|exact Hh|exists b; split; [exact Hb|reflexivity]].
Qed.
Lemma emits_init s pt : emits F shape (fun _ => True) (init_atom s pt).
Proof.
  destruct s as [[|] [|n ss]]; cbn [init_atom]; try apply emits_fail. eapply emits_bnd; [apply mono_atom|intros; apply mono_add_rule|apply emits_atom|]. intros h Hh. apply emits_add_rule. apply sh_plain. right. exact Hh.
Qed.
Lemma emits_init_functions cost m : emits F shape (fun _ => True) (init_functions cost m).
Proof.
  assert (Mo : forall (ke : signature * list (list term * term)) x, In x (snd ke) -> mono ((fun _ : list term * term => let n := sig_name (fst ke) in if String.eqb n "total-cost" || existsb (String.eqb n) cost then ret tt else fail RuntimeError) x)).
  { intros ke x _. cbv zeta. match goal with |- mono (if ?b then _ else _) => destruct b end; [apply mono_ret|apply mono_fail]. }
  unfold init_functions. eapply emits_bnd; [apply mono_mapS; intros ke _; apply mono_mapS; exact (Mo ke)|intros; apply mono_ret| |intros; now apply emits_ret].
  eapply emits_weaken; [intros r H; exact H|intros a _; exact I|]. apply (emits_mapS F shape (fun _ _ => True)); [intros ke _; apply mono_mapS; exact (Mo ke)|]. intros ke _. eapply emits_weaken; [intros r H; exact H|intros a _; exact I|].
  apply (emits_mapS F shape (fun _ _ => True)); [exact (Mo ke)|]. intros x _. cbv zeta. match goal with |- emits _ _ _ (if ?b then _ else _) => destruct b end; [now apply emits_ret|apply emits_fail].
Qed.
Ltac mon := first [apply mono_ret|apply mono_fail|apply mono_lift|apply mono_add_rule|apply mono_type|apply mono_formula|apply mono_expanded|apply mono_effect_and_rule|(apply mono_lp_atom; first [exact action_prefix|exact no_hyphen_empty])|(apply mono_mapS; intros; mon)|(apply mono_bnd; [mon|intros; mon])].
Lemma emits_action a : In a (p_actions p) -> emits F shape (fun _ => True) (process_action D ineq a).
Proof.
  intros Ha. unfold process_action. eapply emits_bnd; [mon|intros; mon|apply emits_lift|]. intros names En. eapply emits_bnd; [mon|intros; mon|exact (emits_lp_atom F shape (a_name a) names "action" action_prefix)|]. intros atom Hat.
  eapply emits_bnd; [mon|intros; mon|apply (emits_mapS F shape (type_of F)); [intros; apply mono_type|intros; apply emits_type]|]. intros types Hty. eapply emits_bnd; [mon|intros; mon|apply emits_lift|]. intros phi _. eapply emits_bnd; [mon|intros; mon|apply aux_shape, emits_formula|]. intros body _.
  eapply emits_bnd; [mon|intros; mon|apply emits_add_rule; exact (sh_action {| r_head := atom; r_body := (types ++ body)%list |} a names types body Ha En Hat Hty eq_refl)|]. intros _ _. eapply emits_bnd; [mon|intros; mon| |intros; now apply emits_ret].
  eapply emits_weaken; [intros r H; exact H|intros x _; exact I|]. apply (emits_mapS F shape (fun _ _ => True)); [intros; mon|]. intros e _. eapply emits_bnd; [mon|intros; mon|apply emits_lift|]. intros es _.
  eapply emits_weaken; [intros r H; exact H|intros x _; exact I|]. apply (emits_mapS F shape (fun _ _ => True)); [intros; mon|]. intros e' _. apply plain_shape, emits_effect_and_rule.
Qed.
Lemma emits_action_variables a : emits F shape (fun _ => True) (process_action_variables D ineq a).
Proof.
  unfold process_action_variables. eapply emits_bnd; [mon|intros; mon|apply (emits_mapS F shape (type_of F)); [intros; apply mono_type|intros; apply emits_type]|]. intros types Hty. eapply emits_bnd; [mon|intros; mon|apply emits_lift|]. intros phi _. eapply emits_bnd; [mon|intros; mon|apply aux_shape, emits_formula|]. intros body _.
  eapply emits_bnd; [mon|intros; mon| |intros; now apply emits_ret].
  eapply emits_weaken; [intros r H; exact H|intros x _; exact I|]. apply (emits_mapS F shape (fun _ _ => True)); [intros; mon|]. intros e' _. apply plain_shape, emits_effect_and_rule.
Qed.
Lemma emits_goal g : emits F shape (fun _ => True) (process_goal D ineq g).
Proof.
  unfold process_goal. eapply emits_bnd; [mon|intros; mon|apply emits_lift|]. intros phi _. eapply emits_bnd; [mon|intros; mon|apply aux_shape, emits_formula|]. intros body _. eapply emits_bnd; [mon|intros; mon|exact (emits_lp_atom F shape "goal" [] "" no_hyphen_empty)|]. intros h Hh. apply emits_add_rule. apply sh_goal. exact Hh.
Qed.
Lemma emits_one a : In a (p_actions p) -> emits F shape (fun _ => True) (one_action l ga ineq a).
Proof.
  intros Ha. unfold one_action. eapply emits_bnd; [mon| |apply emits_lift|]. { intros []; [|mon]. destruct ga; [apply mono_action|apply mono_action_variables]. }
  intros [] _; [|now apply emits_ret]. destruct ga; [now apply emits_action|apply emits_action_variables].
Qed.
Lemma program_shape r : In r (c_rules F) -> shape r.
Proof.
  intros Hr. assert (G : emits F shape (fun _ => True) (create_rules l ga ineq p)).
  { unfold create_rules.
    assert (M6 : mono (process_goal (lang_domains l) ineq (p_goal p))) by apply mono_goal. assert (M5 : mono (mapS (one_action l ga ineq) (p_actions p))) by (apply mono_mapS; intros; apply mono_one).
    assert (M4 : mono (init_functions (identify_cost_related_functions l p) (p_init p))) by apply mono_init_functions. assert (M3 : mono (mapS (fun ke => mapS (init_atom (fst ke)) (snd ke)) (preds (p_init p)))) by (apply mono_mapS; intros; apply mono_mapS; intros; apply mono_init_atom).
    assert (M2 : mono (mapS (fun sr => sort_rule l (fst sr) (snd sr)) (l_sorts l))) by (apply mono_mapS; intros; apply mono_sort_rule). assert (M1 : mono (mapS type_fact (lang_constants l))) by (apply mono_mapS; intros; apply mono_type_fact).
    apply (emits_bnd F shape (fun _ => True)); [exact M1| | |].
    - intros _. apply mono_bnd; [exact M2|]. intros _. apply mono_bnd; [exact M3|]. intros _. apply mono_bnd; [exact M4|]. intros _. apply mono_bnd; [exact M5|]. intros _. exact M6.
    - eapply emits_weaken; [intros x H; exact H|intros x _; exact I|apply (emits_mapS F shape (fun _ _ => True) type_fact)]; [intros; apply mono_type_fact|intros; now apply emits_type_fact].
    - intros _ _. apply (emits_bnd F shape (fun _ => True)); [exact M2| | |].
      + intros _. apply mono_bnd; [exact M3|]. intros _. apply mono_bnd; [exact M4|]. intros _. apply mono_bnd; [exact M5|]. intros _. exact M6.
      + eapply emits_weaken; [intros x H; exact H|intros x _; exact I|apply (emits_mapS F shape (fun _ _ => True) (fun sr => sort_rule l (fst sr) (snd sr)))]; [intros; apply mono_sort_rule|intros [s' r'] Hin; now apply emits_sort_rule].
      + intros _ _. apply (emits_bnd F shape (fun _ => True)); [exact M3| | |].
        * intros _. apply mono_bnd; [exact M4|]. intros _. apply mono_bnd; [exact M5|]. intros _. exact M6.
        * eapply emits_weaken; [intros x H; exact H|intros x _; exact I|apply (emits_mapS F shape (fun _ _ => True) (fun ke => mapS (init_atom (fst ke)) (snd ke)))]; [intros; apply mono_mapS; intros; apply mono_init_atom|]. intros ke _.
          eapply emits_weaken; [intros x H; exact H|intros x _; exact I|apply (emits_mapS F shape (fun _ _ => True) (init_atom (fst ke)))]; [intros; apply mono_init_atom|intros; apply emits_init].
        * intros _ _. apply (emits_bnd F shape (fun _ => True)); [exact M4| |apply emits_init_functions|].
          -- intros _. apply mono_bnd; [exact M5|]. intros _. exact M6.
          -- intros _ _. apply (emits_bnd F shape (fun _ => True)); [exact M5|intros _; exact M6| |intros _ _; apply emits_goal].
             eapply emits_weaken; [intros x H; exact H|intros x _; exact I|apply (emits_mapS F shape (fun _ _ => True) (one_action l ga ineq))]; [intros; apply mono_one|intros; now apply emits_one]. }
  destruct (G {| c_tr := trans0; c_aux := 0; c_rules := [] |} u F inv_ok0 HF (ext_refl F HT)) as [A _]. destruct (A r Hr) as [[]|H]. exact H.
Qed.

(** * Derived atoms *)
Lemma sanitize_type n : sanitize ("type_" ++ n) = "type_" ++ sanitize n. Proof. reflexivity. Qed.
Lemma sanitize_action n : sanitize ("action_" ++ n) = "action_" ++ sanitize n. Proof. reflexivity. Qed.
Lemma sanitize_atom n : sanitize ("atom_" ++ n) = "atom_" ++ sanitize n. Proof. reflexivity. Qed.
Lemma same_name n n' : known T n -> known T n' -> unambiguous n -> unambiguous n' -> sanitize n = sanitize n' -> n = n'.
Proof. intros K K' U U' E. rewrite <- (back_known T n HT K U), <- (back_known T n' HT K' U'). now rewrite E. Qed.
Lemma plain_not_type r s : plain_rule r -> lp_infix (r_head r) = false -> lp_sym (r_head r) = sanitize ("type_" ++ s) -> False.
Proof. intros [(k & E)|[E|(n & E)]] Hi H; [rewrite H in E; discriminate|congruence|rewrite H in E; discriminate]. Qed.
Lemma plain_not_action r s : plain_rule r -> lp_infix (r_head r) = false -> lp_sym (r_head r) = "action_" ++ s -> False.
Proof. intros [(k & E)|[E|(n & E)]] Hi H; [rewrite H in E; discriminate|congruence|rewrite H in E; discriminate]. Qed.
Lemma plain_not_goal r : plain_rule r -> lp_infix (r_head r) = false -> lp_sym (r_head r) = "goal" -> False.
Proof. intros [(k & E)|[E|(n & E)]] Hi H; [rewrite H in E; discriminate|congruence|rewrite H in E; discriminate]. Qed.
Lemma back_cases sy k : back T sy = k -> sy = k \/ sy = sanitize k.
Proof. unfold back. destruct (sget (tr_inv T) sy) as [n|] eqn:E; [|auto]. intros <-. right. apply (io_inv T HT) in E. exact (proj1 (io_d T HT _ _ E)). Qed.
Lemma goal_derived args : derives (c_rules F) "goal" args -> args = [].
Proof.
  intros H. remember "goal" as g eqn:Eg. revert Eg. destruct H as [r theta Hr Hi _ _]. intros Eg. destruct (program_shape r Hr) as [Pl|c s _ (n & _ & E & _) _|s q _ _ (E & _) _|a names types body _ _ (E & _) _ _|(E & _)].
  - exfalso. exact (plain_not_goal r Pl Hi Eg).
  - exfalso. rewrite E in Eg. discriminate.
  - exfalso. rewrite E in Eg. discriminate.
  - exfalso. rewrite E in Eg. discriminate.
  - rewrite E. reflexivity.
Qed.
Hypothesis Hsorts : forall s r, In (s, r) (l_sorts l) -> unambiguous ("type_" ++ s).
Hypothesis Hparents : forall s q, is_plain l s -> parent_of l s = Some q -> exists r, In (q, r) (l_sorts l).
Hypothesis Hconsts : forall c sym s, In (c, (sym, s)) (l_consts l) -> exists r, In (s, r) (l_sorts l).
Hypothesis Hnames : forall c sym s, In (c, (sym, s)) (l_consts l) -> is_plain l s -> variable_like (sanitize (name_text sym)) = false.
Lemma type_derived sy args : derives (c_rules F) sy args -> forall s r, sy = sanitize ("type_" ++ s) -> known T ("type_" ++ s) -> In (s, r) (l_sorts l) -> s_kind r = KPlain ->
  exists c sym s', In (c, (sym, s')) (l_consts l) /\ is_plain l s' /\ le l s' s /\ args = [sanitize (name_text sym)] /\ known T (name_text sym).
Proof.
  induction 1 as [r theta Hr Hi Hb IH Hc]. intros s sr Es Ks Hs Hk. assert (Hps : is_plain l s) by (exists sr; auto). destruct (program_shape r Hr) as [Pl|c s' Hin (n & Hu & E & K & Kn) _|s' q Hp Hq (E & Kq & _) (b & (Eb & Kb & _) & Ebody)|a names types body _ _ (E & _) _ _|(E & _)].
  - exfalso. exact (plain_not_type r s Pl Hi Es).
  - unfold lang_constants in Hin. apply in_map_iff in Hin as ([c0 [sym s0]] & Ec & Hin). cbn [fst snd] in Ec. injection Ec as -> ->. exists c0, c, s'. split; [exact Hin|].
    rewrite E in Es. cbn [lp_sym] in Es. assert (X : "type_" ++ s' = "type_" ++ s). { destruct (Hconsts _ _ _ Hin) as (r' & Hr'). apply same_name; auto; eapply Hsorts; eauto. } injection X as ->.
    split; [auto|]. split; [left; reflexivity|]. rewrite E. cbn [lp_args map]. assert (Hv := Hnames _ _ _ Hin Hps). assert (n = name_text c). { destruct c as [m|z]; [|discriminate]. destruct m as [|a m]; [discriminate|]. cbn [uncapitalize] in Hu. injection Hu as <-. cbn [name_text] in *. unfold to_lower. destruct (is_upper a) eqn:Ua; [|reflexivity]. rewrite (upper_first a m Ua) in Hv. discriminate. } subst n.
    inversion Kn; subst. split; [|assumption]. unfold instantiate. now rewrite Hv.
  - rewrite E in Es. cbn [lp_sym] in Es. destruct (Hparents s' q Hp Hq) as (qr & Hqr). assert (X : "type_" ++ q = "type_" ++ s). { apply same_name; auto; eapply Hsorts; eauto. } injection X as ->. destruct Hp as (r' & Hr' & K').
    assert (Hb' : In b (r_body r)) by (rewrite Ebody; left; reflexivity). assert (Ib : lp_infix b = false) by (rewrite Eb; reflexivity). assert (Sb : lp_sym b = sanitize ("type_" ++ s')) by (rewrite Eb; reflexivity).
    destruct (IH b Hb' Ib s' r' Sb Kb Hr' K') as (c & sym & s0 & A1 & A2 & A3 & A4 & A5). exists c, sym, s0. split; [exact A1|]. split; [exact A2|]. split.
    { destruct A3 as [->|A3]; [right; now apply anc_parent|]. right. clear - A3 Hq. induction A3 as [x y H|x y z H H' IH']; [eapply anc_up; [exact H|now apply anc_parent]|eapply anc_up; [exact H|exact (IH' Hq)]]. }
    split; [|exact A5]. rewrite E. rewrite Eb in A4. exact A4.
  - exfalso. rewrite E in Es. discriminate.
  - exfalso. rewrite E in Es. discriminate.
Qed.
Hypothesis Hacts : forall a, In a (p_actions p) -> unambiguous ("action_" ++ a_name a).
Hypothesis Hparams : forall a v, In a (p_actions p) -> In v (param_vars a) -> is_plain l (snd v).
Lemma action_derived sy k args : back T sy = "action_" ++ k -> derives (c_rules F) sy args ->
  exists a, In a (p_actions p) /\ a_name a = k /\ Forall2 (fun (v : var) x => exists c sym s', In (c, (sym, s')) (l_consts l) /\ is_plain l s' /\ le l s' (snd v) /\ x = sanitize (name_text sym) /\ known T (name_text sym)) (param_vars a) args.
Proof.
  intros B H. assert (Esy : exists w, sy = "action_" ++ w) by (destruct (back_cases _ _ B) as [-> | ->]; [exists k; reflexivity|exists (sanitize k); reflexivity]). destruct Esy as (w & Esy). revert Esy. destruct H as [r theta Hr Hi Hb _]. intros Es. destruct (program_shape r Hr) as [Pl|c s' _ (n & Hu & E & K & Kn) _|s' q Hp Hq (E & Kq & _) _|a names types body Ha En (E & Ka & _) Hty Ebody|(E & _)].
  - exfalso. exact (plain_not_action r w Pl Hi Es).
  - exfalso. rewrite E in Es. discriminate.
  - exfalso. rewrite E in Es. discriminate.
  - exists a. split; [exact Ha|]. rewrite E in Es. cbn [lp_sym] in Es. split.
    { rewrite E in B. cbn [lp_sym] in B. rewrite (back_known T _ HT Ka (Hacts a Ha)) in B. injection B as B. exact B. }
    rewrite E. cbn [lp_args]. assert (Hb' : forall b, In b types -> In b (r_body r)) by (intros b X; rewrite Ebody, in_app_iff; auto). assert (Hpv : forall v, In v (param_vars a) -> is_plain l (snd v)) by (intros v Hv; exact (Hparams a v Ha Hv)).
    clear - En Hty Hb Hb' Hpv HT Hsorts Hparents Hconsts Hnames HF D. revert types names Hty En Hb'. unfold var_terms. induction (param_vars a) as [|[x s] vs IH]; intros types names Hty En Hb'.
    + cbn in En. injection En as <-. constructor.
    + cbn [map fst snd] in *. rewrite (mapM_cons' process_term) in En. cbn [process_term] in En. destruct (make_variable_name x) as [n|] eqn:Ex; [|discriminate]. destruct (mapM process_term _) as [ns|] eqn:Ens; [|discriminate]. injection En as <-.
      inversion Hty as [|? b ? types' Hb1 Hty']; subst. destruct Hb1 as (n' & En' & Eb & Kb & _). rewrite Ex in En'. injection En' as <-. constructor.
      * destruct (Hpv (x, s) (or_introl eq_refl)) as (r' & Hr' & K'). cbn [snd] in *. assert (Ib : lp_infix b = false) by (rewrite Eb; reflexivity). assert (Sb : lp_sym b = sanitize ("type_" ++ s)) by (rewrite Eb; reflexivity). assert (Db := Hb b (Hb' b (or_introl eq_refl)) Ib).
        destruct (type_derived _ _ Db s r' Sb Kb Hr' K') as (c & sym & s0 & A1 & A2 & A3 & A4 & A5). exists c, sym, s0. split; [exact A1|]. split; [exact A2|]. split; [exact A3|]. split; [|exact A5]. rewrite Eb in A4. cbn [lp_args map] in A4. injection A4 as A4. exact A4.
      * apply (IH (fun v Hv => Hpv v (or_intror Hv)) types' ns Hty' eq_refl). intros b0 X. apply Hb'. right. exact X.
  - exfalso. rewrite E in Es. discriminate.
Qed.
End Program.
