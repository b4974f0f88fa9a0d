(** C26: compiling negated preconditions away *)
From Verif Require Import ListUtil Base Syntax SemLemmas Build BuildProofs ModelState ModelProofs Eval EvalProofs Subst SubstSpec SubstProofs QElim QElimProofs Effects ProgressSpec StateLemmas ProgressProofs Represent RepresentSpec RelaxSpec CompileSpec PropsProgress PropsRepresent PropsRelax.
#[local] Open Scope list_scope.

(** * Conjuncts *)
Lemma conjuncts_flatten f : flatten_aux And f = conjuncts f.
Proof.
  induction f as [| |p ts|c fs IH|q vs f IH] using formula_ind_simple; try reflexivity. destruct c; try reflexivity. cbn [flatten_aux conn_eqb conjuncts].
  induction IH as [|g gs Hg _ IHs]; [reflexivity|]. cbn [flat_map]. rewrite Hg, IHs. reflexivity.
Qed.
Lemma eval_all_app m xs ys : eval_all m (xs ++ ys) = match eval_all m xs with Ok true => eval_all m ys | r => r end.
Proof. induction xs as [|x xs IH]; [reflexivity|]. cbn [app eval_all]. destruct (eval_f m x) as [[]|]; auto. Qed.
Lemma eval_conjuncts m f : eval_f m f = eval_all m (conjuncts f).
Proof.
  induction f as [| |p ts|c fs IH|q vs f IH] using formula_ind_simple; try (cbn [conjuncts eval_all]; destruct (eval_f m _) as [[]|]; reflexivity).
  destruct c; try (cbn [conjuncts eval_all]; destruct (eval_f m _) as [[]|]; reflexivity). rewrite eval_and. cbn [conjuncts].
  induction IH as [|g gs Hg _ IHs]; [reflexivity|]. cbn [flat_map eval_all]. rewrite eval_all_app, <- Hg, <- IHs. destruct (eval_f m g) as [[]|]; reflexivity.
Qed.
Lemma conjuncts_subst s f : conjuncts (subst_formula (of_vars s) f) = map (subst_formula (of_vars s)) (conjuncts f).
Proof.
  induction f as [| |p ts|c fs IH|q vs f IH] using formula_ind_simple; try reflexivity. destruct c; try reflexivity. rewrite (subst_f_unfold s (Comp And fs)). cbn [conjuncts].
  induction IH as [|g gs Hg _ IHs]; [reflexivity|]. cbn [map flat_map]. rewrite map_app, Hg, IHs. reflexivity.
Qed.
Lemma conjuncts_preds f p : In p (f_preds f) <-> exists l, In l (conjuncts f) /\ In p (f_preds l).
Proof.
  induction f as [| |q ts|c fs IH|q vs f IH] using formula_ind_simple; try (cbn [conjuncts]; split; [eauto using in_eq|intros (l & [<-|[]] & H); exact H]).
  destruct c; try (cbn [conjuncts]; split; [eauto using in_eq|intros (l & [<-|[]] & H); exact H]). cbn [conjuncts f_preds]. rewrite in_flat_map. rewrite Forall_forall in IH. split.
  - intros (g & Hg & H). apply IH in H as (l & Hl & H); auto. exists l. split; [apply in_flat_map; eauto|auto].
  - intros (l & Hl & H). apply in_flat_map in Hl as (g & Hg & Hl). exists g. split; [auto|]. apply IH; eauto.
Qed.
Lemma conjuncts_literals f : conjunction_of literal f = forallb literal (conjuncts f).
Proof. rewrite <- conjuncts_flatten. symmetry. apply flatten_and. Qed.
(** Flattening keeps the conjuncts. *)
Lemma conjuncts_idem f : flat_map conjuncts (conjuncts f) = conjuncts f.
Proof.
  induction f as [| |p ts|c fs IH|q vs f IH] using formula_ind_simple; try reflexivity. destruct c; try reflexivity. cbn [conjuncts].
  induction IH as [|g gs Hg _ IHs]; [reflexivity|]. cbn [flat_map]. rewrite flat_map_app, Hg, IHs. reflexivity.
Qed.
Lemma flatten_conjuncts f g : flatten f = Ok g -> conjuncts g = match f with Comp Or _ => [g] | _ => conjuncts f end.
Proof.
  destruct f as [| |p ts|c fs|q vs f]; intros H; try (injection H as <-; reflexivity). destruct c; [| |injection H as <-; reflexivity].
  - unfold flatten, compound in H. rewrite conjuncts_flatten in H. destruct (comp_arity_ok _ _); [|discriminate]. injection H as <-. apply (conjuncts_idem (Comp And fs)).
  - unfold flatten, compound in H. destruct (comp_arity_ok _ _); [|discriminate]. injection H as <-. reflexivity.
Qed.
Lemma flatten_total f : (match f with Comp And fs => 2 <= List.length (conjuncts f) | Comp Or _ => False | _ => True end) -> exists g, flatten f = Ok g.
Proof.
  intros H. destruct f as [| |p ts|c fs|q vs f]; try (eexists; reflexivity). destruct c; [|destruct H|eexists; reflexivity]. unfold flatten, compound. rewrite conjuncts_flatten. cbn [comp_arity_ok].
  rewrite (proj2 (Nat.leb_le _ _) H). eauto.
Qed.
Lemma wf_conjuncts f : wf f = true -> (1 <= List.length (conjuncts f)) /\ match f with Comp And fs => 2 <= List.length (conjuncts f) | _ => True end.
Proof.
  induction f as [| |p ts|c fs IH|q vs f IH] using formula_ind_simple; intros W; try (cbn; split; auto; fail). destruct c; try (cbn; split; auto; fail). cbn [conjuncts]. cbn [wf comp_arity_ok] in W. apply andb_true_iff in W as [A W].
  enough (2 <= List.length (flat_map conjuncts fs)) by (split; [lia|auto]). destruct fs as [|g [|h fs]]; try discriminate. inversion IH as [|? ? I1 I2]; subst. inversion I2 as [|? ? I3 _]; subst.
  cbn [forallb] in W. apply andb_true_iff in W as [W1 W]. apply andb_true_iff in W as [W2 _]. destruct (I1 W1), (I3 W2). cbn [flat_map]. rewrite !app_length. lia.
Qed.

(** * Literals *)
Definition lit_rel (negs : list (psym * psym)) (l l' : formula) : Prop :=
  l' = l \/ exists n ss q ts, l = Comp Not [Atom (PU n ss) ts] /\ In (PU n ss, q) negs /\ l' = Atom q ts.
Definition positive_lit (l : formula) : Prop := (exists p ts, l = Atom p ts) \/ (exists b ts, l = Comp Not [Atom (PB b) ts]).
Lemma lit_rel_mono negs negs' l l' : incl negs negs' -> lit_rel negs l l' -> lit_rel negs' l l'.
Proof. intros I [H|(n & ss & q & ts & H1 & H2 & H3)]; [left; auto|right; exists n, ss, q, ts; auto]. Qed.
Lemma lits_mono negs negs' ls ls' : incl negs negs' -> Forall2 (lit_rel negs) ls ls' -> Forall2 (lit_rel negs') ls ls'.
Proof. intros I H. induction H; constructor; auto. eapply lit_rel_mono; eauto. Qed.
Lemma lit_rel_subst negs s l l' : lit_rel negs l l' -> lit_rel negs (subst_formula (of_vars s) l) (subst_formula (of_vars s) l').
Proof. intros [-> |(n & ss & q & ts & -> & H & ->)]; [left; auto|]. right. exists n, ss, q, (map (subst_term (of_vars s)) ts). rewrite !subst_f_unfold. cbn [map]. rewrite subst_f_unfold. auto. Qed.
Lemma lits_subst negs s f f' : Forall2 (lit_rel negs) (conjuncts f) (conjuncts f') -> Forall2 (lit_rel negs) (conjuncts (subst_formula (of_vars s) f)) (conjuncts (subst_formula (of_vars s) f')).
Proof. rewrite !conjuncts_subst. induction 1; cbn [map]; constructor; auto. now apply lit_rel_subst. Qed.

Section Compile.
Variable L : list string.
Definition inv (st : negstate) : Prop :=
  (forall p q, In (p, q) (negpreds st) -> exists n ss, p = PU n ss /\ q = PU (neg_name n) ss /\ ~ In (neg_name n) L /\ In n L) /\ incl L (names st).
Lemma psym_eqb_eq p q : psym_eqb p q = true <-> p = q.
Proof. unfold psym_eqb. destruct (psym_eq_dec p q); split; congruence. Qed.
Lemma dset_new (d : list (psym * psym)) p q : dget psym_eqb d p = None -> incl d (dset psym_eqb d p q) /\ In (p, q) (dset psym_eqb d p q) /\ forall x, In x (dset psym_eqb d p q) -> x = (p, q) \/ In x d.
Proof.
  induction d as [|[a b] d IH]; cbn [dget dset]; intros H.
  - split; [intros ? []|]. split; [left; auto|]. intros x [<-|[]]; auto.
  - destruct (psym_eqb a p); [discriminate|]. destruct (IH H) as (A & B & C). split; [intros x [<-|Hx]; [left; auto|right; auto]|]. split; [right; auto|]. intros x [<-|Hx]; [right; left; auto|]. destruct (C x Hx); auto. right. right. auto.
Qed.
Lemma compile_literal_spec l st l' st' : literal l = true -> known L l -> inv st -> compile_literal l st = Ok (l', st') -> inv st' /\ incl (negpreds st) (negpreds st') /\ lit_rel (negpreds st') l l' /\ positive_lit l'.
Proof.
  intros Hl K I H. destruct l as [| |p ts|c fs|q vs f]; try discriminate Hl.
  { cbn in H. injection H as <- <-. split; [auto|]. split; [apply incl_refl|]. split; [left; auto|left; eauto]. }
  destruct c; try discriminate Hl. destruct fs as [|[| |p ts| |] [|]]; try discriminate Hl. cbn [compile_literal] in H. destruct p as [b|n ss].
  { injection H as <- <-. split; [auto|]. split; [apply incl_refl|]. split; [left; auto|right; eauto]. }
  destruct (dget psym_eqb (negpreds st) (PU n ss)) as [q|] eqn:E.
  - injection H as <- <-. apply (dget_In psym_eqb psym_eqb_eq) in E. split; [auto|]. split; [apply incl_refl|]. split; [right; exists n, ss, q, ts; auto|left; eauto].
  - destruct (existsb (String.eqb (neg_name n)) (names st)) eqn:Ex; [discriminate|]. injection H as <- <-. destruct (dset_new (negpreds st) (PU n ss) (PU (neg_name n) ss) E) as (A & B & C). destruct I as [I1 I2].
    split; [split|]; [|intros x Hx; right; apply I2; auto|].
    + intros p q Hp. cbn [negpreds] in Hp. destruct (C _ Hp) as [X|X]; [injection X as -> ->|auto]. exists n, ss. do 2 (split; [auto|]). split; [|apply (K n ss); left; auto]. intros Hn. apply I2 in Hn. apply not_true_iff_false in Ex. apply Ex. apply existsb_exists. exists (neg_name n). split; [auto|apply String.eqb_refl].
    + split; [exact A|]. split; [right; exists n, ss, (PU (neg_name n) ss), ts; auto|left; eauto].
Qed.
Lemma compile_literals_spec : forall ls st ls' st', forallb literal ls = true -> (forall l, In l ls -> known L l) -> inv st -> compile_literals ls st = Ok (ls', st') ->
  inv st' /\ incl (negpreds st) (negpreds st') /\ Forall2 (lit_rel (negpreds st')) ls ls' /\ Forall positive_lit ls'.
Proof.
  induction ls as [|l ls IH]; intros st ls' st' Hl K I H; cbn [compile_literals forallb] in *.
  - injection H as <- <-. split; [auto|]. split; [apply incl_refl|]. split; constructor.
  - apply andb_true_iff in Hl as [Hl1 Hl2]. destruct (is_literal l); [|discriminate]. destruct (compile_literal l st) as [[l1 st1]|] eqn:E1; [|discriminate]. cbn [bind fst snd] in H. destruct (compile_literals ls st1) as [[ls1 st2]|] eqn:E2; [|discriminate]. cbn [bind fst snd] in H. injection H as <- <-.
    destruct (compile_literal_spec _ _ _ _ Hl1 (K l (or_introl eq_refl)) I E1) as (I1 & A1 & B1 & C1). destruct (IH _ _ _ Hl2 (fun x Hx => K x (or_intror Hx)) I1 E2) as (I2 & A2 & B2 & C2). split; [auto|]. split; [eapply incl_tran; eauto|]. split; constructor; auto. eapply lit_rel_mono; eauto.
Qed.
Lemma positive_conjuncts ls : Forall positive_lit ls -> flat_map conjuncts ls = ls.
Proof. induction 1 as [|l ls [(p & ts & ->)|(b & ts & ->)] _ IH]; cbn [flat_map conjuncts app]; rewrite ?IH; reflexivity. Qed.
Lemma compile_formula_spec f st g st' : wf f = true -> conjunction_of literal f = true -> known L f -> inv st -> compile_formula f st = Ok (g, st') ->
  inv st' /\ incl (negpreds st) (negpreds st') /\ Forall2 (lit_rel (negpreds st')) (conjuncts f) (conjuncts g) /\ Forall positive_lit (conjuncts g) /\ (match g with Comp And _ => 2 <= List.length (conjuncts g) | Comp Or _ => False | _ => True end).
Proof.
  intros W C K I H. assert (K' : forall l, In l (conjuncts f) -> known L l) by (intros l Hl n ss Hn; apply (K n ss); apply conjuncts_preds; eauto). unfold compile_formula in H. destruct (flatten_ok f W) as (h & Eh & Hh). rewrite Eh in H. cbn [bind] in H.
  destruct f as [| |p ts|c fs|q vs f]; try discriminate C; subst h.
  - injection H as <- <-. split; [auto|]. split; [apply incl_refl|]. split; [constructor; [left; auto|constructor]|]. split; [constructor; [left; eauto|constructor]|auto].
  - destruct c; [|discriminate C|].
    + destruct (wf_conjuncts _ W) as [_ Len]. rewrite conjuncts_flatten in *. destruct (compile_literals (conjuncts (Comp And fs)) st) as [[ls st1]|] eqn:E1; [|discriminate]. cbn [bind fst snd] in H.
      destruct (land ls true) as [g1|] eqn:E2; [|discriminate]. cbn [bind] in H. injection H as <- <-. rewrite conjuncts_literals in C. destruct (compile_literals_spec _ _ _ _ C K' I E1) as (I1 & A & B & P).
      assert (Ln := Forall2_len _ _ _ B). destruct ls as [|l1 [|l2 ls]]; [cbn [List.length] in Ln; rewrite Ln in Len; lia|cbn [List.length] in Ln; rewrite Ln in Len; lia|].
      cbn [land create_compound compound comp_arity_ok List.length Nat.leb] in E2. injection E2 as <-. assert (X : conjuncts (Comp And (l1 :: l2 :: ls)) = l1 :: l2 :: ls) by (apply (positive_conjuncts _ P)). rewrite X.
      split; [auto|]. split; [auto|]. split; [auto|]. split; [auto|]. cbn. lia.
    + cbn [conjunction_of] in C. destruct (compile_literal_spec _ _ _ _ C K I H) as (I1 & A & B & P). split; [auto|]. split; [auto|].
      assert (P' := P). destruct P' as [(p & us & ->)|(b & us & ->)].
      * split; [exact (Forall2_cons _ _ B (Forall2_nil _))|]. split; [exact (Forall_cons _ P (Forall_nil _))|auto].
      * split; [exact (Forall2_cons _ _ B (Forall2_nil _))|]. split; [exact (Forall_cons _ P (Forall_nil _))|auto].
Qed.
End Compile.
(** * Actions *)
Definition eff_rel (negs : list (psym * psym)) (e e1 : effect) : Prop := exists c1, e1 = set_cond e c1 /\ Forall2 (lit_rel negs) (conjuncts (econd e)) (conjuncts c1) /\ (c1 = Top \/ Forall positive_lit (conjuncts c1)).
Definition good_pre (g : formula) : Prop := match g with Comp And _ => 2 <= List.length (conjuncts g) | Comp Or _ => False | _ => True end.
Definition act_rel (negs : list (psym * psym)) (a a1 : action) : Prop :=
  a_name a1 = a_name a /\ a_params a1 = a_params a /\ Forall2 (lit_rel negs) (conjuncts (a_pre a)) (conjuncts (a_pre a1)) /\ good_pre (a_pre a1) /\ Forall positive_lit (conjuncts (a_pre a1)) /\ Forall2 (eff_rel negs) (a_effs a) (a_effs a1).
Lemma set_cond_same e : set_cond e (econd e) = e. Proof. destruct e; reflexivity. Qed.
Lemma econd_set e c : econd (set_cond e c) = c. Proof. destruct e; reflexivity. Qed.
Lemma lits_refl negs ls : Forall2 (lit_rel negs) ls ls. Proof. induction ls; constructor; auto. left. reflexivity. Qed.
Lemma eff_rel_mono negs negs' e e1 : incl negs negs' -> eff_rel negs e e1 -> eff_rel negs' e e1.
Proof. intros I (c & A & B & C). exists c. split; [auto|]. split; [eapply lits_mono; eauto|auto]. Qed.
Lemma act_rel_mono negs negs' a a1 : incl negs negs' -> act_rel negs a a1 -> act_rel negs' a a1.
Proof. intros I (A & B & C & D & E & F). do 2 (split; [auto|]). split; [eapply lits_mono; eauto|]. do 2 (split; [auto|]). clear - I F. induction F; constructor; auto. eapply eff_rel_mono; eauto. Qed.
Section Compile2.
Variable L : list string.
Lemma compile_conditions_spec : forall es st es' st', Forall (fun e => plain_condition (econd e) /\ known L (econd e)) es -> inv L st -> compile_conditions es st = Ok (es', st') -> inv L st' /\ incl (negpreds st) (negpreds st') /\ Forall2 (eff_rel (negpreds st')) es es'.
Proof.
  induction es as [|e es IH]; intros st es' st' Hc I H; cbn [compile_conditions] in H.
  - injection H as <- <-. split; [auto|]. split; [apply incl_refl|constructor].
  - inversion Hc as [|? ? Hc1 Hc2]; subst.
    assert (G : (if is_top (econd e) then let! rs := compile_conditions es st in Ok (e :: fst rs, snd rs) else let! r := compile_formula (econd e) st in let! rs := compile_conditions es (snd r) in Ok (set_cond e (fst r) :: fst rs, snd rs)) = Ok (es', st')) by (destruct e; (exact H || discriminate H)). clear H.
    destruct (is_top (econd e)) eqn:T.
    + destruct (compile_conditions es st) as [[es1 st1]|] eqn:E; [|discriminate]. cbn [bind fst snd] in G. injection G as <- <-. destruct (IH _ _ _ Hc2 I E) as (A & B & C). split; [auto|]. split; [auto|]. constructor; [|auto].
      exists (econd e). split; [symmetry; apply set_cond_same|]. split; [apply lits_refl|]. left. destruct (econd e); try discriminate; reflexivity.
    + destruct Hc1 as [[X|[W C]] K]; [rewrite X in T; discriminate|]. destruct (compile_formula (econd e) st) as [[g st1]|] eqn:E1; [|discriminate]. cbn [bind fst snd] in G. destruct (compile_conditions es st1) as [[es1 st2]|] eqn:E2; [|discriminate]. cbn [bind fst snd] in G. injection G as <- <-.
      destruct (compile_formula_spec L _ _ _ _ W C K I E1) as (I1 & A1 & B1 & P1 & _). destruct (IH _ _ _ Hc2 I1 E2) as (I2 & A2 & B2). split; [auto|]. split; [eapply incl_tran; eauto|]. constructor; [|auto].
      exists g. split; [auto|]. split; [eapply lits_mono; eauto|auto].
Qed.
Lemma compile_action_spec a st a' st' : plain_action L a -> inv L st -> compile_action a st = Ok (a', st') -> inv L st' /\ incl (negpreds st) (negpreds st') /\ act_rel (negpreds st') a a'.
Proof.
  intros (W & C & K & E & _) I H. unfold compile_action in H. destruct (compile_formula (a_pre a) st) as [[g st1]|] eqn:E1; [|discriminate]. cbn [bind fst snd] in H. destruct (compile_conditions (a_effs a) st1) as [[es st2]|] eqn:E2; [|discriminate]. cbn [bind fst snd] in H. injection H as <- <-.
  destruct (compile_formula_spec L _ _ _ _ W C K I E1) as (I1 & A1 & B1 & P1 & G1). destruct (compile_conditions_spec _ _ _ _ E I1 E2) as (I2 & A2 & B2). split; [auto|]. split; [eapply incl_tran; eauto|].
  split; [auto|]. split; [auto|]. split; [eapply lits_mono; eauto|]. auto.
Qed.
Lemma compile_actions_spec : forall l st l' st', Forall (plain_action L) l -> inv L st -> compile_actions l st = Ok (l', st') -> inv L st' /\ incl (negpreds st) (negpreds st') /\ Forall2 (act_rel (negpreds st')) l l'.
Proof.
  induction l as [|a l IH]; intros st l' st' Hp I H; cbn [compile_actions] in H.
  - injection H as <- <-. split; [auto|]. split; [apply incl_refl|constructor].
  - inversion Hp as [|? ? Hp1 Hp2]; subst. destruct (compile_action a st) as [[a1 st1]|] eqn:E1; [|discriminate]. cbn [bind fst snd] in H. destruct (compile_actions l st1) as [[l1 st2]|] eqn:E2; [|discriminate]. cbn [bind fst snd] in H. injection H as <- <-.
    destruct (compile_action_spec _ _ _ _ Hp1 I E1) as (I1 & A1 & B1). destruct (IH _ _ _ Hp2 I1 E2) as (I2 & A2 & B2). split; [auto|]. split; [eapply incl_tran; eauto|]. constructor; [eapply act_rel_mono; eauto|auto].
Qed.
End Compile2.

(** * Counterparts and ground instances *)
Definition counter (negs : list (psym * psym)) (e : effect) : list effect :=
  match e with
  | EAdd c (Atom p ts) => match dget psym_eqb negs p with Some q => [EDel c (Atom q ts)] | None => [] end
  | EDel c (Atom p ts) => match dget psym_eqb negs p with Some q => [EAdd c (Atom q ts)] | None => [] end
  | _ => []
  end.
Definition simple_effect (e : effect) : Prop := exists c p ts, e = EAdd c (Atom p ts) \/ e = EDel c (Atom p ts).
Lemma counterparts_spec negs es new : mapM (counterpart negs) es = Ok new -> List.concat new = flat_map (counter negs) es /\ Forall simple_effect es.
Proof.
  intros H. apply mapM_ok_Forall2 in H. induction H as [|e x es new He _ [IH1 IH2]]; [split; [reflexivity|constructor]|]. cbn [List.concat flat_map]. rewrite IH1. destruct e as [c a|c a| | | |]; try discriminate; (destruct a as [| |p ts| |]; try discriminate; cbn [counterpart] in He; injection He as <-; split; [reflexivity|constructor; [|auto]; exists c, p, ts; auto]).
Qed.
Definition subE (s : vsubst) (e : effect) : effect :=
  match e with EAdd c a => EAdd (subst_formula (of_vars s) c) (subst_formula (of_vars s) a) | EDel c a => EDel (subst_formula (of_vars s) c) (subst_formula (of_vars s) a) | _ => e end.
Lemma subst_simple s es : Forall simple_effect es -> mapM (subst_effect (of_vars s)) es = Ok (map (subE s) es).
Proof. induction 1 as [|e es (c & p & ts & [-> | ->]) _ IH]; [reflexivity|..]; cbn [mapM subst_effect map]; rewrite IH; reflexivity. Qed.
Lemma counter_subst negs s e : simple_effect e -> counter negs (subE s e) = map (subE s) (counter negs e).
Proof. intros (c & p & ts & [-> | ->]); cbn [subE]; rewrite (subst_f_unfold s (Atom p ts)); cbn [counter]; destruct (dget psym_eqb negs p); cbn [map subE]; rewrite ?(subst_f_unfold s (Atom _ ts)); reflexivity. Qed.
Lemma counter_simple negs e : simple_effect e -> Forall simple_effect (counter negs e).
Proof. intros (c & p & ts & [-> | ->]); cbn [counter]; destruct (dget psym_eqb negs p) as [q|]; constructor; try constructor; exists c, q, ts; auto. Qed.
Lemma simple_rel negs e e1 : eff_rel negs e e1 -> simple_effect e1 -> simple_effect e.
Proof. intros (c1 & -> & _) (c & p & ts & [H|H]); destruct e; try discriminate; injection H as -> ->; do 3 eexists; eauto. Qed.
Lemma simple_subE s e : simple_effect e -> simple_effect (subE s e).
Proof. intros (c & p & ts & [-> | ->]); cbn [subE]; rewrite (subst_f_unfold s (Atom p ts)); do 3 eexists; eauto. Qed.
Lemma eff_rel_subst negs s e e1 : simple_effect e -> eff_rel negs e e1 -> eff_rel negs (subE s e) (subE s e1).
Proof.
  intros (c & p & ts & H) (c1 & -> & A & B). exists (subst_formula (of_vars s) c1).
  assert (P : Forall positive_lit (conjuncts c1) -> Forall positive_lit (conjuncts (subst_formula (of_vars s) c1))).
  { rewrite conjuncts_subst, Forall_map. apply Forall_impl. intros l [(q & us & ->)|(b & us & ->)]; [left|right]; rewrite subst_f_unfold; cbn [map]; rewrite ?subst_f_unfold; eauto. }
  destruct H as [-> | ->]; cbn [subE set_cond econd] in *; (split; [reflexivity|]; split; [apply lits_subst; auto|]; destruct B as [-> |B]; [left; reflexivity|right; auto]).
Qed.
Definition ground_rel (negs : list (psym * psym)) (pre : formula) (effs : list effect) (pre' : formula) (effs' : list effect) : Prop :=
  Forall2 (lit_rel negs) (conjuncts pre) (conjuncts pre') /\ Forall simple_effect effs /\ exists es1, Forall2 (eff_rel negs) effs es1 /\ Forall simple_effect es1 /\ effs' = es1 ++ flat_map (counter negs) es1.
Lemma subst_shape s f : (match f with Comp And fs => 2 <= List.length (conjuncts f) | Comp Or _ => False | _ => True end) -> exists g, flatten (subst_formula (of_vars s) f) = Ok g /\ conjuncts g = conjuncts (subst_formula (of_vars s) f).
Proof.
  intros H. destruct (flatten_total (subst_formula (of_vars s) f)) as [g Hg].
  - destruct f as [| |p ts|[] fs|q vs f]; try exact I; try contradiction. rewrite conjuncts_subst, map_length. rewrite subst_f_unfold. exact H.
  - exists g. split; [auto|]. apply flatten_conjuncts in Hg. destruct f as [| |p ts|[] fs|q vs f]; try exact Hg. contradiction.
Qed.
Lemma ground_related L negs a a1 a' s : plain_action L a -> act_rel negs a a1 -> update_action negs a1 = Ok a' ->
  match ground_schema a (of_vars s), ground_schema a' (of_vars s) with
  | Ok (pre, effs), Ok (pre', effs') => ground_rel negs pre effs pre' effs'
  | Err _, Err _ => True
  | _, _ => False
  end.
Proof.
  intros (W & C & _) (N & P & R & G & _ & F) U. unfold update_action in U. destruct (mapM (counterpart negs) (a_effs a1)) as [new|] eqn:E; [|discriminate]. cbn [bind] in U. injection U as <-. destruct (counterparts_spec _ _ _ E) as [EC S1].
  assert (S0 : Forall simple_effect (a_effs a)). { clear - F S1. induction F as [|e e1 es es1 H _ IH]; [constructor|]. inversion S1; subst. constructor; [eapply simple_rel; eauto|auto]. }
  assert (SC : Forall simple_effect (flat_map (counter negs) (a_effs a1))). { clear - S1. induction S1 as [|e es H _ IH]; [constructor|]. cbn [flat_map]. apply Forall_app. split; [apply counter_simple; auto|auto]. }
  unfold ground_schema. cbn [a_params a_effs a_pre]. rewrite P. destruct (forallb _ (a_params a)); [|exact I]. rewrite EC, !subst_simple by (rewrite ?Forall_app; auto). cbn [bind].
  destruct (subst_shape s (a_pre a)) as (g & Eg & Hg). { destruct (wf_conjuncts _ W) as [_ X]. destruct (a_pre a) as [| |? ?|[] fs|? ? ?]; auto. discriminate C. }
  destruct (subst_shape s (a_pre a1) G) as (g' & Eg' & Hg'). rewrite Eg, Eg'. cbn [bind]. split; [rewrite Hg, Hg'; apply lits_subst; auto|]. split.
  - rewrite Forall_map. eapply Forall_impl; [|exact S0]. intros. now apply simple_subE.
  - exists (map (subE s) (a_effs a1)). split; [|split].
    + clear - F S0. induction F as [|e e1 es es1 H _ IH]; [constructor|]. inversion S0; subst. cbn [map]. constructor; [apply eff_rel_subst; auto|auto].
    + rewrite Forall_map. eapply Forall_impl; [|exact S1]. intros. now apply simple_subE.
    + rewrite map_app. f_equal. clear - S1. induction S1 as [|e es H _ IH]; [reflexivity|]. cbn [flat_map map]. rewrite map_app, IH, counter_subst; auto.
Qed.

(** * States *)
Section Step.
Variables (D : domains) (sub : sort -> sort -> bool) (L : list string) (negs : list (psym * psym)).
Hypothesis TD : typed_domains D sub.
Hypothesis NF : forall p q, In (p, q) negs -> exists n ss, p = PU n ss /\ q = PU (neg_name n) ss /\ ~ In (neg_name n) L /\ In n L.
Definition old (p : psym) : Prop := forall n ss, p = PU n ss -> In n L.
Lemma old_not_new p : old p -> ~ In p (map snd negs).
Proof. intros O H. apply in_map_iff in H as ([a b] & <- & H). destruct (NF _ _ H) as (n & ss & -> & E & X & _). cbn [snd] in *. apply X. eapply O; eauto. Qed.
Lemma neg_name_inj a b : neg_name a = neg_name b -> a = b.
Proof. unfold neg_name. cbn. intros H. congruence. Qed.
Lemma negs_inj p q p' : In (p, q) negs -> In (p', q) negs -> p' = p.
Proof. intros H H'. destruct (NF _ _ H) as (n & ss & -> & -> & _), (NF _ _ H') as (n' & ss' & -> & E & _). assert (E1 : neg_name n = neg_name n') by congruence. apply neg_name_inj in E1. congruence. Qed.
Lemma dget_negs p q : dget psym_eqb negs p = Some q <-> In (p, q) negs.
Proof.
  split; [apply (dget_In psym_eqb psym_eqb_eq)|]. intros H. destruct (dget psym_eqb negs p) as [q'|] eqn:E.
  - apply (dget_In psym_eqb psym_eqb_eq) in E. destruct (NF _ _ H) as (n & ss & -> & -> & _), (NF _ _ E) as (n' & ss' & X & -> & _). congruence.
  - apply (dget_keys psym_eqb psym_eqb_eq) in E. exfalso. apply E. apply in_map_iff. exists (p, q). auto.
Qed.
Lemma domain_consts ss ts : in_domains D ss ts -> Forall2 (fun t s => exists c r, t = Cst c r /\ sub r s = true) ts ss.
Proof. induction 1 as [|t s ts ss (cs & A & B) _ IH]; constructor; auto. eapply TD; eauto. Qed.
Lemma eval_consts m ss ts : in_domains D ss ts -> mapM (evaluate_t m) ts = Ok ts.
Proof. intros H. apply domain_consts in H. induction H as [|t s ts ss (c & r & -> & _) _ IH]; [reflexivity|]. cbn [mapM evaluate_t eval_term]. rewrite IH. reflexivity. Qed.
Lemma eval_lit m m' l l' : complemented D negs m m' -> lit_rel negs l l' -> (forall n ss ts, l = Comp Not [Atom (PU n ss) ts] -> in_domains D ss ts) -> (forall p, In p (f_preds l) -> old p) -> eval_f m' l' = eval_f m l.
Proof.
  intros (C1 & C2 & C3) [-> |(n & ss & q & ts & -> & H & ->)] Hd Ho.
  - apply eval_local; [intros p pt Hp; apply C1, old_not_new; auto|intros; apply C2].
  - specialize (Hd n ss ts eq_refl). destruct (NF _ _ H) as (n' & ss' & X & -> & _). injection X as <- <-. change (eval_f m (Comp Not [Atom (PU n ss) ts])) with (match eval_f m (Atom (PU n ss) ts) with Err e => Err e | Ok b => Ok (negb b) end).
    rewrite !eval_atom, !(eval_consts _ ss ts) by auto. rewrite (C3 _ _ ss ts H); eauto.
Qed.
Definition all_old (f : formula) : Prop := forall p, In p (f_preds f) -> old p.
Lemma eval_rel m m' f f' : complemented D negs m m' -> Forall2 (lit_rel negs) (conjuncts f) (conjuncts f') -> negated_in_domain D f -> all_old f -> eval_f m' f' = eval_f m f.
Proof.
  intros C R Hd Ho. rewrite !eval_conjuncts. assert (Ho' : forall l, In l (conjuncts f) -> forall p, In p (f_preds l) -> old p) by (intros l Hl p Hp; apply Ho; apply conjuncts_preds; eauto). unfold negated_in_domain in Hd. clear Ho.
  induction R as [|l l' ls ls' H _ IH]; [reflexivity|]. cbn [eval_all]. rewrite (eval_lit m m' l l' C H).
  - rewrite IH; [reflexivity|intros; eapply Hd; right; eauto|intros; eapply Ho'; [right|]; eauto].
  - intros n ss ts ->. apply (Hd n). left. auto.
  - apply Ho'. left. auto.
Qed.
Lemma preds_rel f f' x : Forall2 (lit_rel negs) (conjuncts f) (conjuncts f') -> In x (f_preds f') -> In x (f_preds f) \/ exists p, In (p, x) negs /\ In p (f_preds f).
Proof.
  intros R H. apply conjuncts_preds in H as (l' & Hl' & H). destruct (Forall2_In_r _ _ _ _ R Hl') as (l & Hl & [-> |(n & ss & q & ts & -> & N & ->)]).
  - left. apply conjuncts_preds. eauto.
  - cbn [f_preds] in H. destruct H as [<-|H]; [right; exists (PU n ss); split; [auto|]; apply conjuncts_preds; eexists; split; [eauto|]; cbn; auto|]. left. apply conjuncts_preds. eexists. split; [eauto|]. cbn. rewrite app_nil_r. auto.
Qed.
Definition eff_old (e : effect) : Prop := all_old (econd e) /\ forall p, In p (writes_p e) -> old p.
Section Effects.
Variables (effs es1 : list effect).
Hypotheses (FR : Forall2 (eff_rel negs) effs es1) (S0 : Forall simple_effect effs) (S1 : Forall simple_effect es1).
Hypotheses (HO : forall e, In e effs -> eff_old e) (HD : forall e, In e effs -> negated_in_domain D (econd e) /\ domain_effect D e) (HU : undisturbed effs).
Let effs' := es1 ++ flat_map (counter negs) es1.
Lemma es1_add c1 a : In (EAdd c1 a) es1 -> exists c, In (EAdd c a) effs /\ Forall2 (lit_rel negs) (conjuncts c) (conjuncts c1).
Proof. intros H. destruct (Forall2_In_r _ _ _ _ FR H) as (e & He & c & E & R & _). destruct e; try discriminate. injection E as <- <-. eauto. Qed.
Lemma es1_del c1 a : In (EDel c1 a) es1 -> exists c, In (EDel c a) effs /\ Forall2 (lit_rel negs) (conjuncts c) (conjuncts c1).
Proof. intros H. destruct (Forall2_In_r _ _ _ _ FR H) as (e & He & c & E & R & _). destruct e; try discriminate. injection E as <- <-. eauto. Qed.
Lemma effs_add c a : In (EAdd c a) effs -> exists c1, In (EAdd c1 a) es1 /\ Forall2 (lit_rel negs) (conjuncts c) (conjuncts c1).
Proof. intros H. destruct (Forall2_In_l _ _ _ _ FR H) as (e & He & c1 & -> & R & _). eauto. Qed.
Lemma effs_del c a : In (EDel c a) effs -> exists c1, In (EDel c1 a) es1 /\ Forall2 (lit_rel negs) (conjuncts c) (conjuncts c1).
Proof. intros H. destruct (Forall2_In_l _ _ _ _ FR H) as (e & He & c1 & -> & R & _). eauto. Qed.
Lemma effs'_add c a : In (EAdd c a) effs' <-> In (EAdd c a) es1 \/ exists p q ts, a = Atom q ts /\ In (p, q) negs /\ In (EDel c (Atom p ts)) es1.
Proof.
  unfold effs'. rewrite in_app_iff, in_flat_map. split; (intros [H|H]; [auto|right]).
  - destruct H as (e & He & H). rewrite Forall_forall in S1. destruct (S1 _ He) as (c0 & p & ts & [-> | ->]); cbn [counter] in H; (destruct (dget psym_eqb negs p) as [q|] eqn:E; [|destruct H]); destruct H as [H|[]]; try discriminate. injection H as <- <-. apply dget_negs in E. exists p, q, ts. auto.
  - destruct H as (p & q & ts & -> & N & H). eexists. split; [exact H|]. cbn [counter]. rewrite (proj2 (dget_negs p q) N). left. auto.
Qed.
Lemma effs'_del c a : In (EDel c a) effs' <-> In (EDel c a) es1 \/ exists p q ts, a = Atom q ts /\ In (p, q) negs /\ In (EAdd c (Atom p ts)) es1.
Proof.
  unfold effs'. rewrite in_app_iff, in_flat_map. split; (intros [H|H]; [auto|right]).
  - destruct H as (e & He & H). rewrite Forall_forall in S1. destruct (S1 _ He) as (c0 & p & ts & [-> | ->]); cbn [counter] in H; (destruct (dget psym_eqb negs p) as [q|] eqn:E; [|destruct H]); destruct H as [H|[]]; try discriminate. injection H as <- <-. apply dget_negs in E. exists p, q, ts. auto.
  - destruct H as (p & q & ts & -> & N & H). eexists. split; [exact H|]. cbn [counter]. rewrite (proj2 (dget_negs p q) N). left. auto.
Qed.
Lemma effs'_simple : Forall simple_effect effs'.
Proof.
  unfold effs'. apply Forall_app. split; [exact S1|]. apply Forall_forall. intros x Hx. apply in_flat_map in Hx as (e & He & Hx). rewrite Forall_forall in S1.
  assert (C := counter_simple negs e (S1 e He)). rewrite Forall_forall in C. auto.
Qed.
(** Conditions of the new effects, and what they write *)
Lemma effs'_inv e' : In e' effs' -> exists e, In e effs /\ Forall2 (lit_rel negs) (conjuncts (econd e)) (conjuncts (econd e')) /\ forall x, In x (writes_p e') -> In x (writes_p e) \/ exists p, In (p, x) negs /\ In p (writes_p e).
Proof.
  intros H. assert (S := effs'_simple). rewrite Forall_forall in S. destruct (S _ H) as (c & p & ts & [-> | ->]).
  - apply effs'_add in H as [H|(p' & q & us & E & N & H)].
    + apply es1_add in H as (c0 & H & R). exists (EAdd c0 (Atom p ts)). split; [auto|]. split; [auto|]. cbn. auto.
    + injection E as <- <-. apply es1_del in H as (c0 & H & R). exists (EDel c0 (Atom p' ts)). split; [auto|]. split; [auto|]. cbn. intros x [<-|[]]. right. exists p'. auto.
  - apply effs'_del in H as [H|(p' & q & us & E & N & H)].
    + apply es1_del in H as (c0 & H & R). exists (EDel c0 (Atom p ts)). split; [auto|]. split; [auto|]. cbn. auto.
    + injection E as <- <-. apply es1_add in H as (c0 & H & R). exists (EAdd c0 (Atom p' ts)). split; [auto|]. split; [auto|]. cbn. intros x [<-|[]]. right. exists p'. auto.
Qed.
Lemma simple_reads e : simple_effect e -> reads_p e = f_preds (econd e) /\ writes_f e = [] /\ is_single e = true.
Proof. intros (c & p & ts & [-> | ->]); auto. Qed.
Lemma effs_independent l : Forall simple_effect l -> (forall e e' p, In e l -> In e' l -> In p (writes_p e) -> ~ In p (f_preds (econd e'))) -> independent l.
Proof.
  intros S H. apply FOP_all. rewrite Forall_forall in S. intros a b Ha Hb. destruct (simple_reads a (S _ Ha)) as (R1 & W1 & _), (simple_reads b (S _ Hb)) as (R2 & W2 & _).
  split; split; rewrite ?R1, ?R2, ?W1, ?W2.
  - intros p Hp. exact (H a b p Ha Hb Hp).
  - intros f [].
  - intros p Hp. exact (H b a p Hb Ha Hp).
  - intros f [].
Qed.
Lemma effs'_undisturbed : forall e e' p, In e effs' -> In e' effs' -> In p (writes_p e) -> ~ In p (f_preds (econd e')).
Proof.
  intros e e' x He He' Hw Hr. destruct (effs'_inv e He) as (e0 & H0 & _ & W). destruct (effs'_inv e' He') as (e0' & H0' & R' & _). destruct (preds_rel _ _ _ R' Hr) as [Hr0|(p & N & Hr0)]; destruct (W x Hw) as [Hw0|(p' & N' & Hw0)].
  - exact (HU e0 e0' x H0 H0' Hw0 Hr0).
  - eapply old_not_new; [apply (proj1 (HO e0' H0')); exact Hr0|]. apply in_map_iff. exists (p', x). auto.
  - eapply old_not_new; [apply (proj2 (HO e0 H0)); exact Hw0|]. apply in_map_iff. exists (p, x). auto.
  - rewrite (negs_inj _ _ _ N' N) in Hr0. exact (HU e0 e0' p' H0 H0' Hw0 Hr0).
Qed.
Variables (m m' : model).
Hypothesis CM : complemented D negs m m'.
Lemma cond_same e c1 : In e effs -> Forall2 (lit_rel negs) (conjuncts (econd e)) (conjuncts c1) -> eval_f m' c1 = eval_f m (econd e).
Proof. intros He R. apply eval_rel; auto; [apply HD; auto|]. apply HO. auto. Qed.
Lemma adds_old p pt : old p -> adds m' effs' p pt <-> adds m effs p pt.
Proof.
  intros O. split.
  - intros (c & H & E). apply effs'_add in H as [H|(p' & q & ts & X & N & _)].
    + apply es1_add in H as (c0 & H & R). exists c0. split; [auto|]. rewrite <- E. symmetry. exact (cond_same _ _ H R).
    + injection X as <- <-. exfalso. apply (old_not_new _ O). apply in_map_iff. exists (p', p). auto.
  - intros (c & H & E). destruct (effs_add _ _ H) as (c1 & H1 & R). exists c1. split; [apply effs'_add; auto|]. rewrite <- E. exact (cond_same _ _ H R).
Qed.
Lemma dels_old p pt : old p -> dels m' effs' p pt <-> dels m effs p pt.
Proof.
  intros O. split.
  - intros (c & H & E). apply effs'_del in H as [H|(p' & q & ts & X & N & _)].
    + apply es1_del in H as (c0 & H & R). exists c0. split; [auto|]. rewrite <- E. symmetry. exact (cond_same _ _ H R).
    + injection X as <- <-. exfalso. apply (old_not_new _ O). apply in_map_iff. exists (p', p). auto.
  - intros (c & H & E). destruct (effs_del _ _ H) as (c1 & H1 & R). exists c1. split; [apply effs'_del; auto|]. rewrite <- E. exact (cond_same _ _ H R).
Qed.
Lemma written_old c a : In (EAdd c a) effs \/ In (EDel c a) effs -> forall p ts, a = Atom p ts -> old p.
Proof. intros [H|H] p ts ->; apply (proj2 (HO _ H)); left; auto. Qed.
Lemma adds_new p q pt : In (p, q) negs -> adds m' effs' q pt <-> dels m effs p pt.
Proof.
  intros N. split.
  - intros (c & H & E). apply effs'_add in H as [H|(p' & q' & ts & X & N' & H)].
    + apply es1_add in H as (c0 & H & R). exfalso. apply (old_not_new q); [eapply written_old; eauto|]. apply in_map_iff. exists (p, q). auto.
    + injection X as <- <-. rewrite (negs_inj _ _ _ N N') in H. apply es1_del in H as (c0 & H & R). exists c0. split; [auto|]. rewrite <- E. symmetry. exact (cond_same _ _ H R).
  - intros (c & H & E). destruct (effs_del _ _ H) as (c1 & H1 & R). exists c1. split; [apply effs'_add; right; exists p, q, pt; auto|]. rewrite <- E. exact (cond_same _ _ H R).
Qed.
Lemma dels_new p q pt : In (p, q) negs -> dels m' effs' q pt <-> adds m effs p pt.
Proof.
  intros N. split.
  - intros (c & H & E). apply effs'_del in H as [H|(p' & q' & ts & X & N' & H)].
    + apply es1_del in H as (c0 & H & R). exfalso. apply (old_not_new q); [eapply written_old; eauto|]. apply in_map_iff. exists (p, q). auto.
    + injection X as <- <-. rewrite (negs_inj _ _ _ N N') in H. apply es1_add in H as (c0 & H & R). exists c0. split; [auto|]. rewrite <- E. symmetry. exact (cond_same _ _ H R).
  - intros (c & H & E). destruct (effs_add _ _ H) as (c1 & H1 & R). exists c1. split; [apply effs'_del; right; exists p, q, pt; auto|]. rewrite <- E. exact (cond_same _ _ H R).
Qed.
Lemma singles l : Forall simple_effect l -> forallb is_single l = true.
Proof. intros S. apply forallb_forall. rewrite Forall_forall in S. intros e He. apply simple_reads. auto. Qed.
Lemma apply_add m0 c p ts : is_ok (apply_effect D sub m0 (EAdd c (Atom p ts))) = match eval_f m0 c with Ok true => is_ok (m_add sub m0 p ts) | Ok false => true | Err _ => false end.
Proof. unfold apply_effect. cbn [edepth apply_effect_n econd]. destruct (eval_f m0 c) as [[]|]; reflexivity. Qed.
Lemma apply_del m0 c p ts : is_ok (apply_effect D sub m0 (EDel c (Atom p ts))) = match eval_f m0 c with Ok _ => true | Err _ => false end.
Proof. unfold apply_effect. cbn [edepth apply_effect_n econd]. destruct (eval_f m0 c) as [[]|]; reflexivity. Qed.
Lemma add_domain m0 m1 p ts : is_ok (m_add sub m0 p ts) = is_ok (m_add sub m1 p ts).
Proof. apply eq_true_iff_eq. rewrite !add_ok. tauto. Qed.
Hypotheses (Hm : is_state sub m) (Hm' : is_state sub m').
Lemma progress_same_ok : is_ok (progress D sub m' effs') = is_ok (progress D sub m effs).
Proof.
  rewrite (progress_ok D sub m' effs' Hm' (singles _ effs'_simple) (effs_independent _ effs'_simple effs'_undisturbed)), (progress_ok D sub m effs Hm (singles _ S0) (effs_independent _ S0 HU)).
  apply eq_true_iff_eq. rewrite !forallb_forall. split; intros H e He.
  - rewrite Forall_forall in S0. destruct (S0 _ He) as (c & p & ts & [-> | ->]).
    + destruct (effs_add _ _ He) as (c1 & H1 & R). specialize (H (EAdd c1 (Atom p ts)) (proj2 (effs'_add _ _) (or_introl H1))). rewrite apply_add in *. rewrite (cond_same _ _ He R) in H. cbn [econd] in H. rewrite (add_domain m m'). exact H.
    + destruct (effs_del _ _ He) as (c1 & H1 & R). specialize (H (EDel c1 (Atom p ts)) (proj2 (effs'_del _ _) (or_introl H1))). rewrite apply_del in *. rewrite (cond_same _ _ He R) in H. exact H.
  - assert (S := effs'_simple). rewrite Forall_forall in S. destruct (S _ He) as (c & p & ts & [-> | ->]).
    + apply effs'_add in He as [He|(p' & q & us & E & N & He)].
      * apply es1_add in He as (c0 & H0 & R). specialize (H _ H0). rewrite apply_add in *. rewrite (cond_same _ _ H0 R). cbn [econd]. rewrite (add_domain m' m). exact H.
      * injection E as <- <-. apply es1_del in He as (c0 & H0 & R). assert (H1 := H _ H0). rewrite apply_del in H1. rewrite apply_add. rewrite (cond_same _ _ H0 R). cbn [econd]. destruct (eval_f m c0) as [[]|]; try discriminate; auto.
        destruct (HD _ H0) as [_ (c2 & n & ss & us & X & Dm)]. destruct X as [X|X]; [discriminate|]. injection X as _ -> ->. destruct (NF _ _ N) as (n' & ss' & X & -> & _). injection X as <- <-. apply add_ok. exists (neg_name n), ss. split; [auto|]. apply domain_consts. auto.
    + apply effs'_del in He as [He|(p' & q & us & E & N & He)].
      * apply es1_del in He as (c0 & H0 & R). specialize (H _ H0). rewrite apply_del in *. rewrite (cond_same _ _ H0 R). exact H.
      * injection E as <- <-. apply es1_add in He as (c0 & H0 & R). specialize (H _ H0). rewrite apply_add in H. rewrite apply_del. rewrite (cond_same _ _ H0 R). cbn [econd]. destruct (eval_f m c0) as [[]|]; try discriminate; auto.
Qed.
Hypothesis CF : conflict_free m effs.
Lemma progress_complemented m1 m1' : progress D sub m effs = Ok m1 -> progress D sub m' effs' = Ok m1' -> (forall p pt, m_holds m p pt = true -> old p) -> complemented D negs m1 m1' /\ is_state sub m1 /\ is_state sub m1' /\ (forall p pt, m_holds m1 p pt = true -> old p).
Proof.
  intros P P' HI. destruct (progress_successor D sub m effs m1 Hm (singles _ S0) (effs_independent _ S0 HU) P) as [(A & B & _) ST].
  destruct (progress_successor D sub m' effs' m1' Hm' (singles _ effs'_simple) (effs_independent _ effs'_simple effs'_undisturbed) P') as [(A' & B' & _) ST'].
  destruct CM as (C1 & C2 & C3).
  assert (NA : forall l m0 f pt v, Forall simple_effect l -> ~ assigns m0 l f pt v). { intros l m0 f pt v S (i & c & r & H & _). rewrite Forall_forall in S. destruct (S _ H) as (c0 & p0 & ts0 & [X|X]); discriminate. }
  split; [|split; [auto|split; [auto|]]].
  - split; [|split].
    + intros p pt Np. destruct (in_dec string_dec (match p with PU n _ => n | PB _ => ""%string end) L) as [Hin|Hnin].
      * assert (O : old p) by (intros n ss ->; exact Hin). apply eq_true_iff_eq. rewrite A, A', adds_old, dels_old, C1 by auto. tauto.
      * destruct p as [b|n ss].
        { assert (O : old (PB b)) by (intros n ss; discriminate). apply eq_true_iff_eq. rewrite A, A', adds_old, dels_old, C1 by auto. tauto. }
        assert (No : ~ old (PU n ss)) by (intros O; apply Hnin; eapply O; eauto).
        assert (X : m_holds m1 (PU n ss) pt = false). { apply not_true_iff_false. rewrite A. intros [(c & H & _)|[H _]]; [apply No; eapply written_old; eauto|apply No; eapply HI; eauto]. }
        rewrite X. apply not_true_iff_false. rewrite A'. intros [(c & H & _)|[H _]].
        -- apply effs'_add in H as [H|(p' & q & ts & E & N & _)]; [apply es1_add in H as (c0 & H & _); apply No; eapply written_old; eauto|]. injection E as <- <-. apply Np. apply in_map_iff. eexists. split; [|exact N]. reflexivity.
        -- rewrite C1 in H by auto. apply No. eapply HI; eauto.
    + intros f pt. rewrite B, B' by (intros v; apply NA; auto using effs'_simple). apply C2.
    + intros p q ss pt N (n & ->) Dm. assert (CC := C3 _ _ ss pt N (ex_intro _ n eq_refl) Dm). apply eq_true_iff_eq. rewrite A', (adds_new _ _ pt N), (dels_new _ _ pt N), CC, !negb_true_iff, <- !not_true_iff_false, A. split.
      * intros [H|[H1 H2]] [X|[X1 X2]]; auto. eapply CF; eauto.
      * intros H. assert (NAd : ~ adds m effs (PU n ss) pt) by tauto. destruct (m_holds m (PU n ss) pt) eqn:E; [|right; split; [discriminate|auto]]. left.
        destruct (adds_dec m' effs' q pt) as [X|X]; [apply (adds_new _ _ pt N); auto|]. exfalso. apply H. right. split; [auto|]. intros Y. apply X. apply (adds_new _ _ pt N). auto.
  - intros p pt H. apply A in H as [(c & H & _)|[H _]]; [eapply written_old; eauto|eauto].
Qed.
End Effects.
End Step.

(** * The initial state *)
Lemma in_domains_bindings D ss bs pt : signature_bindings D ss = Ok bs -> In pt bs <-> in_domains D ss pt.
Proof.
  unfold signature_bindings. destruct (mapM _ ss) as [ds|] eqn:E; [|discriminate]. cbn [bind]. intros [= <-]. rewrite product_In. apply mapM_ok_Forall2 in E. unfold in_domains. revert pt.
  induction E as [|s d ss ds H _ IH]; intros pt.
  - split; intros H; inversion H; constructor.
  - destruct (D s) as [cs|] eqn:Ds; [|discriminate]. injection H as <-. split; intros H; inversion H as [|? ? ? ? Hd Ht]; subst; constructor; try (apply IH; auto); eauto. destruct Hd as (cs' & X & Y). congruence.
Qed.
Lemma add_points_spec sub q : forall pts m m', is_state sub m -> add_points sub q pts m = Ok m' -> is_state sub m' /\ (forall x pt, m_holds m' x pt = true <-> m_holds m x pt = true \/ (x = q /\ In pt pts)) /\ (forall f pt, m_value m' f pt = m_value m f pt).
Proof.
  induction pts as [|p pts IH]; intros m m' S H; cbn [add_points] in H.
  - injection H as <-. split; [auto|]. split; [|auto]. intros. cbn. tauto.
  - destruct (m_add sub m q p) as [m1|] eqn:E; [|discriminate]. cbn [bind] in H. assert (S1 := state_add _ _ _ _ _ S E). destruct (add_spec _ _ _ _ _ E (state_proper _ _ S)) as (_ & A & B). destruct (IH _ _ S1 H) as (S2 & A2 & B2). split; [auto|]. split.
    + intros x pt. rewrite A2, A, orb_true_iff, same_atom_eq. cbn. intuition (subst; auto).
    + intros. rewrite B2. auto.
Qed.
Lemma add_complements_spec D sub L : forall negs m m', is_state sub m -> (forall p q, In (p, q) negs -> exists n ss, p = PU n ss /\ q = PU (neg_name n) ss /\ ~ In (neg_name n) L /\ In n L) -> add_complements D sub negs m = Ok m' ->
  is_state sub m' /\ (forall f pt, m_value m' f pt = m_value m f pt) /\
  forall x pt, m_holds m' x pt = true <-> m_holds m x pt = true \/ exists n ss, In (PU n ss, x) negs /\ in_domains D ss pt /\ m_holds m (PU n ss) pt = false.
Proof.
  induction negs as [|[p q] negs IH]; intros m m' S NF H; cbn [add_complements] in H.
  - injection H as <-. split; [auto|]. split; [auto|]. intros. split; [auto|]. intros [X|(n & ss & [] & _)]. auto.
  - destruct (NF p q (or_introl eq_refl)) as (n & ss & -> & -> & N1 & N2). unfold complementary_atoms in H. cbn [psorts] in H. destruct (signature_bindings D ss) as [bs|] eqn:Eb; [|discriminate]. cbn [bind] in H.
    destruct (add_points sub _ _ m) as [m1|] eqn:E; [|discriminate]. cbn [bind] in H. destruct (add_points_spec _ _ _ _ _ S E) as (S1 & A & B).
    destruct (IH m1 m' S1) as (S2 & B2 & A2); [intros; apply NF; right; auto|auto|]. split; [auto|]. split; [intros; rewrite B2; auto|]. intros x pt. rewrite A2, A, filter_In, negb_true_iff, (in_domains_bindings D ss bs pt Eb).
    assert (OLD : forall n' ss' r, In (PU n' ss', r) negs -> m_holds m1 (PU n' ss') pt = m_holds m (PU n' ss') pt).
    { intros n' ss' r Hr. apply eq_true_iff_eq. rewrite A. split; [|auto]. intros [X|[X _]]; [auto|]. injection X as X _. destruct (NF _ r (or_intror Hr)) as (n2 & ss2 & Y & _ & _ & Z). injection Y as <- <-. rewrite X in Z. contradiction. }
    split.
    + intros [[X|(-> & X & Y)]|(n' & ss' & X & Y & Z)]; [auto|right; exists n, ss; cbn; auto|]. right. exists n', ss'. split; [right; auto|]. split; [auto|]. rewrite <- (OLD n' ss' x); auto.
    + intros [X|(n' & ss' & [X|X] & Y & Z)]; [auto|left; right|right].
      * injection X as <- <- <-. auto.
      * exists n', ss'. split; [auto|]. split; [auto|]. rewrite (OLD n' ss' x); auto.
Qed.

(** * Plans *)
Lemma preds_subst s : const_subst s -> (forall t p, In p (t_preds (subst_term (of_vars s) t)) -> In p (t_preds t)) /\ (forall f p, In p (f_preds (subst_formula (of_vars s) f)) -> In p (f_preds f)).
Proof.
  intros C. assert (LT : forall ts, Forall (fun t => forall p, In p (t_preds (subst_term (of_vars s) t)) -> In p (t_preds t)) ts -> forall p, In p (flat_map t_preds (map (subst_term (of_vars s)) ts)) -> In p (flat_map t_preds ts)).
  { intros ts H p. rewrite !in_flat_map. intros (u & Hu & Hp). apply in_map_iff in Hu as (t & <- & Ht). rewrite Forall_forall in H. exists t. split; auto. }
  apply syntax_ind.
  - intros x r p H. rewrite subst_var in H. destruct (lookup s (x, r)) as [t|] eqn:E; [|auto]. apply lookup_In in E. destruct (C _ _ E) as (c & u & ->). destruct H.
  - intros c r p H. rewrite subst_cst in H. auto.
  - intros f ts IH p H. rewrite subst_app in H. cbn [t_preds] in *. auto.
  - intros c a b Hc Ha Hb p H. rewrite subst_ite in H. cbn [t_preds] in *. rewrite !in_app_iff in *. destruct H as [H|[H|H]]; auto.
  - auto.
  - auto.
  - intros p ts IH q H. rewrite subst_f_unfold in H. cbn [f_preds In] in *. destruct H; auto.
  - intros c fs IH p H. rewrite (subst_f_unfold s (Comp c fs)) in H. cbn [f_preds] in *. rewrite in_flat_map in *. destruct H as (g & Hg & Hp). apply in_map_iff in Hg as (h & <- & Hh). rewrite Forall_forall in IH. eauto.
  - intros q vs f Hv Hf p H. rewrite (subst_f_unfold s (Quant q vs f)) in H. cbn [f_preds] in *. rewrite in_app_iff in *. destruct H; auto.
Qed.
Lemma ground_old L a vs pre effs : plain_action L a -> const_subst vs -> Forall simple_effect (a_effs a) -> ground_schema a (of_vars vs) = Ok (pre, effs) -> all_old L pre /\ forall e, In e effs -> eff_old L e.
Proof.
  intros (W & C & K & E & KW) CS S G. unfold ground_schema in G. destruct (forallb _ _); [|discriminate]. rewrite subst_simple in G by auto. cbn [bind] in G. destruct (flatten _) as [g|] eqn:F; [|discriminate]. cbn [bind] in G. injection G as <- <-. split.
  - intros p Hp n ss ->. apply conjuncts_preds in Hp as (l & Hl & Hp). rewrite (flatten_conjuncts _ _ F) in Hl.
    assert (Hl' : In l (conjuncts (subst_formula (of_vars vs) (a_pre a)))). { destruct (a_pre a) as [| |? ?|[] ?|? ? ?]; auto. discriminate C. } apply (K n ss). apply (proj2 (preds_subst vs CS)). apply conjuncts_preds. eauto.
  - intros e He. apply in_map_iff in He as (e0 & <- & He). rewrite Forall_forall in E, S. destruct (E _ He) as [_ KE]. assert (KW' := KW e0). destruct (S _ He) as (c & p & ts & [-> | ->]); cbn [subE econd] in *; (split; [intros q Hq n ss ->; apply (KE n ss); apply (proj2 (preds_subst vs CS)); exact Hq|]; rewrite (subst_f_unfold vs (Atom p ts)); intros q [<-|[]] n ss ->; apply (KW' n ss He); left; auto).
Qed.
Section Plans.
Variables (D : domains) (sub : sort -> sort -> bool) (L : list string) (negs : list (psym * psym)) (acts acts1 acts' : list action).
Hypothesis TD : typed_domains D sub.
Hypothesis NF : forall p q, In (p, q) negs -> exists n ss, p = PU n ss /\ q = PU (neg_name n) ss /\ ~ In (neg_name n) L /\ In n L.
Hypothesis PA : Forall (plain_action L) acts.
Hypothesis RA : Forall2 (act_rel negs) acts acts1.
Hypothesis UA : mapM (update_action negs) acts1 = Ok acts'.
Definition paired (m m' : model) : Prop := complemented D negs m m' /\ is_state sub m /\ is_state sub m' /\ forall p pt, m_holds m p pt = true -> old L p.
Definition pair_rel (a a' : action) : Prop := exists a1, act_rel negs a a1 /\ update_action negs a1 = Ok a'.
Lemma pairs : Forall2 pair_rel acts acts'.
Proof.
  assert (U0 := mapM_ok_Forall2 _ _ _ UA). assert (G : forall l l1 l', Forall2 (act_rel negs) l l1 -> Forall2 (fun x y => update_action negs x = Ok y) l1 l' -> Forall2 pair_rel l l').
  { clear. intros l l1 l' R. revert l'. induction R as [|a a1 l l1 H _ IH]; intros l' U; inversion U as [|? a' ? ? Ua Ul]; subst; constructor; [exists a1; auto|apply IH; exact Ul]. }
  exact (G _ _ _ RA U0).
Qed.
Lemma pair_name a a' : pair_rel a a' -> a_name a' = a_name a.
Proof. intros (a1 & (N & _) & U). unfold update_action in U. destruct (mapM (counterpart negs) (a_effs a1)); [|discriminate]. cbn [bind] in U. injection U as <-. exact N. Qed.
Lemma pair_simple a a' : pair_rel a a' -> Forall simple_effect (a_effs a).
Proof.
  intros (a1 & (_ & _ & _ & _ & _ & F) & U). unfold update_action in U. destruct (mapM (counterpart negs) (a_effs a1)) as [new|] eqn:E; [|discriminate]. destruct (counterparts_spec _ _ _ E) as [_ S1]. clear - F S1.
  induction F as [|e e1 es es1 H _ IH]; [constructor|]. inversion S1; subst. constructor; [eapply simple_rel; eauto|auto].
Qed.
Lemma step_pair m m' a a' name s pre effs pre' effs' : paired m m' -> In a acts -> pair_rel a a' -> a_name a = name -> regular_step D acts (name, s) -> ground_schema a s = Ok (pre, effs) -> ground_schema a' s = Ok (pre', effs') ->
  eval_f m' pre' = eval_f m pre /\ is_ok (progress D sub m' effs') = is_ok (progress D sub m effs) /\ forall m1 m1', progress D sub m effs = Ok m1 -> progress D sub m' effs' = Ok m1' -> paired m1 m1'.
Proof.
  intros (CM & S & S' & O) Ha PR En [(vs & Evs & CS) RS] G G'. cbn [fst snd] in *. subst s. destruct (RS a pre effs Ha En G) as (R1 & R2 & R3 & R4). rewrite Forall_forall in PA. assert (P := PA a Ha). assert (SE := pair_simple _ _ PR).
  destruct PR as (a1 & AR & U). assert (X := ground_related L negs a a1 a' vs P AR U). rewrite G, G' in X. destruct X as (X1 & X2 & es1 & X3 & X4 & ->). destruct (ground_old L a vs pre effs P CS SE G) as [K1 K2].
  split; [eapply eval_rel; eauto|]. split; [eapply progress_same_ok; eauto|]. intros m1 m1' Q Q'. eapply progress_complemented; eauto.
Qed.
Lemma forward m plan m1 : execution D sub acts m plan m1 -> Forall (regular_step D acts) plan -> forall m', paired m m' -> exists m1', execution D sub acts' m' plan m1' /\ paired m1 m1'.
Proof.
  induction 1 as [m|m a s pre effs m1 plan m2 Ha Hg Hap Hpr Hex IH]; intros HR m' PM; [exists m'; split; [constructor|auto]|].
  inversion HR as [|? ? R1 R2]; subst. destruct (Forall2_In_l _ _ _ _ pairs Ha) as (a' & Ha' & PR). assert (PR' := PR). destruct PR' as (a1 & AR & U). destruct (proj1 R1) as (vs & Evs & CS). cbn [snd] in Evs. subst s.
  assert (PAa : plain_action L a) by (rewrite Forall_forall in PA; auto). assert (X := ground_related L negs a a1 a' vs PAa AR U). rewrite Hg in X. destruct (ground_schema a' (of_vars vs)) as [[pre' effs']|] eqn:Hg'; [|contradiction].
  destruct (step_pair m m' a a' (a_name a) (of_vars vs) pre effs pre' effs' PM Ha PR eq_refl R1 Hg Hg') as (E1 & E2 & E3). rewrite Hpr in E2. cbn [is_ok] in E2. destruct (progress D sub m' effs') as [m1'|] eqn:Hpr'; [|discriminate].
  destruct (IH R2 m1' (E3 m1 m1' Hpr eq_refl)) as (m2' & Y1 & Y2). exists m2'. split; [|auto]. rewrite <- (pair_name _ _ PR). eapply ex_step; eauto. unfold is_applicable in *. congruence.
Qed.
Lemma backward m' plan m1' : execution D sub acts' m' plan m1' -> Forall (regular_step D acts) plan -> forall m, paired m m' -> exists m1, execution D sub acts m plan m1 /\ paired m1 m1'.
Proof.
  induction 1 as [m'|m' a' s pre' effs' m1' plan m2' Ha' Hg' Hap Hpr' Hex IH]; intros HR m PM; [exists m; split; [constructor|auto]|].
  inversion HR as [|? ? R1 R2]; subst. destruct (Forall2_In_r _ _ _ _ pairs Ha') as (a & Ha & PR). assert (PR' := PR). destruct PR' as (a1 & AR & U). destruct (proj1 R1) as (vs & Evs & CS). cbn [snd] in Evs. subst s.
  assert (PAa : plain_action L a) by (rewrite Forall_forall in PA; auto). assert (X := ground_related L negs a a1 a' vs PAa AR U). rewrite Hg' in X. destruct (ground_schema a (of_vars vs)) as [[pre effs]|] eqn:Hg; [|contradiction].
  rewrite (pair_name _ _ PR) in R1. destruct (step_pair m m' a a' (a_name a) (of_vars vs) pre effs pre' effs' PM Ha PR eq_refl R1 Hg Hg') as (E1 & E2 & E3). rewrite Hpr' in E2. cbn [is_ok] in E2. destruct (progress D sub m effs) as [m1|] eqn:Hpr; [|discriminate].
  destruct (IH R2 m1 (E3 m1 m1' eq_refl Hpr')) as (m2 & Y1 & Y2). exists m2. split; [|auto]. rewrite (pair_name _ _ PR). eapply ex_step; eauto. unfold is_applicable in *. congruence.
Qed.
End Plans.

(** What the compilation produces *)
Lemma compile_inv D sub L p p' negs : (forall a, In a (p_actions p) -> plain_action L a) -> wf (p_goal p) = true -> conjunction_of literal (p_goal p) = true -> known L (p_goal p) ->
  compile_negated_preconditions_away D sub L p = Ok (p', negs) ->
  (forall x y, In (x, y) negs -> exists n ss, x = PU n ss /\ y = PU (neg_name n) ss /\ ~ In (neg_name n) L /\ In n L) /\
  Forall2 (lit_rel negs) (conjuncts (p_goal p)) (conjuncts (p_goal p')) /\ Forall positive_lit (conjuncts (p_goal p')) /\
  (exists acts1, Forall2 (act_rel negs) (p_actions p) acts1 /\ mapM (update_action negs) acts1 = Ok (p_actions p')) /\ add_complements D sub negs (p_init p) = Ok (p_init p').
Proof.
  intros PA W C K H. unfold compile_negated_preconditions_away in H. destruct (compile_actions (p_actions p) _) as [[acts1 st1]|] eqn:E1; [|discriminate]. cbn [bind fst snd] in H.
  destruct (compile_formula (p_goal p) st1) as [[g st2]|] eqn:E2; [|discriminate]. cbn [bind fst snd] in H. destruct (mapM (update_action (negpreds st2)) acts1) as [acts'|] eqn:E3; [|discriminate]. cbn [bind] in H.
  destruct (add_complements D sub (negpreds st2) (p_init p)) as [m|] eqn:E4; [|discriminate]. cbn [bind] in H. injection H as <- <-. cbn [p_goal p_actions p_init].
  assert (I0 : inv L {| negpreds := []; names := L |}) by (split; [intros ? ? []|apply incl_refl]).
  destruct (compile_actions_spec L _ _ _ _ (proj2 (Forall_forall _ _) PA) I0 E1) as (I1 & _ & R1). destruct (compile_formula_spec L _ _ _ _ W C K I1 E2) as (I2 & A2 & R2 & P2 & _).
  split; [exact (proj1 I2)|]. split; [auto|]. split; [auto|]. split; [|auto]. exists acts1. split; [|auto]. clear - R1 A2. induction R1; constructor; auto. eapply act_rel_mono; eauto.
Qed.
(** Plans correspond step by step: the compiled problem can run exactly the same plans, the atoms of the original predicates are the same
    throughout, the new predicates are the complements of the old ones, and the goals agree. *)
Theorem C26_plans D sub names p p' negs plan :
  typed_domains D sub -> is_state sub (p_init p) -> (forall n ss pt, m_holds (p_init p) (PU n ss) pt = true -> In n names) ->
  (forall a, In a (p_actions p) -> plain_action names a) ->
  wf (p_goal p) = true -> conjunction_of literal (p_goal p) = true -> known names (p_goal p) -> negated_in_domain D (p_goal p) ->
  compile_negated_preconditions_away D sub names p = Ok (p', negs) -> Forall (regular_step D (p_actions p)) plan ->
  (forall m, execution D sub (p_actions p) (p_init p) plan m ->
     exists m', execution D sub (p_actions p') (p_init p') plan m' /\ complemented D negs m m' /\ eval_f m' (p_goal p') = eval_f m (p_goal p)) /\
  (forall m', execution D sub (p_actions p') (p_init p') plan m' ->
     exists m, execution D sub (p_actions p) (p_init p) plan m /\ complemented D negs m m' /\ eval_f m' (p_goal p') = eval_f m (p_goal p)).
Proof.
  intros TD S HN PA W C K ND H HR. destruct (compile_inv D sub names p p' negs PA W C K H) as (NF & RG & _ & (acts1 & RA & UA) & AC). destruct (add_complements_spec D sub names negs _ _ S NF AC) as (S' & V & A).
  assert (HB : forall b pt, m_holds (p_init p) (PB b) pt = true -> old names (PB b)) by (intros; intros ? ? X; discriminate X).
  assert (HO : forall q pt, m_holds (p_init p) q pt = true -> old names q) by (intros [b|n ss] pt X; [apply (HB b pt X)|intros n' ss' Y; injection Y as <- <-; eapply HN; eauto]).
  assert (P0 : paired D sub names negs (p_init p) (p_init p')).
  { split; [|split; [auto|split; [auto|exact HO]]]. split; [|split; [auto|]].
    - intros q pt Hq. apply eq_true_iff_eq. rewrite A. split; [|auto]. intros [X|(n & ss & X & _)]; [auto|]. exfalso. apply Hq. apply in_map_iff. eexists. split; [|exact X]. reflexivity.
    - intros x q ss pt Hx (n & ->) Dm. apply eq_true_iff_eq. rewrite A, negb_true_iff. split.
      + intros [X|(n' & ss' & X & Y & Z)].
        * exfalso. apply (old_not_new names negs NF q); [eapply HO; eauto|]. apply in_map_iff. eexists. split; [|exact Hx]. reflexivity.
        * assert (E := negs_inj names negs NF _ _ _ Hx X). injection E as -> ->. auto.
      + intros X. right. exists n, ss. auto. }
  assert (GO : forall m m', paired D sub names negs m m' -> eval_f m' (p_goal p') = eval_f m (p_goal p)).
  { intros m m' (CM & _). eapply eval_rel; eauto. intros q Hq n ss ->. eapply K; eauto. }
  split.
  - intros m E. destruct (forward D sub names negs _ _ _ TD NF (proj2 (Forall_forall _ _) PA) RA UA _ _ _ E HR _ P0) as (m' & E' & PM). exists m'. split; [auto|]. split; [apply PM|auto].
  - intros m' E. destruct (backward D sub names negs _ _ _ TD NF (proj2 (Forall_forall _ _) PA) RA UA _ _ _ E HR _ P0) as (m & E' & PM). exists m. split; [auto|]. split; [apply PM|auto].
Qed.
(** The compiled problem has no negated atoms of user predicates in preconditions, effect conditions and goal. *)
Theorem C26_negation_free D sub names p p' negs :
  (forall a, In a (p_actions p) -> plain_action names a) -> wf (p_goal p) = true -> conjunction_of literal (p_goal p) = true -> known names (p_goal p) ->
  compile_negated_preconditions_away D sub names p = Ok (p', negs) ->
  no_negated_user_atom (p_goal p') /\ forall a, In a (p_actions p') -> no_negated_user_atom (a_pre a) /\ forall e, In e (a_effs a) -> econd e = Top \/ no_negated_user_atom (econd e).
Proof.
  intros PA W C K H. destruct (compile_inv D sub names p p' negs PA W C K H) as (NF & _ & PG & (acts1 & RA & UA) & _). assert (Q : forall f, Forall positive_lit (conjuncts f) -> no_negated_user_atom f) by (intros f F; rewrite Forall_forall in F; exact F).
  split; [auto|]. intros a' Ha'. apply mapM_ok_Forall2 in UA. destruct (Forall2_In_r _ _ _ _ UA Ha') as (a1 & Ha1 & U). destruct (Forall2_In_r _ _ _ _ RA Ha1) as (a & Ha & (_ & _ & _ & _ & P & F)).
  unfold update_action in U. destruct (mapM (counterpart negs) (a_effs a1)) as [new|] eqn:E; [|discriminate]. cbn [bind] in U. injection U as <-. cbn [a_pre a_effs]. split; [auto|]. destruct (counterparts_spec _ _ _ E) as [-> S1].
  assert (G : forall e, In e (a_effs a1) -> econd e = Top \/ no_negated_user_atom (econd e)). { intros e He. destruct (Forall2_In_r _ _ _ _ F He) as (e0 & He0 & c1 & -> & _ & [-> |X]); rewrite econd_set; auto. }
  intros e He. apply in_app_iff in He as [He|He]; [auto|]. apply in_flat_map in He as (e1 & He1 & He). specialize (G e1 He1). rewrite Forall_forall in S1. destruct (S1 _ He1) as (c & q & ts & [-> | ->]); cbn [counter] in He; (destruct (dget psym_eqb negs q); [|destruct He]); destruct He as [<-|[]]; exact G.
Qed.

(** * The hypotheses can be met; failures of the compilation outside of them *)
#[local] Open Scope string_scope.
Definition vx := Var "x" "obj".
Definition act_flip : action := {| a_name := "flip"; a_params := [vx]; a_pre := Comp And [Atom pP [vx]; Comp And [Comp Not [Atom pQ [vx]]; Comp Not [Atom (PB PEq) [vx; o2]]]]; a_effs := [EAdd Top (Atom pQ [vx]); EDel Top (Atom pP [vx])] |}.
Definition prob_flip : problem := {| p_actions := [act_flip]; p_init := sX; p_goal := Comp And [Atom pQ [o1]; Comp Not [Atom pP [o1]]] |}.
Lemma ex_step_named D sub acts m a n s pre effs m1 plan m2 : In a acts -> a_name a = n -> ground_schema a s = Ok (pre, effs) -> is_applicable m pre = Ok true -> progress D sub m effs = Ok m1 -> execution D sub acts m1 plan m2 -> execution D sub acts m ((n, s) :: plan) m2.
Proof. intros H <-. eapply ex_step; eauto. Qed.
Lemma DX_typed : typed_domains DX String.eqb.
Proof. intros s cs t H Ht. unfold DX in H. destruct (String.eqb s "obj") eqn:E; [|discriminate]. apply String.eqb_eq in E. subst s. injection H as <-. destruct Ht as [<-|[<-|[]]]; do 2 eexists; split; reflexivity. Qed.
Lemma o1_obj : in_domains DX ["obj"] [o1]. Proof. constructor; [|constructor]. exists [o1; o2]. split; [reflexivity|left; auto]. Qed.
Lemma sX_names n ss pt : m_holds sX (PU n ss) pt = true -> In n ["p"; "q"].
Proof.
  intros H. unfold m_holds in H. change (dget sig_eqb (preds sX) (psig (PU n ss))) with (if sig_eqb (false, ["p"; "obj"]) (false, n :: ss) then Some [[o1]] else None) in H.
  destruct (sig_eqb (false, ["p"; "obj"]) (false, n :: ss)) eqn:E; [|discriminate]. apply sig_eqb_eq in E. injection E as <- _. left. auto.
Qed.
Definition flip_out := Eval vm_compute in match compile_negated_preconditions_away DX String.eqb ["p"; "q"] prob_flip with Ok r => r | Err _ => (prob_flip, []) end.
Lemma flip_ok : compile_negated_preconditions_away DX String.eqb ["p"; "q"] prob_flip = Ok (fst flip_out, snd flip_out).
Proof. vm_compute. reflexivity. Qed.
Example C26_example : exists p' negs m, typed_domains DX String.eqb /\ is_state String.eqb (p_init prob_flip) /\ (forall n ss pt, m_holds (p_init prob_flip) (PU n ss) pt = true -> In n ["p"; "q"]) /\
  (forall a, In a (p_actions prob_flip) -> plain_action ["p"; "q"] a) /\ wf (p_goal prob_flip) = true /\ conjunction_of literal (p_goal prob_flip) = true /\ known ["p"; "q"] (p_goal prob_flip) /\ negated_in_domain DX (p_goal prob_flip) /\
  compile_negated_preconditions_away DX String.eqb ["p"; "q"] prob_flip = Ok (p', negs) /\ Forall (regular_step DX (p_actions prob_flip)) [("flip", of_vars [(("x", "obj"), o1)])] /\
  execution DX String.eqb (p_actions prob_flip) (p_init prob_flip) [("flip", of_vars [(("x", "obj"), o1)])] m /\ eval_f m (p_goal prob_flip) = Ok true /\ List.length negs = 2.
Proof.
  exists (fst flip_out), (snd flip_out). eexists. split; [exact DX_typed|]. split; [exact sX_state|]. split; [exact sX_names|]. split.
  { intros a [<-|[]]. do 2 (split; [reflexivity|]). split; [|split].
    - intros n ss Hn. cbn in Hn. destruct Hn as [X|[X|[X|[]]]]; try discriminate; injection X as <- _; cbn; auto.
    - constructor; [|constructor; [|constructor]]; (split; [left; reflexivity|intros n ss []]).
    - intros e n ss [<-|[<-|[]]] [X|[]]; injection X as <- _; cbn; auto. }
  do 2 (split; [reflexivity|]). split; [intros n ss [X|[X|[]]]; injection X as <- _; cbn; auto|]. split.
  { intros n ss ts [X|[X|[]]]; [discriminate|]. injection X as <- <- <-. exact o1_obj. }
  split; [exact flip_ok|]. split; [|split; [|split]].
  - constructor; [|constructor]. split.
    + eexists. split; [reflexivity|]. intros x t [E|[]]. injection E as <- <-. do 2 eexists; reflexivity.
    + intros a pre effs [<-|[]] _ G. vm_compute in G. injection G as <- <-. split; [|split; [|split]].
      * intros n ss ts H. cbn in H. destruct H as [X|[X|[X|[]]]]; try discriminate. injection X as <- <- <-. exact o1_obj.
      * intros e [<-|[<-|[]]]; (split; [intros n ss ts [X|[]]; discriminate|]; do 4 eexists; split; [first [left; reflexivity|right; reflexivity]|exact o1_obj]).
      * intros e e' q [<-|[<-|[]]] [<-|[<-|[]]] _ [].
      * intros m q pt (c & [X|[X|[]]] & _) (c' & [Y|[Y|[]]] & _); congruence.
  - eapply ex_step_named; [left; reflexivity|reflexivity|reflexivity|reflexivity|reflexivity|constructor].
  - reflexivity.
  - reflexivity.
Qed.
(** An action that adds and deletes the same atom makes the atom and its "complement" true: afterwards an action that needs the negation can be run. *)
Definition act_both : action := {| a_name := "both"; a_params := []; a_pre := Atom pP [o1]; a_effs := [EAdd Top (Atom pP [o1]); EDel Top (Atom pP [o1])] |}.
Definition prob_both : problem := {| p_actions := [act_both; act_use]; p_init := sX; p_goal := Atom pQ [o1] |}.
Definition both_out := Eval vm_compute in match compile_negated_preconditions_away DX String.eqb ["p"; "q"] prob_both with Ok r => r | Err _ => (prob_both, []) end.
Lemma both_ok : compile_negated_preconditions_away DX String.eqb ["p"; "q"] prob_both = Ok (fst both_out, snd both_out).
Proof. vm_compute. reflexivity. Qed.
Theorem C26_conflict_refuted : exists p' negs m', compile_negated_preconditions_away DX String.eqb ["p"; "q"] prob_both = Ok (p', negs) /\
  execution DX String.eqb (p_actions p') (p_init p') [("both", nosub); ("use", nosub)] m' /\ eval_f m' (p_goal p') = Ok true /\ forall m, ~ execution DX String.eqb (p_actions prob_both) (p_init prob_both) [("both", nosub); ("use", nosub)] m.
Proof.
  exists (fst both_out), (snd both_out). eexists. split; [exact both_ok|]. split; [|split].
  - eapply ex_step_named; [left; reflexivity|reflexivity|reflexivity|reflexivity|reflexivity|]. eapply ex_step_named; [right; left; reflexivity|reflexivity|reflexivity|reflexivity|reflexivity|constructor].
  - reflexivity.
  - intros m H. remember [("both", nosub); ("use", nosub)] as plan eqn:Epl. remember (p_init prob_both) as m0 eqn:Em. destruct H as [|m a s pre effs m1 plan m2 Ha Hg Hap Hpr Hex]; [discriminate|].
    destruct Ha as [<-|[<-|[]]]; [|discriminate Epl]. injection Epl as -> ->. subst m. injection Hg as <- <-. vm_compute in Hpr. injection Hpr as <-.
    remember [("use", nosub)] as plan eqn:Epl. match type of Hex with execution _ _ _ ?x _ _ => remember x as m0 eqn:Em end. destruct Hex as [|m a s pre effs m1 plan m2 Ha Hg Hap2 Hpr Hex]; [discriminate|].
    destruct Ha as [<-|[<-|[]]]; [discriminate Epl|]. injection Epl as -> ->. subst m. injection Hg as <- <-. vm_compute in Hap2. discriminate.
Qed.
(** A conditional effect whose condition is the negation of what it adds no longer fires after the compilation. *)
Definition act_once : action := {| a_name := "once"; a_params := []; a_pre := Atom pP [o1]; a_effs := [EAdd (Comp Not [Atom pQ [o1]]) (Atom pQ [o1])] |}.
Definition prob_once : problem := {| p_actions := [act_once]; p_init := sX; p_goal := Atom pQ [o1] |}.
Definition once_out := Eval vm_compute in match compile_negated_preconditions_away DX String.eqb ["p"; "q"] prob_once with Ok r => r | Err _ => (prob_once, []) end.
Lemma once_ok : compile_negated_preconditions_away DX String.eqb ["p"; "q"] prob_once = Ok (fst once_out, snd once_out).
Proof. vm_compute. reflexivity. Qed.
Theorem C26_conditional_refuted : exists p' negs m m', compile_negated_preconditions_away DX String.eqb ["p"; "q"] prob_once = Ok (p', negs) /\
  execution DX String.eqb (p_actions prob_once) (p_init prob_once) [("once", nosub)] m /\ eval_f m (p_goal prob_once) = Ok true /\ execution DX String.eqb (p_actions p') (p_init p') [("once", nosub)] m' /\ eval_f m' (p_goal p') = Ok false.
Proof.
  exists (fst once_out), (snd once_out). do 2 eexists. split; [exact once_ok|]. split; [|split; [|split]].
  - eapply ex_step_named; [left; reflexivity|reflexivity|reflexivity|reflexivity|reflexivity|constructor].
  - reflexivity.
  - eapply ex_step_named; [left; reflexivity|reflexivity|reflexivity|reflexivity|reflexivity|constructor].
  - reflexivity.
Qed.
(** Disjunctions of literals are turned into conjunctions. *)
Theorem C26_disjunction_refuted : exists g st, compile_formula (Comp Or [Atom pP [o1]; Atom pQ [o1]]) {| negpreds := []; names := ["p"; "q"] |} = Ok (g, st) /\ eval_f sX (Comp Or [Atom pP [o1]; Atom pQ [o1]]) = Ok true /\ eval_f sX g = Ok false.
Proof. do 2 eexists. split; [reflexivity|]. split; reflexivity. Qed.
(** An action without precondition (a tautology) cannot be compiled at all. *)
Theorem C26_no_precondition_refuted st : compile_formula Top st = Err RepresentationError. Proof. reflexivity. Qed.
