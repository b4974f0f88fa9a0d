(** C29, C43: recognisers of STRIPS formulas and effect sets *)
From Verif Require Import ListUtil Base Syntax Semantics SemLemmas Build BuildProofs ModelState ModelProofs Eval Subst SubstProofs QElim Effects ProgressSpec StateLemmas ProgressProofs PropsProgress Represent RepresentSpec.

(** * C43 *)
Lemma fmem_In a l : fmem a l = true <-> In a l.
Proof. unfold fmem. rewrite existsb_exists. split; [intros (x & Hx & E); apply formula_eqb_eq in E; subst; auto|intros H; exists a; split; [auto|apply formula_eqb_refl]]. Qed.
Lemma fadd_In a x l : In a (fadd x l) <-> a = x \/ In a l.
Proof. unfold fadd. destruct (fmem x l) eqn:E; [apply fmem_In in E; intuition (subst; auto)|]. rewrite in_app_iff. cbn. intuition. Qed.
Lemma fadd_NoDup x l : NoDup l -> NoDup (fadd x l).
Proof.
  intros N. unfold fadd. destruct (fmem x l) eqn:E; [auto|]. apply NoDup_app_iff_simple; [auto|repeat constructor; auto|].
  intros y Hy [<-|[]]. apply fmem_In in Hy. congruence.
Qed.
Lemma propositional_check e : negb (is_atomic_effect e) || negb (is_propositional_effect e) = false <-> propositional e.
Proof.
  split.
  - destruct e as [c a|c a|i c l r|c vs es|c l|c]; cbn; try (rewrite ?orb_true_r; discriminate); destruct c; cbn; try discriminate; intros _; exists a; auto.
  - intros (a & [-> | ->]); reflexivity.
Qed.
Lemma conflicts_inv : forall effs done pols confl,
  (forall a, dget formula_eqb pols a = Some true -> In (EAdd Top a) done) -> (forall a, dget formula_eqb pols a = Some false -> In (EDel Top a) done) ->
  (forall a, dget formula_eqb pols a = None -> ~ In (EAdd Top a) done /\ ~ In (EDel Top a) done) ->
  (forall a, In a confl <-> conflicting done a) -> NoDup confl -> Forall propositional effs ->
  exists l, conflicts_loop effs pols confl = Ok l /\ NoDup l /\ forall a, In a l <-> conflicting (done ++ effs) a.
Proof.
  induction effs as [|e effs IH]; intros done pols confl Ht Hf Hn Hc N H.
  { exists confl. rewrite app_nil_r. auto. }
  inversion H as [|? ? He H']; subst. cbn [conflicts_loop]. rewrite (proj2 (propositional_check e) He). destruct He as (a & Ha).
  assert (Ea : effect_atom e = a) by (destruct Ha as [-> | ->]; reflexivity). rewrite Ea.
  set (c' := match dget formula_eqb pols a with Some prev => if Bool.eqb prev (is_add e) then confl else fadd a confl | None => confl end).
  destruct (IH (done ++ [e]) (dset formula_eqb pols a (is_add e)) c') as (l & El & Nl & Hl); auto.
  - intros b. rewrite (dget_dset formula_eqb formula_eqb_eq). destruct (formula_eqb a b) eqn:E; [apply formula_eqb_eq in E; subst b; intros X; apply in_or_app; right; destruct Ha as [-> | ->]; [cbn; auto|discriminate]|]. intros X. apply in_or_app. auto.
  - intros b. rewrite (dget_dset formula_eqb formula_eqb_eq). destruct (formula_eqb a b) eqn:E; [apply formula_eqb_eq in E; subst b; intros X; apply in_or_app; right; destruct Ha as [-> | ->]; [discriminate|cbn; auto]|]. intros X. apply in_or_app. auto.
  - intros b. rewrite (dget_dset formula_eqb formula_eqb_eq). destruct (formula_eqb a b) eqn:E; [discriminate|]. intros X. destruct (Hn b X) as [Y Z].
    assert (a <> b) by (intros ->; rewrite formula_eqb_refl in E; discriminate). split; rewrite in_app_iff; intros [?|[?|[]]]; auto; destruct Ha as [-> | ->]; congruence.
  - intros b. assert (Ed : a <> b -> conflicting (done ++ [e]) b <-> conflicting done b).
    { intros Hab. unfold conflicting. rewrite !in_app_iff. cbn. split; [intros [X Y]; split|tauto]; [destruct X as [X|[X|[]]]|destruct Y as [Y|[Y|[]]]]; auto; destruct Ha as [-> | ->]; congruence. }
    destruct (formula_eqb a b) eqn:E.
    + apply formula_eqb_eq in E. subst b. unfold c'. unfold conflicting. rewrite !in_app_iff. cbn.
      destruct (dget formula_eqb pols a) as [[|]|] eqn:G; destruct Ha as [-> | ->]; cbn [is_add Bool.eqb].
      * rewrite Hc. unfold conflicting. specialize (Ht a G). intuition congruence.
      * rewrite fadd_In. specialize (Ht a G). intuition.
      * rewrite fadd_In. specialize (Hf a G). intuition.
      * rewrite Hc. unfold conflicting. specialize (Hf a G). intuition congruence.
      * rewrite Hc. unfold conflicting. specialize (Hn a G). intuition congruence.
      * rewrite Hc. unfold conflicting. specialize (Hn a G). intuition congruence.
    + assert (Hab : a <> b) by (intros ->; rewrite formula_eqb_refl in E; discriminate). rewrite (Ed Hab), <- (Hc b). unfold c'. destruct (dget formula_eqb pols a) as [p|]; [|tauto]. destruct (Bool.eqb p (is_add e)); [tauto|]. rewrite fadd_In. intuition congruence.
  - unfold c'. destruct (dget formula_eqb pols a) as [p|]; [|auto]. destruct (Bool.eqb p (is_add e)); [auto|]. now apply fadd_NoDup.
  - rewrite <- app_assoc in Hl. exists l. auto.
Qed.
Theorem C43_conflicts effs : Forall propositional effs ->
  exists l, compute_effect_set_conflicts effs = Ok l /\ NoDup l /\ forall a, In a l <-> In (EAdd Top a) effs /\ In (EDel Top a) effs.
Proof.
  intros H. apply (conflicts_inv effs [] [] []); cbn; try discriminate; auto; [|constructor]. intros a. unfold conflicting. cbn. tauto.
Qed.
Lemma conflicts_err : forall effs pols confl, ~ Forall propositional effs -> conflicts_loop effs pols confl = Err RepresentationError.
Proof.
  induction effs as [|e effs IH]; intros pols confl H; [exfalso; apply H; constructor|]. cbn [conflicts_loop]. destruct (negb (is_atomic_effect e) || negb (is_propositional_effect e)) eqn:E; [reflexivity|].
  apply IH. intros X. apply H. constructor; [apply propositional_check; auto|auto].
Qed.
Theorem C43_raises effs x : compute_effect_set_conflicts effs = Err x <-> x = RepresentationError /\ exists e, In e effs /\ ~ propositional e.
Proof.
  assert (D : Forall propositional effs \/ exists e, In e effs /\ ~ propositional e).
  { destruct (Forall_Exists_dec propositional) with (l := effs) as [X|X]; [|auto|].
    - intros e. destruct (negb (is_atomic_effect e) || negb (is_propositional_effect e)) eqn:E; [right; intros Y; apply propositional_check in Y; congruence|left; apply propositional_check; auto].
    - right. apply Exists_exists in X. auto. }
  split.
  - intros H. destruct D as [D|D]; [destruct (C43_conflicts effs D) as (l & E & _); congruence|]. split; [|auto]. unfold compute_effect_set_conflicts in H. rewrite conflicts_err in H; [congruence|].
    intros X. destruct D as (e & He & Ne). apply Ne. rewrite Forall_forall in X. auto.
  - intros (-> & e & He & Ne). apply conflicts_err. intros X. apply Ne. rewrite Forall_forall in X. auto.
Qed.
Example C43_example : let a := Atom pP [o1] in let b := Atom pP [o2] in
  Forall propositional [EAdd Top a; EDel Top b; EAdd Top a; EDel Top a; EAdd Top a] /\ compute_effect_set_conflicts [EAdd Top a; EDel Top b; EAdd Top a; EDel Top a; EAdd Top a] = Ok [a].
Proof. split; [repeat constructor; eexists; eauto|reflexivity]. Qed.

(** * C29 *)
Theorem C29_effect_sets effs : is_strips_effect_set effs = true <-> Forall propositional effs /\ forall a, In (EAdd Top a) effs -> In (EDel Top a) effs -> False.
Proof.
  unfold is_strips_effect_set. destruct (compute_effect_set_conflicts effs) as [l|x] eqn:E.
  - assert (F : Forall propositional effs).
    { destruct (Forall_Exists_dec propositional) with (l := effs) as [X|X]; [|auto|].
      - intros e. destruct (negb (is_atomic_effect e) || negb (is_propositional_effect e)) eqn:G; [right; intros Y; apply propositional_check in Y; congruence|left; apply propositional_check; auto].
      - apply Exists_exists in X. assert (Y := proj2 (C43_raises effs RepresentationError) (conj eq_refl X)). congruence. }
    destruct (C43_conflicts effs F) as (l' & E' & _ & H). assert (l' = l) by congruence. subst l'. rewrite Nat.eqb_eq. split.
    + intros L. split; [auto|]. intros a X Y. destruct l; [|discriminate]. apply (proj2 (H a)). auto.
    + intros [_ X]. destruct l as [|a l]; [auto|]. exfalso. destruct (proj1 (H a) (or_introl eq_refl)). eauto.
  - apply C43_raises in E as (_ & e & He & Ne). split; [discriminate|]. intros [X _]. rewrite Forall_forall in X. exfalso. auto.
Qed.

Lemma flatten_and L f : forallb L (flatten_aux And f) = conjunction_of L f.
Proof.
  induction f as [| |p ts|c fs IH|q vs f IH] using formula_ind_simple; cbn [flatten_aux conjunction_of forallb]; rewrite ?andb_true_r; try reflexivity.
  destruct c; cbn [conn_eqb forallb]; rewrite ?andb_true_r; try reflexivity. induction IH as [|g gs Hg _ IHs]; [reflexivity|]. cbn [flat_map forallb]. rewrite forallb_app, Hg, IHs. reflexivity.
Qed.
Lemma flatten_or L f : forallb L (flatten_aux Or f) = disjunction_of L f.
Proof.
  induction f as [| |p ts|c fs IH|q vs f IH] using formula_ind_simple; cbn [flatten_aux disjunction_of forallb]; rewrite ?andb_true_r; try reflexivity.
  destruct c; cbn [conn_eqb forallb]; rewrite ?andb_true_r; try reflexivity. induction IH as [|g gs Hg _ IHs]; [reflexivity|]. cbn [flat_map forallb]. rewrite forallb_app, Hg, IHs. reflexivity.
Qed.
Lemma flatten_ok f : wf f = true -> exists g, flatten f = Ok g /\ g = match f with Comp And _ => Comp And (flatten_aux And f) | Comp Or _ => Comp Or (flatten_aux Or f) | _ => f end.
Proof.
  assert (L : forall c, c <> Not -> forall f, wf f = true -> 1 <= List.length (flatten_aux c f)).
  { intros c Hc. induction f0 as [| |p ts|d fs IH|q vs f0 IH] using formula_ind_simple; intros W; cbn; auto. destruct (conn_eqb d c) eqn:E; [|cbn; auto]. apply conn_eqb_eq in E. subst d. cbn [wf] in W. apply andb_true_iff in W as [A W].
    destruct fs as [|g fs]; [destruct c; cbn in A; congruence|]. cbn [flat_map forallb] in *. rewrite app_length. apply andb_true_iff in W as [W _]. inversion IH; subst. specialize (H1 W). lia. }
  assert (L2 : forall c fs, c <> Not -> wf (Comp c fs) = true -> 2 <= List.length (flatten_aux c (Comp c fs))).
  { intros c fs Hc W. cbn [flatten_aux]. replace (conn_eqb c c) with true by (symmetry; now apply conn_eqb_eq). cbn [wf] in W. apply andb_true_iff in W as [A W].
    destruct fs as [|g [|h fs]]; [destruct c; cbn in A; congruence|destruct c; cbn in A; congruence|]. cbn [flat_map forallb] in *. rewrite !app_length. apply andb_true_iff in W as [W1 W]. apply andb_true_iff in W as [W2 _].
    assert (X := L c Hc g W1). assert (Y := L c Hc h W2). lia. }
  intros W. destruct f as [| |p ts|c fs|q vs f]; try (eexists; split; reflexivity). destruct c; [| |eexists; split; reflexivity].
  - cbn [flatten]. eexists. split; [|reflexivity]. unfold compound. cbn [comp_arity_ok]. rewrite (proj2 (Nat.leb_le _ _) (L2 And fs ltac:(discriminate) W)). reflexivity.
  - cbn [flatten]. eexists. split; [|reflexivity]. unfold compound. cbn [comp_arity_ok]. rewrite (proj2 (Nat.leb_le _ _) (L2 Or fs ltac:(discriminate) W)). reflexivity.
Qed.
Lemma literal_model f : wf f = true -> is_literal f = literal f.
Proof. intros W. destruct f as [| |p ts|c fs|q vs f]; try reflexivity. destruct c; try reflexivity. cbn in W. destruct fs as [|g [|h fs]]; try discriminate. destruct g; reflexivity. Qed.

(** What the two recognisers accept, exactly. *)
Theorem C29_literals phi : wf phi = true -> is_conjunction_of_literals phi = Ok
  match phi with
  | Comp And _ => conjunction_of literal phi
  | Comp Or _ => disjunction_of literal phi
  | Comp Not [g] => literal g
  | Atom _ _ => true
  | _ => false
  end.
Proof.
  intros W. unfold is_conjunction_of_literals. destruct (flatten_ok phi W) as (g & -> & ->). cbn [bind]. f_equal.
  assert (C : forall L L', (forall f, wf f = true -> L f = L' f) -> forall f, wf f = true -> conjunction_of L f = conjunction_of L' f).
  { intros L L' H. induction f as [| |p ts|c fs IH|q vs f IH] using formula_ind_simple; intros Wf; cbn [conjunction_of]; auto. destruct c; auto. cbn [wf] in Wf. apply andb_true_iff in Wf as [_ Wf]. apply forallb_ext_in. rewrite Forall_forall in IH. rewrite forallb_forall in Wf. auto. }
  assert (C' : forall L L', (forall f, wf f = true -> L f = L' f) -> forall f, wf f = true -> disjunction_of L f = disjunction_of L' f).
  { intros L L' H. induction f as [| |p ts|c fs IH|q vs f IH] using formula_ind_simple; intros Wf; cbn [disjunction_of]; auto. destruct c; auto. cbn [wf] in Wf. apply andb_true_iff in Wf as [_ Wf]. apply forallb_ext_in. rewrite Forall_forall in IH. rewrite forallb_forall in Wf. auto. }
  destruct phi as [| |p ts|c fs|q vs f]; try reflexivity. destruct c.
  - rewrite flatten_and. apply C; [apply literal_model|auto].
  - rewrite flatten_or. apply C'; [apply literal_model|auto].
  - cbn [wf] in W. apply andb_true_iff in W as [A W]. destruct fs as [|g [|h fs]]; try discriminate. cbn [forallb] in *. rewrite andb_true_r in *. now apply literal_model.
Qed.
Theorem C29_positive phi : wf phi = true -> is_conjunction_of_positive_atoms phi = Ok
  match phi with
  | Comp And _ => conjunction_of atomic phi
  | Comp Or _ => disjunction_of atomic phi
  | Comp Not [g] => atomic g
  | Atom _ _ => true
  | _ => false
  end.
Proof.
  intros W. unfold is_conjunction_of_positive_atoms. destruct (flatten_ok phi W) as (g & -> & ->). cbn [bind]. f_equal.
  destruct phi as [| |p ts|c fs|q vs f]; try reflexivity. destruct c.
  - rewrite flatten_and. reflexivity.
  - rewrite flatten_or. reflexivity.
  - cbn [wf] in W. apply andb_true_iff in W as [A W]. destruct fs as [|g [|h fs]]; try discriminate. cbn [forallb]. rewrite andb_true_r. reflexivity.
Qed.
(** Every conjunction of literals (of atoms) is accepted; a formula that is neither a disjunction nor a negation is accepted only if it is one. *)
Theorem C29_complete phi : wf phi = true -> (conjunction_of literal phi = true -> is_conjunction_of_literals phi = Ok true) /\ (conjunction_of atomic phi = true -> is_conjunction_of_positive_atoms phi = Ok true).
Proof.
  intros W. rewrite C29_literals, C29_positive by auto. destruct phi as [| |p ts|c fs|q vs f]; cbn; try (split; discriminate); auto.
  destruct c; cbn [conjunction_of]; split; intros H; rewrite ?H; auto; try discriminate. cbn in H. destruct fs as [|[] [|]]; try discriminate; reflexivity.
Qed.
Theorem C29_sound phi : wf phi = true -> (forall fs, phi <> Comp Or fs) -> (forall g, phi <> Comp Not [g]) ->
  (is_conjunction_of_literals phi = Ok true -> conjunction_of literal phi = true) /\ (is_conjunction_of_positive_atoms phi = Ok true -> conjunction_of atomic phi = true).
Proof.
  intros W Ho Hn. rewrite C29_literals, C29_positive by auto. destruct phi as [| |p ts|c fs|q vs f]; cbn; try (split; discriminate); auto.
  destruct c; try (exfalso; eapply Ho; reflexivity); [split; intros H; injection H as H; exact H|]. cbn in W. destruct fs as [|g [|h fs]]; try discriminate. exfalso. eapply Hn. reflexivity.
Qed.
(** Disjunctions, double negations (as conjunctions of literals) and negative literals (as conjunctions of positive atoms) are wrongly accepted. *)
Theorem C29_refuted : let p := Atom pP [o1] in let q := Atom pP [o2] in
  is_conjunction_of_literals (Comp Or [p; q]) = Ok true /\ is_conjunction_of_positive_atoms (Comp Or [p; q]) = Ok true /\
  is_conjunction_of_positive_atoms (Comp Not [p]) = Ok true /\ is_conjunction_of_literals (Comp Not [Comp Not [p]]) = Ok true /\
  is_strips_operator {| a_name := "a"%string; a_params := []; a_pre := Comp Not [p]; a_effs := [EAdd Top q] |} = Ok true /\
  is_conjunction_of_positive_atoms Top = Ok false.
Proof. repeat split. Qed.
Theorem C29_operator a : wf (a_pre a) = true -> is_strips_operator a = Ok true <-> is_conjunction_of_positive_atoms (a_pre a) = Ok true /\ is_strips_effect_set (a_effs a) = true.
Proof.
  intros W. unfold is_strips_operator. rewrite C29_positive by auto. cbn [bind]. set (b := match a_pre a with Top => _ | _ => _ end). destruct b; [|split; [discriminate|intros [X _]; discriminate]].
  split; [intros H; injection H as H; auto|intros [_ ->]; reflexivity].
Qed.
(** A whole problem *)
Theorem C29_problem p : wf (p_goal p) = true -> (forall a, In a (p_actions p) -> wf (a_pre a) = true) ->
  is_strips_problem p = Ok true <-> is_conjunction_of_positive_atoms (p_goal p) = Ok true /\ forall a, In a (p_actions p) -> is_strips_operator a = Ok true.
Proof.
  intros W Wa. unfold is_strips_problem. assert (G : exists b, is_conjunction_of_positive_atoms (p_goal p) = Ok b) by (eexists; apply C29_positive; auto). destruct G as [b ->]. cbn [bind].
  destruct b; [|split; [discriminate|intros [X _]; discriminate]]. set (l := p_actions p) in *. clearbody l.
  transitivity (forall a, In a l -> is_strips_operator a = Ok true); [|tauto]. clear W. induction l as [|a l IH]; cbn [all_res]; [split; [intros _ ? []|auto]|].
  assert (G : exists b, is_strips_operator a = Ok b). { unfold is_strips_operator. rewrite C29_positive by (apply Wa; left; auto). cbn [bind]. set (b := match a_pre a with Top => _ | _ => _ end). destruct b; eauto. }
  destruct G as [b E]. rewrite E. cbn [bind]. destruct b.
  - rewrite IH by (intros; apply Wa; right; auto). split; [intros H x [<-|Hx]; auto|intros H x Hx; apply H; right; auto].
  - split; [discriminate|]. intros H. rewrite H in E; [congruence|left; auto].
Qed.

(** The literals collected from a conjunction: the answer is not None exactly for conjunctions of literals, and it means the same. *)
Lemma lit_add_In x y l : In x (lit_add y l) <-> x = y \/ In x l.
Proof.
  unfold lit_add. destruct (existsb (lit_eqb y) l) eqn:E; [|rewrite in_app_iff; cbn; intuition].
  apply existsb_exists in E as (z & Hz & E). unfold lit_eqb in E. apply andb_true_iff in E as [E1 E2]. apply formula_eqb_eq in E1. apply Bool.eqb_prop in E2.
  assert (z = y) by (destruct z, y; cbn in *; congruence). subst. intuition (subst; auto).
Qed.
Lemma lit_add_NoDup y l : NoDup l -> NoDup (lit_add y l).
Proof.
  intros N. unfold lit_add. destruct (existsb (lit_eqb y) l) eqn:E; [auto|]. apply NoDup_app_iff_simple; [auto|repeat constructor; auto|].
  intros x Hx [<-|[]]. assert (existsb (lit_eqb y) l = true); [|congruence]. apply existsb_exists. exists y. split; [auto|]. unfold lit_eqb. rewrite formula_eqb_refl, Bool.eqb_reflx. reflexivity.
Qed.
Lemma lits_iff M e l : literals_true M e l = true <-> forall a b, In (a, b) l -> fsem M a e = b.
Proof.
  unfold literals_true. rewrite forallb_forall. split; [intros H a b Hi; apply Bool.eqb_prop; apply (H _ Hi)|intros H [a b] Hi; cbn; rewrite (H a b Hi); apply Bool.eqb_reflx].
Qed.
Lemma collect_spec M e : forall f lits, wf f = true ->
  match collect_literals_aux f lits with
  | Some l => conjunction_of literal f = true /\ (literals_true M e l = fsem M f e && literals_true M e lits) /\ (NoDup lits -> NoDup l) /\ (forall x, In x lits -> In x l) /\
              (forall a b, In (a, b) l -> In (a, b) lits \/ atomic a = true)
  | None => conjunction_of literal f = false
  end.
Proof.
  assert (A : forall x l, literals_true M e (lit_add x l) = Bool.eqb (fsem M (fst x) e) (snd x) && literals_true M e l).
  { intros x l. apply eq_true_iff_eq. rewrite andb_true_iff, !lits_iff, Bool.eqb_true_iff. setoid_rewrite lit_add_In. split; [intros H; split; [apply H; destruct x; auto|auto]|intros [H1 H2] a b [E|Hi]; [subst x; auto|auto]]. }
  induction f as [| |p ts|c fs IH|q vs f IH] using formula_ind_simple; intros lits W; try reflexivity.
  - cbn [collect_literals_aux conjunction_of literal]. rewrite A. cbn [fst snd]. split; [auto|]. split; [destruct (fsem M (Atom p ts) e); reflexivity|]. split; [apply lit_add_NoDup|]. split; [intros x Hx; apply lit_add_In; auto|].
    intros a b Hi. apply lit_add_In in Hi as [Hi|Hi]; [injection Hi as -> ->; auto|auto].
  - destruct c; [|reflexivity|].
    + cbn [collect_literals_aux conjunction_of fsem]. cbn [wf] in W. apply andb_true_iff in W as [_ W].
      set (go := fix go (fs : list formula) (lits : list (formula * bool)) : option (list (formula * bool)) := match fs with [] => Some lits | g :: gs => match collect_literals_aux g lits with Some l => go gs l | None => None end end).
      revert lits. induction IH as [|g gs Hg _ IHs]; intros lits.
      * cbn. repeat split; auto.
      * cbn [forallb] in *. apply andb_true_iff in W as [W1 W2]. cbn [go]. specialize (Hg lits W1). destruct (collect_literals_aux g lits) as [l|]; [|rewrite Hg; reflexivity].
        destruct Hg as (H1 & H2 & H3 & H4 & H5). specialize (IHs W2 l). destruct (go gs l) as [l'|]; [|rewrite IHs; apply andb_false_r].
        destruct IHs as (K1 & K2 & K3 & K4 & K5). rewrite H1, K1. split; [auto|]. split; [rewrite K2, H2; destruct (fsem M g e), (forallb (fun f => fsem M f e) gs), (literals_true M e lits); reflexivity|]. split; [auto|]. split; [auto|].
        intros a b Hi. destruct (K5 a b Hi) as [X|X]; auto.
    + cbn [wf] in W. apply andb_true_iff in W as [A1 W]. destruct fs as [|g [|h fs]]; try discriminate. destruct g; try reflexivity.
      cbn [collect_literals_aux conjunction_of literal]. rewrite A. cbn [fst snd]. split; [auto|]. split; [cbn [fsem]; destruct (pint M p _); reflexivity|]. split; [apply lit_add_NoDup|]. split; [intros x Hx; apply lit_add_In; auto|].
      intros a b Hi. apply lit_add_In in Hi as [Hi|Hi]; [injection Hi as -> ->; auto|auto].
Qed.
Theorem C29_collect phi : wf phi = true ->
  match collect_literals_from_conjunction phi with
  | Some l => conjunction_of literal phi = true /\ NoDup l /\ (forall a b, In (a, b) l -> atomic a = true) /\ forall M e, fsem M phi e = literals_true M e l
  | None => conjunction_of literal phi = false
  end.
Proof.
  intros W. assert (H := fun M e => collect_spec M e phi [] W). unfold collect_literals_from_conjunction. destruct (collect_literals_aux phi []) as [l|] eqn:E.
  - set (M0 := {| carrier := unit; dom := fun _ => []; cint := fun _ _ => tt; fint := fun _ _ => tt; pint := fun _ _ => true |}).
    destruct (H M0 (fun _ => tt)) as (H1 & _ & H3 & _ & H5). split; [auto|]. split; [apply H3; constructor|]. split; [intros a b Hi; destruct (H5 a b Hi) as [[]|X]; auto|].
    intros M e. destruct (H M e) as (_ & H2 & _). rewrite H2, andb_true_r. reflexivity.
  - apply (H {| carrier := unit; dom := fun _ => []; cint := fun _ _ => tt; fint := fun _ _ => tt; pint := fun _ _ => true |} (fun _ => tt)).
Qed.
Example C29_example : let p := Atom pP [o1] in let q := Atom pP [o2] in let phi := Comp And [Comp And [p; Comp Not [q]]; p] in
  wf phi = true /\ is_conjunction_of_literals phi = Ok true /\ collect_literals_from_conjunction phi = Some [(p, true); (q, false)] /\ is_strips_effect_set [EAdd Top p; EDel Top q] = true.
Proof. repeat split. Qed.
