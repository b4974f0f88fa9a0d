From Verif Require Import ListUtil Base Syntax SemLemmas ModelState ModelSpec ModelProofs ModelText ModelTextSpec ModelTextProofs Eval Subst SubstProofs QElim Effects ProgressSpec StateLemmas ProgressProofs Bfs BfsProofs SearchModel.
#[local] Open Scope string_scope.

(** Conditions that always evaluate: Boolean combinations of atoms over user predicates and constants. *)
Fixpoint ground_cond (f : formula) : bool :=
  match f with
  | Top | Bot => true
  | Atom (PU _ _) ts => forallb is_cst ts
  | Comp Not [g] => ground_cond g
  | Comp (And | Or) fs => forallb ground_cond fs
  | _ => false
  end.
Definition eff_atom (e : effect) : option (psym * list term) := match e with EAdd _ (Atom p ts) | EDel _ (Atom p ts) => Some (p, ts) | _ => None end.
(** The Model operation that a ground add or delete effect performs *)
Definition eff_op (e : effect) : list mop := match e with EAdd _ (Atom p ts) => [OAdd p ts] | EDel _ (Atom p ts) => [ODiscard p ts] | _ => [] end.

Lemma eval_args_const m : forall ts, forallb is_cst ts = true ->
  (fix args (ts : list term) : res (list term) := match ts with [] => Ok [] | u :: us => match (match u with Var _ _ => Err TypeError | _ => eval_term m u end) with Err e => Err e | Ok v => match args us with Err e => Err e | Ok vs => Ok (v :: vs) end end end) ts = Ok ts.
Proof. induction ts as [|t ts IH]; intros H; [reflexivity|]. cbn [forallb] in H. apply andb_true_iff in H as [Ht H]. destruct t; try discriminate. rewrite IH by auto. reflexivity. Qed.
Lemma ground_eval m : forall f, ground_cond f = true -> exists b, eval_f m f = Ok b.
Proof.
  induction f as [| |p ts|c fs IH|q vs f IH] using formula_ind_simple; intros H; cbn [ground_cond] in H; try discriminate; [exists true; reflexivity|exists false; reflexivity| |].
  - destruct p as [|n ss]; [discriminate|]. cbn [eval_f]. rewrite eval_args_const by auto. eauto.
  - destruct c.
    + cbn [eval_f]. induction IH as [|g gs Hg _ IHs]; [eauto|]. cbn [forallb] in H. apply andb_true_iff in H as [H1 H2]. destruct (Hg H1) as [b Eb]. rewrite Eb. destruct b; [auto|eauto].
    + cbn [eval_f]. induction IH as [|g gs Hg _ IHs]; [eauto|]. cbn [forallb] in H. apply andb_true_iff in H as [H1 H2]. destruct (Hg H1) as [b Eb]. rewrite Eb. destruct b; [eauto|auto].
    + destruct fs as [|g [|]]; try discriminate. inversion IH; subst. destruct (H2 H) as [b Eb]. cbn [eval_f]. rewrite Eb. eauto.
Qed.

Lemma same_eval a b f : same_state a b -> eval_f a f = eval_f b f.
Proof. intros [H1 H2]. apply eval_local; auto. Qed.
Lemma same_eval_t a b t : same_state a b -> evaluate_t a t = evaluate_t b t.
Proof. intros [H1 H2]. apply evaluate_local; auto. Qed.
Lemma same_sym a b : same_state a b -> same_state b a. Proof. intros [H1 H2]. split; intros; symmetry; auto. Qed.

Section M.
Variables (D : domains) (sub : sort -> sort -> bool).
(** Equal states have equal successors (all effects, universal ones included). *)
Lemma run_with_same (f : model -> effect -> res model) : forall es,
  (forall e a b a', In e es -> proper a -> proper b -> same_state a b -> f a e = Ok a' -> exists b', f b e = Ok b' /\ same_state a' b' /\ proper a' /\ proper b') ->
  forall a b a', proper a -> proper b -> same_state a b -> run_with f es a = Ok a' -> exists b', run_with f es b = Ok b' /\ same_state a' b' /\ proper a' /\ proper b'.
Proof.
  induction es as [|e es IH]; intros Hf a b a' Pa Pb S H; [injection H as <-; exists b; auto|]. cbn [run_with] in *. destruct (f a e) as [a1|] eqn:E; [|discriminate]. cbn [bind] in H.
  destruct (Hf e a b a1) as (b1 & E1 & S1 & Pa1 & Pb1); cbn; auto. rewrite E1. cbn [bind]. apply (IH (fun e a b a' Hin => Hf e a b a' (or_intror Hin)) a1 b1 a'); auto.
Qed.
Lemma apply_same : forall n e a b a', proper a -> proper b -> same_state a b -> apply_effect_n D sub n a e = Ok a' -> exists b', apply_effect_n D sub n b e = Ok b' /\ same_state a' b' /\ proper a' /\ proper b'.
Proof.
  induction n as [|n IHn]; intros e a b a' Pa Pb S H; cbn [apply_effect_n] in *; rewrite <- (same_eval a b (econd e) S); (destruct (eval_f a (econd e)) as [[|]|]; [|injection H as <-; exists b; cbn; auto|discriminate]); cbn [bind negb] in *.
  all: destruct e as [c f|c f|i c l r|c vs es|c l|c]; try discriminate.
  all: try (destruct f as [| |p ts| |]; try discriminate).
  all: try (assert (W : exists b', m_add sub b p ts = Ok b') by (unfold m_add in *; destruct p; [discriminate|]; destruct (check_assignment sub sorts ts); [eexists; reflexivity|discriminate]);
            destruct W as [b' W]; destruct (add_spec sub a p ts a' H Pa) as (P1 & H1 & V1), (add_spec sub b p ts b' W Pb) as (P2 & H2 & V2); exists b'; split; [auto|]; split; [|auto];
            split; [intros; rewrite H1, H2; f_equal; apply S|intros; rewrite V1, V2; apply S]).
  all: try (injection H as <-; destruct (discard_spec a p ts Pa) as (P1 & H1 & V1), (discard_spec b p ts Pb) as (P2 & H2 & V2); eexists; split; [reflexivity|]; split; [|auto];
            split; [intros; rewrite H1, H2; f_equal; apply S|intros; rewrite V1, V2; apply S]).
  all: try (rewrite <- (same_eval_t a b r S); destruct (evaluate_t a r) as [v|]; [|discriminate]; cbn [bind] in *;
            assert (W : exists b', m_set sub b l v = Ok b') by (unfold m_set in *; destruct l; try discriminate; destruct f; [discriminate|]; destruct (forallb is_cst ts); [|discriminate]; destruct (check_assignment _ _ _); [eexists; reflexivity|discriminate]);
            destruct W as [b' W]; destruct (set_spec sub a l v a' H) as (g & pt & E & P1 & H1 & V1), (set_spec sub b l v b' W) as (g' & pt' & E' & P2 & H2 & V2); exists b'; split; [auto|]; split; [|auto];
            assert (g' = g /\ pt' = pt) as [-> ->] by (split; congruence); split; [intros; rewrite H1, H2; apply S|intros; rewrite V1, V2; destruct (same_point _ _ _ _); [auto|apply S]]).
  destruct (enumerate_substitutions D vs) as [ss|]; [|discriminate]. cbn [bind] in *.
  revert a b a' Pa Pb S H. induction ss as [|s ss IHs]; intros a b a' Pa Pb S H; [injection H as <-; exists b; auto|].
  destruct (run_with (fun m e => let! e' := subst_effect s e in apply_effect_n D sub n m e') es a) as [a1|] eqn:E; [|discriminate]. cbn [bind] in H.
  destruct (run_with_same (fun m e => let! e' := subst_effect s e in apply_effect_n D sub n m e') es) with (a := a) (b := b) (a' := a1) as (b1 & E1 & S1 & Pa1 & Pb1); auto.
  { intros e a0 b0 a0' _ P0 P0' S0 H0. destruct (subst_effect s e) as [e'|]; [|discriminate]. cbn [bind] in *. apply (IHn e' a0 b0 a0'); auto. }
  rewrite E1. cbn [bind]. apply (IHs a1 b1 a'); auto.
Qed.
Lemma progress_same effs a b a' : proper a -> proper b -> same_state a b -> progress D sub a effs = Ok a' -> exists b', progress D sub b effs = Ok b' /\ same_state a' b' /\ proper a' /\ proper b'.
Proof. intros Pa Pb S H. apply (run_with_same (apply_effect D sub) (filter is_del effs ++ filter (fun e => negb (is_del e)) effs)) with (a := a); auto. intros e a0 b0 a0' _ P1 P2 S0 H0. apply (apply_same (edepth e) e a0 b0 a0'); auto. Qed.

(** Invariants of add/delete progressions *)
Definition literal_effect (e : effect) : Prop := exists c p ts, e = EAdd c (Atom p ts) \/ e = EDel c (Atom p ts).
Section Inv.
Variable J : model -> Prop.
Hypothesis Jstep : forall m o, J m -> J (snd (mstep sub m o)).
Lemma apply_inv m e m' : literal_effect e -> J m -> apply_effect D sub m e = Ok m' -> J m'.
Proof.
  intros (c & p & ts & [-> | ->]) Hm H; unfold apply_effect in H; cbn [edepth apply_effect_n econd] in H; destruct (eval_f m c) as [[|]|]; try discriminate; cbn [bind negb] in H; try (injection H as <-; auto).
  - assert (X := Jstep m (OAdd p ts) Hm). cbn [mstep] in X. rewrite H in X. exact X.
  - exact (Jstep m (ODiscard p ts) Hm).
Qed.
End Inv.
Lemma run_inv (J : model -> Prop) es : (forall m e m', In e es -> J m -> apply_effect D sub m e = Ok m' -> J m') -> forall m m', J m -> run_effects D sub es m = Ok m' -> J m'.
Proof.
  induction es as [|e es IH]; intros He m m' Hm H; [injection H as <-; auto|]. unfold run_effects in H. cbn [run_with] in H. destruct (apply_effect D sub m e) as [m1|] eqn:E; [|discriminate]. cbn [bind] in H.
  eapply IH; [|eapply He; cbn; eauto|exact H]. intros. eapply He; cbn; eauto.
Qed.
Lemma progress_inv (J : model -> Prop) es : (forall m e m', In e es -> J m -> apply_effect D sub m e = Ok m' -> J m') -> forall m m', J m -> progress D sub m es = Ok m' -> J m'.
Proof. intros He. apply run_inv. intros m e m' Hin. apply He. apply in_app_or in Hin as [X|X]; apply filter_In in X; tauto. Qed.
End M.

(** Boolean vectors *)
Fixpoint vectors (n : nat) : list (list bool) := match n with O => [[]] | S n' => map (cons true) (vectors n') ++ map (cons false) (vectors n') end.
Lemma vectors_length n : List.length (vectors n) = 2 ^ n.
Proof. induction n as [|n IH]; [reflexivity|]. cbn [vectors]. rewrite app_length, !map_length, IH. cbn [Nat.pow]. lia. Qed.
Lemma vectors_In v : In v (vectors (List.length v)).
Proof. induction v as [|[|] v IH]; cbn; [auto| |]; apply in_or_app; [left|right]; apply in_map; auto. Qed.
Lemma distinct_bound {St} (eqb : St -> St -> bool) (key : St -> list bool) n l : distinct eqb l -> (forall x, In x l -> List.length (key x) = n) -> (forall x y, In x l -> In y l -> key x = key y -> eqb x y = true) -> List.length l <= 2 ^ n.
Proof.
  intros Hd Hl Hk. rewrite <- vectors_length, <- (map_length key). apply NoDup_incl_length.
  - clear Hl. induction Hd as [|x l F Hd IH]; cbn; [constructor|]. constructor; [|apply IH; intros; apply Hk; cbn; auto]. intros X. apply in_map_iff in X as (y & E & Hy). rewrite Forall_forall in F. assert (eqb x y = true) by (apply Hk; cbn; auto). rewrite F in H by auto. discriminate.
  - intros v Hv. apply in_map_iff in Hv as (x & <- & Hx). rewrite <- (Hl x Hx). apply vectors_In.
Qed.

(** * Ground problems with add and delete effects *)
Definition op_history (op : operator) : list mop := flat_map eff_op (op_effs op).
Definition well_typed_args (sub : sort -> sort -> bool) (p : psym) (ts : list term) : Prop := forall m, is_ok (m_add sub m p ts) = true.
(** A ground operator with add/delete effects over constants and conditions that evaluate *)
Definition ground_effect (sub : sort -> sort -> bool) (e : effect) : Prop :=
  ground_cond (econd e) = true /\ exists c p ts, forallb is_cst ts = true /\ ((e = EAdd c (Atom p ts) /\ well_typed_args sub p ts) \/ e = EDel c (Atom p ts)).
Definition ground_operator (sub : sort -> sort -> bool) (op : operator) : Prop := ground_cond (op_pre op) = true /\ Forall (ground_effect sub) (op_effs op).

Lemma rem_holds T P F m s q b : stored T P F m -> m_holds (remove_signature m s) q b = true -> m_holds m q b = true.
Proof.
  intros (N & _) H. unfold remove_signature in H. destruct (dget sig_eqb (funs m) s); [auto|]. destruct (dget sig_eqb (preds m) s) eqn:E; [|auto]. unfold m_holds in *. cbn [preds] in H.
  rewrite (dget_ddel sig_eqb sig_eqb_eq) in H by auto. destruct (sig_eqb s (psig q)); [discriminate|auto].
Qed.
Section Instance.
Variables (D : domains) (sub : sort -> sort -> bool) (iops : list mop) (ops : list operator).
Hypotheses (Hc : forallb op_constants iops = true) (Ho : Forall (ground_operator sub) ops) (U : unambiguous (iops ++ flat_map op_history ops)).
Let root := mrun sub iops empty_model.
Let voc := (iops ++ flat_map op_history ops)%list.
Let T := (fun t => exists o, In o voc /\ In t (op_terms o)).
Let P := (fun p => exists o, In o voc /\ op_pred o = Some p).
Let F := (fun f => exists o, In o voc /\ op_fun o = Some f).
Definition op_atoms (o : mop) : list (psym * list term) := match o with OAdd p ts => [(p, ts)] | _ => [] end.
Let A := flat_map op_atoms voc.
Definition J (m : model) : Prop := stored T P F m /\ proper m /\ (forall p pt, m_holds m p pt = true -> In (p, pt) A) /\ (forall f pt, m_value m f pt = m_value root f pt).

Lemma voc_stored m o : stored T P F m -> In o voc -> op_constants o = true -> stored T P F (snd (mstep sub m o)).
Proof. intros S Hin Hcst. apply stored_step; auto; intros x Hx; exists o; auto. Qed.
Lemma root_J : J root.
Proof.
  assert (G : forall os m, (forall o, In o os -> In o iops) -> stored T P F m /\ proper m /\ (forall p pt, m_holds m p pt = true -> In (p, pt) A) ->
     let m' := mrun sub os m in stored T P F m' /\ proper m' /\ (forall p pt, m_holds m' p pt = true -> In (p, pt) A)).
  { induction os as [|o os IH]; intros m Hin Hm; [auto|]. unfold mrun. cbn [fold_left]. apply IH; [intros; apply Hin; cbn; auto|]. destruct Hm as (S & Pm & Hh).
    assert (Hi : In o iops) by (apply Hin; cbn; auto). assert (Hv : In o voc) by (apply in_or_app; auto). assert (Ho' : op_constants o = true) by (rewrite forallb_forall in Hc; auto).
    assert (PR : forall m, proper m -> proper (snd (mstep sub m o))).
    { clear. intros m Pm. destruct o as [p a|t v|p a|p a|p|f]; cbn [mstep].
      - destruct (m_add sub m p a) as [m'|] eqn:E; cbn [of_res snd]; [|auto]. eapply add_spec; eauto.
      - destruct (m_set sub m t v) as [m'|] eqn:E; cbn [of_res snd]; [|auto]. destruct (set_spec _ _ _ _ _ E) as (f & a & _ & X & _). auto.
      - unfold m_remove. destruct (dget sig_eqb (preds m) (psig p)) as [ext|] eqn:Ep; [|auto]. destruct (pt_mem a ext); [|auto]. cbn [of_res snd].
        assert (Hn : NoDup ext) by (apply (dget_In sig_eqb sig_eqb_eq) in Ep; eauto). intros s e Hin. cbn [preds] in Hin. apply dset_entries in Hin as [->|Hin]; [apply pt_del_NoDup; auto|eauto].
      - apply discard_spec; auto.
      - unfold remove_signature. cbn [snd]. destruct (dget sig_eqb (funs m) (psig p)); [auto|]. destruct (dget sig_eqb (preds m) (psig p)); [|auto]. intros s e Hin. apply ddel_entries in Hin. eauto.
      - unfold remove_signature. cbn [snd]. destruct (dget sig_eqb (funs m) (fsig f)); [auto|]. destruct (dget sig_eqb (preds m) (fsig f)); [|auto]. intros s e Hin. apply ddel_entries in Hin. eauto. }
    split; [apply voc_stored; auto|]. split; [auto|]. intros q b Hq.
    assert (X : m_holds m q b = true \/ In (q, b) (op_atoms o)).
    { clear - Hq Pm S. destruct o as [p a|t v|p a|p a|p|f]; cbn [mstep op_atoms] in *.
      - destruct (m_add sub m p a) as [m'|] eqn:E; cbn [of_res snd] in Hq; [|auto]. destruct (add_spec sub m p a m' E Pm) as (_ & H & _). rewrite H in Hq. apply orb_true_iff in Hq as [Hq|Hq]; [|auto]. apply same_atom_eq in Hq as [-> ->]. right. left. auto.
      - destruct (m_set sub m t v) as [m'|] eqn:E; cbn [of_res snd] in Hq; [|auto]. destruct (set_spec _ _ _ _ _ E) as (f & a & _ & _ & H & _). rewrite H in Hq. auto.
      - left. unfold m_remove in Hq. destruct (dget sig_eqb (preds m) (psig p)) as [ext|] eqn:Ep; [|auto]. destruct (pt_mem a ext) eqn:Em; [|auto]. cbn [of_res snd] in Hq.
        assert (W : m_holds (m_discard m p a) q b = true) by (unfold m_discard; rewrite Ep; exact Hq). destruct (discard_spec m p a Pm) as (_ & H & _). rewrite H in W. apply andb_true_iff in W. tauto.
      - cbn [snd] in Hq. destruct (discard_spec m p a Pm) as (_ & H & _). rewrite H in Hq. apply andb_true_iff in Hq. tauto.
      - left. exact (rem_holds _ _ _ m (psig p) q b S Hq).
      - left. exact (rem_holds _ _ _ m (fsig f) q b S Hq). }
    destruct X as [X|X]; [auto|]. unfold A. apply in_flat_map. exists o. auto. }
  destruct (G iops empty_model) as (S & Pm & Hh); [auto| |split; [auto|split; [auto|split; [auto|reflexivity]]]].
  split; [apply stored_empty|]. split; [intros s e []|]. intros p pt X. discriminate.
Qed.
Lemma apply_J op e m m' : In op ops -> In e (op_effs op) -> J m -> apply_effect D sub m e = Ok m' -> J m'.
Proof.
  intros Hop He (S & Pm & Hh & Hv) H. assert (Hg := Ho). rewrite Forall_forall in Hg. destruct (Hg op Hop) as [_ Hg']. rewrite Forall_forall in Hg'. destruct (Hg' e He) as [Gc (c & p & ts & Hts & E)].
  assert (Hin : forall o, In o (eff_op e) -> In o voc). { intros o Hin. apply in_or_app. right. apply in_flat_map. exists op. split; [auto|]. apply in_flat_map. exists e. auto. }
  assert (NO : m' = m -> J m') by (intros ->; split; auto). clear Hg Hg'.
  unfold apply_effect in H. destruct E as [[-> _]| ->]; cbn [edepth apply_effect_n econd] in H; destruct (eval_f m c) as [[|]|]; try discriminate; cbn [bind negb] in H; try (apply NO; congruence).
  - assert (V := Hin (OAdd p ts) (or_introl eq_refl)). assert (X := voc_stored m (OAdd p ts) S V Hts). cbn [mstep] in X. rewrite H in X. destruct (add_spec sub m p ts m' H Pm) as (P1 & H1 & V1). split; [auto|]. split; [auto|]. split; [|intros; rewrite V1; auto].
    intros q b Hq. rewrite H1 in Hq. apply orb_true_iff in Hq as [Hq|Hq]; [|auto]. apply same_atom_eq in Hq as [<- <-]. apply in_flat_map. exists (OAdd p ts). split; [auto|]. left. auto.
  - assert (V := Hin (ODiscard p ts) (or_introl eq_refl)). assert (X := voc_stored m (ODiscard p ts) S V Hts). cbn [mstep snd] in X. assert (m' = m_discard m p ts) by congruence. subst m'. destruct (discard_spec m p ts Pm) as (P1 & H1 & V1). split; [auto|]. split; [auto|]. split; [|intros; rewrite V1; auto].
    intros q b Hq. rewrite H1 in Hq. apply andb_true_iff in Hq as [_ Hq]. auto.
Qed.
Lemma mapM_In {X Y} (f : X -> res Y) l l' y : mapM f l = Ok l' -> In y l' -> exists x, In x l /\ f x = Ok y.
Proof. revert l'. induction l as [|x l IH]; intros l' H Hy; cbn in H; [injection H as <-; destruct Hy|]. destruct (f x) eqn:E; [|discriminate]. destruct (mapM f l) eqn:E'; [|discriminate]. injection H as <-. destruct Hy as [->|Hy]; [exists x; cbn; auto|]. destruct (IH _ eq_refl Hy) as (x' & ? & ?). exists x'. cbn. auto. Qed.
Lemma mapM_In' {X Y} (f : X -> res Y) l l' x : mapM f l = Ok l' -> In x l -> exists y, In y l' /\ f x = Ok y.
Proof. revert l'. induction l as [|x0 l IH]; intros l' H Hy; cbn in H; [destruct Hy|]. destruct (f x0) eqn:E; [|discriminate]. destruct (mapM f l) eqn:E'; [|discriminate]. injection H as <-. destruct Hy as [->|Hy]; [eexists; split; [left; reflexivity|auto]|]. destruct (IH _ eq_refl Hy) as (x' & ? & ?). exists x'. cbn. auto. Qed.
Lemma mapM_total {X Y} (f : X -> res Y) l : (forall x, In x l -> is_ok (f x) = true) -> is_ok (mapM f l) = true.
Proof. induction l as [|x l IH]; intros H; [reflexivity|]. cbn [mapM]. assert (Hx := H x (or_introl eq_refl)). destruct (f x); [|discriminate]. assert (Y' := IH (fun y Hy => H y (or_intror Hy))). destruct (mapM f l); [reflexivity|discriminate]. Qed.
Notation succ := (gm_successors D sub ops).
Lemma succ_In m l s : succ m = Ok l -> In s l <-> exists op, In op ops /\ eval_f m (op_pre op) = Ok true /\ progress D sub m (op_effs op) = Ok s.
Proof.
  unfold gm_successors, is_applicable. destruct (mapM _ ops) as [ls|] eqn:E; [|discriminate]. cbn [bind]. intros [= <-]. rewrite in_concat. split.
  - intros (x & Hx & Hs). destruct (mapM_In _ _ _ _ E Hx) as (op & Hop & Eop). exists op. split; [auto|]. destruct (eval_f m (op_pre op)) as [[|]|]; try discriminate; cbn [bind] in Eop; [|injection Eop as <-; destruct Hs].
    destruct (progress D sub m (op_effs op)) as [m1|]; [|discriminate]. cbn [bind] in Eop. injection Eop as <-. destruct Hs as [->|[]]. auto.
  - intros (op & Hop & Ep & Es). destruct (mapM_In' _ _ _ _ E Hop) as (x & Hx & Ex). rewrite Ep in Ex. cbn [bind] in Ex. rewrite Es in Ex. injection Ex as <-. exists [s]. cbn. auto.
Qed.
Lemma reach_J s : reachable succ root s -> J s.
Proof.
  intros [n H]. induction H as [|n s l s' H IH Hs Hin]; [apply root_J|]. apply (succ_In s l s' Hs) in Hin as (op & Hop & _ & Ep). apply (progress_inv D sub J (op_effs op)) with (m := s); auto. intros m e m' He. apply (apply_J op); auto.
Qed.
Lemma eq_same a b : J a -> J b -> model_eq a b = true -> same_state a b.
Proof.
  intros (Sa & _) (Sb & _) E. apply String.eqb_eq in E. destruct U as [U1 U2 U3 U4 U5 U6].
  refine (text_extensions T P F _ _ _ _ _ _ a b Sa Sb E).
  - intros n ss (o & Hin & Eo). exact (U1 o (PU n ss) Hin Eo).
  - intros n d c (o & Hin & Eo). exact (U2 o (FU n d c) Hin Eo).
  - intros n ss ss' (o & Hin & Eo) (o' & Hin' & Eo'). exact (U3 o o' n ss ss' Hin Hin' Eo Eo').
  - intros n d c d' c' (o & Hin & Eo) (o' & Hin' & Eo'). exact (U4 o o' n d c d' c' Hin Hin' Eo Eo').
  - intros t (o & Hin & Eo). exact (U5 o t Hin Eo).
  - intros t t' (o & Hin & Eo) (o' & Hin' & Eo'). exact (U6 o o' t t' Hin Hin' Eo Eo').
Qed.
Lemma same_eq a b : J a -> J b -> same_state a b -> model_eq a b = true.
Proof. intros (Sa & _) (Sb & _) E. unfold model_eq. apply String.eqb_eq. exact (same_extensions_text T P F T P F a b Sa Sb E). Qed.
Lemma model_eq_equivalence : equivalence model_eq.
Proof.
  unfold equivalence, model_eq. split; [|split]; intros; rewrite ?String.eqb_eq in *; congruence.
Qed.
Lemma gm_congruent : congruent model_eq succ root.
Proof.
  intros a b la lb s Ra Rb E Ea Eb Hs. apply reach_J in Ra, Rb. assert (Sb := eq_same a b Ra Rb E). apply same_sym in Sb.
  apply (succ_In b lb s Eb) in Hs as (op & Hop & Ep & Es). destruct (progress_same D sub (op_effs op) b a s) as (s' & Es' & S' & _); [apply Rb|apply Ra|auto|auto|].
  exists s'. split; [apply (succ_In a la s' Ea); exists op; split; [auto|]; split; [rewrite <- (same_eval b a); auto|auto]|].
  assert (PJ : forall m m', J m -> progress D sub m (op_effs op) = Ok m' -> J m') by (intros m m'; apply progress_inv; intros m0 e m0' He; apply (apply_J op); auto).
  apply same_eq; [exact (PJ a s' Ra Es')|exact (PJ b s Rb Es)|apply same_sym; auto].
Qed.
Lemma gm_total goal s : ground_cond goal = true -> reachable succ root s -> is_ok (gm_is_goal goal s) = true /\ is_ok (succ s) = true.
Proof.
  intros Hg Rs. split; [unfold gm_is_goal; destruct (ground_eval s goal Hg) as [b ->]; reflexivity|]. unfold gm_successors, is_applicable.
  assert (X : is_ok (mapM (fun op => let! b := eval_f s (op_pre op) in if b then let! s' := progress D sub s (op_effs op) in Ok [s'] else Ok []) ops) = true).
  { apply mapM_total. intros op Hop. assert (Ho' := Ho). rewrite Forall_forall in Ho'. destruct (Ho' op Hop) as [Hp He]. destruct (ground_eval s (op_pre op) Hp) as [[|] ->]; cbn [bind]; [|reflexivity].
    assert (Z : is_ok (progress D sub s (op_effs op)) = true); [|destruct (progress D sub s (op_effs op)); [reflexivity|discriminate]].
    unfold progress. assert (W : Forall (ground_effect sub) (filter is_del (op_effs op) ++ filter (fun e => negb (is_del e)) (op_effs op))).
    { apply Forall_forall. rewrite Forall_forall in He. intros e X. apply He. apply in_app_or in X as [X|X]; apply filter_In in X; tauto. }
    revert W. generalize (filter is_del (op_effs op) ++ filter (fun e => negb (is_del e)) (op_effs op))%list as es. clear - s. revert s. intros s es. revert s. induction es as [|e es IH]; intros s W; [reflexivity|]. inversion W as [|? ? (Gc & c & p & ts & Hts & E) W']; subst.
    unfold run_effects. cbn [run_with]. unfold apply_effect at 1. assert (Q : forall m, is_ok (let! m' := Ok m in run_with (apply_effect D sub) es m') = true) by (intros; cbn [bind]; apply IH; auto).
    destruct E as [[-> WT]| ->]; cbn [edepth apply_effect_n econd] in *; destruct (ground_eval s c Gc) as [[|] ->]; cbn [bind negb]; try apply Q.
    specialize (WT s). destruct (m_add sub s p ts) as [m1|]; [apply Q|discriminate]. }
  destruct (mapM _ ops); [reflexivity|discriminate].
Qed.
Lemma gm_finite : finitely_many model_eq succ root (2 ^ List.length A).
Proof.
  intros l Hd Hr. apply (distinct_bound model_eq (fun s => map (fun a => m_holds s (fst a) (snd a)) A) (List.length A) l Hd).
  - intros. apply map_length.
  - intros x y Hx Hy E. assert (Jx := reach_J x (Hr x Hx)). assert (Jy := reach_J y (Hr y Hy)). apply same_eq; auto.
    assert (K : forall p pt, In (p, pt) A -> m_holds x p pt = m_holds y p pt).
    { intros p pt Hin. revert Hin E. clear. induction A as [|[q b] B IH]; intros Hin E; [destruct Hin|]. cbn [map fst snd] in E. injection E as E1 E2. destruct Hin as [[= -> ->]|Hin]; auto. }
    split; [|intros f pt; destruct Jx as (_ & _ & _ & Vx), Jy as (_ & _ & _ & Vy); rewrite Vx, Vy; auto].
    intros p pt. destruct (m_holds x p pt) eqn:Ex.
    + rewrite <- (K p pt); [auto|]. apply Jx. auto.
    + destruct (m_holds y p pt) eqn:Ey; [|auto]. rewrite <- Ex, (K p pt); [auto|]. apply Jy. auto.
Qed.
End Instance.
