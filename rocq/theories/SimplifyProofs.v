(** Correctness of expression simplification *)
From Verif Require Import ListUtil Base Syntax Semantics SemLemmas Build NnfProofs BuildProofs Prenex PrenexSpec PrenexProofs ModelState ModelProofs Eval EvalSpec EvalProofs Subst SubstProofs QElim QElimProofs Effects ProgressSpec StateLemmas ProgressProofs SearchModelProofs NegBuiltinProofs PropsProgress Represent RelaxSpec PropsRelax Grounding GroundingSpec PropsGrounding Simplify SimplifySpec.

Lemma state_constants sub m : is_state sub m -> constant_valued m.
Proof.
  intros [ops ->]. apply const_inv_valued. unfold mrun. assert (H : const_inv empty_model) by (intros s ext pt v []). revert H. generalize empty_model. induction ops as [|o ops IH]; intros m Hm; [exact Hm|]. cbn [fold_left]. apply IH. clear IH.
  assert (Hdel : forall s m', funs m' = ddel sig_eqb (funs m) s -> const_inv m') by (intros s m' E r ext pt v; rewrite E; intros Hin; apply ddel_entries in Hin; eapply Hm; eauto).
  destruct o as [p args|t v|p args|p args|p|f]; cbn [mstep].
  - unfold m_add. destruct p as [b|n ss]; cbn [of_res snd]; auto. destruct (check_assignment sub ss args); cbn [bind of_res snd]; auto.
  - destruct t as [x r|c r|f args|c a b]; cbn [m_set of_res snd]; auto. destruct f as [b|n d c]; cbn [m_set of_res snd]; auto.
    destruct (forallb is_cst args); cbn [of_res snd]; auto.
    destruct (check_assignment sub (d ++ [c]) (args ++ [v])) eqn:Ec; cbn [bind of_res snd]; auto.
    intros s ext pt w Hin Hw. cbn [funs] in Hin. apply dset_entries in Hin as [->|Hin]; [|eapply Hm; eauto].
    apply dset_entries in Hw as [->|Hw].
    + unfold check_assignment in Ec. destruct (Nat.eqb _ _) eqn:El; [|discriminate]. apply Nat.eqb_eq in El. revert El Ec. clear. generalize (d ++ [c])%list. induction args as [|x args IH]; intros [|s l]; cbn; try discriminate.
      * intros _. destruct v; try discriminate. unfold is_constant. eauto.
      * destruct (sort_of x); [|discriminate]. destruct (sub s0 s); [|discriminate]. intros [= E]. apply IH. exact E.
    + destruct (dget sig_eqb (funs m) (fsig (FU n d c))) eqn:E; [|destruct Hw]. apply (dget_In sig_eqb sig_eqb_eq) in E. eapply Hm; eauto.
  - unfold m_remove. destruct (dget sig_eqb (preds m) (psig p)); cbn [of_res snd]; auto. destruct (pt_mem args l); cbn [of_res snd]; auto.
  - unfold m_discard. cbn [snd]. destruct (dget sig_eqb (preds m) (psig p)); auto.
  - unfold remove_signature. cbn [snd]. destruct (dget sig_eqb (funs m) (psig p)); [eapply Hdel; reflexivity|]. destruct (dget sig_eqb (preds m) (psig p)); auto.
  - unfold remove_signature. cbn [snd]. destruct (dget sig_eqb (funs m) (fsig f)); [eapply Hdel; reflexivity|]. destruct (dget sig_eqb (preds m) (fsig f)); auto.
Qed.

(** Values of applications and atoms on evaluated arguments *)
Definition app_value (m : model) (f : fsym) (vs : list term) : res term :=
  match f with
  | FB b => match vs with [x; y] => arith b x y | _ => Err NotModelled end
  | FU _ _ _ => match m_value m f vs with Ok v => Ok v | Err KeyError => Err UndefinedTerm | Err e => Err e end
  end.
Definition atom_value (m : model) (p : psym) (vs : list term) : res bool :=
  match p with PB b => match vs with [v; w] => compare_values b v w | _ => Err IndexError end | PU _ _ => Ok (m_holds m p vs) end.
Lemma evaluate_eval m t v : evaluate_t m t = Ok v <-> eval_term m t = Ok v.
Proof. destruct t; cbn; try tauto. split; discriminate. Qed.
Lemma eval_app_ok m f ts v : eval_term m (App f ts) = Ok v <-> exists vs, mapM (evaluate_t m) ts = Ok vs /\ app_value m f vs = Ok v.
Proof.
  destruct f as [b|n d c].
  - destruct ts as [|x [|y [|z ts]]].
    + cbn. split; [discriminate|]. intros (vs & E & H). inversion E; subst. discriminate.
    + split; [discriminate|]. intros (vs & E & H). apply mapM_length in E. destruct vs as [|? [|? [|? ?]]]; discriminate.
    + change (eval_term m (App (FB b) [x; y])) with (match eval_term m x with Err e => Err e | Ok v => match eval_term m y with Err e => Err e | Ok w => arith b v w end end).
      rewrite !mapM_cons. cbn [mapM]. split.
      * destruct (eval_term m x) as [vx|] eqn:Ex; [|discriminate]. destruct (eval_term m y) as [vy|] eqn:Ey; [|discriminate]. intros H. exists [vx; vy]. apply evaluate_eval in Ex, Ey. rewrite Ex. cbn [bind]. rewrite Ey. auto.
      * intros (vs & E & H). destruct (evaluate_t m x) as [vx|] eqn:Ex; [|discriminate]. cbn [bind] in E. destruct (evaluate_t m y) as [vy|] eqn:Ey; [|discriminate]. cbn [bind] in E. inversion E; subst. apply evaluate_eval in Ex, Ey. rewrite Ex, Ey. exact H.
    + split; [discriminate|]. intros (vs & E & H). apply mapM_length in E. destruct vs as [|? [|? [|? ?]]]; discriminate.
  - rewrite eval_app. unfold app_value. destruct (mapM (evaluate_t m) ts) as [vs|]; [|split; [discriminate|intros (vs & E & _); discriminate]]. split; [eauto|]. intros (vs' & E & H). injection E as <-. exact H.
Qed.
Lemma eval_atom_ok m p ts b : eval_f m (Atom p ts) = Ok b <-> exists vs, mapM (evaluate_t m) ts = Ok vs /\ atom_value m p vs = Ok b.
Proof.
  destruct p as [q|n ss].
  - rewrite eval_batom. destruct ts as [|x [|y [|z ts]]].
    + split; [discriminate|]. intros (vs & E & H). inversion E; subst. discriminate.
    + split; [discriminate|]. intros (vs & E & H). apply mapM_length in E. destruct vs as [|? [|? [|? ?]]]; discriminate.
    + destruct (mapM (evaluate_t m) [x; y]) as [vs|] eqn:E; [|split; [discriminate|intros (vs & E' & _); discriminate]]. assert (L := mapM_length _ _ _ E). destruct vs as [|v [|w [|? ?]]]; try discriminate. split; [eauto|]. intros (vs & E' & H). injection E' as <-. exact H.
    + split; [discriminate|]. intros (vs & E & H). apply mapM_length in E. destruct vs as [|? [|? [|? ?]]]; discriminate.
  - rewrite eval_atom. unfold atom_value. destruct (mapM (evaluate_t m) ts) as [vs|]; [|split; [discriminate|intros (vs & E & _); discriminate]]. split; [eauto|]. intros (vs' & E & H). injection E as <-. exact H.
Qed.
Lemma evaluate_constants m ts : forallb is_cst ts = true -> mapM (evaluate_t m) ts = Ok ts.
Proof. intros H. apply mapM_id. rewrite forallb_forall in H. apply Forall_forall. intros t Ht. specialize (H t Ht). destruct t; try discriminate. reflexivity. Qed.
Lemma is_cst_constant t : is_cst t = true <-> is_constant t.
Proof. unfold is_constant. destruct t; cbn; split; try discriminate; eauto; intros (? & ? & E); discriminate. Qed.

(** What the simplifier may rely on: its model, if any, gives the symbols it evaluates the values they have in the state [m], and these values are constants. *)
Section Sound.
Variables (mo : option model) (statics : option (list sym)) (m : model).
Hypothesis Hsame : forall m0, mo = Some m0 -> constant_valued m0 /\ same_on (fun s => evaluable_symbol statics s = true /\ sym_builtin s = false) m0 m.
Lemma mo_cases : mo = None \/ exists m0, mo = Some m0. Proof. clear Hsame. destruct mo; eauto. Qed.
Lemma static_app m0 f ts v : mo = Some m0 -> evaluable_symbol statics (SymF f) = true -> forallb is_cst ts = true -> evaluate_t m0 (App f ts) = Ok v -> app_value m f ts = Ok v /\ is_constant v.
Proof.
  intros Em He Hc H. destruct (Hsame m0 Em) as [C [_ Hs]]. apply evaluate_eval, eval_app_ok in H as (vs & E & H). rewrite evaluate_constants in E by auto. injection E as <-. destruct f as [b|n d c].
  - split; [exact H|]. cbn [app_value] in H. destruct ts as [|x [|y [|]]]; try discriminate. destruct x as [|[]| |]; try discriminate. destruct y as [|[]| |]; try discriminate. apply arith_value_arith in H as (w0 & _ & ->). unfold is_constant. eauto.
  - cbn [app_value] in *. rewrite <- (Hs (FU n d c) ts) by auto. split; [exact H|]. destruct (m_value m0 (FU n d c) ts) as [w|] eqn:E; [|destruct e; discriminate]. injection H as <-. eapply C; eauto.
Qed.
Lemma static_atom m0 p ts b : mo = Some m0 -> evaluable_symbol statics (SymP p) = true -> forallb is_cst ts = true -> eval_f m0 (Atom p ts) = Ok b -> atom_value m p ts = Ok b.
Proof.
  intros Em He Hc H. destruct (Hsame m0 Em) as [_ [Hs _]]. apply eval_atom_ok in H as (vs & E & H). rewrite evaluate_constants in E by auto. injection E as <-. destruct p as [q|n ss]; [exact H|].
  cbn [atom_value] in *. rewrite <- Hs by auto. exact H.
Qed.

(** ** Truth in structures *)
Section Truth.
Variable M : structure.
Hypothesis Hag : mo = None \/ agrees M m.
Lemma app_sem f ts v e : mo <> None -> forallb is_cst ts = true -> app_value m f ts = Ok v -> is_constant v -> fint M f (map (fun u => tsem M u e) ts) = tsem M v e.
Proof.
  intros Hm Hc H (c0 & s0 & ->). destruct Hag as [A|A]; [contradiction|]. assert (Ec : map (fun u => tsem M u e) ts = map (value_in M) ts).
  { apply map_ext_in. intros t Ht. rewrite forallb_forall in Hc. specialize (Hc t Ht). destruct t; try discriminate. reflexivity. }
  rewrite Ec. destruct f as [b|n d c]; cbn [app_value] in H.
  - destruct ts as [|x [|y [|]]]; try discriminate. destruct x as [|[]| |]; try discriminate. destruct y as [|[]| |]; try discriminate. apply arith_value_arith in H as (w & Hw & E). injection E as -> ->. cbn [map value_in]. now apply (agree_arith M m A).
  - destruct (m_value m (FU n d c) ts) as [w|] eqn:E; [|destruct e0; discriminate]. injection H as ->. rewrite (agree_fun M m A n d c ts (Cst c0 s0)); [reflexivity| |exact E]. rewrite forallb_forall in Hc. apply Forall_forall. intros t Ht. now apply is_cst_constant, Hc.
Qed.
Lemma atom_sem p ts b e : mo <> None -> forallb is_cst ts = true -> atom_value m p ts = Ok b -> pint M p (map (fun u => tsem M u e) ts) = b.
Proof.
  intros Hm Hc H. destruct Hag as [A|A]; [contradiction|]. assert (Ec : map (fun u => tsem M u e) ts = map (value_in M) ts).
  { apply map_ext_in. intros t Ht. rewrite forallb_forall in Hc. specialize (Hc t Ht). destruct t; try discriminate. reflexivity. }
  rewrite Ec. destruct p as [q|n ss]; cbn [atom_value] in H.
  - destruct ts as [|x [|y [|]]]; try discriminate. cbn [forallb] in Hc. destruct x as [|x sx| |]; try discriminate. destruct y as [|y sy| |]; try discriminate. cbn [compare_values] in H. apply name_cmp_compare in H. cbn [map value_in]. now apply (agree_cmp M m A).
  - injection H as <-. apply (agree_pred M m A). rewrite forallb_forall in Hc. apply Forall_forall. intros t Ht. now apply is_cst_constant, Hc.
Qed.
Lemma simplify_term_sem : forall t t', simplify_term mo statics t = Ok t' -> wf_term t = true -> wf_term t' = true /\ forall e, tsem M t' e = tsem M t e.
Proof.
  apply (term_ind_nested (fun t => forall t', simplify_term mo statics t = Ok t' -> wf_term t = true -> wf_term t' = true /\ forall e, tsem M t' e = tsem M t e) (fun _ => True)); auto.
  - intros x s t' [= <-]. auto.
  - intros c s t' [= <-]. auto.
  - intros f ts IH t' H W. cbn [simplify_term] in H. destruct (mapM (simplify_term mo statics) ts) as [ts'|] eqn:E; [|discriminate]. cbn [bind] in H. cbn [wf_term] in W.
    assert (A : forallb wf_term ts' = true /\ forall e, map (fun u => tsem M u e) ts' = map (fun u => tsem M u e) ts).
    { apply mapM_ok_Forall2 in E. clear H. induction E as [|u u' ts ts' Hu _ IHs]; [auto|]. inversion IH as [|? ? I1 I2]; subst. cbn [forallb] in W. apply andb_true_iff in W as [W1 W2]. destruct (I1 u' Hu W1) as [J1 J2]. destruct (IHs I2 W2) as [K1 K2].
      split; [cbn [forallb]; now rewrite J1, K1|]. intros e. cbn [map]. now rewrite J2, K2. }
    destruct A as [A1 A2]. assert (G : t' = App f ts' -> wf_term t' = true /\ forall e, tsem M t' e = tsem M (App f ts) e) by (intros ->; split; [exact A1|intros e; cbn [tsem]; now rewrite A2]).
    destruct mo_cases as [Em|[m0 Em]]; rewrite Em in H; [injection H as <-; auto|]. destruct (evaluable_symbol statics (SymF f) && forallb is_cst ts') eqn:Ev; [|injection H as <-; auto]. apply andb_true_iff in Ev as [Ev Ec].
    destruct (static_app m0 f ts' t' Em Ev Ec H) as [Hv Hk]. split; [destruct Hk as (? & ? & ->); reflexivity|]. intros e. cbn [tsem]. rewrite <- A2. symmetry. apply app_sem; auto. congruence.
  - intros c a b _ _ _ t' H. discriminate.
Qed.
Lemma simplify_args_sem ts ts' : mapM (simplify_term mo statics) ts = Ok ts' -> forallb wf_term ts = true -> forallb wf_term ts' = true /\ forall e, map (fun u => tsem M u e) ts' = map (fun u => tsem M u e) ts.
Proof.
  intros E W. apply mapM_ok_Forall2 in E. induction E as [|u u' ts ts' Hu _ IHs]; [auto|]. cbn [forallb] in W. apply andb_true_iff in W as [W1 W2]. destruct (simplify_term_sem u u' Hu W1) as [J1 J2]. destruct (IHs W2) as [K1 K2].
  split; [cbn [forallb]; now rewrite J1, K1|]. intros e. cbn [map]. now rewrite J2, K2.
Qed.
Lemma qsem_constant q vs b e : (forall s, In s (map snd (vars_of vs)) -> dom M s <> []) -> qsem M q vs (fun _ => b) e = b.
Proof.
  revert e. induction vs as [|v vs IH]; intros e H; [reflexivity|]. destruct v as [x s| | |]; try (apply IH; exact H). cbn in H. assert (Hs := H s (or_introl eq_refl)). cbn [qsem]. assert (K : forall e, qsem M q vs (fun _ => b) e = b) by (intros; apply IH; auto).
  destruct q; destruct (dom M s) as [|d l]; try contradiction; cbn; rewrite K; destruct b; cbn; auto; clear - K; induction l; cbn; rewrite ?K; auto.
Qed.
Lemma simplify_sem : forall f, wf f = true -> inhabited_sorts M f -> forall r, simplify_expression mo statics f = Ok r -> wf (bool_to_expr r) = true /\ forall e, fsem M (bool_to_expr r) e = fsem M f e.
Proof.
  induction f as [| |p ts|c fs IH|q vs f IH] using formula_ind_simple; intros W Hi r H.
  - injection H as <-. auto.
  - injection H as <-. auto.
  - cbn [simplify_expression] in H. destruct (mapM (simplify_term mo statics) ts) as [ts'|] eqn:E; [|discriminate]. cbn [bind] in H. destruct (simplify_args_sem ts ts' E W) as [A1 A2].
    assert (G : r = OForm (Atom p ts') -> wf (bool_to_expr r) = true /\ forall e, fsem M (bool_to_expr r) e = fsem M (Atom p ts) e) by (intros ->; split; [exact A1|intros e; cbn [bool_to_expr fsem]; now rewrite A2]).
    destruct mo_cases as [Em|[m0 Em]]; rewrite Em in H; [injection H as <-; auto|]. destruct (evaluable_symbol statics (SymP p) && forallb is_cst ts') eqn:Ev; [|injection H as <-; auto]. apply andb_true_iff in Ev as [Ev Ec].
    destruct (eval_f m0 (Atom p ts')) as [b|] eqn:Eb; [|discriminate]. injection H as <-. split; [destruct b; reflexivity|]. intros e. assert (X := static_atom m0 p ts' b Em Ev Ec Eb). change (fsem M (Atom p ts) e) with (pint M p (map (fun u => tsem M u e) ts)). rewrite <- A2, (atom_sem p ts' b e); auto; [destruct b; reflexivity|congruence].
  - assert (Wf := wf_Comp _ _ W). destruct Wf as [War Wfs]. rewrite Forall_forall in Wfs. assert (IH' : forall g, In g fs -> forall r, simplify_expression mo statics g = Ok r -> wf (bool_to_expr r) = true /\ forall e, fsem M (bool_to_expr r) e = fsem M g e).
    { rewrite Forall_forall in IH. intros g Hg r' Hr. apply (IH g Hg (Wfs g Hg)); [|exact Hr]. intros s Hs. apply Hi. cbn [bound_sorts]. apply in_flat_map. eauto. }
    destruct c.
    + (* And *)
      change (simplify_expression mo statics (Comp And fs)) with (let! l := simplify_members (simplify_expression mo statics) true fs in Ok match l with None => OBool false | Some [] => OBool true | Some [g] => OForm g | Some gs => OForm (Comp And gs) end) in H.
      assert (G : forall l, simplify_members (simplify_expression mo statics) true fs = Ok l -> match l with None => forall e, forallb (fun g => fsem M g e) fs = false | Some gs => Forall (fun g => wf g = true) gs /\ forall e, forallb (fun g => fsem M g e) gs = forallb (fun g => fsem M g e) fs end).
      { clear - IH'. induction fs as [|g fs IHs]; intros l E; cbn [simplify_members] in E; [injection E as <-; auto|]. destruct (simplify_expression mo statics g) as [r|] eqn:Er; [|discriminate]. cbn [bind] in E.
        destruct (IH' g (or_introl eq_refl) r Er) as [W1 S1]. assert (IHs' := IHs (fun g' Hg' => IH' g' (or_intror Hg'))). clear IHs. destruct r as [b|g'].
        - destruct b; cbn [Bool.eqb] in E.
          + specialize (IHs' l E). destruct l as [gs|]; cbn [forallb]; [destruct IHs' as [I1 I2]; split; [auto|]|]; intros e; rewrite <- (S1 e); cbn; auto.
          + injection E as <-. intros e. cbn [forallb]. now rewrite <- (S1 e).
        - destruct (simplify_members _ true fs) as [l'|]; [|discriminate]. cbn [bind] in E. injection E as <-. specialize (IHs' l' eq_refl). cbn [bool_to_expr] in *. destruct l' as [gs|]; cbn [option_map]; [destruct IHs' as [I1 I2]; split; [constructor; auto|]|]; intros e; cbn [forallb]; [rewrite S1, I2; auto|rewrite IHs'; apply andb_false_r]. }
      destruct (simplify_members _ true fs) as [l|]; [|discriminate]. cbn [bind] in H. injection H as <-. specialize (G l eq_refl). destruct l as [[|g [|g' gs]]|].
      * destruct G as [_ G]. split; [reflexivity|]. intros e. exact (G e).
      * destruct G as [F G]. inversion F; subst. split; [auto|]. intros e. specialize (G e). cbn [forallb] in G. rewrite andb_true_r in G. exact G.
      * destruct G as [F G]. split; [|exact G]. cbn [bool_to_expr wf]. rewrite Forall_forall in F. apply andb_true_iff. split; [reflexivity|]. apply forallb_forall. auto.
      * split; [reflexivity|]. intros e. cbn [bool_to_expr]. symmetry. exact (G e).
    + change (simplify_expression mo statics (Comp Or fs)) with (let! l := simplify_members (simplify_expression mo statics) false fs in Ok match l with None => OBool true | Some [] => OBool false | Some [g] => OForm g | Some gs => OForm (Comp Or gs) end) in H.
      assert (G : forall l, simplify_members (simplify_expression mo statics) false fs = Ok l -> match l with None => forall e, existsb (fun g => fsem M g e) fs = true | Some gs => Forall (fun g => wf g = true) gs /\ forall e, existsb (fun g => fsem M g e) gs = existsb (fun g => fsem M g e) fs end).
      { clear - IH'. induction fs as [|g fs IHs]; intros l E; cbn [simplify_members] in E; [injection E as <-; auto|]. destruct (simplify_expression mo statics g) as [r|] eqn:Er; [|discriminate]. cbn [bind] in E.
        destruct (IH' g (or_introl eq_refl) r Er) as [W1 S1]. assert (IHs' := IHs (fun g' Hg' => IH' g' (or_intror Hg'))). clear IHs. destruct r as [b|g'].
        - destruct b; cbn [Bool.eqb] in E.
          + injection E as <-. intros e. cbn [existsb]. now rewrite <- (S1 e).
          + specialize (IHs' l E). destruct l as [gs|]; cbn [existsb]; [destruct IHs' as [I1 I2]; split; [auto|]|]; intros e; rewrite <- (S1 e); cbn; auto.
        - destruct (simplify_members _ false fs) as [l'|]; [|discriminate]. cbn [bind] in E. injection E as <-. specialize (IHs' l' eq_refl). cbn [bool_to_expr] in *. destruct l' as [gs|]; cbn [option_map]; [destruct IHs' as [I1 I2]; split; [constructor; auto|]|]; intros e; cbn [existsb]; [rewrite S1, I2; auto|rewrite IHs'; apply orb_true_r]. }
      destruct (simplify_members _ false fs) as [l|]; [|discriminate]. cbn [bind] in H. injection H as <-. specialize (G l eq_refl). destruct l as [[|g [|g' gs]]|].
      * destruct G as [_ G]. split; [reflexivity|]. intros e. exact (G e).
      * destruct G as [F G]. inversion F; subst. split; [auto|]. intros e. specialize (G e). cbn [existsb] in G. rewrite orb_false_r in G. exact G.
      * destruct G as [F G]. split; [|exact G]. cbn [bool_to_expr wf]. rewrite Forall_forall in F. apply andb_true_iff. split; [reflexivity|]. apply forallb_forall. auto.
      * split; [reflexivity|]. intros e. cbn [bool_to_expr]. symmetry. exact (G e).
    + apply wf_Not in W as (g & -> & Wg). cbn [simplify_expression] in H. destruct (simplify_expression mo statics g) as [r'|] eqn:Er; [|discriminate]. cbn [bind] in H. destruct (IH' g (or_introl eq_refl) r' Er) as [W1 S1].
      destruct r' as [b|g']; [injection H as <-; split; [destruct b; reflexivity|]; intros e; cbn [fsem]; rewrite <- S1; destruct b; reflexivity|].
      cbn [bool_to_expr] in *. assert (G : r = OForm (Comp Not [g']) -> wf (bool_to_expr r) = true /\ forall e, fsem M (bool_to_expr r) e = fsem M (Comp Not [g]) e) by (intros ->; split; [cbn; now rewrite W1|intros e; cbn [bool_to_expr fsem]; now rewrite S1]).
      destruct g' as [| |p ts|c hs|q vs h]; try (injection H as <-; auto). destruct c; try (injection H as <-; auto). apply wf_Not in W1 as (h & -> & Wh). injection H as <-. split; [exact Wh|]. intros e. cbn [bool_to_expr fsem]. rewrite <- S1. cbn [fsem]. now rewrite negb_involutive.
  - cbn [simplify_expression] in H. destruct (simplify_expression mo statics f) as [r'|] eqn:Er; [|discriminate]. cbn [bind] in H. injection H as <-. cbn [wf] in W. apply andb_true_iff in W as [W1 W2].
    destruct (IH W2 ltac:(intros s Hs; apply Hi; cbn [bound_sorts]; apply in_or_app; auto) r' eq_refl) as [W3 S]. destruct r' as [b|g].
    + split; [destruct b; reflexivity|]. intros e. cbn [fsem]. transitivity b; [destruct b; reflexivity|]. rewrite <- (qsem_constant q vs b e) by (intros s Hs; apply Hi; cbn [bound_sorts]; apply in_or_app; auto).
      apply qsem_ext1. intros e'. rewrite <- S. destruct b; reflexivity.
    + split; [cbn [bool_to_expr wf] in *; now rewrite W1, W3|]. intros e. cbn [bool_to_expr fsem]. apply qsem_ext1. intros e'. exact (S e').
Qed.
End Truth.

(** ** Evaluation of instances. [S] and [Sf] stand for the application of a sequence of parameter bindings. *)
Section Instance.
Variables (S : term -> term) (Sf : formula -> formula).
Hypotheses (S_cst : forall c s, S (Cst c s) = Cst c s) (S_app : forall f ts, S (App f ts) = App f (map S ts))
  (S_top : Sf Top = Top) (S_bot : Sf Bot = Bot) (S_atom : forall p ts, Sf (Atom p ts) = Atom p (map S ts)) (S_comp : forall c fs, Sf (Comp c fs) = Comp c (map Sf fs)) (S_quant : forall q vs f, exists vs' f', Sf (Quant q vs f) = Quant q vs' f').
Lemma S_constants ts : forallb is_cst ts = true -> map S ts = ts.
Proof. induction ts as [|t ts IH]; cbn [forallb map]; [auto|]. intros H. apply andb_true_iff in H as [H1 H2]. rewrite IH by auto. destruct t; try discriminate. now rewrite S_cst. Qed.
Lemma mapM_inst_ok ts ts' vs : Forall (fun t => forall t', simplify_term mo statics t = Ok t' -> forall v, evaluate_t m (S t) = Ok v -> evaluate_t m (S t') = Ok v) ts ->
  mapM (simplify_term mo statics) ts = Ok ts' -> mapM (evaluate_t m) (map S ts) = Ok vs -> mapM (evaluate_t m) (map S ts') = Ok vs.
Proof.
  intros IH E. apply mapM_ok_Forall2 in E. revert vs. induction E as [|t t' ts ts' Ht _ IHs]; intros vs H; [exact H|]. inversion IH as [|? ? I1 I2]; subst. cbn [map] in *. rewrite mapM_cons in *.
  destruct (evaluate_t m (S t)) as [v|] eqn:Ev; [|discriminate]. cbn [bind] in H. destruct (mapM (evaluate_t m) (map S ts)) as [vs'|]; [|discriminate]. cbn [bind] in H. rewrite (I1 t' Ht v eq_refl). cbn [bind]. rewrite (IHs I2 vs' eq_refl). exact H.
Qed.
Lemma simplify_term_eval : forall t t', simplify_term mo statics t = Ok t' -> forall v, evaluate_t m (S t) = Ok v -> evaluate_t m (S t') = Ok v.
Proof.
  apply (term_ind_nested (fun t => forall t', simplify_term mo statics t = Ok t' -> forall v, evaluate_t m (S t) = Ok v -> evaluate_t m (S t') = Ok v) (fun _ => True)); auto.
  - intros x s t' [= <-]. auto.
  - intros c s t' [= <-]. auto.
  - intros f ts IH t' H v Hv. cbn [simplify_term] in H. destruct (mapM (simplify_term mo statics) ts) as [ts'|] eqn:E; [|discriminate]. cbn [bind] in H.
    rewrite S_app in Hv. apply evaluate_eval, eval_app_ok in Hv as (vs & Hvs & Hv). assert (Hvs' := mapM_inst_ok ts ts' vs IH E Hvs).
    assert (G : t' = App f ts' -> evaluate_t m (S t') = Ok v) by (intros ->; rewrite S_app; apply evaluate_eval, eval_app_ok; eauto).
    destruct mo_cases as [Em|[m0 Em]]; rewrite Em in H; [injection H as <-; auto|]. destruct (evaluable_symbol statics (SymF f) && forallb is_cst ts') eqn:Ev; [|injection H as <-; auto]. apply andb_true_iff in Ev as [Ev Ec].
    destruct (static_app m0 f ts' t' Em Ev Ec H) as [Ha Hk]. rewrite S_constants, evaluate_constants in Hvs' by auto. injection Hvs' as <-. rewrite Ha in Hv. injection Hv as <-. destruct Hk as (c & s & ->). now rewrite S_cst.
  - intros c a b _ _ _ t' H. discriminate.
Qed.
Lemma simplify_args_eval ts ts' vs : mapM (simplify_term mo statics) ts = Ok ts' -> mapM (evaluate_t m) (map S ts) = Ok vs -> mapM (evaluate_t m) (map S ts') = Ok vs.
Proof. apply mapM_inst_ok. apply Forall_forall. intros t _. apply simplify_term_eval. Qed.
Lemma simplify_eval : forall f r, simplify_expression mo statics f = Ok r -> forall b, eval_f m (Sf f) = Ok b -> eval_f m (Sf (bool_to_expr r)) = Ok b.
Proof.
  assert (TB : forall b0 b, eval_f m (Sf (bool_to_expr (OBool b0))) = Ok b <-> b0 = b) by (intros [|] b; cbn [bool_to_expr]; rewrite ?S_top, ?S_bot; cbn; split; congruence).
  induction f as [| |p ts|c fs IH|q vs f IH] using formula_ind_simple; intros r H b Hb.
  - injection H as <-. exact Hb.
  - injection H as <-. exact Hb.
  - cbn [simplify_expression] in H. destruct (mapM (simplify_term mo statics) ts) as [ts'|] eqn:E; [|discriminate]. cbn [bind] in H.
    rewrite S_atom in Hb. apply eval_atom_ok in Hb as (vs & Hvs & Hb). assert (Hvs' := simplify_args_eval ts ts' vs E Hvs).
    assert (G : r = OForm (Atom p ts') -> eval_f m (Sf (bool_to_expr r)) = Ok b) by (intros ->; cbn [bool_to_expr]; rewrite S_atom; apply eval_atom_ok; eauto).
    destruct mo_cases as [Em|[m0 Em]]; rewrite Em in H; [injection H as <-; auto|]. destruct (evaluable_symbol statics (SymP p) && forallb is_cst ts') eqn:Ev; [|injection H as <-; auto]. apply andb_true_iff in Ev as [Ev Ec].
    destruct (eval_f m0 (Atom p ts')) as [b0|] eqn:Eb; [|discriminate]. injection H as <-. assert (X := static_atom m0 p ts' b0 Em Ev Ec Eb). rewrite S_constants, evaluate_constants in Hvs' by auto. injection Hvs' as <-. apply TB. congruence.
  - rewrite Forall_forall in IH. destruct c; rewrite S_comp in Hb.
    + rewrite eval_and in Hb. change (simplify_expression mo statics (Comp And fs)) with (let! l := simplify_members (simplify_expression mo statics) true fs in Ok match l with None => OBool false | Some [] => OBool true | Some [g] => OForm g | Some gs => OForm (Comp And gs) end) in H.
      assert (G : forall l b, simplify_members (simplify_expression mo statics) true fs = Ok l -> eval_all m (map Sf fs) = Ok b -> match l with None => b = false | Some gs => eval_all m (map Sf gs) = Ok b end).
      { clear - IH TB. induction fs as [|g fs IHs]; intros l b E Hb; cbn [simplify_members] in E; [injection E as <-; exact Hb|]. destruct (simplify_expression mo statics g) as [r|] eqn:Er; [|discriminate]. cbn [bind] in E. cbn [map eval_all] in Hb.
        assert (IHs' := IHs (fun g' Hg' => IH g' (or_intror Hg'))). clear IHs. destruct (eval_f m (Sf g)) as [bg|] eqn:Eg; [|discriminate]. assert (X := IH g (or_introl eq_refl) r Er bg Eg). destruct r as [b0|g'].
        - apply TB in X. subst b0. destruct bg; cbn [Bool.eqb] in E; [now apply IHs'|]. injection E as <-. congruence.
        - cbn [bool_to_expr] in X. destruct (simplify_members _ true fs) as [l'|]; [|discriminate]. cbn [bind] in E. injection E as <-. destruct bg.
          + specialize (IHs' l' b eq_refl Hb). destruct l'; cbn [option_map]; [|exact IHs']. cbn [map eval_all]. rewrite X. exact IHs'.
          + injection Hb as <-. destruct l'; cbn [option_map]; [|reflexivity]. cbn [map eval_all]. now rewrite X. }
      destruct (simplify_members _ true fs) as [l|]; [|discriminate]. cbn [bind] in H. injection H as <-. specialize (G l b eq_refl Hb). destruct l as [[|g [|g' gs]]|].
      * injection G as <-. now apply TB.
      * cbn [map eval_all] in G. cbn [bool_to_expr]. destruct (eval_f m (Sf g)) as [[]|]; congruence.
      * cbn [bool_to_expr]. rewrite S_comp, eval_and. exact G.
      * apply TB. congruence.
    + rewrite eval_or in Hb. change (simplify_expression mo statics (Comp Or fs)) with (let! l := simplify_members (simplify_expression mo statics) false fs in Ok match l with None => OBool true | Some [] => OBool false | Some [g] => OForm g | Some gs => OForm (Comp Or gs) end) in H.
      assert (G : forall l b, simplify_members (simplify_expression mo statics) false fs = Ok l -> eval_any m (map Sf fs) = Ok b -> match l with None => b = true | Some gs => eval_any m (map Sf gs) = Ok b end).
      { clear - IH TB. induction fs as [|g fs IHs]; intros l b E Hb; cbn [simplify_members] in E; [injection E as <-; exact Hb|]. destruct (simplify_expression mo statics g) as [r|] eqn:Er; [|discriminate]. cbn [bind] in E. cbn [map eval_any] in Hb.
        assert (IHs' := IHs (fun g' Hg' => IH g' (or_intror Hg'))). clear IHs. destruct (eval_f m (Sf g)) as [bg|] eqn:Eg; [|discriminate]. assert (X := IH g (or_introl eq_refl) r Er bg Eg). destruct r as [b0|g'].
        - apply TB in X. subst b0. destruct bg; cbn [Bool.eqb] in E; [|now apply IHs']. injection E as <-. congruence.
        - cbn [bool_to_expr] in X. destruct (simplify_members _ false fs) as [l'|]; [|discriminate]. cbn [bind] in E. injection E as <-. destruct bg.
          + injection Hb as <-. destruct l'; cbn [option_map]; [|reflexivity]. cbn [map eval_any]. now rewrite X.
          + specialize (IHs' l' b eq_refl Hb). destruct l'; cbn [option_map]; [|exact IHs']. cbn [map eval_any]. rewrite X. exact IHs'. }
      destruct (simplify_members _ false fs) as [l|]; [|discriminate]. cbn [bind] in H. injection H as <-. specialize (G l b eq_refl Hb). destruct l as [[|g [|g' gs]]|].
      * injection G as <-. now apply TB.
      * cbn [map eval_any] in G. cbn [bool_to_expr]. destruct (eval_f m (Sf g)) as [[]|]; congruence.
      * cbn [bool_to_expr]. rewrite S_comp, eval_or. exact G.
      * apply TB. congruence.
    + destruct fs as [|g gs]; [discriminate|]. cbn [simplify_expression] in H. destruct (simplify_expression mo statics g) as [r'|] eqn:Er; [|discriminate]. cbn [bind] in H. cbn [map eval_f] in Hb. destruct (eval_f m (Sf g)) as [bg|] eqn:Eg; [|discriminate]. injection Hb as <-.
      assert (X := IH g (or_introl eq_refl) r' Er bg Eg). destruct r' as [b0|g']; [apply TB in X; injection H as <-; apply TB; congruence|]. cbn [bool_to_expr] in X.
      assert (G : r = OForm (Comp Not [g']) -> eval_f m (Sf (bool_to_expr r)) = Ok (negb bg)) by (intros ->; cbn [bool_to_expr]; rewrite S_comp; cbn [map eval_f]; now rewrite X).
      destruct g' as [| |p ts|c hs|q vs h]; try (injection H as <-; auto). destruct c; try (injection H as <-; auto). destruct hs as [|h hs]; [discriminate|]. injection H as <-. cbn [bool_to_expr]. rewrite S_comp in X. cbn [map eval_f] in X. destruct (eval_f m (Sf h)) as [bh|]; [|discriminate]. injection X as <-. now rewrite negb_involutive.
  - destruct (S_quant q vs f) as (vs' & f' & E). rewrite E in Hb. discriminate.
Qed.
End Instance.
End Sound.
