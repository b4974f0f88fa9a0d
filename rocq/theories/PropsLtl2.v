(** C79, continued: substitution, free variables, flattening and negation normal form of temporal formulas. *)
From Verif Require Import Base Syntax Semantics SemLemmas Subst SubstSpec SubstProofs FreeVars FreeVarsProofs Nnf Build Ltl LtlSpec LtlProofs PropsFol PropsLtl.

(** Quantified temporal formulas *)
Theorem C79_quantifiers q (vs : list var) (a : tform) : vs <> [] ->
  exists f, tquantified q (map (fun v => GT (Var (fst v) (snd v))) vs ++ [GF a]) = Ok f /\ (twf a = true -> twf f = true) /\
    forall w e i, holds w f e i <-> quant_holds w q (map (fun v => Var (fst v) (snd v)) vs) (fun e' => holds w a e' i) e.
Proof.
  intros N. unfold tquantified. rewrite rev_app_distr. cbn [rev app]. destruct (rev (map (fun v => GT (Var (fst v) (snd v))) vs)) as [|v0 l] eqn:E.
  - apply (f_equal (@List.length _)) in E. rewrite rev_length, map_length in E. destruct vs; [congruence|discriminate E].
  - change (rev l ++ [v0])%list with (rev (v0 :: l)); rewrite <- E, rev_involutive. assert (M : mapM targ_var (map (fun v => GT (Var (fst v) (snd v))) vs) = Ok (map (fun v => Var (fst v) (snd v)) vs)).
    { clear. induction vs as [|v vs IH]; [reflexivity|]. cbn [map mapM targ_var]. rewrite IH. reflexivity. }
    rewrite M. cbn [bind]. exists (TQuant q (map (fun v => Var (fst v) (snd v)) vs) a). split; [reflexivity|]. split.
    + intros Wa. cbn [twf]. rewrite Wa, andb_true_r, map_length. apply andb_true_iff. split; [destruct vs; [congruence|reflexivity]|]. clear. induction vs as [|v vs IH]; [reflexivity|]. exact IH.
    + intros w e i. cbn [holds]. reflexivity.
Qed.
Print Assumptions C79_quantifiers.

(** Substituting terms for variables: the result holds, at every time, exactly where the original holds with the values of the terms for the variables, when these values do not
    change over time and no quantifier interferes (as in C08). *)
Theorem C79_substitution s f : no_clash (tbinders f) s = true -> forall w, (forall x t, lookup s x = Some t -> rigid w t) ->
  forall (e : tenv w) now i, holds w (tsubst (of_vars s) f) e i <-> holds w f (tenv_subst s now e) i.
Proof.
  intros N w Rg e now i. apply tsubst_lemma; [exact N|]. intros y j. unfold tenv_subst. destruct (lookup s y) as [t|] eqn:L; [|reflexivity]. apply (Rg y t L).
Qed.
Print Assumptions C79_substitution.
(** In particular for constants and variables, in every trace. *)
Theorem C79_substitution_constants s f : no_clash (tbinders f) s = true -> (forall x t, lookup s x = Some t -> (exists c r, t = Cst c r) \/ (exists y r, t = Var y r)) ->
  forall w (e : tenv w) i, holds w (tsubst (of_vars s) f) e i <-> holds w f (tenv_subst s 0 e) i.
Proof.
  intros N C w e i. apply C79_substitution; [exact N|]. intros x t L e' j k. destruct (C x t L) as [(c & r & ->)|(y & r & ->)]; reflexivity.
Qed.
Print Assumptions C79_substitution_constants.
(** Without temporal operators, any terms can be substituted, with their values at the time in question. *)
Theorem C79_substitution_timeless s f : timeless f = true -> no_clash (tbinders f) s = true -> forall w (e : tenv w) i, holds w (tsubst (of_vars s) f) e i <-> holds w f (tenv_subst s i e) i.
Proof.
  intros T N w e i. set (v := {| things := things w; of_sort := of_sort w; constant := constant w; function_at := fun _ => function_at w i; predicate_at := fun _ => predicate_at w i |}).
  assert (K : forall g, timeless g = true -> forall e' : tenv w, holds w g e' i <-> holds v g (e' : tenv v) i).
  { clear -v. intros g. induction g as [| |p ts|c fs IH|o fs IH|q vs g IH] using tform_ind_nested; intros Tg e'; cbn [holds]; try reflexivity.
    - cbn [timeless] in Tg. rewrite forallb_forall in Tg. rewrite Forall_forall in IH. destruct c; cbn [conn_holds].
      + rewrite !Forall_map, !Forall_forall. split; intros H g Ig; apply (IH g Ig (Tg g Ig)); apply H; exact Ig.
      + rewrite !Exists_exists. split; intros (p & Ip & Q); apply in_map_iff in Ip as (g & <- & Ig).
        * exists (holds v g (e' : tenv v)). split; [apply in_map_iff; exists g; auto|]. apply (IH g Ig (Tg g Ig)). exact Q.
        * exists (holds w g e'). split; [apply in_map_iff; exists g; auto|]. apply (IH g Ig (Tg g Ig)). exact Q.
      + destruct fs as [|g [|h fs]]; cbn [map]; try reflexivity. rewrite (IH g (or_introl eq_refl) (Tg g (or_introl eq_refl)) e'). reflexivity.
    - discriminate Tg.
    - cbn [timeless] in Tg. assert (Q : forall vs (a : tenv w), quant_holds w q vs (fun x => holds w g x i) a <-> quant_holds v q vs (fun x => holds v g x i) (a : tenv v)).
      { clear vs. induction vs as [|t vs IHv]; intros a; [apply (IH Tg)|]. destruct t as [x r|c r|h us|c b d]; cbn [quant_holds]; try apply IHv.
        destruct q; [split; intros (d & I & Q); exists d; (split; [exact I|]); apply (IHv (tupd a (x, r) d)); exact Q|split; intros Q d I; apply (IHv (tupd a (x, r) d)); apply Q; exact I]. }
      apply Q. }
  assert (Ts : timeless (tsubst (of_vars s) f) = true).
  { clear -T. induction f as [| |p ts|c fs IH|o fs IH|q vs g IH] using tform_ind_nested; cbn [tsubst timeless]; try reflexivity; [|discriminate T|exact (IH T)].
    cbn [timeless] in T. rewrite forallb_forall in *. intros g Ig. apply in_map_iff in Ig as (h & <- & Ih). rewrite Forall_forall in IH. apply (IH h Ih). apply T. exact Ih. }
  rewrite (K _ Ts), (K _ T). refine (C79_substitution s f N v _ e i i). intros x t _ e' j k. reflexivity.
Qed.
Print Assumptions C79_substitution_timeless.

(** Free variables: reported exactly, once each, unless a quantifier binds a variable again (KeyError); truth depends on them only. *)
Theorem C79_free_variables f : twf f = true ->
  match tfree_variables f with
  | Ok l => tno_rebinding [] f = true /\ NoDup l /\ (forall t, In t l -> exists x s, t = Var x s /\ tfree_in (x, s) f = true) /\
      (tite_free f = true -> forall x s, tfree_in (x, s) f = true -> In (Var x s) l) /\
      (tite_free f = true -> forall w (e e' : tenv w), (forall x s, In (Var x s) l -> e (x, s) = e' (x, s)) -> forall i, holds w f e i <-> holds w f e' i)
  | Err x => x = KeyError /\ tno_rebinding [] f = false
  end.
Proof.
  intros H. pose proof (free_variables_spec (shape f)) as Q. rewrite shape_wf, shape_free_variables, shape_rebinding, shape_ite in Q. specialize (Q H).
  destruct (tfree_variables f) as [l|x]; [|exact Q]. destruct Q as (A & B & C & D). split; [exact A|]. split; [exact B|]. split.
  - intros t Ht. destruct (C t Ht) as ([x s] & -> & Hx). rewrite shape_free in Hx. exists x, s. split; [reflexivity|exact Hx].
  - assert (D2 : tite_free f = true -> forall x s, tfree_in (x, s) f = true -> In (Var x s) l) by (intros I x s Hx; rewrite <- shape_free in Hx; exact (D I (x, s) Hx)).
    split; [exact D2|]. intros I w e e' E i. apply holds_coincidence. intros [x s] Hx. apply E. apply (D2 I). exact Hx.
Qed.
Print Assumptions C79_free_variables.

(** Flattening keeps the meaning, and does not look below temporal operators. *)
Lemma flatten_aux_holds c (Hc : c = And \/ c = Or) w e i f : conn_holds c (map (fun g => holds w g e) (tflatten_aux c f)) i <-> holds w f e i.
Proof.
  assert (one : forall g, conn_holds c (map (fun g => holds w g e) [g]) i <-> holds w g e i).
  { intros g. destruct Hc as [-> | ->]; cbn [map conn_holds]; [rewrite Forall_cons_iff|rewrite Exists_cons, Exists_nil]; split; try tauto. intros Q. split; [exact Q|constructor]. }
  induction f as [| |p ts|d fs IH|o fs IH|q vs g IH] using tform_ind_nested; cbn [tflatten_aux]; try apply one.
  destruct (conn_eqb d c) eqn:E; [|apply one]. assert (d = c) as -> by (destruct d, c; try discriminate E; reflexivity). cbn [holds].
  induction IH as [|g gs Hg H IHl]; [reflexivity|]. cbn [flat_map map]. rewrite map_app.
  destruct Hc as [-> | ->]; cbn [conn_holds] in *; [rewrite Forall_app, Forall_cons_iff|rewrite Exists_app, Exists_cons]; rewrite Hg, IHl; reflexivity.
Qed.
Lemma flatten_aux_long c f : c <> Not -> twf f = true -> (forall fs, f = TComp c fs -> 2 <= List.length (tflatten_aux c f)) /\ 1 <= List.length (tflatten_aux c f) /\ forallb twf (tflatten_aux c f) = true.
Proof.
  intros Hc. induction f as [| |p ts|d fs IH|o fs IH|q vs g IH] using tform_ind_nested; intros Wf; cbn [tflatten_aux];
    try (split; [intros fs0 Q; discriminate Q|]; split; [cbn [List.length]; lia|]; cbn [forallb]; rewrite Wf; reflexivity).
  destruct (conn_eqb d c) eqn:E.
  - assert (d = c) as -> by (destruct d, c; try discriminate E; reflexivity). cbn [twf] in Wf. apply andb_true_iff in Wf as [L Wf].
    assert (K : forall l, Forall (fun f => twf f = true -> (forall fs, f = TComp c fs -> 2 <= List.length (tflatten_aux c f)) /\ 1 <= List.length (tflatten_aux c f) /\ forallb twf (tflatten_aux c f) = true) l -> forallb twf l = true ->
        List.length l <= List.length (flat_map (tflatten_aux c) l) /\ forallb twf (flat_map (tflatten_aux c) l) = true).
    { induction 1 as [|g gs Hg H IHl]; intros Wl; [split; [apply Nat.le_refl|reflexivity]|]. cbn [forallb] in Wl. apply andb_true_iff in Wl as [W1 W2]. destruct (IHl W2) as [A B]. destruct (Hg W1) as (_ & A2 & B2).
      cbn [flat_map List.length]. rewrite app_length, forallb_app, B2, B. split; [lia|reflexivity]. }
    destruct (K fs IH Wf) as [A B]. assert (2 <= List.length fs). { destruct c; cbn [comp_arity_ok] in L; [apply Nat.leb_le; exact L|apply Nat.leb_le; exact L|congruence]. }
    split; [intros fs0 _; lia|]. split; [lia|exact B].
  - split; [intros fs0 Q; injection Q as -> _; destruct c; discriminate E|]. split; [cbn [List.length]; lia|]. cbn [forallb]. rewrite Wf. reflexivity.
Qed.
Theorem C79_flatten f : twf f = true -> exists g, tflatten f = Ok g /\ twf g = true /\ tequivalent f g /\ (match f with TComp And _ | TComp Or _ => True | _ => g = f end).
Proof.
  intros Wf. assert (K : forall c fs, c = And \/ c = Or -> f = TComp c fs -> exists g, tcompound c (map GF (tflatten_aux c f)) = Ok g /\ twf g = true /\ tequivalent f g).
  { intros c fs Hc E. destruct (flatten_aux_long c f) as (A & _ & B); [destruct Hc as [-> | ->]; discriminate|exact Wf|]. specialize (A fs E).
    assert (Ar : comp_arity_ok c (List.length (tflatten_aux c f)) = true) by (destruct Hc as [-> | ->]; cbn [comp_arity_ok]; apply Nat.leb_le; exact A).
    exists (TComp c (tflatten_aux c f)). split; [apply tcompound_ok; exact Ar|]. split; [cbn [twf]; rewrite Ar, B; reflexivity|]. intros w e i. cbn [holds]. symmetry. apply flatten_aux_holds. exact Hc. }
  destruct f as [| |p ts|[| |] fs|o fs|q vs g]; cbn [tflatten]; try (eexists; split; [reflexivity|]; split; [exact Wf|]; split; [intros w e i; reflexivity|reflexivity]).
  - destruct (K And fs (or_introl eq_refl) eq_refl) as (g & A & B & C). exists g. split; [exact A|]. split; [exact B|]. split; [exact C|exact I].
  - destruct (K Or fs (or_intror eq_refl) eq_refl) as (g & A & B & C). exists g. split; [exact A|]. split; [exact B|]. split; [exact C|exact I].
Qed.
Print Assumptions C79_flatten.

(** First-order formulas are the temporal formulas without temporal operators: they hold at a time when they are true in the structure of that time. *)
Lemma plain_holds w f : forall e i, holds w (plain f) e i <-> fsem (at_time w i) f e = true.
Proof.
  induction f as [| |p ts|c fs IH|q vs f IH] using formula_ind_simple; intros e i; cbn [plain holds].
  - split; reflexivity.
  - split; [intros []|discriminate].
  - reflexivity.
  - rewrite Forall_forall in IH. destruct c; cbn [conn_holds fsem].
    + rewrite map_map, Forall_map, Forall_forall, forallb_forall. split; intros H g Ig; apply (IH g Ig); apply H; exact Ig.
    + rewrite map_map, Exists_exists, existsb_exists. split.
      * intros (p & Ip & Q). apply in_map_iff in Ip as (g & <- & Ig). exists g. split; [exact Ig|]. apply (IH g Ig). exact Q.
      * intros (g & Ig & Q). exists (holds w (plain g) e). split; [apply in_map_iff; exists g; auto|]. apply (IH g Ig). exact Q.
    + destruct fs as [|g [|h fs]]; cbn [map]; try (split; [intros []|discriminate]). rewrite (IH g (or_introl eq_refl)). rewrite negb_true_iff. destruct (fsem (at_time w i) g e); split; congruence.
  - cbn [fsem]. revert e. induction vs as [|t vs IHv]; intros e; [apply IH|]. destruct t as [x r|c r|h us|c b d]; cbn [quant_holds qsem]; try apply IHv. destruct q.
    + rewrite existsb_exists. split; intros (d & I & Q); exists d; (split; [exact I|]); apply (IHv (tupd e (x, r) d)); exact Q.
    + rewrite forallb_forall. split; intros Q d I; apply (IHv (tupd e (x, r) d)); apply Q; exact I.
Qed.
Lemma timeless_plain f : timeless f = true -> exists g, f = plain g.
Proof.
  induction f as [| |p ts|c fs IH|o fs IH|q vs f IH] using tform_ind_nested; intros T.
  - exists Top. reflexivity.
  - exists Bot. reflexivity.
  - exists (Atom p ts). reflexivity.
  - cbn [timeless] in T. assert (K : exists gs, fs = map plain gs). { induction IH as [|f fs Hf H IHl]; [exists []; reflexivity|]. cbn [forallb] in T. apply andb_true_iff in T as [T1 T2]. destruct (Hf T1) as [g ->]. destruct (IHl T2) as [gs ->]. exists (g :: gs). reflexivity. }
    destruct K as [gs ->]. exists (Comp c gs). reflexivity.
  - discriminate T.
  - destruct (IH T) as [g ->]. exists (Quant q vs g). reflexivity.
Qed.
Theorem C79_first_order f : (timeless f = true <-> exists g, f = plain g) /\ forall g, f = plain g -> forall w e i, holds w f e i <-> fsem (at_time w i) g e = true.
Proof.
  split; [split; [apply timeless_plain|]|].
  - intros [g ->]. induction g as [| |p ts|c fs IH|q vs g IH] using formula_ind_simple; try reflexivity; [|exact IH]. cbn [plain timeless]. rewrite forallb_forall. intros g Ig. apply in_map_iff in Ig as (h & <- & Ih). rewrite Forall_forall in IH. apply IH. exact Ih.
  - intros g -> w e i. apply plain_holds.
Qed.
Print Assumptions C79_first_order.
(** The negation normal form of formulas with temporal operators is refused; of the others it is that of C01. *)
Lemma nnf_plain f : forall b, tnnf b (plain f) = match nnf b f with Ok g => Ok (plain g) | Err x => Err x end.
Proof.
  induction f as [| |p ts|c fs IH|q vs f IH] using formula_ind_simple; intros b.
  - destruct b; reflexivity.
  - destruct b; reflexivity.
  - destruct b; reflexivity.
  - assert (L : forall b, mapM (tnnf b) (map plain fs) = match mapM (nnf b) fs with Ok gs => Ok (map plain gs) | Err x => Err x end).
    { clear b. intros b. induction IH as [|f fs Hf H IHl]; [reflexivity|]. cbn [map mapM]. rewrite Hf. destruct (nnf b f); [|reflexivity]. rewrite IHl. destruct (mapM (nnf b) fs); reflexivity. }
    destruct c; cbn [plain tnnf nnf].
    + rewrite L. destruct (mapM (nnf b) fs); cbn [bind]; [|reflexivity]. reflexivity.
    + rewrite L. destruct (mapM (nnf b) fs); cbn [bind]; [|reflexivity]. reflexivity.
    + inversion IH as [|g gs Hg Hgs]; subst; [reflexivity|]. inversion Hgs; subst; [|reflexivity]. cbn [map]. apply Hg.
  - cbn [plain tnnf nnf]. rewrite IH. destruct (nnf b f); reflexivity.
Qed.
Theorem C79_nnf f : (timeless f = false -> twf f = true -> forall b g, tnnf b f <> Ok g) /\
  (forall g, f = plain g -> tnnf false f = match to_negation_normal_form g with Ok h => Ok (plain h) | Err x => Err x end).
Proof.
  split.
  - induction f as [| |p ts|c fs IH|o fs IH|q vs f IH] using tform_ind_nested; intros T Wf b g E; try discriminate T.
    + cbn [timeless] in T. cbn [twf] in Wf. apply andb_true_iff in Wf as [L Wf]. rewrite Forall_forall in IH.
      assert (K : forall b gs, mapM (tnnf b) fs <> Ok gs).
      { clear -T Wf IH. induction fs as [|f fs IHl]; intros b gs E; [discriminate T|]. cbn [forallb] in T, Wf. apply andb_true_iff in Wf as [W1 W2]. cbn [mapM] in E. destruct (tnnf b f) as [h|] eqn:Eh; [|discriminate E]. destruct (mapM (tnnf b) fs) as [hs|] eqn:Ehs; [|discriminate E].
        destruct (timeless f) eqn:Tf.
        - cbn [andb] in T. apply (IHl (fun x Ix => IH x (or_intror Ix)) T W2 b hs). exact Ehs.
        - apply (IH f (or_introl eq_refl) Tf W1 b h). exact Eh. }
      destruct c; cbn [tnnf] in E.
      * destruct (mapM (tnnf b) fs) as [hs|] eqn:Eh; [|discriminate E]. exact (K b hs Eh).
      * destruct (mapM (tnnf b) fs) as [hs|] eqn:Eh; [|discriminate E]. exact (K b hs Eh).
      * destruct fs as [|h [|h2 fs]]; try discriminate E. cbn [forallb] in T, Wf. rewrite andb_true_r in T, Wf. exact (IH h (or_introl eq_refl) T Wf (negb b) g E).
    + discriminate E.
    + cbn [timeless] in T. cbn [twf] in Wf. apply andb_true_iff in Wf as [_ Wf]. cbn [tnnf] in E. destruct (tnnf b f) as [h|] eqn:Eh; [|discriminate E]. exact (IH T Wf b h Eh).
  - intros g ->. apply nnf_plain.
Qed.
Print Assumptions C79_nnf.

(** Findings and witnesses. A term whose value changes: substituting it below a temporal operator does not keep the meaning. *)
Local Open Scope string_scope. Local Open Scope list_scope.
Definition sh_ : term := Var "x" "object".
Definition at_ : term := App (FU "location" [] "object") [].
Definition pos_ : psym := PU "seen" ["object"].
(** at time i the location is i, and exactly the thing 0 is seen *)
Definition w_ : trace := {| things := nat; of_sort := fun _ => [0; 1]; constant := fun _ _ => 0; function_at := fun i _ _ => i;
  predicate_at := fun _ _ ds => match ds with [0] => true | _ => false end |}.
Theorem C79_substitution_changing_refuted : exists s f w (e : tenv w), twf f = true /\ no_clash (tbinders f) s = true /\
  ~ (holds w (tsubst (of_vars s) f) e 0 <-> holds w f (tenv_subst s 0 e) 0).
Proof.
  exists [(("x", "object"), at_)], (TTemp OX [TAtom pos_ [sh_]]), w_, (fun _ => 0). split; [reflexivity|]. split; [reflexivity|].
  cbn [holds tsubst map temp_holds]. intros [_ H]. assert (Q : fsem (at_time w_ 1) (Atom pos_ [sh_]) (@tenv_subst w_ [(("x", "object"), at_)] 0 (fun _ => 0)) = true) by reflexivity. apply H in Q. discriminate Q.
Qed.
Print Assumptions C79_substitution_changing_refuted.

(** G (seen(x) or F (seen(c) U seen(x))), built with the functions *)
Example C79_nonvacuous :
  let p := TAtom pos_ [sh_] in let c := TAtom pos_ [Cst (CStr "c") "object"] in
  let f := TTemp OG [TComp Or [p; TTemp OF [TTemp OU [c; p]]]] in
  U [GF c; GF p] = Ok (TTemp OU [c; p]) /\ F (GF (TTemp OU [c; p])) = Ok (TTemp OF [TTemp OU [c; p]]) /\
  tlor [GF p; GF (TTemp OF [TTemp OU [c; p]])] false = Ok (GF (TComp Or [p; TTemp OF [TTemp OU [c; p]]])) /\
  twf f = true /\ timeless f = false /\ tfree_variables f = Ok [sh_] /\ no_clash (tbinders f) [(("x", "object"), Cst (CStr "c") "object")] = true /\
  tsubst (of_vars [(("x", "object"), Cst (CStr "c") "object")]) f = TTemp OG [TComp Or [c; TTemp OF [TTemp OU [c; c]]]] /\
  tflatten (TComp And [p; TComp And [f; TComp And [c; p]]]) = Ok (TComp And [p; f; c; p]) /\
  X (GT sh_) = Err LanguageError /\ U [GF p] = Err LanguageError /\ holds w_ f (fun _ => 0) 0 /\ ~ holds w_ (TTemp OF [TAtom pos_ [sh_]]) (fun _ => 1) 0 /\
  rigid w_ (Cst (CStr "c") "object") /\ ~ rigid w_ at_.
Proof.
  intros p c f. do 11 (split; [vm_compute; reflexivity|]). split; [|split; [|split]].
  - cbn. intros j _. constructor. reflexivity.
  - cbn. intros (j & _ & Q). discriminate Q.
  - intros e i j. reflexivity.
  - intros H. specialize (H (fun _ => 0) 0 1). discriminate H.
Qed.
