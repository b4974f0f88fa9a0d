(** Substitution and coincidence for temporal formulas. *)
From Verif Require Import Base Syntax Semantics SemLemmas Subst SubstSpec SubstProofs FreeVars Ltl LtlSpec.

Section Ind.
  Variable P : tform -> Prop.
  Hypothesis HT : P TTop.
  Hypothesis HB : P TBot.
  Hypothesis HA : forall p ts, P (TAtom p ts).
  Hypothesis HC : forall c fs, Forall P fs -> P (TComp c fs).
  Hypothesis HO : forall o fs, Forall P fs -> P (TTemp o fs).
  Hypothesis HQ : forall q vs f, P f -> P (TQuant q vs f).
  Fixpoint tform_ind_nested (f : tform) : P f :=
    let all := fix all (fs : list tform) : Forall P fs := match fs with [] => Forall_nil P | g :: gs => Forall_cons g (tform_ind_nested g) (all gs) end in
    match f with
    | TTop => HT | TBot => HB | TAtom p ts => HA p ts
    | TComp c fs => HC c fs (all fs)
    | TTemp o fs => HO o fs (all fs)
    | TQuant q vs g => HQ q vs g (tform_ind_nested g)
    end.
End Ind.

Definition same (p q : nat -> Prop) : Prop := forall i, p i <-> q i.
Lemma until_same p p' q q' : same p p' -> same q q' -> same (until p q) (until p' q').
Proof.
  intros A B i. unfold until, throughout. split; intros (j & L & Q & T); exists j; (split; [exact L|]); split; try (apply B; exact Q); intros k L1 L2; apply A; apply T; assumption.
Qed.
Lemma release_same p p' q q' : same p p' -> same q q' -> same (release p q) (release p' q').
Proof.
  intros A B i. unfold release. split; intros H j L; (destruct (H j L) as [Q|(k & L1 & L2 & Q)]; [left; apply B; exact Q|right; exists k; split; [exact L1|]; split; [exact L2|]; apply A; exact Q]).
Qed.
Lemma chain_same op (Hop : forall p p' q q', same p p' -> same q q' -> same (op p q) (op p' q')) ps qs : Forall2 same ps qs -> same (chain op ps) (chain op qs).
Proof.
  intros H. induction H as [|p q ps qs A H IH]; intros i; [reflexivity|]. cbn [chain]. destruct H as [|p2 q2 ps qs A2 H]; [apply A|]. apply Hop; [exact A|exact IH].
Qed.
Lemma conn_same c ps qs i : Forall2 same ps qs -> (conn_holds c ps i <-> conn_holds c qs i).
Proof.
  intros H. destruct c; cbn [conn_holds].
  - induction H as [|p q ps qs A H IH]; [split; constructor|]. rewrite !Forall_cons_iff, IH, (A i). reflexivity.
  - induction H as [|p q ps qs A H IH]; [reflexivity|]. rewrite !Exists_cons, IH, (A i). reflexivity.
  - destruct H as [|p q ps qs A H]; [reflexivity|]. destruct H; [rewrite (A i); reflexivity|reflexivity].
Qed.
Lemma temp_same o ps qs i : Forall2 same ps qs -> (temp_holds o ps i <-> temp_holds o qs i).
Proof.
  intros H. destruct o; cbn [temp_holds].
  4: { apply (chain_same until until_same); exact H. }
  4: { apply (chain_same release release_same); exact H. }
  all: destruct H as [|p q ps qs A H]; [reflexivity|]; destruct H; [|reflexivity].
  - apply A.
  - split; intros (j & L & Q); exists j; (split; [exact L|]); apply A; exact Q.
  - split; intros Q j L; apply A; apply Q; exact L.
Qed.
Lemma map_same {A B} (f : A -> nat -> Prop) (g : B -> nat -> Prop) (h : A -> B) l : (forall x, In x l -> same (f x) (g (h x))) -> Forall2 same (map f l) (map g (map h l)).
Proof. induction l as [|x l IH]; intros H; [constructor|]. cbn [map]. constructor; [apply H; now left|apply IH]. intros y Hy. apply H. now right. Qed.

Lemma map_same2 {A B} (f : B -> nat -> Prop) (g : A -> nat -> Prop) (h : A -> B) l : (forall x, In x l -> same (f (h x)) (g x)) -> Forall2 same (map f (map h l)) (map g l).
Proof. induction l as [|x l IH]; intros H; [constructor|]. cbn [map]. constructor; [apply H; now left|apply IH]. intros y Hy. apply H. now right. Qed.

(** coincidence *)
Definition tagree {w} (P : var -> bool) (e e' : tenv w) : Prop := forall x, P x = true -> e x = e' x.
Lemma quant_agree w q vs (k k' : tenv w -> Prop) (P : var -> bool) : (forall a b, tagree P a b -> (k a <-> k' b)) ->
  forall e e', tagree (fun x => negb (mem_var x (vars_of vs)) && P x) e e' -> (quant_holds w q vs k e <-> quant_holds w q vs k' e').
Proof.
  intros Hk. induction vs as [|v vs IH]; intros e e' H; [apply Hk; intros x Hx; apply H; exact Hx|].
  destruct v as [x s|c s|f ts|c a b]; cbn [quant_holds]; try (apply IH; exact H).
  assert (Hd : forall d, quant_holds w q vs k (tupd e (x, s) d) <-> quant_holds w q vs k' (tupd e' (x, s) d)).
  { intros d. apply IH. intros y Hy. unfold tupd. destruct (var_eqb (x, s) y) eqn:E; [reflexivity|]. apply H. change (vars_of (Var x s :: vs)) with ((x, s) :: vars_of vs).
    change (mem_var y ((x, s) :: vars_of vs)) with (var_eqb y (x, s) || mem_var y (vars_of vs)). apply andb_true_iff in Hy as [Hy1 Hy2]. rewrite Hy2, andb_true_r. rewrite negb_true_iff in *.
    rewrite Hy1, orb_false_r. apply var_eqb_neq. apply var_eqb_neq in E. congruence. }
  destruct q; [split; intros (d & I & Q); exists d; (split; [exact I|]); apply Hd; exact Q|split; intros Q d I; apply Hd; apply Q; exact I].
Qed.
Lemma holds_coincidence w f : forall e e', tagree (fun x => tfree_in x f) e e' -> forall i, holds w f e i <-> holds w f e' i.
Proof.
  induction f as [| |p ts|c fs IH|o fs IH|q vs f IH] using tform_ind_nested; intros e e' H i; cbn [holds]; try reflexivity.
  - assert (E : fsem (at_time w i) (Atom p ts) e = fsem (at_time w i) (Atom p ts) e'). { apply (proj2 (coincidence (at_time w i))). intros x Hx. apply H. exact Hx. }
    rewrite E. reflexivity.
  - apply conn_same. rewrite <- (map_id fs) at 2. apply map_same. intros g Hg j. rewrite Forall_forall in IH. apply IH; [exact Hg|]. intros x Hx. apply H. cbn [tfree_in]. apply existsb_exists. exists g. split; [exact Hg|exact Hx].
  - apply temp_same. rewrite <- (map_id fs) at 2. apply map_same. intros g Hg j. rewrite Forall_forall in IH. apply IH; [exact Hg|]. intros x Hx. apply H. cbn [tfree_in]. apply existsb_exists. exists g. split; [exact Hg|exact Hx].
  - apply (quant_agree w q vs _ _ (fun x => tfree_in x f)); [|exact H]. intros a b Hab. apply IH. exact Hab.
Qed.

(** substitution *)
Definition srel (w : trace) (s : vsubst) (e1 e2 : tenv w) : Prop := forall y i, e2 y = match lookup s y with Some t => tsem (at_time w i) t e1 | None => e1 y end.
Lemma srel_upd w s e1 e2 x d : no_clash [x] s = true -> srel w s e1 e2 -> srel w s (tupd e1 x d) (tupd e2 x d).
Proof.
  intros N H y i. unfold tupd at 1. destruct (var_eqb x y) eqn:E.
  - apply var_eqb_eq in E. subst y. rewrite (no_clash_lookup_none s [x] x N (or_introl eq_refl)). unfold tupd. rewrite var_eqb_refl. reflexivity.
  - rewrite (H y i). destruct (lookup s y) as [t|] eqn:L.
    + apply (proj1 (coincidence (at_time w i))). intros z Hz. unfold tupd. destruct (var_eqb x z) eqn:E2; [|reflexivity]. apply var_eqb_eq in E2. subst z.
      rewrite (no_clash_lookup_free s [x] x y t N (or_introl eq_refl) L) in Hz. discriminate Hz.
    + unfold tupd. rewrite E. reflexivity.
Qed.
Lemma quant_subst w s q vs (k1 k2 : tenv w -> Prop) : no_clash (vars_of vs) s = true -> (forall a b, srel w s a b -> (k1 a <-> k2 b)) ->
  forall e1 e2, srel w s e1 e2 -> (quant_holds w q (map (subst_term (of_vars s)) vs) k1 e1 <-> quant_holds w q vs k2 e2).
Proof.
  intros N Hk. induction vs as [|v vs IH]; intros e1 e2 H; [apply Hk; exact H|]. cbn [map].
  destruct v as [x r|c r|f ts|c a b].
  - rewrite subst_var. change (vars_of (Var x r :: vs)) with ([(x, r)] ++ vars_of vs) in N. apply no_clash_app in N as [N1 N2]. rewrite (no_clash_lookup_none s [(x, r)] (x, r) N1 (or_introl eq_refl)). cbn [quant_holds].
    assert (Hd : forall d, quant_holds w q (map (subst_term (of_vars s)) vs) k1 (tupd e1 (x, r) d) <-> quant_holds w q vs k2 (tupd e2 (x, r) d)) by (intros d; apply (IH N2); apply srel_upd; assumption).
    destruct q; [split; intros (d & I & Q); exists d; (split; [exact I|]); apply Hd; exact Q|split; intros Q d I; apply Hd; apply Q; exact I].
  - rewrite subst_cst. apply (IH N); exact H.
  - rewrite subst_app. apply (IH N); exact H.
  - rewrite subst_ite. apply (IH N); exact H.
Qed.
Lemma tsubst_lemma w s f : no_clash (tbinders f) s = true -> forall e1 e2, srel w s e1 e2 -> forall i, holds w (tsubst (of_vars s) f) e1 i <-> holds w f e2 i.
Proof.
  induction f as [| |p ts|c fs IH|o fs IH|q vs f IH] using tform_ind_nested; intros N e1 e2 H i; cbn [holds tsubst]; try reflexivity.
  - assert (E : fsem (at_time w i) (Atom p (map (subst_term (of_vars s)) ts)) e1 = fsem (at_time w i) (Atom p ts) e2).
    { change (Atom p (map (subst_term (of_vars s)) ts)) with (subst_formula (of_vars s) (Atom p ts)). rewrite (proj2 (subst_lemma_both (at_time w i) s) (Atom p ts) e1 N).
      apply (proj2 (coincidence (at_time w i))). intros y _. unfold env_subst. symmetry. apply H. }
    rewrite E. reflexivity.
  - apply conn_same. apply map_same2. intros g Hg j. rewrite Forall_forall in IH. apply (IH g Hg); [|exact H]. cbn [tbinders] in N. rewrite no_clash_flat_map in N. exact (N g Hg).
  - apply temp_same. apply map_same2. intros g Hg j. rewrite Forall_forall in IH. apply (IH g Hg); [|exact H]. cbn [tbinders] in N. rewrite no_clash_flat_map in N. exact (N g Hg).
  - cbn [tbinders] in N. apply no_clash_app in N as [N1 N2]. apply quant_subst; [exact N1| |exact H]. intros a b Hab. apply (IH N2). exact Hab.
Qed.

(** the shape of a temporal formula, as a first-order formula with the same variables *)
Fixpoint shape (f : tform) : formula :=
  match f with
  | TTop => Top | TBot => Bot
  | TAtom p ts => Atom p ts
  | TComp c fs => Comp c (map shape fs)
  | TTemp o fs => Comp (if is_unary o then Not else And) (map shape fs)
  | TQuant q vs g => Quant q vs (shape g)
  end.
Lemma forallb_shape (P : formula -> bool) (Q : tform -> bool) fs : Forall (fun f => P (shape f) = Q f) fs -> forallb P (map shape fs) = forallb Q fs.
Proof. induction 1 as [|f fs E H IH]; [reflexivity|]. cbn [map forallb]. rewrite E, IH. reflexivity. Qed.
Lemma shape_wf f : wf (shape f) = twf f.
Proof.
  induction f as [| |p ts|c fs IH|o fs IH|q vs f IH] using tform_ind_nested; cbn [shape wf twf]; try reflexivity.
  - rewrite map_length, (forallb_shape wf twf fs IH). reflexivity.
  - rewrite map_length, (forallb_shape wf twf fs IH). destruct o; reflexivity.
  - rewrite IH. reflexivity.
Qed.
Lemma shape_free x f : free_in x (shape f) = tfree_in x f.
Proof.
  induction f as [| |p ts|c fs IH|o fs IH|q vs f IH] using tform_ind_nested; cbn [shape free_in tfree_in]; try reflexivity; [| |rewrite IH; reflexivity].
  all: induction IH as [|f fs E H IH2]; [reflexivity|]; cbn [map existsb]; rewrite E, IH2; reflexivity.
Qed.
Lemma shape_ite f : ite_free (shape f) = tite_free f.
Proof.
  induction f as [| |p ts|c fs IH|o fs IH|q vs f IH] using tform_ind_nested; cbn [shape ite_free tite_free]; try reflexivity; try (apply forallb_shape; exact IH). exact IH.
Qed.
Lemma shape_rebinding f : forall b, no_rebinding b (shape f) = tno_rebinding b f.
Proof.
  induction f as [| |p ts|c fs IH|o fs IH|q vs f IH] using tform_ind_nested; intros b; cbn [shape no_rebinding tno_rebinding]; try reflexivity.
  - apply forallb_shape. refine (Forall_impl _ _ IH). intros g Hg. apply Hg.
  - apply forallb_shape. refine (Forall_impl _ _ IH). intros g Hg. apply Hg.
  - rewrite IH. reflexivity.
Qed.
Lemma shape_fv f : forall st, fv_formula (shape f) st = tfv f st.
Proof.
  assert (L : forall fs, Forall (fun f => forall st, fv_formula (shape f) st = tfv f st) fs -> forall st, foldM (fun s g => fv_formula g s) (map shape fs) st = foldM (fun s g => tfv g s) fs st).
  { induction 1 as [|g gs E H IH]; intros st; [reflexivity|]. cbn [map foldM]. rewrite E. destruct (tfv g st); [apply IH|reflexivity]. }
  induction f as [| |p ts|c fs IH|o fs IH|q vs f IH] using tform_ind_nested; intros st; cbn [shape fv_formula tfv]; try reflexivity; try (apply L; exact IH).
  rewrite IH. reflexivity.
Qed.
Lemma shape_free_variables f : free_variables (shape f) = tfree_variables f.
Proof. unfold free_variables, tfree_variables. rewrite shape_fv. reflexivity. Qed.
