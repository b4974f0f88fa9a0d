From Verif Require Import Base Syntax Semantics FolSpec SemLemmas Build NnfProofs.

(** Truth of a compound built from a list of arguments. *)
Definition conn_sem (c : connective) (M : structure) (e : env M) (fs : list formula) : bool :=
  match c with
  | And => forallb (fun g => fsem M g e) fs
  | Or => existsb (fun g => fsem M g e) fs
  | Not => false
  end.

Lemma binary_tree_fold c (Hc : c <> Not) : forall rest acc,
  wf acc = true -> Forall (fun f => wf f = true) rest ->
  exists g, fold_left (fun acc arg => let! phi := acc in compound c [arg; phi]) rest (Ok acc) = Ok g /\ wf g = true /\
  forall M e, fsem M g e = conn_sem c M e (rev rest ++ [acc]).
Proof.
  induction rest as [|a rest IH]; intros acc Hacc Hrest.
  - exists acc. simpl. repeat split; auto. intros M e. destruct c; try congruence; simpl.
    + now rewrite andb_true_r.
    + now rewrite orb_false_r.
  - inversion Hrest as [|? ? Ha Hr]; subst. simpl fold_left.
    assert (E : compound c [a; acc] = Ok (Comp c [a; acc])) by (destruct c; try congruence; reflexivity).
    rewrite E.
    destruct (IH (Comp c [a; acc])) as (g & Hg & Hw & Hs); auto.
    { destruct c; try congruence; simpl; now rewrite Ha, Hacc. }
    exists g. repeat split; auto. intros M e. rewrite Hs. simpl rev. rewrite <- app_assoc.
    destruct c; try congruence; unfold conn_sem; rewrite ?forallb_app, ?existsb_app; simpl.
    + now rewrite !andb_true_r.
    + now rewrite !orb_false_r.
Qed.

Lemma create_compound_correct c args flat : c <> Not -> args <> [] -> Forall (fun f => wf f = true) args ->
  exists g, create_compound args c flat = Ok g /\ wf g = true /\
  forall M e, fsem M g e = conn_sem c M e args.
Proof.
  intros Hc Hne Hw. destruct args as [|a [|b args]]; [congruence| |].
  - exists a. inversion Hw; subst. repeat split; auto. intros M e. destruct c; try congruence; simpl.
    + now rewrite andb_true_r.
    + now rewrite orb_false_r.
  - destruct flat.
    + exists (Comp c (a :: b :: args)). unfold create_compound, compound.
      destruct c; try congruence; simpl; (split; [reflexivity|]).
      all: inversion Hw as [|? ? Ha Hw']; subst; inversion Hw' as [|? ? Hb Hw'']; subst.
      all: split; [|reflexivity].
      all: rewrite Ha, Hb; simpl; apply forallb_forall; rewrite Forall_forall in Hw''; auto.
    + unfold create_compound, to_binary_tree.
      assert (Hr : Forall (fun f => wf f = true) (rev (a :: b :: args))) by now apply Forall_rev.
      assert (Hl : List.length (rev (a :: b :: args)) >= 2) by (rewrite rev_length; simpl; lia).
      assert (Hrr : rev (rev (a :: b :: args)) = a :: b :: args) by apply rev_involutive.
      destruct (rev (a :: b :: args)) as [|z [|y rest]]; simpl in Hl; try lia.
      inversion Hr as [|? ? Hz Hr']; subst. inversion Hr' as [|? ? Hy Hr'']; subst.
      assert (E : compound c [y; z] = Ok (Comp c [y; z])) by (destruct c; try congruence; reflexivity).
      rewrite E. destruct (binary_tree_fold c Hc rest (Comp c [y; z])) as (g & Hg & Hgw & Hs); auto.
      { destruct c; try congruence; simpl; now rewrite Hy, Hz. }
      exists g. repeat split; auto. intros M e. rewrite Hs, <- Hrr. simpl rev. rewrite <- app_assoc.
      destruct c; try congruence; unfold conn_sem; rewrite ?forallb_app, ?existsb_app; simpl.
      * now rewrite !andb_true_r.
      * now rewrite !orb_false_r.
Qed.

Lemma land_correct args flat : Forall (fun f => wf f = true) args ->
  exists g, land args flat = Ok g /\ wf g = true /\ forall M e, fsem M g e = forallb (fun f => fsem M f e) args.
Proof.
  intros H. destruct args as [|a args]; [exists Top; repeat split|].
  destruct (create_compound_correct And (a :: args) flat) as (g & ? & ? & ?); try discriminate; auto.
  exists g; auto.
Qed.
Lemma lor_correct args flat : Forall (fun f => wf f = true) args ->
  exists g, lor args flat = Ok g /\ wf g = true /\ forall M e, fsem M g e = existsb (fun f => fsem M f e) args.
Proof.
  intros H. destruct args as [|a args]; [exists Bot; repeat split|].
  destruct (create_compound_correct Or (a :: args) flat) as (g & ? & ? & ?); try discriminate; auto.
  exists g; auto.
Qed.
Lemma neg_correct f : wf f = true -> exists g, neg f = Ok g /\ wf g = true /\ forall M e, fsem M g e = negb (fsem M f e).
Proof. intros H. exists (Comp Not [f]). simpl. rewrite H. repeat split. Qed.
Lemma implies_correct f g : wf f = true -> wf g = true ->
  exists h, implies f g = Ok h /\ wf h = true /\ forall M e, fsem M h e = implb (fsem M f e) (fsem M g e).
Proof.
  intros Hf Hg. destruct (lor_correct [Comp Not [f]; g] false) as (h & H1 & H2 & H3).
  { repeat constructor; simpl; rewrite ?Hf, ?Hg; auto. }
  exists h. repeat split; auto. intros M e. rewrite H3. simpl. now destruct (fsem M f e), (fsem M g e).
Qed.
Lemma equiv_correct f g : wf f = true -> wf g = true ->
  exists h, equiv f g = Ok h /\ wf h = true /\ forall M e, fsem M h e = Bool.eqb (fsem M f e) (fsem M g e).
Proof.
  intros Hf Hg. destruct (implies_correct f g Hf Hg) as (a & A1 & A2 & A3).
  destruct (implies_correct g f Hg Hf) as (b & B1 & B2 & B3).
  destruct (land_correct [a; b] false) as (h & H1 & H2 & H3); [repeat constructor; auto|].
  exists h. unfold equiv. rewrite A1. cbn [bind]. rewrite B1. cbn [bind]. repeat split; auto.
  intros M e. rewrite H3. simpl. rewrite A3, B3. now destruct (fsem M f e), (fsem M g e).
Qed.

Lemma compound_iff c fs : (exists g, compound c fs = Ok g) <-> comp_arity_ok c (List.length fs) = true.
Proof. unfold compound. destruct comp_arity_ok; split; eauto; try discriminate. intros [? ?]; discriminate. Qed.

Lemma mapM_arg_var vs xs : mapM arg_var vs = Ok xs <-> vs = map ATerm xs /\ forallb is_var xs = true.
Proof.
  revert xs; induction vs as [|v vs IH]; intros xs; simpl.
  - split; [intros H; inversion H; auto|]. intros [H _]. destruct xs; [reflexivity|discriminate].
  - destruct (arg_var v) as [t|e] eqn:Ev.
    + assert (v = ATerm t /\ is_var t = true) as [-> Ht].
      { destruct v as [[]|]; simpl in Ev; inversion Ev; auto. }
      destruct (mapM arg_var vs) as [ys|e] eqn:E.
      * split.
        -- intros H; inversion H; subst. destruct (proj1 (IH ys) eq_refl) as [-> Hy]. simpl. now rewrite Ht, Hy.
        -- intros [H1 H2]. destruct xs as [|x xs]; [discriminate|]. simpl in H1. inversion H1; subst.
           simpl in H2. apply andb_true_iff in H2 as [_ H2]. destruct (IH xs) as [_ IH']. specialize (IH' (conj eq_refl H2)).
           congruence.
      * split; [discriminate|]. intros [H1 H2]. destruct xs as [|x xs]; [discriminate|]. simpl in H1. inversion H1; subst.
        simpl in H2. apply andb_true_iff in H2 as [_ H2]. destruct (IH xs) as [_ IH']. specialize (IH' (conj eq_refl H2)).
        congruence.
    + split; [discriminate|]. intros [H1 H2]. destruct xs as [|x xs]; [discriminate|]. simpl in *. inversion H1; subst.
      destruct x; simpl in *; discriminate.
Qed.

Lemma quantified_iff q args g :
  quantified q args = Ok g <->
  exists xs f, xs <> [] /\ forallb is_var xs = true /\ args = map ATerm xs ++ [AForm f] /\ g = Quant q xs f.
Proof.
  unfold quantified. split.
  - intros H. assert (Hrev : rev (rev args) = args) by apply rev_involutive.
    destruct (rev args) as [|[t|f] [|v vs]]; try discriminate.
    destruct (mapM arg_var (rev (v :: vs))) as [xs|] eqn:E; cbn [bind] in H; [|discriminate]. inversion H; subst.
    apply mapM_arg_var in E as [E1 E2]. exists xs, f. repeat split; auto.
    + intros ->. simpl in E1. destruct (rev vs); discriminate.
    + simpl. simpl in E1. now rewrite E1.
  - intros (xs & f & Hne & Hv & -> & ->). rewrite rev_app_distr. cbn [rev app].
    assert (E : rev (rev (map ATerm xs)) = map ATerm xs) by apply rev_involutive.
    assert (Hn : rev (map ATerm xs) <> []).
    { intros H. rewrite H in E. simpl in E. destruct xs; [congruence|discriminate]. }
    destruct (rev (map ATerm xs)) as [|v vs]; [congruence|].
    assert (E2 : mapM arg_var (rev (v :: vs)) = Ok xs) by (rewrite E; apply mapM_arg_var; auto).
    change (bind (mapM arg_var (rev (v :: vs))) (fun xs => Ok (Quant q xs f)) = Ok (Quant q xs f)).
    now rewrite E2.
Qed.

Lemma quantified_err q args e : quantified q args = Err e -> e = LanguageError.
Proof.
  unfold quantified. destruct (rev args) as [|[t|f] [|v vs]]; intros H; inversion H; auto.
  destruct (mapM arg_var (rev (v :: vs))) as [xs|e'] eqn:E; cbn [bind] in H; [discriminate|]. inversion H; subst.
  apply mapM_err in E as (x & _ & Hx). destruct x as [[]|]; simpl in Hx; congruence.
Qed.

(** ** flatten *)
Lemma flatten_aux_nonempty c f : wf f = true -> flatten_aux c f <> [].
Proof.
  induction f as [ | | p ts | d fs IH | q vs f IH] using formula_ind_simple; intros H; simpl; try discriminate.
  destruct (conn_eqb d c); [|discriminate].
  apply wf_Comp in H as [Ha Hf]. destruct fs as [|g fs]; [destruct d; discriminate|].
  simpl. inversion IH; subst. inversion Hf; subst. intros E. apply app_eq_nil in E as [E _]. now apply H1 in E.
Qed.

Lemma conn_eqb_eq c d : conn_eqb c d = true <-> c = d.
Proof. destruct c, d; simpl; split; congruence. Qed.

Lemma flatten_aux_correct c f : c <> Not -> wf f = true ->
  (forall M e, conn_sem c M e (flatten_aux c f) = fsem M f e) /\
  Forall (fun g => wf g = true /\ match g with Comp d _ => d <> c | _ => True end) (flatten_aux c f).
Proof.
  intros Hc. induction f as [ | | p ts | d fs IH | q vs f IH] using formula_ind_simple; intros H.
  1-3,5: split; [intros M e; destruct c; try congruence; simpl; rewrite ?andb_true_r, ?orb_false_r; reflexivity
                | repeat constructor; exact H].
  pose proof H as Hwf.
  apply wf_Comp in H as [Ha Hf]. rewrite Forall_forall in IH, Hf. cbn [flatten_aux].
  destruct (conn_eqb d c) eqn:E.
  - apply conn_eqb_eq in E as ->. split.
    + intros M e. destruct c; try congruence; simpl.
      * clear Ha Hwf. induction fs as [|g fs IHfs]; simpl; [reflexivity|].
        rewrite forallb_app. rewrite IHfs by (intros; apply IH || apply Hf; simpl; auto). f_equal.
        destruct (IH g (or_introl eq_refl) (Hf g (or_introl eq_refl))) as [Hg _]. apply Hg.
      * clear Ha Hwf. induction fs as [|g fs IHfs]; simpl; [reflexivity|].
        rewrite existsb_app. rewrite IHfs by (intros; apply IH || apply Hf; simpl; auto). f_equal.
        destruct (IH g (or_introl eq_refl) (Hf g (or_introl eq_refl))) as [Hg _]. apply Hg.
    + apply Forall_forall. intros g Hg. apply in_flat_map in Hg as (h & Hh & Hg).
      destruct (IH h Hh (Hf h Hh)) as [_ HF]. rewrite Forall_forall in HF. auto.
  - split.
    + intros M e. destruct c; try congruence; unfold conn_sem, forallb, existsb; rewrite ?andb_true_r, ?orb_false_r; reflexivity.
    + constructor; [|constructor]. split; [exact Hwf|]. intros ->. destruct c; discriminate.
Qed.

Lemma flatten_aux_length c f : wf f = true -> 1 <= List.length (flatten_aux c f).
Proof. intros H. pose proof (flatten_aux_nonempty c f H). destruct (flatten_aux c f); simpl; [congruence|lia]. Qed.

Lemma flatten_aux_root_length c fs : c <> Not -> wf (Comp c fs) = true -> 2 <= List.length (flatten_aux c (Comp c fs)).
Proof.
  intros Hc H. apply wf_Comp in H as [Ha Hf]. simpl.
  assert (E : conn_eqb c c = true) by now apply conn_eqb_eq. rewrite E.
  destruct fs as [|a [|b fs]]; try (destruct c; try congruence; discriminate).
  inversion Hf as [|? ? Hwa Hf']; subst. inversion Hf' as [|? ? Hwb _]; subst.
  simpl. rewrite !app_length. pose proof (flatten_aux_length c a Hwa). pose proof (flatten_aux_length c b Hwb). lia.
Qed.

Lemma flatten_aux_id c g : match g with Comp d _ => d <> c | _ => True end -> flatten_aux c g = [g].
Proof.
  destruct g as [ | | | d fs | ]; intros H; try reflexivity. simpl.
  destruct (conn_eqb d c) eqn:E; [apply conn_eqb_eq in E; congruence|reflexivity].
Qed.

Lemma flatten_correct f : wf f = true ->
  exists g, flatten f = Ok g /\ wf g = true /\ equivalent f g /\
    match g with
    | Comp And gs => Forall (fun h => is_and h = false) gs
    | Comp Or gs => Forall (fun h => is_or h = false) gs
    | _ => True
    end /\ flatten g = Ok g.
Proof.
  intros H.
  assert (G : forall c fs, c <> Not -> f = Comp c fs ->
    exists g gs, compound c (flatten_aux c f) = Ok g /\ g = Comp c gs /\ wf g = true /\ equivalent f g /\
     Forall (fun h => match h with Comp d _ => d <> c | _ => True end) gs /\ compound c (flatten_aux c g) = Ok g).
  { intros c fs Hc ->. destruct (flatten_aux_correct c (Comp c fs) Hc H) as [Hs HF].
    pose proof (flatten_aux_root_length c fs Hc H) as Hl.
    assert (E : comp_arity_ok c (List.length (flatten_aux c (Comp c fs))) = true).
    { destruct c; try congruence; now apply Nat.leb_le. }
    exists (Comp c (flatten_aux c (Comp c fs))), (flatten_aux c (Comp c fs)).
    unfold compound at 1. rewrite E. split; [reflexivity|]. split; [reflexivity|].
    assert (HF1 : forallb wf (flatten_aux c (Comp c fs)) = true).
    { apply forallb_forall. intros x Hx. rewrite Forall_forall in HF. now apply HF. }
    split; [cbn [wf]; now rewrite E, HF1|]. split; [|split].
    - intros M e. rewrite <- Hs. destruct c; try congruence; reflexivity.
    - eapply Forall_impl; [|exact HF]. intros a [_ Ha]; exact Ha.
    - remember (flatten_aux c (Comp c fs)) as gs. assert (Eg : flatten_aux c (Comp c gs) = gs).
      { cbn [flatten_aux]. replace (conn_eqb c c) with true by (symmetry; now apply conn_eqb_eq).
        clear -HF. induction HF as [|x l [_ Hx] _ IH]; simpl; [reflexivity|]. rewrite flatten_aux_id by exact Hx. now rewrite IH. }
      rewrite Eg. unfold compound. now rewrite E. }
  destruct f as [ | | p ts | c fs | q vs f]; try (eexists; repeat split; auto; fail).
  destruct c.
  - destruct (G And fs) as (g & gs & G1 & -> & G2 & G3 & G4 & G5); try discriminate; auto.
    exists (Comp And gs). repeat split; auto. eapply Forall_impl; [|exact G4].
    intros h Hh. destruct h as [ | | | [| |] | ]; simpl; congruence.
  - destruct (G Or fs) as (g & gs & G1 & -> & G2 & G3 & G4 & G5); try discriminate; auto.
    exists (Comp Or gs). repeat split; auto. eapply Forall_impl; [|exact G4].
    intros h Hh. destruct h as [ | | | [| |] | ]; simpl; congruence.
  - eexists; repeat split; auto.
Qed.
