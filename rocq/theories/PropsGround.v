(** C44: ground-atom extraction. *)
From Verif Require Import Base Syntax Semantics FolSpec GroundAtoms GroundAtomsSpec.
#[local] Open Scope string_scope.

Lemma unpack_ok ts : Forall constant ts <-> exists r, unpack_element_subterms ts = Ok r.
Proof.
  induction ts as [|t ts IH]; simpl; [split; eauto|]. split.
  - intros H. inversion H as [|? ? (c & s & ->) Hts]; subst. apply IH in Hts as (r & ->). eexists; reflexivity.
  - intros (r & H). destruct t; try discriminate. destruct (unpack_element_subterms ts) as [r'|] eqn:E; [|discriminate].
    constructor; [exists c, s; reflexivity|]. apply IH. eauto.
Qed.
Lemma unpack_err ts : Forall constant ts \/ unpack_element_subterms ts = Err TransformationError.
Proof.
  induction ts as [|t ts [IH|IH]]; simpl; [left; auto| |]; destruct t; auto.
  - left. constructor; auto. exists c, s; reflexivity.
  - right. rewrite IH. reflexivity.
Qed.
Lemma mapM_ok_iff {A B} (f : A -> res B) l : (exists r, mapM f l = Ok r) <-> Forall (fun x => exists y, f x = Ok y) l.
Proof.
  induction l as [|x l IH]; simpl; [split; eauto|]. destruct (f x) as [y|e] eqn:E.
  - destruct (mapM f l) as [r|e].
    + split; [|eauto]. intros _. constructor; [eauto|]. apply IH. eauto.
    + split; [intros (r & ?); discriminate|]. intros H. inversion H as [|? ? _ H']; subst. apply IH in H' as (r & ?). discriminate.
  - split; [intros (r & ?); discriminate|]. intros H. inversion H as [|? ? (y & ?) _]; subst. congruence.
Qed.
Lemma mapM_err {A B} (f : A -> res B) (err : exn) l : Forall (fun x => (exists y, f x = Ok y) \/ f x = Err err) l ->
  (exists r, mapM f l = Ok r) \/ mapM f l = Err err.
Proof.
  induction 1 as [|x l [(y & E)|E] H IH]; simpl; [eauto| |]; rewrite E; [|auto].
  destruct IH as [(r & ->)| ->]; eauto.
Qed.
Lemma unpack_atom_ok p ts : (p = PB PEq -> List.length ts = 2) ->
  (ground_conjunction (Atom p ts) <-> exists t, unpack_atom p ts = Ok t).
Proof.
  intros Hlen. destruct p as [b|n ss].
  - destruct b; try (split; [intros H; inversion H|intros (t & H); discriminate]).
    specialize (Hlen eq_refl). destruct ts as [|a [|b [|? ?]]]; try discriminate. clear Hlen. split.
    + intros H; inversion H as [|f us d Hus (c & s & ->)|f us d Hus (c & s & ->)|]; subst; apply unpack_ok in Hus as (r & E);
        simpl; rewrite E; eexists; reflexivity.
    + intros (t & H). destruct a, b; try discriminate H; simpl in H;
        match type of H with context[unpack_element_subterms ?us] => destruct (unpack_element_subterms us) eqn:E; try discriminate H end;
        constructor; try (eexists; eexists; reflexivity); apply unpack_ok; eauto.
  - cbn [unpack_atom]. split.
    + intros H; inversion H as [? ? ? Hts| | |]; subst. apply unpack_ok in Hts as (r & ->). eexists; reflexivity.
    + intros (t & H). constructor. apply unpack_ok. destruct (unpack_element_subterms ts); [eauto|discriminate].
Qed.
Lemma unpack_atom_err p ts : (exists t, unpack_atom p ts = Ok t) \/ unpack_atom p ts = Err TransformationError.
Proof.
  destruct p as [b|n ss]; [destruct b|]; cbn [unpack_atom]; auto.
  - destruct (compounds ts) as [|[f us] [|? ?]]; try (right; reflexivity). destruct (constants ts) as [|c [|? ?]]; try (right; reflexivity).
    destruct (unpack_err us) as [H|H]; [apply unpack_ok in H as (r & ->); left; eexists; reflexivity|rewrite H; auto].
  - destruct (unpack_err ts) as [H|H]; [apply unpack_ok in H as (r & ->); left; eexists; reflexivity|rewrite H; auto].
Qed.

(** It succeeds exactly on the conjunctions of ground atoms and functional equalities, and raises TransformationError on
    everything else. *)
Theorem C44_domain : forall f, builtin_binary f = true ->
  (ground_conjunction f <-> exists ts, transform_to_ground_atoms f = Ok ts).
Proof.
  apply (formula_ind_simple (fun f => builtin_binary f = true -> (ground_conjunction f <-> exists ts, transform_to_ground_atoms f = Ok ts))).
  - intros _. split; [intros H; inversion H|intros (? & ?); discriminate].
  - intros _. split; [intros H; inversion H|intros (? & ?); discriminate].
  - intros p ts Hb. rewrite unpack_atom_ok.
    + cbn [transform_to_ground_atoms]. split; intros (t & H); [rewrite H; eexists; reflexivity|].
      destruct (unpack_atom p ts); [eauto|discriminate].
    + intros ->. simpl in Hb. apply Nat.eqb_eq in Hb. exact Hb.
  - intros c fs HF Hb. destruct c; try (split; [intros H; inversion H|intros (? & ?); discriminate]).
    cbn [transform_to_ground_atoms]. assert (HE : Forall (fun f => ground_conjunction f <-> exists ts, transform_to_ground_atoms f = Ok ts) fs).
    { rewrite Forall_forall in HF |- *. intros f Hf. apply HF; [exact Hf|]. simpl in Hb. rewrite forallb_forall in Hb. auto. }
    rewrite Forall_forall in HE. split.
    + intros H; inversion H as [| | |? Hfs]; subst.
      assert (X : exists r, mapM transform_to_ground_atoms fs = Ok r).
      { apply mapM_ok_iff. rewrite Forall_forall in Hfs |- *. intros f Hf. apply HE; auto. }
      destruct X as (r & ->). eexists; reflexivity.
    + intros (ts & H). destruct (mapM transform_to_ground_atoms fs) as [r|] eqn:E; [|discriminate].
      assert (X : exists r, mapM transform_to_ground_atoms fs = Ok r) by eauto. apply mapM_ok_iff in X.
      constructor. rewrite Forall_forall in X |- *. intros f Hf. apply HE; auto.
  - intros q vs f _ _. split; [intros H; inversion H|intros (? & ?); discriminate].
Qed.
Print Assumptions C44_domain.

Theorem C44_other_formulas_raise : forall f, builtin_binary f = true -> ~ ground_conjunction f ->
  transform_to_ground_atoms f = Err TransformationError.
Proof.
  intros f Hb Hn. assert (H : (exists ts, transform_to_ground_atoms f = Ok ts) \/ transform_to_ground_atoms f = Err TransformationError).
  { clear Hb Hn. induction f as [| |p ts|c fs HF|q vs f IH] using formula_ind_simple; auto.
    - cbn [transform_to_ground_atoms]. destruct (unpack_atom_err p ts) as [(t & ->)| ->]; [left; eexists; reflexivity|right; reflexivity].
    - destruct c; auto. cbn [transform_to_ground_atoms]. destruct (mapM_err _ TransformationError fs HF) as [(r & ->)| ->]; [left; eexists; reflexivity|right; reflexivity]. }
  destruct H as [H|H]; [|exact H]. exfalso. apply Hn, C44_domain; auto.
Qed.
Print Assumptions C44_other_formulas_raise.

Section Truth.
  Variables (L : vocabulary) (M : structure) (e : env M).
  Hypothesis Heq : standard_equality M.
  Lemma unpack_values ts r : Forall (constant_in L) ts -> unpack_element_subterms ts = Ok r ->
    map (fun u => tsem M u e) ts = map (value L M) r.
  Proof.
    intros H. revert r. induction H as [|t ts Ht H IH]; simpl; intros r E; [inversion E; reflexivity|].
    destruct t as [|c s| |]; try discriminate. destruct (unpack_element_subterms ts) as [r'|] eqn:E'; [|discriminate].
    inversion E; subst. simpl. rewrite (IH r' eq_refl). f_equal. unfold value. rewrite (Ht c s eq_refl). reflexivity.
  Qed.
  Lemma fun_true f us r d : Forall (constant_in L) us -> unpack_element_subterms us = Ok r ->
    (fint M f (map (fun u => tsem M u e) us) = value L M d <-> fun_tuple_true L M f (r ++ [d])).
  Proof.
    intros Hus E. rewrite (unpack_values us r Hus E). split.
    - intros H. exists r, d. auto.
    - intros (args & d' & H & H'). apply app_inj_tail in H as [-> ->]. exact H'.
  Qed.
  Lemma concat_forall {A} (P : A -> Prop) ls : Forall P (List.concat ls) <-> Forall (Forall P) ls.
  Proof. induction ls as [|l ls IH]; simpl; [split; constructor|]. rewrite Forall_app, IH. split; [intros []; auto|intros H; inversion H; auto]. Qed.
  Lemma side_true a b t : side L a -> side L b -> unpack_atom (PB PEq) [a; b] = Ok t ->
    (tsem M a e = tsem M b e <-> tuple_true L M t).
  Proof.
    intros Ha Hb E.
    destruct Ha as [ca sa Hsa|na da cda usa Hna Hua|ba usa Hua]; destruct Hb as [cb sb Hsb|nb db cdb usb Hnb Hub|bb usb Hub];
      cbn [unpack_atom compounds constants flat_map app] in E; try discriminate E;
      match type of E with context[unpack_element_subterms ?us] => destruct (unpack_element_subterms us) as [r|] eqn:Er; try discriminate E end;
      inversion E; subst t; cbn [fsym_head tuple_true tsem]; try (rewrite ?Hna, ?Hnb; cbv iota);
      first [rewrite <- (fun_true _ _ _ _ Hua Er)|rewrite <- (fun_true _ _ _ _ Hub Er)]; unfold value; subst; split; intros X; congruence.
  Qed.
  Lemma truth f : over L f -> forall ts, transform_to_ground_atoms f = Ok ts -> (fsem M f e = true <-> Forall (tuple_true L M) ts).
  Proof.
    induction f as [| |p us|c fs HF|q vs f IH] using formula_ind_simple; intros Ho ts E; inversion Ho; subst.
    - cbn [transform_to_ground_atoms unpack_atom fsem] in *. destruct (unpack_element_subterms us) as [r|] eqn:Er; [|discriminate].
      cbn [bind] in E. inversion E; subst.
      match goal with H : Forall (constant_in L) us |- _ => rewrite (unpack_values us r H Er) end.
      assert (X : tuple_true L M (HName n, r) <-> pint M (PU n ss) (map (value L M) r) = true).
      { cbn [tuple_true]. match goal with H : v_sym L n = _ |- _ => rewrite H end. reflexivity. }
      rewrite <- X. split; [intros; constructor; auto|intros H0; inversion H0; auto].
    - cbn [transform_to_ground_atoms fsem map] in *. rewrite (Heq _ _).
      destruct (unpack_atom (PB PEq) [a; b]) as [t|] eqn:Et; [|discriminate]. cbn [bind] in E. inversion E; subst.
      rewrite (side_true a b t); auto. split; [intros; constructor; auto|intros H; inversion H; auto].
    - cbn [transform_to_ground_atoms fsem] in *. destruct (mapM transform_to_ground_atoms fs) as [ls|] eqn:El; [|discriminate].
      cbn [bind] in E. inversion E; subst. clear E Ho. rewrite forallb_forall, concat_forall.
      revert ls El. induction fs as [|f fs IHfs]; intros ls El; cbn [mapM] in El.
      + inversion El; subst. split; [constructor|intros _ x []].
      + destruct (transform_to_ground_atoms f) as [l|] eqn:Ef; [|discriminate]. destruct (mapM transform_to_ground_atoms fs) as [ls'|]; [|discriminate].
        inversion El; subst. inversion HF as [|? ? Hf HF']; subst.
        match goal with H : Forall (over L) (f :: fs) |- _ => inversion H as [|? ? Hof Hofs]; subst end.
        specialize (IHfs HF' Hofs ls' eq_refl). specialize (Hf Hof l Ef). split.
        * intros H. constructor; [apply Hf, H; left; reflexivity|apply IHfs; intros x Hx; apply H; right; exact Hx].
        * intros H. inversion H; subst. intros x [<-|Hx]; [apply Hf; assumption|]. apply IHfs; assumption.
  Qed.
End Truth.
(** In a language where names identify symbols and constants, the formula is true exactly when all returned tuples are. *)
Theorem C44_tuples_are_the_conjuncts : forall L f ts, over L f -> transform_to_ground_atoms f = Ok ts ->
  forall M e, standard_equality M -> (fsem M f e = true <-> Forall (tuple_true L M) ts).
Proof. intros L f ts Ho E M e Heq. exact (truth L M e Heq f Ho ts E). Qed.
Print Assumptions C44_tuples_are_the_conjuncts.

(** The tuples carry names only: the same number as a constant of two numeric sorts gives the same tuple for different atoms. *)
Theorem C44_sorts_are_lost : exists f g ts M e, f <> g /\ transform_to_ground_atoms f = Ok ts /\ transform_to_ground_atoms g = Ok ts /\
  standard_equality M /\ fsem M f e <> fsem M g e.
Proof.
  exists (Atom (PU "p" ["Integer"]) [Cst (CInt 3) "Integer"]), (Atom (PU "p" ["Integer"]) [Cst (CInt 3) "Natural"]).
  exists [(HName "p", [CInt 3])].
  exists {| carrier := bool; dom := fun _ => []; cint := fun _ s => String.eqb s "Integer"; fint := fun _ _ => true;
            pint := fun p vs => match p, vs with PU _ _, [x] => x | PB PEq, [a; b] => Bool.eqb a b | _, _ => false end |}, (fun _ => true).
  split; [discriminate|]. split; [reflexivity|]. split; [reflexivity|]. split; [|vm_compute; discriminate].
  intros a b. apply Bool.eqb_true_iff.
Qed.
Print Assumptions C44_sorts_are_lost.

Example C44_nonvacuous :
  let a := Cst (CStr "a") "object" in let b := Cst (CStr "b") "object" in
  let on := PU "on" ["object"; "object"] in let loc := FU "loc" ["object"] "object" in
  let f := Comp And [Atom on [a; b]; Comp And [Atom (PB PEq) [App loc [a]; b]; Atom (PB PEq) [a; App loc [b]]]] in
  let L := {| v_sym := fun n => if String.eqb n "on" then Some (inl on) else if String.eqb n "loc" then Some (inr loc) else None;
              v_const := fun _ => "object" |} in
  over L f /\ transform_to_ground_atoms f = Ok [(HName "on", [CStr "a"; CStr "b"]); (HName "loc", [CStr "a"; CStr "b"]); (HName "loc", [CStr "b"; CStr "a"])].
Proof.
  cbv zeta. split; [|reflexivity].
  assert (forall c, constant_in {| v_sym := fun n => if String.eqb n "on" then Some (inl (PU "on" ["object"; "object"])) else
     if String.eqb n "loc" then Some (inr (FU "loc" ["object"] "object")) else None; v_const := fun _ => "object" |} (Cst (CStr c) "object"))
    by (intros c' c s H; inversion H; reflexivity).
  repeat (constructor; auto).
Qed.
