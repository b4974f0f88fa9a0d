(** Reading PDDL conditions: scopes and meaning *)
From Verif Require Import Base Syntax Build BuildProofs Semantics SemLemmas ListUtil ModelState ModelProofs FreeVars Lang LangSpec LangProofs LangProofs2 Theories TheoriesSpec PropsTermOps RddlRead RddlReadProofs2 RddlInitProofs2 PddlInstance PddlInstanceSpec PddlInstanceProofs5 PddlExpr PddlExprSpec PddlExprProofs.
#[local] Open Scope string_scope.
#[local] Open Scope list_scope.

Lemma ptm_ind_nested (P : ptm -> Prop) : (forall n, P (PId n)) -> (forall x, P (PVar x)) -> (forall f ts, Forall P ts -> P (PApp f ts)) -> forall t, P t.
Proof. intros H1 H2 H3. fix IH 1. intros [n|x|f ts]; [apply H1|apply H2|apply H3]. induction ts as [|t ts IHts]; constructor; [apply IH|exact IHts]. Qed.
Lemma pfe_ind_nested (P : pfe -> Prop) : (forall z, P (FNat z)) -> (forall c, P (FReal c)) -> (forall x, P (FVar x)) -> (forall n, P (FId n)) -> (forall f ts, P (FApp f ts)) ->
  (forall a b, P a -> P b -> P (FMinus a b)) -> (forall a b, P a -> P b -> P (FDiv a b)) -> (forall a b r, P a -> P b -> Forall P r -> P (FPlus a b r)) -> (forall a b r, P a -> P b -> Forall P r -> P (FTimes a b r)) -> (forall a, P a -> P (FNeg a)) -> forall x, P x.
Proof.
  intros H1 H2 H3 H4 H5 H6 H7 H8 H9 H10. fix IH 1. intros [z|c|x|n|f ts|a b|a b|a b r|a b r|a];
    [apply H1|apply H2|apply H3|apply H4|apply H5|apply H6; apply IH|apply H7; apply IH| | |apply H10; apply IH].
  - apply H8; [apply IH|apply IH|]. induction r as [|t r IHr]; constructor; [apply IH|exact IHr].
  - apply H9; [apply IH|apply IH|]. induction r as [|t r IHr]; constructor; [apply IH|exact IHr].
Qed.
Lemma gd_ind_nested (P : gd -> Prop) : (forall p ts, P (GAtom p ts)) -> (forall p ts, P (GNotAtom p ts)) -> (forall a b, P (GEq a b)) -> (forall a b, P (GNotEq a b)) -> (forall gs, Forall P gs -> P (GAnd gs)) -> (forall gs, Forall P gs -> P (GOr gs)) ->
  (forall g, P g -> P (GNot g)) -> (forall g h, P g -> P h -> P (GImply g h)) -> (forall vs g, P g -> P (GEx vs g)) -> (forall vs g, P g -> P (GAll vs g)) -> (forall b x y, P (GComp b x y)) -> forall g, P g.
Proof.
  intros H1 H2 H3 H4 H5 H6 H7 H8 H9 H10 H11. fix IH 1. intros [p ts|p ts|a b|a b|gs|gs|g|g h|vs g|vs g|b x y];
    [apply H1|apply H2|apply H3|apply H4| | |apply H7; apply IH|apply H8; apply IH|apply H9; apply IH|apply H10; apply IH|apply H11].
  - apply H5. induction gs as [|t r IHr]; constructor; [apply IH|exact IHr].
  - apply H6. induction gs as [|t r IHr]; constructor; [apply IH|exact IHr].
Qed.

(** ** Scopes *)
Definition distinct (d : scope) : Prop := NoDup (map fst d).
Lemma enter_distinct vs : forall d, distinct d -> distinct (enter d vs).
Proof. induction vs as [|v vs IH]; intros d H; [exact H|]. change (enter d (v :: vs)) with (enter (dset String.eqb d (fst v) v) vs). apply IH. unfold distinct. now apply (dset_NoDup String.eqb seqb). Qed.
Lemma enter_other vs x : forall d, ~ In x (map fst vs) -> sget (enter d vs) x = sget d x.
Proof.
  induction vs as [|v vs IH]; intros d H; [reflexivity|]. cbn [map In] in H. change (enter d (v :: vs)) with (enter (dset String.eqb d (fst v) v) vs). rewrite IH by tauto. rewrite sget_dset. destruct (String.eqb_spec (fst v) x) as [Q|_]; [tauto|reflexivity].
Qed.
Lemma enter_new vs v : forall d, NoDup (map fst vs) -> In v vs -> sget (enter d vs) (fst v) = Some v.
Proof.
  induction vs as [|u vs IH]; intros d N H; [destruct H|]. cbn [map] in N. inversion N as [|? ? N1 N2]; subst. change (enter d (u :: vs)) with (enter (dset String.eqb d (fst u) u) vs). destruct H as [->|H].
  - rewrite enter_other by exact N1. rewrite sget_dset, String.eqb_refl. reflexivity.
  - apply IH; auto.
Qed.
Lemma leave_spec vs : forall d d', distinct d -> leave d vs = Ok d' -> distinct d' /\ NoDup (map fst vs) /\ (forall v, In v vs -> exists u, sget d (fst v) = Some u) /\ forall x, sget d' x = if str_mem x (map fst vs) then None else sget d x.
Proof.
  unfold leave. induction vs as [|v vs IH]; intros d d' N H; cbn [foldM] in H.
  - injection H as <-. split; [exact N|]. split; [constructor|]. split; [intros v []|reflexivity].
  - destruct (sget d (fst v)) as [u|] eqn:G; [|discriminate]. assert (N' : distinct (ddel String.eqb d (fst v))) by (unfold distinct; now apply ddel_NoDup).
    assert (D : forall x, sget (ddel String.eqb d (fst v)) x = if String.eqb (fst v) x then None else sget d x). { intros x. unfold sget. now rewrite (dget_ddel String.eqb seqb) by exact N. }
    destruct (IH _ _ N' H) as (I1 & I2 & I3 & I4). split; [exact I1|]. cbn [map]. split; [constructor; [|exact I2]|split].
    + intros Q. apply in_map_iff in Q as (w & Q & Hw). destruct (I3 w Hw) as (z & Hz). rewrite D, Q, String.eqb_refl in Hz. discriminate Hz.
    + intros w [<- |Hw]; [eauto|]. destruct (I3 w Hw) as (z & Hz). rewrite D in Hz. destruct (String.eqb (fst v) (fst w)); [discriminate|eauto].
    + intros x. rewrite I4, D. cbn [str_mem existsb]. fold (str_mem x (map fst vs)). rewrite (String.eqb_sym x (fst v)). destruct (String.eqb (fst v) x); [cbn [orb]; now destruct (str_mem x (map fst vs))|reflexivity].
Qed.
Lemma leave_ok vs : forall d, distinct d -> NoDup (map fst vs) -> (forall v, In v vs -> exists u, sget d (fst v) = Some u) -> exists d', leave d vs = Ok d'.
Proof.
  unfold leave. induction vs as [|v vs IH]; intros d N M H; cbn [foldM]; [eauto|]. destruct (H v (or_introl eq_refl)) as (u & ->). cbn [map] in M. inversion M as [|? ? M1 M2]; subst. apply IH; [unfold distinct; now apply ddel_NoDup|exact M2|].
  intros w Hw. destruct (H w (or_intror Hw)) as (z & Hz). exists z. unfold sget in *. rewrite (dget_ddel String.eqb seqb) by exact N. destruct (String.eqb_spec (fst v) (fst w)) as [Q|_]; [|exact Hz]. exfalso. apply M1. rewrite Q. now apply in_map.
Qed.
Lemma rebinding_names sc g : no_rebinding sc g <-> no_rebinding [] g /\ forall x, In x sc -> ~ In x (quantified_names g).
Proof.
  assert (Li : forall gs, Forall (fun g => forall sc, no_rebinding sc g <-> no_rebinding [] g /\ forall x, In x sc -> ~ In x (quantified_names g)) gs -> forall sc, Forall (no_rebinding sc) gs <-> Forall (no_rebinding []) gs /\ forall x, In x sc -> ~ In x (flat_map quantified_names gs)).
  { clear. induction 1 as [|g gs Hg _ IH]; intros sc; [split; [intros _; split; [constructor|intros x _ []]|intros _; constructor]|]. cbn [flat_map]. rewrite !Forall_cons_iff, (Hg sc), (IH sc). split.
    - intros ((A1 & A2) & B1 & B2). split; [auto|]. intros x Hx Q. apply in_app_iff in Q as [Q|Q]; [now apply (A2 x)|now apply (B2 x)].
    - intros ((A1 & B1) & Q). split; split; auto; intros x Hx W; apply (Q x Hx); apply in_app_iff; auto. }
  assert (Qu : forall vs g, (forall sc, no_rebinding sc g <-> no_rebinding [] g /\ forall x, In x sc -> ~ In x (quantified_names g)) -> forall sc,
     (NoDup (map fst (typed_variables vs)) /\ (forall x, In x (map fst (typed_variables vs)) -> ~ In x sc) /\ no_rebinding (map fst (typed_variables vs) ++ sc) g) <->
     (NoDup (map fst (typed_variables vs)) /\ no_rebinding (map fst (typed_variables vs) ++ []) g) /\ forall x, In x sc -> ~ In x (map fst (typed_variables vs) ++ quantified_names g)).
  { clear. intros vs g Hg sc. rewrite (Hg (_ ++ sc)), (Hg (_ ++ [])). split.
    - intros (A & B & C & D). split; [split; [exact A|split; [exact C|]]|].
      + intros x Hx. apply D. rewrite app_nil_r in Hx. apply in_app_iff. now left.
      + intros x Hx Q. apply in_app_iff in Q as [Q|Q]; [now apply (B x)|]. apply (D x); [apply in_app_iff; now right|exact Q].
    - intros ((A & B & C) & D). split; [exact A|]. split; [|split; [exact B|]].
      + intros x Hx Q. apply (D x Q). apply in_app_iff. now left.
      + intros x Hx Q. apply in_app_iff in Hx as [Hx|Hx]; [apply (C x); [rewrite app_nil_r; exact Hx|exact Q]|]. apply (D x Hx). apply in_app_iff. now right. }
  revert sc. induction g as [p ts|p ts|a b|a b|gs IH|gs IH|g IH|g h IHg IHh|vs g IH|vs g IH|b x y] using gd_ind_nested; intros sc; cbn [quantified_names].
  1-4,11: (split; [intros _; split; [constructor|intros x0 _ []]|intros _; constructor]).
  - split; [intros H; inversion H; subst|intros [H Q]; inversion H; subst].
    + assert (W := proj1 (Li gs IH sc) ltac:(assumption)). destruct W. split; [now constructor|auto].
    + constructor. apply (Li gs IH sc). auto.
  - split; [intros H; inversion H; subst|intros [H Q]; inversion H; subst].
    + assert (W := proj1 (Li gs IH sc) ltac:(assumption)). destruct W. split; [now constructor|auto].
    + constructor. apply (Li gs IH sc). auto.
  - split; [intros H; inversion H; subst|intros [H Q]; inversion H; subst].
    + assert (W := proj1 (IH sc) ltac:(assumption)). destruct W. split; [now constructor|auto].
    + constructor. apply IH. auto.
  - split; [intros H; inversion H; subst|intros [H Q]; inversion H; subst].
    + assert (W := proj1 (IHg sc) ltac:(assumption)). assert (V := proj1 (IHh sc) ltac:(assumption)). destruct W, V. split; [now constructor|]. intros x Hx Q. apply in_app_iff in Q as [Q|Q]; firstorder.
    + constructor; [apply IHg|apply IHh]; (split; [assumption|]); intros x Hx W; apply (Q x Hx); apply in_app_iff; auto.
  - split; [intros H; inversion H as [| | | | | | | | |? ? ? B1 B2 B3|]; subst|intros [H Q]; inversion H as [| | | | | | | | |? ? ? B1 B2 B3|]; subst].
    + destruct (proj1 (Qu vs g IH sc) (conj B1 (conj B2 B3))) as ((C1 & C2) & C3). split; [constructor; [exact C1|intros x _ []|exact C2]|exact C3].
    + destruct (proj2 (Qu vs g IH sc) (conj (conj B1 B3) Q)) as (C1 & C2 & C3). now constructor.
  - split; [intros H; inversion H as [| | | | | | | | | |? ? ? B1 B2 B3]; subst|intros [H Q]; inversion H as [| | | | | | | | | |? ? ? B1 B2 B3]; subst].
    + destruct (proj1 (Qu vs g IH sc) (conj B1 (conj B2 B3))) as ((C1 & C2) & C3). split; [constructor; [exact C1|intros x _ []|exact C2]|exact C3].
    + destruct (proj2 (Qu vs g IH sc) (conj (conj B1 B3) Q)) as (C1 & C2 & C3). now constructor.
Qed.

Section Scopes.
Variable parse : bool -> string -> option Z.
Variable fuel : nat.
Variable i : pinst.
Notation rd := (read_gd parse fuel i).
Notation quantified q d vs g := (let! xs := normalize i [] vs in let! fd := rd (enter d xs) g in let! h := make_quantified q xs (fst fd) in let! d' := leave (snd fd) xs in Ok (h, d')).
Lemma read_list_cons {A B} (r : scope -> A -> res (B * scope)) d x xs : read_list r d (x :: xs) = (let! yd := r d x in let! rd := read_list r (snd yd) xs in Ok (fst yd :: fst rd, snd rd)).
Proof. reflexivity. Qed.
Definition scope_ok (d : scope) (ns : list string) (d' : scope) : Prop := distinct d' /\ forall x, sget d' x = if str_mem x ns then None else sget d x.
Lemma scope_ok_refl d : distinct d -> scope_ok d [] d.
Proof. intros H. split; [exact H|reflexivity]. Qed.
Lemma str_mem_app x a b : str_mem x (a ++ b) = str_mem x a || str_mem x b.
Proof. unfold str_mem. apply existsb_app. Qed.
Lemma scope_ok_app d a d' b d'' : scope_ok d a d' -> scope_ok d' b d'' -> scope_ok d (a ++ b) d''.
Proof. intros [H1 H2] [H3 H4]. split; [exact H3|]. intros x. rewrite H4, str_mem_app, H2. destruct (str_mem x a), (str_mem x b); reflexivity. Qed.
Lemma quantified_scope q vs g : (forall d f d', distinct d -> rd d g = Ok (f, d') -> no_rebinding [] g /\ scope_ok d (quantified_names g) d') ->
  forall d f d', distinct d -> quantified q d vs g = Ok (f, d') -> NoDup (map fst (typed_variables vs)) /\ no_rebinding (map fst (typed_variables vs) ++ []) g /\ scope_ok d (map fst (typed_variables vs) ++ quantified_names g) d'.
Proof.
  intros IH d f d' D H. apply bind_some in H as (xs & X & H). apply normalize_typed in X. cbn [map app] in X. subst xs. apply bind_some in H as ([f1 d1] & R & H). apply bind_some in H as (h & _ & H). apply bind_some in H as (d2 & L & H). injection H as _ <-. cbn [fst snd] in L.
  set (xs := typed_variables vs) in *. destruct (IH _ _ _ (enter_distinct xs d D) R) as (A & B & C). destruct (leave_spec _ _ _ B L) as (L1 & L2 & L3 & L4). split; [exact L2|]. split.
  - apply (rebinding_names (_ ++ [])). split; [exact A|]. rewrite app_nil_r. intros x Hx Q. apply in_map_iff in Hx as (v & <- & Hv). destruct (L3 v Hv) as (u & Hu). rewrite C in Hu. match type of Hu with context [str_mem ?a ?b] => replace (str_mem a b) with true in Hu by (symmetry; apply str_mem_In; exact Q) end. discriminate Hu.
  - split; [exact L1|]. intros x. rewrite str_mem_app. destruct (str_mem x (map fst xs)) eqn:E; [exact (eq_trans (L4 x) (eq_trans (f_equal (fun b : bool => if b then None else sget d1 x) E) eq_refl))|]. refine (eq_trans (L4 x) (eq_trans (f_equal (fun b : bool => if b then None else sget d1 x) E) _)). rewrite C. cbn [orb]. rewrite enter_other; [reflexivity|]. intros Q. assert (Q' : str_mem x (map fst xs) = true) by (apply str_mem_In; exact Q). rewrite E in Q'. discriminate Q'.
Qed.
Lemma list_scope gs : Forall (fun g => forall d f d', distinct d -> rd d g = Ok (f, d') -> no_rebinding [] g /\ scope_ok d (quantified_names g) d') gs ->
  forall d fs d', distinct d -> read_list rd d gs = Ok (fs, d') -> Forall (no_rebinding []) gs /\ scope_ok d (flat_map quantified_names gs) d'.
Proof.
  induction 1 as [|g gs Hg _ IH]; intros d fs d' D H.
  - injection H as _ <-. split; [constructor|now apply scope_ok_refl].
  - rewrite read_list_cons in H. apply bind_some in H as ([f1 d1] & R & H). cbn [fst snd] in H. apply bind_some in H as ([fs2 d2] & R2 & H). injection H as _ <-. cbn [fst snd]. destruct (Hg _ _ _ D R) as (A & B). destruct (IH _ _ _ (proj1 B) R2) as (A2 & B2).
    split; [now constructor|]. cbn [flat_map]. now apply (scope_ok_app _ _ d1).
Qed.
Theorem gd_scope g : forall d f d', distinct d -> rd d g = Ok (f, d') -> no_rebinding [] g /\ scope_ok d (quantified_names g) d'.
Proof.
  induction g as [p ts|p ts|a b|a b|gs IH|gs IH|g IH|g h IHg IHh|vs g IH|vs g IH|b x y] using gd_ind_nested; intros d f d' D H; cbn [read_gd quantified_names] in *.
  - apply bind_some in H as (t & _ & H). apply bind_some in H as (k & _ & H). injection H as _ <-. split; [constructor|now apply scope_ok_refl].
  - apply bind_some in H as (t & _ & H). apply bind_some in H as (k & _ & H). injection H as _ <-. split; [constructor|now apply scope_ok_refl].
  - apply bind_some in H as (t & _ & H). apply bind_some in H as (k & _ & H). apply bind_some in H as (m & _ & H). injection H as _ <-. split; [constructor|now apply scope_ok_refl].
  - apply bind_some in H as (t & _ & H). apply bind_some in H as (k & _ & H). apply bind_some in H as (m & _ & H). apply bind_some in H as (o & _ & H). injection H as _ <-. split; [constructor|now apply scope_ok_refl].
  - apply bind_some in H as ([fs d1] & R & H). apply bind_some in H as (k & _ & H). injection H as _ <-. destruct (list_scope gs IH _ _ _ D R). split; [now constructor|auto].
  - apply bind_some in H as ([fs d1] & R & H). apply bind_some in H as (k & _ & H). injection H as _ <-. destruct (list_scope gs IH _ _ _ D R). split; [now constructor|auto].
  - apply bind_some in H as ([f1 d1] & R & H). apply bind_some in H as (k & _ & H). injection H as _ <-. destruct (IH _ _ _ D R). split; [now constructor|auto].
  - apply bind_some in H as ([f1 d1] & R & H). apply bind_some in H as ([f2 d2] & R2 & H). apply bind_some in H as (n & _ & H). apply bind_some in H as (k & _ & H). injection H as _ <-. cbn [snd] in *. destruct (IHg _ _ _ D R) as (A & B). destruct (IHh _ _ _ (proj1 B) R2) as (A2 & B2).
    split; [now constructor|now apply (scope_ok_app _ _ d1)].
  - destruct (quantified_scope QEx vs g IH d f d' D H) as (A & B & C). split; [constructor; [exact A|intros x _ []|exact B]|exact C].
  - destruct (quantified_scope QAll vs g IH d f d' D H) as (A & B & C). split; [constructor; [exact A|intros x _ []|exact B]|exact C].
  - apply bind_some in H as (t & _ & H). apply bind_some in H as (k & _ & H). apply bind_some in H as (m & _ & H). injection H as _ <-. split; [constructor|now apply scope_ok_refl].
Qed.
End Scopes.
