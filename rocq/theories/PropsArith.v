(** C41: arithmetic simplification, summations and products. *)
From Coq Require Import Field_theory Ring QArith Qcanon Qcabs.
From Verif Require Import Base Syntax Semantics SubstSpec FolSpec Subst QElim SemLemmas SubstProofs NegBuiltinProofs SearchModelProofs Grounding PropsFol.
From Verif Require Import QElimProofs PropsProgress PropsRelax.
From Verif Require Import Arith ArithSpec PropsGrounding.
#[local] Open Scope string_scope.

Section Val.
Variables (K : field) (U : rest K).
Notation S := (arith K U).
Lemma K_ring : ring_theory (f0 K) (f1 K) (fadd K) (fmul K) (fsub K) (fopp K) eq.
Proof. exact (F_R (f_laws K)). Qed.
Add Ring Kring : K_ring.

Lemma add_0l v : add_ K (Some (f_int K 0)) v = v.
Proof. destruct v; simpl; [|reflexivity]. rewrite f_int_0. f_equal. ring. Qed.
Lemma add_0r v : add_ K v (Some (f_int K 0)) = v.
Proof. destruct v; simpl; [|reflexivity]. rewrite f_int_0. f_equal. ring. Qed.
Lemma sub_0l v : sub_ K (Some (f_int K 0)) v = mul_ K (Some (f_int K (-1))) v.
Proof. destruct v; simpl; [|reflexivity]. rewrite f_int_0, f_int_m1. f_equal. ring. Qed.
Lemma sub_0r v : sub_ K v (Some (f_int K 0)) = v.
Proof. destruct v; simpl; [|reflexivity]. rewrite f_int_0. f_equal. ring. Qed.
Lemma mul_0l v w : mul_ K (Some (f_int K 0)) v = Some w -> w = f0 K.
Proof. destruct v; simpl; [|discriminate]. rewrite f_int_0. intros [= <-]. ring. Qed.
Lemma mul_0r v w : mul_ K v (Some (f_int K 0)) = Some w -> w = f0 K.
Proof. destruct v; simpl; [|discriminate]. rewrite f_int_0. intros [= <-]. ring. Qed.
Lemma mul_1l v : mul_ K (Some (f_int K 1)) v = v.
Proof. destruct v; simpl; [|reflexivity]. rewrite f_int_1. f_equal. ring. Qed.
Lemma mul_1r v : mul_ K v (Some (f_int K 1)) = v.
Proof. destruct v; simpl; [|reflexivity]. rewrite f_int_1. f_equal. ring. Qed.
Lemma div_0l v w : div_ K (Some (f_int K 0)) v = Some w -> w = f0 K.
Proof.
  destruct v; simpl; [|discriminate]. destruct (f_is0 K f); [discriminate|]. rewrite f_int_0. intros [= <-]. rewrite (Fdiv_def (f_laws K)). ring.
Qed.
Lemma div_0r v : div_ K v (Some (f_int K 0)) = None.
Proof. destruct v; simpl; [|reflexivity]. rewrite f_int_0. destruct (f_is0 K (f0 K)) eqn:E; [reflexivity|]. assert (f_is0 K (f0 K) = true) by now apply f_is0_spec. congruence. Qed.
Lemma inv_1 : finv K (f1 K) = f1 K.
Proof. pose proof (Finv_l (f_laws K) (f1 K) (F_1_neq_0 (f_laws K))) as H. rewrite <- H at 2. ring. Qed.
Lemma div_1r v : div_ K v (Some (f_int K 1)) = v.
Proof.
  destruct v; simpl; [|reflexivity]. rewrite f_int_1. destruct (f_is0 K (f1 K)) eqn:E.
  - apply f_is0_spec in E. destruct (F_1_neq_0 (f_laws K) E).
  - rewrite (Fdiv_def (f_laws K)), inv_1. f_equal. ring.
Qed.
(** The zero-ness test of the model. *)
Lemma is_num z t : term_eqb t (Cst (CInt z) "Real") = true -> t = num z.
Proof.
  destruct t; cbn [term_eqb]; try discriminate. destruct (cname_eq_dec c (CInt z)) as [-> |]; simpl; [|discriminate]. intros H. apply String.eqb_eq in H. now subst.
Qed.
Lemma num_eqb z : term_eqb (num z) (Cst (CInt z) "Real") = true.
Proof. unfold num. cbn [term_eqb]. destruct (cname_eq_dec (CInt z) (CInt z)); [reflexivity|congruence]. Qed.
End Val.

Section Simplify.
Variables (parent : sort -> option sort) (m1 : sort -> bool).
Notation simplify := (simplify parent m1).

Lemma refines_refl t : refines t t. Proof. red; auto. Qed.
Ltac ev H K U := change (tsem (arith K U)) with (tsem (arith K U)) in H.

Lemma refines_op b a a' x y : (b = BAdd \/ b = BSub \/ b = BMul \/ b = BDiv) -> refines x a -> refines y a' -> refines (App (FB b) [x; y]) (App (FB b) [a; a']).
Proof.
  intros Hb Hx Hy K U e v H. cbn [tsem map] in *.
  assert (G : forall u w, tsem (arith K U) a e = Some u -> tsem (arith K U) a' e = Some w -> tsem (arith K U) x e = Some u /\ tsem (arith K U) y e = Some w) by (intros; split; auto).
  destruct (tsem (arith K U) a e) as [u|] eqn:Ea; destruct (tsem (arith K U) a' e) as [w|] eqn:Eb;
    try (destruct Hb as [-> |[-> |[-> | ->]]]; simpl in H; discriminate).
  destruct (G u w eq_refl eq_refl) as [-> ->]. exact H.
Qed.
Lemma refines_val b a a' K (U : rest K) e v : (b = BAdd \/ b = BSub \/ b = BMul \/ b = BDiv) -> tsem (arith K U) (App (FB b) [a; a']) e = Some v ->
  exists u w, tsem (arith K U) a e = Some u /\ tsem (arith K U) a' e = Some w.
Proof.
  intros Hb H. cbn [tsem map] in H. destruct (tsem (arith K U) a e) as [u|] eqn:Ea; destruct (tsem (arith K U) a' e) as [w|] eqn:Eb;
    try (destruct Hb as [-> |[-> |[-> | ->]]]; simpl in H; discriminate). eauto.
Qed.

Ltac ifs H := repeat match type of H with
  | (if ?b then _ else _) = _ => let E := fresh "T" in destruct b eqn:E
  end.

Lemma simplify_sound : forall t r, arity_ok t -> simplify t = Ok r -> refines (s_res r) t /\ refines (s_arg r) t.
Proof.
  apply (term_ind_nested (fun t => forall r, arity_ok t -> simplify t = Ok r -> refines (s_res r) t /\ refines (s_arg r) t) (fun _ => True)); auto.
  - intros x s r _ [= <-]. split; apply refines_refl.
  - intros c s r _ [= <-]. split; apply refines_refl.
  - intros f ts IH r HA H. destruct f as [b|n d c]; [|injection H as <-; split; apply refines_refl].
    assert (SUB : forall u, In u ts -> arity_ok u). { intros u Hu b' ts' Hs. apply HA. econstructor; eauto. }
    assert (AR := HA b ts (As_refl _)).
    assert (STEP : forall a r', In a ts -> simplify a = Ok r' -> refines (s_res r') a /\ refines (s_arg r') a).
    { intros a r' Ia E. rewrite Forall_forall in IH. apply IH; auto. }
    clear IH HA SUB.
    destruct b as [| | | |n];
      try (destruct AR as [AR _]; destruct ts as [|a [|a' [|? ?]]]; try (exfalso; discriminate (AR ltac:(tauto))); clear AR;
           cbn [Arith.simplify] in H; destruct (simplify a) as [x|] eqn:Ea; [|discriminate]; destruct (simplify a') as [y|] eqn:Eb; [|discriminate]; cbn [bind] in H;
           destruct (STEP a x (or_introl eq_refl) Ea) as [X1 X2]; destruct (STEP a' y (or_intror (or_introl eq_refl)) Eb) as [Y1 Y2]; clear STEP Ea Eb;
           assert (KEEP : forall b, (b = BAdd \/ b = BSub \/ b = BMul \/ b = BDiv) -> refines (App (FB b) [s_arg x; s_arg y]) (App (FB b) [a; a'])) by (intros; apply refines_op; auto);
           assert (FULL : forall b, (b = BAdd \/ b = BSub \/ b = BMul \/ b = BDiv) -> refines (App (FB b) [s_res x; s_res y]) (App (FB b) [a; a'])) by (intros; apply refines_op; auto)).
    + ifs H; try (apply is_num in T); try (apply is_num in T0); injection H as <-; cbn [s_res s_arg same]; split; auto.
      * intros K U e v H. specialize (FULL BAdd ltac:(tauto) K U e v H). rewrite T in FULL. cbn [tsem map fint arith cint num] in FULL. now rewrite add_0l in FULL.
      * intros K U e v H. specialize (FULL BAdd ltac:(tauto) K U e v H). rewrite T0 in FULL. cbn [tsem map fint arith cint num] in FULL. now rewrite add_0r in FULL.
    + ifs H; try (apply is_num in T); try (apply is_num in T0).
      * unfold minus in H. destruct (m1 (s_sort y)); [|discriminate]. cbn [bind] in H. injection H as <-; cbn [s_res s_arg same]; split; auto.
        intros K U e v H. specialize (FULL BSub ltac:(tauto) K U e v H). rewrite T in FULL. cbn [tsem map fint arith cint num] in FULL |- *. now rewrite sub_0l in FULL.
      * injection H as <-; cbn [s_res s_arg same]; split; auto.
        intros K U e v H. specialize (FULL BSub ltac:(tauto) K U e v H). rewrite T0 in FULL. cbn [tsem map fint arith cint num] in FULL. now rewrite sub_0r in FULL.
      * injection H as <-; cbn [s_res s_arg same]; split; auto.
    + ifs H; injection H as <-; cbn [s_res s_arg same]; split; auto.
      * apply is_num in T. intros K U e v H. specialize (FULL BMul ltac:(tauto) K U e v H). rewrite T in FULL. cbn [tsem map fint arith cint num] in FULL |- *. apply mul_0l in FULL. unfold zero_real. cbn [tsem cint arith]. rewrite f_int_0. now subst.
      * apply is_num in T0. intros K U e v H. specialize (FULL BMul ltac:(tauto) K U e v H). rewrite T0 in FULL. cbn [tsem map fint arith cint num] in FULL |- *. apply mul_0r in FULL. unfold zero_real. cbn [tsem cint arith]. rewrite f_int_0. now subst.
      * apply is_num in T1. intros K U e v H. specialize (FULL BMul ltac:(tauto) K U e v H). rewrite T1 in FULL. cbn [tsem map fint arith cint num] in FULL. now rewrite mul_1l in FULL.
      * apply is_num in T2. intros K U e v H. specialize (FULL BMul ltac:(tauto) K U e v H). rewrite T2 in FULL. cbn [tsem map fint arith cint num] in FULL. now rewrite mul_1r in FULL.
    + ifs H; try discriminate H; injection H as <-; cbn [s_res s_arg same]; split; auto.
      * apply is_num in T. intros K U e v H. specialize (FULL BDiv ltac:(tauto) K U e v H). rewrite T in FULL. cbn [tsem map fint arith cint num] in FULL |- *. apply div_0l in FULL. unfold zero_real. cbn [tsem cint arith]. rewrite f_int_0. now subst.
      * apply is_num in T1. intros K U e v H. specialize (FULL BDiv ltac:(tauto) K U e v H). rewrite T1 in FULL. cbn [tsem map fint arith cint num] in FULL. now rewrite div_1r in FULL.
    + cbn [Arith.simplify] in H. destruct ts as [|a ts]; [destruct (String.eqb n "exp"); discriminate|]. destruct (String.eqb n "exp") eqn:En; [|discriminate].
      apply String.eqb_eq in En. subst n. destruct AR as [_ AR]. specialize (AR eq_refl). destruct ts; [|discriminate].
      destruct (simplify a) as [x|] eqn:Ea; [|discriminate]. cbn [bind] in H. destruct (STEP a x (or_introl eq_refl) Ea) as [X1 X2].
      assert (E1 : forall z, refines z a -> refines (App (FB (BOther "exp")) [z]) (App (FB (BOther "exp")) [a])).
      { intros z Hz K U e v Hv. cbn [tsem map fint arith] in *. destruct (tsem (arith K U) a e) as [u|] eqn:E; [|discriminate Hv]. now rewrite (Hz K U e u E). }
      ifs H; injection H as <-; cbn [s_res s_arg same]; split; auto.
      apply is_num in T. intros K U e v H. specialize (E1 _ X1 K U e v H). rewrite T in E1. cbn in E1. unfold one_real. cbn. rewrite f_int_0, f_exp_0 in E1. now rewrite f_int_1.
  - intros c a b _ IHa IHb r HA H. cbn [Arith.simplify] in H. destruct (simplify a) as [x|] eqn:Ea; [|discriminate]. destruct (simplify b) as [y|] eqn:Eb; [|discriminate].
    cbn [bind] in H. injection H as <-. cbn [s_res s_arg same].
    assert (Aa : arity_ok a) by (intros ? ? Hs; apply HA; now apply As_then). assert (Ab : arity_ok b) by (intros ? ? Hs; apply HA; now apply As_else).
    destruct (IHa x Aa eq_refl) as [X _]. destruct (IHb y Ab eq_refl) as [Y _].
    assert (refines (Ite c (s_res x) (s_res y)) (Ite c a b)). { intros K U e v Hv. cbn [tsem] in *. destruct (fsem (arith K U) c e); auto. }
    split; auto.
Qed.

Lemma refines_zero t : refines (num 0) t -> never_but_zero t.
Proof. intros H K U e v Hv. specialize (H K U e v Hv). cbn in H. rewrite f_int_0 in H. congruence. Qed.
Lemma zero_divisor a b : never_but_zero b -> undefined_everywhere (App (FB BDiv) [a; b]).
Proof.
  intros H K U e. cbn [tsem map fint arith]. destruct (tsem (arith K U) b e) as [v|] eqn:E.
  - rewrite (H K U e v E), <- f_int_0. apply div_0r.
  - destruct (tsem (arith K U) a e); reflexivity.
Qed.
Definition failure (t : term) (x : exn) : Prop :=
  (x = SemanticError /\ exists a b, arith_subterm (App (FB BDiv) [a; b]) t /\ never_but_zero b) \/
  (x = ValueError /\ exists a b s, arith_subterm (App (FB BSub) [a; b]) t /\ never_but_zero a /\ m1 s = false) \/
  (x = NotImplementedError /\ exists n ts, arith_subterm (App (FB (BOther n)) ts) t /\ n <> "exp").
Lemma failure_up t u x : (forall w, arith_subterm w u -> arith_subterm w t) -> failure u x -> failure t x.
Proof. intros H [(-> & a & b & A & B)|[(-> & a & b & s & A & B & C)|(-> & n & ts & A & B)]]; [left; split; auto|right; left; split; auto|right; right; split; auto]. - exists a, b; auto. - exists a, b, s; auto. - exists n, ts; auto. Qed.
Lemma simplify_failure : forall t x, arity_ok t -> simplify t = Err x -> failure t x.
Proof.
  apply (term_ind_nested (fun t => forall x, arity_ok t -> simplify t = Err x -> failure t x) (fun _ => True)); auto.
  - intros x s r _ H; discriminate H.
  - intros c s r _ H; discriminate H.
  - intros f ts IH x HA H. destruct f as [b|n d c]; [|discriminate].
    assert (SUB : forall u, In u ts -> arity_ok u). { intros u Hu b' ts' Hs. apply HA. econstructor; eauto. }
    assert (AR := HA b ts (As_refl _)).
    assert (STEP : forall a x', In a ts -> simplify a = Err x' -> failure (App (FB b) ts) x').
    { intros a x' Ia E. rewrite Forall_forall in IH. apply (failure_up _ a); [intros w; now apply As_op|]. apply IH; auto. }
    assert (OKS : forall a r, In a ts -> simplify a = Ok r -> refines (s_res r) a) by (intros a r Ia Ea; apply (simplify_sound a r); auto).
    clear IH HA SUB.
    destruct b as [| | | |n];
      try (destruct AR as [AR _]; destruct ts as [|a [|a' [|? ?]]]; try (exfalso; discriminate (AR ltac:(tauto))); clear AR;
           cbn [Arith.simplify] in H; destruct (simplify a) as [z|] eqn:Ea; [|injection H as <-; apply (STEP a); simpl; auto];
           destruct (simplify a') as [y|] eqn:Eb; [|injection H as <-; apply (STEP a'); simpl; auto]; cbn [bind] in H).
    + repeat match type of H with (if ?b then _ else _) = _ => destruct b; try discriminate H end.
    + destruct (term_eqb (s_res z) zero_real) eqn:T; [|destruct (term_eqb (s_res y) zero_real); discriminate H].
      unfold minus in H. destruct (m1 (s_sort y)) eqn:Em; [discriminate H|]. injection H as <-. right; left. split; [reflexivity|]. exists a, a', (s_sort y).
      split; [apply As_refl|]. split; [|auto]. apply is_num in T. apply refines_zero. rewrite <- T. apply OKS; simpl; auto.
    + repeat match type of H with (if ?b then _ else _) = _ => destruct b; try discriminate H end.
    + destruct (term_eqb (s_res z) zero_real); [discriminate H|]. destruct (term_eqb (s_res y) zero_real) eqn:T; [|destruct (term_eqb (s_res y) one_real); discriminate H].
      injection H as <-. left. split; [reflexivity|]. exists a, a'. split; [apply As_refl|]. apply is_num in T. apply refines_zero. rewrite <- T. apply OKS; simpl; auto.
    + cbn [Arith.simplify] in H. destruct (String.eqb n "exp") eqn:En.
      * apply String.eqb_eq in En. subst n. destruct AR as [_ AR]. specialize (AR eq_refl). destruct ts as [|a ts]; [discriminate AR|].
        destruct (simplify a) as [y|] eqn:Ea; [|injection H as <-; apply (STEP a); simpl; auto]. cbn [bind] in H. destruct (term_eqb (s_res y) zero_real); discriminate H.
      * assert (x = NotImplementedError) by (destruct ts; congruence). subst x. right; right. split; [reflexivity|]. exists n, ts. split; [apply As_refl|]. now apply String.eqb_neq.
  - intros c a b _ IHa IHb x HA H. cbn [Arith.simplify] in H.
    assert (Aa : arity_ok a) by (intros ? ? Hs; apply HA; now apply As_then). assert (Ab : arity_ok b) by (intros ? ? Hs; apply HA; now apply As_else).
    destruct (simplify a) as [y|] eqn:Ea. 2:{ injection H as <-. apply (failure_up _ a); [intros w; now apply As_then|]. auto. }
    destruct (simplify b) as [z|] eqn:Eb; [discriminate H|]. injection H as <-. apply (failure_up _ b); [intros w; now apply As_else|]. auto.
Qed.

(** Without if-then-else on the way, an undefined operand makes the whole term undefined. *)
Lemma undefined_up u t : arith_subterm u t -> (forall c a b, ~ arith_subterm (Ite c a b) t) -> (forall b ts, arith_subterm (App (FB b) ts) t -> b = BAdd \/ b = BSub \/ b = BMul \/ b = BDiv \/ b = BOther "exp") ->
  arity_ok t -> undefined_everywhere u -> undefined_everywhere t.
Proof.
  intros H. induction H as [t|b ts u t Hin H IH|c a b u H IH|c a b u H IH]; intros NI OP AR Hu; auto.
  - assert (Ht : undefined_everywhere t). { apply IH; auto. - intros c a b' Hs. apply (NI c a b'). econstructor; eauto. - intros b' ts' Hs. apply (OP b' ts'). econstructor; eauto. - intros b' ts' Hs. apply AR. econstructor; eauto. }
    destruct (AR b ts (As_refl _)) as [A1 A2]. destruct (OP b ts (As_refl _)) as [Hb|Hb].
    + specialize (A1 ltac:(tauto)). destruct ts as [|x [|y [|? ?]]]; try discriminate A1. intros K U e. cbn [tsem map]. subst b. destruct Hin as [-> |[-> |[]]]; rewrite (Ht K U e); cbn; [|destruct (tsem (arith K U) x e)]; reflexivity.
    + destruct Hb as [Hb|[Hb|[Hb|Hb]]]; subst b.
      1-3: specialize (A1 ltac:(tauto)); destruct ts as [|x [|y [|? ?]]]; try discriminate A1; intros K U e; cbn [tsem map]; destruct Hin as [-> |[-> |[]]]; rewrite (Ht K U e); cbn; [|destruct (tsem (arith K U) x e)]; reflexivity.
      specialize (A2 eq_refl). destruct ts as [|x [|? ?]]; try discriminate A2. intros K U e. cbn [tsem map]. destruct Hin as [-> |[]]. rewrite (Ht K U e). reflexivity.
  - exfalso. apply (NI c a b). apply As_refl.
  - exfalso. apply (NI c a b). apply As_refl.
Qed.

Definition normal (t : term) : Prop := forall u, arith_subterm u t -> reducible u -> left_over u.
Lemma arith_sub_inv u t : arith_subterm u t -> u = t \/ (exists b ts a, t = App (FB b) ts /\ In a ts /\ arith_subterm u a) \/ (exists c a b, t = Ite c a b /\ (arith_subterm u a \/ arith_subterm u b)).
Proof. intros H. destruct H; [auto|right; left; eauto 6|right; right; eauto 6|right; right; eauto 6]. Qed.
Lemma normal_op b ts : (forall a, In a ts -> normal a) -> (reducible (App (FB b) ts) -> left_over (App (FB b) ts)) -> normal (App (FB b) ts).
Proof.
  intros H1 H2 u Hu Hr. apply arith_sub_inv in Hu as [-> |[(b' & ts' & a & E & Ha & Hs)|(c & x & y & E & _)]]; auto.
  - injection E as <- <-. exact (H1 a Ha u Hs Hr).
  - discriminate E.
Qed.
Lemma not_num t z : term_eqb t (Cst (CInt z) "Real") = false -> t <> num z.
Proof. intros H ->. now rewrite num_eqb in H. Qed.
Lemma normal_num z : normal (num z).
Proof. intros u Hu Hr. apply arith_sub_inv in Hu as [-> |[(b' & ts' & a & E & _)|(c & x & y & E & _)]]; [inversion Hr|discriminate E|discriminate E]. Qed.
Lemma simplify_normal : forall t r, simplify t = Ok r -> normal (s_res r).
Proof.
  apply (term_ind_nested (fun t => forall r, simplify t = Ok r -> normal (s_res r)) (fun _ => True)); auto.
  - intros x s r [= <-] u Hu Hr. apply arith_sub_inv in Hu as [-> |[(b' & ts' & a & E & _)|(c & y & z & E & _)]]; [inversion Hr|discriminate E|discriminate E].
  - intros x s r [= <-] u Hu Hr. apply arith_sub_inv in Hu as [-> |[(b' & ts' & a & E & _)|(c & y & z & E & _)]]; [inversion Hr|discriminate E|discriminate E].
  - intros f ts IH r H. destruct f as [b|n d c].
    2:{ injection H as <-. intros u Hu Hr. apply arith_sub_inv in Hu as [-> |[(b' & ts' & a & E & _)|(c' & y & z & E & _)]]; [inversion Hr|discriminate E|discriminate E]. }
    rewrite Forall_forall in IH.
    destruct b as [| | | |n];
      try (destruct ts as [|a [|a' ts]]; try discriminate H; cbn [Arith.simplify] in H; destruct (simplify a) as [x|] eqn:Ea; [|discriminate H]; destruct (simplify a') as [y|] eqn:Eb; [|discriminate H]; cbn [bind] in H;
           assert (X := IH a (or_introl eq_refl) x Ea); assert (Y := IH a' (or_intror (or_introl eq_refl)) y Eb); clear IH Ea Eb;
           assert (XY : forall u, In u [s_res x; s_res y] -> normal u) by (intros u [<- |[<- |[]]]; auto)).
    + destruct (term_eqb (s_res x) zero_real) eqn:T1; [injection H as <-; exact Y|]. destruct (term_eqb (s_res y) zero_real) eqn:T2; [injection H as <-; exact X|].
      injection H as <-. apply not_num in T1, T2. apply normal_op; auto. intros R. exfalso. inversion R; congruence.
    + destruct (term_eqb (s_res x) zero_real) eqn:T1.
      * unfold minus in H. destruct (m1 (s_sort y)); [|discriminate H]. cbn [bind] in H. injection H as <-. cbn [s_res]. apply normal_op.
        -- intros u [<- |[<- |[]]]; auto. intros u Hu Hr. apply arith_sub_inv in Hu as [-> |[(b' & ts' & a0 & E & _)|(c & y' & z & E & _)]]; [inversion Hr|discriminate E|discriminate E].
        -- intros R. remember (s_res y) as w. inversion R; subst; try (unfold num in *; discriminate). ++ exists (s_sort y), 0%Z; auto. ++ exists (s_sort y), 1%Z; auto.
      * destruct (term_eqb (s_res y) zero_real) eqn:T2; [injection H as <-; exact X|]. injection H as <-. apply not_num in T1, T2. apply normal_op; auto. intros R. exfalso. inversion R; congruence.
    + destruct (term_eqb (s_res x) zero_real) eqn:T1; [injection H as <-; apply normal_num|]. destruct (term_eqb (s_res y) zero_real) eqn:T2; [injection H as <-; apply normal_num|].
      destruct (term_eqb (s_res x) one_real) eqn:T3; [injection H as <-; exact Y|]. destruct (term_eqb (s_res y) one_real) eqn:T4; [injection H as <-; exact X|].
      injection H as <-. apply not_num in T1, T2, T3, T4. apply normal_op; auto. intros R. exfalso. inversion R; congruence.
    + destruct (term_eqb (s_res x) zero_real) eqn:T1; [injection H as <-; apply normal_num|]. destruct (term_eqb (s_res y) zero_real) eqn:T2; [discriminate H|].
      destruct (term_eqb (s_res y) one_real) eqn:T3; [injection H as <-; exact X|].
      injection H as <-. apply not_num in T1, T2, T3. apply normal_op; auto. intros R. exfalso. inversion R; congruence.
    + cbn [Arith.simplify] in H. destruct ts as [|a ts]; [destruct (String.eqb n "exp"); discriminate H|]. destruct (String.eqb n "exp"); [|discriminate H].
      destruct (simplify a) as [x|] eqn:Ea; [|discriminate H]. cbn [bind] in H. destruct (term_eqb (s_res x) zero_real) eqn:T1; injection H as <-; [apply normal_num|].
      apply not_num in T1. apply normal_op; [intros u [<- |[]]; exact (IH a (or_introl eq_refl) x Ea)|]. intros R. exfalso. inversion R; congruence.
  - intros c a b _ IHa IHb r H. cbn [Arith.simplify] in H. destruct (simplify a) as [x|] eqn:Ea; [|discriminate]. destruct (simplify b) as [y|] eqn:Eb; [|discriminate].
    cbn [bind] in H. injection H as <-. cbn [s_res same]. intros u Hu Hr. apply arith_sub_inv in Hu as [-> |[(b' & ts' & a0 & E & _)|(c' & x' & y' & E & Hs)]].
    + inversion Hr.
    + discriminate E.
    + injection E as <- <- <-. destruct Hs as [Hs|Hs]; [exact (IHa x eq_refl u Hs Hr)|exact (IHb y eq_refl u Hs Hr)].
Qed.
End Simplify.

(** ** Summations and products *)
Section Aggregates.
Variables (parent : sort -> option sort) (numeric : sort -> bool) (D : domains).
Hypothesis constants : forall s cs, D s = Some cs -> Forall (fun t => exists c s', t = Cst c s') cs.

Lemma lookup_app s1 s2 x : lookup (s1 ++ s2)%list x = match lookup s1 x with Some t => Some t | None => lookup s2 x end.
Proof. induction s1 as [|[y t] s1 IH]; simpl; [reflexivity|]. destruct (var_eqb y x); auto. Qed.
Lemma assign_lookup (M : structure) vs values (e0 : env M) : forall e x, Forall (fun t => exists c s', t = Cst c s') values -> List.length values = List.length vs ->
  match lookup (rev (combine vs values)) x with Some t => tsem M t e0 | None => e x end = assign vs (map (fun t => tsem M t e0) values) e x.
Proof.
  revert values. induction vs as [|v vs IH]; intros [|t values] e x HC HL; try discriminate HL; [reflexivity|]. inversion HC as [|? ? (c & s' & ->) HC']; subst. injection HL as HL. cbn [combine rev map assign].
  rewrite lookup_app, <- IH by auto. destruct (lookup (rev (combine vs values)) x); [reflexivity|]. cbn [lookup]. unfold upd. destruct (var_eqb v x); reflexivity.
Qed.
Lemma create_pairs_vars vs : forall values, List.length values = List.length vs ->
  create_pairs (map (fun v => Var (fst v) (snd v)) vs) values = Ok (map (fun kv => (Var (fst (fst kv)) (snd (fst kv)), snd kv)) (combine vs values)).
Proof. induction vs as [|v vs IH]; intros [|t values] H; try discriminate H; [reflexivity|]. injection H as H. cbn. now rewrite IH. Qed.
Lemma substitution_vars vs values : List.length values = List.length vs -> create_substitution (map (fun v => Var (fst v) (snd v)) vs) values = Ok (of_vars (rev (combine vs values))).
Proof. intros H. unfold create_substitution. rewrite create_pairs_vars by auto. cbn [bind]. unfold of_vars. now rewrite map_rev. Qed.
Lemma in_combine_values (vs : list var) (values : list term) kv : In kv (combine vs values) -> In (fst kv) vs /\ In (snd kv) values.
Proof. destruct kv as [a b]. intros H. split; [eapply in_combine_l|eapply in_combine_r]; eauto. Qed.
Lemma instance_value (M : structure) vs values expr (e : env M) : Forall (fun t => exists c s', t = Cst c s') values -> List.length values = List.length vs ->
  (forall b, In b (binders_t expr) -> ~ In b vs) ->
  tsem M (subst_term (of_vars (rev (combine vs values))) expr) e = tsem M expr (assign vs (map (fun t => tsem M t e) values) e).
Proof.
  intros HC HL HB. rewrite C08_substitution_lemma_terms.
  - apply (proj1 (sem_ext M)). intros x. unfold env_subst. apply assign_lookup; auto.
  - unfold no_clash. apply forallb_forall. intros b Hb. apply forallb_forall. intros kv Hkv. rewrite <- in_rev in Hkv. apply in_combine_values in Hkv as [Hk Hv].
    rewrite Forall_forall in HC. destruct (HC _ Hv) as (c & s' & ->). cbn [free_in_t negb andb]. rewrite andb_true_r. apply Bool.negb_true_iff. destruct (var_eqb (fst kv) b) eqn:E; [|reflexivity].
    exfalso. apply (HB b Hb). unfold var_eqb in E. apply andb_true_iff in E as [E1 E2]. apply String.eqb_eq in E1, E2. destruct (fst kv), b. simpl in *. now subst.
Qed.
Lemma variable_domains_ok vs doms : Forall2 (fun v cs => D (snd v) = Some cs) vs doms <-> variable_domains D vs = Ok doms.
Proof.
  split.
  - induction 1 as [|v cs vs doms H _ IH]; [reflexivity|]. unfold variable_domains in *. rewrite mapM_cons, H, IH. reflexivity.
  - revert doms. induction vs as [|v vs IH]; intros doms H; unfold variable_domains in *.
    + injection H as <-. constructor.
    + rewrite mapM_cons in H. destruct (D (snd v)) as [cs|] eqn:E; [|discriminate H]. destruct (mapM _ vs) as [l|] eqn:El; [|discriminate H]. injection H as <-. constructor; auto.
Qed.

Lemma combine_all_value (K : field) (U : rest K) (e : env (arith K U)) op (g : option (F K) -> option (F K) -> option (F K)) (z : option (F K)) :
  (forall x y, fint (arith K U) (FB op) [x; y] = g x y) -> (forall x y w, g (g x y) w = g x (g y w)) -> (forall x, g x z = x) ->
  forall l acc r, combine_all parent numeric op acc l = Ok r -> tsem (arith K U) r e = g (tsem (arith K U) acc e) (fold_right g z (map (fun u => tsem (arith K U) u e) l)).
Proof.
  intros Hg As Hz. induction l as [|u l IH]; intros acc r H; cbn [combine_all] in H.
  - injection H as <-. simpl. now rewrite Hz.
  - unfold combine_terms in H. destruct (numeric (sort_of parent acc) && numeric (sort_of parent u)); [|discriminate H]. cbn [bind] in H. rewrite (IH _ _ H).
    cbn [tsem map fold_right]. rewrite Hg. apply As.
Qed.
Lemma aggregate_value (K : field) (U : rest K) (e : env (arith K U)) op g z :
  (forall x y, fint (arith K U) (FB op) [x; y] = g x y) -> (forall x y w, g (g x y) w = g x (g y w)) -> (forall x, g x z = x) ->
  forall vs expr doms r, Forall2 (fun v cs => D (snd v) = Some cs) vs doms -> aggregate parent numeric op D vs expr = Ok r -> (forall b, In b (binders_t expr) -> ~ In b vs) ->
  tsem (arith K U) r e = fold_right g z (map (fun cs => tsem (arith K U) expr (assign vs (map (fun c => tsem (arith K U) c e) cs) e)) (product doms)).
Proof.
  intros Hg As Hz vs expr doms r HD H HB. assert (HV := proj1 (variable_domains_ok vs doms) HD). unfold aggregate in H. rewrite HV in H. cbn [bind] in H.
  destruct (mapM _ (product doms)) as [l|] eqn:El in H; [|discriminate H]. cbn [bind] in H.
  assert (V : map (fun u => tsem (arith K U) u e) l = map (fun cs => tsem (arith K U) expr (assign vs (map (fun c => tsem (arith K U) c e) cs) e)) (product doms)).
  { apply mapM_ok_Forall2 in El. assert (Q : forall b, In b (product doms) -> Forall (fun t => exists c s', t = Cst c s') b /\ List.length b = List.length vs).
    { intros b Hb. split.
      - apply product_In in Hb. clear - Hb HD constants. revert b Hb. induction HD as [|v cs vs doms H _ IH]; intros b Hb; inversion Hb; subst; constructor; auto.
        specialize (constants _ _ H). rewrite Forall_forall in constants. auto.
      - rewrite (product_length doms b Hb). symmetry. clear - HD. induction HD; simpl; auto. }
    clear H HV. induction El as [|b u bs us Hb El IH]; [reflexivity|]. cbn [map]. rewrite IH by (intros; apply Q; simpl; auto). f_equal.
    destruct (Q b (or_introl eq_refl)) as [Q1 Q2]. rewrite substitution_vars in Hb by auto. cbn [bind] in Hb. injection Hb as <-. apply instance_value; auto. }
  destruct l as [|t l]; [discriminate H|]. rewrite <- V. cbn [map fold_right]. eapply combine_all_value; eauto.
Qed.
End Aggregates.

(** The rationals. *)
Definition Qfield : field.
Proof.
  refine {| F := Qc; f0 := 0%Qc; f1 := 1%Qc; fadd := Qcplus; fmul := Qcmult; fsub := Qcminus; fopp := Qcopp; fdiv := Qcdiv; finv := Qcinv; f_laws := Qcft;
     f_is0 := fun a => if Qc_eq_dec a 0%Qc then true else false;
     f_int := fun z => Q2Qc (inject_Z z); f_int_0 := eq_refl; f_int_1 := eq_refl; f_int_m1 := eq_refl;
     f_exp := fun _ => 1%Qc; f_exp_0 := eq_refl |}.
  intros a. destruct (Qc_eq_dec a 0%Qc); split; intros; auto; discriminate.
Defined.

(** ** C41 *)
(** Whenever the original term has a value, the returned term, and the argument object (which [simplify] updates in place), have the same value:
    over every field, every interpretation of the user's symbols, every assignment. *)
Theorem C41_simplify_preserves_value : forall parent m1 t r, arity_ok t -> simplify parent m1 t = Ok r -> refines (s_res r) t /\ refines (s_arg r) t.
Proof. exact simplify_sound. Qed.
(** The full claim (equality of the denotations) fails where the original is undefined: 0 / x becomes 0. *)
Theorem C41_simplify_extends_domain_refuted : forall parent m1, exists t r, arity_ok t /\ simplify parent m1 t = Ok r /\ exists K (U : rest K) (e : env (arith K U)),
  tsem (arith K U) t e = None /\ tsem (arith K U) (s_res r) e <> None.
Proof.
  intros parent m1. exists (App (FB BDiv) [num 0; Var "x" "Real"]). eexists. split.
  { intros b ts H. apply arith_sub_inv in H as [E|[(b' & ts' & a & E & Ha & Hs)|(c & x & y & E & _)]]; [|injection E as <- <-|discriminate E].
    - injection E as -> ->. split; [reflexivity|discriminate].
    - exfalso. destruct Ha as [<- |[<- |[]]]; apply arith_sub_inv in Hs as [E|[(? & ? & ? & E & _)|(? & ? & ? & E & _)]]; discriminate E. }
  split; [reflexivity|].
  exists Qfield, {| r_dom := fun _ => []; r_cst := fun _ _ => None; r_fun := fun _ _ => None; r_pred := fun _ _ => true |}, (fun _ => Some 0%Qc). split; [reflexivity|]. intros H. vm_compute in H. discriminate H.
Qed.
(** Exceptions. [SemanticError] is raised only for a division whose divisor can have no value but zero, hence which is undefined everywhere;
    [ValueError] only for a difference 0 - t, when -1 does not belong to some sort; [NotImplementedError] only for a built-in function other than + - * / exp. Nothing else is raised. *)
Theorem C41_simplify_exceptions : forall parent m1 t x, arity_ok t -> simplify parent m1 t = Err x ->
  (x = SemanticError /\ exists a b, arith_subterm (App (FB BDiv) [a; b]) t /\ never_but_zero b /\ undefined_everywhere (App (FB BDiv) [a; b])) \/
  (x = ValueError /\ exists a b s, arith_subterm (App (FB BSub) [a; b]) t /\ never_but_zero a /\ m1 s = false) \/
  (x = NotImplementedError /\ exists n ts, arith_subterm (App (FB (BOther n)) ts) t /\ n <> "exp").
Proof.
  intros parent m1 t x A H. destruct (simplify_failure parent m1 t x A H) as [(-> & a & b & B & C)|[E|E]]; [left|right; left; exact E|right; right; exact E].
  split; [reflexivity|]. exists a, b. repeat (split; auto). now apply zero_divisor.
Qed.
(** ... and a term without if-then-else for which [SemanticError] is raised is itself undefined everywhere. *)
Theorem C41_division_by_zero_detected : forall parent m1 t, arity_ok t -> (forall c a b, ~ arith_subterm (Ite c a b) t) ->
  (forall b ts, arith_subterm (App (FB b) ts) t -> b = BAdd \/ b = BSub \/ b = BMul \/ b = BDiv \/ b = BOther "exp") ->
  simplify parent m1 t = Err SemanticError -> undefined_everywhere t.
Proof.
  intros parent m1 t A NI OP H. destruct (simplify_failure parent m1 t _ A H) as [(_ & a & b & B & C)|[(E & _)|(E & _)]]; try discriminate E.
  apply (undefined_up _ t B NI OP A). now apply zero_divisor.
Qed.
(** The full claim, that terms that have a value are simplified, fails: 0 - x for a variable x of a sort without -1 (e.g. Natural). *)
Theorem C41_subtraction_from_zero_refuted : forall parent m1, m1 "Natural" = false -> exists t, arity_ok t /\ simplify parent m1 t = Err ValueError /\
  forall K (U : rest K) (e : env (arith K U)) v, e ("x", "Natural") = Some v -> tsem (arith K U) t e = Some (fopp K v).
Proof.
  intros parent m1 Hm. exists (App (FB BSub) [num 0; Var "x" "Natural"]). split; [|split].
  - intros b ts H. apply arith_sub_inv in H as [E|[(b' & ts' & a & E & Ha & Hs)|(c & x & y & E & _)]]; [|injection E as <- <-|discriminate E].
    + injection E as -> ->. split; [reflexivity|discriminate].
    + exfalso. destruct Ha as [<- |[<- |[]]]; apply arith_sub_inv in Hs as [E|[(? & ? & ? & E & _)|(? & ? & ? & E & _)]]; discriminate E.
  - cbn. unfold minus, same, s_sort, s_res. now rewrite Hm.
  - intros K U e v H. transitivity (sub_ K (Some (f_int K 0)) (e ("x", "Natural"))); [reflexivity|]. rewrite H, sub_0l. cbn [mul_ strict2]. unfold mul_, strict2. rewrite f_int_m1. f_equal. pose proof (K_ring K) as R.
    rewrite <- (Rmul_1_l R (fopp K v)). pose proof (Ropp_def R v) as O. destruct R.
    assert (E : fadd K (fmul K (fopp K (f1 K)) v) v = fadd K (fmul K (f1 K) (fopp K v)) v).
    { rewrite Rmul_1_l. rewrite (Radd_comm (fopp K v)), O. rewrite <- (Rmul_1_l v) at 2. rewrite <- Rdistr_l, (Radd_comm (fopp K (f1 K))), Ropp_def. rewrite <- (Radd_0_l (fmul K (f0 K) v)).
      rewrite <- (Ropp_def v) at 1. rewrite <- (Rmul_1_l v) at 1. rewrite (Radd_comm (fmul K (f1 K) v)), <- Radd_assoc, <- Rdistr_l, (Radd_comm (f1 K)), Radd_0_l, Rmul_1_l, Radd_comm. apply Ropp_def. }
    apply (f_equal (fun w => fadd K w (fopp K v))) in E. rewrite <- !Radd_assoc, Ropp_def, !(Radd_comm _ (f0 K)), !Radd_0_l in E. exact E.
Qed.
(** The returned term contains none of the shapes 0+t, t+0, 0-t, t-0, 0*t, t*0, 1*t, t*1, 0/t, t/0, t/1, exp(0), except the products (-1)*0 and (-1)*1. *)
Theorem C41_simplify_normal_form : forall parent m1 t r, simplify parent m1 t = Ok r -> forall u, arith_subterm u (s_res r) -> reducible u -> left_over u.
Proof. exact simplify_normal. Qed.
(** The exception is real, and [simplify] is not idempotent: 0 - 0 becomes (-1) * 0, which becomes 0. *)
Theorem C41_not_idempotent_refuted : forall parent m1, m1 "Real" = true -> exists t r r', arity_ok t /\ simplify parent m1 t = Ok r /\ simplify parent m1 (s_res r) = Ok r' /\ s_res r <> s_res r'.
Proof.
  intros parent m1 H. exists (App (FB BSub) [num 0; num 0]). do 2 eexists. split.
  - intros b ts Hs. apply arith_sub_inv in Hs as [E|[(b' & ts' & a & E & Ha & Hs)|(c & x & y & E & _)]]; [|injection E as <- <-|discriminate E].
    + injection E as -> ->. split; [reflexivity|discriminate].
    + exfalso. destruct Ha as [<- |[<- |[]]]; apply arith_sub_inv in Hs as [E|[(? & ? & ? & E & _)|(? & ? & ? & E & _)]]; discriminate E.
  - split; [cbn; unfold minus, same, s_sort; rewrite H; reflexivity|]. split; [reflexivity|]. discriminate.
Qed.
(** [summation(x1,...,xn,t)]: the sum of the values of [t] over all tuples of elements of the domains, each with the variables assigned to the tuple. *)
Theorem C41_summation : forall parent numeric D (K : field) (U : rest K) (e : env (arith K U)) vs t doms r,
  (forall s cs, D s = Some cs -> Forall (fun u => exists c s', u = Cst c s') cs) -> Forall2 (fun v cs => D (snd v) = Some cs) vs doms ->
  (forall b, In b (binders_t t) -> ~ In b vs) -> summation parent numeric D vs t = Ok r ->
  tsem (arith K U) r e = sum_of K (map (fun cs => tsem (arith K U) t (assign vs (map (fun c => tsem (arith K U) c e) cs) e)) (product doms)).
Proof.
  intros parent numeric D K U e vs t doms r HC HD HB H. pose proof (K_ring K) as R.
  apply (aggregate_value parent numeric D HC K U e BAdd (add_ K) (Some (f0 K))) with (vs := vs) (doms := doms); auto.
  - intros [x|] [y|] [w|]; try reflexivity. simpl. now rewrite (Radd_assoc R).
  - intros [x|]; [|reflexivity]. simpl. now rewrite (Radd_comm R), (Radd_0_l R).
Qed.
Theorem C41_product : forall parent numeric D (K : field) (U : rest K) (e : env (arith K U)) vs t doms r,
  (forall s cs, D s = Some cs -> Forall (fun u => exists c s', u = Cst c s') cs) -> Forall2 (fun v cs => D (snd v) = Some cs) vs doms ->
  (forall b, In b (binders_t t) -> ~ In b vs) -> product_ parent numeric D vs t = Ok r ->
  tsem (arith K U) r e = prod_of K (map (fun cs => tsem (arith K U) t (assign vs (map (fun c => tsem (arith K U) c e) cs) e)) (product doms)).
Proof.
  intros parent numeric D K U e vs t doms r HC HD HB H. pose proof (K_ring K) as R.
  apply (aggregate_value parent numeric D HC K U e BMul (mul_ K) (Some (f1 K))) with (vs := vs) (doms := doms); auto.
  - intros [x|] [y|] [w|]; try reflexivity. simpl. now rewrite (Rmul_assoc R).
  - intros [x|]; [|reflexivity]. simpl. now rewrite (Rmul_comm R), (Rmul_1_l R).
Qed.
(** When they succeed: a compound term of numeric sort over non-empty domains; a variable of a built-in sort raises UnableToGroundError. *)
Theorem C41_aggregates_succeed : forall parent numeric op D vs f ts doms, numeric "Real" = true -> numeric (sort_of parent (App f ts)) = true ->
  Forall2 (fun v cs => D (snd v) = Some cs) vs doms -> ~ In [] doms -> exists r, aggregate parent numeric op D vs (App f ts) = Ok r.
Proof.
  intros parent numeric op D vs f ts doms NR NT HD NE. unfold aggregate. rewrite (proj1 (variable_domains_ok D vs doms) HD). cbn [bind].
  assert (HL : forall b, In b (product doms) -> List.length b = List.length vs). { intros b Hb. rewrite (product_length _ _ Hb). symmetry. clear - HD. induction HD; simpl; auto. }
  assert (M : exists l, mapM (fun values => let! s := create_substitution (map (fun v => Var (fst v) (snd v)) vs) values in Ok (subst_term s (App f ts))) (product doms) = Ok l /\
    List.length l = List.length (product doms) /\ Forall (fun u => numeric (sort_of parent u) = true) l).
  { clear NE HD. induction (product doms) as [|b bs IH]; [exists []; repeat split; constructor|]. destruct IH as (l & E & E2 & E3); [intros; apply HL; simpl; auto|].
    exists (subst_term (of_vars (rev (combine vs b))) (App f ts) :: l). rewrite mapM_cons, substitution_vars by (apply HL; simpl; auto). cbn [bind]. rewrite E. split; [reflexivity|]. split; [simpl; now rewrite E2|].
    constructor; auto. rewrite subst_app. destruct f; exact NT. }
  destruct M as (l & -> & L1 & L2). cbn [bind]. destruct l as [|t l]. { apply product_nonempty in NE. destruct (product doms); [destruct (NE eq_refl)|discriminate L1]. }
  inversion L2 as [|? ? Ht Hl]; subst. clear - NR Ht Hl. revert t Ht. induction Hl as [|u l Hu _ IH]; intros t Ht; [eexists; reflexivity|].
  cbn [combine_all]. unfold combine_terms. rewrite Ht, Hu. cbn [andb bind]. apply IH. exact NR.
Qed.
(** The empty sum and the empty product are not built: IndexError. *)
Theorem C41_empty_domain_refuted : forall parent numeric op D x s t, D s = Some [] -> aggregate parent numeric op D [(x, s)] t = Err IndexError.
Proof. intros parent numeric op D x s t H. unfold aggregate, variable_domains. rewrite mapM_cons. cbn [snd]. rewrite H. reflexivity. Qed.
Theorem C41_builtin_sort_variable : forall parent numeric op D vs t, (exists v, In v vs /\ D (snd v) = None) -> aggregate parent numeric op D vs t = Err UnableToGroundError.
Proof.
  intros parent numeric op D vs t (v & Hv & Hn). unfold aggregate. assert (E : variable_domains D vs = Err UnableToGroundError).
  { unfold variable_domains. induction vs as [|w vs IH]; [destruct Hv|]. rewrite mapM_cons. destruct Hv as [-> |Hv]; [now rewrite Hn|]. rewrite (IH Hv). destruct (D (snd w)); reflexivity. }
  rewrite E. reflexivity.
Qed.

(** Non-vacuity, over the rationals. *)
Definition x_real : term := Var "x" "Real".
Definition ar_term : term :=  (* (0 - x) + ite(true, (1 * x) / 1, exp(0 * x)) + f(0 + x) *)
  App (FB BAdd) [App (FB BAdd) [App (FB BSub) [num 0; x_real]; Ite Top (App (FB BDiv) [App (FB BMul) [num 1; x_real]; num 1]) (App (FB (BOther "exp")) [App (FB BMul) [num 0; x_real]])];
                 App (FU "f" ["Real"] "Real") [App (FB BAdd) [num 0; x_real]]].
Lemma arity_app b ts : (b = BAdd \/ b = BSub \/ b = BMul \/ b = BDiv -> List.length ts = 2%nat) -> (b = BOther "exp" -> List.length ts = 1%nat) -> Forall arity_ok ts -> arity_ok (App (FB b) ts).
Proof.
  intros H1 H2 H b' ts' Hs. apply arith_sub_inv in Hs as [E|[(b0 & ts0 & a & E & Ha & Hs)|(c & x & y & E & _)]]; [injection E as -> ->; split; auto|injection E as <- <-|discriminate E].
  rewrite Forall_forall in H. exact (H a Ha b' ts' Hs).
Qed.
Lemma arity_leaf t : (match t with App (FB _) _ | Ite _ _ _ => False | _ => True end) -> arity_ok t.
Proof. intros H b ts Hs. apply arith_sub_inv in Hs as [E|[(b0 & ts0 & a & E & Ha & Hs)|(c & x & y & E & _)]]; subst; destruct H. Qed.
Lemma arity_ite c a b : arity_ok a -> arity_ok b -> arity_ok (Ite c a b).
Proof. intros H1 H2 b' ts Hs. apply arith_sub_inv in Hs as [E|[(b0 & ts0 & x & E & _)|(c' & x & y & E & Hs)]]; [discriminate E|discriminate E|]. injection E as <- <- <-. destruct Hs; auto. Qed.
Example C41_nonvacuous : arity_ok ar_term /\ (exists r, simplify (fun _ => None) (fun _ => true) ar_term = Ok r /\
    s_res r = App (FB BAdd) [App (FB BAdd) [App (FB BMul) [Cst (CInt (-1)) "Real"; x_real]; Ite Top x_real (num 1)]; App (FU "f" ["Real"] "Real") [App (FB BAdd) [num 0; x_real]]]) /\
  (let D := fun s => if String.eqb s "d" then Some [Cst (CInt 1) "d"; Cst (CInt 2) "d"] else None in
   let t := App (FB BMul) [Var "i" "d"; Var "j" "d"] in
   let U := {| r_dom := fun _ => []; r_cst := fun _ _ => None; r_fun := fun _ _ => None; r_pred := fun _ _ => true |} in
   exists r, summation (fun _ => None) (fun _ => true) D [("i", "d"); ("j", "d")] t = Ok r /\ tsem (arith Qfield U) r (fun _ => None) = Some (Q2Qc (inject_Z 9))).
Proof.
  split; [|split].
  - unfold ar_term. Ltac ar := match goal with
      | |- arity_ok (App (FB _) _) => apply arity_app; [simpl; intros; try reflexivity; exfalso; intuition discriminate|simpl; intros; try reflexivity; discriminate|repeat (apply Forall_cons; [ar|]); apply Forall_nil]
      | |- arity_ok (Ite _ _ _) => apply arity_ite; ar
      | |- arity_ok _ => apply arity_leaf; exact I end.
    ar.
  - eexists; split; reflexivity.
  - eexists. split; [reflexivity|]. vm_compute. reflexivity.
Qed.
Print Assumptions C41_simplify_preserves_value.
Print Assumptions C41_simplify_exceptions.
Print Assumptions C41_summation.
