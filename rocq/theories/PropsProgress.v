(** C23, C24, C27: progression of a state along the effects of an operator *)
From Verif Require Import ListUtil Base Syntax SemLemmas ModelState ModelProofs Eval Subst SubstProofs QElim Effects ProgressSpec StateLemmas ProgressProofs.
From Coq Require Import Permutation.
#[local] Open Scope string_scope.

(** An unconditional add or delete of an atom *)
Definition unconditional (e : effect) : Prop := exists p ts, e = EAdd Top (Atom p ts) \/ e = EDel Top (Atom p ts).
(** A ground atom over a user predicate whose arguments have the declared sorts *)
Definition well_typed (sub : sort -> sort -> bool) (p : psym) (ts : list term) : Prop :=
  exists n ss, p = PU n ss /\ Forall2 (fun t s => exists c r, t = Cst c r /\ sub r s = true) ts ss.

Lemma check_sorts_ok sub : forall ts ss, List.length ss = List.length ts -> check_sorts sub ts ss = Ok tt <-> Forall2 (fun t s => exists c r, t = Cst c r /\ sub r s = true) ts ss.
Proof.
  induction ts as [|t ts IH]; intros [|s ss] H; try discriminate; cbn [check_sorts].
  - split; auto.
  - split.
    + destruct t; cbn [sort_of]; try discriminate. destruct (sub s0 s) eqn:E; [|discriminate]. intros X. constructor; [eauto|]. apply IH; auto.
    + inversion 1 as [|? ? ? ? (c & r & -> & E) F]; subst. cbn [sort_of]. rewrite E. apply IH; auto.
Qed.
Lemma Forall2_len {A B} (R : A -> B -> Prop) l l' : Forall2 R l l' -> List.length l = List.length l'.
Proof. induction 1; cbn; auto. Qed.
Lemma add_ok sub m p ts : is_ok (m_add sub m p ts) = true <-> well_typed sub p ts.
Proof.
  unfold m_add, well_typed. destruct p as [b|n ss]; [split; [discriminate|intros (n & ss & X & _); discriminate]|]. unfold check_assignment.
  destruct (Nat.eqb (List.length ss) (List.length ts)) eqn:E.
  - apply Nat.eqb_eq in E. split.
    + destruct (check_sorts sub ts ss) as [[]|] eqn:C; [|discriminate]. intros _. exists n, ss. split; [auto|]. apply check_sorts_ok; auto.
    + intros (n' & ss' & X & F). injection X as <- <-. apply check_sorts_ok in F; auto. rewrite F. reflexivity.
  - cbn [bind is_ok]. split; [discriminate|]. intros (n' & ss' & X & F). injection X as <- <-. apply Forall2_len in F. rewrite F, Nat.eqb_refl in E. discriminate.
Qed.
Lemma uncond_single effs : Forall unconditional effs -> forallb is_single effs = true.
Proof. intros H. apply forallb_forall. rewrite Forall_forall in H. intros x Hx. destruct (H x Hx) as (p & ts & [-> | ->]); reflexivity. Qed.
Lemma FOP_all {A} (R : A -> A -> Prop) l : (forall a b, In a l -> In b l -> R a b) -> ForallOrdPairs R l.
Proof. induction l as [|a l IH]; intros H; constructor; [apply Forall_forall; intros; apply H; cbn; auto|]. apply IH. intros. apply H; cbn; auto. Qed.
Lemma uncond_independent effs : Forall unconditional effs -> independent effs.
Proof.
  rewrite Forall_forall. intros H. apply FOP_all. intros a b Ha Hb. destruct (H a Ha) as (p & ts & X), (H b Hb) as (q & us & Y).
  destruct X as [-> | ->], Y as [-> | ->]; repeat split; cbn; auto.
Qed.
Lemma uncond_adds m effs p pt : Forall unconditional effs -> adds m effs p pt <-> In (EAdd Top (Atom p pt)) effs.
Proof.
  intros H. rewrite Forall_forall in H. split; [|intros X; exists Top; split; auto]. intros (c & X & _). destruct (H _ X) as (q & us & [E|E]); [|discriminate]. injection E as -> -> ->. auto.
Qed.
Lemma uncond_dels m effs p pt : Forall unconditional effs -> dels m effs p pt <-> In (EDel Top (Atom p pt)) effs.
Proof.
  intros H. rewrite Forall_forall in H. split; [|intros X; exists Top; split; auto]. intros (c & X & _). destruct (H _ X) as (q & us & [E|E]); [discriminate|]. injection E as -> -> ->. auto.
Qed.
Lemma uncond_assigns m effs f pt v : Forall unconditional effs -> ~ assigns m effs f pt v.
Proof. intros H (i & c & r & X & _). rewrite Forall_forall in H. destruct (H _ X) as (q & us & [E|E]); discriminate. Qed.

(** The successor is (state minus deletes) plus adds; functions are untouched. *)
Theorem C23_delete_then_add D sub m effs m' : is_state sub m -> Forall unconditional effs -> progress D sub m effs = Ok m' ->
  (forall p pt, m_holds m' p pt = true <-> In (EAdd Top (Atom p pt)) effs \/ (m_holds m p pt = true /\ ~ In (EDel Top (Atom p pt)) effs)) /\
  (forall f pt, m_value m' f pt = m_value m f pt).
Proof.
  intros Hm Hu H. destruct (progress_successor D sub m effs m' Hm (uncond_single _ Hu) (uncond_independent _ Hu) H) as [(A & B & _) _]. split.
  - intros p pt. rewrite A, uncond_adds, uncond_dels; auto. tauto.
  - intros f pt. apply B. intros v. now apply uncond_assigns.
Qed.
(** Progression raises an exception only for an ill-typed add. *)
Theorem C23_succeeds D sub m effs : is_state sub m -> Forall unconditional effs ->
  (exists m', progress D sub m effs = Ok m') <-> (forall p ts, In (EAdd Top (Atom p ts)) effs -> well_typed sub p ts).
Proof.
  intros Hm Hu. assert (O := progress_ok D sub m effs Hm (uncond_single _ Hu) (uncond_independent _ Hu)).
  assert (S : (exists m', progress D sub m effs = Ok m') <-> is_ok (progress D sub m effs) = true) by (destruct (progress D sub m effs); split; [reflexivity|eauto|intros [? ?]; discriminate|discriminate]).
  rewrite S, O, forallb_forall. split.
  - intros X p ts Hi. specialize (X _ Hi). cbn in X. unfold apply_effect in X. cbn in X. apply (add_ok sub m). exact X.
  - intros X e Hi. rewrite Forall_forall in Hu. destruct (Hu _ Hi) as (p & ts & [-> | ->]); [|reflexivity]. unfold apply_effect. cbn. apply add_ok. auto.
Qed.
(** The order in which the effects are listed is irrelevant. *)
Theorem C23_order D sub m effs effs' m' : is_state sub m -> Forall unconditional effs -> Permutation effs effs' -> progress D sub m effs = Ok m' ->
  exists m'', progress D sub m effs' = Ok m'' /\ same_state m' m''.
Proof.
  intros Hm Hu P H. assert (Hu' : Forall unconditional effs') by (eapply Permutation_Forall; eauto).
  destruct (proj2 (C23_succeeds D sub m effs' Hm Hu')) as [m'' H''].
  { intros p ts Hi. apply (proj1 (C23_succeeds D sub m effs Hm Hu)); eauto. apply (Permutation_in _ (Permutation_sym P)). auto. }
  exists m''. split; [auto|]. destruct (C23_delete_then_add D sub m effs m' Hm Hu H) as [A B], (C23_delete_then_add D sub m effs' m'' Hm Hu' H'') as [A' B'].
  split; [|intros; congruence]. intros p pt. apply eq_true_iff_eq. rewrite A, A'. split; (intros [X|[X Y]]; [left|right; split; [auto|intros Z; apply Y]]).
  - apply (Permutation_in _ P). auto.
  - apply (Permutation_in _ (Permutation_sym P)). auto.
  - apply (Permutation_in _ (Permutation_sym P)). auto.
  - apply (Permutation_in _ P). auto.
Qed.

(** Under independence every condition and right-hand side is evaluated as in the state the operator is applied in. *)
Theorem C24_simultaneous D sub m effs m' : is_state sub m -> forallb is_single effs = true -> independent effs -> progress D sub m effs = Ok m' -> successor m effs m'.
Proof. intros. eapply progress_successor; eauto. Qed.
Theorem C24_order D sub m effs effs' m' : is_state sub m -> forallb is_single effs = true -> independent effs -> consistent m effs -> Permutation effs effs' -> progress D sub m effs = Ok m' ->
  exists m'', progress D sub m effs' = Ok m'' /\ same_state m' m''.
Proof.
  intros Hm Hs Hi Hc P H. assert (Hs' : forallb is_single effs' = true). { rewrite forallb_forall in *. intros x Hx. apply Hs. apply (Permutation_in _ (Permutation_sym P)). auto. }
  assert (Hi' := independent_perm effs effs' P Hi).
  assert (O : is_ok (progress D sub m effs') = true).
  { rewrite progress_ok, forallb_forall by auto. assert (O := progress_ok D sub m effs Hm Hs Hi). rewrite H in O. symmetry in O. cbn [is_ok] in O. rewrite forallb_forall in O.
    intros x Hx. apply O. apply (Permutation_in _ (Permutation_sym P)). auto. }
  destruct (progress D sub m effs') as [m''|] eqn:E; [|discriminate]. exists m''. split; [auto|]. apply (successor_unique m effs); [auto| |].
  - eapply progress_successor; eauto.
  - apply (successor_perm m effs' effs); [symmetry; auto|]. eapply progress_successor; eauto.
Qed.

(** Concrete vocabulary for the examples *)
Definition o1 := Cst (CStr "a") "obj".
Definition o2 := Cst (CStr "b") "obj".
Definition DX : domains := fun s => if String.eqb s "obj" then Some [o1; o2] else None.
Definition pP := PU "p" ["obj"].
Definition pQ := PU "q" ["obj"].
Definition fX := FU "x" [] "obj".
Definition fY := FU "y" [] "obj".
Definition sX : model := mrun String.eqb [OAdd pP [o1]; OSet (App fX []) o1; OSet (App fY []) o2] empty_model.
Lemma sX_state : is_state String.eqb sX. Proof. eexists. reflexivity. Qed.

(** [add p(b); del p(a); add p(a)]: the added-and-deleted atom is true. *)
Example C23_example : exists m', progress DX String.eqb sX [EAdd Top (Atom pP [o2]); EAdd Top (Atom pP [o1]); EDel Top (Atom pP [o1])] = Ok m' /\ m_holds m' pP [o1] = true /\ m_holds m' pP [o2] = true.
Proof. eexists. repeat split; reflexivity. Qed.
Example C24_example : let effs := [EAdd (Atom pP [o1]) (Atom pQ [o1]); EFun false (Atom pP [o2]) (App fX []) (App fY []); EDel Top (Atom pQ [o2])] in
  forallb is_single effs = true /\ independent effs /\ consistent sX effs /\ exists m', progress DX String.eqb sX effs = Ok m' /\ m_holds m' pQ [o1] = true.
Proof.
  assert (I : forall e e', In e' [EAdd (Atom pP [o1]) (Atom pQ [o1]); EFun false (Atom pP [o2]) (App fX []) (App fY []); EDel Top (Atom pQ [o2])] ->
     In e [EAdd (Atom pP [o1]) (Atom pQ [o1]); EFun false (Atom pP [o2]) (App fX []) (App fY []); EDel Top (Atom pQ [o2])] -> does_not_affect e e').
  { cbn. intros a b Hb Ha. repeat destruct Ha as [Ha|Ha]; repeat destruct Hb as [Hb|Hb]; subst; try contradiction; split; cbn; intros x Hx Hy; repeat destruct Hx as [Hx|Hx]; repeat destruct Hy as [Hy|Hy]; try contradiction; subst; discriminate. }
  split; [reflexivity|]. split; [apply FOP_all; intros; split; apply I; auto|]. split; [|eexists; split; reflexivity].
  intros f pt v w (i & c & r & Hx & _ & E) (i' & c' & r' & Hx' & _ & E'). cbn in Hx, Hx'. repeat destruct Hx as [Hx|Hx]; repeat destruct Hx' as [Hx'|Hx']; try contradiction; try discriminate. inversion Hx; inversion Hx'; subst; congruence.
Qed.

(** Conditional effects: an earlier add enables a later condition, so the order of listing matters. *)
Theorem C24_conditional_refuted : exists m e1 e2 m1 m2, is_state String.eqb m /\ is_single e1 = true /\ is_single e2 = true /\
  progress DX String.eqb m [e1; e2] = Ok m1 /\ progress DX String.eqb m [e2; e1] = Ok m2 /\ m_holds m1 pQ [o2] = true /\ m_holds m2 pQ [o2] = false.
Proof.
  exists sX, (EAdd Top (Atom pP [o2])), (EAdd (Atom pP [o2]) (Atom pQ [o2])). do 2 eexists. split; [exact sX_state|]. repeat split; reflexivity.
Qed.
(** Functional effects: x := y, y := x does not swap; both end up with the old value of y. *)
Theorem C24_swap_refuted : exists m m', is_state String.eqb m /\ m_value m fX [] = Ok o1 /\ m_value m fY [] = Ok o2 /\
  progress DX String.eqb m [EFun false Top (App fX []) (App fY []); EFun false Top (App fY []) (App fX [])] = Ok m' /\ m_value m' fX [] = Ok o2 /\ m_value m' fY [] = Ok o2.
Proof. exists sX. eexists. split; [exact sX_state|]. repeat split; reflexivity. Qed.
(** An increase effect overwrites the function with the amount instead of increasing it. *)
Definition sN : model := mrun String.eqb [OSet (App (FU "c" [] int_sort) []) (Cst (CInt 5) int_sort)] empty_model.
Theorem C24_increase_refuted : exists m', is_state String.eqb sN /\ m_value sN (FU "c" [] int_sort) [] = Ok (Cst (CInt 5) int_sort) /\
  progress DX String.eqb sN [EFun true Top (App (FU "c" [] int_sort) []) (Cst (CInt 1) int_sort)] = Ok m' /\ m_value m' (FU "c" [] int_sort) [] = Ok (Cst (CInt 1) int_sort).
Proof. eexists. split; [eexists; reflexivity|]. repeat split; reflexivity. Qed.

(** * C27 *)
Section C27.
Variables (D : domains) (sub : sort -> sort -> bool).
Lemma mapM_ok_Forall2 {A B} (f : A -> res B) l l' : mapM f l = Ok l' -> Forall2 (fun x y => f x = Ok y) l l'.
Proof.
  revert l'. induction l as [|x l IH]; intros l' H; cbn in H; [injection H as <-; constructor|]. destruct (f x) eqn:E; [|discriminate]. destruct (mapM f l) eqn:E'; [|discriminate]. injection H as <-. constructor; auto.
Qed.
Lemma subst_effect_depth s : forall e e', subst_effect s e = Ok e' -> edepth e' = edepth e.
Proof.
  induction e as [| | |c vs es IH| |] using effect_ind_nested; intros e' H; cbn [subst_effect] in H; try (injection H as <-; reflexivity); [|discriminate].
  destruct (mapM (subst_effect s) es) as [es'|] eqn:E; [|discriminate]. cbn [bind] in H. injection H as <-. cbn [edepth]. f_equal. apply mapM_ok_Forall2 in E.
  induction E as [|x y l l' Hx F IH2]; [reflexivity|]. inversion IH; subst. cbn [fold_right]. rewrite (H1 _ Hx), IH2; auto.
Qed.
Lemma subst_effect_del s e e' : subst_effect s e = Ok e' -> is_del e' = is_del e.
Proof. destruct e; cbn [subst_effect]; intros H; try (injection H as <-; reflexivity); [|discriminate]. destruct (mapM (subst_effect s) es); [|discriminate]. cbn [bind] in H. injection H as <-. reflexivity. Qed.
Lemma run_with_ext (f g : model -> effect -> res model) l : (forall m e, In e l -> f m e = g m e) -> forall m, run_with f l m = run_with g l m.
Proof. induction l as [|e l IH]; intros H m; [reflexivity|]. cbn [run_with]. rewrite (H m e) by (cbn; auto). destruct (g m e); cbn [bind]; [|auto]. apply IH. intros. apply H. cbn. auto. Qed.
Lemma depth_le e es : In e es -> edepth e <= fold_right (fun e n => Nat.max (edepth e) n) 0 es.
Proof. induction es as [|x es IH]; intros []; cbn [fold_right]; [subst; lia|]. specialize (IH H). lia. Qed.
Definition loop_with (g : subst -> model -> res model) : list subst -> model -> res model :=
  fix loop (ss : list subst) (m : model) : res model := match ss with [] => Ok m | s :: ss' => let! m' := g s m in loop ss' m' end.
Lemma loop_ext g1 g2 : (forall s m, g1 s m = g2 s m) -> forall ss m, loop_with g1 ss m = loop_with g2 ss m.
Proof. intros H. induction ss as [|s ss IH]; intros m; [reflexivity|]. cbn [loop_with]. rewrite H. destruct (g2 s m); cbn [bind]; auto. Qed.
(** The nesting bound does not matter. *)
Lemma fuel_irrelevant : forall n e m, edepth e <= n -> apply_effect_n D sub n m e = apply_effect_n D sub (edepth e) m e.
Proof.
  induction n as [n IH] using lt_wf_ind. intros e m Hn. destruct e as [| | |c vs es| |]; try (destruct n; reflexivity).
  destruct n as [|n]; [cbn [edepth] in Hn; lia|]. cbn [edepth] in *. set (k := fold_right (fun e n => Nat.max (edepth e) n) 0 es) in *.
  cbn [apply_effect_n econd]. destruct (eval_f m c) as [[|]|]; cbn [bind negb]; try reflexivity. destruct (enumerate_substitutions D vs) as [ss|]; [|reflexivity]. cbn [bind].
  refine (loop_ext (fun s m => run_with (fun m e => let! e' := subst_effect s e in apply_effect_n D sub n m e') es m) (fun s m => run_with (fun m e => let! e' := subst_effect s e in apply_effect_n D sub k m e') es m) _ ss m).
  intros s m1. apply run_with_ext. intros m0 e He. destruct (subst_effect s e) as [e'|] eqn:Es; [|reflexivity]. cbn [bind]. assert (Ed := subst_effect_depth s e e' Es). assert (L := depth_le e es He). fold k in L.
  rewrite (IH n) by lia. symmetry. apply IH; lia.
Qed.
Lemma run_mapM (f : model -> effect -> res model) (g : effect -> res effect) l l' : mapM g l = Ok l' -> forall m, run_with (fun m e => let! e' := g e in f m e') l m = run_with f l' m.
Proof.
  intros H. apply mapM_ok_Forall2 in H. induction H as [|x y l l' Hx F IH]; intros m; [reflexivity|]. cbn [run_with]. rewrite Hx. cbn [bind]. destruct (f m y); cbn [bind]; auto.
Qed.
Lemma apply_expand e es : expand_effect D e = Ok es -> forall m, apply_effect D sub m e = run_effects D sub es m.
Proof.
  intros H m. assert (ONE : es = [e] -> apply_effect D sub m e = run_effects D sub es m) by (intros ->; unfold run_effects; cbn [run_with]; destruct (apply_effect D sub m e); reflexivity).
  destruct e as [| | |c vs es0| |]; try (apply ONE; injection H as <-; reflexivity). cbn [expand_effect] in H. destruct c; try discriminate. cbn [is_top] in H.
  unfold apply_effect. cbn [edepth apply_effect_n econd eval_f bind negb]. destruct (enumerate_substitutions D vs) as [ss|]; [|discriminate]. cbn [bind] in *.
  destruct (mapM (fun s => mapM (subst_effect s) es0) ss) as [ls|] eqn:E; [|discriminate]. cbn [bind] in H. injection H as <-. clear ONE. set (k := fold_right (fun e n => Nat.max (edepth e) n) 0 es0) in *.
  apply mapM_ok_Forall2 in E. revert m. induction E as [|s l ss ls Hs F IH]; intros m; [reflexivity|]. cbn [List.concat].
  unfold run_effects. rewrite run_with_app.
  assert (X : run_with (fun m e => let! e' := subst_effect s e in apply_effect_n D sub k m e') es0 m = run_with (apply_effect D sub) l m).
  { rewrite <- (run_mapM (apply_effect D sub) (subst_effect s) es0 l Hs). apply run_with_ext. intros m0 e He. destruct (subst_effect s e) as [e'|] eqn:Es; [|reflexivity]. cbn [bind]. unfold apply_effect. apply fuel_irrelevant.
    rewrite (subst_effect_depth s e e' Es). apply depth_le. auto. }
  rewrite <- X. destruct (run_with (fun m e => let! e' := subst_effect s e in apply_effect_n D sub k m e') es0 m) as [m'|]; cbn [bind]; [|reflexivity]. apply IH.
Qed.
(** Progression along the original effects, in terms of their expansions *)
Lemma progress_expanded effs ls : mapM (expand_effect D) effs = Ok ls -> exists l1 l2, filter is_del effs = l1 /\ mapM (expand_effect D) (filter (fun e => negb (is_del e)) effs) = Ok l2 /\
  Permutation (List.concat ls) (l1 ++ List.concat l2) /\ (forall m, progress D sub m effs = run_effects D sub (l1 ++ List.concat l2) m).
Proof.
  intros H. exists (filter is_del effs). apply mapM_ok_Forall2 in H.
  assert (X : exists l2, mapM (expand_effect D) (filter (fun e => negb (is_del e)) effs) = Ok l2 /\ Permutation (List.concat ls) (filter is_del effs ++ List.concat l2)).
  { induction H as [|e l effs ls He F IH]; [exists []; split; [reflexivity|constructor]|]. destruct IH as (l2 & E2 & P2). cbn [filter List.concat]. destruct (is_del e) eqn:Ed; cbn [negb].
    - exists l2. split; [auto|]. destruct e; try discriminate. injection He as <-. cbn [app]. constructor. auto.
    - exists (l :: l2). split; [cbn [mapM]; rewrite He, E2; reflexivity|]. cbn [List.concat]. rewrite P2, !app_assoc. apply Permutation_app_tail, Permutation_app_comm. }
  destruct X as (l2 & E2 & P2). exists l2. split; [auto|]. split; [auto|]. split; [auto|]. intros m. unfold progress. unfold run_effects. rewrite !run_with_app. destruct (run_with _ (filter is_del effs) m) as [m'|]; cbn [bind]; [|auto].
  apply mapM_ok_Forall2 in E2. clear - E2. revert m'. induction E2 as [|e l es ls He F IH]; intros m; [reflexivity|]. cbn [run_with List.concat]. rewrite run_with_app. rewrite (apply_expand e l He). unfold run_effects. destruct (run_with _ l m) as [m'|]; cbn [bind]; auto.
Qed.
End C27.
(** Does a (universal) effect have a delete effect among its sub-effects? *)
Definition deletes_inside (e : effect) : bool := match e with EUni _ _ es => existsb is_del es | _ => false end.
(** Without deletes inside universal effects the two progressions are the same computation. *)
Theorem C27_no_nested_deletes D sub effs effs' : expand_effects D effs = Ok effs' -> forallb (fun e => negb (deletes_inside e)) effs = true ->
  forall m, progress D sub m effs' = progress D sub m effs.
Proof.
  intros H Hd m. unfold expand_effects in H. destruct (mapM (expand_effect D) effs) as [ls|] eqn:E; [|discriminate]. cbn [bind] in H. injection H as <-.
  destruct (progress_expanded D sub effs ls E) as (l1 & l2 & E1 & E2 & _ & EP). rewrite EP. unfold progress. f_equal. clear EP.
  assert (G : filter is_del (List.concat ls) = l1 /\ filter (fun e => negb (is_del e)) (List.concat ls) = List.concat l2); [|destruct G as [-> ->]; reflexivity].
  apply mapM_ok_Forall2 in E. revert l1 l2 E1 E2. induction E as [|e l effs ls He F IH]; intros l1 l2 E1 E2; [injection E2 as <-; subst; split; reflexivity|].
  cbn [forallb] in Hd. apply andb_true_iff in Hd as [Hd1 Hd2]. cbn [List.concat]. rewrite !filter_app. cbn [filter] in E1, E2.
  assert (K : is_del e = true /\ l = [e] \/ is_del e = false /\ (forall x, In x l -> is_del x = false)).
  { destruct e as [| | |c vs es| |]; try (injection He as <-; (left; split; reflexivity) || (right; split; [reflexivity|intros x [<-|[]]; reflexivity])). right. split; [reflexivity|].
    cbn [expand_effect] in He. destruct (is_top c); [|discriminate]. destruct (enumerate_substitutions D vs) as [ss|]; [|discriminate]. cbn [bind] in He. destruct (mapM (fun s => mapM (subst_effect s) es) ss) as [ls'|] eqn:Em; [|discriminate].
    cbn [bind] in He. injection He as <-. intros x Hx. apply in_concat in Hx as (l0 & Hl & Hx). apply mapM_ok_Forall2 in Em. cbn in Hd1. rewrite negb_true_iff in Hd1.
    clear - Em Hl Hx Hd1. induction Em as [|s l ss ls Hs F IH]; [destruct Hl|]. destruct Hl as [->|Hl]; [|auto]. apply mapM_ok_Forall2 in Hs. clear - Hs Hx Hd1.
    induction Hs as [|a b la lb Hab F IH]; [destruct Hx|]. cbn [existsb] in Hd1. apply orb_false_iff in Hd1 as [Ha Hd]. destruct Hx as [->|Hx]; [|auto]. rewrite (subst_effect_del s a x Hab). auto. }
  destruct K as [[K ->]|[K Kl]].
  - rewrite K in E1, E2. cbn [negb] in E2. subst l1. cbn [filter]. rewrite K. cbn [negb app]. destruct (IH Hd2 (filter is_del effs) l2 eq_refl E2) as [I1 I2]. rewrite I1, I2. split; reflexivity.
  - rewrite K in E1, E2. cbn [negb mapM] in E2. rewrite He in E2. destruct (mapM (expand_effect D) (filter _ effs)) as [l2'|] eqn:E3; [|discriminate]. injection E2 as <-. cbn [List.concat].
    assert (N1 : filter is_del l = []). { clear - Kl. induction l as [|x l IH]; [reflexivity|]. cbn [filter]. rewrite (Kl x) by (cbn; auto). apply IH. intros. apply Kl. cbn. auto. }
    assert (N2 : filter (fun e => negb (is_del e)) l = l). { clear - Kl. induction l as [|x l IH]; [reflexivity|]. cbn [filter]. rewrite (Kl x) by (cbn; auto). cbn [negb]. f_equal. apply IH. intros. apply Kl. cbn. auto. }
    rewrite N1, N2. cbn [app]. destruct (IH Hd2 l1 l2' E1 eq_refl) as [I1 I2]. rewrite I1, I2. split; reflexivity.
Qed.

(** With deletes: when the expanded effects are independent, consistent and never add and delete the same atom, the two successors are the same state. *)
Theorem C27_conflict_free D sub m effs effs' : is_state sub m -> expand_effects D effs = Ok effs' -> forallb is_single effs' = true -> independent effs' -> consistent m effs' -> conflict_free m effs' ->
  is_ok (progress D sub m effs') = is_ok (progress D sub m effs) /\
  forall m1 m2, progress D sub m effs = Ok m1 -> progress D sub m effs' = Ok m2 -> same_state m1 m2.
Proof.
  intros Hm H Hs Hi Hc Hf. unfold expand_effects in H. destruct (mapM (expand_effect D) effs) as [ls|] eqn:E; [|discriminate]. cbn [bind] in H. injection H as <-.
  destruct (progress_expanded D sub effs ls E) as (l1 & l2 & _ & _ & P & EP). rewrite EP. set (l := (l1 ++ List.concat l2)%list) in *.
  assert (Hs' : forallb is_single l = true). { rewrite forallb_forall in *. intros x Hx. apply Hs. apply (Permutation_in _ (Permutation_sym P)). auto. }
  assert (Hi' := independent_perm _ _ P Hi). split.
  - rewrite progress_ok by auto. rewrite (run_ok D sub m l m Hs'); [|eapply FOP_impl; [|exact Hi']; intros ? ? [? ?]; auto|apply Forall_forall; intros; apply agree_refl|apply (state_proper sub); auto].
    apply eq_true_iff_eq. rewrite !forallb_forall. split; intros X x Hx; apply X; [apply (Permutation_in _ (Permutation_sym P))|apply (Permutation_in _ P)]; auto.
  - intros m1 m2 H1 H2. apply (successor_unique m (List.concat ls)); [auto| |eapply progress_successor; eauto].
    apply (successor_perm m l); [symmetry; auto|]. apply (run_successor D sub m l m1); auto.
    intros p pt A B. apply (Hf p pt); [eapply adds_perm|eapply dels_perm]; try exact (Permutation_sym P); auto.
Qed.
(** The expanded list has no universal effect, provided universal effects are not nested. *)
Theorem C27_no_universal D effs effs' : expand_effects D effs = Ok effs' -> (forall c vs es, In (EUni c vs es) effs -> forallb is_single es = true) -> forallb is_single effs' = true.
Proof.
  unfold expand_effects. destruct (mapM (expand_effect D) effs) as [ls|] eqn:E; [|discriminate]. cbn [bind]. intros [= <-]. apply mapM_ok_Forall2 in E. induction E as [|e l effs ls He F IH]; intros Hn; [reflexivity|].
  cbn [List.concat]. rewrite forallb_app, IH by (intros; eapply Hn; cbn; eauto). rewrite andb_true_r. clear IH.
  destruct e as [| | |c vs es| |]; try (injection He as <-; reflexivity). specialize (Hn c vs es (or_introl eq_refl)). cbn [expand_effect] in He. destruct (is_top c); [|discriminate].
  destruct (enumerate_substitutions D vs) as [ss|]; [|discriminate]. cbn [bind] in He. destruct (mapM (fun s => mapM (subst_effect s) es) ss) as [ls'|] eqn:Em; [|discriminate]. cbn [bind] in He. injection He as <-.
  apply mapM_ok_Forall2 in Em. clear - Em Hn. induction Em as [|s l ss ls Hs F IH]; [reflexivity|]. cbn [List.concat]. rewrite forallb_app, IH, andb_true_r. apply mapM_ok_Forall2 in Hs. clear - Hs Hn.
  induction Hs as [|a b la lb Hab F IH]; [reflexivity|]. cbn [forallb] in *. apply andb_true_iff in Hn as [Ha Hn]. rewrite IH, andb_true_r by auto. destruct a; cbn [subst_effect] in Hab; try (injection Hab as <-; reflexivity); discriminate.
Qed.
Example C27_example : exists effs', expand_effects DX [EUni Top [Var "z" "obj"] [EAdd (Atom pP [Var "z" "obj"]) (Atom pQ [Var "z" "obj"])]; EDel Top (Atom pP [o2])] = Ok effs' /\
  effs' = [EAdd (Atom pP [o1]) (Atom pQ [o1]); EAdd (Atom pP [o2]) (Atom pQ [o2]); EDel Top (Atom pP [o2])].
Proof. eexists. split; reflexivity. Qed.
(** A delete inside a universal effect comes after an earlier add, but is moved before it by the expansion. *)
Theorem C27_delete_inside_refuted : exists m effs effs' m1 m2, is_state String.eqb m /\ expand_effects DX effs = Ok effs' /\
  progress DX String.eqb m effs = Ok m1 /\ progress DX String.eqb m effs' = Ok m2 /\ m_holds m1 pP [o1] = false /\ m_holds m2 pP [o1] = true.
Proof.
  exists sX, [EAdd Top (Atom pP [o1]); EUni Top [Var "z" "obj"] [EDel Top (Atom pP [Var "z" "obj"])]]. do 3 eexists. split; [exact sX_state|]. repeat split; reflexivity.
Qed.
(** Nested universal effects are expanded one level only. *)
Theorem C27_nested_refuted : exists effs effs', expand_effects DX effs = Ok effs' /\ forallb is_single effs' = false.
Proof.
  exists [EUni Top [Var "z" "obj"] [EUni Top [Var "y" "obj"] [EAdd Top (Atom pP [Var "y" "obj"])]]]. eexists. split; reflexivity.
Qed.
Print Assumptions C23_delete_then_add. Print Assumptions C23_succeeds. Print Assumptions C23_order. Print Assumptions C24_simultaneous. Print Assumptions C24_order.
Print Assumptions C27_no_nested_deletes. Print Assumptions C27_conflict_free. Print Assumptions C27_no_universal.
