(** The texts of formulas are the texts of their skeletons *)
From Coq Require Import Ascii.
From Verif Require Import ListUtil Base Syntax ModelState ModelText Ltl LtlProofs FormulaText FormulaTextSpec FormulaTextProofs.
#[local] Open Scope string_scope.

Lemma pred_named p : pred_text p = named_by_pred p. Proof. destruct p as [[]|]; reflexivity. Qed.
Lemma func_named f : func_text f = named_by_func f. Proof. destruct f as [[]|]; reflexivity. Qed.
Lemma map_link {A} (P : A -> Prop) (t : A -> string) (s : A -> skeleton) l : Forall (fun x => P x -> t x = pr (s x)) l -> all P l -> map t l = map pr (map s l).
Proof. induction 1 as [|x l H F IH]; intros W; [reflexivity|]. destruct W as [W1 W2]. cbn [map]. rewrite (H W1), (IH W2). reflexivity. Qed.
Lemma map_wfs {A} isvar b (P : A -> Prop) (s : A -> skeleton) l : Forall (fun x => P x -> wfs isvar b (s x)) l -> all P l -> all (wfs isvar b) (map s l).
Proof. induction 1 as [|x l H F IH]; intros W; [exact I|]. destruct W as [W1 W2]. split; [exact (H W1)|exact (IH W2)]. Qed.
Lemma vars_link isvar vs : all (ok_var isvar) vs -> map term_text vs = map variable_name vs.
Proof. induction vs as [|v vs IH]; intros W; [reflexivity|]. destruct W as [W1 W2]. cbn [map]. rewrite (IH W2). destruct v; cbn in W1; try contradiction. reflexivity. Qed.
Lemma vars_ok isvar vs : all (ok_var isvar) vs -> all ok_name (map variable_name vs).
Proof. induction vs as [|v vs IH]; intros W; [exact I|]. destruct W as [W1 W2]. split; [|exact (IH W2)]. destruct v; cbn in W1; try contradiction. exact (proj1 W1). Qed.

Section Names.
Variable isvar : string -> bool.
Lemma link_both : (forall t, ok_term isvar t -> term_text t = pr (tskel t)) /\ (forall f, ok_form isvar f -> form_text f = pr (fskel f)).
Proof.
  apply syntax_ind.
  - intros x s _. reflexivity.
  - intros c s _. reflexivity.
  - intros f ts IH (_ & _ & W). cbn [term_text tskel pr]. rewrite (map_link _ _ _ ts IH W), func_named. reflexivity.
  - intros c a b IHc IHa IHb (Wc & Wa & Wb). cbn [term_text tskel pr join]. rewrite (IHc Wc), (IHa Wa), (IHb Wb). rewrite !sapp_assoc. reflexivity.
  - intros _. reflexivity.
  - intros _. reflexivity.
  - intros p ts IH (_ & W). cbn [form_text fskel pr]. rewrite (map_link _ _ _ ts IH W), pred_named. reflexivity.
  - intros c fs IH W. destruct c.
    + destruct W as [_ W]. cbn [form_text fskel pr]. rewrite (map_link _ _ _ fs IH W). reflexivity.
    + destruct W as [_ W]. cbn [form_text fskel pr]. rewrite (map_link _ _ _ fs IH W). reflexivity.
    + destruct fs as [|g [|h fs]]; cbn [ok_form] in W; try contradiction. inversion IH as [|? ? Ig _]; subst. cbn [form_text fskel pr conn_text]. rewrite (Ig W). reflexivity.
  - intros q vs g _ IH (_ & Wv & W). cbn [form_text fskel pr]. rewrite (vars_link isvar vs Wv), (IH W). reflexivity.
Qed.
Lemma wfs_both : (forall t, ok_term isvar t -> wfs isvar false (tskel t)) /\ (forall f, ok_form isvar f -> wfs isvar true (fskel f)).
Proof.
  apply syntax_ind.
  - intros x s W. cbn [tskel wfs]. split; [reflexivity|exact W].
  - intros c s W. cbn [tskel wfs]. split; [reflexivity|exact W].
  - intros f ts IH (W1 & W2 & W). cbn [tskel wfs]. split; [reflexivity|]. split; [exact W1|]. split; [exact W2|]. exact (map_wfs isvar false _ _ ts IH W).
  - intros c a b IHc IHa IHb (Wc & Wa & Wb). cbn [tskel wfs]. split; [reflexivity|]. split; [exact (IHc Wc)|]. split; [exact (IHa Wa)|exact (IHb Wb)].
  - intros _. reflexivity.
  - intros _. reflexivity.
  - intros p ts IH (W1 & W). cbn [fskel wfs]. split; [reflexivity|]. split; [exact W1|]. exact (map_wfs isvar false _ _ ts IH W).
  - intros c fs IH W. destruct c.
    + destruct W as [L W]. cbn [fskel wfs]. split; [reflexivity|]. rewrite map_length. split; [exact L|]. exact (map_wfs isvar true _ _ fs IH W).
    + destruct W as [L W]. cbn [fskel wfs]. split; [reflexivity|]. rewrite map_length. split; [exact L|]. exact (map_wfs isvar true _ _ fs IH W).
    + destruct fs as [|g [|h fs]]; cbn [ok_form] in W; try contradiction. inversion IH as [|? ? Ig _]; subst. cbn [fskel wfs]. split; [reflexivity|exact (Ig W)].
  - intros q vs g _ IH (N & Wv & W). cbn [fskel wfs]. split; [reflexivity|]. split; [destruct vs; [congruence|discriminate]|]. split; [exact (vars_ok isvar vs Wv)|exact (IH W)].
Qed.
Lemma term_link t : ok_term isvar t -> term_text t = pr (tskel t). Proof. exact (proj1 link_both t). Qed.
Lemma terms_link ts : all (ok_term isvar) ts -> map term_text ts = map pr (map tskel ts).
Proof. intros W. apply (map_link (ok_term isvar)); [|exact W]. apply Forall_forall. intros t _. exact (term_link t). Qed.
Lemma terms_wfs ts : all (ok_term isvar) ts -> all (wfs isvar false) (map tskel ts).
Proof. intros W. apply (map_wfs isvar false (ok_term isvar)); [|exact W]. apply Forall_forall. intros t _. exact (proj1 wfs_both t). Qed.
Lemma tform_link f : ok_tform isvar f -> tform_text f = pr (lskel f) /\ wfs isvar true (lskel f).
Proof.
  assert (S : forall fs, Forall (fun f => ok_tform isvar f -> tform_text f = pr (lskel f) /\ wfs isvar true (lskel f)) fs -> all (ok_tform isvar) fs -> map tform_text fs = map pr (map lskel fs) /\ all (wfs isvar true) (map lskel fs)).
  { intros fs F W. split; [apply (map_link (ok_tform isvar)); [|exact W]|apply (map_wfs isvar true (ok_tform isvar)); [|exact W]]; eapply Forall_impl; [|exact F| |exact F]; intros g H Wg; destruct (H Wg); assumption. }
  induction f as [| |p ts|c fs IH|o fs IH|q vs f IH] using tform_ind_nested; intros W.
  - split; reflexivity.
  - split; reflexivity.
  - destruct W as [W1 W]. cbn [tform_text lskel pr wfs]. rewrite (terms_link ts W), pred_named. split; [reflexivity|]. split; [reflexivity|]. split; [exact W1|exact (terms_wfs ts W)].
  - destruct c.
    + destruct W as [L W]. destruct (S fs IH W) as [S1 S2]. cbn [tform_text lskel pr wfs]. rewrite S1, map_length. split; [reflexivity|]. split; [reflexivity|]. split; [exact L|exact S2].
    + destruct W as [L W]. destruct (S fs IH W) as [S1 S2]. cbn [tform_text lskel pr wfs]. rewrite S1, map_length. split; [reflexivity|]. split; [reflexivity|]. split; [exact L|exact S2].
    + destruct fs as [|g [|h fs]]; cbn [ok_tform] in W; try contradiction. inversion IH as [|? ? Ig _]; subst. destruct (Ig W) as [S1 S2]. cbn [tform_text lskel pr wfs conn_text]. rewrite S1. split; [reflexivity|]. split; [reflexivity|exact S2].
  - destruct o.
    + destruct fs as [|g [|h fs]]; cbn [ok_tform] in W; try contradiction. inversion IH as [|? ? Ig _]; subst. destruct (Ig W) as [S1 S2]. cbn [tform_text lskel pr wfs is_unary top_text]. rewrite S1. split; [reflexivity|]. split; [reflexivity|exact S2].
    + destruct fs as [|g [|h fs]]; cbn [ok_tform] in W; try contradiction. inversion IH as [|? ? Ig _]; subst. destruct (Ig W) as [S1 S2]. cbn [tform_text lskel pr wfs is_unary top_text]. rewrite S1. split; [reflexivity|]. split; [reflexivity|exact S2].
    + destruct fs as [|g [|h fs]]; cbn [ok_tform] in W; try contradiction. inversion IH as [|? ? Ig _]; subst. destruct (Ig W) as [S1 S2]. cbn [tform_text lskel pr wfs is_unary top_text]. rewrite S1. split; [reflexivity|]. split; [reflexivity|exact S2].
    + destruct W as [L W]. destruct (S fs IH W) as [S1 S2]. cbn [tform_text lskel pr wfs is_unary top_text]. rewrite S1, map_length. split; [reflexivity|]. split; [reflexivity|]. split; [exact L|exact S2].
    + destruct W as [L W]. destruct (S fs IH W) as [S1 S2]. cbn [tform_text lskel pr wfs is_unary top_text]. rewrite S1, map_length. split; [reflexivity|]. split; [reflexivity|]. split; [exact L|exact S2].
  - destruct W as (N & Wv & W). destruct (IH W) as [S1 S2]. cbn [tform_text lskel pr wfs]. rewrite (vars_link isvar vs Wv), S1. split; [reflexivity|]. split; [reflexivity|]. split; [destruct vs; [congruence|discriminate]|]. split; [exact (vars_ok isvar vs Wv)|exact S2].
Qed.
Lemma pr_inj b n n' : wfs isvar b n -> wfs isvar b n' -> pr n = pr n' -> n = n'.
Proof. intros W W' E. assert (G : good b "") by (left; reflexivity). apply (unique isvar n b n' "" "" W W' G G). rewrite E. reflexivity. Qed.
End Names.

(** ** Skeletons over a vocabulary *)
Section Vocabulary.
Variables (isvar : string -> bool) (V : vocabulary).
Lemma list_determined {A} (P Q : A -> Prop) (s : A -> skeleton) l : Forall (fun x => P x -> Q x -> forall y, P y -> Q y -> s x = s y -> x = y) l -> all P l -> all Q l -> forall l', all P l' -> all Q l' -> map s l = map s l' -> l = l'.
Proof.
  induction 1 as [|x l H F IH]; intros W O [|y l'] W' O' E; try discriminate E; [reflexivity|]. cbn [map] in E. destruct W as [W1 W2], O as [O1 O2], W' as [W1' W2'], O' as [O1' O2']. injection E as E1 E2. rewrite (H W1 O1 y W1' O1' E1), (IH W2 O2 l' W2' O2' E2). reflexivity.
Qed.
Lemma vars_determined vs : all (ok_var isvar) vs -> all (over_term V) vs -> forall vs', all (ok_var isvar) vs' -> all (over_term V) vs' -> map variable_name vs = map variable_name vs' -> vs = vs'.
Proof.
  induction vs as [|v vs IH]; intros W O [|v' vs'] W' O' E; try discriminate E; [reflexivity|]. destruct W as [W1 W2], O as [O1 O2], W' as [W1' W2'], O' as [O1' O2']. cbn [map] in E. injection E as E1 E2. rewrite (IH W2 O2 vs' W2' O2' E2). destruct v, v'; cbn in W1, W1'; try contradiction. cbn in E1, O1, O1'. congruence.
Qed.
Lemma determined : (forall t, ok_term isvar t -> over_term V t -> forall u, ok_term isvar u -> over_term V u -> tskel t = tskel u -> t = u)
  /\ (forall f, ok_form isvar f -> over_form V f -> forall g, ok_form isvar g -> over_form V g -> fskel f = fskel g -> f = g).
Proof.
  assert (NotC : forall fs, ok_form isvar (Comp Not fs) -> exists g, fs = [g]). { intros [|g [|h fs]] W; cbn [ok_form] in W; try contradiction. exists g. reflexivity. }
  apply syntax_ind.
  - intros x s _ O u _ O' E. destruct u; cbn [tskel] in E; try discriminate E. cbn [over_term] in O, O'. congruence.
  - intros c s _ O u _ O' E. destruct u as [| d s' | |]; cbn [tskel] in E; try discriminate E. cbn [over_term] in O, O'. assert (Q : name_text c = name_text d) by congruence. rewrite Q in O. assert (R : (c, s) = (d, s')) by congruence. congruence.
  - intros f ts IH (_ & _ & W) (Of & O) u Wu O' E. destruct u as [| |f' ts'|]; cbn [tskel] in E; try discriminate E. destruct Wu as (_ & _ & W'). destruct O' as [Of' O']. injection E as E1 E2. rewrite (list_determined _ _ _ ts IH W O ts' W' O' E2), Of, Of', E1. reflexivity.
  - intros c a b IHc IHa IHb (Wc & Wa & Wb) (Oc & Oa & Ob) u Wu O' E. destruct u as [| | |c' a' b']; cbn [tskel] in E; try discriminate E. destruct Wu as (Wc' & Wa' & Wb'). destruct O' as (Oc' & Oa' & Ob'). injection E as E1 E2 E3. rewrite (IHc Wc Oc c' Wc' Oc' E1), (IHa Wa Oa a' Wa' Oa' E2), (IHb Wb Ob b' Wb' Ob' E3). reflexivity.
  - intros _ _ g Wg _ E. destruct g as [| | |[] fs|]; cbn [fskel] in E; try discriminate E; [reflexivity|]. destruct (NotC fs Wg) as [h ->]. discriminate E.
  - intros _ _ g Wg _ E. destruct g as [| | |[] fs|]; cbn [fskel] in E; try discriminate E; [reflexivity|]. destruct (NotC fs Wg) as [h ->]. discriminate E.
  - intros p ts IH (_ & W) (Op & O) g Wg O' E. destruct g as [| |p' ts'|[] fs|]; cbn [fskel] in E; try discriminate E. 2: { destruct (NotC fs Wg) as [h ->]. discriminate E. }
    destruct Wg as [_ W']. destruct O' as [Op' O']. injection E as E1 E2. rewrite (list_determined _ _ _ ts IH W O ts' W' O' E2), Op, Op', E1. reflexivity.
  - intros c fs IH W O g Wg O' E. destruct c.
    + destruct g as [| | |[] fs'|]; cbn [fskel] in E; try discriminate E. 2: { destruct (NotC fs' Wg) as [h ->]. discriminate E. } destruct W as [_ W]. destruct Wg as [_ W']. injection E as E. rewrite (list_determined _ _ _ fs IH W O fs' W' O' E). reflexivity.
    + destruct g as [| | |[] fs'|]; cbn [fskel] in E; try discriminate E. 2: { destruct (NotC fs' Wg) as [h ->]. discriminate E. } destruct W as [_ W]. destruct Wg as [_ W']. injection E as E. rewrite (list_determined _ _ _ fs IH W O fs' W' O' E). reflexivity.
    + destruct (NotC fs W) as [h ->]. cbn [fskel] in E. destruct g as [| | |[] fs'|]; cbn [fskel] in E; try discriminate E. destruct (NotC fs' Wg) as [h' ->]. injection E as E. inversion IH as [|? ? Ih _]; subst. destruct O as [O _]. destruct O' as [O' _]. rewrite (Ih W O h' Wg O' E). reflexivity.
  - intros q vs g _ IH (_ & Wv & W) (Ov & O) g' Wg O' E. destruct g' as [| | |[] fs'|q' vs' g']; cbn [fskel] in E; try discriminate E. 1: { destruct (NotC fs' Wg) as [h ->]. discriminate E. }
    destruct Wg as (_ & Wv' & W'). destruct O' as [Ov' O']. injection E as -> E1 E2. rewrite (vars_determined vs Wv Ov vs' Wv' Ov' E1), (IH W O g' W' O' E2). reflexivity.
Qed.
End Vocabulary.
