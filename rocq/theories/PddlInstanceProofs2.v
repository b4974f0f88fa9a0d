(** The type hierarchy of PDDL domains: declaring and re-parenting types *)
From Verif Require Import Base Syntax SemLemmas ListUtil ModelState ModelProofs FreeVars Lang LangSpec LangProofs LangProofs2 Theories TheoriesProofs PddlInstance PddlInstanceSpec PddlInstanceProofs.
#[local] Open Scope string_scope.
#[local] Open Scope list_scope.

Definition reparented (L : lang) (s p : string) (c : list string) : lang :=
  set_par L (dset String.eqb (l_parent L) s (Some p)) (dset String.eqb (l_anc L) s (union (get_set (l_anc L) s) c)) (dset String.eqb (map (fun kv => (fst kv, [])) (l_ind L)) s []).
Lemma set_parent_eq ow L s p : ow = true \/ (forall q, sget (l_parent L) s <> Some (Some q)) ->
  set_parent ow L s p = (let l1 := set_par L (dset String.eqb (l_parent L) s (Some p)) (l_anc L) (l_ind L) in
    match closure (S (List.length (l_sorts L))) l1 p with Err e => (l1, Err e) | Ok c => (reparented L s p c, Ok tt) end).
Proof.
  intros H. unfold set_parent. destruct (sget (l_parent L) s) as [[q|]|] eqn:G; [|reflexivity|reflexivity]. destruct H as [->|H]; [reflexivity|]. exfalso. now apply (H q).
Qed.
Lemma in_snoc {A} (x y : A) l : In x (l ++ [y]) <-> In x l \/ x = y.
Proof. rewrite in_app_iff. cbn [In]. intuition. Qed.

Section Edge.
Variables (rank rank' : string -> nat) (l L : lang) (E : list (string * string)) (tys : list string) (s p : string).
Hypothesis H : hier rank l E tys.
Hypothesis Ep : l_parent L = l_parent l.
Hypothesis Ea : l_anc L = l_anc l.
Hypothesis Ei : l_ind L = l_ind l.
Hypothesis Hp : In p ("object" :: tys).
Hypothesis Hs : ~ In s sorts0.
Hypothesis HS : forall u, has_sort L u = true <-> In u (sorts0 ++ tys ++ [s]).
Hypothesis HP : forall t, In t ("object" :: tys ++ [s]) -> exists r, sget (l_sorts L) t = Some r /\ s_kind r = KPlain /\ s_builtin r = false.
Hypothesis HR : forall a b, In (a, b) (E ++ [(s, p)]) -> rank' b < rank' a.
Hypothesis HB : forall a, In a ("object" :: tys ++ [s]) -> rank' a < List.length (l_sorts L).
Hypothesis H0 : forall a, In a (tys ++ [s]) -> 0 < rank' a.

Lemma edge_anc t : In t (get_set (l_anc L) s) -> above E s t.
Proof.
  rewrite Ea. unfold get_set. destruct (sget (l_anc l) s) as [a|] eqn:G; [|intros []]. intros K. destruct (in_dec string_dec s tys) as [I|N].
  - destruct (h_up _ _ _ _ H s (or_intror I)) as (a' & G' & _ & A). assert (a' = a) as -> by congruence. auto.
  - exfalso. destruct (proj1 (in_app_iff _ _ _) (h_akeys _ _ _ _ H s (ex_intro _ a G))); contradiction.
Qed.
Lemma edge_spec ow : ow = true \/ (forall q, sget (l_parent L) s <> Some (Some q)) ->
  exists c, set_parent ow L s p = (reparented L s p c, Ok tt) /\ hier rank' (reparented L s p c) (E ++ [(s, p)]) (tys ++ [s]).
Proof.
  intros Ho. rewrite (set_parent_eq _ _ _ _ Ho). cbv zeta. set (l1 := set_par L _ _ _).
  assert (No : s <> "object") by (intros ->; apply Hs; now left).
  assert (Root : sget (l_parent l1) "object" = Some None). { cbn [l1 l_parent set_par]. rewrite sget_dset, Ep. destruct (String.eqb_spec s "object"); [contradiction|apply H]. }
  assert (Par : forall x, In x (tys ++ [s]) -> sget (l_parent l1) x = Some (last_super (E ++ [(s, p)]) x) /\ last_super (E ++ [(s, p)]) x <> None).
  { intros x Hx. cbn [l1 l_parent set_par]. rewrite sget_dset, Ep, last_super_snoc. destruct (String.eqb_spec s x) as [->|N]; [split; [reflexivity|discriminate]|].
    apply in_snoc in Hx as [Hx|Hx]; [|congruence]. apply (h_par _ _ _ _ H x Hx). }
  assert (Edge : forall a b, In (a, b) (E ++ [(s, p)]) -> In a (tys ++ [s]) /\ In b ("object" :: tys ++ [s])).
  { intros a b K. apply in_snoc in K as [K|K].
    - destruct (h_edge _ _ _ _ H _ _ K) as [K1 K2]. split; [apply in_snoc; now left|]. destruct K2 as [K2|K2]; [now left|right; apply in_snoc; now left].
    - injection K as -> ->. split; [apply in_snoc; now right|]. destruct Hp as [K2|K2]; [now left|right; apply in_snoc; now left]. }
  assert (Hp' : In p ("object" :: tys ++ [s])) by (destruct Hp as [K2|K2]; [now left|right; apply in_snoc; now left]).
  destruct (closure_chain rank' (E ++ [(s, p)]) l1 (tys ++ [s]) Root) with (k := S (List.length (l_sorts L))) (s := p) as (c & Ec & C1 & C2).
  { intros x Hx. destruct (Par x Hx) as [P1 P2]. destruct (last_super (E ++ [(s, p)]) x) as [q|] eqn:Q; [|contradiction]. apply last_super_In in Q. exists q. split; [exact P1|]. split; [exact Q|]. exact (proj2 (Edge _ _ Q)). }
  { exact HR. } { exact Hp'. } { specialize (HB p Hp'). lia. }
  rewrite Ec. exists c. split; [reflexivity|]. constructor.
  - intros u. exact (HS u).
  - exact HP.
  - intros t Ht. apply in_snoc in Ht as [Ht| ->]; [exact (h_new _ _ _ _ H t Ht)|exact Hs].
  - exact Edge.
  - intros x [o Hx]. cbn [reparented l_parent set_par] in Hx. rewrite sget_dset in Hx. rewrite in_app_iff. destruct (String.eqb_spec s x) as [<- |N]; [right; apply in_snoc; now right|]. rewrite Ep in Hx.
    assert (K := h_keys _ _ _ _ H x (ex_intro _ o Hx)). apply in_app_iff in K as [K|K]; [now left|right; apply in_snoc; now left].
  - intros x [o Hx]. cbn [reparented l_anc set_par] in Hx. rewrite sget_dset in Hx. rewrite in_app_iff. destruct (String.eqb_spec s x) as [<- |N]; [right; apply in_snoc; now right|]. rewrite Ea in Hx.
    assert (K := h_akeys _ _ _ _ H x (ex_intro _ o Hx)). apply in_app_iff in K as [K|K]; [now left|right; apply in_snoc; now left].
  - intros x Hx. cbn [reparented l_anc set_par]. rewrite sget_dset. destruct (String.eqb_spec s x) as [<- |N].
    + exists (union (get_set (l_anc L) s) c). split; [reflexivity|]. split; intros t.
      * rewrite union_In. intros K. apply in_snoc in K as [K|K]; [|injection K as ->; right; exact C1]. left. rewrite Ea. destruct (h_edge _ _ _ _ H _ _ K) as [K' _]. destruct (h_up _ _ _ _ H s (or_intror K')) as (a & G & A & _). unfold get_set. rewrite G. auto.
      * rewrite union_In. intros [K|K]; [apply above_left; exact (edge_anc t K)|]. assert (Q : In (s, p) (E ++ [(s, p)])) by (apply in_snoc; now right). destruct (C2 t K) as [->|A]; [now apply above_one|exact (above_step _ _ _ _ Q A)].
    + assert (Hx' : In x ("object" :: tys)). { destruct Hx as [Hx|Hx]; [now left|]. apply in_snoc in Hx as [Hx|Hx]; [now right|congruence]. }
      destruct (h_up _ _ _ _ H x Hx') as (a & G & A1 & A2). rewrite Ea. exists a. split; [exact G|]. split; intros t K.
      * apply in_snoc in K as [K|K]; [auto|]. congruence.
      * apply above_left. auto.
  - intros x Hx. apply in_snoc in Hx as [Hx| ->]; [apply above_left; exact (h_top _ _ _ _ H x Hx)|]. assert (Q : In (s, p) (E ++ [(s, p)])) by (apply in_snoc; now right).
    destruct Hp as [<- |K]; [now apply above_one|]. apply (above_step _ _ _ _ Q). apply above_left. exact (h_top _ _ _ _ H p K).
  - intros x t _. cbn [reparented l_ind set_par]. unfold get_set. rewrite sget_dset. destruct (String.eqb_spec s x); [intros []|]. assert (G := get_set_map (l_ind L) x). unfold get_set in G. rewrite G. intros [].
  - exact Root.
  - intros x Hx. exact (Par x Hx).
  - exact HR.
  - exact HB.
  - exact H0.
Qed.
End Edge.
