(** The type hierarchy of PDDL domains: a types section *)
From Verif Require Import Base Syntax SemLemmas ListUtil ModelState ModelProofs FreeVars Lang LangSpec LangProofs LangProofs2 Theories TheoriesSpec TheoriesProofs RddlInitProofs2 PddlInstance PddlInstanceSpec PddlInstanceProofs PddlInstanceProofs2.
#[local] Open Scope string_scope.
#[local] Open Scope list_scope.

(** The state of the reader: the edges [E], the types [tys], the other names [N] and the constants [C] declared so far *)
Record pinv (rank : string -> nat) (i : pinst) (E : list (string * string)) (tys N : list string) (C : list (cname * string)) : Prop := {
  v_hier : hier rank (pi_lang i) E tys;
  v_names : forall n, (exists e, lget (pi_lang i) (CStr n) = Ok e) <-> In n (reserved ++ tys ++ N);
  v_consts : forall c, has_constant (pi_lang i) c = true -> exists e, lget (pi_lang i) c = Ok e;
  v_types : forall n, In n (pi_types i) <-> In n ("object" :: tys);
  v_dom : forall t r, In t ("object" :: tys) -> sget (l_sorts (pi_lang i)) t = Some r -> forall d, In d (s_dom r) <-> exists s, In (d, s) C /\ (s = t \/ above E s t);
  v_have : forall c s, In (c, s) C -> dget cname_eqb (l_consts (pi_lang i)) c = Some (c, s);
  v_nodup : forall t r, In t ("object" :: tys) -> sget (l_sorts (pi_lang i)) t = Some r -> NoDup (s_dom r)
}.
Lemma sorts_reserved n : In n sorts0 -> In n reserved.
Proof. unfold sorts0, reserved. cbn [In]. tauto. Qed.
Lemma retrieve_type rank i E tys N C n : pinv rank i E tys N C -> In n ("object" :: tys) -> retrieve (pi_lang i) n = Ok n.
Proof.
  intros V K. unfold retrieve. destruct (h_plain _ _ _ _ (v_hier _ _ _ _ _ _ V) n K) as (r & G & _). unfold has_sort. now rewrite G.
Qed.
(** A name that is not used *)
Lemma declare_new rank rank' i E tys N n p : pinv rank i E tys N [] -> ~ In n (reserved ++ tys ++ N) -> In p ("object" :: tys) ->
  (forall a b, In (a, b) (E ++ [(n, p)]) -> rank' b < rank' a) -> (forall a, In a ("object" :: tys ++ [n]) -> rank' a < S (List.length (l_sorts (pi_lang i)))) -> (forall a, In a (tys ++ [n]) -> 0 < rank' a) ->
  exists l', of_step (declare_sort (pi_lang i) n (Some p)) = Ok l' /\ pinv rank' (with_type i l' n) (E ++ [(n, p)]) (tys ++ [n]) N [].
Proof.
  intros V Hn Hp HR HB H0. unfold declare_sort. rewrite (retrieve_type _ _ _ _ _ _ _ V Hp). destruct V as [VH VN VC VT VD VV VU]. set (l := pi_lang i) in *. unfold attach.
  assert (Hs : has_sort l n = false). { destruct (has_sort l n) eqn:G; [|reflexivity]. apply (h_sorts _ _ _ _ VH) in G. exfalso. apply Hn. apply in_app_iff in G as [G|G]; [apply in_app_iff; left; now apply sorts_reserved|apply in_app_iff; right; apply in_app_iff; now left]. }
  assert (U : unused l (CStr n)). { destruct (lget_cases l (CStr n)) as [K|K]; [|exact K]. exfalso. apply Hn, VN, K. }
  rewrite Hs, (check_unused _ _ U). set (L := register_sort l n plain_rec).
  assert (Nt : ~ In n (sorts0 ++ tys)). { intros K. apply Hn. apply in_app_iff in K as [K|K]; [apply in_app_iff; left; now apply sorts_reserved|apply in_app_iff; right; apply in_app_iff; now left]. }
  assert (Gs : forall u, sget (l_sorts L) u = if String.eqb n u then Some plain_rec else sget (l_sorts l) u) by (intros u; apply sget_dset).
  assert (Ln : List.length (l_sorts L) = S (List.length (l_sorts l))). { apply length_dset. rewrite <- sget_key. intros [r G]. unfold has_sort in Hs. now rewrite G in Hs. }
  destruct (edge_spec rank rank' l L E tys n p VH) with (ow := false) as (c & Ec & Hc); try reflexivity; try assumption.
  - intros K. apply Nt, in_app_iff. now left.
  - intros u. unfold has_sort. rewrite Gs. destruct (String.eqb_spec n u) as [<- |Nu]; [split; [intros _; rewrite !in_app_iff; right; right; now left|reflexivity]|]. change (has_sort l u = true <-> In u (sorts0 ++ tys ++ [n])). rewrite (h_sorts _ _ _ _ VH), !in_app_iff. cbn [In]. intuition congruence.
  - intros t Ht. rewrite Gs. destruct (String.eqb_spec n t) as [<- |Nt']; [exists plain_rec; auto|]. apply (h_plain _ _ _ _ VH). destruct Ht as [Ht|Ht]; [now left|]. apply in_snoc in Ht as [Ht|Ht]; [now right|congruence].
  - intros a Ha. rewrite Ln. auto.
  - right. intros q G. change (sget (l_parent l) n = Some (Some q)) in G. apply Nt. apply (h_keys _ _ _ _ VH). eauto.
  - rewrite Ec. exists (reparented L n p c). split; [reflexivity|]. constructor.
    + exact Hc.
    + intros m. unfold lget. cbn [with_type pi_lang]. change (l_index (reparented L n p c)) with (dset cname_eqb (l_index l) (CStr n) (ESort n)). rewrite cidx. change (match dget cname_eqb (l_index l) (CStr m) with Some e => Ok e | None => Err UndefinedElement end) with (lget l (CStr m)).
      destruct (cname_eqb (CStr n) (CStr m)) eqn:Q.
      * apply cname_eqb_eq in Q. injection Q as <-. split; [intros _; rewrite !in_app_iff; right; left; right; now left|eauto].
      * assert (n <> m). { intros ->. unfold cname_eqb in Q. destruct (cname_eq_dec (CStr m) (CStr m)); congruence. }
        change (match dget cname_eqb (l_index l) (CStr m) with Some e => Ok e | None => Err UndefinedElement end) with (lget l (CStr m)). rewrite VN, !in_app_iff. cbn [In]. intuition congruence.
    + intros d Hd. destruct (VC d Hd) as [e He]. unfold lget. cbn [with_type pi_lang]. change (l_index (reparented L n p c)) with (dset cname_eqb (l_index l) (CStr n) (ESort n)). rewrite cidx. destruct (cname_eqb (CStr n) d); [eauto|exists e; exact He].
    + intros m. cbn [with_type pi_types]. rewrite in_app_iff, VT. cbn [In]. rewrite in_app_iff. cbn [In]. tauto.
    + intros t r Ht G d. cbn [with_type pi_lang] in G. change (l_sorts (reparented L n p c)) with (l_sorts L) in G. rewrite Gs in G. destruct (String.eqb_spec n t) as [<- |Nt'].
      * injection G as <-. cbn. split; [intros []|intros (x & [] & _)].
      * rewrite (VD t r); [|destruct Ht as [Ht|Ht]; [now left|]; apply in_snoc in Ht as [Ht|Ht]; [now right|congruence]|exact G]. cbn. split; intros (x & [] & _).
    + intros d s [].
    + intros t r Ht G. cbn [with_type pi_lang] in G. change (l_sorts (reparented L n p c)) with (l_sorts L) in G. rewrite Gs in G. destruct (String.eqb_spec n t) as [<- |Nt']; [injection G as <-; constructor|].
      apply (VU t r); [|exact G]. destruct Ht as [Ht|Ht]; [now left|]. apply in_snoc in Ht as [Ht|Ht]; [now right|congruence].
Qed.
Lemma declare_used rank i E tys N C n p : pinv rank i E tys N C -> In n (reserved ++ tys ++ N) -> exists e, of_step (declare_sort (pi_lang i) n (Some p)) = Err e.
Proof.
  intros V K. apply (v_names _ _ _ _ _ _ V) in K as [e K]. unfold declare_sort. destruct (retrieve (pi_lang i) p); [|cbn; eauto]. rewrite (attach_used _ _ _ _ _ K). cbn. eauto.
Qed.
(** A type that gets a new supertype *)
Lemma reparent_ok rank i E tys N n p : pinv rank i E tys N [] -> In n tys -> In p ("object" :: tys) -> rank p < rank n ->
  exists l', of_step (set_parent true (pi_lang i) n p) = Ok l' /\ pinv rank (with_lang i l') (E ++ [(n, p)]) (tys ++ [n]) N [].
Proof.
  intros [VH VN VC VT VD VV VU] Hn Hp HR. set (l := pi_lang i) in *.
  assert (Q : forall x, In x (tys ++ [n]) <-> In x tys) by (intros x; rewrite in_snoc; split; [intros [?| ->]; auto|auto]).
  destruct (edge_spec rank rank l l E tys n p VH) with (ow := true) as (c & Ec & Hc); try reflexivity; try assumption.
  - exact (h_new _ _ _ _ VH n Hn).
  - intros u. rewrite (h_sorts _ _ _ _ VH), in_app_iff, in_app_iff, Q. tauto.
  - intros t Ht. apply (h_plain _ _ _ _ VH). destruct Ht as [Ht|Ht]; [now left|right; now apply Q].
  - intros a b K. apply in_snoc in K as [K|K]; [exact (h_rank _ _ _ _ VH _ _ K)|]. injection K as -> ->. exact HR.
  - intros a Ha. apply (h_bound _ _ _ _ VH). destruct Ha as [Ha|Ha]; [now left|right; now apply Q].
  - intros a Ha. apply (h_pos _ _ _ _ VH). now apply Q.
  - now left.
  - rewrite Ec. exists (reparented l n p c). split; [reflexivity|]. constructor.
    + exact Hc.
    + intros m. change (lget (pi_lang (with_lang i (reparented l n p c))) (CStr m)) with (lget l (CStr m)). rewrite VN, !in_app_iff. cbn [In]. split; [tauto|]. intros [K|[[K|[<- |[]]]|K]]; auto.
    + exact VC.
    + intros m. cbn [with_lang pi_types]. rewrite VT. cbn [In]. rewrite Q. tauto.
    + intros t r Ht G d. change (sget (l_sorts l) t = Some r) in G. rewrite (VD t r); [|destruct Ht as [Ht|Ht]; [now left|right; now apply Q]|exact G]. cbn. split; intros (x & [] & _).
    + intros d s [].
    + intros t r Ht G. apply (VU t r); [|exact G]. destruct Ht as [Ht|Ht]; [now left|right; now apply Q].
Qed.
(** Types only matter as a set. *)
Lemma hier_perm rank l E tys tys' : (forall x, In x tys <-> In x tys') -> hier rank l E tys -> hier rank l E tys'.
Proof.
  intros Q [F1 F2 F3 F4 F5 F6 F7 F8 F9 F10 F11 F12 F13 F14]. assert (Q1 : forall x, In x ("object" :: tys') -> In x ("object" :: tys)) by (intros x [K|K]; [now left|right; now apply Q]).
  assert (Q2 : forall x, In x (sorts0 ++ tys) <-> In x (sorts0 ++ tys')) by (intros x; rewrite !in_app_iff, Q; tauto).
  constructor; auto.
  - intros s. rewrite F1. apply Q2.
  - intros t Ht. apply F3. now apply Q.
  - intros s t K. destruct (F4 s t K) as [K1 K2]. split; [now apply Q|]. destruct K2 as [K2|K2]; [now left|right; now apply Q].
  - intros s K. apply Q2. auto.
  - intros s K. apply Q2. auto.
  - intros s K. apply F8. now apply Q.
  - intros s K. apply F11. now apply Q.
  - intros s K. apply F14. now apply Q.
Qed.
Lemma pinv_perm rank i E tys tys' N C : (forall x, In x tys <-> In x tys') -> pinv rank i E tys N C -> pinv rank i E tys' N C.
Proof.
  intros Q [VH VN VC VT VD VV VU]. constructor; auto.
  - exact (hier_perm _ _ _ _ _ Q VH).
  - intros n. rewrite VN, !in_app_iff, Q. tauto.
  - intros n. rewrite VT. cbn [In]. rewrite Q. tauto.
  - intros t r Ht. apply VD. destruct Ht as [Ht|Ht]; [now left|right; now apply Q].
  - intros t r Ht. apply VU. destruct Ht as [Ht|Ht]; [now left|right; now apply Q].
Qed.
Lemma ptypes_mem rank i E tys N C n : pinv rank i E tys N C -> str_mem n (pi_types i) = true <-> In n ("object" :: tys).
Proof. intros V. rewrite str_mem_In. apply (v_types _ _ _ _ _ _ V). Qed.

(** One more type under object: all the others move away from object. *)
Lemma top_new rank i E tys N n : pinv rank i E tys N [] -> ~ In n (reserved ++ tys ++ N) ->
  exists rank' l', of_step (declare_sort (pi_lang i) n (Some "object")) = Ok l' /\ pinv rank' (with_type i l' n) (E ++ [(n, "object")]) (tys ++ [n]) N [] /\ forall x, In x tys -> rank' n < rank' x.
Proof.
  intros V Hn. set (rank' := fun x => if String.eqb x "object" then 0 else if String.eqb x n then 1 else S (rank x)). exists rank'. assert (VH := v_hier _ _ _ _ _ _ V).
  assert (No : n <> "object") by (intros ->; apply Hn; now left). assert (Nt : ~ In n tys) by (intros K; apply Hn; rewrite !in_app_iff; auto).
  assert (Rn : rank' n = 1). { unfold rank'. destruct (String.eqb_spec n "object"); [contradiction|]. now rewrite String.eqb_refl. }
  assert (Rt : forall x, In x tys -> rank' x = S (rank x)). { intros x Hx. unfold rank'. destruct (String.eqb_spec x "object") as [->|]; [exfalso; apply (h_new _ _ _ _ VH "object" Hx); now left|]. destruct (String.eqb_spec x n) as [->|]; [contradiction|reflexivity]. }
  assert (Ro : rank' "object" = 0) by reflexivity.
  destruct (declare_new rank rank' i E tys N n "object" V Hn) as (l' & El & V').
  - now left.
  - intros a b K. apply in_snoc in K as [K|K]; [|injection K as -> ->; lia]. destruct (h_edge _ _ _ _ VH _ _ K) as [K1 K2]. rewrite (Rt a K1). destruct K2 as [<- |K2]; [lia|]. rewrite (Rt b K2). pose proof (h_rank _ _ _ _ VH _ _ K). lia.
  - intros a [<- |Ha]; [lia|]. apply in_snoc in Ha as [Ha| ->]; [rewrite (Rt a Ha); pose proof (h_bound _ _ _ _ VH a (or_intror Ha)); lia|]. rewrite Rn. pose proof (h_bound _ _ _ _ VH "object" (or_introl eq_refl)). lia.
  - intros a Ha. apply in_snoc in Ha as [Ha| ->]; [rewrite (Rt a Ha)|]; lia.
  - exists l'. split; [exact El|]. split; [exact V'|]. intros x Hx. rewrite Rn, (Rt x Hx). pose proof (h_pos _ _ _ _ VH x Hx). lia.
Qed.
(** One more type under another type *)
Lemma sub_new rank i E tys N n p : pinv rank i E tys N [] -> ~ In n (reserved ++ tys ++ N) -> In p ("object" :: tys) ->
  exists rank' l', of_step (declare_sort (pi_lang i) n (Some p)) = Ok l' /\ pinv rank' (with_type i l' n) (E ++ [(n, p)]) (tys ++ [n]) N [] /\ (forall x, In x ("object" :: tys) -> rank' x = rank x) /\ rank' p < rank' n.
Proof.
  intros V Hn Hp. set (rank' := fun x => if String.eqb x n then List.length (l_sorts (pi_lang i)) else rank x). exists rank'. assert (VH := v_hier _ _ _ _ _ _ V).
  assert (No : ~ In n ("object" :: tys)) by (intros [<- |K]; apply Hn; [now left|rewrite !in_app_iff; auto]).
  assert (Rn : rank' n = List.length (l_sorts (pi_lang i))) by (unfold rank'; now rewrite String.eqb_refl).
  assert (Rt : forall x, In x ("object" :: tys) -> rank' x = rank x). { intros x Hx. unfold rank'. destruct (String.eqb_spec x n) as [->|]; [contradiction|reflexivity]. }
  destruct (declare_new rank rank' i E tys N n p V Hn Hp) as (l' & El & V').
  - intros a b K. apply in_snoc in K as [K|K].
    + destruct (h_edge _ _ _ _ VH _ _ K) as [K1 K2]. rewrite (Rt a (or_intror K1)), (Rt b K2). exact (h_rank _ _ _ _ VH _ _ K).
    + injection K as -> ->. rewrite Rn, (Rt p Hp). exact (h_bound _ _ _ _ VH p Hp).
  - intros a Ha. assert (Ha' : In a ("object" :: tys) \/ a = n). { destruct Ha as [Ha|Ha]; [left; now left|]. apply in_snoc in Ha as [Ha|Ha]; [left; now right|now right]. }
    destruct Ha' as [Ha' | ->]; [rewrite (Rt a Ha'); pose proof (h_bound _ _ _ _ VH a Ha'); lia|lia].
  - intros a Ha. apply in_snoc in Ha as [Ha| ->]; [rewrite (Rt a (or_intror Ha)); exact (h_pos _ _ _ _ VH a Ha)|]. rewrite Rn. pose proof (h_bound _ _ _ _ VH "object" (or_introl eq_refl)). lia.
  - exists l'. split; [exact El|]. split; [exact V'|]. split; [exact Rt|]. rewrite Rn, (Rt p Hp). exact (h_bound _ _ _ _ VH p Hp).
Qed.
