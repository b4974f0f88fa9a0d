From Coq Require Permutation.
From Verif Require Import Base Syntax SemLemmas ModelState ModelProofs Lang LangSpec LangProofs.
#[local] Open Scope string_scope.

Lemma anc_trans l s t u : anc l s t -> anc l t u -> anc l s u.
Proof. induction 1; intros; [eapply anc_up; eauto|eapply anc_up; eauto]. Qed.
Lemma le_anc l s t u : le l s t -> anc l t u -> anc l s u.
Proof. intros [->|H]; auto. apply anc_trans. exact H. Qed.
Lemma anc_le l s t u : anc l s t -> le l t u -> anc l s u.
Proof. intros H [<-|H']; auto. eapply anc_trans; eauto. Qed.
Lemma le_trans l s t u : le l s t -> le l t u -> le l s u.
Proof. intros [->|H]; auto. intros [<-|H']; [now right|]. right. eapply anc_trans; eauto. Qed.
Lemma anc_inv l s t : anc l s t <-> exists p, parent_of l s = Some p /\ le l p t.
Proof.
  split.
  - intros [s' p H|s' p t' H H']; exists p; split; auto; [now left|now right].
  - intros (p & H & [<-|H']); [now apply anc_parent|now apply anc_up with p].
Qed.

(** Hierarchy and domain invariant (histories without foreign parents). *)
Record inv_tree (l : lang) : Prop := {
  it_index : inv_index l;
  it_keys : forall s, (exists o, sget (l_parent l) s = Some o) <-> is_sort l s;
  it_object : is_plain l "object";
  it_root : forall s, is_sort l s -> parent_of l s = None -> s = "object";
  it_root' : parent_of l "object" = None;
  it_parent : forall s p, parent_of l s = Some p -> is_sort l p;
  it_rank : exists rank : string -> nat, (forall s p, parent_of l s = Some p -> rank p < rank s) /\ (forall s, rank s < List.length (l_sorts l));
  it_anc : forall s, match sget (l_anc l) s with
                     | Some a => is_sort l s /\ (forall t, In t a <-> anc l s t)
                     | None => ~ is_sort l s
                     end;
  it_ind : forall s t, In t (get_set (l_ind l) s) -> anc l s t;
  it_dom : forall s r, In (s, r) (l_sorts l) -> NoDup (s_dom r) /\
     (s_kind r = KPlain -> s_builtin r = false /\ forall c, In c (s_dom r) <-> exists s', is_plain l s' /\ const_of l c s' /\ le l s' s) /\
     (s_kind r <> KPlain -> s_dom r = []);
  it_const : forall c s, const_of l c s -> is_sort l s
}.

Lemma parent_sort l s p : inv_tree l -> parent_of l s = Some p -> is_sort l s.
Proof. intros I H. apply (it_keys l I). unfold parent_of in H. destruct (sget (l_parent l) s); [eauto|discriminate]. Qed.
Lemma anc_sort l s t : inv_tree l -> anc l s t -> is_sort l s /\ is_sort l t.
Proof.
  intros I H. induction H as [s p H|s p t H H' [IH1 IH2]].
  - split; [eapply parent_sort; eauto|eapply it_parent; eauto].
  - split; [eapply parent_sort; eauto|auto].
Qed.
Lemma anc_rank l (rank : string -> nat) : (forall s p, parent_of l s = Some p -> rank p < rank s) -> forall s t, anc l s t -> rank t < rank s.
Proof. intros R s t H. induction H; [auto|]. specialize (R _ _ H). lia. Qed.

(** [closure] computes [le]. *)
Lemma closure_spec l (rank : string -> nat) :
  (forall s p, parent_of l s = Some p -> rank p < rank s) ->
  (forall s p, parent_of l s = Some p -> exists o, sget (l_parent l) p = Some o) ->
  forall n s, rank s < n -> (exists o, sget (l_parent l) s = Some o) -> exists c, closure n l s = Ok c /\ forall t, In t c <-> le l s t.
Proof.
  intros R K. induction n as [|n IH]; intros s Hn [o Ho]; [lia|]. cbn [closure]. rewrite Ho.
  destruct o as [p|].
  - assert (Hp : parent_of l s = Some p) by (unfold parent_of; now rewrite Ho).
    destruct (IH p) as (c & Ec & Hc). { specialize (R _ _ Hp). lia. } { eauto. }
    rewrite Ec. cbn [bind]. eexists. split; [reflexivity|]. intros t. simpl. rewrite Hc. unfold le at 2. rewrite anc_inv.
    split; [intros [->|H]; [now left|right; eauto]|]. intros [->|(p' & Hp' & H)]; [now left|right]. congruence.
  - eexists. split; [reflexivity|]. intros t. simpl. unfold le. rewrite anc_inv. unfold parent_of. rewrite Ho.
    split; [intros [->|[]]; now left|]. intros [->|(p & Hp & _)]; [now left|discriminate].
Qed.
Lemma union_In a b x : In x (union a b) <-> In x a \/ In x b.
Proof.
  revert a; induction b as [|y b IH]; intros a; simpl; [tauto|]. destruct (str_mem y a) eqn:E; rewrite IH.
  - apply str_mem_In in E. intuition; subst; auto.
  - rewrite in_app_iff. simpl. tauto.
Qed.

Lemma length_dset {V} (d : list (string * V)) k v : ~ In k (map fst d) -> List.length (dset String.eqb d k v) = S (List.length d).
Proof.
  induction d as [|[a w] d IH]; simpl; intros N; [reflexivity|]. destruct (String.eqb a k) eqn:E; [apply seqb in E; tauto|]. simpl. rewrite IH; tauto.
Qed.
Lemma get_set_map d s : get_set (map (fun kv : string * list string => (fst kv, [])) d) s = [].
Proof.
  unfold get_set, sget. induction d as [|[a w] d IH]; simpl; [reflexivity|]. destruct (String.eqb a s); auto.
Qed.

(** Adding a new sort below a registered one. *)
Lemma new_sort l name r p : inv_tree l -> ~ is_sort l name -> dget cname_eqb (l_index l) (CStr name) = None -> is_sort l p -> s_dom r = [] ->
  (s_kind r = KPlain -> s_builtin r = false) ->
  exists l', set_parent false (register_sort l name r) name p = (l', Ok tt) /\ inv_tree l' /\
    (forall s, parent_of l' s = if String.eqb name s then Some p else parent_of l s) /\
    l_sorts l' = dset String.eqb (l_sorts l) name r /\ l_consts l' = l_consts l.
Proof.
  intros I Nn Ni Hp Hd Hpb.
  assert (Np : sget (l_parent l) name = None).
  { destruct (sget (l_parent l) name) eqn:E; [|reflexivity]. exfalso. apply Nn, (it_keys l I). eauto. }
  assert (Na : sget (l_anc l) name = None).
  { assert (A := it_anc l I name). destruct (sget (l_anc l) name) eqn:E; [|reflexivity]. tauto. }
  destruct (it_rank l I) as (rank & R1 & R2).
  set (l1 := set_par (register_sort l name r) (dset String.eqb (l_parent l) name (Some p)) (l_anc l) (l_ind l)).
  assert (P1 : forall s, parent_of l1 s = if String.eqb name s then Some p else parent_of l s).
  { intros s. unfold parent_of, l1. simpl. rewrite sget_dset. destruct (String.eqb name s); reflexivity. }
  assert (Pn : forall s q, parent_of l s = Some q -> s <> name /\ q <> name).
  { intros s q H. split; intros ->; apply Nn; [eapply parent_sort; eauto|eapply it_parent; eauto]. }
  assert (P1' : forall s q, parent_of l s = Some q -> parent_of l1 s = Some q).
  { intros s q H. rewrite P1. destruct (String.eqb name s) eqn:E; [|auto]. apply seqb in E. apply Pn in H. intuition congruence. }
  assert (A1 : forall s t, anc l s t -> anc l1 s t).
  { intros s t H. induction H; [apply anc_parent; auto|eapply anc_up; eauto]. }
  assert (A2 : forall s t, s <> name -> anc l1 s t -> anc l s t).
  { intros s t Hs H. induction H as [s q H|s q t H H' IH]; rewrite P1 in H; destruct (String.eqb name s) eqn:E; try (apply seqb in E; congruence).
    - now apply anc_parent.
    - eapply anc_up; eauto. apply IH. now apply Pn in H. }
  assert (Hpn : p <> name) by (intros ->; auto).
  assert (A3 : forall t, anc l1 name t <-> le l p t).
  { intros t. rewrite anc_inv. split.
    - intros (q & H & Hq). rewrite P1, String.eqb_refl in H. inversion H; subst. destruct Hq as [->|Hq]; [now left|]. right. now apply A2.
    - intros H. exists p. rewrite P1, String.eqb_refl. split; [auto|]. destruct H as [->|H]; [now left|right; auto]. }
  set (rank1 := fun s => if String.eqb name s then S (rank p) else rank s).
  assert (R1' : forall s q, parent_of l1 s = Some q -> rank1 q < rank1 s).
  { intros s q. rewrite P1. unfold rank1. destruct (String.eqb name s) eqn:E.
    - intros H; inversion H; subst. destruct (String.eqb name q) eqn:E'; [apply seqb in E'; congruence|lia].
    - intros H. destruct (String.eqb name q) eqn:E'; [apply seqb in E'; subst; apply Pn in H; tauto|]. now apply R1. }
  assert (K1 : forall s, (exists o, sget (l_parent l1) s = Some o) <-> s = name \/ is_sort l s).
  { intros s. unfold l1; simpl. rewrite sget_dset. destruct (String.eqb name s) eqn:E.
    - apply seqb in E. subst. split; eauto.
    - rewrite (it_keys l I). split; [auto|]. intros [->|H]; [rewrite String.eqb_refl in E; discriminate|auto]. }
  destruct (closure_spec l1 rank1 R1') with (n := S (List.length (l_sorts (register_sort l name r)))) (s := p) as (c & Ec & Hc).
  { intros s q H. apply K1. rewrite P1 in H. destruct (String.eqb name s); [inversion H; subst; auto|]. right. eapply it_parent; eauto. }
  { simpl. rewrite length_dset by exact Nn. unfold rank1. destruct (String.eqb name p) eqn:E; [apply seqb in E; congruence|]. specialize (R2 p). lia. }
  { apply K1. auto. }
  eexists. split.
  { unfold set_parent. change (l_parent (register_sort l name r)) with (l_parent l). rewrite Np.
    change (set_par (register_sort l name r) _ (l_anc (register_sort l name r)) (l_ind (register_sort l name r))) with l1. rewrite Ec. reflexivity. }
  set (l' := set_par l1 _ _ _).
  assert (P' : forall s, parent_of l' s = parent_of l1 s) by reflexivity.
  assert (Aeq : forall s t, anc l' s t <-> anc l1 s t).
  { intros s t. split; intros H; induction H; try (apply anc_parent; assumption); eapply anc_up; eauto. }
  assert (Srt : forall s, is_sort l' s <-> s = name \/ is_sort l s).
  { intros s. unfold is_sort, l'. simpl. apply (dset_keys String.eqb seqb). }
  assert (Pl : forall s, is_plain l' s <-> (s = name /\ s_kind r = KPlain) \/ is_plain l s).
  { intros s. unfold is_plain, l'. simpl. split.
    - intros (q & H & K). apply In_dset_iff in H; [|exact Nn]. destruct H as [[-> ->]|H]; eauto.
    - intros [[-> K]|(q & H & K)]; [exists r|exists q]; split; auto; apply In_dset_iff; auto. }
  assert (Lem : forall s t, le l s t -> le l' s t). { intros s t [->|H]; [now left|right]. apply Aeq. auto. }
  assert (Lem' : forall s t, s <> name -> le l' s t -> le l s t). { intros s t Hs [->|H]; [now left|right]. apply A2; auto. now apply Aeq. }
  split.
  - constructor.
    + assert (X := set_parent_index false (register_sort l name r) name p (register_sort_index l name r (it_index l I) Ni)).
      unfold set_parent in X. change (l_parent (register_sort l name r)) with (l_parent l) in X. rewrite Np in X.
      change (set_par (register_sort l name r) _ (l_anc (register_sort l name r)) (l_ind (register_sort l name r))) with l1 in X. rewrite Ec in X. exact X.
    + intros s. rewrite Srt. apply K1.
    + apply Pl. right. apply I.
    + intros s. rewrite Srt, P', P1. destruct (String.eqb name s) eqn:E; [discriminate|]. intros [->|H]; [rewrite String.eqb_refl in E; discriminate|]. now apply I.
    + rewrite P', P1. destruct (String.eqb name "object") eqn:E; [|apply I]. apply seqb in E. subst. exfalso. apply Nn.
      destruct (it_object l I) as (q & H & _). unfold is_sort. now apply (in_map fst) in H.
    + intros s q. rewrite Srt, P', P1. destruct (String.eqb name s); [intros H; inversion H; subst; auto|]. intros H. right. eapply it_parent; eauto.
    + exists rank1. split; [exact R1'|]. intros s. unfold l'; simpl. rewrite length_dset by exact Nn. unfold rank1. destruct (String.eqb name s); [specialize (R2 p)|specialize (R2 s)]; lia.
    + intros s. unfold l' at 1; simpl. rewrite sget_dset. destruct (String.eqb name s) eqn:E.
      * apply seqb in E. subst s. split; [apply Srt; auto|]. intros t. rewrite Aeq, A3, union_In. unfold get_set. rewrite Na. simpl. rewrite Hc.
        unfold le. split; [intros [[]|[->|H]]; [now left|right; apply A2; auto]|]. intros [->|H]; right; [now left|right; auto].
      * assert (Hs : s <> name) by (intros ->; rewrite String.eqb_refl in E; discriminate).
        assert (A := it_anc l I s). destruct (sget (l_anc l) s) as [a|].
        -- destruct A as [A B]. split; [apply Srt; auto|]. intros t. rewrite B, Aeq. split; [apply A1|now apply A2].
        -- rewrite Srt. intros [?|?]; [contradiction|]. tauto.
    + intros s t. unfold l' at 1; simpl. unfold get_set. rewrite sget_dset. destruct (String.eqb name s); [intros []|].
      fold (get_set (map (fun kv => (fst kv, [])) (l_ind l)) s). rewrite get_set_map. intros [].
    + intros s q Hin. unfold l' in Hin; simpl in Hin. apply In_dset_iff in Hin; [|exact Nn]. destruct Hin as [[-> ->]|Hin].
      * rewrite Hd. split; [constructor|]. split; [|auto]. intros K. split; [auto|]. intros c0. split; [intros []|].
        intros (s' & Hs' & Hc' & Hle). exfalso. apply Pl in Hs'.
        assert (Hcs : is_sort l s') by (eapply it_const; eauto).
        assert (s' <> name) by (intros ->; auto). apply Lem' in Hle; [|auto]. destruct Hle as [->|Hle]; [auto|]. apply anc_sort in Hle; [|auto]. tauto.
      * destruct (it_dom l I s q Hin) as (D1 & D2 & D3). split; [auto|]. split; [|auto]. intros K. destruct (D2 K) as [D4 D5]. split; [auto|]. intros c0. rewrite D5.
        split; intros (s' & H1 & H2 & H3); exists s'.
        -- repeat split; auto. apply Pl; auto.
        -- assert (Hcs : is_sort l s') by (eapply it_const; eauto). assert (s' <> name) by (intros ->; auto).
           apply Pl in H1 as [[? _]|H1]; [contradiction|]. repeat split; auto.
    + intros c0 s H. apply Srt. right. eapply it_const; eauto.
  - repeat split; auto.
Qed.

Lemma name_free l n : inv_tree l -> check_name l (has_sort l n) (CStr n) = Ok tt -> ~ is_sort l n /\ dget cname_eqb (l_index l) (CStr n) = None.
Proof.
  intros I H. split; [|eapply check_name_ok; eauto]. unfold check_name in H. rewrite <- has_sort_spec. destruct (has_sort l n); [discriminate|congruence].
Qed.
Lemma attach_inv l n r p : inv_tree l -> is_sort l p -> s_dom r = [] -> (s_kind r = KPlain -> s_builtin r = false) ->
  inv_tree (fst (attach l n r p)) /\
  (forall e, snd (attach l n r p) = Err e -> fst (attach l n r p) = l) /\
  (snd (attach l n r p) = Ok tt -> forall s, is_sort (fst (attach l n r p)) s <-> s = n \/ is_sort l s).
Proof.
  intros I Hp Hd Hb. unfold attach. destruct (check_name l (has_sort l n) (CStr n)) as [[]|] eqn:E; [|simpl; split; [auto|split; [auto|discriminate]]].
  destruct (name_free l n I E) as [N1 N2]. destruct (new_sort l n r p I N1 N2 Hp Hd Hb) as (l' & E' & I' & _ & S' & _).
  rewrite E'. simpl. split; [auto|]. split; [discriminate|]. intros _ s. unfold is_sort. rewrite S'. apply (dset_keys String.eqb seqb).
Qed.

(** ** Subtype queries *)
Lemma push_new_In xs : forall opn x, In x (push_new xs opn) <-> In x xs \/ In x opn.
Proof.
  induction xs as [|y xs IH]; intros opn x; simpl; [tauto|]. destruct (str_mem y opn) eqn:E; rewrite IH.
  - apply str_mem_In in E. intuition; subst; auto.
  - simpl. tauto.
Qed.
Lemma search_sound l goal : forall n opn b (P : string -> Prop), (forall s t, P s -> In t (get_set (l_anc l) s) -> P t) ->
  Forall P opn -> search n l goal opn = Ok b -> (b = true -> P goal) /\ (In goal opn -> b = true).
Proof.
  induction n as [|n IH]; intros opn b P HP F H; simpl in H; [discriminate|].
  destruct opn as [|t opn]; [inversion H; subst; split; [discriminate|intros []]|].
  inversion F as [|? ? F1 F2]; subst. destruct (String.eqb t goal) eqn:E.
  - apply seqb in E. inversion H; subst. auto.
  - destruct (IH (push_new (get_set (l_anc l) t) opn) b P HP) as [A B]; [|exact H|].
    { apply Forall_forall. intros x Hx. apply push_new_In in Hx as [Hx|Hx]; [eauto|]. rewrite Forall_forall in F2. auto. }
    split; [auto|]. intros [->|Hin]; [rewrite String.eqb_refl in E; discriminate|]. apply B. apply push_new_In. auto.
Qed.
(** Termination: every element of OPEN weighs (K+1)^rank. *)
Definition weight (K : nat) (rank : string -> nat) (opn : list string) : nat := list_sum (map (fun s => (S K) ^ rank s) opn).
Lemma push_new_weight K rank xs : forall opn, weight K rank (push_new xs opn) <= weight K rank xs + weight K rank opn.
Proof.
  assert (W : forall x l, weight K rank (x :: l) = S K ^ rank x + weight K rank l) by reflexivity.
  induction xs as [|x xs IH]; intros opn; cbn [push_new]; [change (weight K rank []) with 0; lia|]. rewrite W.
  destruct (str_mem x opn); (eapply Nat.le_trans; [apply IH|]); rewrite ?W; lia.
Qed.
Lemma weight_bound K rank xs r : List.length xs <= K -> (forall x, In x xs -> rank x < r) -> weight K rank xs < S K ^ r.
Proof.
  intros L H. destruct r as [|r].
  - destruct xs as [|x xs]; [change (0 < 1); lia|]. exfalso. specialize (H x (or_introl eq_refl)). lia.
  - assert (weight K rank xs <= List.length xs * S K ^ r).
    { clear L. induction xs as [|x xs IH]; [apply Nat.le_refl|]. change (weight K rank (x :: xs)) with (S K ^ rank x + weight K rank xs). cbn [List.length]. rewrite Nat.mul_succ_l. assert (S K ^ rank x <= S K ^ r). { apply Nat.pow_le_mono_r; [lia|]. specialize (H x (or_introl eq_refl)). lia. }
      assert (weight K rank xs <= List.length xs * S K ^ r) by (apply IH; intros; apply H; now right). lia. }
    assert (S K ^ r > 0) by (apply Nat.neq_0_lt_0, Nat.pow_nonzero; lia).
    assert (List.length xs * S K ^ r <= K * S K ^ r) by (apply Nat.mul_le_mono_r; auto). rewrite Nat.pow_succ_r'. nia.
Qed.
Lemma search_terminates l goal (rank : string -> nat) K : (forall s t, In t (get_set (l_anc l) s) -> rank t < rank s) ->
  (forall s, List.length (get_set (l_anc l) s) <= K) ->
  forall n opn, weight K rank opn < n -> exists b, search n l goal opn = Ok b.
Proof.
  intros R B. induction n as [|n IH]; intros opn H; [lia|]. simpl. destruct opn as [|t opn]; [eauto|]. destruct (String.eqb t goal); [eauto|].
  apply IH. eapply Nat.le_lt_trans; [apply push_new_weight|].
  assert (weight K rank (get_set (l_anc l) t) < S K ^ rank t) by (apply weight_bound; auto; intros; now apply R). change (weight K rank (t :: opn)) with (S K ^ rank t + weight K rank opn) in H. lia.
Qed.
Lemma get_set_anc l s t : inv_tree l -> In t (get_set (l_anc l) s) -> anc l s t.
Proof. intros I. unfold get_set. assert (A := it_anc l I s). destruct (sget (l_anc l) s); [apply A|intros []]. Qed.
Lemma anc_get_set l s t : inv_tree l -> anc l s t -> In t (get_set (l_anc l) s).
Proof. intros I H. assert (A := it_anc l I s). unfold get_set. destruct (sget (l_anc l) s); [now apply A|]. apply anc_sort in H; tauto. Qed.

Lemma lengths_bounded {V} (d : list (string * list V)) : exists K, forall s a, sget d s = Some a -> List.length a <= K.
Proof.
  exists (list_sum (map (fun kv => List.length (snd kv)) d)). intros s a H. apply (dget_In String.eqb seqb) in H.
  induction d as [|[k v] d IH]; simpl in *; [tauto|]. destruct H as [H|H]; [inversion H; subst; lia|]. apply IH in H. lia.
Qed.
Lemma set_ind_inv l s g : inv_tree l -> anc l s g -> inv_tree (set_ind l (dset String.eqb (l_ind l) s (union (get_set (l_ind l) s) [g]))).
Proof.
  intros I H. set (l' := set_ind l _).
  assert (Aeq : forall s t, anc l' s t <-> anc l s t). { intros a b. split; intros X; induction X; try (apply anc_parent; assumption); eapply anc_up; eauto. }
  assert (Leq : forall s t, le l' s t <-> le l s t). { intros a b. unfold le. rewrite Aeq. tauto. }
  constructor.
  - apply (inv_index_ext l); auto. apply I.
  - apply (it_keys l I). - apply (it_object l I). - apply (it_root l I). - apply (it_root' l I). - apply (it_parent l I). - apply (it_rank l I).
  - intros x. assert (A := it_anc l I x). change (sget (l_anc l') x) with (sget (l_anc l) x). destruct (sget (l_anc l) x); [|exact A].
    destruct A as [A B]. split; [exact A|]. intros t. rewrite B, Aeq. tauto.
  - intros x t. rewrite Aeq. unfold l', set_ind, set_par. cbn [l_ind]. unfold get_set at 1. rewrite sget_dset. destruct (String.eqb s x) eqn:E.
    + apply seqb in E. subst. rewrite union_In. simpl. intros [Hin|[<-|[]]]; [now apply (it_ind l I)|auto].
    + apply (it_ind l I).
  - intros x r Hin. destruct (it_dom l I x r Hin) as (D1 & D2 & D3). split; [auto|]. split; [|auto]. intros K. destruct (D2 K) as [D4 D5].
    split; [auto|]. intros c. rewrite D5. split; intros (s' & H1 & H2 & H3); exists s'; (split; [|split]; auto; now apply Leq).
  - apply (it_const l I).
Qed.
(** The answer of a terminating query is right, and the query keeps the invariant and changes only the cache. *)
Lemma subtype_sound fuel l s t l' r : inv_tree l -> is_subtype fuel l s t = (l', r) ->
  inv_tree l' /\ (forall b, r = Ok b -> is_sort l s /\ is_sort l t /\ (b = true <-> le l s t)) /\
  l_parent l' = l_parent l /\ l_sorts l' = l_sorts l /\ l_consts l' = l_consts l /\ l_index l' = l_index l /\ l_preds l' = l_preds l /\ l_funs l' = l_funs l /\ l_anc l' = l_anc l /\
  (forall e, r = Err e -> l' = l).
Proof.
  intros I. unfold is_subtype, retrieve.
  destruct (has_sort l s) eqn:Es; [|intros H; inversion H; subst; split; [auto|]; split; [intros ? X; discriminate X|]; repeat split; auto].
  destruct (has_sort l t) eqn:Et; [|intros H; inversion H; subst; split; [auto|]; split; [intros ? X; discriminate X|]; repeat split; auto].
  apply has_sort_spec in Es. apply has_sort_spec in Et.
  destruct (String.eqb s t) eqn:E.
  { apply seqb in E. subst. intros H; inversion H; subst. split; [auto|]. split; [|repeat (split; [reflexivity|]); discriminate]. intros b Hb. inversion Hb; subst. split; [auto|]. split; [auto|]. split; [now left|reflexivity]. }
  assert (Ns : s <> t) by (intros ->; rewrite String.eqb_refl in E; discriminate).
  destruct (str_mem t (get_set (l_anc l) s)) eqn:E2.
  { apply str_mem_In in E2. apply get_set_anc in E2; auto. intros H; inversion H; subst. split; [auto|]. split; [|repeat (split; [reflexivity|]); discriminate].
    intros b Hb. inversion Hb; subst. split; [auto|]. split; [auto|]. split; [now right|reflexivity]. }
  assert (N2 : ~ anc l s t). { intros X. apply anc_get_set in X; auto. apply str_mem_In in X. congruence. }
  unfold connected. destruct (str_mem t (get_set (l_ind l) s)) eqn:E3.
  { apply str_mem_In in E3. apply (it_ind l I) in E3. contradiction. }
  destruct (search fuel l t (rev (get_set (l_anc l) s))) as [b|e] eqn:S.
  - destruct (search_sound l t fuel (rev (get_set (l_anc l) s)) b (fun x => anc l s x)) as [Sa Sb]; [| |exact S|].
    { intros x y Hx Hy. apply get_set_anc in Hy; auto. eapply anc_trans; eauto. }
    { apply Forall_forall. intros x Hx. apply in_rev in Hx. now apply get_set_anc. }
    destruct b; [exfalso; auto|]. intros H; inversion H; subst. split; [auto|]. split; [|repeat (split; [reflexivity|]); discriminate].
    intros b Hb. inversion Hb; subst. split; [auto|]. split; [auto|]. split; [discriminate|]. intros [?|?]; contradiction.
  - intros H; inversion H; subst; split; [auto|]; split; [intros ? X; discriminate X|]; repeat split; auto.
Qed.
Lemma subtype_complete l s t : inv_tree l -> is_sort l s -> is_sort l t -> exists n0, forall n, n0 <= n -> exists b, snd (is_subtype n l s t) = Ok b.
Proof.
  intros I Hs Ht. destruct (it_rank l I) as (rank & R1 & R2). destruct (lengths_bounded (l_anc l)) as [K HK].
  exists (S (weight K rank (rev (get_set (l_anc l) s)))). intros n Hn. unfold is_subtype, retrieve.
  apply has_sort_spec in Hs. apply has_sort_spec in Ht. rewrite Hs, Ht. destruct (String.eqb s t); [simpl; eauto|].
  destruct (str_mem t _); [simpl; eauto|]. unfold connected. destruct (str_mem t (get_set (l_ind l) s)); [simpl; eauto|].
  destruct (search_terminates l t rank K) with (n := n) (opn := rev (get_set (l_anc l) s)) as [b Hb].
  - intros x y Hy. apply get_set_anc in Hy; auto. eapply anc_rank; eauto.
  - intros x. unfold get_set. destruct (sget (l_anc l) x) as [a|] eqn:E; [eauto|simpl; lia].
  - lia.
  - rewrite Hb. destruct b; simpl; eauto.
Qed.

(** ** Domain extension *)
Lemma add_dom_props c r : s_kind (add_dom c r) = s_kind r /\ s_builtin (add_dom c r) = s_builtin r /\
  (forall d, In d (s_dom (add_dom c r)) <-> In d (s_dom r) \/ d = c) /\ (NoDup (s_dom r) -> NoDup (s_dom (add_dom c r))).
Proof.
  unfold add_dom; simpl. repeat split.
  - destruct (cn_mem c (s_dom r)); [auto|]. rewrite in_app_iff. simpl. intuition.
  - destruct (cn_mem c (s_dom r)) eqn:E; [apply cn_mem_In in E; intros [?| ->]; auto|]. rewrite in_app_iff. simpl. intuition.
  - intros N. destruct (cn_mem c (s_dom r)) eqn:E; [auto|]. apply (Permutation.Permutation_NoDup (Permutation.Permutation_cons_append _ _)). constructor; [|auto].
    intros H. apply cn_mem_In in H. congruence.
Qed.
(** [l'] is [l] with [c] added to the domains of the sorts in [R]. *)
Definition extended (c : cname) (R : string -> Prop) (l l' : lang) : Prop :=
  same_but_sorts l l' /\
  forall u r, sget (l_sorts l) u = Some r -> exists r', sget (l_sorts l') u = Some r' /\ s_kind r' = s_kind r /\ s_builtin r' = s_builtin r /\
    (NoDup (s_dom r) -> NoDup (s_dom r')) /\ forall d, In d (s_dom r') <-> In d (s_dom r) \/ (d = c /\ R u).
Lemma extended_plain c R l l' s : extended c R l l' -> (exists r', sget (l_sorts l') s = Some r' /\ s_kind r' = KPlain) <-> (exists r, sget (l_sorts l) s = Some r /\ s_kind r = KPlain).
Proof.
  intros [S E]. split.
  - intros (r' & H & K). destruct (proj2 (sget_key (l_sorts l) s)) as [r Hr]. { rewrite <- (proj2 (proj2 (proj2 (proj2 (proj2 (proj2 (proj2 S))))))). apply sget_key. eauto. }
    destruct (E _ _ Hr) as (r'' & H' & K' & _). exists r. split; [auto|congruence].
  - intros (r & H & K). destruct (E _ _ H) as (r' & H' & K' & _). exists r'. split; [auto|congruence].
Qed.
Lemma extended_trans c R1 R2 R l l1 l2 : extended c R1 l l1 -> extended c R2 l1 l2 -> (forall u, R u <-> R1 u \/ R2 u) -> extended c R l l2.
Proof.
  intros [S1 E1] [S2 E2] HR. split; [eapply same_trans; eauto|]. intros u r Hu.
  destruct (E1 u r Hu) as (r1 & H1 & K1 & B1 & N1 & D1). destruct (E2 u r1 H1) as (r2 & H2 & K2 & B2 & N2 & D2).
  exists r2. repeat split; try congruence; auto; rewrite D2, D1, HR; tauto.
Qed.
Definition reach (l : lang) (s u : string) : Prop := (exists r, sget (l_sorts l) s = Some r /\ s_kind r = KPlain) /\ (exists r, sget (l_sorts l) u = Some r /\ s_kind r = KPlain) /\ le l s u.
Lemma anc_parent_eq l l' : l_parent l' = l_parent l -> forall s t, anc l' s t <-> anc l s t.
Proof.
  intros E s t. assert (forall x, parent_of l' x = parent_of l x) by (intros; unfold parent_of; now rewrite E).
  split; intros X; induction X as [? ? Y|? ? ? Y]; rewrite ?H in Y; try (apply anc_parent; rewrite ?H; assumption);
  (eapply anc_up; [|eauto]; rewrite ?H; assumption).
Qed.
Lemma extend_spec c : forall n l s (rank : string -> nat),
  (forall s p, parent_of l s = Some p -> rank p < rank s) ->
  (forall s, match sget (l_anc l) s with Some a => is_sort l s /\ (forall t, In t a <-> anc l s t) | None => ~ is_sort l s end) ->
  (forall s t, anc l s t -> is_sort l t) ->
  is_sort l s -> rank s < n -> exists l', extend n l s c = Ok l' /\ extended c (reach l s) l l'.
Proof.
  induction n as [|n IH]; intros l s rank R A AS Hs Hn; [lia|]. cbn [extend].
  destruct (proj2 (sget_key (l_sorts l) s) Hs) as [r Hr]. rewrite Hr. destruct (s_kind r) eqn:K.
  2:{ exists l. split; [reflexivity|]. split; [apply same_refl|]. intros u ru Hu. exists ru. repeat split; auto.
      intros [H|[_ [(r0 & H0 & K0) _]]]; [auto|]. congruence. }
  set (l1 := set_sorts l _). assert (Ar := A s). change (sget (l_anc l1) s) with (sget (l_anc l) s). destruct (sget (l_anc l) s) as [a|]; [|contradiction].
  destruct Ar as [_ Aa].
  destruct (add_dom_props c r) as (AK & AB & AD & AN).
  assert (E1 : extended c (fun u => u = s) l l1).
  { split; [repeat split; simpl; eapply dset_keys_same; eauto|]. intros u ru Hu. unfold l1; simpl. rewrite sget_dset. destruct (String.eqb s u) eqn:E.
    - apply seqb in E. subst u. exists (add_dom c r). assert (ru = r) by congruence. subst ru. repeat split; auto; intros X; [apply AD in X; tauto|apply AD; tauto].
    - assert (u <> s) by (intros ->; rewrite String.eqb_refl in E; discriminate). exists ru. repeat split; auto. intros [?|[_ ?]]; [auto|contradiction]. }
  assert (G : forall xs l0 Rp, (forall x, In x xs -> anc l s x) -> extended c Rp l l0 ->
     exists l', fold_left (fun acc p => let! l' := acc in extend n l' p c) xs (Ok l0) = Ok l' /\ extended c (fun u => Rp u \/ exists p, In p xs /\ reach l p u) l l').
  { induction xs as [|x xs IHx]; intros l0 Rp Hx E0; cbn [fold_left].
    - exists l0. split; [reflexivity|]. destruct E0 as [S0 E0]. split; [auto|]. intros u ru Hu. destruct (E0 u ru Hu) as (r' & a1 & a2 & a3 & a4 & a5). exists r'. repeat split; auto; rewrite a5; [|].
      { intuition. } { intros [?|[? [?|(p & [] & _)]]]; auto. }
    - assert (S0 := proj1 E0). destruct S0 as (Sp & Sa & _ & _ & _ & _ & _ & Sk).
      assert (Ax : anc l s x) by (apply Hx; now left).
      assert (Pe : forall y, parent_of l0 y = parent_of l y) by (intros; unfold parent_of; now rewrite Sp).
      assert (Ie : forall y, is_sort l0 y <-> is_sort l y) by (intros; unfold is_sort; rewrite Sk; tauto).
      destruct (IH l0 x rank) as (l2 & El2 & X2).
      + intros y p. rewrite Pe. apply R.
      + intros y. specialize (A y). rewrite Sa. destruct (sget (l_anc l) y).
        * rewrite Ie. split; [tauto|]. intros t. rewrite (anc_parent_eq l l0 Sp). apply A.
        * now rewrite Ie.
      + intros y t. rewrite (anc_parent_eq l l0 Sp), Ie. apply AS.
      + apply Ie. eapply AS; eauto.
      + assert (rank x < rank s) by (eapply anc_rank; eauto). lia.
      + cbn [bind]. rewrite El2.
        assert (RR : forall u, reach l0 x u <-> reach l x u).
        { intros u. unfold reach. rewrite !(extended_plain _ _ _ _ _ E0). unfold le. rewrite (anc_parent_eq l l0 Sp). tauto. }
        destruct (IHx l2 (fun u => Rp u \/ reach l x u)) as (l3 & E3 & X3).
        * intros y Hy. apply Hx. now right.
        * eapply extended_trans; [exact E0|exact X2|]. intros u. rewrite RR. tauto.
        * exists l3. split; [exact E3|]. destruct X3 as [S3 X3]. split; [auto|]. intros u ru Hu. destruct (X3 u ru Hu) as (r' & a1 & a2 & a3 & a4 & a5). exists r'. repeat split; auto; rewrite a5.
          { intros [?|[? [[?|?]|(p & ? & ?)]]]; [auto|auto| |]; right; (split; [auto|]); right; eauto using in_eq, in_cons. }
          { intros [?|[? [?|(p & [<-|?] & ?)]]]; [auto|auto| |]; right; (split; [auto|]); eauto. } }
  destruct (G a l1 (fun u => u = s)) as (l' & E' & X'); auto. { intros x Hx. now apply Aa. }
  exists l'. split; [exact E'|]. destruct X' as [S' X']. split; [auto|]. intros u ru Hu. destruct (X' u ru Hu) as (r' & a1 & a2 & a3 & a4 & a5). exists r'. repeat split; auto; rewrite a5.
  - intros [?|[? [->|(p & Hp & Hr')]]]; [auto| |]; right; (split; [auto|]).
    + unfold reach. repeat split; eauto. now left.
    + destruct Hr' as (P1 & P2 & P3). apply Aa in Hp. repeat split; eauto. right. eapply anc_le; eauto.
  - intros [?|[? (P1 & P2 & P3)]]; [auto|]. right. split; [auto|]. destruct P3 as [<-|P3]; [auto|]. right. exists u. split; [now apply Aa|]. repeat split; auto. now left.
Qed.
