From Verif Require Import ListUtil Base Syntax SemLemmas ModelState ModelProofs ModelText ModelTextProofs Lang LangSpec LangProofs LangProofs2 LangProofs3 SortIds.
From Coq Require Import Permutation.
#[local] Open Scope string_scope.

Lemma cobj_eqb_eq a b : cobj_eqb a b = true <-> a = b.
Proof. unfold cobj_eqb. rewrite andb_true_iff, cname_eqb_eq, String.eqb_eq. destruct a, b. cbn. split; [intros [-> ->]; auto|intros [= -> ->]; auto]. Qed.
Lemma dset_new {K V} eqb (H : forall a b : K, eqb a b = true <-> a = b) (d : list (K * V)) k v : ~ In k (map fst d) -> dset eqb d k v = (d ++ [(k, v)])%list.
Proof.
  induction d as [|[k' v'] d IH]; intros N; [reflexivity|]. cbn [dset app]. destruct (eqb k' k) eqn:E.
  - apply H in E as ->. exfalso. apply N. left. reflexivity.
  - rewrite IH; [reflexivity|]. intros X. apply N. right. exact X.
Qed.
Lemma number_spec l os : forall st lb, NoDup os -> (forall o, In o os -> ~ In o (map fst (fst st))) ->
  number l os st lb = (((fst st ++ combine os (seq lb (List.length os)))%list, snd st), lb + List.length os).
Proof.
  induction os as [|o os IH]; intros st lb N D; cbn [number List.length seq combine].
  - rewrite app_nil_r, Nat.add_0_r. destruct st; reflexivity.
  - inversion N; subst. rewrite (dset_new cobj_eqb cobj_eqb_eq) by (apply D; left; auto). rewrite IH; auto.
    + cbn [fst snd]. rewrite <- app_assoc. cbn [app]. f_equal. lia.
    + cbn [fst]. intros o' Ho. rewrite map_app, in_app_iff. cbn. intros [X|[<-|[]]]; [apply (D o'); [right; auto|auto]|auto].
Qed.
Lemma oinsert_perm o l : Permutation (oinsert o l) (o :: l).
Proof. induction l as [|x l IH]; cbn; [auto|]. destruct (name_leb (fst o) (fst x)); [auto|]. rewrite IH. apply perm_swap. Qed.
Lemma osort_perm l : Permutation (osort l) l.
Proof. induction l as [|x l IH]; cbn; [auto|]. rewrite oinsert_perm. auto. Qed.

Fixpoint order (n : nat) (l : lang) (s : string) : list cobj :=
  match n with
  | O => []
  | S n => (flat_map (fun c => if is_interval l c then [] else order n l c) (children l s) ++ osort (filter (fun o => String.eqb (snd o) s) (map snd (l_consts l))))%list
  end.

Lemma direct_NoDup (consts : list (cname * (cname * string))) s : NoDup (map fst consts) -> (forall k c, In (k, (c, s)) consts -> c = k) ->
  NoDup (filter (fun o => String.eqb (snd o) s) (map snd consts)).
Proof.
  induction consts as [|[k [c t]] consts IH]; cbn [map filter fst snd]; intros N H; [constructor|]. inversion N; subst.
  assert (X := IH H3 (fun k c X => H k c (or_intror X))). destruct (String.eqb t s) eqn:E; [|auto]. apply String.eqb_eq in E as ->. constructor; auto.
  assert (c = k) by (apply (H k c); left; auto). subst. rewrite filter_In, in_map_iff. intros [([k' o] & E' & Hi) _]. cbn [snd] in E'. subst o.
  assert (k = k') by (apply (H k' k); right; auto). subst. apply H2. apply in_map_iff. eexists; split; [|eauto]. reflexivity.
Qed.


(** The table of parents has no repeated key. *)
Lemma set_parent_ND ow l s p : NoDup (map fst (l_parent l)) -> NoDup (map fst (l_parent (fst (set_parent ow l s p)))).
Proof.
  intros N. unfold set_parent. destruct (sget (l_parent l) s) as [[q|]|]; [destruct ow|..]; cbn [fst]; auto;
  destruct (closure _ _ p) as [c|]; cbn [fst set_par l_parent]; apply (dset_NoDup String.eqb seqb); auto.
Qed.
Lemma attach_ND l n r p : NoDup (map fst (l_parent l)) -> NoDup (map fst (l_parent (fst (attach l n r p)))).
Proof. intros N. unfold attach. destruct (check_name _ _ _); [|auto]. apply set_parent_ND. exact N. Qed.
Lemma lstep_ND parse l o : NoDup (map fst (l_parent l)) -> NoDup (map fst (l_parent (fst (lstep parse l o)))).
Proof.
  intros N. destruct o; unfold lstep.
  - unfold declare_sort. destruct (match parent with None => _ | _ => _ end); [apply attach_ND; auto|auto].
  - unfold declare_interval. destruct (check_name _ _ _); [|auto]. destruct (retrieve _ _); [|auto]. destruct (negb _); [auto|]. destruct (negb _); [auto|]. destruct (Z.leb _ _); [auto|].
    apply set_parent_ND. exact N.
  - unfold declare_constant. destruct (sget (l_sorts l) s) as [r|]; [|auto]. destruct (s_builtin r).
    + destruct (s_kind r); [auto|]. destruct (cast _ _ _ _ _); auto.
    + destruct (check_name _ _ _); [|auto]. destruct (s_kind r).
      * destruct (extend _ l s name) as [l1|] eqn:E; [|auto]. apply extend_same in E. cbn [fst set_index set_consts l_parent]. destruct E as (-> & _). exact N.
      * destruct (cast _ _ _ _ _); auto.
  - unfold declare_predicate. destruct (check_name _ _ _); [|auto]. destruct (mapM _ _); auto.
  - unfold declare_function. destruct (check_name _ _ _); [|auto]. destruct (mapM _ _) as [[|]|]; auto.
  - unfold remove_symbol. destruct (has_predicate _ _); [auto|]. destruct (has_function _ _); auto.
  - unfold is_subtype. destruct (retrieve l t); [|auto]. destruct (retrieve l st); [|auto]. destruct (String.eqb _ _); [auto|]. destruct (str_mem _ _); [auto|].
    unfold connected. destruct (str_mem _ _); [auto|]. destruct (search _ _ _ _) as [[|]|]; auto.
  - unfold attach_arithmetic. destruct (attach l "Real" _ _) as [l1 r1] eqn:E1. assert (N1 : NoDup (map fst (l_parent l1))) by (change l1 with (fst (l1, r1)); rewrite <- E1; apply attach_ND; auto).
    destruct r1; [|auto]. destruct (attach l1 "Integer" _ _) as [l2 r2] eqn:E2. assert (N2 : NoDup (map fst (l_parent l2))) by (change l2 with (fst (l2, r2)); rewrite <- E2; apply attach_ND; auto).
    destruct r2; [|auto]. apply attach_ND; auto.
  - unfold attach_foreign. destruct (check_name _ _ _); auto.
Qed.
Lemma lrun_ND parse ops : NoDup (map fst (l_parent (lrun parse ops))).
Proof.
  induction ops as [|o ops IH] using rev_ind; [cbn; constructor; [auto|constructor]|]. rewrite lrun_snoc. apply lstep_ND. exact IH.
Qed.

Section Ids.
Variable l : lang.
Hypothesis I : inv_tree l.
Hypothesis ND : NoDup (map fst (l_parent l)).
Hypothesis Hname : forall k c s, is_plain l s -> In (k, (c, s)) (l_consts l) -> c = k.
Hypothesis Hup : forall s p, parent_of l s = Some p -> is_plain l s -> is_plain l p.
Hypothesis Hhom : forall s c c', is_plain l s -> const_of l c s -> const_of l c' s -> is_cstr c = is_cstr c'.
Variable rank : string -> nat.
Hypothesis Rp : forall s p, parent_of l s = Some p -> rank p < rank s.
Hypothesis Rb : forall s, rank s < List.length (l_sorts l).

Lemma In_children s c : In c (children l s) <-> parent_of l c = Some s.
Proof.
  unfold children. rewrite sorted_In, in_map_iff. unfold parent_of. split.
  - intros ([k o] & E & H). cbn [fst] in E. subst k. apply filter_In in H as [H E]. cbn [snd] in E.
    destruct o as [p|]; [|discriminate]. apply String.eqb_eq in E as ->. apply (sget_In _ _ _ ND) in H. rewrite H. reflexivity.
  - destruct (sget (l_parent l) c) as [[p|]|] eqn:E; try discriminate. intros [= ->]. apply (sget_In _ _ _ ND) in E. exists (c, Some s). split; [reflexivity|].
    apply filter_In. split; [exact E|]. apply String.eqb_refl.
Qed.
Lemma insert_Perm s0 k : Permutation (insert s0 k) (s0 :: k).
Proof. induction k as [|x k IH]; cbn; [auto|]. destruct (String.leb s0 x); [auto|]. rewrite IH. apply perm_swap. Qed.
Lemma sorted_Perm k : Permutation (sorted k) k.
Proof. induction k as [|x k IH]; cbn; [auto|]. rewrite insert_Perm. auto. Qed.
Lemma NoDup_children s : NoDup (children l s).
Proof.
  unfold children. eapply Permutation_NoDup; [symmetry; apply sorted_Perm|]. clear - ND. induction (l_parent l) as [|[k o] d IH]; cbn [filter map]; [constructor|]. inversion ND; subst.
  destruct o as [p|]; cbn [snd]; [|auto]. destruct (String.eqb p s); [|auto]. cbn [map fst]. constructor; [|auto].
  intros X. apply H1. apply in_map_iff in X as ([k' o'] & <- & X). apply filter_In in X as [X _]. apply in_map_iff. eexists; split; [|eauto]. reflexivity.
Qed.
Lemma plain_interval c : is_sort l c -> is_plain l c <-> is_interval l c = false.
Proof.
  intros H. rewrite (plain_sget l c (it_index l I)). unfold is_interval. destruct (proj2 (sget_key (l_sorts l) c) H) as [r ->].
  split; [intros (r' & [= <-] & ->); auto|]. destruct (s_kind r) eqn:E; [eauto|discriminate].
Qed.
Lemma plain_sort s : is_plain l s -> is_sort l s.
Proof. intros (r & H & _). apply in_map_iff. eexists; split; [|eauto]. reflexivity. Qed.
Lemma le_down d s : is_plain l d -> le l d s -> d = s \/ exists c, In c (children l s) /\ is_plain l c /\ le l d c.
Proof.
  intros Hd [->|H]; [auto|]. right. induction H as [d p E|d p t E H IH].
  - exists d. split; [now apply In_children|]. split; [auto|]. now left.
  - destruct (IH (Hup _ _ E Hd)) as (c & A & B & C). exists c. split; [auto|]. split; [auto|]. eapply le_trans; [|exact C]. right. now apply anc_parent.
Qed.
Lemma le_rank s t : le l s t -> rank t <= rank s.
Proof. intros [->|H]; [lia|]. assert (X := anc_rank l rank Rp s t H). lia. Qed.
(** The ancestors of a sort form a chain. *)
Lemma chain d c1 c2 : le l d c1 -> le l d c2 -> le l c1 c2 \/ le l c2 c1.
Proof.
  intros [->|H]; [auto|]. intros [->|H2]; [right; right; auto|]. induction H as [d p E|d p t E H IH].
  - apply anc_inv in H2 as (p' & E' & H2). left. congruence.
  - apply anc_inv in H2 as (p' & E' & H2). assert (p' = p) by congruence. subst. destruct H2 as [->|H2]; [right; right; auto|]. auto.
Qed.
Lemma siblings s c1 c2 d : parent_of l c1 = Some s -> parent_of l c2 = Some s -> le l d c1 -> le l d c2 -> c1 = c2.
Proof.
  intros E1 E2 H1 H2. assert (W : forall a b, parent_of l a = Some s -> parent_of l b = Some s -> le l a b -> a = b).
  { intros a b Ea Eb [->|X]; [auto|]. apply anc_inv in X as (p & Ep & X). assert (p = s) by congruence. subst. apply le_rank in X. pose proof (Rp _ _ Eb). lia. }
  destruct (chain d c1 c2 H1 H2); [|symmetry]; auto.
Qed.
Lemma child_not_below s c : parent_of l c = Some s -> ~ le l s c.
Proof. intros E H. apply le_rank in H. pose proof (Rp _ _ E). lia. Qed.

Definition ord := order (S (List.length (l_sorts l))) l.
Lemma order_fuel : forall n m s, List.length (l_sorts l) <= n + rank s -> List.length (l_sorts l) <= m + rank s -> order n l s = order m l s.
Proof.
  induction n as [|n IH]; intros m s Hn Hm; [pose proof (Rb s); lia|]. destruct m as [|m]; [pose proof (Rb s); lia|].
  cbn [order]. f_equal. apply flat_map_ext_in. intros c Hc. destruct (is_interval l c); [auto|]. apply In_children in Hc. pose proof (Rp _ _ Hc). apply IH; lia.
Qed.
Lemma ord_eq s : ord s = (flat_map (fun c => if is_interval l c then [] else ord c) (children l s) ++ osort (filter (fun o => String.eqb (snd o) s) (map snd (l_consts l))))%list.
Proof.
  unfold ord at 1. cbn [order]. f_equal. apply flat_map_ext_in. intros c Hc. destruct (is_interval l c); [auto|]. apply In_children in Hc. pose proof (Rp _ _ Hc). apply order_fuel; lia.
Qed.
Lemma order_ord n s : List.length (l_sorts l) <= n + rank s -> order n l s = ord s.
Proof. intros H. apply order_fuel; [auto|lia]. Qed.
(** Induction from the leaves of the hierarchy *)
Lemma down_ind (P : string -> Prop) : (forall s, (forall c, parent_of l c = Some s -> P c) -> P s) -> forall s, P s.
Proof.
  intros H. assert (X : forall n s, List.length (l_sorts l) <= n + rank s -> P s).
  { induction n as [|n IH]; intros s Hs; [pose proof (Rb s); lia|]. apply H. intros c Hc. apply IH. pose proof (Rp _ _ Hc). lia. }
  intros s. apply (X (List.length (l_sorts l))). lia.
Qed.
Lemma In_direct o s : In o (osort (filter (fun o => String.eqb (snd o) s) (map snd (l_consts l)))) <-> snd o = s /\ exists k, In (k, o) (l_consts l).
Proof.
  split.
  - intros H. apply (Permutation_in _ (osort_perm _)) in H. apply filter_In in H as [H E]. apply String.eqb_eq in E. split; [auto|].
    apply in_map_iff in H as ([k o'] & X & H). cbn in X. subst. eauto.
  - intros [E [k H]]. apply (Permutation_in _ (Permutation_sym (osort_perm _))). apply filter_In. split; [|now apply String.eqb_eq].
    apply in_map_iff. exists (k, o). auto.
Qed.
Lemma In_ord : forall s, is_plain l s -> forall o, In o (ord s) <-> is_plain l (snd o) /\ const_of l (fst o) (snd o) /\ le l (snd o) s.
Proof.
  induction s as [s IH] using down_ind. intros Hs [c s']. cbn [fst snd]. rewrite ord_eq, in_app_iff, in_flat_map, In_direct. cbn [snd]. split.
  - intros [(d & Hd & H)|[-> [k H]]].
    + destruct (is_interval l d) eqn:E; [destruct H|]. apply In_children in Hd. assert (P : is_plain l d) by (apply plain_interval; auto; eapply parent_sort; eauto).
      apply (IH d Hd P) in H as (A & B & C). split; [auto|]. split; [auto|]. eapply le_trans; [exact C|]. right. now apply anc_parent.
    + split; [auto|]. split; [|now left]. exists c. assert (c = k) by (eapply Hname; eauto). now subst.
  - intros (Hp & [sym Hc] & Hle). assert (sym = c) by (eapply Hname; eauto). subst. destruct (le_down s' s Hp Hle) as [->|(d & A & B & C)]; [right; eauto|].
    left. exists d. split; [auto|]. rewrite (proj1 (plain_interval d (plain_sort d B)) B). apply (IH d (proj1 (In_children _ _) A) B). split; [auto|]. split; [|auto]. now exists c.
Qed.
Lemma ord_NoDup : forall s, is_plain l s -> NoDup (ord s).
Proof.
  induction s as [s IH] using down_ind. intros Hs. rewrite ord_eq.
  assert (PC : forall c, In c (children l s) -> is_interval l c = false -> is_plain l c).
  { intros c Hc E. apply In_children in Hc. apply plain_interval; auto. eapply parent_sort; eauto. }
  apply NoDup_app_iff_simple.
  - apply NoDup_flat_map; [apply NoDup_children|..].
    + intros c Hc. destruct (is_interval l c) eqn:E; [constructor|]. apply IH; auto. now apply In_children.
    + intros c1 c2 o H1 H2 X1 X2. destruct (is_interval l c1) eqn:E1; [destruct X1|]. destruct (is_interval l c2) eqn:E2; [destruct X2|].
      apply (In_ord c1 (PC _ H1 E1)) in X1 as (_ & _ & X1). apply (In_ord c2 (PC _ H2 E2)) in X2 as (_ & _ & X2).
      apply (siblings s c1 c2 (snd o)); auto; now apply In_children.
  - eapply Permutation_NoDup; [symmetry; apply osort_perm|]. apply direct_NoDup; [apply (ii_consts l (it_index l I))|]. intros. eapply Hname; eauto.
  - intros o H1 H2. apply In_direct in H2 as [E2 _]. apply in_flat_map in H1 as (c & Hc & H1). destruct (is_interval l c) eqn:E; [destruct H1|].
    apply (In_ord c (PC _ Hc E)) in H1 as (_ & _ & H1). rewrite E2 in H1. apply In_children in Hc. eapply child_not_below; eauto.
Qed.
Lemma domain_ok s : is_plain l s -> exists d, sort_domain l s = Ok d /\ List.length d = List.length (ord s).
Proof.
  intros Hs. assert (Hs' := Hs). destruct Hs as (r & Hr & K). destruct (it_dom l I s r Hr) as (N & D & _). destruct (D K) as [_ D5].
  apply (sget_In _ _ _ (ii_sorts l (it_index l I))) in Hr. exists (s_dom r). unfold sort_domain. rewrite Hr, K. split.
  - apply mapM_id. apply Forall_forall. intros c Hc. apply D5 in Hc as (s' & Hp & [sym Hsy] & _). assert (X := Hname _ _ _ Hp Hsy). subst sym.
    apply (dget_Some_In cname_eqb cname_eqb_eq _ _ _ (ii_consts l (it_index l I))) in Hsy. rewrite Hsy. reflexivity.
  - assert (NM : NoDup (map fst (ord s))).
    { assert (No := ord_NoDup s Hs'). assert (U : forall a b, In a (ord s) -> In b (ord s) -> fst a = fst b -> a = b).
      { intros [c1 s1] [c2 s2] H1 H2 E. cbn in E. subst. apply (In_ord s Hs') in H1 as (P1 & [y1 H1] & _). apply (In_ord s Hs') in H2 as (P2 & [y2 H2] & _). cbn [fst snd] in *.
        apply (dget_Some_In cname_eqb cname_eqb_eq _ _ _ (ii_consts l (it_index l I))) in H1, H2. congruence. }
      clear - No U. induction (ord s) as [|a k IH]; cbn; [constructor|]. inversion No; subst. constructor; [|apply IH; auto; intros; apply U; try right; auto].
      intros X. apply in_map_iff in X as (b & E & X). assert (b = a) by (apply U; [right|left|]; auto). subst. auto. }
    assert (LL : List.length (ord s) = List.length (map fst (ord s))) by (symmetry; apply map_length). rewrite LL. apply Nat.le_antisymm; apply NoDup_incl_length; auto.
    + intros c Hc. apply D5 in Hc as (s' & A & B & C). apply in_map_iff. exists (c, s'). split; [auto|]. apply In_ord; auto.
    + intros c Hc. apply in_map_iff in Hc as ([c' s'] & <- & Hc). apply (In_ord s Hs') in Hc as (A & B & C). apply D5. exists s'. auto.
Qed.
Lemma objects_ok s : is_plain l s -> exists os, direct l s = Ok os /\ sort_objects os = Ok (osort (filter (fun o => String.eqb (snd o) s) (map snd (l_consts l)))).
Proof.
  intros Hs. assert (Hs' := Hs). destruct Hs as (r & Hr & K). destruct (it_dom l I s r Hr) as (_ & D & _). destruct (D K) as [B _].
  apply (sget_In _ _ _ (ii_sorts l (it_index l I))) in Hr. unfold direct. rewrite Hr, B. eexists. split; [reflexivity|]. unfold sort_objects.
  set (k := filter _ _). assert (H : forallb (fun o => is_cstr (fst o)) k || forallb (fun o => negb (is_cstr (fst o))) k = true).
  { assert (U : forall a b, In a k -> In b k -> is_cstr (fst a) = is_cstr (fst b)).
    { assert (W : forall a, In a k -> const_of l (fst a) s).
      { intros [c t] Ha. apply filter_In in Ha as [Ha E]. apply String.eqb_eq in E. cbn [snd fst] in *. subst t. apply in_map_iff in Ha as ([q o] & E & Ha). cbn in E. subst o.
        assert (X := Hname _ _ _ Hs' Ha). subst. exists q. auto. }
      intros a b Ha Hb. eapply Hhom; eauto. }
    clear - U. destruct k as [|a k]; [reflexivity|]. destruct (is_cstr (fst a)) eqn:E.
    - apply orb_true_iff. left. apply forallb_forall. intros x Hx. rewrite <- (U a x); [auto|left; auto|auto].
    - apply orb_true_iff. right. apply forallb_forall. intros x Hx. rewrite <- (U a x); [now rewrite E|left; auto|auto]. }
  rewrite H. reflexivity.
Qed.

Definition numbered (os : list cobj) (start : nat) : list (cobj * nat) := combine os (seq start (List.length os)).
Lemma numbered_app a b start : numbered (a ++ b) start = (numbered a start ++ numbered b (start + List.length a))%list.
Proof.
  revert start. induction a as [|x a IH]; intros start; [cbn; now rewrite Nat.add_0_r|].
  change (numbered ((x :: a) ++ b) start) with ((x, start) :: numbered (a ++ b) (S start)). change (numbered (x :: a) start) with ((x, start) :: numbered a (S start)).
  rewrite IH. cbn [app List.length]. now rewrite Nat.add_succ_comm.
Qed.
Lemma numbered_keys os start : map fst (numbered os start) = os.
Proof. unfold numbered. revert start. induction os; intros; cbn; [auto|]. now rewrite IHos. Qed.
Lemma numbered_vals os start : map snd (numbered os start) = seq start (List.length os).
Proof. unfold numbered. revert start. induction os; intros; cbn; [auto|]. now rewrite IHos. Qed.

(** The bounds recorded for the sorts of [R], relative to an order [os] of objects numbered from [start] *)
Definition bounded (R : string -> Prop) (os : list cobj) (start : nat) (b b' : list (string * (nat * nat))) : Prop :=
  forall d, (is_plain l d -> R d -> exists p q, os = (p ++ ord d ++ q)%list /\ sget b' d = Some (start + List.length p, start + List.length p + List.length (ord d))) /\
            (~ (is_plain l d /\ R d) -> sget b' d = sget b d).

Lemma le_dec_plain d s : is_plain l d -> {le l d s} + {~ le l d s}.
Proof.
  intros H. assert (Hd := plain_sort d H). destruct (String.eqb d s) eqn:E; [apply String.eqb_eq in E as ->; left; now left|].
  destruct (sget (l_anc l) d) as [a|] eqn:Ea.
  - assert (X := it_anc l I d). rewrite Ea in X. destruct X as [_ X]. destruct (in_dec string_dec s a) as [Y|Y].
    + left. right. now apply X.
    + right. intros [Z|Z]; [subst; now rewrite String.eqb_refl in E|]. apply Y. now apply X.
  - exfalso. assert (X := it_anc l I d). rewrite Ea in X. auto.
Qed.

Lemma assign_spec : forall n s st start, List.length (l_sorts l) <= n + rank s -> is_plain l s -> (forall o, In o (ord s) -> ~ In o (map fst (fst st))) ->
  exists b', assign n l s st start = Ok ((fst st ++ numbered (ord s) start)%list, b') /\ bounded (fun d => le l d s) (ord s) start (snd st) b'.
Proof.
  induction n as [|n IH]; intros s st start Hn Hs Hd; [pose proof (Rb s); lia|]. cbn [assign].
  set (g := fun c => if is_interval l c then [] else ord c).
  set (step := fun acc c => let! sl := acc in if is_interval l c then Ok sl else let! d := sort_domain l c in let! st' := assign n l c (fst sl) (snd sl) in Ok (st', snd sl + List.length d)).
  assert (F : forall cs st0 lb, NoDup cs -> (forall c, In c cs -> parent_of l c = Some s) -> (forall o, In o (flat_map g cs) -> ~ In o (map fst (fst st0))) ->
    exists b', fold_left step cs (Ok (st0, lb)) = Ok (((fst st0 ++ numbered (flat_map g cs) lb)%list, b'), lb + List.length (flat_map g cs)) /\
      bounded (fun d => exists c, In c cs /\ le l d c) (flat_map g cs) lb (snd st0) b').
  { induction cs as [|c cs IHc]; intros st0 lb Nc Pc Dc.
    - exists (snd st0). cbn. rewrite app_nil_r, Nat.add_0_r. split; [destruct st0; reflexivity|]. intros d. split; [intros _ (c & [] & _)|auto].
    - inversion Nc; subst. cbn [fold_left flat_map]. assert (Ec : parent_of l c = Some s) by (apply Pc; left; auto). unfold step at 2. cbn [bind fst snd].
      destruct (is_interval l c) eqn:Ei.
      + assert (Gc : g c = []) by (unfold g; now rewrite Ei). rewrite Gc. cbn [app]. destruct (IHc st0 lb H2 (fun c' X => Pc c' (or_intror X))) as (b' & E & B).
        { intros o Ho. apply Dc. cbn [flat_map]. apply in_or_app. now right. }
        exists b'. split; [exact E|].
        assert (NP : forall d, is_plain l d -> ~ le l d c).
        { intros d Hp Hle. assert (is_plain l c).
          { destruct Hle as [->|Hle]; [auto|]. clear - Hle Hp Hup. induction Hle; eauto. }
          apply (plain_interval c (parent_sort l c s I Ec)) in H. congruence. }
        intros d. destruct (B d) as [B1 B2]. split.
        * intros Hp (c' & [<-|Hc'] & Hle); [exfalso; eapply NP; eauto|]. apply B1; [auto|]. eauto.
        * intros X. apply B2. intros [Hp (c' & Hc' & Hle)]. apply X. split; [auto|]. exists c'. split; [right; auto|auto].
      + assert (Pl : is_plain l c) by (apply plain_interval; auto; eapply parent_sort; eauto).
        assert (Gc : g c = ord c) by (unfold g; now rewrite Ei). rewrite Gc. cbn [flat_map] in Dc. rewrite Gc in Dc.
        destruct (domain_ok c Pl) as (dm & -> & Ld). cbn [bind].
        destruct (IH c st0 lb) as (b1 & E1 & B1); [pose proof (Rp _ _ Ec); lia|auto|intros o Ho; apply Dc; apply in_or_app; now left|].
        rewrite E1. cbn [bind]. rewrite Ld.
        destruct (IHc ((fst st0 ++ numbered (ord c) lb)%list, b1) (lb + List.length (ord c)) H2 (fun c' X => Pc c' (or_intror X))) as (b2 & E2 & B2).
        { cbn [fst]. intros o Ho. rewrite map_app, numbered_keys, in_app_iff. intros [X|X]; [eapply Dc; [apply in_or_app; right|]; eauto|].
          apply (In_ord c Pl) in X as (_ & _ & X). apply in_flat_map in Ho as (c' & Hc' & Ho). unfold g in Ho. destruct (is_interval l c') eqn:Ei'; [destruct Ho|].
          assert (Ec' : parent_of l c' = Some s) by (apply Pc; right; auto).
          assert (Pl' : is_plain l c') by (apply plain_interval; auto; eapply parent_sort; eauto).
          apply (In_ord c' Pl') in Ho as (_ & _ & Ho). assert (c = c') by (eapply siblings; eauto). subst. auto. }
        exists b2. cbn [fst snd] in *. split.
        { etransitivity; [exact E2|]. rewrite numbered_app, <- app_assoc, app_length. do 2 f_equal. lia. }
        intros d. destruct (B1 d) as [B1a B1b]. destruct (B2 d) as [B2a B2b]. split.
        * intros Hp (c' & Hc' & Hle). destruct Hc' as [<-|Hc'].
          -- rewrite B2b. { destruct (B1a Hp Hle) as (p & q & -> & ->). exists p, (q ++ flat_map g cs)%list. split; [now rewrite <- !app_assoc|auto]. }
             intros [_ (c' & Hc' & Hle')]. assert (c = c') by (eapply siblings; eauto; apply Pc; right; auto). subst. auto.
          -- destruct (B2a Hp (ex_intro _ c' (conj Hc' Hle))) as (p & q & Eq & Es). exists (ord c ++ p)%list, q. split; [rewrite Eq, <- app_assoc; auto|]. rewrite Es, app_length. f_equal. f_equal; lia.
        * intros X. rewrite B2b, B1b; auto.
          -- intros [Hp Hle]. apply X. split; [auto|]. exists c. split; [left; auto|auto].
          -- intros [Hp (c' & Hc' & Hle)]. apply X. split; [auto|]. exists c'. split; [right; auto|auto]. }
  destruct (F (children l s) st start (NoDup_children s) (fun c H => proj1 (In_children s c) H)) as (b1 & E1 & B1).
  { intros o Ho. apply Hd. rewrite ord_eq. apply in_or_app. now left. }
  change (fold_left _ (children l s) (Ok (st, start))) with (fold_left step (children l s) (Ok (st, start))). rewrite E1. cbn [bind fst snd]. destruct (objects_ok s Hs) as (os & -> & Eo). cbn [bind]. rewrite Eo. cbn [bind].
  assert (No := ord_NoDup s Hs). rewrite ord_eq in No. fold g in No.
  rewrite number_spec; cbn [fst snd].
  2:{ apply NoDup_app_r in No. exact No. }
  2:{ intros o Ho. rewrite map_app, numbered_keys, in_app_iff. intros [X|X].
      - apply (Hd o); [|auto]. rewrite ord_eq. apply in_or_app. now right.
      - clear - No X Ho. induction (flat_map g (children l s)) as [|y k IHk]; [destruct X|]. cbn [app] in No. inversion No; subst. destruct X as [->|X]; [apply H1; apply in_or_app; now right|auto]. }
  eexists. split.
  { f_equal. f_equal. rewrite ord_eq. fold g. rewrite numbered_app, <- app_assoc. reflexivity. }
  intros d. rewrite sget_dset. destruct (B1 d) as [Ba Bb]. split.
  - intros Hp Hle. destruct (String.eqb s d) eqn:E.
    + apply String.eqb_eq in E as <-. exists [], []. cbn [app List.length]. rewrite app_nil_r, Nat.add_0_r. split; [auto|]. rewrite ord_eq. fold g. rewrite app_length, Nat.add_assoc. reflexivity.
    + destruct (le_down d s Hp Hle) as [->|(c & Hc & _ & Hlc)]; [now rewrite String.eqb_refl in E|].
      destruct (Ba Hp (ex_intro _ c (conj Hc Hlc))) as (p & q & Eq & Es). rewrite Es. exists p. eexists. split; [|reflexivity]. rewrite (ord_eq s). fold g. rewrite Eq, <- !app_assoc. reflexivity.
  - intros X. destruct (String.eqb s d) eqn:E.
    + apply String.eqb_eq in E as <-. exfalso. apply X. split; [auto|now left].
    + apply Bb. intros [Hp (c & Hc & Hle)]. apply X. split; [auto|]. eapply le_trans; [exact Hle|]. right. apply anc_parent. now apply In_children.
Qed.
End Ids.
