From Coq Require Import Ascii Permutation FinFun.
From Verif Require Import Base Syntax Semantics SemLemmas Subst SubstSpec SubstProofs ModelState ModelSpec ModelProofs ModelText ModelTextSpec.
#[local] Open Scope string_scope.

(** ** Sorting *)
Lemma ascii_compare_N a b : Ascii.compare a b = N.compare (N_of_ascii a) (N_of_ascii b). Proof. reflexivity. Qed.
Lemma leb_compare s t : String.leb s t = true <-> String.compare s t <> Gt.
Proof. unfold String.leb. destruct (String.compare s t); split; congruence. Qed.
Lemma leb_trans a b c : String.leb a b = true -> String.leb b c = true -> String.leb a c = true.
Proof.
  rewrite !leb_compare. revert b c; induction a as [|x a IH]; intros [|y b] [|z c]; simpl; try congruence.
  rewrite !ascii_compare_N.
  destruct (N.compare_spec (N_of_ascii x) (N_of_ascii y)) as [E|L|L]; [|intros _|congruence];
  destruct (N.compare_spec (N_of_ascii y) (N_of_ascii z)) as [E'|L'|L']; try congruence; intros H1.
  - rewrite E, E', N.compare_refl. intros H2. eapply IH; eauto.
  - intros _. rewrite E. apply N.compare_lt_iff in L'. rewrite L'. discriminate.
  - rewrite <- E'. apply N.compare_lt_iff in L. rewrite L. discriminate.
  - assert (L2 : (N_of_ascii x < N_of_ascii z)%N) by lia. apply N.compare_lt_iff in L2. rewrite L2. discriminate.
Qed.
Lemma insert_comm a b l : insert a (insert b l) = insert b (insert a l).
Proof.
  induction l as [|x l IH]; simpl.
  - destruct (String.leb a b) eqn:E1, (String.leb b a) eqn:E2; try reflexivity.
    + rewrite (String.leb_antisym a b E1 E2). reflexivity.
    + destruct (String.leb_total a b); congruence.
  - destruct (String.leb b x) eqn:Eb, (String.leb a x) eqn:Ea; simpl; rewrite ?Ea, ?Eb; auto.
    + destruct (String.leb a b) eqn:E1, (String.leb b a) eqn:E2; try reflexivity.
      * rewrite (String.leb_antisym a b E1 E2). reflexivity.
      * destruct (String.leb_total a b); congruence.
    + destruct (String.leb a b) eqn:E1; [|reflexivity]. rewrite (leb_trans a b x E1 Eb) in Ea. discriminate.
    + destruct (String.leb b a) eqn:E1; [|reflexivity]. rewrite (leb_trans b a x E1 Ea) in Eb. discriminate.
    + congruence.
Qed.
Lemma sorted_perm l l' : Permutation l l' -> sorted l = sorted l'.
Proof. induction 1; simpl; auto; [congruence|apply insert_comm|congruence]. Qed.
Lemma insert_In a l x : In x (insert a l) <-> x = a \/ In x l.
Proof. induction l as [|y l IH]; simpl; [intuition|]. destruct (String.leb a y); simpl; [intuition|]. rewrite IH. intuition. Qed.
Lemma sorted_In l x : In x (sorted l) <-> In x l.
Proof. induction l as [|a l IH]; simpl; [tauto|]. rewrite insert_In, IH. intuition. Qed.

(** ** What a reachable model stores *)
Section Stored.
  Context (T : term -> Prop) (P : psym -> Prop) (F : fsym -> Prop).
  Definition stored (m : model) : Prop :=
    NoDup (map fst (preds m)) /\ NoDup (map fst (funs m)) /\
    (forall s ext, In (s, ext) (preds m) -> (exists n ss, P (PU n ss) /\ s = psig (PU n ss)) /\ NoDup ext /\ forall pt, In pt ext -> Forall T pt) /\
    (forall s ext, In (s, ext) (funs m) -> (exists n d c, F (FU n d c) /\ s = fsig (FU n d c)) /\ NoDup (map fst ext) /\
       forall pt v, In (pt, v) ext -> T v /\ Forall T pt).
  Lemma dset_entries_eq {K V} eqb (Heq : forall a b : K, eqb a b = true <-> a = b) (d : list (K * V)) k v s e :
    In (s, e) (dset eqb d k v) -> (s = k /\ e = v) \/ In (s, e) d.
  Proof.
    induction d as [|[a w] d IH]; simpl.
    - intros [H|[]]. inversion H; auto.
    - destruct (eqb a k) eqn:E; simpl; intros [H|H]; [|auto | |].
      + inversion H; subst. apply Heq in E. auto.
      + auto.
      + destruct (IH H); auto.
  Qed.
  Lemma stored_step sub m o : stored m -> op_constants o = true ->
    (forall p, op_pred o = Some p -> P p) -> (forall f, op_fun o = Some f -> F f) -> (forall t, In t (op_terms o) -> T t) ->
    stored (snd (mstep sub m o)).
  Proof.
    intros St Hc HP HF HT. pose proof St as (S1 & S2 & S3 & S4).
    assert (Del : forall s, stored (remove_signature m s)).
    { intros s. unfold remove_signature. destruct (dget sig_eqb (funs m) s).
      - split; [auto|]. split; [apply ddel_NoDup; auto|]. split; [auto|]. intros r ext Hin. apply ddel_entries in Hin. auto.
      - destruct (dget sig_eqb (preds m) s); [|auto]. split; [apply ddel_NoDup; auto|]. split; [auto|]. split; [|auto].
        intros r ext Hin. apply ddel_entries in Hin. auto. }
    assert (DelPt : forall p ext args, dget sig_eqb (preds m) (psig p) = Some ext ->
      stored {| funs := funs m; preds := dset sig_eqb (preds m) (psig p) (pt_del args ext) |}).
    { intros p ext args E. apply (dget_In sig_eqb sig_eqb_eq) in E. destruct (S3 _ _ E) as (A & B & C).
      split; [apply dset_NoDup; [exact sig_eqb_eq|auto]|]. split; [auto|]. split; [|auto].
      intros r e Hin. apply (dset_entries_eq sig_eqb sig_eqb_eq) in Hin as [[-> ->]|Hin]; [|auto].
      split; [auto|]. split; [now apply pt_del_NoDup|]. intros pt Hpt. apply pt_del_In in Hpt. auto. }
    destruct o as [p args|t v|p args|p args|p|f]; cbn [mstep].
    - unfold m_add. destruct p as [b|n ss]; cbn [of_res snd]; auto. destruct (check_assignment sub ss args); cbn [bind of_res snd]; auto.
      split; [apply dset_NoDup; [exact sig_eqb_eq|auto]|]. split; [auto|]. split; [|auto].
      intros r e Hin. apply (dset_entries_eq sig_eqb sig_eqb_eq) in Hin as [[-> ->]|Hin]; [|auto].
      split; [exists n, ss; auto|]. destruct (dget sig_eqb (preds m) (psig (PU n ss))) as [ext|] eqn:E.
      + apply (dget_In sig_eqb sig_eqb_eq) in E. destruct (S3 _ _ E) as (A & B & C). split; [now apply pt_add_NoDup|].
        intros pt Hpt. unfold pt_add in Hpt. destruct (pt_mem args ext); [auto|]. apply in_app_or in Hpt as [Hpt|[<-|[]]]; [auto|].
        apply Forall_forall. intros t Ht. apply HT. exact Ht.
      + split; [apply pt_add_NoDup; constructor|]. intros pt [<-|[]]. apply Forall_forall. intros t Ht. apply HT. exact Ht.
    - destruct t as [x r|c r|f args|c a b]; cbn [m_set of_res snd]; auto. destruct f as [b|n d c]; cbn [m_set of_res snd]; auto.
      destruct (forallb is_cst args); cbn [of_res snd]; auto.
      destruct (check_assignment sub (d ++ [c]) (args ++ [v])); cbn [bind of_res snd]; auto.
      split; [auto|]. split; [apply dset_NoDup; [exact sig_eqb_eq|auto]|]. split; [auto|].
      intros r e Hin. apply (dset_entries_eq sig_eqb sig_eqb_eq) in Hin as [[-> ->]|Hin]; [|auto].
      split; [exists n, d, c; auto|].
      assert (HTv : T v /\ Forall T args). { split; [apply HT; now left|]. apply Forall_forall. intros t Ht. apply HT. now right. }
      destruct (dget sig_eqb (funs m) (fsig (FU n d c))) as [ext|] eqn:E.
      + apply (dget_In sig_eqb sig_eqb_eq) in E. destruct (S4 _ _ E) as (A & B & C).
        split; [apply dset_NoDup; [exact points_eqb_eq|auto]|].
        intros pt w Hw. apply (dset_entries_eq points_eqb points_eqb_eq) in Hw as [[-> ->]|Hw]; [exact HTv|auto].
      + split; [simpl; constructor; [tauto|constructor]|]. intros pt w [Hw|[]]. inversion Hw; subst. exact HTv.
    - unfold m_remove. destruct (dget sig_eqb (preds m) (psig p)) eqn:E; cbn [of_res snd]; [|auto]. destruct (pt_mem args l); cbn [of_res snd]; auto.
    - unfold m_discard. cbn [snd]. destruct (dget sig_eqb (preds m) (psig p)) eqn:E; auto.
    - apply Del.
    - apply Del.
  Qed.
  Lemma stored_history sub ops : forall m, stored m -> forallb op_constants ops = true ->
    (forall o p, In o ops -> op_pred o = Some p -> P p) -> (forall o f, In o ops -> op_fun o = Some f -> F f) ->
    (forall o t, In o ops -> In t (op_terms o) -> T t) -> stored (snd (outcomes (mstep sub) ops m)).
  Proof.
    induction ops as [|o ops IH]; intros m Hm Hc HP HF HT; [exact Hm|]. simpl in Hc. apply andb_true_iff in Hc as [Hc1 Hc2].
    cbn [outcomes]. pose proof (stored_step sub m o Hm Hc1 (fun p => HP o p (or_introl eq_refl)) (fun p => HF o p (or_introl eq_refl)) (fun p => HT o p (or_introl eq_refl))) as H1.
    destruct (mstep sub m o) as [e m1]. cbn [snd] in H1.
    specialize (IH m1 H1 Hc2 (fun o' p h => HP o' p (or_intror h)) (fun o' p h => HF o' p (or_intror h)) (fun o' p h => HT o' p (or_intror h))).
    destruct (outcomes (mstep sub) ops m1). exact IH.
  Qed.
  Lemma stored_empty : stored empty_model.
  Proof. split; [constructor|]. split; [constructor|]. split; intros ? ? []. Qed.
End Stored.

(** ** The multiset of entries is determined by the extensions *)
Definition ppoints (m : model) : list (signature * list term) := flat_map (fun ke => map (pair (fst ke)) (snd ke)) (preds m).
Definition fpoints (m : model) : list (signature * (list term * term)) := flat_map (fun ke => map (pair (fst ke)) (snd ke)) (funs m).
Lemma entries_points m : entries m =
  (map (fun sp => atom_text (sig_name (fst sp)) (snd sp)) (ppoints m)
   ++ map (fun sp => value_text (sig_name (fst sp)) (fst (snd sp)) (snd (snd sp))) (fpoints m))%list.
Proof.
  unfold entries, ppoints, fpoints. f_equal.
  - induction (preds m) as [|[s ext] l IH]; simpl; [reflexivity|]. rewrite map_app, map_map, IH. reflexivity.
  - induction (funs m) as [|[s ext] l IH]; simpl; [reflexivity|]. rewrite map_app, map_map, IH. reflexivity.
Qed.
Lemma points_NoDup {K V} (l : list (K * list V)) : NoDup (map fst l) -> (forall s ext, In (s, ext) l -> NoDup ext) ->
  NoDup (flat_map (fun ke => map (pair (fst ke)) (snd ke)) l).
Proof.
  induction l as [|[s ext] l IH]; simpl; intros Hn He; [constructor|]. inversion Hn as [|? ? H1 H2]; subst.
  assert (A : NoDup (map (pair s) ext)) by (apply Injective_map_NoDup; [intros a b E; congruence | eauto]).
  assert (B : NoDup (flat_map (fun ke => map (pair (fst ke)) (snd ke)) l)) by (apply IH; eauto).
  assert (D : forall x, In x (map (pair s) ext) -> ~ In x (flat_map (fun ke => map (pair (fst ke)) (snd ke)) l)).
  { intros x Hx Hin. apply in_map_iff in Hx as (v & <- & _). apply in_flat_map in Hin as ([s' ext'] & Hin & Hv).
    apply in_map_iff in Hv as (v' & E & _). simpl in E. inversion E; subst. apply H1. change s with (fst (s, ext')). now apply in_map. }
  clear -A B D. induction (map (pair s) ext) as [|x xs IHx]; simpl; [exact B|]. inversion A; subst.
  constructor; [|apply IHx; auto; intros y Hy; apply D; now right].
  intros Hin. apply in_app_or in Hin as [Hin|Hin]; [auto|]. apply (D x); [now left|auto].
Qed.
Lemma dget_NoDup {K V} eqb (Heq : forall a b : K, eqb a b = true <-> a = b) (d : list (K * V)) k v :
  NoDup (map fst d) -> In (k, v) d -> dget eqb d k = Some v.
Proof.
  induction d as [|[a w] d IH]; simpl; [tauto|]; intros Hn [E|Hin]; inversion Hn as [|? ? H1 H2]; subst.
  - inversion E; subst. now rewrite (proj2 (Heq k k) eq_refl).
  - destruct (eqb a k) eqn:E; [|auto]. apply Heq in E. subst. exfalso. apply H1. change k with (fst (k, v)). now apply in_map.
Qed.
Lemma ppoints_In T P F m s pt : stored T P F m -> In (s, pt) (ppoints m) <-> exists ext, dget sig_eqb (preds m) s = Some ext /\ In pt ext.
Proof.
  intros (S1 & S2 & S3 & S4). unfold ppoints. rewrite in_flat_map. split.
  - intros ([s' ext] & Hin & Hm). apply in_map_iff in Hm as (pt' & E & Hpt). simpl in *. inversion E; subst.
    exists ext. split; [|auto]. apply dget_NoDup; auto using sig_eqb_eq.
  - intros (ext & E & Hpt). exists (s, ext). split; [now apply (dget_In sig_eqb sig_eqb_eq)|]. simpl. now apply in_map.
Qed.
Lemma fpoints_In T P F m s pt v : stored T P F m -> In (s, (pt, v)) (fpoints m) <->
  exists ext, dget sig_eqb (funs m) s = Some ext /\ dget points_eqb ext pt = Some v.
Proof.
  intros (S1 & S2 & S3 & S4). unfold fpoints. rewrite in_flat_map. split.
  - intros ([s' ext] & Hin & Hm). apply in_map_iff in Hm as ([pt' v'] & E & Hpt). simpl in *. inversion E; subst.
    exists ext. split; [apply dget_NoDup; auto using sig_eqb_eq|]. destruct (S4 _ _ Hin) as (_ & N & _). apply dget_NoDup; auto using points_eqb_eq.
  - intros (ext & E & Hpt). exists (s, ext). split; [now apply (dget_In sig_eqb sig_eqb_eq)|]. simpl. apply in_map.
    now apply (dget_In points_eqb points_eqb_eq).
Qed.
(** In terms of the API: *)
Lemma ppoints_holds T P F m s pt : stored T P F m -> In (s, pt) (ppoints m) <->
  exists n ss, P (PU n ss) /\ s = psig (PU n ss) /\ m_holds m (PU n ss) pt = true.
Proof.
  intros St. rewrite (ppoints_In T P F) by auto. split.
  - intros (ext & E & Hin). pose proof St as (_ & _ & S3 & _). pose proof (dget_In sig_eqb sig_eqb_eq _ _ _ E) as E'.
    destruct (S3 _ _ E') as ((n & ss & Hp & ->) & _). exists n, ss. split; [auto|]. split; [auto|]. unfold m_holds. rewrite E. now apply pt_mem_In.
  - intros (n & ss & Hp & -> & H). unfold m_holds in H. destruct (dget sig_eqb (preds m) (psig (PU n ss))) as [ext|]; [|discriminate].
    exists ext. split; [auto|]. now apply pt_mem_In.
Qed.
Lemma fpoints_value T P F m s pt v : stored T P F m -> In (s, (pt, v)) (fpoints m) <->
  exists n d c, F (FU n d c) /\ s = fsig (FU n d c) /\ m_value m (FU n d c) pt = Ok v.
Proof.
  intros St. rewrite (fpoints_In T P F) by auto. split.
  - intros (ext & E & Hin). pose proof St as (_ & _ & _ & S4). pose proof (dget_In sig_eqb sig_eqb_eq _ _ _ E) as E'.
    destruct (S4 _ _ E') as ((n & d & c & Hp & ->) & _). exists n, d, c. split; [auto|]. split; [auto|]. unfold m_value. rewrite E, Hin. reflexivity.
  - intros (n & d & c & Hp & -> & H). unfold m_value in H. destruct (dget sig_eqb (funs m) (fsig (FU n d c))) as [ext|]; [|discriminate].
    exists ext. split; [auto|]. destruct (dget points_eqb ext pt); congruence.
Qed.
Lemma stored_holds T P F m p pt : stored T P F m -> m_holds m p pt = true -> P p /\ (exists n ss, p = PU n ss) /\ Forall T pt.
Proof.
  intros (_ & _ & S3 & _) H. unfold m_holds in H. destruct (dget sig_eqb (preds m) (psig p)) as [ext|] eqn:E; [|discriminate].
  apply (dget_In sig_eqb sig_eqb_eq) in E. destruct (S3 _ _ E) as ((n & ss & Hp & Ep) & _ & Ht). apply psig_inj in Ep. subst.
  split; [auto|]. split; [eauto|]. apply Ht. now apply pt_mem_In.
Qed.
Lemma stored_value T P F m f pt v : stored T P F m -> m_value m f pt = Ok v -> F f /\ (exists n d c, f = FU n d c) /\ T v /\ Forall T pt.
Proof.
  intros (_ & _ & _ & S4) H. unfold m_value in H. destruct (dget sig_eqb (funs m) (fsig f)) as [ext|] eqn:E; [|discriminate].
  apply (dget_In sig_eqb sig_eqb_eq) in E. destruct (S4 _ _ E) as ((n & d & c & Hp & Ep) & _ & Ht). symmetry in Ep. apply fsig_inj in Ep; [|reflexivity]. subst.
  split; [auto|]. split; [eauto|]. apply Ht. destruct (dget points_eqb ext pt) eqn:E'; [|discriminate]. inversion H; subst.
  now apply (dget_In points_eqb points_eqb_eq).
Qed.

Lemma same_extensions_text T1 P1 F1 T2 P2 F2 m1 m2 : stored T1 P1 F1 m1 -> stored T2 P2 F2 m2 -> same_extensions m1 m2 -> model_str m1 = model_str m2.
Proof.
  intros St1 St2 [Hp Hf]. unfold model_str. do 2 f_equal. f_equal. apply sorted_perm. rewrite !entries_points.
  apply Permutation_app; apply Permutation_map, NoDup_Permutation.
  - destruct St1 as (A & _ & B & _). apply points_NoDup; auto. intros s ext H. now destruct (B s ext H) as (_ & ? & _).
  - destruct St2 as (A & _ & B & _). apply points_NoDup; auto. intros s ext H. now destruct (B s ext H) as (_ & ? & _).
  - intros [s pt]. rewrite (ppoints_holds T1 P1 F1), (ppoints_holds T2 P2 F2) by auto.
    split; intros (n & ss & Hq & -> & H); exists n, ss; [rewrite Hp in H|rewrite <- Hp in H].
    + destruct (stored_holds T2 P2 F2 m2 _ _ St2 H) as (? & _). auto.
    + destruct (stored_holds T1 P1 F1 m1 _ _ St1 H) as (? & _). auto.
  - destruct St1 as (_ & A & _ & B). apply points_NoDup; auto. intros s ext H. destruct (B s ext H) as (_ & N & _). now apply NoDup_map_inv in N.
  - destruct St2 as (_ & A & _ & B). apply points_NoDup; auto. intros s ext H. destruct (B s ext H) as (_ & N & _). now apply NoDup_map_inv in N.
  - intros [s [pt v]]. rewrite (fpoints_value T1 P1 F1), (fpoints_value T2 P2 F2) by auto.
    split; intros (n & d & c & Hq & -> & H); exists n, d, c; [rewrite Hf in H|rewrite <- Hf in H].
    + destruct (stored_value T2 P2 F2 m2 _ _ _ St2 H) as (? & _). auto.
    + destruct (stored_value T1 P1 F1 m1 _ _ _ St1 H) as (? & _). auto.
Qed.

(** ** Unique reading of the printed model *)
Definition starts_delim (s : string) : bool := match s with String c _ => delimiter c | EmptyString => false end.
Lemma app_assoc_s (a b c : string) : (a ++ b) ++ c = a ++ (b ++ c).
Proof. induction a; simpl; congruence. Qed.
Lemma token_split a b r r' : no_delimiter a = true -> no_delimiter b = true -> starts_delim r = true -> starts_delim r' = true ->
  a ++ r = b ++ r' -> a = b /\ r = r'.
Proof.
  revert b; induction a as [|x a IH]; intros [|y b]; simpl; intros Ha Hb Hr Hr' E; auto.
  - subst. apply andb_true_iff in Hb as [Hy _]. simpl in Hr. destruct (delimiter y); discriminate.
  - subst. apply andb_true_iff in Ha as [Hy _]. simpl in Hr'. destruct (delimiter x); discriminate.
  - apply andb_true_iff in Ha as [_ Ha]. apply andb_true_iff in Hb as [_ Hb]. inversion E; subst.
    destruct (IH b Ha Hb Hr Hr' ltac:(assumption)) as [-> ->]. auto.
Qed.
Lemma clean_nd s : clean s = true -> no_delimiter s = true. Proof. unfold clean. rewrite andb_true_iff. tauto. Qed.
Lemma clean_head s : clean s = true -> exists c s', s = String c s' /\ delimiter c = false.
Proof.
  destruct s as [|c s]; [discriminate|]. intros H. apply clean_nd in H. simpl in H. apply andb_true_iff in H as [H _].
  exists c, s. split; [auto|]. now apply negb_true_iff.
Qed.
Lemma join_cons sep x l : join sep (x :: l) = x ++ (match l with [] => "" | _ => sep ++ join sep l end).
Proof. destruct l; simpl; [|reflexivity]. induction x; simpl; congruence. Qed.
Lemma app_cancel (a b c : string) : a ++ b = a ++ c -> b = c.
Proof. induction a; simpl; auto. intros H. inversion H. auto. Qed.
Lemma join_split sep (Hs : exists s', sep = String ","%char s') xs ys r r' :
  Forall (fun x => clean x = true) xs -> Forall (fun x => clean x = true) ys ->
  join sep xs ++ String ")"%char r = join sep ys ++ String ")"%char r' -> xs = ys /\ r = r'.
Proof.
  destruct Hs as [s' ->]. intros Hx. revert ys; induction Hx as [|x xs Hx Hxs IH]; intros ys Hy E.
  - destruct Hy as [|y ys Hy Hys]; [simpl in E; inversion E; auto|].
    rewrite join_cons in E. destruct (clean_head y Hy) as (c & s & -> & Hc). simpl in E. inversion E; subst. discriminate.
  - destruct Hy as [|y ys Hy Hys].
    + rewrite join_cons in E. destruct (clean_head x Hx) as (c & s & -> & Hc). simpl in E. inversion E; subst. discriminate.
    + rewrite !join_cons, !app_assoc_s in E. apply token_split in E as [-> E]; auto using clean_nd.
      * destruct xs as [|x' xs], ys as [|y' ys]; try (simpl in E; inversion E; auto; fail).
        rewrite !app_assoc_s in E. apply app_cancel in E. destruct (IH (y' :: ys) Hys E) as [-> ->]. auto.
      * destruct xs; reflexivity.
      * destruct ys; reflexivity.
Qed.

(** Printed entries are prefix-free. *)
Inductive entry : string -> Prop :=
| e_atom n args : clean n = true -> Forall (fun x => clean x = true) args -> entry (n ++ "(" ++ join "," args ++ ")")
| e_value n args v s : clean n = true -> Forall (fun x => clean x = true) args -> clean v = true -> clean s = true ->
    entry ("(" ++ n ++ "(" ++ join ", " args ++ "), " ++ v ++ " (" ++ s ++ "))").
Lemma atom_split n args n' args' r r' : clean n = true -> clean n' = true ->
  Forall (fun x => clean x = true) args -> Forall (fun x => clean x = true) args' ->
  (n ++ "(" ++ join "," args ++ ")") ++ r = (n' ++ "(" ++ join "," args' ++ ")") ++ r' -> n = n' /\ args = args' /\ r = r'.
Proof.
  intros Hn Hn' Ha Ha' E. rewrite !app_assoc_s in E. apply token_split in E as [-> E]; auto using clean_nd.
  apply app_cancel in E. rename E into E'. simpl in E'.
  apply join_split in E' as [-> ->]; auto. eexists; reflexivity.
Qed.
Lemma value_split n args v s n' args' v' s' r r' : clean n = true -> clean n' = true ->
  Forall (fun x => clean x = true) args -> Forall (fun x => clean x = true) args' -> clean v = true -> clean v' = true -> clean s = true -> clean s' = true ->
  ("(" ++ n ++ "(" ++ join ", " args ++ "), " ++ v ++ " (" ++ s ++ "))") ++ r = ("(" ++ n' ++ "(" ++ join ", " args' ++ "), " ++ v' ++ " (" ++ s' ++ "))") ++ r' ->
  n = n' /\ args = args' /\ v = v' /\ s = s' /\ r = r'.
Proof.
  intros Hn Hn' Ha Ha' Hv Hv' Hs Hs' E. rewrite !app_assoc_s in E. apply app_cancel in E.
  apply token_split in E as [-> E]; auto using clean_nd. apply app_cancel in E.
  change ("), " ++ v ++ " (" ++ s ++ "))" ++ r) with (String ")" (", " ++ v ++ " (" ++ s ++ "))" ++ r)) in E.
  change ("), " ++ v' ++ " (" ++ s' ++ "))" ++ r') with (String ")" (", " ++ v' ++ " (" ++ s' ++ "))" ++ r')) in E.
  apply join_split in E as [-> E]; auto; [|eexists; reflexivity]. apply app_cancel in E.
  apply token_split in E as [-> E]; auto using clean_nd. apply app_cancel in E.
  apply token_split in E as [-> E]; auto using clean_nd. apply app_cancel in E. auto.
Qed.
Lemma entry_prefix w w' r r' : entry w -> entry w' -> w ++ r = w' ++ r' -> w = w' /\ r = r'.
Proof.
  intros [n args Hn Ha|n args v s Hn Ha Hv Hs] [n' args' Hn' Ha'|n' args' v' s' Hn' Ha' Hv' Hs'] E.
  - apply atom_split in E as (-> & -> & ->); auto.
  - exfalso. destruct (clean_head n Hn) as (c & t & -> & Hc). simpl in E. inversion E; subst. discriminate.
  - exfalso. destruct (clean_head n' Hn') as (c & t & -> & Hc). simpl in E. inversion E; subst. discriminate.
  - apply value_split in E as (-> & -> & -> & -> & ->); auto.
Qed.
Lemma entry_head w : entry w -> exists c s, w = String c s /\ c <> "]"%char.
Proof.
  intros [n args Hn Ha|n args v s Hn Ha Hv Hs].
  - destruct (clean_head n Hn) as (c & t & -> & Hc). simpl. eexists; eexists; split; [reflexivity|]. intros ->. discriminate.
  - simpl. eexists; eexists; split; [reflexivity|]. discriminate.
Qed.
Lemma list_split l l' : Forall entry l -> Forall entry l' -> join ", " l ++ "]" = join ", " l' ++ "]" -> l = l'.
Proof.
  intros Hl. revert l'; induction Hl as [|w l Hw Hl IH]; intros l' Hl' E.
  - destruct Hl' as [|w' l' Hw' _]; [reflexivity|]. rewrite join_cons in E. destruct (entry_head w' Hw') as (c & s & -> & Hc).
    simpl in E. inversion E; subst. congruence.
  - destruct Hl' as [|w' l' Hw' Hl'].
    + rewrite join_cons in E. destruct (entry_head w Hw) as (c & s & -> & Hc). simpl in E. inversion E; subst. congruence.
    + rewrite !join_cons, !app_assoc_s in E. apply entry_prefix in E as [-> E]; auto.
      destruct l as [|x l], l' as [|x' l']; [reflexivity|simpl in E; discriminate|simpl in E; discriminate|].
      rewrite !app_assoc_s in E. apply app_cancel in E. rewrite (IH (x' :: l') Hl' E). reflexivity.
Qed.

Section Inject.
  Context (T : term -> Prop) (P : psym -> Prop) (F : fsym -> Prop).
  Context (HP : forall n ss, P (PU n ss) -> clean n = true) (HF : forall n d c, F (FU n d c) -> clean n = true)
          (HPn : forall n ss ss', P (PU n ss) -> P (PU n ss') -> ss = ss')
          (HFn : forall n d c d' c', F (FU n d c) -> F (FU n d' c') -> d = d' /\ c = c')
          (HT : forall t, T t -> clean (text t) = true /\ clean (term_sort t) = true)
          (HTn : forall t t', T t -> T t' -> text t = text t' -> t = t').
  Lemma clean_args pt : Forall T pt -> Forall (fun x => clean x = true) (map text pt).
  Proof. induction 1; simpl; constructor; auto. now apply HT. Qed.
  Lemma text_inj pt pt' : Forall T pt -> Forall T pt' -> map text pt = map text pt' -> pt = pt'.
  Proof.
    intros H. revert pt'; induction H as [|t pt Ht _ IH]; intros [|t' pt'] H' E; simpl in E; try discriminate; [reflexivity|].
    inversion H'; subst. inversion E. f_equal; auto.
  Qed.
  Lemma entries_spec m x : stored T P F m -> In x (entries m) <->
    (exists n ss pt, P (PU n ss) /\ m_holds m (PU n ss) pt = true /\ x = atom_text n pt) \/
    (exists n d c pt v, F (FU n d c) /\ m_value m (FU n d c) pt = Ok v /\ x = value_text n pt v).
  Proof.
    intros St. rewrite entries_points, in_app_iff, !in_map_iff. split.
    - intros [([s pt] & <- & H)|([s [pt v]] & <- & H)].
      + apply (ppoints_holds T P F m s pt St) in H as (n & ss & H1 & -> & H2). left. exists n, ss, pt. auto.
      + apply (fpoints_value T P F m s pt v St) in H as (n & d & c & H1 & -> & H2). right. exists n, d, c, pt, v. auto.
    - intros [(n & ss & pt & H1 & H2 & ->)|(n & d & c & pt & v & H1 & H2 & ->)].
      + left. exists (psig (PU n ss), pt). split; [reflexivity|]. apply (ppoints_holds T P F); [exact St|]. exists n, ss. auto.
      + right. exists (fsig (FU n d c), (pt, v)). split; [reflexivity|]. apply (fpoints_value T P F); [exact St|]. exists n, d, c. auto.
  Qed.
  Lemma entries_entry m : stored T P F m -> Forall entry (entries m).
  Proof.
    intros St. apply Forall_forall. intros x Hx. apply entries_spec in Hx as [(n & ss & pt & H1 & H2 & ->)|(n & d & c & pt & v & H1 & H2 & ->)]; auto.
    - apply (stored_holds T P F) in H2 as (_ & _ & Ht); auto. constructor; eauto using clean_args.
    - apply (stored_value T P F) in H2 as (_ & _ & Hv & Ht); auto. destruct (HT v Hv) as [C1 C2]. constructor; eauto using clean_args.
  Qed.
  Lemma Forall_sorted l : Forall entry l -> Forall entry (sorted l).
  Proof. rewrite !Forall_forall. intros H x Hx. apply H. now apply (sorted_In l x). Qed.
  Lemma text_same_entries m1 m2 : stored T P F m1 -> stored T P F m2 -> model_str m1 = model_str m2 -> forall x, In x (entries m1) <-> In x (entries m2).
  Proof.
    intros S1 S2 E x. unfold model_str in E. apply app_cancel in E. apply list_split in E; auto using Forall_sorted, entries_entry.
    rewrite <- (sorted_In (entries m1)), <- (sorted_In (entries m2)), E. tauto.
  Qed.
  Lemma entries_le m1 m2 : stored T P F m1 -> stored T P F m2 -> (forall x, In x (entries m1) -> In x (entries m2)) ->
    (forall p pt, m_holds m1 p pt = true -> m_holds m2 p pt = true) /\ (forall f pt v, m_value m1 f pt = Ok v -> m_value m2 f pt = Ok v).
  Proof.
    intros S1 S2 Hx. split.
    - intros p pt H. destruct (stored_holds T P F m1 p pt S1 H) as (Hp & (n & ss & ->) & Ht).
      assert (Hin : In (atom_text n pt) (entries m1)) by (apply entries_spec; auto; left; exists n, ss, pt; auto).
      apply Hx, entries_spec in Hin as [(n' & ss' & pt' & H1 & H2 & E)|(n' & d & c & pt' & v & H1 & H2 & E)]; auto.
      + destruct (stored_holds T P F m2 _ _ S2 H2) as (_ & _ & Ht'). unfold atom_text in E. apply (f_equal (fun s => s ++ "")) in E.
        apply atom_split in E as (-> & E & _); eauto using clean_args. apply text_inj in E; auto. subst. rewrite (HPn n' ss ss'); auto.
      + exfalso. destruct (clean_head n (HP n ss Hp)) as (k & t & -> & Hk). unfold atom_text, value_text in E. simpl in E. inversion E; subst. discriminate.
    - intros f pt v H. destruct (stored_value T P F m1 f pt v S1 H) as (Hf & (n & d & c & ->) & Hv & Ht).
      assert (Hin : In (value_text n pt v) (entries m1)) by (apply entries_spec; auto; right; exists n, d, c, pt, v; auto).
      apply Hx, entries_spec in Hin as [(n' & ss' & pt' & H1 & H2 & E)|(n' & d' & c' & pt' & v' & H1 & H2 & E)]; auto.
      + exfalso. destruct (clean_head n' (HP n' ss' H1)) as (k & t & -> & Hk). unfold atom_text, value_text in E. simpl in E. inversion E; subst. discriminate.
      + destruct (stored_value T P F m2 _ _ _ S2 H2) as (_ & _ & Hv' & Ht'). unfold value_text in E. apply (f_equal (fun s => s ++ "")) in E.
        destruct (HT v Hv) as [C1 C2]. destruct (HT v' Hv') as [C1' C2'].
        apply value_split in E as (-> & E & E' & _ & _); eauto using clean_args. apply text_inj in E; auto. apply HTn in E'; auto. subst.
        destruct (HFn n' d c d' c'); auto. subst. exact H2.
  Qed.
  Lemma text_extensions m1 m2 : stored T P F m1 -> stored T P F m2 -> model_str m1 = model_str m2 -> same_extensions m1 m2.
  Proof.
    intros S1 S2 E. pose proof (text_same_entries m1 m2 S1 S2 E) as H.
    destruct (entries_le m1 m2 S1 S2 (fun x h => proj1 (H x) h)) as [A1 A2]. destruct (entries_le m2 m1 S2 S1 (fun x h => proj2 (H x) h)) as [B1 B2].
    assert (Herr : forall m f pt e, m_value m f pt = Err e -> e = KeyError).
    { intros m f pt e. unfold m_value. destruct (dget sig_eqb (funs m) (fsig f)); [|congruence]. destruct (dget points_eqb l pt); congruence. }
    split.
    - intros p pt. destruct (m_holds m1 p pt) eqn:E1, (m_holds m2 p pt) eqn:E2; auto.
      + rewrite (A1 _ _ E1) in E2. discriminate.
      + rewrite (B1 _ _ E2) in E1. discriminate.
    - intros f pt. destruct (m_value m1 f pt) as [v|e] eqn:E1.
      + symmetry. now apply A2.
      + destruct (m_value m2 f pt) as [v|e'] eqn:E2; [rewrite (B2 _ _ _ E2) in E1; discriminate|].
        now rewrite (Herr _ _ _ _ E1), (Herr _ _ _ _ E2).
  Qed.
End Inject.
