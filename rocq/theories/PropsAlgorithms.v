(** C33 and C34: transitive closure and minimum distance *)
From Verif Require Import Base ModelState ModelProofs Algorithms AlgorithmsSpec.

Section Sets.
Context {B : Type} (eqb : B -> B -> bool) (E : decides eqb).
Lemma smem_In x l : smem eqb x l = true <-> In x l.
Proof. unfold smem. rewrite existsb_exists. split; [intros (y & H & Q); apply E in Q; now subst|intros H; exists x; split; [auto|now apply E]]. Qed.
Lemma sunion_In x b : forall a, In x (sunion eqb a b) <-> In x a \/ In x b.
Proof.
  induction b as [|y b IH]; intros a; cbn [sunion]; [cbn; tauto|]. destruct (smem eqb y a) eqn:M.
  - rewrite IH. apply smem_In in M. cbn. split; [tauto|]. intros [H|[<-|H]]; auto.
  - rewrite IH, in_app_iff. cbn. tauto.
Qed.
Lemma sunion_NoDup b : forall a, NoDup a -> NoDup (sunion eqb a b).
Proof.
  induction b as [|y b IH]; intros a N; cbn [sunion]; [auto|]. destruct (smem eqb y a) eqn:M; [auto|]. apply IH. apply NoDup_rev in N. rewrite <- (rev_involutive (a ++ [y])), rev_unit. apply NoDup_rev. constructor; [|auto].
  intros H. apply in_rev in H. apply smem_In in H. congruence.
Qed.
Lemma sunion_same b a : NoDup a -> List.length (sunion eqb a b) = List.length a -> incl b a.
Proof.
  intros N H x Hx. assert (I : incl (sunion eqb a b) a). { apply NoDup_length_incl; [auto|lia|]. intros y Hy. apply sunion_In. auto. } apply I, sunion_In. auto.
Qed.
Lemma sunion_grows b a : NoDup a -> List.length a <= List.length (sunion eqb a b).
Proof. intros N. apply NoDup_incl_length; [auto|]. intros x Hx. apply sunion_In. auto. Qed.
Lemma sof_In x l : In x (sof eqb l) <-> In x l. Proof. unfold sof. rewrite sunion_In. cbn. tauto. Qed.
Lemma sof_NoDup l : NoDup (sof eqb l). Proof. apply sunion_NoDup. constructor. Qed.
End Sets.

Section Props.
Context {A : Type} (eqb : A -> A -> bool) (E : decides eqb).

Lemma pair_eqb_decides : decides (pair_eqb eqb).
Proof. intros [a b] [c d]. unfold pair_eqb. cbn. rewrite andb_true_iff, (E a c), (E b d). split; [intros [-> ->]; auto|intros H; injection H; auto]. Qed.
Lemma compose_In x w (r : list (A * A)) : In (x, w) (compose eqb r) <-> exists y, In (x, y) r /\ In (y, w) r.
Proof.
  unfold compose. rewrite in_flat_map. split.
  - intros ([a b] & H & H1). apply in_flat_map in H1 as ([c d] & H1 & H2). cbn in H2. destruct (eqb c b) eqn:Q; [|destruct H2]. apply E in Q. subst. destruct H2 as [H2|[]]. injection H2 as <- <-. eauto.
  - intros (y & H & H1). exists (x, y). split; [auto|]. apply in_flat_map. exists (y, w). split; [auto|]. cbn. rewrite (proj2 (E y y) eq_refl). now left.
Qed.

Definition nodes (r : list (A * A)) : list A := map fst r ++ map snd r.
Lemma trans_nodes (r : list (A * A)) x y : clos_trans A (rel_of r) x y -> In (x, y) (list_prod (nodes r) (nodes r)).
Proof.
  intros H. induction H as [x y H|x y z H1 IH1 H2 IH2]; apply in_prod_iff; unfold nodes.
  - split; apply in_app_iff; [left|right]; [apply (in_map fst _ _ H)|apply (in_map snd _ _ H)].
  - apply in_prod_iff in IH1, IH2. split; tauto.
Qed.
Lemma loop_correct (r : list (A * A)) : forall fuel c, NoDup c -> (forall x y, In (x, y) r -> In (x, y) c) -> (forall x y, In (x, y) c -> clos_trans A (rel_of r) x y) ->
  List.length (list_prod (nodes r) (nodes r)) < fuel + List.length c ->
  exists c', closure_loop eqb fuel c = Ok c' /\ NoDup c' /\ forall x y, In (x, y) c' <-> clos_trans A (rel_of r) x y.
Proof.
  intros fuel. induction fuel as [|fuel IH]; intros c N I1 I2 L.
  - exfalso. assert (List.length c <= List.length (list_prod (nodes r) (nodes r))); [|lia]. apply NoDup_incl_length; [auto|]. intros [x y] H. apply trans_nodes, I2, H.
  - cbn [closure_loop]. pose proof pair_eqb_decides as PE. destruct (Nat.eqb _ _) eqn:Q.
    + apply Nat.eqb_eq in Q. apply (sunion_same _ PE _ _ N) in Q. exists c. split; [auto|]. split; [auto|]. intros x y. split; [auto|]. intros H. induction H as [x y H|x y z H1 IH1 H2 IH2]; [auto|]. apply Q, compose_In. eauto.
    + apply Nat.eqb_neq in Q. pose proof (sunion_grows _ PE (compose eqb c) c N). apply IH.
      * now apply sunion_NoDup.
      * intros x y H1. apply (sunion_In _ PE). auto.
      * intros x y H1. apply (sunion_In _ PE) in H1 as [H1|H1]; [auto|]. apply compose_In in H1 as (z & H1 & H2). eapply t_trans; eauto.
      * lia.
Qed.
(** [transitive_closure] terminates after at most (number of nodes)^2 + 1 iterations and returns the transitive closure. *)
Theorem C33_transitive_closure (elements : list (A * A)) : exists c,
  (forall fuel, List.length (list_prod (nodes elements) (nodes elements)) < fuel -> transitive_closure eqb fuel elements = Ok c) /\
  NoDup c /\ forall x y, In (x, y) c <-> clos_trans A (rel_of elements) x y.
Proof.
  assert (H : forall fuel, List.length (list_prod (nodes elements) (nodes elements)) < fuel -> exists c', transitive_closure eqb fuel elements = Ok c' /\ NoDup c' /\ forall x y, In (x, y) c' <-> clos_trans A (rel_of elements) x y).
  { intros fuel L. apply loop_correct; [apply sof_NoDup, pair_eqb_decides| | |lia]; intros x y H. - apply (sof_In _ pair_eqb_decides). auto. - rewrite (sof_In _ pair_eqb_decides) in H. apply t_step. exact H. }
  destruct (H _ (Nat.lt_succ_diag_r _)) as (c & Hc & P). exists c. split; [|auto]. intros fuel L. clear H P.
  assert (M : forall n k r, closure_loop eqb n r = Ok c -> n <= k -> closure_loop eqb k r = Ok c).
  { induction n as [|n IH]; intros k r H L1; [discriminate|]. destruct k as [|k]; [lia|]. cbn [closure_loop] in *. destruct (Nat.eqb _ _); [auto|]. apply IH; [auto|lia]. }
  apply (M _ _ _ Hc). lia.
Qed.
(** In particular it is the least transitive relation that contains the given pairs. *)
Theorem C33_least (elements : list (A * A)) fuel c : transitive_closure eqb fuel elements = Ok c ->
  incl elements c /\ (forall x y z, In (x, y) c -> In (y, z) c -> In (x, z) c) /\
  forall t, incl elements t -> (forall x y z, In (x, y) t -> In (y, z) t -> In (x, z) t) -> incl c t.
Proof.
  intros H. destruct (C33_transitive_closure elements) as (c0 & H0 & _ & P).
  assert (c0 = c) as ->.
  { assert (M : forall n k r, closure_loop eqb n r = Ok c -> n <= k -> closure_loop eqb k r = Ok c).
    { induction n as [|n IH]; intros k r H1 L1; [discriminate|]. destruct k as [|k]; [lia|]. cbn [closure_loop] in *. destruct (Nat.eqb _ _); [auto|]. apply IH; [auto|lia]. }
    specialize (H0 (fuel + S (List.length (list_prod (nodes elements) (nodes elements)))) ltac:(lia)). unfold transitive_closure in *. rewrite (M _ _ _ H) in H0 by lia. congruence. }
  split; [|split].
  - intros [x y] Hx. apply P. apply t_step; assumption.
  - intros x y z H1 H2. apply P in H1, H2. apply P. eapply t_trans; eauto.
  - intros t I T [x y] Hx. apply P in Hx. induction Hx; [apply I; auto|eauto].
Qed.

(** * Distances *)
Lemma dist_set d t z x : dist_of eqb (dset eqb d t z) x = if eqb t x then z else dist_of eqb d x.
Proof. unfold dist_of. rewrite (dget_dset eqb E). destruct (eqb t x); auto. Qed.
Lemma adjacent_In r s t : In t (adjacent eqb r s) <-> In (s, t) r.
Proof.
  unfold adjacent. rewrite in_flat_map. split.
  - intros ([a b] & H & H1). cbn in H1. destruct (eqb a s) eqn:Q; [|destruct H1]. apply E in Q. destruct H1 as [<-|[]]. now subst.
  - intros H. exists (s, t). cbn. rewrite (proj2 (E s s) eq_refl). cbn. auto.
Qed.
Variables (r : list (A * A)) (c1s : list A) (V : list A).
(** Every entry is the length of a path from [c1s]. *)
Definition sound (d : list (A * Z)) : Prop := forall x z, dget eqb d x = Some z -> (0 <= z < maxsize)%Z /\ exists c, In c c1s /\ path r (Z.to_nat z) c x.
Definition total (d : list (A * Z)) : Z := fold_right (fun x n => (dist_of eqb d x + n)%Z) 0%Z V.
Lemma sound_le d x : sound d -> (0 <= dist_of eqb d x <= maxsize)%Z.
Proof. intros S. unfold dist_of. destruct (dget eqb d x) as [z|] eqn:H; [destruct (S _ _ H) as [B _]; lia|]. unfold maxsize. lia. Qed.
Lemma path_snoc n x y z : path r n x y -> In (y, z) r -> path r (S n) x z.
Proof. intros H. induction H as [x|n x y' z' H0 H IH]; intros Hz; [econstructor; [eauto|constructor]|econstructor; eauto]. Qed.
Lemma total_set d t z : In t V -> (z < dist_of eqb d t)%Z -> (total (dset eqb d t z) <= total d - 1)%Z.
Proof.
  intros Ht Hz. unfold total.
  assert (G : forall l, (fold_right (fun x n => (dist_of eqb (dset eqb d t z) x + n)%Z) 0%Z l <= fold_right (fun x n => (dist_of eqb d x + n)%Z) 0%Z l)%Z).
  { induction l as [|x l IH]; cbn; [lia|]. rewrite dist_set. destruct (eqb t x) eqn:Q; [apply E in Q; subst|]; lia. }
  revert Ht. clear - Hz G E. induction V as [|x l IH]; [intros []|]. intros [->|H]; cbn; rewrite dist_set.
  - rewrite (proj2 (E t t) eq_refl). specialize (G l). lia.
  - specialize (IH H). destruct (eqb t x) eqn:Q; [apply E in Q; subst|]; lia.
Qed.
Lemma relax_spec s D : forall ts d q d' q', relax eqb s (D + 1)%Z ts d q = (d', q') -> sound d -> dist_of eqb d s = D -> (forall t, In t ts -> In (s, t) r /\ In t V) ->
  sound d' /\ dist_of eqb d' s = D /\ (forall x, (dist_of eqb d' x <= dist_of eqb d x)%Z) /\ (forall t, In t ts -> (dist_of eqb d' t <= D + 1)%Z) /\
  (forall x, ~ In x q' -> ~ In x q /\ dist_of eqb d' x = dist_of eqb d x) /\ (2 * total d' + Z.of_nat (List.length q') <= 2 * total d + Z.of_nat (List.length q))%Z.
Proof.
  induction ts as [|t ts IH]; intros d q d' q' H S Hs HT; cbn [relax] in H.
  - injection H as <- <-. split; [auto|]. split; [auto|]. split; [intros; lia|]. split; [intros t []|]. split; [auto|lia].
  - destruct (HT t (or_introl eq_refl)) as [Hr HV]. destruct (Z.ltb _ _) eqn:L.
    + apply Z.ltb_lt in L. rewrite Hs in H. pose proof (sound_le d t S) as LT. pose proof (sound_le d s S) as LS.
      assert (Q : eqb t s = false). { destruct (eqb t s) eqn:Q; [|auto]. apply E in Q. subst. lia. }
      assert (S1 : sound (dset eqb d t (D + 1)%Z)).
      { intros x z. rewrite (dget_dset eqb E). destruct (eqb t x) eqn:Qx; [|apply S]. apply E in Qx. subst x. intros X. injection X as <-. split; [lia|].
        unfold dist_of in Hs. destruct (dget eqb d s) as [z|] eqn:Hd; [|lia]. subst z. destruct (S _ _ Hd) as (BD & c & Hc & P). exists c. split; [auto|].
        replace (Z.to_nat (D + 1)) with (Datatypes.S (Z.to_nat D)) by lia. eapply path_snoc; eauto. }
      destruct (IH _ _ _ _ H S1) as (R1 & R2 & R3 & R4 & R5 & R6). { rewrite dist_set, Q. auto. } { intros t' H'. apply HT. right; auto. }
      assert (R7 : forall x, (dist_of eqb d' x <= dist_of eqb d x)%Z). { intros x. specialize (R3 x). rewrite dist_set in R3. destruct (eqb t x) eqn:Qx; [apply E in Qx; subst x|]; lia. }
      split; [auto|]. split; [auto|]. split; [auto|]. split; [|split].
      * intros t' [<-|H']; [|auto]. specialize (R3 t). rewrite dist_set, (proj2 (E t t) eq_refl) in R3. lia.
      * intros x Hx. destruct (R5 x Hx) as [Hx1 Hx2]. rewrite in_app_iff in Hx1. split; [tauto|]. rewrite Hx2, dist_set. destruct (eqb t x) eqn:Qx; [|auto]. apply E in Qx. subst. exfalso. apply Hx1. right. now left.
      * rewrite app_length in R6. cbn [List.length] in R6. pose proof (total_set d t (D + 1)%Z HV L). lia.
    + apply Z.ltb_ge in L. destruct (IH _ _ _ _ H S Hs) as (R1 & R2 & R3 & R4 & R5 & R6). { intros t' H'. apply HT. right; auto. }
      split; [auto|]. split; [auto|]. split; [auto|]. split; [|auto]. intros t' [<-|H']; [|auto]. specialize (R3 t). lia.
Qed.
Definition settled (d : list (A * Z)) (q : list A) : Prop := forall s, ~ In s q -> forall t, In (s, t) r -> (dist_of eqb d t <= dist_of eqb d s + 1)%Z.
Lemma total_nonneg d : sound d -> (0 <= total d)%Z.
Proof. intros S. unfold total. generalize V. induction V0 as [|x l IH]; cbn; [lia|]. pose proof (sound_le d x S). lia. Qed.
Lemma bfs_correct : (forall s t, In (s, t) r -> In t V) -> forall fuel d q, sound d -> settled d q -> (forall c, In c c1s -> dist_of eqb d c = 0%Z) ->
  (2 * total d + Z.of_nat (List.length q) <= Z.of_nat fuel)%Z ->
  exists d', bfs_loop eqb fuel r d q = Ok d' /\ sound d' /\ settled d' [] /\ forall c, In c c1s -> dist_of eqb d' c = 0%Z.
Proof.
  intros HV fuel. induction fuel as [|fuel IH]; intros d q S T Z0 M; pose proof (total_nonneg d S) as NN.
  - destruct q; [|cbn [List.length] in M; lia]. exists d. cbn. auto.
  - destruct q as [|s q]; [exists d; cbn; auto|]. cbn [bfs_loop]. destruct (relax _ _ _ _ _ _) as [d' q'] eqn:R.
    destruct (relax_spec s _ _ _ _ _ _ R S eq_refl) as (R1 & R2 & R3 & R4 & R5 & R6). { intros t Ht. apply adjacent_In in Ht. split; [auto|eauto]. }
    apply IH; [auto| | |cbn [List.length] in M; lia].
    + intros x Hx t Ht. destruct (R5 x Hx) as [Hx1 Hx2]. destruct (eqb x s) eqn:Q.
      * apply E in Q. subst x. rewrite R2. apply R4. now apply adjacent_In.
      * assert (~ In x (s :: q)). { intros [->|H]; [rewrite (proj2 (E x x) eq_refl) in Q; discriminate|auto]. } specialize (T x H t Ht). specialize (R3 t). lia.
    + intros c Hc. specialize (Z0 c Hc). specialize (R3 c). pose proof (sound_le d' c R1). lia.
Qed.
Lemma init_spec : forall c d q, incl c c1s -> sound d -> sound (fst (init_queue eqb c d q)) /\ (forall x, In x c \/ dist_of eqb d x = 0%Z -> dist_of eqb (fst (init_queue eqb c d q)) x = 0%Z) /\
  (forall x, In x q \/ In x c -> In x (snd (init_queue eqb c d q))) /\ (forall x, ~ In x c -> dist_of eqb (fst (init_queue eqb c d q)) x = dist_of eqb d x).
Proof.
  induction c as [|a c IH]; intros d q I S; cbn [init_queue].
  - cbn. split; [auto|]. split; [tauto|]. split; [tauto|auto].
  - destruct (IH (dset eqb d a 0%Z) (q ++ [a])) as (H1 & H2 & H3 & H4). { intros x Hx. apply I. right; auto. }
    { intros x z. rewrite (dget_dset eqb E). destruct (eqb a x) eqn:Q; [|apply S]. apply E in Q. subst. intros X. injection X as <-. split; [unfold maxsize; lia|]. exists x. split; [apply I; now left|constructor]. }
    split; [auto|]. split; [|split].
    + intros x Hx. apply H2. rewrite dist_set. destruct (eqb a x) eqn:Q; [auto|]. destruct Hx as [[->|Hx]|Hx]; auto. rewrite (proj2 (E x x) eq_refl) in Q. discriminate.
    + intros x Hx. apply H3. rewrite in_app_iff. cbn in *. tauto.
    + intros x Hx. cbn in Hx. rewrite H4 by tauto. rewrite dist_set. destruct (eqb a x) eqn:Q; [|auto]. apply E in Q. subst. tauto.
Qed.
Lemma settled_path d : settled d [] -> forall n x y, path r n x y -> (dist_of eqb d y <= dist_of eqb d x + Z.of_nat n)%Z.
Proof. intros T n x y H. induction H as [x|n x y z H0 H IH]; [lia|]. specialize (T x (fun F => F) y H0). lia. Qed.
Lemma min_list_spec l : forall d, (min_list l d <= d)%Z /\ (forall x, In x l -> (min_list l d <= x)%Z) /\ (min_list l d = d \/ In (min_list l d) l).
Proof.
  induction l as [|y l IH]; intros d; cbn [min_list]; [split; [lia|split; [intros x []|auto]]|]. destruct (IH d) as (H1 & H2 & H3). split; [lia|]. split.
  - intros x [->|Hx]; [lia|]. specialize (H2 x Hx). lia.
  - destruct (Z.min_spec y (min_list l d)) as [[_ ->]|[_ ->]]; [right; now left|]. destruct H3 as [H3|H3]; [auto|right; now right].
Qed.
End Props.

(** The result [n] is [sys.maxsize] or the length of a path from [c1s] to [c2s], and no path from [c1s] to [c2s] is shorter. The loop terminates. *)
Theorem C34_min_distance {A} (eqb : A -> A -> bool) (E : decides eqb) c1s relation c2s : exists n fuel0,
  (forall fuel, fuel0 <= fuel -> compute_min_distance eqb fuel c1s relation c2s = Ok n) /\
  (0 <= n <= maxsize)%Z /\ (n = maxsize \/ connects relation c1s c2s (Z.to_nat n)) /\ (forall k, connects relation c1s c2s k -> (n <= Z.of_nat k)%Z).
Proof.
  unfold compute_min_distance. destruct (existsb _ c1s) eqn:X.
  { exists 0%Z, 0. split; [auto|]. split; [unfold maxsize; lia|]. split; [|intros; lia]. right. apply existsb_exists in X as (x & H1 & H2). apply (smem_In _ E) in H2. exists x, x. split; [auto|]. split; [auto|constructor]. }
  assert (DJ : forall x, In x c1s -> In x c2s -> False). { intros x H1 H2. assert (existsb (fun x => smem eqb x c2s) c1s = true); [|congruence]. apply existsb_exists. exists x. split; [auto|]. now apply (smem_In _ E). }
  assert (B : c1s = [] \/ c2s = [] \/ relation = [] -> exists n fuel0, (forall fuel : nat, fuel0 <= fuel -> Ok maxsize = Ok n) /\ (0 <= n <= maxsize)%Z /\ (n = maxsize \/ connects relation c1s c2s (Z.to_nat n)) /\ (forall k, connects relation c1s c2s k -> (n <= Z.of_nat k)%Z)).
  { intros H. exists maxsize, 0. split; [auto|]. split; [unfold maxsize; lia|]. split; [auto|]. intros k (x & y & H1 & H2 & P). exfalso. destruct H as [-> |[-> | ->]]; [destruct H1|destruct H2|]. destruct P as [x|k x z y F _]; [eauto|destruct F]. }
  destruct c1s as [|a c1]; [apply B; auto|]. destruct c2s as [|o os]; [apply B; auto|]. destruct relation as [|e rel]; [apply B; auto|]. clear B X.
  set (r := e :: rel) in *. set (c1s := a :: c1) in *. destruct (init_queue eqb c1s [] []) as [d q] eqn:I.
  destruct (init_spec eqb E r c1s c1s [] [] (incl_refl _)) as (S & I2 & I3 & I4). { intros x z F. discriminate. } rewrite I in *. cbn [fst snd] in *.
  assert (T : settled eqb r d q).
  { intros s Hs t Ht. pose proof (sound_le eqb r c1s d t S). assert (~ In s c1s) by (intros F; apply Hs, I3; auto). rewrite (I4 s H0). cbn. unfold maxsize in *. lia. }
  set (F0 := Z.to_nat (2 * total eqb (map snd r) d + Z.of_nat (List.length q))).
  assert (G : forall fuel, F0 <= fuel -> exists d', bfs_loop eqb fuel r d q = Ok d' /\ sound eqb r c1s d' /\ settled eqb r d' [] /\ forall c, In c c1s -> dist_of eqb d' c = 0%Z).
  { intros fuel L. apply (bfs_correct eqb E r c1s (map snd r)); auto.
    - intros s t H. apply (in_map snd _ _ H).
    - pose proof (total_nonneg eqb r c1s (map snd r) d S). unfold F0 in L. lia. }
  destruct (G F0 (le_n _)) as (d' & Hd & S' & T' & Z').
  assert (M : forall n k d q d', bfs_loop eqb n r d q = Ok d' -> n <= k -> bfs_loop eqb k r d q = Ok d').
  { clear. induction n as [|n IH]; intros k d q d' H L; destruct q as [|s q]; [destruct k; exact H|discriminate|destruct k; exact H|]. destruct k as [|k]; [lia|]. cbn [bfs_loop] in *. destruct (relax _ _ _ _ _ _). apply IH; [auto|lia]. }
  exists (min_list (map (dist_of eqb d') os) (dist_of eqb d' o)), F0. split; [|split; [|split]].
  - intros fuel L. rewrite (M _ _ _ _ _ Hd L). reflexivity.
  - destruct (min_list_spec (map (dist_of eqb d') os) (dist_of eqb d' o)) as (H1 & H2 & H3). pose proof (sound_le eqb r c1s d' o S'). destruct H3 as [->|H3]; [auto|]. apply in_map_iff in H3 as (y & <- & _). apply (sound_le eqb r c1s d' y S').
  - destruct (min_list_spec (map (dist_of eqb d') os) (dist_of eqb d' o)) as (_ & _ & H3).
    assert (Q : exists y, In y (o :: os) /\ min_list (map (dist_of eqb d') os) (dist_of eqb d' o) = dist_of eqb d' y). { destruct H3 as [H3|H3]; [exists o; split; [now left|auto]|]. apply in_map_iff in H3 as (y & H3 & Hy). exists y. split; [now right|auto]. }
    destruct Q as (y & Hy & ->). unfold dist_of. destruct (dget eqb d' y) as [z|] eqn:Dz; [|auto]. right. destruct (S' _ _ Dz) as (_ & c & Hc & P). exists c, y. auto.
  - intros k (x & y & Hx & Hy & P). pose proof (settled_path eqb r d' T' _ _ _ P) as L. rewrite (Z' x Hx) in L. destruct (min_list_spec (map (dist_of eqb d') os) (dist_of eqb d' o)) as (H1 & H2 & _). destruct Hy as [<-|Hy]; [lia|]. specialize (H2 _ (in_map _ _ _ Hy)). lia.
Qed.
(** The distance is [sys.maxsize] exactly when no target can be reached by a path shorter than that. *)
Theorem C34_unreachable {A} (eqb : A -> A -> bool) (E : decides eqb) c1s relation c2s fuel : compute_min_distance eqb fuel c1s relation c2s = Ok maxsize -> forall k, connects relation c1s c2s k -> (maxsize <= Z.of_nat k)%Z.
Proof.
  intros H. destruct (C34_min_distance eqb E c1s relation c2s) as (n & f0 & Hn & B & _ & L).
  assert (n = maxsize) as ->; [|auto]. specialize (Hn (fuel + f0) ltac:(lia)). revert H Hn. unfold compute_min_distance. destruct (existsb _ c1s); [congruence|]. destruct c1s; [congruence|]. destruct c2s; [congruence|]. destruct relation as [|e rel]; [congruence|]. destruct (init_queue _ _ _ _) as [d q].
  assert (M : forall n k d q d', bfs_loop eqb n (e :: rel) d q = Ok d' -> n <= k -> bfs_loop eqb k (e :: rel) d q = Ok d').
  { clear. induction n as [|n IH]; intros k d q d' H L; destruct q as [|s q]; [destruct k; exact H|discriminate|destruct k; exact H|]. destruct k as [|k]; [lia|]. cbn [bfs_loop] in *. destruct (relax _ _ _ _ _ _). apply IH; [auto|lia]. }
  destruct (bfs_loop eqb fuel (e :: rel) d q) as [d'|] eqn:F; [|discriminate]. rewrite (M _ _ _ _ _ F) by lia. cbn [bind]. congruence.
Qed.
(** A relation with a cycle: closure and distances *)
Example C33_C34_example :
  (exists c, transitive_closure Nat.eqb 20 [(1, 2); (2, 3); (3, 1); (4, 1)] = Ok c /\ List.length c = 12) /\
  compute_min_distance Nat.eqb 20 [4; 7] [(1, 2); (2, 3); (3, 1); (4, 1)] [3; 9] = Ok 3%Z /\ compute_min_distance Nat.eqb 20 [1] [(1, 2); (2, 3); (3, 1); (4, 1)] [4] = Ok maxsize /\ decides Nat.eqb.
Proof. split; [eexists; split; reflexivity|]. split; [reflexivity|]. split; [reflexivity|]. exact Nat.eqb_eq. Qed.
