(** C36: the acyclicity test decides the existence of a join tree *)
From Coq Require Import Permutation Operators_Properties.
From Verif Require Import Base ListUtil ModelState ModelProofs Algorithms AlgorithmsSpec PropsAlgorithms Csp CspSpec.

Section Reduce.
Context {A : Type}.
Notation family := (list (nat * list A)).
Definition rm (i : nat) (F : family) : family := filter (fun e => negb (Nat.eqb (fst e) i)) F.
Lemma rm_In i j (e : list A) F : In (j, e) (rm i F) <-> In (j, e) F /\ j <> i.
Proof. unfold rm. rewrite filter_In, negb_true_iff. cbn. rewrite Nat.eqb_neq. tauto. Qed.
Lemma rm_comm i j (F : family) : rm i (rm j F) = rm j (rm i F).
Proof. unfold rm. induction F as [|e F IH]; [auto|]. cbn. destruct (Nat.eqb (fst e) j) eqn:Q; destruct (Nat.eqb (fst e) i) eqn:Q'; cbn; rewrite ?Q, ?Q'; cbn; congruence. Qed.
Lemma rm_NoDup i (F : family) : NoDup (ids F) -> NoDup (ids (rm i F)).
Proof.
  unfold ids, rm. induction F as [|e F IH]; [auto|]. cbn. intros H. inversion H; subst. destruct (negb _); [|auto]. cbn. constructor; [|auto]. intros X. apply H2. apply in_map_iff in X as (y & X & Hy). apply filter_In in Hy as [Hy _]. rewrite <- X. now apply in_map.
Qed.
Lemma ids_In i (F : family) : In i (ids F) <-> exists e, In (i, e) F.
Proof. unfold ids. rewrite in_map_iff. split; [intros ([a b] & <- & H); exists b; auto|intros (e & H); exists (i, e); auto]. Qed.
Lemma ids_fun i e e' (F : family) : NoDup (ids F) -> In (i, e) F -> In (i, e') F -> e = e'.
Proof.
  induction F as [|[j g] F IH]; [intros _ []|]. cbn. intros H. inversion H; subst. intros [X|X] [Y|Y]; [congruence| | |auto].
  - injection X as -> ->. exfalso. apply H2. apply (in_map fst) in Y. exact Y.
  - injection Y as -> ->. exfalso. apply H2. apply (in_map fst) in X. exact X.
Qed.
Lemma rm_length i e (F : family) : NoDup (ids F) -> In (i, e) F -> List.length F = S (List.length (rm i F)).
Proof.
  induction F as [|[j g] F IH]; [intros _ []|]. cbn. intros H. inversion H; subst. intros [X|X].
  - injection X as -> ->. rewrite Nat.eqb_refl. cbn. f_equal. f_equal. symmetry. fold (rm i F). clear - H2. induction F as [|[j g] F IH]; [auto|]. cbn in *. destruct (Nat.eqb j i) eqn:Q; [apply Nat.eqb_eq in Q; subst; tauto|]. cbn. f_equal. apply IH. tauto.
  - destruct (Nat.eqb j i) eqn:Q; [apply Nat.eqb_eq in Q; subst; exfalso; apply H2; apply (in_map fst) in X; exact X|]. cbn. f_equal. auto.
Qed.

(** [k] witnesses that edge [i] is an ear. *)
Definition ear (F : family) (i k : nat) : Prop := i <> k /\ exists f f', In (i, f) F /\ In (k, f') F /\ forall v j g, In v f -> In (j, g) F -> j <> i -> In v g -> In v f'.
Inductive red : family -> Prop :=
| red_small F : List.length F <= 1 -> red F
| red_ear F i k : ear F i k -> red (rm i F) -> red F.

Lemma small_rm i (F : family) : List.length F <= 1 -> List.length (rm i F) <= 1.
Proof. intros H. unfold rm. assert (Q : forall l : family, List.length (filter (fun e => negb (Nat.eqb (fst e) i)) l) <= List.length l) by (induction l as [|x l IH]; cbn; [lia|destruct (negb _); cbn; lia]). specialize (Q F). lia. Qed.

(** Reducibility only depends on the intersections of different edges. *)
Lemma red_iso F : red F -> forall F' (h : nat * list A -> nat * list A), NoDup (ids F) -> NoDup (ids F') -> (forall x, In x F -> In (h x) F') -> (forall y, In y F' -> exists x, In x F /\ y = h x) ->
  (forall x y, In x F -> In y F -> fst (h x) = fst (h y) -> fst x = fst y) ->
  (forall x y, In x F -> In y F -> fst x <> fst y -> forall v, (In v (snd x) /\ In v (snd y)) <-> (In v (snd (h x)) /\ In v (snd (h y)))) -> red F'.
Proof.
  intros R. induction R as [F L|F i k (Hik & f & f' & Hf & Hf' & C) R IH]; intros F' h N N' H1 H2 HI HV.
  - apply red_small. transitivity (List.length (map h F)); [|now rewrite map_length]. apply NoDup_incl_length; [apply (NoDup_map_inv fst); exact N'|]. intros y Hy. destruct (H2 y Hy) as (x & Hx & ->). now apply in_map.
  - assert (Q : forall x y, In x F -> In y F -> fst x <> fst y -> fst (h x) <> fst (h y)) by (intros x y Hx Hy Hn X; apply Hn, HI; auto).
    apply (red_ear F' (fst (h (i, f))) (fst (h (k, f')))).
    + split; [apply Q; auto|]. exists (snd (h (i, f))), (snd (h (k, f'))). rewrite <- !surjective_pairing. split; [auto|]. split; [auto|]. intros v j g Hv Hg Hj Hvg. destruct (H2 _ Hg) as ([a b] & Ha & E).
      assert (Hai : a <> i). { intros ->. rewrite (ids_fun i b f F N Ha Hf) in E. rewrite <- E in Hj. cbn in Hj. auto. }
      destruct (proj2 (HV (i, f) (a, b) Hf Ha (fun X => Hai (eq_sym X)) v)) as [V1 V2]. { rewrite <- E. auto. } cbn in V1, V2.
      pose proof (C v a b V1 Ha Hai V2) as V3. destruct (Nat.eq_dec a k) as [->|Hak].
      * rewrite (ids_fun k f' b F N Hf' Ha). rewrite <- E. auto.
      * apply (HV (i, f) (k, f') Hf Hf' Hik v). auto.
    + apply (IH (rm (fst (h (i, f))) F') h); [now apply rm_NoDup|now apply rm_NoDup| | | |].
      * intros [a b] Hx. apply rm_In in Hx as [Hx Hn]. rewrite (surjective_pairing (h (a, b))). apply rm_In. rewrite <- surjective_pairing. split; [auto|]. apply Q; auto.
      * intros [a b] Hy. apply rm_In in Hy as [Hy Hn]. destruct (H2 _ Hy) as ([c d] & Hx & E). exists (c, d). split; [|auto]. apply rm_In. split; [auto|]. intros ->. rewrite (ids_fun i d f F N Hx Hf) in E. rewrite <- E in Hn. auto.
      * intros [a b] [c d] Hx Hy. apply rm_In in Hx as [Hx _]. apply rm_In in Hy as [Hy _]. apply HI; auto.
      * intros [a b] [c d] Hx Hy. apply rm_In in Hx as [Hx _]. apply rm_In in Hy as [Hy _]. apply HV; auto.
Qed.

(** Any ear can be removed first. *)
Lemma red_confluent F : NoDup (ids F) -> red F -> forall i k, ear F i k -> red (rm i F).
Proof.
  intros N R. revert N. induction R as [F L|F i0 k0 E0 R IH]; intros N i k E.
  - apply red_small, small_rm, L.
  - destruct (Nat.eq_dec i i0) as [->|Hi]; [auto|].
    assert (Sub : forall i k i' k', ear F i k -> ear F i' k' -> i <> i' -> ~ (k = i' /\ k' = i) -> exists k2, ear (rm i' F) i k2).
    { clear - N. intros i k i' k' (Hik & f & f' & Hf & Hf' & C) (Hik' & g & g' & Hg & Hg' & C') Hii Hn. destruct (Nat.eq_dec k i') as [->|Hk].
      - assert (k' <> i) by tauto. exists k'. split; [auto|]. exists f, g'. split; [apply rm_In; auto|]. split; [apply rm_In; auto|]. intros v j x Hv Hx Hj Hvx. apply rm_In in Hx as [Hx Hji]. apply (C' v j x); auto. rewrite (ids_fun i' g f' F N Hg Hf'). apply (C v j x); auto.
      - exists k. split; [auto|]. exists f, f'. split; [apply rm_In; auto|]. split; [apply rm_In; auto|]. intros v j x Hv Hx Hj Hvx. apply rm_In in Hx as [Hx _]. eauto. }
    destruct (Nat.eq_dec k i0) as [Hk|Hk]; [destruct (Nat.eq_dec k0 i) as [Hk0|Hk0]|].
    + subst k k0. destruct E as (_ & f & e & Hf & He & C). destruct E0 as (_ & e' & f' & He' & Hf' & C'). pose proof (ids_fun _ _ _ _ N He He'). subst e'. pose proof (ids_fun _ _ _ _ N Hf Hf'). subst f'.
      apply (red_iso (rm i0 F) R (rm i F) (fun x => if Nat.eqb (fst x) i then (i0, e) else x)); [now apply rm_NoDup|now apply rm_NoDup| | | |].
      * intros [a b] H. apply rm_In in H as [H Hn]. cbn. destruct (Nat.eqb a i) eqn:Q; apply rm_In; [auto|]. apply Nat.eqb_neq in Q. auto.
      * intros [a b] H. apply rm_In in H as [H Hn]. destruct (Nat.eq_dec a i0) as [->|Ha].
        -- exists (i, f). cbn. rewrite Nat.eqb_refl. split; [apply rm_In; auto|]. f_equal. apply (ids_fun _ _ _ _ N H He).
        -- exists (a, b). cbn. rewrite (proj2 (Nat.eqb_neq a i)) by auto. split; [apply rm_In; auto|auto].
      * intros [a b] [c d] H H'. apply rm_In in H as [H Hn]. apply rm_In in H' as [H' Hn']. cbn. destruct (Nat.eqb a i) eqn:Qa, (Nat.eqb c i) eqn:Qc; try apply Nat.eqb_eq in Qa; try apply Nat.eqb_eq in Qc; cbn; intros X; subst; auto; contradiction.
      * assert (Z : forall a b, In (a, b) F -> a <> i -> a <> i0 -> forall v, (In v f /\ In v b) <-> (In v e /\ In v b)).
        { intros a b Ha H1 H2 v. split; intros [V1 V2]; (split; [|auto]); [apply (C v a b)|apply (C' v a b)]; auto. }
        intros [a b] [c d] H H' Hne v. apply rm_In in H as [H Hn]. apply rm_In in H' as [H' Hn']. cbn in Hne. cbn [fst snd]. destruct (Nat.eqb a i) eqn:Qa; destruct (Nat.eqb c i) eqn:Qc; try apply Nat.eqb_eq in Qa; try apply Nat.eqb_eq in Qc; cbn [fst snd].
        -- subst. contradiction.
        -- subst. rewrite (ids_fun _ _ _ _ N H Hf). apply (Z c d); auto.
        -- subst. rewrite (ids_fun _ _ _ _ N H' Hf). specialize (Z a b H ltac:(auto) Hn v). tauto.
        -- tauto.
    + destruct (Sub i k i0 k0 E E0 Hi) as (k2 & E2); [tauto|]. destruct (Sub i0 k0 i k E0 E (fun X => Hi (eq_sym X))) as (k3 & E3); [tauto|].
      apply (red_ear _ i0 k3); [auto|]. rewrite rm_comm. apply (IH (rm_NoDup _ _ N) _ _ E2).
    + destruct (Sub i k i0 k0 E E0 Hi) as (k2 & E2); [tauto|]. destruct (Sub i0 k0 i k E0 E (fun X => Hi (eq_sym X))) as (k3 & E3); [tauto|].
      apply (red_ear _ i0 k3); [auto|]. rewrite rm_comm. apply (IH (rm_NoDup _ _ N) _ _ E2).
Qed.
Lemma red_rm F i k : NoDup (ids F) -> ear F i k -> (red F <-> red (rm i F)).
Proof. intros N E. split; intros H; [eapply red_confluent; eauto|eapply red_ear; eauto]. Qed.

(** * Reducible families are those with a join tree *)
Lemma linked_trans T P i j k : linked T P i j -> linked T P j k -> linked T P i k. Proof. intros. eapply rt_trans; eauto. Qed.
Lemma linked_sym T P i j : linked T P i j -> linked T P j i.
Proof. intros H. induction H as [i j [H HP]|i|i j k _ H1 _ H2]; [|apply rt_refl|eapply rt_trans; eauto]. apply rt_step. split; tauto. Qed.
Lemma linked_mono T T' (P P' : nat -> Prop) i j : incl T T' -> (forall x, P x -> P' x) -> linked T P i j -> linked T' P' i j.
Proof. intros HT HP H. induction H as [i j [H [H1 H2]]|i|i j k _ H1 _ H2]; [|apply rt_refl|eapply rt_trans; eauto]. apply rt_step. split; [|auto]. destruct H; auto. Qed.
Lemma add_leaf (F : family) i k : NoDup (ids F) -> ear F i k -> (exists T, join_tree (rm i F) T) -> exists T, join_tree F T.
Proof.
  intros N (Hik & f & f' & Hf & Hf' & C) (T & J). exists ((i, k) :: T). pose proof (rm_length _ _ _ N Hf) as L.
  assert (Hin : forall j, In j (ids F) -> j = i \/ In j (ids (rm i F))). { intros j Hj. apply ids_In in Hj as (e & Hj). destruct (Nat.eq_dec j i); [auto|]. right. apply ids_In. exists e. apply rm_In. auto. }
  assert (Hk : In k (ids (rm i F))). { apply ids_In. exists f'. apply rm_In. auto. }
  constructor.
  - intros a b [X|X].
    + injection X as <- <-. split; apply ids_In; eauto.
    + destruct (jt_vertices _ _ J _ _ X) as [Ha Hb]. apply ids_In in Ha as (x & Ha). apply ids_In in Hb as (y & Hb). apply rm_In in Ha as [Ha _]. apply rm_In in Hb as [Hb _]. split; apply ids_In; eauto.
  - cbn. rewrite (jt_count _ _ J). assert (0 < List.length (rm i F)); [|lia]. destruct (rm i F); [destruct Hk|cbn; lia].
  - assert (K : forall j, In j (ids F) -> linked ((i, k) :: T) (fun _ => True) j k).
    { intros j Hj. destruct (Hin j Hj) as [->|H]; [apply rt_step; split; [left; now left|auto]|]. eapply linked_mono; [|auto|apply (jt_connected _ _ J); auto]. intros x; now right. }
    intros a b Ha Hb. eapply linked_trans; [apply K; auto|]. apply linked_sym. apply K. auto.
  - intros v. assert (M : forall j, holds (rm i F) v j -> holds F v j) by (intros j (e & He & Hv); apply rm_In in He as [He _]; exists e; auto).
    assert (K : forall j, holds F v i -> holds (rm i F) v j -> linked ((i, k) :: T) (holds F v) i j).
    { intros j (e & He & Hv) (g & Hg & Hvg). rewrite (ids_fun _ _ _ _ N He Hf) in *. assert (Hj : In (j, g) F /\ j <> i) by (apply rm_In; auto). destruct Hj as [Hj Hji].
      assert (Vk : In v f') by (eapply C; eauto). apply linked_trans with k.
      - apply rt_step. split; [left; now left|]. split; [exists f; auto|exists f'; auto].
      - eapply linked_mono; [|exact M|apply (jt_running _ _ J v k j)]; [intros x; now right|exists f'; split; [apply rm_In; auto|auto]|exists g; auto]. }
    intros a b Ha Hb. assert (D : forall j, holds F v j -> j = i \/ holds (rm i F) v j). { intros j (e & He & Hv). destruct (Nat.eq_dec j i); [auto|]. right. exists e. split; [apply rm_In; auto|auto]. }
    destruct (D a Ha) as [->|Ha'], (D b Hb) as [->|Hb']; [apply rt_refl|auto|apply linked_sym; auto|]. eapply linked_mono; [|exact M|apply (jt_running _ _ J); auto]. intros x; now right.
Qed.
Lemma small_tree (F : family) : List.length F <= 1 -> exists T, join_tree F T.
Proof.
  intros L. exists []. destruct F as [|[i f] [|? ?]]; [| |cbn in L; lia].
  - constructor; [intros i j []|auto|intros i j []|intros v i j (e & [] & _)].
  - constructor; [intros a b []|auto| |].
    + intros a b [<-|[]] [<-|[]]. apply rt_refl.
    + intros v a b (e & [X|[]] & _) (e' & [Y|[]] & _). injection X as <- <-. injection Y as <- <-. apply rt_refl.
Qed.
Lemma red_tree (F : family) : NoDup (ids F) -> red F -> exists T, join_tree F T.
Proof. intros N R. revert N. induction R as [F L|F i k E R IH]; intros N; [now apply small_tree|]. eapply add_leaf; eauto. apply IH. now apply rm_NoDup. Qed.

(** Degrees *)
Definition touches (i : nat) (p : nat * nat) : nat := (if Nat.eqb (fst p) i then 1 else 0) + (if Nat.eqb (snd p) i then 1 else 0).
Definition deg (T : list (nat * nat)) (i : nat) : nat := list_sum (map (touches i) T).
Lemma sum_one a l : NoDup l -> In a l -> list_sum (map (fun i => if Nat.eqb a i then 1 else 0) l) = 1.
Proof.
  induction l as [|x l IH]; [intros _ []|]. intros N. inversion N; subst. intros [->|H]; cbn.
  - rewrite Nat.eqb_refl. f_equal. clear - H1. induction l as [|y l IH]; [auto|]. cbn in *. rewrite (proj2 (Nat.eqb_neq a y)) by (intros ->; tauto). cbn. apply IH. tauto.
  - rewrite (proj2 (Nat.eqb_neq a x)) by congruence. cbn. auto.
Qed.
Lemma sum_plus (f g : nat -> nat) l : list_sum (map (fun i => f i + g i) l) = list_sum (map f l) + list_sum (map g l).
Proof. induction l as [|x l IH]; cbn; [auto|]. fold (list_sum (map f l)) (list_sum (map g l)). unfold list_sum in *. lia. Qed.
Lemma degrees l : NoDup l -> forall T, (forall i j, In (i, j) T -> In i l /\ In j l) -> list_sum (map (deg T) l) = 2 * List.length T.
Proof.
  intros N T. induction T as [|[a b] T IH]; intros H.
  - clear. cbn. induction l as [|x l IH]; [auto|]. cbn. auto.
  - replace (map (deg ((a, b) :: T)) l) with (map (fun i => ((if Nat.eqb a i then 1 else 0) + (if Nat.eqb b i then 1 else 0)) + deg T i) l) by (apply map_ext; reflexivity).
    rewrite sum_plus, sum_plus, IH by (intros; apply H; now right). destruct (H a b) as [Ha Hb]; [now left|]. rewrite !sum_one by auto. cbn. lia.
Qed.
Lemma low_degree T l : list_sum (map (deg T) l) < 2 * List.length l -> exists i, In i l /\ deg T i <= 1.
Proof.
  induction l as [|x l IH]; cbn [map list_sum fold_right List.length]; [cbn; lia|]. intros H. destruct (le_lt_dec (deg T x) 1) as [L|L]; [exists x; split; [now left|auto]|].
  destruct IH as (i & Hi & Hd); [cbn in H; unfold list_sum in *; lia|]. exists i. split; [now right|auto].
Qed.
Lemma deg_app T1 T2 i : deg (T1 ++ T2) i = deg T1 i + deg T2 i. Proof. unfold deg. rewrite map_app, list_sum_app. auto. Qed.
Lemma deg_cons p T i : deg (p :: T) i = touches i p + deg T i. Proof. reflexivity. Qed.
Lemma deg_zero T i : deg T i = 0 -> forall a b, In (a, b) T -> a <> i /\ b <> i.
Proof.
  induction T as [|[x y] T IH]; [intros _ a b []|]. rewrite deg_cons. intros H a b [X|X]; [|apply IH; [lia|auto]]. injection X as -> ->. assert (H0 : touches i (a, b) = 0) by lia. unfold touches in H0. cbn in H0.
  destruct (Nat.eqb a i) eqn:Q; [discriminate|]. destruct (Nat.eqb b i) eqn:Q'; [discriminate|]. split; now apply Nat.eqb_neq.
Qed.
Lemma remove_leaf (F : family) i k T1 T2 p : NoDup (ids F) -> join_tree F (T1 ++ p :: T2) -> In i (ids F) -> In k (ids F) -> p = (i, k) \/ p = (k, i) -> k <> i -> (forall a b, In (a, b) (T1 ++ T2) -> a <> i /\ b <> i) -> ear F i k /\ join_tree (rm i F) (T1 ++ T2).
Proof.
  intros N J Hi Hk Hp Hki Hn. set (T := T1 ++ p :: T2) in *. apply ids_In in Hi as (f & Hf). apply ids_In in Hk as (f' & Hf').
  assert (HT : forall a b, In (a, b) T -> (a = i /\ b = k) \/ (a = k /\ b = i) \/ (a <> i /\ b <> i /\ In (a, b) (T1 ++ T2))).
  { intros a b H. unfold T in H. apply in_app_iff in H. cbn in H. destruct H as [H|[H|H]].
    - right. right. destruct (Hn a b); [apply in_app_iff; auto|]. split; [auto|]. split; [auto|apply in_app_iff; auto].
    - destruct Hp as [-> | ->]; injection H as <- <-; auto.
    - right. right. destruct (Hn a b); [apply in_app_iff; auto|]. split; [auto|]. split; [auto|apply in_app_iff; auto]. }
  set (phi := fun x => if Nat.eqb x i then k else x).
  assert (Phi : forall (P P' : nat -> Prop) a b, (forall x, x <> i -> P x -> P' x) -> linked T P a b -> linked (T1 ++ T2) P' (phi a) (phi b)).
  { intros P P' a b HP H. induction H as [a b [H [H1 H2]]|a|a b c _ IH1 _ IH2]; [|apply rt_refl|eapply rt_trans; eauto]. unfold phi. destruct H as [H|H]; apply HT in H as [[-> ->]|[[-> ->]|(Ha & Hb & H)]];
      rewrite ?Nat.eqb_refl, ?(proj2 (Nat.eqb_neq _ _) Hki), ?(proj2 (Nat.eqb_neq _ _) Ha), ?(proj2 (Nat.eqb_neq _ _) Hb); try apply rt_refl; apply rt_step; (split; [auto|split; auto]). }
  assert (Phi_ne : forall x, x <> i -> phi x = x). { intros x Hx. unfold phi. now rewrite (proj2 (Nat.eqb_neq _ _) Hx). }
  assert (Hf2 : forall a, In a (ids (rm i F)) -> In a (ids F) /\ a <> i). { intros a Ha. apply ids_In in Ha as (e & Ha). apply rm_In in Ha as [Ha Hai]. split; [apply ids_In; eauto|auto]. }
  split.
  - split; [auto|]. exists f, f'. split; [auto|]. split; [auto|]. intros v j g Hv Hg Hj Hvg. assert (L : linked T (holds F v) i j) by (apply (jt_running _ _ J); [exists f; auto|exists g; auto]).
    apply clos_rt_rt1n in L. inversion L as [|y z [Hs [H1 H2]] _]; subst; [contradiction|]. assert (y = k) as ->. { destruct Hs as [Hs|Hs]; apply HT in Hs as [[X Y]|[[X Y]|(X & Y & _)]]; congruence. }
    destruct H2 as (e & He & Hve). now rewrite (ids_fun _ _ _ _ N Hf' He).
  - constructor.
    + intros a b H. destruct (Hn a b H) as [Ha Hb]. destruct (jt_vertices _ _ J a b) as [Ia Ib]. { unfold T. apply in_app_iff in H. apply in_app_iff. cbn. tauto. }
      apply ids_In in Ia as (x & Ia). apply ids_In in Ib as (y & Ib). split; apply ids_In; eexists; apply rm_In; eauto.
    + pose proof (jt_count _ _ J) as X. unfold T in X. rewrite app_length in *. cbn in X. rewrite (rm_length _ _ _ N Hf) in X. cbn in X. lia.
    + intros a b Ha Hb. destruct (Hf2 _ Ha) as [Ha' Hai]. destruct (Hf2 _ Hb) as [Hb' Hbi]. rewrite <- (Phi_ne a), <- (Phi_ne b) by auto. apply (Phi (fun _ => True)); [auto|]. apply (jt_connected _ _ J); auto.
    + intros v a b (x & Hx & Vx) (y & Hy & Vy). apply rm_In in Hx as [Hx Hxi]. apply rm_In in Hy as [Hy Hyi]. rewrite <- (Phi_ne a), <- (Phi_ne b) by auto. apply (Phi (holds F v)).
      * intros c Hc (z & Hz & Vz). exists z. split; [apply rm_In; auto|auto].
      * apply (jt_running _ _ J); [exists x; auto|exists y; auto].
Qed.
Lemma tree_red : forall n (F : family) T, List.length F <= n -> NoDup (ids F) -> join_tree F T -> red F.
Proof.
  induction n as [|n IH]; intros F T L N J; [apply red_small; lia|]. destruct (le_lt_dec (List.length F) 1) as [S|S]; [now apply red_small|].
  assert (D : list_sum (map (deg T) (ids F)) < 2 * List.length (ids F)).
  { rewrite (degrees _ N _ (jt_vertices _ _ J)), (jt_count _ _ J). unfold ids. rewrite map_length. lia. }
  destruct (low_degree _ _ D) as (i & Hi & Hd). assert (exists j, In j (ids F) /\ j <> i) as (j & Hj & Hji).
  { destruct F as [|[a f] [|[b g] F]]; [cbn in S; lia|cbn in S; lia|]. destruct (Nat.eq_dec a i) as [->|]; [|exists a; cbn; auto]. exists b. split; [cbn; auto|]. intros ->. cbn in N. inversion N; subst. apply H1. now left. }
  pose proof (jt_connected _ _ J i j Hi Hj) as LK. apply clos_rt_rt1n in LK. inversion LK as [|k z [Hs _] _]; subst; [contradiction|].
  assert (exists p, In p T /\ (p = (i, k) \/ p = (k, i))) as (p & Hp & Ep) by (destruct Hs; eauto).
  assert (Hk : In k (ids F)) by (destruct Hs as [Hs|Hs]; apply (jt_vertices _ _ J) in Hs; tauto).
  apply in_split in Hp as (T1 & T2 & ->). rewrite deg_app, deg_cons in Hd.
  assert (Tp : 1 <= touches i p) by (unfold touches; destruct Ep as [-> | ->]; cbn; rewrite Nat.eqb_refl; lia).
  assert (Hki : k <> i). { intros ->. assert (touches i p = 2); [|lia]. unfold touches. destruct Ep as [-> | ->]; cbn; rewrite Nat.eqb_refl; auto. }
  destruct (remove_leaf F i k T1 T2 p N J Hi Hk Ep Hki) as [E J'].
  { intros a b H. apply in_app_iff in H as [H|H]; [apply (deg_zero T1 i)|apply (deg_zero T2 i)]; auto; lia. }
  apply (red_ear F i k E). apply (IH _ _) with (3 := J'); [|now apply rm_NoDup]. apply ids_In in Hi as (f & Hf). pose proof (rm_length _ _ _ N Hf). lia.
Qed.
Lemma red_iff_tree (F : family) : NoDup (ids F) -> (red F <-> exists T, join_tree F T).
Proof. intros N. split; [now apply red_tree|]. intros (T & J). eapply tree_red; eauto. Qed.
End Reduce.

Section Gyo.
Context {A : Type} (eqb : A -> A -> bool) (E : decides eqb).
Notation family := (list (nat * list A)).
Variable order : nat -> family -> family.
Hypothesis order_perm : forall k l, Permutation (order k l) l.

Lemma cnt_bump z f : forall d v, NoDup f -> cnt eqb (bump eqb z d f) v = (cnt eqb d v + if smem eqb v f then z else 0)%Z.
Proof.
  unfold bump. induction f as [|x f IH]; intros d v N; [cbn; lia|]. inversion N; subst. cbn [fold_left]. rewrite IH by auto. unfold cnt at 1. rewrite (dget_dset eqb E). cbn [smem existsb]. destruct (eqb x v) eqn:Q.
  - apply E in Q. subst v. cbn [orb]. replace (smem eqb x f) with false; [|symmetry; apply not_true_iff_false; rewrite (smem_In _ E); auto]. lia.
  - cbn [orb]. fold (smem eqb v f). fold (cnt eqb d v). lia.
Qed.
Definition ncount (F : family) (v : A) : Z := Z.of_nat (List.length (filter (fun e => smem eqb v (snd e)) F)).
Lemma ncount_cons e F v : ncount (e :: F) v = ((if smem eqb v (snd e) then 1 else 0) + ncount F v)%Z.
Proof. unfold ncount. cbn. destruct (smem eqb v (snd e)); cbn [List.length]; lia. Qed.
Lemma node_counts_spec F v : Forall (fun e => NoDup (snd e)) F -> cnt eqb (node_counts eqb F) v = ncount F v.
Proof.
  unfold node_counts. intros H. assert (G : forall F d, Forall (fun e => NoDup (snd e)) F -> cnt eqb (fold_left (fun d (e : nat * list A) => bump eqb 1 d (snd e)) F d) v = (cnt eqb d v + ncount F v)%Z).
  { clear - E. induction F as [|e F IH]; intros d H; [unfold ncount; cbn; lia|]. inversion H; subst. cbn [fold_left]. rewrite IH by auto. rewrite cnt_bump by auto. rewrite ncount_cons. lia. }
  rewrite G by auto. unfold cnt at 1. cbn. lia.
Qed.
Lemma ncount_rm i f (F : family) v : NoDup (ids F) -> In (i, f) F -> ncount F v = ((if smem eqb v f then 1 else 0) + ncount (rm i F) v)%Z.
Proof.
  induction F as [|[j g] F IH]; [intros _ []|]. intros N. inversion N; subst. intros [X|X]; rewrite ncount_cons; cbn [snd].
  - injection X as -> ->. cbn [rm filter fst]. rewrite Nat.eqb_refl. cbn [negb]. f_equal. f_equal. clear - H1. symmetry. induction F as [|[j g] F IH]; [auto|]. cbn in *. destruct (Nat.eqb j i) eqn:Q; [apply Nat.eqb_eq in Q; subst; tauto|]. cbn. f_equal. apply IH. tauto.
  - cbn [rm filter fst]. destruct (Nat.eqb j i) eqn:Q; [apply Nat.eqb_eq in Q; subst; exfalso; apply H1; apply (in_map fst) in X; exact X|]. cbn [negb]. fold (rm i F). rewrite ncount_cons, (IH H2 X). cbn [snd]. lia.
Qed.
Lemma ncount_zero F v : ncount F v = 0%Z <-> forall j g, In (j, g) F -> ~ In v g.
Proof.
  induction F as [|[j g] F IH]; [split; [intros _ j g []|auto]|]. rewrite ncount_cons. cbn [snd]. assert (0 <= ncount F v)%Z by (unfold ncount; lia). destruct (smem eqb v g) eqn:M; split.
  - lia.
  - intros H0. exfalso. apply (H0 j g); [now left|]. now apply (smem_In _ E).
  - intros H0 a b [X|X]; [injection X as <- <-; rewrite <- (smem_In _ E); congruence|apply (proj1 IH ltac:(lia) a b X)].
  - intros H0. cut (ncount F v = 0%Z); [lia|]. apply IH. intros a b X. apply (H0 a b). now right.
Qed.
Lemma private i f (F : family) v : NoDup (ids F) -> In (i, f) F -> In v f -> (ncount F v = 1%Z <-> forall j g, In (j, g) F -> j <> i -> ~ In v g).
Proof.
  intros N Hf Hv. rewrite (ncount_rm i f F v N Hf). rewrite (proj2 (smem_In _ E v f) Hv). split.
  - intros H j g Hg Hj. assert (Z : ncount (rm i F) v = 0%Z) by lia. apply (proj1 (ncount_zero _ _) Z j g). apply rm_In. auto.
  - intros H. assert (Z : ncount (rm i F) v = 0%Z); [|lia]. apply ncount_zero. intros j g Hg. apply rm_In in Hg as [Hg Hj]. eauto.
Qed.
Definition inv (F : family) (c : list (A * Z)) : Prop := NoDup (ids F) /\ Forall (fun e => NoDup (snd e)) F /\ forall v, cnt eqb c v = ncount F v.
Lemma remove_inv F c i f : inv F c -> In (i, f) F -> remove_edge eqb (i, f) F c = (rm i F, bump eqb (-1) c f) /\ inv (rm i F) (bump eqb (-1) c f).
Proof.
  intros (N & D & C) Hf. split; [reflexivity|]. split; [now apply rm_NoDup|]. split.
  - rewrite Forall_forall in *. intros [j g] H. apply rm_In in H as [H _]. apply (D _ H).
  - intros v. rewrite Forall_forall in D. rewrite cnt_bump by apply (D _ Hf). rewrite C, (ncount_rm i f F v N Hf). destruct (smem eqb v f); lia.
Qed.
Lemma all_one c F i f (l : list A) : inv F c -> In (i, f) F -> incl l f -> (forallb (fun n => Z.eqb (cnt eqb c n) 1) l = true <-> forall v j g, In v l -> In (j, g) F -> j <> i -> ~ In v g).
Proof.
  intros (N & _ & C) Hf Hl. rewrite forallb_forall. split.
  - intros H v j g Hv. specialize (H v Hv). apply Z.eqb_eq in H. rewrite C in H. apply (private i f F v N Hf (Hl _ Hv)); auto.
  - intros H v Hv. apply Z.eqb_eq. rewrite C. apply (private i f F v N Hf (Hl _ Hv)). eauto.
Qed.
Lemma other_edge i f (F : family) : NoDup (ids F) -> In (i, f) F -> (List.length F <= 1 /\ forall j g, In (j, g) F -> j = i) \/ exists k f', k <> i /\ In (k, f') F.
Proof.
  intros N Hf. destruct (rm i F) as [|[k f'] R] eqn:Q.
  - left. pose proof (rm_length _ _ _ N Hf) as L. rewrite Q in L. cbn in L. split; [lia|]. intros j g Hg. destruct (Nat.eq_dec j i); [auto|]. exfalso. assert (X : In (j, g) (rm i F)) by (apply rm_In; auto). rewrite Q in X. destruct X.
  - right. exists k, f'. assert (X : In (k, f') (rm i F)) by (rewrite Q; now left). apply rm_In in X as [X Y]. auto.
Qed.
Lemma sdiff_In v a b : In v (sdiff eqb a b) <-> In v a /\ ~ In v b.
Proof. unfold sdiff. rewrite filter_In, negb_true_iff, <- not_true_iff_false, (smem_In _ E). tauto. Qed.
Lemma ear_test c F i f k f' : inv F c -> In (i, f) F -> In (k, f') F -> i <> k -> (forallb (fun n => Z.eqb (cnt eqb c n) 1) (sdiff eqb f f') = true <-> ear F i k).
Proof.
  intros I Hf Hk Hik. rewrite (all_one c F i f) by (auto; intros v Hv; apply sdiff_In in Hv; tauto). split.
  - intros H. split; [auto|]. exists f, f'. split; [auto|]. split; [auto|]. intros v j g Hv Hg Hj Hvg. destruct (smem eqb v f') eqn:M; [now apply (smem_In _ E)|]. exfalso. apply (H v j g); auto. apply sdiff_In. split; [auto|]. rewrite <- (smem_In _ E). congruence.
  - intros (_ & f0 & f0' & Hf0 & Hk0 & C) v j g Hv Hg Hj Hvg. apply sdiff_In in Hv as [Hv Hn]. destruct I as (N & _). rewrite (ids_fun _ _ _ _ N Hf0 Hf), (ids_fun _ _ _ _ N Hk0 Hk) in C. apply Hn. eauto.
Qed.
Lemma pairs_In (x y : nat * list A) es : In (x, y) (pairs es) <-> In x es /\ In y es /\ fst x <> fst y.
Proof. unfold pairs. rewrite filter_In, in_prod_iff, negb_true_iff, Nat.eqb_neq. cbn. tauto. Qed.
Lemma order_In k F x : In x (order k F) <-> In x F.
Proof. split; apply Permutation_in; [|apply Permutation_sym]; apply order_perm. Qed.
Lemma ear_step k F c : inv F c ->
  match remove_ear eqb order k F c with
  | Some (F', c') => inv F' c' /\ List.length F = S (List.length F') /\ (red F <-> red F')
  | None => F = [] \/ ~ red F
  end.
Proof.
  intros I. pose proof I as (N & D & C). unfold remove_ear. destruct (find _ (order k F)) as [[i f]|] eqn:Q1.
  - apply find_some in Q1 as [Hf Q1]. apply order_In in Hf. cbn [snd] in Q1. destruct (remove_inv F c i f I Hf) as [-> I']. split; [auto|]. split; [eapply rm_length; eauto|].
    destruct (other_edge i f F N Hf) as [[L _]|(k' & f' & Hk & Hf')].
    + split; intros _; apply red_small; [apply small_rm|]; auto.
    + apply (red_rm F i k' N). split; [auto|]. exists f, f'. split; [auto|]. split; [auto|]. intros v j g Hv Hg Hj Hvg. exfalso. apply (proj1 (all_one c F i f f I Hf (incl_refl _)) Q1 v j g); auto.
  - match goal with |- context [find ?a (pairs ?b)] => destruct (find a (pairs b)) as [[[i f] [k' f']]|] eqn:Q2 end.
    + apply find_some in Q2 as [Hp Q2]. apply pairs_In in Hp as (Hf & Hf' & Hn). apply order_In in Hf, Hf'. cbn [fst snd] in *. destruct (remove_inv F c i f I Hf) as [-> I']. split; [auto|]. split; [eapply rm_length; eauto|]. apply (red_rm F i k' N). now apply (ear_test c F i f k' f').
    + destruct F as [|[i f] F0] eqn:EF; [auto|]. right. rewrite <- EF in *. intros R. assert (Hif : In (i, f) F) by (rewrite EF; now left). destruct R as [F L|F i' k' Ea R].
      * destruct (other_edge i f F N Hif) as [[_ O]|(k2 & f2 & Hk2 & Hf2)].
        -- pose proof (find_none _ _ Q1 (i, f) (proj2 (order_In _ _ _) Hif)) as X. cbn [snd] in X. rewrite (proj2 (all_one c F i f f I Hif (incl_refl _))) in X; [discriminate|]. intros v j g _ Hg Hj. exfalso. eauto.
        -- rewrite EF in L, Hf2. destruct F0 as [|? ?]; [|cbn in L; lia]. destruct Hf2 as [X|[]]. congruence.
      * pose proof Ea as (Hik & g & g' & Hg & Hg' & _). pose proof (find_none _ _ Q2 ((i', g), (k', g'))) as X. cbn [fst snd] in X. rewrite (proj2 (ear_test c F i' g k' g' I Hg Hg' Hik) Ea) in X. discriminate X. apply pairs_In. rewrite !order_In. auto.
Qed.
Lemma gyo_correct : forall fuel k F c, inv F c -> List.length F < fuel -> exists F', gyo eqb order fuel k F c = Ok F' /\ (F' = [] <-> red F).
Proof.
  induction fuel as [|fuel IH]; intros k F c I L; [lia|]. cbn [gyo]. pose proof (ear_step k F c I) as H. destruct (remove_ear eqb order k F c) as [[F' c']|].
  - destruct H as (I' & L' & R). destruct (IH (S k) F' c' I') as (F2 & H & R2); [unfold hedge in *; lia|]. exists F2. split; [auto|]. tauto.
  - exists F. split; [auto|]. split; [intros ->; apply red_small; cbn; lia|]. intros R. destruct H; tauto.
Qed.

(** Merging equal edges does not change anything. *)
Lemma distinct_spec : forall es seen, NoDup (ids (seen ++ es)) -> Forall (fun e => NoDup (snd e)) (seen ++ es) ->
  NoDup (ids (distinct_edges eqb seen es)) /\ Forall (fun e => NoDup (snd e)) (distinct_edges eqb seen es) /\ (red (seen ++ es) <-> red (distinct_edges eqb seen es)) /\ incl (distinct_edges eqb seen es) (seen ++ es).
Proof.
  induction es as [|[i e] es IH]; intros seen N D; cbn [distinct_edges].
  - rewrite app_nil_r in *. split; [auto|]. split; [auto|]. split; [tauto|apply incl_refl].
  - destruct (existsb _ seen) eqn:X.
    + apply existsb_exists in X as ([k s] & Hs & X). cbn [snd] in X. unfold same_set in X. apply andb_true_iff in X as [_ X]. rewrite forallb_forall in X.
      assert (Hi : In (i, e) (seen ++ (i, e) :: es)) by (apply in_app_iff; right; now left).
      assert (Hki : i <> k). { intros ->. unfold ids in N. rewrite map_app in N. cbn in N. apply (NoDup_app_disj _ _ k N); [apply (in_map fst) in Hs; exact Hs|now left]. }
      assert (Er : ear (seen ++ (i, e) :: es) i k). { split; [auto|]. exists e, s. split; [auto|]. split; [apply in_app_iff; auto|]. intros v j g Hv _ _ _. apply (smem_In _ E). auto. }
      assert (Rm : rm i (seen ++ (i, e) :: es) = seen ++ es).
      { assert (Z : forall l : family, ~ In i (ids l) -> rm i l = l). { clear. induction l as [|[j g] l IH]; [auto|]. cbn. intros H. destruct (Nat.eqb j i) eqn:Q; [apply Nat.eqb_eq in Q; subst; tauto|]. cbn. f_equal. apply IH. tauto. }
        unfold ids in N. rewrite map_app in N. cbn in N. unfold rm. rewrite filter_app. cbn [filter fst]. rewrite Nat.eqb_refl. cbn [negb]. f_equal; apply Z; intros F.
        - apply (NoDup_app_disj _ _ i N F). now left.
        - apply NoDup_app_r in N. inversion N; subst. auto. }
      destruct (IH seen) as (H1 & H2 & H3 & H4).
      * rewrite <- Rm. now apply rm_NoDup.
      * rewrite Forall_app in *. destruct D as [D1 D2]. inversion D2; subst. auto.
      * split; [auto|]. split; [auto|]. split; [rewrite <- H3, <- Rm; now apply (red_rm _ i k)|]. intros x Hx. apply H4 in Hx. rewrite in_app_iff in *. cbn. tauto.
    + assert (Q : seen ++ (i, e) :: es = (seen ++ [(i, e)]) ++ es) by now rewrite <- app_assoc. rewrite Q in *. apply IH; auto.
Qed.
Lemma few_nodes v0 : forall n (F : family), List.length F <= n -> NoDup (ids F) -> (forall j g v, In (j, g) F -> In v g -> v = v0) -> red F.
Proof.
  induction n as [|n IH]; intros F L N H; [apply red_small; lia|]. destruct F as [|[i f] [|[j g] R]] eqn:EF; [apply red_small; cbn; lia|apply red_small; cbn; lia|]. rewrite <- EF in *.
  assert (Hi : In (i, f) F) by (rewrite EF; now left). assert (Hj : In (j, g) F) by (rewrite EF; right; now left). assert (Hij : i <> j). { intros ->. rewrite EF in N. inversion N; subst. apply H2. now left. }
  assert (RR : forall a e, In (a, e) F -> red (rm a F)). { intros a e Ha. apply IH; [pose proof (rm_length _ _ _ N Ha); lia|now apply rm_NoDup|]. intros b c v Hb. apply rm_In in Hb as [Hb _]. eauto. }
  destruct (smem eqb v0 f) eqn:M.
  - apply (red_ear F j i); [|eauto]. split; [auto|]. exists g, f. split; [auto|]. split; [auto|]. intros v _ _ Hv _ _ _. rewrite (H j g v Hj Hv). now apply (smem_In _ E).
  - apply (red_ear F i j); [|eauto]. split; [auto|]. exists f, g. split; [auto|]. split; [auto|]. intros v _ _ Hv _ _ _. exfalso. pose proof (H i f v Hi Hv). subst v. apply (smem_In _ E) in Hv. congruence.
Qed.
End Gyo.

Lemma join_tree_ext {A} (F F' : list (nat * list A)) T : ids F = ids F' -> (forall v i, holds F v i <-> holds F' v i) -> join_tree F T -> join_tree F' T.
Proof.
  intros HI HH [J1 J2 J3 J4]. constructor; rewrite <- ?HI; auto.
  - rewrite J2. apply (f_equal (@List.length nat)) in HI. unfold ids in HI. rewrite !map_length in HI. lia.
  - intros v i j Hi Hj. apply HH in Hi, Hj. apply (linked_mono T T (holds F v)); [apply incl_refl| |auto]. intros x. apply HH.
Qed.
Lemma numbered_ids {A} (h : list (list A)) : ids (numbered h) = seq 0 (List.length h).
Proof. unfold ids, numbered. generalize 0. induction h as [|e h IH]; intros n; [auto|]. cbn. f_equal. apply IH. Qed.

(** [check_hypergraph_acyclicity] terminates and answers [True] exactly for the hypergraphs with a join tree, whatever the order in which the sets of edges
    are iterated. *)
Theorem C36_acyclicity {A} (eqb : A -> A -> bool) order (hypergraph : list (list A)) :
  decides eqb -> (forall k l, Permutation (order k l) l) ->
  exists b, check_hypergraph_acyclicity eqb order hypergraph = Ok b /\ (b = true <-> acyclic hypergraph).
Proof.
  intros E P. set (F := map (fun x : nat * list A => (fst x, sof eqb (snd x))) (numbered hypergraph)).
  assert (IF : ids F = ids (numbered hypergraph)). { unfold F, ids. rewrite map_map. reflexivity. }
  assert (N : NoDup (ids F)). { rewrite IF, numbered_ids. apply seq_NoDup. }
  assert (D : Forall (fun e => NoDup (snd e)) F). { apply Forall_forall. intros x Hx. apply in_map_iff in Hx as (y & <- & _). cbn. now apply sof_NoDup. }
  assert (HH : forall v i, holds F v i <-> holds (numbered hypergraph) v i).
  { intros v i. unfold holds, F. split.
    - intros (e & H & Hv). apply in_map_iff in H as ([j g] & X & H). cbn [fst snd] in X. injection X as <- <-. rewrite (sof_In _ E) in Hv. eauto.
    - intros (e & H & Hv). exists (sof eqb e). split; [apply in_map_iff; exists (i, e); auto|]. now apply (sof_In _ E). }
  assert (AC : acyclic hypergraph <-> red F).
  { rewrite (red_iff_tree F N). unfold acyclic. split; intros (T & J); exists T; (eapply join_tree_ext; [| |exact J]); [auto|intros; symmetry; apply HH|auto|apply HH]. }
  destruct (distinct_spec eqb E F [] N D) as (N1 & D1 & R1 & I1). cbn [app] in R1, I1. unfold check_hypergraph_acyclicity. unfold make_edges. fold (numbered hypergraph). fold F. set (Es := distinct_edges eqb [] F) in *.
  destruct (Nat.leb (List.length Es) 1) eqn:L1; cbn [orb].
  - exists true. split; [auto|]. split; [intros _|auto]. apply AC, R1, red_small. now apply Nat.leb_le.
  - destruct (Nat.leb (List.length (sof eqb (List.concat hypergraph))) 1) eqn:L2; cbn [orb].
    + exists true. split; [auto|]. split; [intros _|auto]. apply AC, R1. apply Nat.leb_le in L2. set (nodes := sof eqb (List.concat hypergraph)) in *.
      assert (In0 : forall j g v, In (j, g) Es -> In v g -> In v nodes).
      { intros j g v Hg Hv. apply I1 in Hg. unfold F in Hg. apply in_map_iff in Hg as ([a b] & X & Hg). cbn [fst snd] in X. injection X as <- <-. rewrite (sof_In _ E) in Hv. apply (sof_In _ E). apply in_concat. exists b. split; [|auto]. apply in_combine_r in Hg. auto. }
      clearbody nodes. destruct nodes as [|v0 [|? ?]]; [| |cbn in L2; lia].
      * assert (Q : forall n (G : list (nat * list A)), List.length G <= n -> NoDup (ids G) -> (forall j g v, In (j, g) G -> ~ In v g) -> red G).
        { clear. induction n as [|n IH]; intros G L N H; [apply red_small; lia|]. destruct G as [|[a e] [|[b e'] G']] eqn:EG; [apply red_small; cbn; lia|apply red_small; cbn; lia|]. rewrite <- EG in *. assert (Ha : In (a, e) G) by (rewrite EG; now left). assert (Hb : In (b, e') G) by (rewrite EG; right; now left).
          assert (Hab : a <> b) by (intros ->; rewrite EG in N; inversion N; subst; apply H2; now left).
          apply (red_ear G a b). - split; [auto|]. exists e, e'. split; [auto|]. split; [auto|]. intros v j g Hv _ _ _. exfalso. exact (H a e v Ha Hv).
          - apply IH; [pose proof (rm_length _ _ _ N Ha); lia|now apply rm_NoDup|]. intros j g v Hg. apply rm_In in Hg as [Hg _]. eauto. }
        apply (Q (List.length Es)); [auto|auto|]. intros j g v Hg Hv. apply (In0 j g v Hg Hv).
      * apply (few_nodes eqb E v0 (List.length Es)); [auto|auto|]. intros j g v Hg Hv. destruct (In0 j g v Hg Hv) as [<-|[]]. auto.
    + assert (I : inv eqb Es (node_counts eqb Es)). { split; [auto|]. split; [auto|]. intros v. now apply node_counts_spec. }
      destruct (gyo_correct eqb E order P (S (List.length Es)) 0 Es _ I (Nat.lt_succ_diag_r _)) as (F' & -> & R). cbn [bind]. exists (Nat.eqb (List.length F') 0). split; [auto|]. split.
      * intros X. apply AC, R1, R. apply Nat.eqb_eq in X. destruct F'; [auto|discriminate].
      * intros X. apply AC, R1, R in X. subst F'. reflexivity.
Qed.
(** The triangle is cyclic, the triangle with the hyperedge that covers it is not, and adding an isolated edge changes nothing. *)
Example C36_example : check_hypergraph_acyclicity Nat.eqb (fun _ l => l) [[1; 2]; [2; 3]; [3; 1]] = Ok false /\ check_hypergraph_acyclicity Nat.eqb (fun _ l => rev l) [[1; 2]; [2; 3]; [3; 1]; [2; 1; 3; 2]; [7; 8]] = Ok true /\
  decides Nat.eqb /\ (forall (k : nat) (l : list (nat * list nat)), Permutation (rev l) l).
Proof. split; [reflexivity|]. split; [reflexivity|]. split; [exact Nat.eqb_eq|]. intros _ l. apply Permutation_sym, Permutation_rev. Qed.
