(** C70: matrices (src/tarski/syntax/algebra/matrix.py, the matrix part of src/tarski/evaluators/simple.py and of src/tarski/syntax/arithmetic/__init__.py) *)
From Coq Require Import Lia.
From Verif Require Import Base Matrix MatrixSpec MatrixProofs ListUtil.

Section Props.
Variable K : floats.
Notation F := (float K).
Variable fluents : string -> res (const K).
Notation ev := (evaluate K fluents).
Notation evs := (eval_scalar K fluents).

Lemma eval_matrix_inv : forall m v, eval_matrix K fluents m = Ok v ->
  m_sort v = m_sort m /\ 0 < m_rows v /\ shaped K v (m_rows v) (m_cols v) /\ m_rows v = List.length (m_array m) /\ (forall r, In r (m_array m) -> List.length r = m_cols v) /\
  forall i j, i < m_rows v -> j < m_cols v -> exists c, getitem K v i j = Ok (SC c) /\ const_sort K c = m_sort v.
Proof.
  intros m v H. unfold eval_matrix in H. destruct (mapM _ (m_array m)) as [rows|e] eqn:E; [|discriminate]. cbn [bind] in H.
  destruct (matrix_ok K rows (m_sort m) v H) as (S1 & S2 & S3 & S4 & S5 & S6). split; [exact S1|]. split; [exact S2|]. split; [exact S3|].
  pose proof (mapM_nth_none _ _ _ _ _ E) as L. split; [congruence|]. split.
  - intros r Hr. destruct (mapM_all_ok _ _ _ _ _ E r Hr) as (r' & E'). rewrite <- (mapM_nth_none _ _ _ _ _ E'). apply S6.
    clear -E Hr E'. revert rows E. induction (m_array m) as [|x xs IH]; intros rows E; [contradiction|]. cbn in E. destruct (mapM _ x) as [a|] eqn:Ea; [|discriminate]. cbn in E.
    destruct (mapM _ xs) as [b|] eqn:Eb; [|discriminate]. cbn in E. injection E as <-. destruct Hr as [-> | Hr]; [left; congruence | right; now apply IH].
  - intros i j Hi Hj. rewrite S1. destruct S3 as (_ & _ & L3 & W3). clear - E S5 Hi Hj L3 W3.
    destruct (nth_error (m_array v) i) as [r|] eqn:Er; [|apply nth_error_None in Er; lia]. pose proof (W3 r (nth_error_In _ _ Er)) as Lr.
    destruct (nth_error r j) as [t|] eqn:Et; [|apply nth_error_None in Et; lia].
    enough (T : exists c, t = SC c /\ const_sort K c = m_sort m) by (destruct T as (c & -> & T); exists c; split; [apply getitem_nth; eauto | exact T]).
    apply nth_error_In in Er. apply nth_error_In in Et. clear Hi Hj L3 W3 Lr. revert rows E S5. generalize (m_array v) as arr, Er. clear Er. induction (m_array m) as [|x xs IH]; intros arr Er rows E S5.
    + injection E as <-. injection S5 as <-. contradiction.
    + cbn in E. destruct (mapM _ x) as [a|] eqn:Ea; [|discriminate]. cbn in E. destruct (mapM _ xs) as [b|] eqn:Eb; [|discriminate]. cbn in E. injection E as <-.
      cbn in S5. destruct (mapM (check_entry K (m_sort m)) a) as [ra|] eqn:Era; [|discriminate]. cbn in S5. destruct (mapM (mapM _) b) as [rb|] eqn:Erb; [|discriminate]. cbn in S5. injection S5 as <-.
      destruct Er as [-> | Er]; [|now apply (IH rb Er b eq_refl)]. clear - Ea Era Et. revert a r Ea Era Et. induction x as [|u us IH]; intros a r Ea Era Et; cbn in Ea.
      * injection Ea as <-. injection Era as <-. contradiction.
      * destruct (evs u) as [c|]; [|discriminate]. cbn in Ea. destruct (mapM _ us) as [w|] eqn:Ew; [|discriminate]. cbn in Ea. injection Ea as <-. cbn in Era.
        destruct (nsort_eqb (const_sort K c) (m_sort m)) eqn:Ec; [|discriminate]. cbn in Era. destruct (mapM (check_entry K (m_sort m)) w) as [z|] eqn:Ez; [|discriminate]. cbn in Era. injection Era as <-.
        destruct Et as [<- | Et]; [|now apply (IH w z)]. exists c. split; [reflexivity|]. now destruct (const_sort K c), (m_sort m).
Qed.
Lemma ev_matrix_inv : forall e v, ev e = Ok (VM v) -> exists m, eval_matrix K fluents m = Ok v.
Proof.
  intros e v H. destruct e as [c|f s|m|o x y]; cbn in H; [discriminate|destruct (fluents f); discriminate| |].
  - destruct (eval_matrix K fluents m) as [w|] eqn:E; [|discriminate]. cbn in H. injection H as ->. eauto.
  - destruct (ev x) as [a|]; [|discriminate]. cbn in H. destruct (ev y) as [b|]; [|discriminate]. cbn in H. destruct a as [c|m], b as [d|n].
    + destruct (arithmetic K o c d); discriminate.
    + destruct o; [| | | |discriminate];
      (destruct (elementwise K _ _) as [p|]; [|discriminate]; cbn in H; destruct (eval_matrix K fluents p) as [w|] eqn:E; [|discriminate]; cbn in H; injection H as ->; eauto).
    + destruct o; [| | | |discriminate];
      (destruct (elementwise K _ _) as [p|]; [|discriminate]; cbn in H; destruct (eval_matrix K fluents p) as [w|] eqn:E; [|discriminate]; cbn in H; injection H as ->; eauto).
    + destruct o; try discriminate. destruct (multiply K m n) as [rows|]; [|discriminate]. cbn in H. destruct (matrix K rows (m_sort m)) as [p|]; [|discriminate]. cbn in H.
      destruct (eval_matrix K fluents p) as [w|] eqn:E; [|discriminate]. cbn in H. injection H as ->. eauto.
Qed.
Definition number_at (m : mat K) (i j : nat) : F := match getitem K m i j with Ok (SC (CR x)) => x | _ => f_of_int K 0 end.

(** The value of a matrix expression has a row at least, is rectangular, and has constants of its sort only: a table of numbers, if the sort is Real. *)
Theorem C70_values : forall e V, ev e = Ok (VM V) ->
  (exists n k, 0 < n /\ shaped K V n k /\ forall i j, i < n -> j < k -> exists c, getitem K V i j = Ok (SC c) /\ const_sort K c = m_sort V) /\
  (m_sort V = SReal -> exists n k a, 0 < n /\ is_table K V n k a).
Proof.
  intros e V H. apply ev_matrix_inv in H as (m & H). apply eval_matrix_inv in H as (S1 & S2 & S3 & S4 & S5 & S6). split.
  - exists (m_rows V), (m_cols V). auto.
  - intros R. exists (m_rows V), (m_cols V), (number_at V). split; [exact S2|]. split; [exact S3|]. split; [exact R|]. intros i j Hi Hj. destruct (S6 i j Hi Hj) as (c & G & C).
    unfold number_at. rewrite G. rewrite R in C. now destruct c.
Qed.

Lemma table_unique : forall m m' n k a, is_table K m n k a -> is_table K m' n k a -> m = m'.
Proof. intros m m' n k a H H'. now rewrite (is_table_tab K _ _ _ _ H), (is_table_tab K _ _ _ _ H'). Qed.
Lemma table_shape : forall m n k a n' k' a', is_table K m n k a -> is_table K m n' k' a' -> n = n' /\ k = k'.
Proof. intros m n k a n' k' a' ((A & B & _) & _) ((C & D & _) & _). split; congruence. Qed.

(** A matrix that is written down evaluates to the table of the values of its entries, and only if each of them has a value of sort Real. *)
Theorem C70_literal : forall m n k a, shaped K m n k -> m_sort m = SReal -> 0 < n ->
  ((forall i j, i < n -> j < k -> exists t, getitem K m i j = Ok t /\ evs t = Ok (CR (a i j))) <-> exists V, ev (MM m) = Ok (VM V) /\ is_table K V n k a).
Proof.
  intros m n k a Sh So Hn. destruct Sh as (R & C & L & W). split.
  - intros H. pose (t := fun i j => match getitem K m i j with Ok t => t | Err _ => SF EmptyString SReal end).
    assert (E : m = tabmat K n k SReal t).
    { rewrite <- So. apply shaped_tab; [now repeat split|]. intros i j Hi Hj. destruct (H i j Hi Hj) as (u & G & _). unfold t. now rewrite G. }
    exists (tabmat K n k SReal (fun i j => SC (CR (a i j)))). split; [|apply tab_is_table]. cbn. rewrite E, (eval_matrix_tab K fluents n k t a Hn); [reflexivity|].
    intros i j Hi Hj. unfold t. destruct (H i j Hi Hj) as (u & G & Ev). now rewrite G.
  - intros (V & Ev & Tb) i j Hi Hj. cbn in Ev. destruct (eval_matrix K fluents m) as [v|] eqn:E; [|discriminate]. cbn in Ev. injection Ev as ->.
    pose (t := fun i j => match getitem K m i j with Ok t => t | Err _ => SF EmptyString SReal end).
    assert (G : forall i j, i < n -> j < k -> getitem K m i j = Ok (t i j)).
    { intros i' j' Hi' Hj'. unfold t. destruct (getitem K m i' j') as [u|e] eqn:Eu; [reflexivity|]. exfalso. unfold getitem in Eu.
      destruct (nth_error (m_array m) i') as [r|] eqn:Er; [|apply nth_error_None in Er; lia]. pose proof (W r (nth_error_In _ _ Er)). destruct (nth_error r j') eqn:Ej; [discriminate|]. apply nth_error_None in Ej. lia. }
    pose proof (shaped_tab K m n k t ltac:(now repeat split) G) as Em. rewrite So in Em. exists (t i j). split; [now apply G|].
    assert (All : forall i j, i < n -> j < k -> exists c, evs (t i j) = Ok c).
    { intros i' j' Hi' Hj'. rewrite Em in E. unfold eval_matrix in E. cbn [m_array tabmat m_sort] in E. destruct (mapM _ (tab n k t)) as [rows|] eqn:Er; [|discriminate].
      destruct (mapM_tab_ok _ _ _ _ _ _ _ Er i' j' Hi' Hj') as (y & Ey). destruct (evs (t i' j')) as [c|]; [eauto|discriminate]. }
    pose (c := fun i j => match evs (t i j) with Ok c => c | Err _ => CI 0 end).
    assert (Ev : mapM (mapM (fun t => let! c := evs t in Ok (ET (SC c)))) (tab n k t) = Ok (tab n k (fun i j => ET (SC (c i j))))).
    { apply mapM_tab. intros i' j' Hi' Hj'. unfold c. destruct (All i' j' Hi' Hj') as (d & Ed). now rewrite Ed. }
    rewrite Em in E. unfold eval_matrix in E. cbn [m_array tabmat m_sort] in E. rewrite Ev in E. cbn [bind] in E. apply matrix_ok in E as (_ & _ & _ & _ & E5 & _).
    assert (Q : mapM (mapM (check_entry K SReal)) (tab n k (fun i j => ET (SC (c i j)))) = Ok (tab n k (fun i j => SC (c i j)))).
    { apply mapM_tab. intros i' j' Hi' Hj'. destruct (mapM_tab_ok _ _ _ _ _ _ _ E5 i' j' Hi' Hj') as (y & Ey). cbn in Ey |- *. now destruct (nsort_eqb _ _). }
    rewrite Q in E5. injection E5 as E5. destruct Tb as (_ & _ & Tb). specialize (Tb i j Hi Hj). apply getitem_nth in Tb as (r & T1 & T2). rewrite <- E5, tab_nth in T1 by assumption. injection T1 as <-.
    rewrite nth_error_map_seq in T2 by assumption. injection T2 as T2. unfold c in T2. destruct (All i j Hi Hj) as (d & Ed). rewrite Ed in T2 |- *. now rewrite T2.
Qed.

(** Sums of products *)
Section Dot.
Variables x y : nat -> F.
Definition real (z : F) : sterm K := SC (CR z).
Definition prods (k : nat) : list (sterm K) := map (fun l => SOp OpTimes (real (x l)) (real (y l))) (seq 0 k).
Fixpoint chain (k : nat) : sterm K := match k with 0 => real (f_of_int K 0) | S k => SOp OpPlus (chain k) (SOp OpTimes (real (x k)) (real (y k))) end.
Lemma sum_chain : forall k, 0 < k -> sum_terms K (prods k) = if f_within K (f_of_int K 0) then Ok (ET (chain k)) else Err ValueError.
Proof.
  intros k Hk. destruct k as [|k]; [lia|]. clear Hk. induction k as [|k IH].
  - cbn. now destruct (f_within K (f_of_int K 0)).
  - unfold prods. rewrite seq_S, map_app. cbn [map plus]. unfold sum_terms in *. rewrite fold_left_app. unfold prods in IH. rewrite IH. cbn [fold_left]. now destruct (f_within K (f_of_int K 0)).
Qed.
Lemma times_value : forall l, evs (SOp OpTimes (real (x l)) (real (y l))) = if f_within K (f_mul K (x l) (y l)) then Ok (CR (f_mul K (x l) (y l))) else Err ValueError.
Proof. intros l. reflexivity. Qed.
Lemma arith_plus : forall u v, arithmetic K OpPlus (CR u) (CR v) = if f_within K (f_add K u v) then Ok (CR (f_add K u v)) else Err ValueError.
Proof. reflexivity. Qed.
Lemma arith_times : forall u v, arithmetic K OpTimes (CR u) (CR v) = if f_within K (f_mul K u v) then Ok (CR (f_mul K u v)) else Err ValueError.
Proof. reflexivity. Qed.
Lemma chain_value : forall k c, evs (chain k) = Ok c -> c = CR (dot K x y k).
Proof.
  induction k as [|k IH]; intros c H; [cbn in H; now injection H as <-|]. cbn [chain eval_scalar real] in H. destruct (evs (chain k)) as [d|] eqn:E; [|discriminate]. cbn [bind] in H.
  rewrite (IH d eq_refl), arith_times in H. destruct (f_within K (f_mul K (x k) (y k))); cbn [bind] in H; [|discriminate]. rewrite arith_plus in H. destruct (f_within K (f_add K _ _)); [|discriminate].
  injection H as <-. reflexivity.
Qed.
Lemma chain_within : forall k, dot_within K x y k -> evs (chain k) = Ok (CR (dot K x y k)).
Proof.
  induction k as [|k IH]; intros [P Q]; [reflexivity|]. cbn [chain eval_scalar real]. rewrite IH; [|split; [intros l Hl; apply P; lia | intros l Hl; apply Q; lia]]. cbn [bind].
  rewrite arith_times, (P k ltac:(lia)). cbn [bind]. rewrite arith_plus. pose proof (Q (S k) ltac:(lia)) as Qk. cbn [dot] in Qk |- *. now rewrite Qk.
Qed.
Lemma chain_real : forall k, term_sort K (chain k) = SReal.
Proof. now destruct k. Qed.
End Dot.
Lemma zip_rows : forall (a b : nat -> F) k, zip_with K (SOp OpTimes) (map (fun l => SC (CR (a l))) (seq 0 k)) (map (fun l => SC (CR (b l))) (seq 0 k)) = prods a b k.
Proof. intros a b k. unfold prods. induction (seq 0 k) as [|l ls IH]; cbn; [reflexivity|]. now rewrite IH. Qed.
Lemma column_tab : forall n k (t : nat -> nat -> sterm K) j, j < k -> column K (tab n k t) j = map (fun i => t i j) (seq 0 n).
Proof.
  intros n k t j Hj. unfold column, tab. induction (seq 0 n) as [|i is IH]; cbn; [reflexivity|]. rewrite nth_error_map_seq by assumption. cbn. now rewrite IH.
Qed.
Lemma columns_tab : forall n k s (t : nat -> nat -> sterm K), 0 < n -> columns K (tabmat K n k s t) = tab k n (fun j i => t i j).
Proof.
  intros n k s t Hn. unfold columns. cbn [m_array m_cols tabmat]. destruct (tab n k t) as [|r rs] eqn:E.
  - apply (f_equal (@List.length _)) in E. rewrite tab_len in E. cbn in E. lia.
  - rewrite <- E. unfold tab at 2. apply map_ext_in. intros j Hj. apply in_seq in Hj. apply column_tab. lia.
Qed.
Lemma multiply_tab : forall n k m (a b : nat -> nat -> F), 0 < k ->
  multiply K (tabmat K n k SReal (fun i j => SC (CR (a i j)))) (tabmat K k m SReal (fun i j => SC (CR (b i j)))) =
  mapM (fun i => mapM (fun j => if f_within K (f_of_int K 0) then Ok (ET (chain (a i) (fun l => b l j) k)) else Err ValueError) (seq 0 m)) (seq 0 n).
Proof.
  intros n k m a b Hk. unfold multiply. cbn [m_cols m_rows tabmat]. rewrite Nat.eqb_refl, columns_tab by assumption. cbn [m_array tabmat]. unfold tab. rewrite mapM_map. apply mapM_ext_in. intros i _. rewrite mapM_map. apply mapM_ext_in. intros j _.
  rewrite zip_rows. now apply sum_chain.
Qed.

(** [A @ B]: a table whose entries are the sums of products, if there is a value; and there is one if all numbers on the way are between the bounds of Real. *)
Theorem C70_product : forall x y A B n k m a b, ev x = Ok (VM A) -> ev y = Ok (VM B) -> is_table K A n k a -> is_table K B k m b ->
  (forall V, ev (MOp OpMat x y) = Ok V -> exists C, V = VM C /\ is_table K C n m (fun i j => dot K (a i) (fun l => b l j) k)) /\
  ((forall i j, i < n -> j < m -> dot_within K (a i) (fun l => b l j) k) -> exists V, ev (MOp OpMat x y) = Ok V).
Proof.
  intros x y A B n k m a b Ex Ey TA TB. cbn [evaluate]. rewrite Ex, Ey. cbn [bind].
  assert (Hn : 0 < n). { destruct (ev_matrix_inv _ _ Ex) as (z & Ez). apply eval_matrix_inv in Ez as (_ & P & _). destruct TA as ((R & _) & _). now rewrite R in P. }
  assert (Hk : 0 < k). { destruct (ev_matrix_inv _ _ Ey) as (z & Ez). apply eval_matrix_inv in Ez as (_ & P & _). destruct TB as ((R & _) & _). now rewrite R in P. }
  rewrite (is_table_tab K _ _ _ _ TA), (is_table_tab K _ _ _ _ TB), multiply_tab by assumption. cbn [m_sort tabmat].
  destruct (f_within K (f_of_int K 0)) eqn:W0.
  - rewrite (mapM_ext_in _ _ _ (fun i => Ok (map (fun j => ET (chain (a i) (fun l => b l j) k)) (seq 0 m)))), mapM_pure by (intros i _; apply mapM_pure). cbn [bind].
    pose proof (matrix_tab K n m SReal (fun i j => chain (a i) (fun l => b l j) k) Hn ltac:(intros; apply chain_real)) as MT. unfold tab at 1 in MT. rewrite MT. cbn [bind]. clear MT. split.
    + intros V H. destruct (eval_matrix K fluents _) as [v|] eqn:E; [|discriminate]. cbn [bind] in H. injection H as <-.
      rewrite (eval_matrix_tab K fluents n m _ (fun i j => dot K (a i) (fun l => b l j) k) Hn) in E; [injection E as <-; eexists; split; [reflexivity|apply tab_is_table]|].
      intros i j Hi Hj. unfold eval_matrix in E. cbn [m_array tabmat] in E. destruct (mapM _ (tab n m _)) as [rows|] eqn:Er; [|discriminate].
      destruct (mapM_tab_ok _ _ _ _ _ _ _ Er i j Hi Hj) as (u & Eu). destruct (evs (chain (a i) (fun l => b l j) k)) as [c|] eqn:Ec; [|discriminate]. now rewrite (chain_value _ _ _ _ Ec).
    + intros W. rewrite (eval_matrix_tab K fluents n m _ (fun i j => dot K (a i) (fun l => b l j) k) Hn); [eexists; reflexivity|]. intros i j Hi Hj. apply chain_within. now apply W.
  - destruct m as [|m].
    + rewrite (mapM_ext_in _ _ _ (fun i => Ok [])) by reflexivity. rewrite mapM_pure. cbn [bind].
      pose proof (matrix_tab K n 0 SReal (fun i j => chain (a i) (fun l => b l j) k) Hn ltac:(intros; lia)) as MT. unfold tab at 1 in MT. cbn [seq map] in MT. rewrite MT. cbn [bind].
      rewrite (eval_matrix_tab K fluents n 0 _ (fun i j => dot K (a i) (fun l => b l j) k) Hn) by (intros; lia). cbn [bind]. split; [|eauto]. intros V H. injection H as <-. eexists. split; [reflexivity|apply tab_is_table].
    + assert (Er : exists e, mapM (fun i : nat => mapM (fun _ : nat => @Err (entry K) ValueError) (seq 0 (S m))) (seq 0 n) = Err e) by (destruct n; [lia|]; cbn; eauto). destruct Er as (e & Er).
      rewrite Er. cbn [bind]. split; [discriminate|]. intros W. destruct (W 0 0 Hn ltac:(lia)) as [_ Q]. specialize (Q 0 ltac:(lia)). cbn in Q. congruence.
Qed.
(** Matrices whose shapes do not fit are refused. *)
Theorem C70_shapes : forall x y A B, ev x = Ok (VM A) -> ev y = Ok (VM B) -> m_cols A <> m_rows B -> ev (MOp OpMat x y) = Err TypeError.
Proof. intros x y A B Ex Ey N. cbn. rewrite Ex, Ey. cbn. unfold multiply. apply Nat.eqb_neq in N. now rewrite N. Qed.
(** Refuted: one would expect that matrices of integers can be multiplied. The terms for the entries are of sort Real, which is not that of the matrix. *)
Theorem C70_integers_refuted : forall x y A B, ev x = Ok (VM A) -> ev y = Ok (VM B) -> m_sort A = SInt -> 0 < m_cols B -> forall V, ev (MOp OpMat x y) <> Ok V.
Proof.
  intros x y A B Ex Ey SA Hc V H. cbn [evaluate] in H. rewrite Ex, Ey in H. cbn [bind] in H.
  destruct (ev_matrix_inv _ _ Ex) as (z & Ez). apply eval_matrix_inv in Ez as (_ & Hn & (_ & _ & LA & WA) & _). destruct (ev_matrix_inv _ _ Ey) as (z' & Ez'). apply eval_matrix_inv in Ez' as (_ & Hk & (_ & _ & LB & WB) & _).
  unfold multiply in H. destruct (Nat.eqb (m_cols A) (m_rows B)) eqn:Q; [|discriminate]. apply Nat.eqb_eq in Q. destruct (mapM _ (m_array A)) as [rows|] eqn:E; [|discriminate]. cbn [bind] in H.
  destruct (matrix K rows (m_sort A)) as [p|] eqn:Ep; [|discriminate]. apply matrix_ok in Ep as (_ & _ & _ & _ & C & _). rewrite SA in C.
  destruct (m_array A) as [|r rs] eqn:EA; [cbn in LA; lia|]. cbn in E.
  assert (Col : exists c cs, columns K B = c :: cs /\ List.length c = m_rows B).
  { unfold columns. destruct (m_array B) as [|b bs] eqn:EB; [cbn in LB; lia|]. rewrite <- EB in *. destruct (m_cols B) as [|cb]; [lia|]. cbn [seq map]. eexists _, _. split; [reflexivity|]. rewrite <- LB. clear - WB. unfold column.
    induction (m_array B) as [|r rs IH]; [reflexivity|]. cbn. pose proof (WB r (or_introl eq_refl)) as Lr. destruct r as [|t r]; [discriminate|]. cbn. f_equal. apply IH. intros r' Hr'. apply WB. now right. }
  destruct Col as (c & cs & Ec & Lc). rewrite Ec in E. cbn in E. pose proof (WA r (or_introl eq_refl)) as Lr.
  destruct r as [|u r]; [cbn in Lr; lia|]. destruct c as [|w c]; [cbn in Lc; lia|]. cbn in E. clear - E C.
  assert (Q : forall ts acc e, (exists t, acc = Ok (ET t) /\ term_sort K t = SReal) \/ (exists e, acc = Err e) -> fold_left (fun acc t => let! a := acc in plus_terms K a t) ts acc = Ok e -> exists t, e = ET t /\ term_sort K t = SReal).
  { induction ts as [|t ts IH]; intros acc e HA HF; cbn in HF; [destruct HA as [(u' & -> & HT) | (e' & ->)]; [injection HF as <-; eauto | discriminate]|]. apply (IH _ e) in HF; [exact HF|].
    destruct HA as [(u' & -> & HT) | (e' & ->)]; cbn; eauto. }
  unfold sum_terms in E. cbn in E. destruct (fold_left _ _ _) as [s|] eqn:Es; [|discriminate]. cbn in E.
  apply Q in Es; [|destruct (f_within K (f_of_int K 0)); cbn; [left; eauto | right; eauto]].
  destruct Es as (t & -> & HT). cbn in E. destruct (mapM _ cs) as [q|] in E; [|discriminate]. cbn in E. destruct (mapM _ rs) as [q'|] in E; [|discriminate]. cbn in E. injection E as <-. cbn in C. rewrite HT in C. discriminate.
Qed.
(** Refuted: one would expect that matrices can be added, subtracted, or multiplied and divided entry by entry. *)
Theorem C70_sum_refuted : forall x y A B o, ev x = Ok (VM A) -> ev y = Ok (VM B) -> o <> OpMat -> ev (MOp o x y) = Err ValueError.
Proof. intros x y A B o Ex Ey N. cbn. rewrite Ex, Ey. cbn. destruct o; congruence. Qed.

Definition with_float (o : mop) (left : bool) (x c : F) : res F := if left then float_op K o c x else float_op K o x c.
Lemma real_op : forall o x y, o <> OpMat -> arithmetic K o (CR x) (CR y) = let! z := float_op K o x y in if f_within K z then Ok (CR z) else Err ValueError.
Proof. intros o x y N. unfold arithmetic. destruct o; cbn; try reflexivity; [now destruct (f_div K x y)|congruence]. Qed.
(** A matrix and a number: the operator is applied to each entry, on the side where the number is. *)
Theorem C70_elementwise : forall x y A c n k a (o : mop) (left : bool), ev x = Ok (VM A) -> ev y = Ok (VS c) -> is_table K A n k a -> o <> OpMat ->
  let e := if left then MOp o y x else MOp o x y in
  (forall V, ev e = Ok V -> exists C b, V = VM C /\ is_table K C n k b /\ forall i j, i < n -> j < k -> with_float o left (a i j) (const_float K c) = Ok (b i j)) /\
  (forall b, f_within K (const_float K c) = true -> (forall i j, i < n -> j < k -> with_float o left (a i j) (const_float K c) = Ok (b i j) /\ f_within K (b i j) = true) ->
     exists C, ev e = Ok (VM C) /\ is_table K C n k b).
Proof.
  intros x y A c n k a o left Ex Ey TA No e.
  assert (Hn : 0 < n). { destruct (ev_matrix_inv _ _ Ex) as (z & Ez). apply eval_matrix_inv in Ez as (_ & P & _). destruct TA as ((R & _) & _). now rewrite R in P. }
  pose (g := fun t : sterm K => if left then SOp o (SC (CR (const_float K c))) t else SOp o t (SC (CR (const_float K c)))).
  pose (f := fun t : sterm K => if left then number_with K o (symbol K c) t else with_number K o (symbol K c) t).
  assert (Fg : forall z, f (SC (CR z)) = if f_within K (const_float K c) then Ok (ET (g (SC (CR z)))) else Err ValueError).
  { intros z. unfold f, g, number_with, with_number. destruct left, c as [w|w]; cbn; now destruct (f_within K _). }
  assert (Ee : ev e = let! p := elementwise K f A in let! v := eval_matrix K fluents p in Ok (VM v)).
  { unfold e, f. destruct left; cbn [evaluate]; rewrite Ex, Ey; cbn [bind]; destruct o; congruence || reflexivity. }
  assert (Ev : forall z, evs (g (SC (CR z))) = let! w := with_float o left z (const_float K c) in if f_within K w then Ok (CR w) else Err ValueError).
  { intros z. unfold g, with_float. destruct left; cbn [eval_scalar bind]; now apply real_op. }
  rewrite Ee. clear Ee. rewrite (is_table_tab K _ _ _ _ TA). unfold elementwise. cbn [m_array m_rows m_cols m_sort tabmat].
  assert (Ck : mapM (mapM (check_entry K SReal)) (tab n k (fun i j => ET (g (SC (CR (a i j)))))) = Ok (tab n k (fun i j => g (SC (CR (a i j)))))).
  { apply mapM_tab. intros i j _ _. unfold g. now destruct left. }
  assert (El : f_within K (const_float K c) = true \/ k = 0 -> (let! rows := mapM (mapM f) (tab n k (fun i j => SC (CR (a i j)))) in check_matrix K n k SReal rows) = Ok (tabmat K n k SReal (fun i j => g (SC (CR (a i j)))))).
  { intros W. rewrite (mapM_tab _ _ n k f _ (fun i j => ET (g (SC (CR (a i j)))))); [cbn [bind]; unfold check_matrix; now rewrite Ck|]. intros i j Hi Hj. rewrite Fg. destruct W as [-> | ->]; [reflexivity|lia]. }
  split.
  - intros V H. destruct (mapM (mapM f) (tab n k (fun i j => SC (CR (a i j))))) as [rows|] eqn:Er; [|discriminate].
    assert (W : f_within K (const_float K c) = true \/ k = 0).
    { destruct k as [|k]; [now right|left]. destruct (mapM_tab_ok _ _ _ _ _ _ _ Er 0 0 Hn ltac:(lia)) as (u & Eu). rewrite Fg in Eu. now destruct (f_within K (const_float K c)). }
    specialize (El W). rewrite El in H. cbn [bind] in H. destruct (eval_matrix K fluents _) as [v|] eqn:E; [|discriminate]. cbn [bind] in H. injection H as <-.
    pose (b := fun i j => match with_float o left (a i j) (const_float K c) with Ok w => w | Err _ => f_of_int K 0 end).
    assert (Q : forall i j, i < n -> j < k -> with_float o left (a i j) (const_float K c) = Ok (b i j) /\ evs (g (SC (CR (a i j)))) = Ok (CR (b i j))).
    { intros i j Hi Hj. clear Ck Er El. unfold eval_matrix in E. cbn [m_array tabmat] in E. destruct (mapM _ (tab n k _)) as [rs|] eqn:Ers; [|discriminate].
      destruct (mapM_tab_ok _ _ _ _ _ _ _ Ers i j Hi Hj) as (u & Eu). cbv beta in Eu. rewrite Ev in Eu |- *. unfold b. destruct (with_float o left (a i j) (const_float K c)) as [w|]; [|discriminate]. cbn [bind] in Eu |- *. now destruct (f_within K w). }
    rewrite (eval_matrix_tab K fluents n k _ b Hn) in E by (intros; now apply Q). injection E as <-. eexists _, b. split; [reflexivity|]. split; [apply tab_is_table|]. intros i j Hi Hj. now apply Q.
  - intros b W Q. rewrite El by now left. cbn [bind]. rewrite (eval_matrix_tab K fluents n k _ b Hn); [eexists; split; [reflexivity|apply tab_is_table]|]. intros i j Hi Hj. rewrite Ev. destruct (Q i j Hi Hj) as [-> Wb]. cbn. now rewrite Wb.
Qed.

Lemma transposed_tab : forall n k s (t : nat -> nat -> sterm K), transposed K (tabmat K n k s t) = tabmat K k n s (fun j i => t i j).
Proof.
  intros n k s t. unfold transposed, tabmat. cbn [m_rows m_cols m_sort m_array]. f_equal. unfold tab at 2. apply map_ext_in. intros j Hj. apply in_seq in Hj. apply column_tab. lia.
Qed.
Lemma shaped_get : forall m n k, shaped K m n k -> exists t, m = tabmat K n k (m_sort m) t.
Proof.
  intros m n k Sh. exists (fun i j => match getitem K m i j with Ok t => t | Err _ => SF EmptyString SReal end). apply shaped_tab; [exact Sh|]. destruct Sh as (R & C & L & W).
  intros i j Hi Hj. destruct (getitem K m i j) as [u|e] eqn:Eu; [reflexivity|]. exfalso. unfold getitem in Eu.
  destruct (nth_error (m_array m) i) as [r|] eqn:Er; [|apply nth_error_None in Er; lia]. pose proof (W r (nth_error_In _ _ Er)). destruct (nth_error r j) eqn:Ej; [discriminate|]. apply nth_error_None in Ej. lia.
Qed.
(** Transposition swaps rows and columns, and is its own inverse. *)
Theorem C70_transpose : forall m n k, shaped K m n k -> exists t, transpose K (MM m) = Ok (MM t) /\ shaped K t k n /\ m_sort t = m_sort m /\
  (forall i j, i < n -> j < k -> getitem K t j i = getitem K m i j) /\ transpose K (MM t) = Ok (MM m).
Proof.
  intros m n k Sh. destruct (shaped_get m n k Sh) as (f & E). exists (transposed K m). split; [reflexivity|]. rewrite E. rewrite transposed_tab. split; [apply tabmat_shaped|]. split; [reflexivity|]. split.
  - intros i j Hi Hj. now rewrite !tabmat_get.
  - cbn [transpose]. now rewrite transposed_tab.
Qed.
(** The value of the transposed matrix is the transposed value. *)
Theorem C70_transpose_value : forall m n k a V, shaped K m n k -> m_sort m = SReal -> 0 < k -> ev (MM m) = Ok (VM V) -> is_table K V n k a ->
  exists m' V', transpose K (MM m) = Ok (MM m') /\ ev (MM m') = Ok (VM V') /\ is_table K V' k n (fun j i => a i j).
Proof.
  intros m n k a V Sh So Hk Ev TV. assert (Hn : 0 < n). { destruct (ev_matrix_inv _ _ Ev) as (z & Ez). apply eval_matrix_inv in Ez as (_ & P & _). destruct TV as ((R & _) & _). now rewrite R in P. }
  pose proof (proj2 (C70_literal m n k a Sh So Hn) (ex_intro _ V (conj Ev TV))) as L. destruct (C70_transpose m n k Sh) as (t & T1 & T2 & T3 & T4 & _). exists t.
  destruct (proj1 (C70_literal t k n (fun j i => a i j) T2 ltac:(congruence) Hk)) as (V' & E' & TV').
  - intros j i Hj Hi. rewrite T4 by assumption. now apply L.
  - exists V'. auto.
Qed.
Lemma dot_comm : (forall x y, f_mul K x y = f_mul K y x) -> forall x y k, dot K x y k = dot K y x k.
Proof. intros C x y k. induction k as [|k IH]; cbn; [reflexivity|]. now rewrite IH, C. Qed.
(** The transposed matrices multiply, in the other order, to the transposed product (multiplication of floats commutes; addition need not be associative). *)
Theorem C70_transpose_product : (forall x y, f_mul K x y = f_mul K y x) -> forall x y x' y' A B A' B' n k m a b, ev x = Ok (VM A) -> ev y = Ok (VM B) -> is_table K A n k a -> is_table K B k m b ->
  ev x' = Ok (VM A') -> ev y' = Ok (VM B') -> is_table K A' k n (fun j i => a i j) -> is_table K B' m k (fun j i => b i j) ->
  forall C C', ev (MOp OpMat x y) = Ok (VM C) -> ev (MOp OpMat y' x') = Ok (VM C') -> transpose K (MM C) = Ok (MM C').
Proof.
  intros Cm x y x' y' A B A' B' n k m a b Ex Ey TA TB Ex' Ey' TA' TB' C C' E E'.
  destruct (C70_product x y A B n k m a b Ex Ey TA TB) as [P _]. destruct (P _ E) as (C0 & Q & TC). injection Q as <-.
  destruct (C70_product y' x' B' A' m k n _ _ Ey' Ex' TB' TA') as [P' _]. destruct (P' _ E') as (C0 & Q & TC'). injection Q as <-.
  cbn [transpose]. do 2 f_equal. rewrite (is_table_tab K _ _ _ _ TC), transposed_tab, (is_table_tab K _ _ _ _ TC'). unfold tabmat. f_equal. apply tab_ext. intros j i _ _. do 2 f_equal. now apply dot_comm.
Qed.
(** What the transposition of an expression looks like: matrices have rows and columns exchanged, sums and differences keep the order of their operands, products exchange them. *)
Inductive flips : mexp K -> mexp K -> Prop :=
| flips_matrix m n k t : shaped K m n k -> shaped K t k n -> m_sort t = m_sort m -> (forall i j, i < n -> j < k -> getitem K t j i = getitem K m i j) -> flips (MM m) (MM t)
| flips_sum o a b a' b' : o = OpPlus \/ o = OpMinus -> flips a a' -> flips b b' -> flips (MOp o a b) (MOp o a' b')
| flips_product a b a' b' : flips a a' -> flips b b' -> flips (MOp OpTimes a b) (MOp OpTimes b' a').
Fixpoint matrices_shaped (e : mexp K) : Prop := match e with MM m => exists n k, shaped K m n k | MOp _ a b => matrices_shaped a /\ matrices_shaped b | _ => True end.
Theorem C70_transpose_form : forall e, matrices_shaped e -> (forall e', transpose K e = Ok e' -> flips e e') /\ ((exists e', flips e e') -> exists e', transpose K e = Ok e').
Proof.
  induction e as [c|f s|m|o a IHa b IHb]; intros Sh.
  - split; [intros e' H; discriminate H|]. intros (e' & H). inversion H.
  - split; [intros e' H; discriminate H|]. intros (e' & H). inversion H.
  - destruct Sh as (n & k & Sh). destruct (C70_transpose m n k Sh) as (t & T & St & So & G & _). split; [|intros _; exists (MM t); exact T]. intros e' H. rewrite T in H. injection H as <-. exact (flips_matrix m n k t Sh St So G).
  - destruct Sh as [Sa Sb]. destruct (IHa Sa) as [A1 A2]. destruct (IHb Sb) as [B1 B2]. split.
    + intros e' H. destruct o; cbn [transpose] in H; try discriminate H; destruct (transpose K a) as [a'|]; try discriminate H; destruct (transpose K b) as [b'|]; try discriminate H; cbn [bind] in H; injection H as <-.
      * apply flips_sum; [now left|exact (A1 a' eq_refl)|exact (B1 b' eq_refl)].
      * apply flips_sum; [now right|exact (A1 a' eq_refl)|exact (B1 b' eq_refl)].
      * apply flips_product; [exact (A1 a' eq_refl)|exact (B1 b' eq_refl)].
    + intros (e' & H). inversion H as [|? ? ? a' b' O Fa Fb|? ? a' b' Fa Fb]; subst; destruct (A2 (ex_intro _ _ Fa)) as (u & Tu); destruct (B2 (ex_intro _ _ Fb)) as (v & Tv); [destruct O as [-> | ->]|]; cbn [transpose]; rewrite Tu, Tv; eexists; reflexivity.
Qed.
(** Numbers: the operators on integers are those of the integers, and the result is of sort Integer, unless it is out of its bounds. *)
Theorem C70_scalars : forall x y (a b : Z) o r, ev x = Ok (VS (CI a)) -> ev y = Ok (VS (CI b)) -> In (o, r) [(OpPlus, (a + b)%Z); (OpMinus, (a - b)%Z); (OpTimes, (a * b)%Z)] ->
  ((-2147483647 <= r <= 2147483647)%Z -> ev (MOp o x y) = Ok (VS (CI r))) /\ (~ (-2147483647 <= r <= 2147483647)%Z -> ev (MOp o x y) = Err ValueError).
Proof.
  intros x y a b o r Ex Ey H. cbn [evaluate]. rewrite Ex, Ey. cbn [bind]. unfold arithmetic. assert (Q : number_op K o (symbol K (CI a)) (symbol K (CI b)) = Ok (NI r)).
  { destruct H as [H|[H|[H|[]]]]; injection H as <- <-; reflexivity. }
  rewrite Q. cbn [bind infer_sort constant]. unfold int_bound. split; intros B.
  - rewrite (proj2 (Z.leb_le _ _)) by lia. rewrite (proj2 (Z.leb_le _ _)) by lia. reflexivity.
  - change (- (2147483647))%Z with (-2147483647)%Z. destruct (Z.leb (-2147483647) r) eqn:E1; [|reflexivity]. destruct (Z.leb r 2147483647) eqn:E2; [|reflexivity]. apply Z.leb_le in E1. apply Z.leb_le in E2. exfalso. apply B. split; assumption.
Qed.
(** Refuted: one would expect that expressions can be transposed. Scalars cannot, nor can products of matrices, and what comes out for sums has no value. *)
Theorem C70_transpose_expressions_refuted : forall e e' V, transpose K e = Ok e' -> ev e' = Ok V -> exists m, e = MM m.
Proof.
  assert (G : forall e e', transpose K e = Ok e' -> forall V, ev e' = Ok V -> (exists m, V = VM m) /\ exists m, e = MM m).
  { induction e as [c|f s|m|o a IHa b IHb]; intros e' T V E; cbn in T; try discriminate; [injection T as <-; cbn in E; destruct (eval_matrix K fluents _) as [v|]; [|discriminate]; cbn in E; injection E as <-; eauto|].
    exfalso. assert (B : forall u v w, transpose K a = Ok u -> transpose K b = Ok v -> o <> OpMat -> ev (MOp o u v) <> Ok w /\ ev (MOp o v u) <> Ok w).
    { intros u v w Tu Tv No. split; intros H; cbn [evaluate] in H; destruct (ev u) as [z|] eqn:Eu, (ev v) as [z'|] eqn:Ev; try discriminate;
        destruct (IHa u Tu z Eu) as ((? & ->) & _); destruct (IHb v Tv z' Ev) as ((? & ->) & _); cbn in H; destruct o; congruence. }
    destruct o; try discriminate; destruct (transpose K a) as [u|] eqn:Ta; try discriminate; destruct (transpose K b) as [v|] eqn:Tb; try discriminate; cbn in T; injection T as <-;
      destruct (B u v V eq_refl eq_refl ltac:(discriminate)) as [B1 B2]; congruence. }
  intros e e' V T E. now destruct (G e e' T V E).
Qed.
Theorem C70_transpose_scalar_refuted : forall c, transpose K (MC c) = Err ValueError.
Proof. reflexivity. Qed.
End Props.

(** The whole numbers as floats *)
Definition whole : floats := {| float := Z; f_add := Z.add; f_sub := Z.sub; f_mul := Z.mul; f_div := fun x y => if Z.eqb y 0 then Err ValueError else Ok (Z.div x y); f_within := fun z => Z.leb (Z.abs z) 1000; f_of_int := fun z => z; f_integer := @Some Z |}.
Definition row (l : list Z) : list (entry whole) := map (fun z => EN (NI z)) l.
Definition made (r : res (mat whole)) : mexp whole := match r with Ok m => MM m | Err _ => MC (CI 0) end.
Definition mat_a := made (matrix whole [row [1; 2; 3]; row [4; 5; 6]]%Z SReal).
Definition mat_b := made (vector whole [EN (NI 1); ET (SF "speed" SReal); EN (NI (-1))]%Z SReal).
Definition speeds (f : string) : res (const whole) := if String.eqb f "speed" then Ok (CR (10 : float whole)%Z) else Err UndefinedTerm.
Definition numbers (r : res (mval whole)) : option (list (list (sterm whole))) := match r with Ok (VM m) => Some (m_array m) | _ => None end.
Theorem C70_nonvacuous :
  numbers (evaluate whole speeds (MOp OpMat mat_a mat_b)) = Some [[SC (CR (18 : float whole)%Z)]; [SC (CR (48 : float whole)%Z)]] /\
  numbers (evaluate whole speeds (MOp OpMinus (MC (CI 1%Z)) mat_b)) = Some [[SC (CR (0 : float whole)%Z)]; [SC (CR (-9 : float whole)%Z)]; [SC (CR (2 : float whole)%Z)]] /\
  evaluate whole speeds (MOp OpMat mat_b mat_a) = Err TypeError /\
  (let! t := transpose whole mat_a in Ok (numbers (evaluate whole speeds (MOp OpMat t mat_a)))) = Ok (Some (map (map (fun z => SC (CR (z : float whole)))) [[17; 22; 27]; [22; 29; 36]; [27; 36; 45]]%Z)).
Proof.
  split; [vm_compute; reflexivity|]. split; [vm_compute; reflexivity|]. split; vm_compute; reflexivity.
Qed.
Print Assumptions C70_product. Print Assumptions C70_elementwise. Print Assumptions C70_literal. Print Assumptions C70_transpose_product. Print Assumptions C70_transpose_expressions_refuted.
