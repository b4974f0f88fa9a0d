From Coq Require Import Lia.
From Verif Require Import Base Matrix MatrixSpec ListUtil.

Lemma mapM_map : forall (A B C : Type) (f : B -> res C) (g : A -> B) l, mapM f (map g l) = mapM (fun x => f (g x)) l.
Proof. induction l as [|x l IH]; cbn; [reflexivity|]. now rewrite IH. Qed.
Lemma mapM_ext_in : forall (A B : Type) (f g : A -> res B) l, (forall x, In x l -> f x = g x) -> mapM f l = mapM g l.
Proof. induction l as [|x l IH]; intros H; cbn; [reflexivity|]. rewrite (H x (or_introl eq_refl)), IH; [reflexivity|]. intros y Hy. apply H. now right. Qed.
Lemma mapM_pure : forall (A B : Type) (h : A -> B) l, mapM (fun x => Ok (h x)) l = Ok (map h l).
Proof. induction l as [|x l IH]; cbn; [reflexivity|]. now rewrite IH. Qed.
Lemma mapM_pure_in : forall (A B : Type) (f : A -> res B) (h : A -> B) l, (forall x, In x l -> f x = Ok (h x)) -> mapM f l = Ok (map h l).
Proof. intros A B f h l H. rewrite (mapM_ext_in _ _ f (fun x => Ok (h x)) l H). apply mapM_pure. Qed.
Lemma mapM_all_ok : forall (A B : Type) (f : A -> res B) l r, mapM f l = Ok r -> forall x, In x l -> exists y, f x = Ok y.
Proof.
  induction l as [|x l IH]; intros r H y Hy; [contradiction|]. cbn in H. destruct (f x) as [v|e] eqn:E; [|discriminate]. cbn in H.
  destruct (mapM f l) as [w|e] eqn:E2; [|discriminate]. destruct Hy as [-> | Hy]; [now exists v|]. exact (IH w eq_refl y Hy).
Qed.
Lemma mapM_nth_none : forall (A B : Type) (f : A -> res B) l r, mapM f l = Ok r -> List.length r = List.length l.
Proof.
  induction l as [|x l IH]; intros r H; cbn in H; [now injection H as <-|]. destruct (f x) as [v|e]; [|discriminate]. cbn in H.
  destruct (mapM f l) as [w|e] eqn:E2; [|discriminate]. injection H as <-. cbn. now rewrite (IH w eq_refl).
Qed.

Section M.
Variable K : floats.
Notation F := (float K).
Definition tab {A} (n k : nat) (f : nat -> nat -> A) : list (list A) := map (fun i => map (f i) (seq 0 k)) (seq 0 n).
Lemma tab_len : forall A n k (f : nat -> nat -> A), List.length (tab n k f) = n.
Proof. intros. unfold tab. now rewrite map_length, seq_length. Qed.
Lemma tab_row : forall A n k (f : nat -> nat -> A) r, In r (tab n k f) -> List.length r = k.
Proof. intros A n k f r H. apply in_map_iff in H as (i & <- & _). now rewrite map_length, seq_length. Qed.
Lemma nth_error_map_seq : forall A (f : nat -> A) n i, i < n -> nth_error (map f (seq 0 n)) i = Some (f i).
Proof.
  intros A f n i H. rewrite nth_error_map, (nth_error_nth' (seq 0 n) 0); [|now rewrite seq_length]. cbn. now rewrite seq_nth.
Qed.
Lemma tab_nth : forall A n k (f : nat -> nat -> A) i, i < n -> nth_error (tab n k f) i = Some (map (f i) (seq 0 k)).
Proof. intros. unfold tab. now apply nth_error_map_seq. Qed.
Lemma list_as_tab : forall A (l : list A) n (f : nat -> A), List.length l = n -> (forall i, i < n -> nth_error l i = Some (f i)) -> l = map f (seq 0 n).
Proof.
  intros A l n f L H. revert n f L H. induction l as [|x l IH]; intros n f L H; cbn in L; subst n; [reflexivity|]. cbn [seq map].
  pose proof (H 0 ltac:(lia)) as H0. cbn in H0. injection H0 as ->. f_equal. rewrite <- seq_shift, map_map. apply (IH (List.length l) (fun i => f (S i)) eq_refl).
  intros i Hi. exact (H (S i) ltac:(lia)).
Qed.
Lemma getitem_nth : forall (m : mat K) i j t, getitem K m i j = Ok t <-> exists r, nth_error (m_array m) i = Some r /\ nth_error r j = Some t.
Proof.
  intros m i j t. unfold getitem. destruct (nth_error (m_array m) i) as [r|] eqn:E; [destruct (nth_error r j) as [u|] eqn:E2|].
  - split; [intros H; injection H as <-; eauto | intros (r' & H & H'); congruence].
  - split; [discriminate|]. intros (r' & H & H'); congruence.
  - split; [discriminate|]. intros (r' & H & H'); congruence.
Qed.
Definition tabmat (n k : nat) (s : nsort) (t : nat -> nat -> sterm K) : mat K := {| m_rows := n; m_cols := k; m_sort := s; m_array := tab n k t |}.
Lemma shaped_tab : forall (m : mat K) n k t, shaped K m n k -> (forall i j, i < n -> j < k -> getitem K m i j = Ok (t i j)) -> m = tabmat n k (m_sort m) t.
Proof.
  intros m n k t (R & C & L & W) G. destruct m as [r c s a]. cbn in *. subst r c. unfold tabmat. f_equal. unfold tab.
  apply list_as_tab; [exact L|]. intros i Hi. destruct (nth_error a i) as [row|] eqn:E; [|apply nth_error_None in E; lia]. f_equal.
  apply list_as_tab; [apply W; now apply nth_error_In in E|]. intros j Hj. specialize (G i j Hi Hj). apply getitem_nth in G as (row' & G1 & G2). cbn in G1. congruence.
Qed.
Lemma tabmat_shaped : forall n k s t, shaped K (tabmat n k s t) n k.
Proof. intros. repeat split; cbn; [apply tab_len | apply tab_row]. Qed.
Lemma tabmat_get : forall n k s t i j, i < n -> j < k -> getitem K (tabmat n k s t) i j = Ok (t i j).
Proof. intros n k s t i j Hi Hj. apply getitem_nth. exists (map (t i) (seq 0 k)). split; [now apply tab_nth | now apply nth_error_map_seq]. Qed.
Lemma is_table_tab : forall m n k a, is_table K m n k a -> m = tabmat n k SReal (fun i j => SC (CR (a i j))).
Proof. intros m n k a (Sh & So & G). rewrite <- So. apply (shaped_tab m n k _ Sh G). Qed.
Lemma tab_is_table : forall n k a, is_table K (tabmat n k SReal (fun i j => SC (CR (a i j)))) n k a.
Proof. intros n k a. split; [apply tabmat_shaped|]. split; [reflexivity|]. intros i j Hi Hj. now rewrite tabmat_get. Qed.
Lemma tab_ext : forall A n k (f g : nat -> nat -> A), (forall i j, i < n -> j < k -> f i j = g i j) -> tab n k f = tab n k g.
Proof. intros A n k f g H. unfold tab. apply map_ext_in. intros i Hi. apply in_seq in Hi. apply map_ext_in. intros j Hj. apply in_seq in Hj. apply H; lia. Qed.

Lemma mapM_tab : forall A B n k (f : A -> res B) (t : nat -> nat -> A) (h : nat -> nat -> B), (forall i j, i < n -> j < k -> f (t i j) = Ok (h i j)) -> mapM (mapM f) (tab n k t) = Ok (tab n k h).
Proof.
  intros A B n k f t h H. unfold tab. rewrite mapM_map. apply mapM_pure_in. intros i Hi. apply in_seq in Hi. rewrite mapM_map. apply mapM_pure_in. intros j Hj. apply in_seq in Hj. apply H; lia.
Qed.
Lemma mapM_tab_ok : forall A B n k (f : A -> res B) (t : nat -> nat -> A) r, mapM (mapM f) (tab n k t) = Ok r -> forall i j, i < n -> j < k -> exists y, f (t i j) = Ok y.
Proof.
  intros A B n k f t r H i j Hi Hj. destruct (mapM_all_ok _ _ _ _ _ H (map (t i) (seq 0 k))) as (y & E).
  - unfold tab. apply in_map_iff. exists i. split; [reflexivity|]. apply in_seq. lia.
  - apply (mapM_all_ok _ _ _ _ _ E (t i j)). apply in_map. apply in_seq. lia.
Qed.
Lemma matrix_tab : forall n k s (t : nat -> nat -> sterm K), 0 < n -> (forall i j, i < n -> j < k -> term_sort K (t i j) = s) -> matrix K (tab n k (fun i j => ET (t i j))) s = Ok (tabmat n k s t).
Proof.
  intros n k s t Hn H. unfold matrix. destruct (tab n k (fun i j => ET (t i j))) as [|r rs] eqn:E.
  - apply (f_equal (@List.length _)) in E. rewrite tab_len in E. cbn in E. lia.
  - assert (L : forall r', In r' (r :: rs) -> List.length r' = k) by (rewrite <- E; apply tab_row). rewrite (L r (or_introl eq_refl)).
    replace (forallb _ (r :: rs)) with true by (symmetry; apply forallb_forall; intros r' Hr; apply Nat.eqb_eq; now apply L).
    rewrite <- E, tab_len. unfold check_matrix. rewrite (mapM_tab _ _ n k _ _ t); [reflexivity|]. intros i j Hi Hj. cbn. rewrite (H i j Hi Hj). now destruct s.
Qed.
Variable fluents : string -> res (const K).
Lemma eval_matrix_tab : forall n k t (v : nat -> nat -> F), 0 < n -> (forall i j, i < n -> j < k -> eval_scalar K fluents (t i j) = Ok (CR (v i j))) ->
  eval_matrix K fluents (tabmat n k SReal t) = Ok (tabmat n k SReal (fun i j => SC (CR (v i j)))).
Proof.
  intros n k t v Hn H. unfold eval_matrix. cbn [m_array tabmat m_sort]. rewrite (mapM_tab _ _ n k _ _ (fun i j => ET (SC (CR (v i j))))).
  - cbn [bind]. now apply (matrix_tab n k SReal (fun i j => SC (CR (v i j)))).
  - intros i j Hi Hj. now rewrite (H i j Hi Hj).
Qed.
(** every value of a matrix is a matrix of constants of its sort with some row *)
Lemma matrix_ok : forall rows s m, matrix K rows s = Ok m -> m_sort m = s /\ 0 < m_rows m /\ shaped K m (m_rows m) (m_cols m) /\ m_rows m = List.length rows /\
  mapM (mapM (check_entry K s)) rows = Ok (m_array m) /\ (forall r, In r rows -> List.length r = m_cols m).
Proof.
  intros rows s m H. unfold matrix in H. destruct rows as [|r rs] eqn:R; [discriminate|]. rewrite <- R in *. destruct (forallb _ rows) eqn:E; [|discriminate].
  unfold check_matrix in H. destruct (mapM _ rows) as [a|e] eqn:M; [|discriminate]. cbn [bind] in H. injection H as <-. cbn [m_sort m_rows m_cols m_array].
  rewrite forallb_forall in E. assert (E' : forall x, In x rows -> List.length x = List.length r) by (intros x Hx; apply Nat.eqb_eq; now apply E).
  split; [reflexivity|]. split; [subst rows; cbn; lia|]. split; [|split; [reflexivity|split; [reflexivity|exact E']]].
  split; [reflexivity|]. split; [reflexivity|]. cbn. split; [now apply mapM_nth_none in M|]. intros x Hx. clear R.
  revert a M Hx. induction rows as [|y ys IH]; intros a M Hx; cbn in M; [injection M as <-; contradiction|].
  destruct (mapM (check_entry K s) y) as [v|e] eqn:Ev; [|discriminate]. cbn in M. destruct (mapM (mapM (check_entry K s)) ys) as [w|e] eqn:Ew; [|discriminate]. cbn in M. injection M as <-.
  destruct Hx as [<- | Hx]; [rewrite (mapM_nth_none _ _ _ _ _ Ev); apply E'; now left | apply (IH ltac:(intros z Hz; apply E; now right) ltac:(intros z Hz; apply E'; now right) w eq_refl Hx)].
Qed.
End M.
