(** The initial state of a printed problem *)
From Coq Require Import Permutation Ascii DecimalString.
From Verif Require Import Base Syntax Semantics SemLemmas ListUtil PropsGrounding Asp ModelState ModelSpec ModelProofs ModelText ModelTextSpec ModelTextProofs Lang LangSpec LangProofs LangProofs2 LangProofs3 Effects Represent Costs PddlText PddlRead PddlSpec PddlProofs PddlProofs2
  PddlAction PddlActionSpec PddlActionProofs PropsPddlAction PddlProblem PddlProblemSpec PddlProblemProofs PddlProblemProofs2 PddlProblemProofs3.
Local Open Scope string_scope.

Definition item := (signature * (list term * term) + signature * list term)%type.
Definition item_text (i : item) : string :=
  match i with
  | inl (s, (pt, v)) => "(= (" ++ sig_name s ++ " " ++ print_points pt ++ ") " ++ text v ++ ")"
  | inr (s, pt) => "(" ++ sig_name s ++ " " ++ print_points pt ++ ")"
  end.
Definition items (m : model) : list item := (map inl (fpoints m) ++ map inr (ppoints m))%list.
Lemma print_init_items m : print_init m = lines (map item_text (items m)).
Proof.
  unfold print_init, items, fpoints, ppoints. f_equal. rewrite map_app. f_equal.
  - induction (funs m) as [|[s ext] l IH]; [reflexivity|]. cbn [flat_map fst snd]. rewrite !map_app, IH. f_equal. rewrite !map_map. apply map_ext. intros [pt v]. reflexivity.
  - induction (preds m) as [|[s ext] l IH]; [reflexivity|]. cbn [flat_map fst snd]. rewrite !map_app, IH. f_equal. rewrite !map_map. apply map_ext. intros pt. reflexivity.
Qed.
Lemma mrun_outcomes sub ops : forall m, mrun sub ops m = snd (outcomes (mstep sub) ops m).
Proof. induction ops as [|o ops IH]; intros m; [reflexivity|]. cbn [outcomes mrun fold_left]. change (fold_left _ ops ?x) with (mrun sub ops x). rewrite IH. destruct (mstep sub m o) as [e m1]. cbn [snd]. destruct (outcomes (mstep sub) ops m1). reflexivity. Qed.
(** The model is made of the items in [D]. *)
Definition made (D : list item) (m : model) : Prop :=
  (forall p pt, m_holds m p pt = true <-> In (inr (psig p, pt)) D) /\ (forall f pt v, m_value m f pt = Ok v <-> In (inl (fsig f, (pt, v))) D).
Lemma made_items sub ops : forallb op_constants ops = true -> let m := mrun sub ops empty_model in
  stored (fun _ => True) (fun _ => True) (fun _ => True) m /\ made (items m) m /\ (forall s pt v v', In (inl (s, (pt, v))) (items m) -> In (inl (s, (pt, v'))) (items m) -> v = v').
Proof.
  intros Hc m. assert (St : stored (fun _ => True) (fun _ => True) (fun _ => True) m) by (unfold m; rewrite mrun_outcomes; apply stored_history; auto using stored_empty).
  assert (L : forall x, In (inl x) (items m) <-> In x (fpoints m)).
  { intros x. unfold items. rewrite in_app_iff. split; [intros [H|H]; apply in_map_iff in H as (y & E & H); [injection E as <-; exact H|discriminate]|]. intros H. left. now apply in_map. }
  assert (R : forall x, In (inr x) (items m) <-> In x (ppoints m)).
  { intros x. unfold items. rewrite in_app_iff. split; [intros [H|H]; apply in_map_iff in H as (y & E & H); [discriminate|injection E as <-; exact H]|]. intros H. right. now apply in_map. }
  split; [exact St|]. split; [split|].
  - intros p pt. rewrite R, (ppoints_In _ _ _ _ _ _ St). unfold m_holds. destruct (dget sig_eqb (preds m) (psig p)) as [ext|]; [|split; [discriminate|intros (? & ? & _); discriminate]].
    rewrite pt_mem_In. split; [eauto|]. intros (e & E & H). now injection E as ->.
  - intros f pt v. rewrite L, (fpoints_In _ _ _ _ _ _ _ St). unfold m_value. destruct (dget sig_eqb (funs m) (fsig f)) as [ext|]; [|split; [discriminate|intros (? & ? & _); discriminate]].
    destruct (dget points_eqb ext pt) as [w|] eqn:E; [|split; [discriminate|intros (e & Q & H); injection Q as <-; rewrite E in H; discriminate]]. split; [intros H; injection H as <-; eauto|]. intros (e & Q & H). injection Q as <-. rewrite E in H. now injection H as ->.
  - intros s pt v v'. rewrite !L, !(fpoints_In _ _ _ _ _ _ _ St). intros (e & E & H) (e' & E' & H'). rewrite E in E'. injection E' as <-. rewrite H in H'. now injection H' as ->.
Qed.
Lemma made_same D m m' : made D m -> made D m' -> same_extensions m m'.
Proof.
  intros [A B] [A' B']. split.
  - intros p pt. apply Bool.eq_true_iff_eq. now rewrite A, A'.
  - intros f pt. assert (K : forall x, m_value x f pt = Err KeyError \/ exists v, m_value x f pt = Ok v).
    { intros x. unfold m_value. destruct (dget sig_eqb (funs x) (fsig f)) as [ext|]; [|now left]. destruct (dget points_eqb ext pt); [right; eauto|now left]. }
    destruct (K m) as [E|(v & E)], (K m') as [E'|(v' & E')]; try congruence.
    + pose proof (proj2 (B _ _ _) (proj1 (B' _ _ _) E')). congruence.
    + pose proof (proj2 (B' _ _ _) (proj1 (B _ _ _) E)). congruence.
    + pose proof (proj2 (B' _ _ _) (proj1 (B _ _ _) E)). congruence.
Qed.
Lemma made_add sub D m p pt m' : made D m -> m_add sub m p pt = Ok m' -> made (D ++ [inr (psig p, pt)]) m'.
Proof.
  intros [A B] H. unfold m_add in H. destruct p as [b|n ss]; [discriminate|]. destruct (check_assignment sub ss pt) as [u|]; [|discriminate]. cbn [bind] in H. inversion H; subst m'; clear H. split.
  - intros q a. unfold m_holds. cbn [ModelState.preds]. change (false, n :: ss) with (psig (PU n ss)). rewrite (dget_dset sig_eqb sig_eqb_eq), in_app_iff, <- A. destruct (sig_eqb (psig (PU n ss)) (psig q)) eqn:E.
    + apply sig_eqb_eq, psig_inj in E. subst q. cbv iota. rewrite pt_mem_add, orb_true_iff, points_eqb_eq. unfold m_holds. destruct (dget sig_eqb (ModelState.preds m) (psig (PU n ss))); cbn [In]; intuition congruence.
    + unfold m_holds. cbn [In]. split; [auto|]. intros [H|[H|[]]]; [exact H|]. exfalso. assert (X : psig (PU n ss) = psig q) by congruence. apply sig_eqb_eq in X. congruence.
  - intros f a v. rewrite in_app_iff. cbn [In]. rewrite <- (B f a v). unfold m_value. cbn [ModelState.funs]. intuition congruence.
Qed.
Lemma made_set sub D m f pt v m' : (forall v', In (inl (fsig f, (pt, v'))) D -> v' = v) -> made D m -> m_set sub m (App f pt) v = Ok m' -> made (D ++ [inl (fsig f, (pt, v))]) m'.
Proof.
  intros Hf [A B] H. unfold m_set in H. destruct f as [b|n d c]; [discriminate|]. destruct (forallb is_cst pt); [|discriminate]. destruct (check_assignment sub (d ++ [c]) (pt ++ [v])) as [u|]; [|discriminate]. cbn [bind] in H. inversion H; subst m'; clear H. split.
  - intros q a. rewrite in_app_iff. cbn [In]. rewrite <- (A q a). unfold m_holds. cbn [ModelState.preds]. intuition congruence.
  - intros g a w. unfold m_value. cbn [ModelState.funs]. change (false, (n :: d ++ [c])%list) with (fsig (FU n d c)). rewrite (dget_dset sig_eqb sig_eqb_eq), in_app_iff, <- B. destruct (sig_eqb (fsig (FU n d c)) (fsig g)) eqn:E.
    + apply sig_eqb_eq in E. rewrite <- E. cbv iota. rewrite (dget_dset points_eqb points_eqb_eq). destruct (points_eqb pt a) eqn:Q.
      * apply points_eqb_eq in Q. subst a. split; [intros X; injection X as <-; right; now left|]. intros [X|[X|[]]]; [|injection X as <-; reflexivity]. apply B in X. rewrite <- E in X. now rewrite (Hf w X).
      * unfold m_value. rewrite <- E. cbn [In]. assert (X : pt <> a) by (intros X; apply points_eqb_eq in X; congruence). destruct (dget sig_eqb (ModelState.funs m) (fsig (FU n d c))) as [ext|]; [intuition congruence|]. cbn [dget]. intuition congruence.
    + unfold m_value. cbn [In]. split; [auto|]. intros [X|[X|[]]]; [exact X|]. exfalso. assert (Y : fsig (FU n d c) = fsig g) by congruence. apply sig_eqb_eq in Y. congruence.
Qed.
Lemma foldM_made {X} (f : model -> X -> res model) (all : list item) xs ys :
  (forall s pt v v', In (inl (s, (pt, v))) all -> In (inl (s, (pt, v'))) all -> v = v') ->
  Forall2 (fun x y => forall m, exists m', f m x = Ok m' /\
     exists sub, match y with inr (s, pt) => exists p, s = psig p /\ m_add sub m p pt = Ok m' | inl (s, (pt, v)) => exists g, s = fsig g /\ m_set sub m (App g pt) v = Ok m' end) xs ys ->
  forall D m, made D m -> incl (D ++ ys) all -> exists m', foldM f m xs = Ok m' /\ made (D ++ ys) m'.
Proof.
  intros Hf. induction 1 as [|x y xs ys H _ IH]; intros D m Hm Hi; [exists m; rewrite app_nil_r; auto|].
  destruct (H m) as (m1 & E & sub & Hy). cbn [foldM]. rewrite E. cbn [bind].
  assert (Es : (D ++ y :: ys)%list = ((D ++ [y]) ++ ys)%list) by (rewrite <- app_assoc; reflexivity). rewrite Es in *. apply IH; [|exact Hi].
  destruct y as [[s [pt v]]|[s pt]].
  - destruct Hy as (g & -> & Hy). apply (made_set sub D m g pt v m1); [|exact Hm|exact Hy]. intros v' Hv. apply (Hf (fsig g) pt); apply Hi; rewrite !in_app_iff; [left; now left|left; right; now left].
  - destruct Hy as (p & -> & Hy). exact (made_add sub D m p pt m1 Hm Hy).
Qed.
Lemma made_empty : made [] empty_model.
Proof. split; intros; cbn; split; intros H; try discriminate; destruct H. Qed.

(** ** Reading the items *)
Section Items.
Variable parse : bool -> string -> option Z.
Variable l : lang.
Hypothesis Hrefl : forall s, pl_sub (view parse l) s s = true.
Definition constant_ok (t : term) (r : sort) : Prop := exists k, t = Cst (CStr k) r /\ legal_name k = true /\ pl_const (view parse l) k = Some r.
Lemma constant_reads t r : constant_ok t r -> reads (text t) [A (TName (text t))] /\ read_constant parse l (A (TName (text t))) = Ok t.
Proof. intros (k & -> & Hk & Hc). cbn [text name_text]. split; [now apply name_reads|]. cbn [read_constant]. now rewrite legal_lower, Hc. Qed.
Lemma constants_read pt : Forall (fun t => exists r, constant_ok t r) pt ->
  reads (print_points pt) (map (fun t => A (TName (text t))) pt) /\ mapM (read_constant parse l) (map (fun t => A (TName (text t))) pt) = Ok pt.
Proof.
  intros H. split.
  - apply reads_join. induction H as [|t pt (r & Ht) _ IH]; cbn [map]; constructor; [now apply (constant_reads t r)|exact IH].
  - induction H as [|t pt (r & Ht) _ IH]; [reflexivity|]. cbn [map]. rewrite mapM_cons, (proj2 (constant_reads t r Ht)), IH. reflexivity.
Qed.
Lemma assignment_ok sub pt ss : Forall2 (fun t s => exists r, constant_ok t r /\ sub r s = true) pt ss -> check_assignment sub ss pt = Ok tt.
Proof.
  intros H. unfold check_assignment. assert (E : List.length ss = List.length pt) by (induction H; cbn; congruence). rewrite E, Nat.eqb_refl. clear E.
  induction H as [|t s pt ss (r & (k & -> & _) & Hs) _ IH]; [reflexivity|]. cbn [ModelState.check_sorts ModelState.sort_of]. now rewrite Hs.
Qed.
Lemma atom_item n ss pt : legal_name n = true -> pl_pred (view parse l) n = Some ss -> Forall2 (fun t s => exists r, constant_ok t r /\ pl_sub (view parse l) r s = true) pt ss ->
  exists x, reads (item_text (inr (psig (PU n ss), pt))) [x] /\ forall m, exists m', read_init_element parse l m x = Ok m' /\ m_add (pl_sub (view parse l)) m (PU n ss) pt = Ok m'.
Proof.
  intros Hn Hp H. assert (Hc : Forall (fun t => exists r, constant_ok t r) pt) by (clear -H; induction H as [|t s pt ss (r & Hr & _) _ IH]; constructor; eauto).
  destruct (constants_read pt Hc) as [C1 C2]. exists (L (A (TName n) :: map (fun t => A (TName (text t))) pt)). split; [apply reads_form; [now apply name_reads|exact C1]|].
  intros m. cbn [read_init_element]. rewrite legal_lower by exact Hn. rewrite Hp, C2. cbn [bind]. unfold m_add. rewrite (assignment_ok _ _ _ H). cbn [bind]. eauto.
Qed.
Lemma value_item n ss c pt v : legal_name n = true -> pl_fun (view parse l) n = Some (ss, c) -> Forall2 constant_ok pt ss -> (exists r, constant_ok v r /\ pl_sub (view parse l) r c = true) ->
  exists x, reads (item_text (inl (fsig (FU n ss c), (pt, v)))) [x] /\ forall m, exists m', read_init_element parse l m x = Ok m' /\ m_set (pl_sub (view parse l)) m (App (FU n ss c) pt) v = Ok m'.
Proof.
  intros Hn Hp H (r & Hv & Hr). assert (Hc : Forall (fun t => exists r, constant_ok t r) pt) by (clear -H; induction H; constructor; eauto).
  destruct (constants_read pt Hc) as [C1 C2]. destruct (constant_reads v r Hv) as [V1 V2].
  exists (L [A (TKey "="); L (A (TName n) :: map (fun t => A (TName (text t))) pt); A (TName (text v))]). split.
  - cbn [item_text fsig sig_name snd]. assert (E : "(= (" ++ n ++ " " ++ print_points pt ++ ") " ++ text v ++ ")" = "(" ++ "=" ++ " " ++ (("(" ++ n ++ " " ++ print_points pt ++ ")") ++ " " ++ text v) ++ ")").
    { change "(= (" with ("(" ++ "=" ++ " " ++ "("). change (") " ++ text v ++ ")") with (")" ++ (" " ++ (text v ++ ")"))). rewrite !sapp_assoc. reflexivity. }
    rewrite E. apply reads_form; [key|]. apply (reads_space _ _ [_]); [apply reads_form; [now apply name_reads|exact C1]|exact V1].
  - intros m. assert (El : List.length ss = List.length pt) by (clear -H; induction H; cbn; congruence).
    cbn [read_init_element]. change (String.eqb "=" "=") with true. cbn iota. rewrite legal_lower by exact Hn. rewrite Hp, C2. cbn [bind]. rewrite El, Nat.eqb_refl, V2. cbn [bind].
    assert (T : to_constants_of ss pt = Ok pt).
    { clear -H. induction H as [|t s pt ss (k & -> & _) _ IH]; [reflexivity|]. cbn [to_constants_of]. unfold to_constant. cbn [PddlRead.sort_of]. rewrite String.eqb_refl. cbn [bind]. now rewrite IH. }
    rewrite T. cbn [bind]. unfold make_app.
    assert (F : Forall2 (fun t s => exists r, constant_ok t r /\ pl_sub (view parse l) r s = true) pt ss) by (clear -H Hrefl; induction H; constructor; eauto).
    rewrite (check_ok (view parse l) pt ss); [|now rewrite El|].
    + cbn [bind]. unfold m_set. assert (Ic : forallb is_cst pt = true) by (clear -Hc; apply forallb_forall; rewrite Forall_forall in Hc; intros t Ht; destruct (Hc t Ht) as (r & k & -> & _); reflexivity). rewrite Ic.
      rewrite (assignment_ok (pl_sub (view parse l)) (pt ++ [v])%list (ss ++ [c])%list); [cbn [bind]; eauto|]. apply Forall2_app; [exact F|]. constructor; [eauto|constructor].
    + clear -H Hrefl. induction H as [|t s pt ss (k & -> & _) _ IH]; [reflexivity|]. cbn [combine forallb fst snd PddlRead.sort_of]. now rewrite Hrefl, IH.
Qed.
End Items.
