(** C56, C57: the writers of SAS instances *)
From Coq Require Import Ascii.
From Verif Require Import ListUtil Base Syntax SemLemmas SubstProofs ModelState Index PropsIndex ModelText Sas SasText SasTextSpec SasTextProofs PropsFol.
#[local] Open Scope string_scope.

(** ** C57: Fast Downward *)
Lemma free_concat c sep l : free_of c sep -> Forall (free_of c) l -> free_of c (String.concat sep l).
Proof. intros S F. induction F as [|x l H F IH]; [intros []|]. destruct l as [|y l]; [exact H|]. change (String.concat sep (x :: y :: l)) with (x ++ sep ++ String.concat sep (y :: l)). rewrite !free_app. auto. Qed.
Ltac fl := repeat match goal with |- Forall _ (_ :: _) => apply Forall_cons | |- Forall _ [] => apply Forall_nil end.
Lemma view_free str i v : one_line_names str i -> describes str i v -> Forall (free_of (ascii_of_nat 10)) (all_lines (List.length (v_vars v)) v).
Proof.
  intros [N1 N2] D. assert (NUM : forall n, free_of (ascii_of_nat 10) (num n)) by (intros n; apply num_free, nl_digit).
  assert (W : forall s, existsb (fun c => Ascii.eqb c (ascii_of_nat 10)) (list_ascii_of_string s) = false -> free_of (ascii_of_nat 10) s).
  { intros s H X. enough (T : existsb (fun c => Ascii.eqb c (ascii_of_nat 10)) (list_ascii_of_string s) = true) by congruence. apply existsb_exists. exists (ascii_of_nat 10). split; [exact X|apply Ascii.eqb_refl]. }
  assert (SECT : forall l, Forall (free_of (ascii_of_nat 10)) l -> Forall (free_of (ascii_of_nat 10)) (sect l)) by (intros l H; destruct l; [repeat constructor; intros []|exact H]).
  assert (P : forall ps, Forall (free_of (ascii_of_nat 10)) (map ptext ps)). { intros ps. apply Forall_forall. intros s Hs. apply in_map_iff in Hs as (ij & <- & _). unfold ptext. rewrite !free_app. split; [apply NUM|]. split; [now apply W|apply NUM]. }
  assert (Q : forall ps, Forall (free_of (ascii_of_nat 10)) (map etext ps)). { intros ps. apply Forall_forall. intros s Hs. apply in_map_iff in Hs as (ij & <- & _). unfold etext. rewrite !free_app. repeat (split; [first [apply NUM|now apply W]|]). apply NUM. }
  unfold all_lines. assert (FM : forall bs, Forall (Forall (free_of (ascii_of_nat 10))) bs -> Forall (free_of (ascii_of_nat 10)) (flat_map sect bs)). { intros bs H. induction H as [|b bs Hb H IH]; [constructor|]. cbn. apply Forall_app. split; [now apply SECT|exact IH]. }
  apply FM. fl; try (now apply W); try apply NUM.
  - destruct (v_unit v); now apply W.
  - rewrite (de_vars _ _ _ D). apply Forall_flat_map. apply Forall_forall. intros u Hu. apply in_map_iff in Hu as ([x l] & <- & Hx). rewrite Forall_forall in N1. specialize (N1 _ Hx) as [L1 L2]. unfold vlines. apply FM. cbn [fst snd]. fl; try (now apply W); try apply NUM; try exact L1. clear - L2. cbn in L2. induction L2; constructor; auto.
  - pose proof (de_ops _ _ _ D) as O. clear - O N2 W NUM P Q FM. induction O as [|o a os acts (En & _) O IH]; [constructor|]. inversion N2; subst. cbn [flat_map]. apply Forall_app. split; [|now apply IH]. unfold olines. apply FM. fl; try (now apply W); try apply NUM; try apply P; try apply Q. rewrite En. assumption.
  - apply FM. fl; try (now apply W); try apply NUM; try apply P.
  - apply FM. fl; try (now apply W); try apply NUM; try apply P.
Qed.
(** Everything about the instance can be read from the text: the names of the variables and values in order, and, as positions of the right variables and values, the operators, the initial state and the goal. *)
Theorem C57_text_determines_instance : exists read : string -> option view, forall str i t, well_formed i -> one_line_names str i -> fd_dump str (writer_of i) = Ok t ->
  exists v, read t = Some v /\ describes str i v.
Proof.
  exists read_text. intros str i t WF N E. destruct (dump_text str i WF t E) as (v & D & ->). exists v. split; [|exact D]. unfold read_text, lines. rewrite split_join; [now rewrite rview_ok|now apply (view_free str i)|discriminate].
Qed.
Print Assumptions C57_text_determines_instance.
Lemma mapM_ok_iff {A B} (f : A -> res B) l : (exists ys, mapM f l = Ok ys) <-> forall x, In x l -> exists y, f x = Ok y.
Proof.
  induction l as [|x l IH]; [split; [intros _ x []|exists []; reflexivity]|]. split.
  - intros (ys & E). apply mapM_Forall2 in E. intros z Hz. destruct (Forall2_In_l _ _ _ _ E Hz) as (y & _ & Hy). eauto.
  - intros H. destruct (H x (or_introl eq_refl)) as (y & Ey). destruct (proj2 IH (fun z Hz => H z (or_intror Hz))) as (ys & E). exists (y :: ys). cbn. now rewrite Ey, E.
Qed.
(** The writer succeeds exactly on instances with actions whose variables and values are those of the instance. *)
Theorem C57_total : forall str i, well_formed i ->
  (exists t, fd_dump str (writer_of i) = Ok t) <->
  i_actions i <> [] /\ (forall a x v v', In a (i_actions i) -> In (x, v, v') (sa_transitions a) -> legal i x v /\ legal i x v') /\
  (forall x v, In (x, v) (i_initial i) -> legal i x v) /\ (forall x v, In (x, v) (i_goal i) -> legal i x v).
Proof.
  intros str i WF. pose proof (@pair_ok i WF string) as PO.
  assert (PT : forall x v, (exists s, pair_text (writer_of i) x v = Ok s) <-> legal i x v) by (intros x v; exact (PO ptext x v)).
  assert (ET : forall x v, (exists s, effect_text (writer_of i) x v = Ok s) <-> legal i x v) by (intros x v; exact (PO etext x v)).
  assert (VT : exists vs, mapM (variable_text str (writer_of i)) (si_iter (fw_vars (writer_of i))) = Ok vs).
  { apply mapM_ok_iff. intros x Hx. cbn [fw_vars writer_of] in Hx. rewrite run_iter in Hx by apply WF. apply in_map_iff in Hx as ([y l] & <- & Hx). unfold variable_text. cbn [fst]. rewrite (domain_dget i WF y l Hx). eexists. reflexivity. }
  assert (OT : forall a, (exists s, operator_text str (writer_of i) a = Ok s) <-> forall x v v', In (x, v, v') (sa_transitions a) -> legal i x v /\ legal i x v').
  { intros a. unfold operator_text. split.
    - intros (s & E). destruct (mapM (fun t => pair_text _ _ _) (sa_transitions a)) as [pre|] eqn:Ep; [|discriminate]. cbn [bind] in E. destruct (mapM (fun t => effect_text _ _ _) (sa_transitions a)) as [eff|] eqn:Ee; [|discriminate].
      assert (Ep' := proj1 (mapM_ok_iff _ _) (ex_intro _ pre Ep)). assert (Ee' := proj1 (mapM_ok_iff _ _) (ex_intro _ eff Ee)). intros x v v' H. split; [apply PT; exact (Ep' _ H)|apply ET; exact (Ee' _ H)].
    - intros H. destruct (proj2 (mapM_ok_iff (fun t : term * term * term => pair_text (writer_of i) (fst (fst t)) (snd (fst t))) (sa_transitions a))) as (pre & ->); [intros [[x v] v'] Ht; apply PT; now apply (H x v v')|]. cbn [bind].
      destruct (proj2 (mapM_ok_iff (fun t : term * term * term => effect_text (writer_of i) (fst (fst t)) (snd t)) (sa_transitions a))) as (eff & ->); [intros [[x v] v'] Ht; apply ET; now apply (H x v v')|]. eexists. reflexivity. }
  unfold fd_dump. destruct VT as (vs & ->). cbn [bind]. split.
  - intros (t & E). destruct (Nat.eqb_spec (List.length (fw_actions (writer_of i))) 0) as [|NZ]; [discriminate|]. destruct (mapM (operator_text str (writer_of i)) _) as [ops|] eqn:Eo; [|discriminate]. cbn [bind] in E.
    destruct (mapM _ (fw_initial (writer_of i))) as [ini|] eqn:Ei; [|discriminate]. cbn [bind] in E. destruct (mapM _ (fw_goal (writer_of i))) as [gl|] eqn:Eg; [|discriminate].
    assert (Eo' := proj1 (mapM_ok_iff _ _) (ex_intro _ ops Eo)). assert (Ei' := proj1 (mapM_ok_iff _ _) (ex_intro _ ini Ei)). assert (Eg' := proj1 (mapM_ok_iff _ _) (ex_intro _ gl Eg)).
    split; [intros X; apply NZ; cbn; now rewrite X|]. split; [intros a x v v' Ha Ht; apply (proj1 (OT a) (Eo' a Ha) x v v' Ht)|]. split; [intros x v H; apply PT; exact (Ei' (x, v) H)|intros x v H; apply PT; exact (Eg' (x, v) H)].
  - intros (NE & HA & HI & HG). destruct (Nat.eqb_spec (List.length (fw_actions (writer_of i))) 0) as [Z|_]; [cbn in Z; destruct (i_actions i); [contradiction|discriminate]|].
    destruct (proj2 (mapM_ok_iff (operator_text str (writer_of i)) (fw_actions (writer_of i)))) as (ops & ->); [intros a Ha; apply OT; intros x v v'; now apply HA|]. cbn [bind].
    destruct (proj2 (mapM_ok_iff (fun xv : term * term => pair_text (writer_of i) (fst xv) (snd xv)) (fw_initial (writer_of i)))) as (ini & ->); [intros [x v] H; apply PT; now apply HI|]. cbn [bind].
    destruct (proj2 (mapM_ok_iff (fun xv : term * term => pair_text (writer_of i) (fst xv) (snd xv)) (fw_goal (writer_of i)))) as (gl & ->); [intros [x v] H; apply PT; now apply HG|]. eexists. reflexivity.
Qed.
Print Assumptions C57_total.

(** ** C56: JSON *)
Lemma index_new_run X x : index_new X x = snd (si_add term_eqb X x).
Proof. unfold index_new, si_contains, si_add. destruct (dget term_eqb (si_data X) x); reflexivity. Qed.
Lemma fold_index xs : fold_left index_new xs si_empty = si_run term_eqb xs.
Proof. unfold si_run. generalize (@si_empty term). induction xs as [|x xs IH]; intros s; [reflexivity|]. cbn [fold_left]. now rewrite index_new_run, IH. Qed.
Lemma objects_index objects D : (forall o, In o objects -> exists c s, o = Cst c s /\ s <> "Integer") -> index_objects true objects D = Ok (fold_left index_new objects D).
Proof.
  revert D. induction objects as [|o r IH]; intros D H; [reflexivity|]. destruct (H o (or_introl eq_refl)) as (c & s & -> & N). cbn [index_objects object_sort bind is_integer]. apply String.eqb_neq in N. rewrite N. cbn [bind fold_left]. apply IH. intros o Ho. apply H. now right.
Qed.
Lemma run_all xs : let X := si_run term_eqb xs in NoDup (si_objects X) /\ (forall x, In x (si_objects X) <-> In x xs) /\ (forall x, In x xs -> exists k, si_get_index term_eqb X x = Ok k /\ nth_error (si_objects X) k = Some x).
Proof.
  cbn zeta. destruct (si_run_spec term_eqb teqb xs) as [I _]. destruct (C22_bijection _ term_eqb teqb xs) as (ys & _ & _ & Ei & _ & C & _ & _ & _). split; [apply I|].
  assert (Hin : forall x, In x (si_objects (si_run term_eqb xs)) <-> In x xs).
  { intros x. rewrite <- C. rewrite <- (si_inv_keys _ I). unfold si_contains. destruct (dget term_eqb (si_data (si_run term_eqb xs)) x) eqn:E; split; auto; try discriminate.
    - intros _. destruct (in_dec (fun a b => match term_eqb a b as r return (term_eqb a b = r -> {a = b} + {a <> b}) with true => fun e => left (proj1 (teqb a b) e) | false => fun e => right (fun q => eq_ind true (fun z => if z then True else False) Logic.I false (eq_trans (eq_sym (proj2 (teqb a b) q)) e)) end eq_refl) x (map fst (si_data (si_run term_eqb xs)))) as [H|H]; [exact H|]. apply (dget_None_keys term_eqb teqb) in H. congruence.
    - intros H. apply (dget_None_keys term_eqb teqb) in E. contradiction. }
  split; [exact Hin|]. intros x Hx. apply Hin in Hx. destruct (In_nth_error _ _ Hx) as (k & Hk). exists k. split; [|exact Hk]. now apply (si_index_spec term_eqb teqb).
Qed.
Section Json.
Variables (j : jinstance).
Hypothesis G : good_json j.
Let xs := (flat_map (fun a => map (fun t => fst (fst t)) (sa_transitions a)) (j_actions j) ++ map fst (j_initial j) ++ map fst (j_goal j))%list.
Let X := si_run term_eqb xs.
Let D := si_run term_eqb (j_objects j).
Lemma xs_mentioned x : In x xs <-> mentioned j x.
Proof.
  unfold xs, mentioned. rewrite !in_app_iff, in_flat_map, !in_map_iff. split.
  - intros [(a & Ha & H)|[([y v] & <- & H)|([y v] & <- & H)]]; [|right; left; eauto|right; right; eauto]. apply in_map_iff in H as ([[y v] w] & <- & H). left. eauto.
  - intros [(a & v & w & Ha & H)|[(v & H)|(v & H)]]; [left; exists a; split; [exact Ha|]; apply in_map_iff; exists (x, v, w); auto|right; left; exists (x, v); auto|right; right; exists (x, v); auto].
Qed.
Lemma X_index x : mentioned j x -> exists k, si_get_index term_eqb X x = Ok k /\ nth_error (si_objects X) k = Some x.
Proof. intros H. apply run_all. now apply xs_mentioned. Qed.
Lemma D_index v : In v (j_objects j) -> exists k, si_get_index term_eqb D v = Ok k /\ nth_error (j_objects j) k = Some v.
Proof. intros H. destruct (In_nth_error _ _ H) as (k & Hk). exists k. split; [|exact Hk]. apply run_index; [apply (gj_objects _ G)|exact Hk]. Qed.
Lemma check_ok : exists l, mapM (check_var true (j_domains j)) (si_objects X) = Ok l.
Proof.
  apply mapM_ok_iff. intros x Hx. apply (proj1 (proj2 (run_all xs))) in Hx. apply xs_mentioned in Hx. destruct (gj_variables _ G x Hx) as [(n & d & ts & ->)|((n & d & ts & ->) & z & l & Hl)]; [exists tt; reflexivity|]. unfold check_var. cbn [codomain bind]. change ("Integer" =? "object") with false. cbn [is_integer bind]. rewrite String.eqb_refl. cbn match.
  assert (E : dget term_eqb (j_domains j) (App (FU n d "Integer") ts) = Some (z :: l)); [|rewrite E; eauto].
  pose proof (gj_domains _ G) as N. revert N Hl. generalize (j_domains j). intros dd. induction dd as [|[y m] dd IH]; intros N H; [destruct H|]. cbn [map fst] in N. inversion N; subst. cbn [dget]. destruct (term_eqb y (App (FU n d "Integer") ts)) eqn:E.
  - apply term_eqb_eq in E. destruct H as [H|H]; [now inversion H|]. exfalso. apply H2. apply in_map_iff. exists (App (FU n d "Integer") ts, z :: l). auto.
  - destruct H as [H|H]; [|auto]. inversion H; subst. rewrite term_eqb_refl in E. discriminate.
Qed.
Definition trans_means (e : nat * nat * jval * jval) (kt : nat * (term * term * term)) : Prop :=
  let '(a, i, q, r) := e in a = fst kt /\ nth_error (si_objects X) i = Some (fst (fst (snd kt))) /\ stands_for j (fst (fst (snd kt))) (snd (fst (snd kt))) q /\ stands_for j (fst (fst (snd kt))) (snd (snd kt)) r.
Lemma entry_ok k a x v w : In a (j_actions j) -> In (x, v, w) (sa_transitions a) -> exists e, trans_entry true X D k (x, v, w) = Ok [e] /\ trans_means e (k, (x, v, w)).
Proof.
  intros Ha Ht. assert (M : mentioned j x) by (left; eauto). destruct (X_index x M) as (i & Ei & Hi). destruct (gj_transitions _ G a x v w Ha Ht) as [T1 T2]. unfold trans_entry. destruct (gj_variables _ G x M) as [V|[V _]].
  - destruct (T1 V) as [Hv Hw]. destruct (D_index v Hv) as (q & Eq & Hq). destruct (D_index w Hw) as (r & Er & Hr). pose proof V as V'. destruct V as (n & d & ts & ->). cbn [codomain bind]. rewrite String.eqb_refl. rewrite Ei. cbn [bind]. rewrite Eq. cbn [bind]. rewrite Er. cbn [bind]. eexists. split; [reflexivity|]. cbn. split; [reflexivity|]. split; [exact Hi|]. split; left; (split; [exact V'|]); [exists q|exists r]; auto.
  - destruct (T2 V) as (z & s & z' & s' & -> & ->). pose proof V as V'. destruct V as (n & d & ts & ->). cbn [codomain bind]. change ("Integer" =? "object") with false. cbn [is_integer bind]. rewrite String.eqb_refl. cbn match. rewrite Ei. cbn [bind value_symbol name_value]. eexists. split; [reflexivity|]. cbn. split; [reflexivity|]. split; [exact Hi|]. split; right; (split; [exact V'|]); eauto.
Qed.
Lemma trans_ok acts : forall k, (forall a, In a acts -> In a (j_actions j)) -> exists es, trans_data true X D k acts = Ok es /\
  Forall2 trans_means es (flat_map (fun ka => map (fun t => (fst ka, t)) (sa_transitions (snd ka))) (combine (seq k (List.length acts)) acts)).
Proof.
  induction acts as [|a acts IH]; intros k H; [exists []; split; constructor|]. destruct (IH (S k) (fun b Hb => H b (or_intror Hb))) as (rest & Er & Fr).
  assert (HA : exists ess, mapM (trans_entry true X D k) (sa_transitions a) = Ok ess /\ Forall2 trans_means (List.concat ess) (map (fun t => (k, t)) (sa_transitions a))).
  { assert (Hts : forall t, In t (sa_transitions a) -> In t (sa_transitions a)) by auto. revert Hts. generalize (sa_transitions a) at 1 3 4. intros ts. induction ts as [|[[x v] w] ts IHt]; intros Hts; [exists []; split; constructor|]. destruct (IHt (fun t Ht => Hts t (or_intror Ht))) as (ess & E & F). destruct (entry_ok k a x v w (H a (or_introl eq_refl)) (Hts _ (or_introl eq_refl))) as (e & Ee & Me). exists ([e] :: ess). split; [change (mapM (trans_entry true X D k) ((x, v, w) :: ts)) with (match trans_entry true X D k (x, v, w) with Err e => Err e | Ok y => match mapM (trans_entry true X D k) ts with Err e => Err e | Ok ys => Ok (y :: ys) end end); now rewrite Ee, E|]. cbn [List.concat app map]. constructor; auto. }
  destruct HA as (ess & E & F). exists (List.concat ess ++ rest)%list. split; [cbn [trans_data]; rewrite E; cbn [bind]; rewrite Er; reflexivity|]. cbn [List.length seq combine flat_map fst snd]. apply Forall2_app; [exact F|exact Fr].
Qed.
Lemma values_ok l : (forall x v, In (x, v) l -> mentioned j x) -> (forall x v, In (x, VTerm v) l -> In v (j_objects j)) ->
  exists es, mapM (value_entry X D) l = Ok es /\ Forall2 (fun e xv => nth_error (si_objects X) (fst e) = Some (fst xv) /\ stands_for_value j (snd xv) (snd e)) es l.
Proof.
  intros H1 H2. induction l as [|[x v] l IH]; [exists []; split; constructor|]. destruct IH as (es & E & F); [intros y u Hy; apply (H1 y u); now right|intros y u Hy; apply (H2 y u); now right|]. destruct (X_index x (H1 x v (or_introl eq_refl))) as (i & Ei & Hi).
  assert (HE : exists e, value_entry X D (x, v) = Ok e /\ nth_error (si_objects X) (fst e) = Some x /\ stands_for_value j v (snd e)).
  { unfold value_entry. cbn [fst snd]. rewrite Ei. cbn [bind]. destruct v as [z|t]; [eexists; split; [reflexivity|split; [exact Hi|reflexivity]]|]. destruct (D_index t (H2 x t (or_introl eq_refl))) as (q & Eq & Hq). rewrite Eq. cbn [bind]. eexists. split; [reflexivity|]. split; [exact Hi|]. exists q. auto. }
  destruct HE as (e & Ee & He). exists (e :: es). split; [change (mapM (value_entry X D) ((x, v) :: l)) with (match value_entry X D (x, v) with Err e => Err e | Ok y => match mapM (value_entry X D) l with Err e => Err e | Ok ys => Ok (y :: ys) end end); now rewrite Ee, E|constructor; auto].
Qed.
End Json.
Theorem C56_document : forall str lname name j, good_json j ->
  exists doc xs, json_dump str true lname (j_actions j) (j_initial j) (j_goal j) (j_objects j) (j_domains j) name = Ok doc /\
    d_domain doc = lname /\ d_instance doc = name /\ d_types doc = [("object", map str (j_objects j))] /\
    NoDup xs /\ (forall x, In x xs <-> mentioned j x) /\ d_vars doc = map (fun x => (str x, "object")) xs /\
    d_actions doc = map (full_name str) (j_actions j) /\
    Forall2 (fun e kt => let '(a, i, q, r) := e in let '(k, (x, v, w)) := kt in a = k /\ nth_error xs i = Some x /\ stands_for j x v q /\ stands_for j x w r) (d_trans doc) (numbered_transitions (j_actions j)) /\
    Forall2 (fun e xv => nth_error xs (fst e) = Some (fst xv) /\ stands_for_value j (snd xv) (snd e)) (d_init doc) (j_initial j) /\
    Forall2 (fun e xv => nth_error xs (fst e) = Some (fst xv) /\ stands_for_value j (snd xv) (snd e)) (d_goal doc) (j_goal j).
Proof.
  intros str lname name j G. destruct (check_ok j G) as (cs & Ec). destruct (trans_ok j G (j_actions j) 0 (fun a H => H)) as (es & Et & Ft).
  destruct (values_ok j G (j_initial j)) as (ini & Ei & Fi); [intros x v H; right; left; eauto|intros x v H; apply (gj_values _ G x v); now left|]. destruct (values_ok j G (j_goal j)) as (gl & Eg & Fg); [intros x v H; right; right; eauto|intros x v H; apply (gj_values _ G x v); now right|].
  unfold json_dump, index_variables. rewrite fold_index. rewrite (objects_index (j_objects j)) by apply (gj_objects _ G). cbn [bind]. rewrite fold_index. rewrite Ec. cbn [bind]. rewrite Et. cbn [bind]. rewrite Ei. cbn [bind]. rewrite Eg. cbn [bind].
  eexists. eexists. split; [reflexivity|]. cbn [d_domain d_instance d_types d_vars d_actions d_trans d_init d_goal]. do 3 (split; [reflexivity|]). split; [apply run_all|]. split; [intros x; rewrite <- (xs_mentioned j x); apply run_all|]. split; [reflexivity|]. split; [reflexivity|]. split; [|split; [exact Fi|exact Fg]].
  unfold numbered_transitions. clear - Ft. induction Ft as [|[[[a i] q] r] [k [[x v] w]] l l' H F IH]; constructor; [exact H|exact IH].
Qed.
Print Assumptions C56_document.

(** ** Examples *)
Definition pos (t : term) : term := App (FU "at" ["object"] "object") [t].
Definition fuel : term := App (FU "fuel" [] "Integer") [].
Definition n_ (z : Z) : term := Cst (CInt z) "Integer".
Definition tstr (t : term) : string :=
  match t with App (FU n _ _) [] => n ++ "()" | App (FU n _ _) (Cst c _ :: _) => n ++ "(" ++ name_text c ++ ")" | Cst c _ => name_text c | _ => "" end.
Definition go : saction := {| sa_name := "go"; sa_args := [c_; d_]; sa_transitions := [(pos c_, c_, d_); (fuel, n_ 2, n_ 1)] |}.
Definition jex : jinstance := {| j_actions := [go]; j_initial := [(pos c_, VTerm c_); (fuel, VInt 2)]; j_goal := [(pos c_, VTerm d_)]; j_objects := [d_; c_]; j_domains := [(fuel, [0; 1; 2]%Z)] |}.
Example C56_nonvacuous : good_json jex /\
  json_dump tstr true "lang" (j_actions jex) (j_initial jex) (j_goal jex) (j_objects jex) (j_domains jex) "inst" =
    Ok {| d_domain := "lang"; d_instance := "inst"; d_types := [("object", ["d"; "c"])]; d_vars := [("at(c)", "object"); ("fuel()", "object")]; d_actions := ["go(c,d)"];
          d_trans := [(0, 0, JInt 1, JInt 0); (0, 1, JInt 2, JInt 1)]; d_init := [(0, JInt 1); (1, JInt 2)]; d_goal := [(0, JInt 0)] |}.
Proof.
  split; [|vm_compute; reflexivity]. split.
  - split; [repeat constructor; cbn; [intros [H|[]]; discriminate H|intros []]|]. intros o [<-|[<-|[]]]; unfold c_, d_; do 2 eexists; (split; [reflexivity|discriminate]).
  - intros x [(a & v & w & [<-|[]] & [H|[H|[]]])|[(v & [H|[H|[]]])|(v & [H|[]])]]; inversion H; subst; unfold variable_of; [left|right|left|right|left]; unfold pos, fuel; eauto 7; (split; [eauto|exists 0%Z; exists [1; 2]%Z; now left]).
  - repeat constructor. intros [].
  - intros a x v w [<-|[]] [H|[H|[]]]; inversion H; subst; (split; [intros (n & d & ts & E)|intros (n & d & ts & E)]); try discriminate E; [split; [right; now left|now left]|unfold n_; eauto 8].
  - intros x v [[H|[H|[]]]|[H|[]]]; inversion H; subst; [right; now left|now left].
Qed.
(** All variables are declared as ranging over the objects: a number and the position of an object cannot be told apart. *)
Definition fuel_object : term := App (FU "fuel" [] "object") [].
Definition j1 : jinstance := {| j_actions := []; j_initial := [(fuel, VInt 1)]; j_goal := []; j_objects := [d_; c_]; j_domains := [(fuel, [0; 1]%Z)] |}.
Definition j2 : jinstance := {| j_actions := []; j_initial := [(fuel_object, VTerm c_)]; j_goal := []; j_objects := [d_; c_]; j_domains := [] |}.
Theorem C56_types_of_variables_refuted : good_json j1 /\ good_json j2 /\ j_initial j1 <> j_initial j2 /\ exists doc,
  json_dump tstr true "lang" (j_actions j1) (j_initial j1) (j_goal j1) (j_objects j1) (j_domains j1) "inst" = Ok doc /\
  json_dump tstr true "lang" (j_actions j2) (j_initial j2) (j_goal j2) (j_objects j2) (j_domains j2) "inst" = Ok doc.
Proof.
  assert (O : NoDup [d_; c_] /\ forall o, In o [d_; c_] -> exists c s, o = Cst c s /\ s <> "Integer"). { split; [repeat constructor; cbn; [intros [H|[]]; discriminate H|intros []]|]. intros o [<-|[<-|[]]]; unfold c_, d_; do 2 eexists; (split; [reflexivity|discriminate]). }
  split; [|split; [|split; [discriminate|eexists; split; [vm_compute; reflexivity|vm_compute; reflexivity]]]].
  - split; [exact O| |repeat constructor; intros []|intros a x v w []|].
    + intros x [(a & v & w & [] & _)|[(v & [H|[]])|(v & [])]]. inversion H; subst. right. unfold variable_of, fuel. split; [eauto|]. exists 0%Z, [1]%Z. now left.
    + intros x v [[H|[]]|[]]. discriminate H.
  - split; [exact O| |constructor|intros a x v w []|].
    + intros x [(a & v & w & [] & _)|[(v & [H|[]])|(v & [])]]. inversion H; subst. left. unfold variable_of, fuel_object. eauto.
    + intros x v [[H|[]]|[]]. inversion H; subst. right. now left.
Qed.
Print Assumptions C56_types_of_variables_refuted.
(** Transitions of variables of any other sort, a subsort of object for instance, are left out. *)
Theorem C56_other_sorts_refuted : exists doc, let x := App (FU "at" [] "room") [] in
  json_dump tstr true "lang" [{| sa_name := "go"; sa_args := []; sa_transitions := [(x, c_, d_)] |}] [(x, VTerm c_)] [] [c_; d_] [] "inst" = Ok doc /\ d_trans doc = [].
Proof. eexists. cbn zeta. split; [vm_compute; reflexivity|reflexivity]. Qed.
(** The positions are among the objects without numbers and repetitions, but the document lists them all. *)
Theorem C56_positions_refuted : exists doc, json_dump tstr true "lang" [] [(pos c_, VTerm d_)] [] [c_; c_; d_] [] "inst" = Ok doc /\
  d_init doc = [(0, JInt 1)] /\ d_types doc = [("object", ["c"; "c"; "d"])].
Proof. eexists. split; [vm_compute; reflexivity|split; reflexivity]. Qed.
(** Without the theory of arithmetic nothing can be written. *)
Theorem C56_no_arithmetic_refuted : json_dump tstr false "lang" [] [(pos c_, VTerm d_)] [] [c_; d_] [] "inst" = Err UndefinedElement.
Proof. vm_compute. reflexivity. Qed.

Definition fex : instance := {| i_vars := [(pos c_, [c_; d_]); (pos d_, [d_])]; i_actions := [{| sa_name := "go"; sa_args := [c_; d_]; sa_transitions := [(pos c_, c_, d_)] |}; {| sa_name := "noop"; sa_args := []; sa_transitions := [] |}];
  i_initial := [(pos c_, c_); (pos d_, d_)]; i_goal := [(pos c_, d_)]; i_unit := true |}.
Example C57_nonvacuous : well_formed fex /\ one_line_names tstr fex /\ (exists t, fd_dump tstr (writer_of fex) = Ok t) /\
  exists v, describes tstr fex v /\ v_vars v = [("at(c)", ["c"; "d"]); ("at(d)", ["d"])] /\ v_ops v = [("go(c,d)", [(0, 0)], [(0, 1)]); ("noop()", [], [])] /\ v_init v = [(0, 0); (1, 0)] /\ v_goal v = [(0, 1)].
Proof.
  split; [split; [repeat constructor; cbn; [intros [H|[]]; discriminate H|intros []]|repeat constructor; cbn; try (intros [H|[]]; discriminate H); intros []]|].
  split; [split; repeat constructor; cbn; intros H; repeat (destruct H as [H|H]; [discriminate H|]); destruct H|]. split; [eexists; vm_compute; reflexivity|].
  exists {| v_unit := true; v_vars := [("at(c)", ["c"; "d"]); ("at(d)", ["d"])]; v_ops := [("go(c,d)", [(0, 0)], [(0, 1)]); ("noop()", [], [])]; v_init := [(0, 0); (1, 0)]; v_goal := [(0, 1)] |}. split; [|repeat split].
  split; [reflexivity|reflexivity| | |].
  - constructor; [|constructor; [|constructor]]; (split; [reflexivity|]); cbn; split; repeat constructor; exists [c_; d_]; auto.
  - constructor; [exists [c_; d_]; auto|constructor; [exists [d_]; auto|constructor]].
  - constructor; [exists [c_; d_]; auto|constructor].
Qed.
(** An instance without actions cannot be written. *)
Theorem C57_no_actions_refuted : exists i, well_formed i /\ i_vars i <> [] /\ fd_dump tstr (writer_of i) = Err AssertionError.
Proof. exists {| i_vars := [(pos c_, [c_])]; i_actions := []; i_initial := []; i_goal := []; i_unit := true |}. split; [split; repeat constructor; cbn; intros []|]. split; [discriminate|vm_compute; reflexivity]. Qed.
