(** C21, C22: containers that index variables and symbols *)
From Verif Require Import ListUtil Base Syntax SemLemmas ModelState ModelProofs SortIdsProofs Index.
#[local] Open Scope string_scope.

(** Specification: the elements of a history, each kept at its first occurrence only. *)
Inductive firsts {A B} (key : A -> B) : list A -> list A -> Prop :=
| firsts_nil : firsts key [] []
| firsts_new xs ys x : firsts key xs ys -> ~ In (key x) (map key ys) -> firsts key (xs ++ [x]) (ys ++ [x])
| firsts_old xs ys x : firsts key xs ys -> In (key x) (map key ys) -> firsts key (xs ++ [x]) ys.

Lemma nth_error_app_last {A} (l : list A) x i y : nth_error (l ++ [x]) i = Some y <-> nth_error l i = Some y \/ (i = List.length l /\ y = x).
Proof.
  destruct (Nat.lt_ge_cases i (List.length l)) as [H|H].
  - rewrite nth_error_app1 by auto. split; [auto|]. intros [?|[-> _]]; [auto|lia].
  - rewrite nth_error_app2 by auto. destruct (i - List.length l) as [|k] eqn:E.
    + cbn. split; [intros [= ->]; right; split; [lia|auto]|]. intros [X|[_ ->]]; [|auto]. assert (nth_error l i <> None) by congruence. apply nth_error_Some in H0. lia.
    + cbn. replace (nth_error [] k) with (@None A) by (destruct k; auto). split; [discriminate|]. intros [X|[-> _]]; [|lia].
      assert (nth_error l i <> None) by congruence. apply nth_error_Some in H0. lia.
Qed.

Section SI.
Context {K : Type} (eqb : K -> K -> bool) (eqb_eq : forall a b, eqb a b = true <-> a = b).
Lemma dget_None_keys {V} (d : list (K * V)) k : dget eqb d k = None <-> ~ In k (map fst d).
Proof.
  induction d as [|[k' v] d IH]; cbn; [tauto|]. destruct (eqb k' k) eqn:E.
  - apply eqb_eq in E as ->. split; [discriminate|]. intros H. exfalso. apply H. auto.
  - rewrite IH. split; [|tauto]. intros H [->|X]; [|auto]. assert (eqb k k = true) by now apply eqb_eq. congruence.
Qed.
Definition si_inv (s : sidx K) : Prop := si_data s = combine (si_objects s) (seq 0 (List.length (si_objects s))) /\ NoDup (si_objects s).
Lemma combine_keys {A B} (l : list A) (m : list B) : List.length l = List.length m -> map fst (combine l m) = l.
Proof. revert m. induction l; intros [|b m]; cbn; intros H; try discriminate; [auto|]. now rewrite IHl by lia. Qed.
Lemma si_inv_keys s : si_inv s -> map fst (si_data s) = si_objects s.
Proof. intros [-> _]. apply combine_keys. now rewrite seq_length. Qed.
Lemma combine_snoc {A B} (l : list A) (m : list B) x y : List.length l = List.length m -> combine (l ++ [x]) (m ++ [y]) = (combine l m ++ [(x, y)])%list.
Proof. revert m. induction l; intros [|b m]; cbn; intros H; try discriminate; [auto|]. now rewrite IHl by lia. Qed.
Lemma si_add_spec s x : si_inv s ->
  (In x (si_objects s) /\ si_add eqb s x = (Some DuplicateDefinition, s)) \/
  (~ In x (si_objects s) /\ fst (si_add eqb s x) = None /\ si_objects (snd (si_add eqb s x)) = (si_objects s ++ [x])%list /\ si_inv (snd (si_add eqb s x))).
Proof.
  intros Hi. assert (Ek := si_inv_keys s Hi). unfold si_add. destruct (dget eqb (si_data s) x) as [i|] eqn:E.
  - left. split; [|auto]. rewrite <- Ek. destruct (in_dec (fun a b => match eqb a b as r return (eqb a b = r -> {a = b} + {a <> b}) with true => fun e => left (proj1 (eqb_eq a b) e) | false => fun e => right (fun q => eq_ind true (fun z => if z then True else False) Logic.I false (eq_trans (eq_sym (proj2 (eqb_eq a b) q)) e)) end eq_refl) x (map fst (si_data s))); [auto|].
    apply dget_None_keys in n. congruence.
  - right. apply dget_None_keys in E. rewrite Ek in E. split; [auto|]. split; [auto|]. cbn [fst snd si_objects]. split; [auto|]. split.
    + cbn [si_data si_objects]. destruct Hi as [Hd Hn]. rewrite (dset_new eqb eqb_eq) by (rewrite Ek; auto). rewrite Hd at 1. rewrite app_length. cbn [List.length]. rewrite Nat.add_1_r, seq_S, combine_snoc by now rewrite seq_length.
      cbn [plus]. do 3 f_equal. rewrite Hd, combine_length, seq_length. apply Nat.min_id.
    + apply NoDup_app_iff_simple; [apply Hi|constructor; [auto|constructor]|]. intros y Hy [<-|[]]. auto.
Qed.
Lemma dget_combine (l : list K) n x i : NoDup l -> dget eqb (combine l (seq n (List.length l))) x = Some i <-> exists k, i = n + k /\ nth_error l k = Some x.
Proof.
  revert n. induction l as [|a l IH]; intros n N; cbn [List.length seq combine dget].
  - split; [discriminate|]. intros (k & _ & X). destruct k; discriminate.
  - inversion N; subst. destruct (eqb a x) eqn:E.
    + apply eqb_eq in E as ->. split.
      * intros [= <-]. exists 0. split; [lia|auto].
      * intros ([|k] & -> & X); [f_equal; lia|]. cbn in X. apply nth_error_In in X. contradiction.
    + rewrite IH by auto. split.
      * intros (k & -> & X). exists (S k). split; [lia|auto].
      * intros ([|k] & -> & X); [cbn in X; injection X as <-; assert (eqb a a = true) by (now apply eqb_eq); congruence|]. exists k. split; [lia|auto].
Qed.
Lemma si_index_spec s x i : si_inv s -> si_get_index eqb s x = Ok i <-> nth_error (si_objects s) i = Some x.
Proof.
  intros [Hd Hn]. unfold si_get_index. rewrite Hd. set (g := dget eqb _ x).
  assert (X : forall i, g = Some i <-> exists k, i = 0 + k /\ nth_error (si_objects s) k = Some x) by (intros; apply dget_combine; auto). clearbody g.
  destruct g as [j|].
  - split; [intros [= <-]; destruct (proj1 (X j) eq_refl) as (k & -> & E); auto|]. intros Y. assert (Z := proj2 (X i) (ex_intro _ i (conj eq_refl Y))). congruence.
  - split; [discriminate|]. intros Y. assert (Z := proj2 (X i) (ex_intro _ i (conj eq_refl Y))). discriminate.
Qed.
Lemma si_run_spec xs : si_inv (si_run eqb xs) /\ firsts id xs (si_objects (si_run eqb xs)).
Proof.
  induction xs as [|x xs [IH F]] using rev_ind; [split; [split; [auto|constructor]|constructor]|].
  unfold si_run. rewrite fold_left_app. cbn [fold_left]. fold (si_run eqb xs). destruct (si_add_spec _ x IH) as [[Hin ->]|(Hn & _ & Eo & Hi)].
  - cbn [snd]. split; [auto|]. apply firsts_old; [auto|]. now rewrite map_id.
  - split; [auto|]. rewrite Eo. apply firsts_new; [auto|]. now rewrite map_id.
Qed.
End SI.

(** ** C22. After any history of [add] calls, duplicates included: *)
Theorem C22_bijection : forall K (eqb : K -> K -> bool), (forall a b, eqb a b = true <-> a = b) -> forall xs,
  let s := si_run eqb xs in exists ys,
    firsts id xs ys /\ NoDup ys /\                                            (* ys: the distinct elements of the history, in order of first insertion *)
    si_iter s = ys /\ si_len s = List.length ys /\ (forall x, si_contains eqb s x = true <-> In x xs) /\
    (forall i, si_get_object s i = match nth_error ys i with Some x => Ok x | None => Err IndexError end) /\
    (forall x i, si_get_index eqb s x = Ok i <-> si_get_object s i = Ok x) /\
    (forall x, ~ In x xs -> si_get_index eqb s x = Err KeyError) /\
    si_enumerate s = combine (seq 0 (List.length ys)) ys.
Proof.
  intros K eqb He xs s. destruct (si_run_spec eqb He xs) as [Hi F]. fold s in Hi, F. exists (si_objects s). split; [exact F|]. split; [apply Hi|].
  assert (Ek := si_inv_keys s Hi). split; [exact Ek|]. split; [unfold si_len; rewrite <- Ek; symmetry; apply map_length|].
  assert (M : forall x, In x (si_objects s) <-> In x xs).
  { clear - F. induction F as [|xs ys x F IH N|xs ys x F IH N]; intros z; [tauto|..]; rewrite !in_app_iff; rewrite <- IH; [tauto|]. cbn. rewrite map_id in N. unfold id in N. split; [auto|]. intros [?|[<-|[]]]; auto. }
  split. { intros x. rewrite <- M, <- Ek. unfold si_contains. destruct (dget eqb (si_data s) x) as [i|] eqn:E.
    - split; [intros _|auto]. assert (X := proj2 (dget_None_keys eqb He (si_data s) x)). destruct (dget_None_keys eqb He (si_data s) x) as [_ D].
      assert (Hget : si_get_index eqb s x = Ok i) by (unfold si_get_index; now rewrite E). apply (si_index_spec eqb He s x i Hi) in Hget. rewrite Ek. eapply nth_error_In; eauto.
    - apply (dget_None_keys eqb He) in E. split; [discriminate|contradiction]. }
  split; [intros i; unfold si_get_object; destruct (nth_error _ _); auto|].
  split. { intros x i. rewrite (si_index_spec eqb He s x i Hi). unfold si_get_object. destruct (nth_error (si_objects s) i); split; congruence. }
  split. { intros x Hx. unfold si_get_index. replace (dget eqb (si_data s) x) with (@None nat); [auto|]. symmetry. apply (dget_None_keys eqb He). rewrite Ek, M. auto. }
  unfold si_enumerate. rewrite (proj1 Hi). generalize 0. generalize (si_objects s). induction l as [|a k IH]; intros n; cbn [List.length seq combine map fst snd]; [auto|]. f_equal. apply IH.
Qed.
Print Assumptions C22_bijection.
(** Adding a present element raises and changes nothing; adding a new one succeeds, gives it the next index and keeps the indices of all the others. *)
Theorem C22_add : forall K (eqb : K -> K -> bool), (forall a b, eqb a b = true <-> a = b) -> forall xs x,
  let s := si_run eqb xs in
  (In x xs -> si_add eqb s x = (Some DuplicateDefinition, s)) /\
  (~ In x xs -> exists s', si_add eqb s x = (None, s') /\ si_get_index eqb s' x = Ok (si_len s) /\ si_len s' = S (si_len s) /\
                           (forall y, y <> x -> si_get_index eqb s' y = si_get_index eqb s y) /\ (forall i, i < si_len s -> si_get_object s' i = si_get_object s i)).
Proof.
  intros K eqb He xs x s. destruct (C22_bijection K eqb He xs) as (ys & _ & _ & _ & _ & C & _). fold s in C. specialize (C x). unfold si_contains in C. split.
  - intros H. apply C in H. unfold si_add. destruct (dget eqb (si_data s) x); [auto|discriminate].
  - intros H. destruct (si_run_spec eqb He xs) as [Hi _]. fold s in Hi. assert (Ek := si_inv_keys s Hi).
    assert (L : List.length (si_objects s) = si_len s) by (unfold si_len; rewrite <- Ek; apply map_length).
    unfold si_add. destruct (dget eqb (si_data s) x) eqn:E; [exfalso; apply H; now apply C|]. eexists. split; [reflexivity|].
    split. { unfold si_get_index. cbn [si_data]. rewrite (dget_dset eqb He). assert (R : eqb x x = true) by now apply He. rewrite R. reflexivity. }
    split. { unfold si_len. cbn [si_data]. rewrite (dset_new eqb He) by (apply (dget_None_keys eqb He); auto). rewrite app_length. cbn. lia. }
    split. { intros y Hy. unfold si_get_index. cbn [si_data]. rewrite (dget_dset eqb He). destruct (eqb x y) eqn:Exy; [apply He in Exy; congruence|reflexivity]. }
    intros i Hlt. unfold si_get_object. cbn [si_objects]. rewrite nth_error_app1 by lia. reflexivity.
Qed.
Print Assumptions C22_add.
(** The constructor: it succeeds exactly on lists without duplicates, with the same result as adding one by one. *)
Theorem C22_make : forall K (eqb : K -> K -> bool), (forall a b, eqb a b = true <-> a = b) -> forall xs,
  (NoDup xs -> si_make eqb si_empty xs = Ok (si_run eqb xs)) /\ (~ NoDup xs -> si_make eqb si_empty xs = Err DuplicateDefinition).
Proof.
  intros K eqb He xs. unfold si_run.
  assert (G : forall xs s, si_inv s -> (NoDup (si_objects s ++ xs) -> si_make eqb s xs = Ok (fold_left (fun s x => snd (si_add eqb s x)) xs s)) /\ (~ NoDup (si_objects s ++ xs) -> si_make eqb s xs = Err DuplicateDefinition)).
  { clear xs. induction xs as [|x xs IH]; intros s Hi; cbn [si_make fold_left].
    - rewrite app_nil_r. split; [auto|]. intros X. exfalso. apply X, Hi.
    - destruct (si_add_spec eqb He s x Hi) as [[Hin E]|(Hn & En & Eo & Hi')].
      + rewrite E. split; [|auto]. intros N. exfalso. eapply NoDup_app_disj; [exact N|exact Hin|left; reflexivity].
      + destruct (si_add eqb s x) as [e s']. cbn [fst snd] in *. subst e. destruct (IH s' Hi') as [A B]. rewrite Eo, <- app_assoc in A, B. split; auto. }
  apply (G xs si_empty). split; [reflexivity|constructor].
Qed.
Print Assumptions C22_make.
Example C22_nonvacuous : let s := si_run Nat.eqb [7; 3; 7; 5] in si_iter s = [7; 3; 5] /\ si_get_index Nat.eqb s 5 = Ok 2 /\ si_get_object s 1 = Ok 3 /\ fst (si_add Nat.eqb s 3) = Some DuplicateDefinition.
Proof. repeat split. Qed.

(** ** C21 *)
Lemma seqb' a b : String.eqb a b = true <-> a = b. Proof. apply String.eqb_eq. Qed.
Definition vb_inv (b : vbind) : Prop :=
  NoDup (map fst (vb_values b)) /\ vb_variables b = map (fun v => (fst v, v)) (vb_values b) /\ vb_index b = combine (map fst (vb_values b)) (seq 0 (List.length (vb_values b))).
Lemma vb_make_inv vs : NoDup (map fst vs) -> vb_inv (vb_make vs).
Proof.
  intros N. split; [exact N|]. cbn [vb_make vb_variables vb_values vb_index].
  assert (G1 : forall vs d, NoDup (map fst d ++ map fst vs) -> fold_left (fun d (v : var) => dset String.eqb d (fst v) v) vs d = (d ++ map (fun v => (fst v, v)) vs)%list).
  { clear. induction vs as [|v vs IH]; intros d N; cbn [fold_left map]; [now rewrite app_nil_r|]. cbn [map] in N.
    rewrite (dset_new String.eqb seqb'); [|intros X; eapply NoDup_app_disj; [exact N|exact X|left; reflexivity]]. rewrite IH, <- app_assoc; [reflexivity|]. rewrite map_app, <- app_assoc. exact N. }
  assert (G2 : forall vs n d, NoDup (map fst d ++ map fst vs) -> enum_from n vs d = (d ++ combine (map fst vs) (seq n (List.length vs)))%list).
  { clear. induction vs as [|v vs IH]; intros n d N; cbn [enum_from map List.length seq combine]; [now rewrite app_nil_r|]. cbn [map] in N.
    rewrite (dset_new String.eqb seqb'); [|intros X; eapply NoDup_app_disj; [exact N|exact X|left; reflexivity]]. rewrite IH, <- app_assoc; [reflexivity|]. rewrite map_app, <- app_assoc. exact N. }
  split; [rewrite G1; [auto|exact N]|rewrite G2; [auto|exact N]].
Qed.
Lemma vb_keys b : vb_inv b -> map fst (vb_variables b) = map fst (vb_values b) /\ map fst (vb_index b) = map fst (vb_values b).
Proof.
  intros (_ & -> & ->). rewrite map_map. split; [reflexivity|]. apply combine_keys. now rewrite seq_length, map_length.
Qed.
Lemma vb_add_spec b v : vb_inv b ->
  (In (fst v) (map fst (vb_values b)) /\ vb_add b v = (Some DuplicateVariable, b)) \/
  (~ In (fst v) (map fst (vb_values b)) /\ fst (vb_add b v) = None /\ vb_values (snd (vb_add b v)) = (vb_values b ++ [v])%list /\ vb_inv (snd (vb_add b v))).
Proof.
  intros Hi. destruct (vb_keys b Hi) as [K1 K2]. unfold vb_add. destruct (dget String.eqb (vb_variables b) (fst v)) as [o|] eqn:E.
  - left. split; [|auto]. rewrite <- K1. destruct (in_dec string_dec (fst v) (map fst (vb_variables b))); [auto|]. apply (dget_None_keys String.eqb seqb') in n. congruence.
  - right. apply (dget_None_keys String.eqb seqb') in E. rewrite K1 in E. split; [auto|]. split; [auto|]. split; [auto|]. destruct Hi as (N & H1 & H2). split; [|split]; cbn [snd vb_values vb_variables vb_index].
    + rewrite map_app. apply NoDup_app_iff_simple; [auto|constructor; [intros []|constructor]|]. intros y Hy [<-|[]]. auto.
    + rewrite (dset_new String.eqb seqb') by (rewrite K1; auto). rewrite H1, map_app. reflexivity.
    + rewrite (dset_new String.eqb seqb') by (rewrite K2; auto). rewrite H2 at 1. rewrite map_app, app_length. cbn [List.length map]. rewrite Nat.add_1_r, seq_S, combine_snoc by now rewrite seq_length, map_length.
      do 3 f_equal. rewrite H2, combine_length, seq_length, map_length. cbn. apply Nat.min_id.
Qed.
Lemma vb_run_spec vs adds : NoDup (map fst vs) -> vb_inv (vb_run vs adds) /\ firsts fst (vs ++ adds) (vb_values (vb_run vs adds)).
Proof.
  intros N. induction adds as [|v adds [IH F]] using rev_ind.
  - split; [apply vb_make_inv; auto|]. rewrite app_nil_r. cbn. induction vs as [|v vs IH] using rev_ind; [constructor|]. rewrite map_app in N. apply firsts_new; [apply IH; eapply NoDup_app_l; eauto|].
    intros X. eapply NoDup_app_disj; [exact N|exact X|left; reflexivity].
  - unfold vb_run. rewrite fold_left_app. cbn [fold_left]. fold (vb_run vs adds). rewrite app_assoc. destruct (vb_add_spec _ v IH) as [[Hin ->]|(Hn & _ & Eo & Hi)].
    + split; [auto|]. apply firsts_old; auto.
    + split; [auto|]. rewrite Eo. apply firsts_new; auto.
Qed.

Lemma nth_map_fst (l : list var) k n : nth_error (map fst l) k = Some n <-> exists v, fst v = n /\ nth_error l k = Some v.
Proof.
  revert k. induction l as [|a l IH]; intros [|k]; cbn [map nth_error].
  - split; [discriminate|intros (v & _ & X); discriminate X].
  - split; [discriminate|intros (v & _ & X); discriminate X].
  - split; [intros [= <-]; eauto|intros (v & <- & [= ->]); auto].
  - apply IH.
Qed.
(** After construction from variables with distinct names and any sequence of [add] calls: *)
Theorem C21_consistent : forall vs adds, NoDup (map fst vs) -> let b := vb_run vs adds in exists l : list var,
  firsts fst (vs ++ adds) l /\ NoDup (map fst l) /\                          (* l: the first variable of each name, in order *)
  vb_vars b = l /\ vb_len b = List.length l /\
  (forall i, vb_getitem b i = match nth_error l i with Some v => Ok v | None => Err IndexError end) /\
  (forall n i, vb_idx b n = Ok i <-> exists v, fst v = n /\ vb_getitem b i = Ok v) /\
  (forall n v, vb_get b n = Ok v <-> fst v = n /\ In v l) /\
  (forall n, ~ In n (map fst l) -> vb_get b n = Err UndefinedVariable /\ vb_idx b n = Err UndefinedVariable).
Proof.
  intros vs adds N b. destruct (vb_run_spec vs adds N) as [Hi F]. fold b in Hi, F. exists (vb_values b). split; [exact F|]. split; [apply Hi|].
  destruct (vb_keys b Hi) as [K1 K2]. destruct Hi as (Nd & H1 & H2). split; [unfold vb_vars; rewrite H1, map_map; apply map_id|]. split; [unfold vb_len; rewrite H1; apply map_length|].
  split; [intros i; unfold vb_getitem; destruct (nth_error _ _); auto|].
  assert (G : forall i v, vb_getitem b i = Ok v <-> nth_error (vb_values b) i = Some v) by (intros; unfold vb_getitem; destruct (nth_error _ _); split; congruence).
  split.
  { intros n i. unfold vb_idx. rewrite H2. assert (ML : List.length (vb_values b) = List.length (map fst (vb_values b))) by (symmetry; apply map_length). rewrite ML. assert (X := dget_combine String.eqb seqb' (map fst (vb_values b)) 0 n).
    assert (Y : dget String.eqb (combine (map fst (vb_values b)) (seq 0 (List.length (map fst (vb_values b))))) n = Some i <-> exists v, fst v = n /\ vb_getitem b i = Ok v).
    { rewrite (X i Nd). split.
      - intros (k & -> & E). apply nth_map_fst in E as (v & Ev & E). exists v. split; [auto|]. now apply G.
      - intros (v & Ev & E). apply G in E. exists i. split; [auto|]. apply nth_map_fst. eauto. }
    destruct (dget String.eqb _ n) as [j|]; [rewrite <- Y; split; congruence|]. rewrite <- Y. split; discriminate. }
  assert (ND2 : NoDup (map fst (vb_variables b))) by (rewrite K1; auto).
  split.
  { intros n v. unfold vb_get. assert (X := LangProofs.dget_Some_In String.eqb seqb' (vb_variables b) n v ND2).
    assert (Y : dget String.eqb (vb_variables b) n = Some v <-> fst v = n /\ In v (vb_values b)).
    { rewrite X, H1, in_map_iff. split; [intros (w & [= <- <-] & Hw); auto|]. intros [<- Hw]. exists v. auto. }
    destruct (dget String.eqb _ n) as [w|]; [rewrite <- Y; split; congruence|]. rewrite <- Y. split; discriminate. }
  intros n Hn. unfold vb_get, vb_idx. replace (dget String.eqb (vb_variables b) n) with (@None var) by (symmetry; apply (dget_None_keys String.eqb seqb'); now rewrite K1).
  replace (dget String.eqb (vb_index b) n) with (@None nat) by (symmetry; apply (dget_None_keys String.eqb seqb'); now rewrite K2). auto.
Qed.
Print Assumptions C21_consistent.
(** Adding a variable whose name is taken raises and changes nothing, otherwise it goes to the end. *)
Theorem C21_add : forall vs adds v, NoDup (map fst vs) -> let b := vb_run vs adds in
  (In (fst v) (map fst (vb_vars b)) -> vb_add b v = (Some DuplicateVariable, b)) /\
  (~ In (fst v) (map fst (vb_vars b)) -> fst (vb_add b v) = None /\ vb_vars (snd (vb_add b v)) = (vb_vars b ++ [v])%list /\ vb_idx (snd (vb_add b v)) (fst v) = Ok (vb_len b)).
Proof.
  intros vs adds v N b. destruct (vb_run_spec vs adds N) as [Hi _]. fold b in Hi.
  assert (W : forall b, vb_inv b -> vb_vars b = vb_values b) by (intros b0 (_ & H & _); unfold vb_vars; rewrite H, map_map; apply map_id).
  rewrite (W b Hi). destruct (vb_add_spec b v Hi) as [[Hin E]|(Hn & E & Eo & Hi')].
  - split; [auto|contradiction].
  - split; [contradiction|]. intros _. rewrite (W _ Hi'). split; [auto|]. split; [auto|]. unfold vb_idx. unfold vb_add in *.
    destruct (dget String.eqb (vb_variables b) (fst v)) eqn:Ed; [cbn in E; discriminate|]. cbn [snd vb_index]. rewrite (dget_dset String.eqb seqb'), String.eqb_refl.
    f_equal. destruct Hi as (_ & H1 & H2). unfold vb_len. rewrite H1, H2, combine_length, seq_length, !map_length. apply Nat.min_id.
Qed.
Print Assumptions C21_add.
Example C21_nonvacuous : let b := vb_run [("x", "s"); ("y", "s")] [("z", "t"); ("x", "t")] in
  NoDup (map fst [("x", "s"); ("y", "s")]) /\ vb_vars b = [("x", "s"); ("y", "s"); ("z", "t")] /\ vb_idx b "z" = Ok 2 /\ vb_get b "x" = Ok ("x", "s").
Proof. repeat split. repeat constructor; cbn; intuition discriminate. Qed.
(** The constructor accepts repeated names; position, index and length then disagree. *)
Theorem C21_duplicate_names_refuted : exists vs adds, let b := vb_run vs adds in
  vb_idx b "x" = Ok 1 /\ vb_idx b "y" = Ok 1 /\ vb_getitem b 1 = Ok ("x", "t") /\ vb_getitem b 2 = Ok ("y", "s") /\ vb_len b = 2.
Proof. exists [("x", "s"); ("x", "t")], [("y", "s")]. repeat split. Qed.
Print Assumptions C21_duplicate_names_refuted.
