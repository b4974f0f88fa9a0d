(** C45: node collection. *)
From Coq Require Import Relations Operators_Properties.
From Verif Require Import Base Syntax HashEq HashEqProofs Nodes NodesSpec.
#[local] Open Scope string_scope.

Lemma listed_walk : (forall t, walk_t t = listed_t t) /\ (forall f, walk_f f = listed_f f).
Proof. split; intros; reflexivity. Qed.
Lemma walk_listed e : walk e = listed e.
Proof. destruct listed_walk as [A B]. destruct e; simpl; f_equal; auto. Qed.

Lemma sub_child n c e : subexpression n c -> child c e -> subexpression n e.
Proof. intros H Hc. eapply rt_trans; [exact H|]. now apply rt_step. Qed.
Lemma sub_inv n e : subexpression n e -> n = e \/ exists c, child c e /\ subexpression n c.
Proof.
  intros H. apply clos_rt_rtn1 in H. destruct H as [|y z Hyz Hn]; [auto|]. right. exists y. split; [exact Hyz|].
  now apply clos_rtn1_rt.
Qed.
Lemma visits_spec :
  (forall t x, In x (visits (RTerm t)) <-> exists n, subexpression n (RTerm t) /\ x = walk n) /\
  (forall f x, In x (visits (RFormula f)) <-> exists n, subexpression n (RFormula f) /\ x = walk n).
Proof.
  assert (LT : forall ts, Forall (fun t => forall x, In x (visits (RTerm t)) <-> exists n, subexpression n (RTerm t) /\ x = walk n) ts ->
    forall x, In x (flat_map visits_t ts) <-> exists t n, In t ts /\ subexpression n (RTerm t) /\ x = walk n).
  { intros ts H x. rewrite in_flat_map. rewrite Forall_forall in H. split.
    - intros (t & Ht & Hx). apply (H t Ht) in Hx as (n & Hn & ->). exists t, n. auto.
    - intros (t & n & Ht & Hn & ->). exists t. split; [exact Ht|]. apply (H t Ht). eauto. }
  assert (LF : forall fs, Forall (fun t => forall x, In x (visits (RFormula t)) <-> exists n, subexpression n (RFormula t) /\ x = walk n) fs ->
    forall x, In x (flat_map visits_f fs) <-> exists t n, In t fs /\ subexpression n (RFormula t) /\ x = walk n).
  { intros ts H x. rewrite in_flat_map. rewrite Forall_forall in H. split.
    - intros (t & Ht & Hx). apply (H t Ht) in Hx as (n & Hn & ->). exists t, n. auto.
    - intros (t & n & Ht & Hn & ->). exists t. split; [exact Ht|]. apply (H t Ht). eauto. }
  apply hsyntax_ind.
  - intros x s y. simpl. split.
    + intros [<-|[]]. exists (RTerm (HVar x s)). split; [apply rt_refl|reflexivity].
    + intros (n & Hn & ->). apply sub_inv in Hn as [->|(c & Hc & _)]; [auto|inversion Hc].
  - intros n s y. simpl. split.
    + intros [<-|[]]. exists (RTerm (HCst n s)). split; [apply rt_refl|reflexivity].
    + intros (m & Hn & ->). apply sub_inv in Hn as [->|(c & Hc & _)]; [auto|inversion Hc].
  - intros f ts H x. cbn [visits visits_t]. rewrite in_app_iff, (LT ts H). split.
    + intros [(t & n & Ht & Hn & ->)|[<-|[]]].
      * exists n. split; [|reflexivity]. eapply sub_child; [exact Hn|]. now constructor.
      * exists (RTerm (HApp f ts)). split; [apply rt_refl|reflexivity].
    + intros (n & Hn & ->). apply sub_inv in Hn as [->|(c & Hc & Hn)]; [right; left; reflexivity|]. inversion Hc; subst. left. eauto.
  - intros c a b Hc Ha Hb x. cbn [visits visits_t]. rewrite !in_app_iff. cbn [visits] in Hc, Ha, Hb. rewrite Hc, Ha, Hb. split.
    + intros [(n & Hn & ->)|[[(n & Hn & ->)|(n & Hn & ->)]|[<-|[]]]].
      1-3: exists n; (split; [|reflexivity]); eapply sub_child; [exact Hn|constructor].
      exists (RTerm (HIte c a b)). split; [apply rt_refl|reflexivity].
    + intros (n & Hn & ->). apply sub_inv in Hn as [->|(d & Hd & Hn)]; [right; right; left; reflexivity|]. inversion Hd; subst; eauto 6.
  - intros y. simpl. split.
    + intros [<-|[]]. exists (RFormula HTop). split; [apply rt_refl|reflexivity].
    + intros (m & Hn & ->). apply sub_inv in Hn as [->|(c & Hc & _)]; [auto|inversion Hc].
  - intros y. simpl. split.
    + intros [<-|[]]. exists (RFormula HBot). split; [apply rt_refl|reflexivity].
    + intros (m & Hn & ->). apply sub_inv in Hn as [->|(c & Hc & _)]; [auto|inversion Hc].
  - intros p ts H x. cbn [visits visits_f]. rewrite in_app_iff, (LT ts H). split.
    + intros [(t & n & Ht & Hn & ->)|[<-|[]]].
      * exists n. split; [|reflexivity]. eapply sub_child; [exact Hn|]. now constructor.
      * exists (RFormula (HAtom p ts)). split; [apply rt_refl|reflexivity].
    + intros (n & Hn & ->). apply sub_inv in Hn as [->|(c & Hc & Hn)]; [right; left; reflexivity|]. inversion Hc; subst. left. eauto.
  - intros c k fs H x. cbn [visits visits_f]. rewrite in_app_iff, (LF fs H). split.
    + intros [(t & n & Ht & Hn & ->)|[<-|[]]].
      * exists n. split; [|reflexivity]. eapply sub_child; [exact Hn|]. now constructor.
      * exists (RFormula (HComp c k fs)). split; [apply rt_refl|reflexivity].
    + intros (n & Hn & ->). apply sub_inv in Hn as [->|(d & Hd & Hn)]; [right; left; reflexivity|]. inversion Hd; subst. left. eauto.
  - intros q vs g H Hg x. cbn [visits visits_f]. rewrite !in_app_iff, (LT vs H). cbn [visits] in Hg. rewrite Hg. split.
    + intros [(n & Hn & ->)|[(t & n & Ht & Hn & ->)|[<-|[]]]].
      * exists n. split; [|reflexivity]. eapply sub_child; [exact Hn|]. constructor.
      * exists n. split; [|reflexivity]. eapply sub_child; [exact Hn|]. now constructor.
      * exists (RFormula (HQuant q vs g)). split; [apply rt_refl|reflexivity].
    + intros (n & Hn & ->). apply sub_inv in Hn as [->|(d & Hd & Hn)]; [right; right; left; reflexivity|]. inversion Hd; subst; [right; left|left; exists n; auto].
      match goal with H : In ?v vs |- _ => exists v, n; auto end.
Qed.
Lemma visits_iff e x : In x (visits e) <-> exists n, subexpression n e /\ x = listed n.
Proof.
  destruct visits_spec as [A B]. destruct e as [t|f]; [rewrite A|rewrite B]; split; intros (n & Hn & ->); exists n; (split; [exact Hn|]); first [apply walk_listed|symmetry; apply walk_listed].
Qed.

Lemma same_key_ref a b : same_key a b = true -> ref_eqb a b = true.
Proof. unfold same_key. rewrite andb_true_iff. tauto. Qed.
Lemma same_key_refl a : same_key a a = true.
Proof. unfold same_key. destruct (hkey_eq_dec (ref_hash a) (ref_hash a)); [|congruence]. simpl. apply ref_eqb_canon. reflexivity. Qed.

Section Fold.
  Variable p : href -> bool.
  Let step s x := if p x then set_add x s else s.
  Lemma fold_sound l : forall s x, In x (fold_left step l s) -> In x s \/ (In x l /\ p x = true).
  Proof.
    induction l as [|y l IH]; simpl; intros s x H; [auto|]. apply IH in H as [H|[H H']]; [|auto].
    unfold step in H. destruct (p y) eqn:E; [|auto]. unfold set_add in H. destruct (existsb _ s); [auto|].
    apply in_app_iff in H as [H|[<-|[]]]; auto.
  Qed.
  Lemma fold_keeps l : forall s x, In x s -> In x (fold_left step l s).
  Proof.
    induction l as [|y l IH]; simpl; intros s x H; [auto|]. apply IH. unfold step. destruct (p y); [|auto].
    unfold set_add. destruct (existsb _ s); [auto|]. apply in_app_iff. auto.
  Qed.
  Lemma fold_complete l : forall s x, In x l -> p x = true -> exists y, In y (fold_left step l s) /\ same_key y x = true.
  Proof.
    induction l as [|z l IH]; simpl; intros s x H Hp; [destruct H|]. destruct H as [->|H]; [|apply IH; auto].
    unfold step at 2. rewrite Hp. unfold set_add. destruct (existsb _ s) eqn:E.
    - apply existsb_exists in E as (y & Hy & Hk). exists y. split; [|exact Hk]. apply fold_keeps. exact Hy.
    - exists x. split; [|apply same_key_refl]. apply fold_keeps. apply in_app_iff. right. left. reflexivity.
  Qed.
  Lemma fold_distinct l : forall s, ForallOrdPairs (fun a b => same_key a b = false) s -> ForallOrdPairs (fun a b => same_key a b = false) (fold_left step l s).
  Proof.
    induction l as [|y l IH]; simpl; intros s H; [auto|]. apply IH. unfold step. destruct (p y); [|auto].
    unfold set_add. destruct (existsb _ s) eqn:E; [auto|]. clear - H E. induction H as [|x s Hx H IH]; simpl in *.
    - constructor; constructor.
    - apply orb_false_iff in E as [E1 E2]. constructor; [|apply IH; exact E2]. apply Forall_app. auto.
  Qed.
End Fold.

Lemma no_float_listed : (forall t, no_float_t (listed_t t) = no_float_t t) /\ (forall f, no_float_f (listed_f f) = no_float_f f).
Proof.
  assert (L : forall A (p : A -> bool) g (l : list A), Forall (fun x => p (g x) = p x) l -> forallb p (map g l) = forallb p l)
    by (induction 1 as [|x l Hx _ IH]; simpl; congruence).
  apply hsyntax_ind; simpl; intros; auto; try congruence; rewrite ?L; auto. now rewrite H0.
Qed.
Lemma no_float_child c e : child c e -> no_float e = true -> no_float c = true.
Proof.
  intros H; inversion H; subst; simpl; intros F; rewrite ?andb_true_iff in F; try tauto;
    try (rewrite forallb_forall in F; apply F; assumption).
Qed.
Lemma no_float_sub n e : subexpression n e -> no_float e = true -> no_float n = true.
Proof. induction 1 as [x y H|x|x y z _ IH1 _ IH2]; auto. apply no_float_child. exact H. Qed.

(** Every returned node is a sub-expression that satisfies the filter, and every sub-expression that satisfies the filter is syntactically
    equal to a returned node ([listed]: as the walk leaves it, with its containers turned into lists). *)
Theorem C45_collect_sound : forall p e x, In x (fst (collect_unique_nodes p e)) -> p x = true /\ exists n, subexpression n e /\ x = listed n.
Proof.
  intros p e x H. unfold collect_unique_nodes in H. cbn [fst] in H. apply fold_sound in H as [[]|[H Hp]]. split; [exact Hp|]. now apply visits_iff.
Qed.
Print Assumptions C45_collect_sound.
Theorem C45_collect_complete : forall p e n, subexpression n e -> p (listed n) = true ->
  exists x, In x (fst (collect_unique_nodes p e)) /\ ref_eqb x (listed n) = true.
Proof.
  intros p e n Hn Hp. destruct (fold_complete p (visits e) [] (listed n)) as (y & Hy & Hk); [apply visits_iff; eauto|exact Hp|].
  exists y. split; [exact Hy|]. now apply same_key_ref.
Qed.
Print Assumptions C45_collect_complete.
(** No two returned nodes are syntactically equal, when no constant is named by a float. *)
Theorem C45_collect_once : forall p e, no_float e = true ->
  ForallOrdPairs (fun a b => ref_eqb a b = false) (fst (collect_unique_nodes p e)).
Proof.
  intros p e He. assert (H : ForallOrdPairs (fun a b => same_key a b = false) (fst (collect_unique_nodes p e))) by (apply fold_distinct; constructor).
  assert (F : forall x, In x (fst (collect_unique_nodes p e)) -> no_float x = true).
  { intros x Hx. apply C45_collect_sound in Hx as (_ & n & Hn & ->). pose proof (no_float_sub n e Hn He) as G.
    destruct no_float_listed as [A B]. destruct n; simpl in *; rewrite ?A, ?B; exact G. }
  revert H F. generalize (fst (collect_unique_nodes p e)). intros l H. induction H as [|a l Ha H IH]; intros F; constructor.
  - rewrite Forall_forall in *. intros b Hb. apply not_true_iff_false. intros E. pose proof (Ha b Hb) as K.
    assert (a = b).
    { apply ref_eqb_canon in E. rewrite (canon_id_ref a), (canon_id_ref b) in E; auto; apply F; simpl; auto. }
    subst b. rewrite same_key_refl in K. discriminate.
  - apply IH. intros x Hx. apply F. right. exact Hx.
Qed.
Print Assumptions C45_collect_once.
(** With floats, 1 and 1.0 of the same sort are syntactically equal and both returned. *)
Theorem C45_collect_once_refuted : exists p e a b, fst (collect_unique_nodes p e) = [a; b] /\ ref_eqb a b = true.
Proof.
  exists (fun n => match n with RTerm _ => true | _ => false end),
         (RFormula (HAtom ["p"; "Real"; "Real"] [HCst (NInt 1) "Real"; HCst (NFloat 1) "Real"])).
  eexists. eexists. vm_compute. split; reflexivity.
Qed.
Print Assumptions C45_collect_once_refuted.

(** The argument is left with list containers; it is unchanged exactly when it had no tuple inside. *)
Fixpoint tuple_free_t (t : hterm) : bool :=
  match t with
  | HVar _ _ | HCst _ _ => true
  | HApp _ ts => forallb tuple_free_t ts
  | HIte c a b => tuple_free_f c && tuple_free_t a && tuple_free_t b
  end
with tuple_free_f (f : hformula) : bool :=
  match f with
  | HTop | HBot => true
  | HAtom _ ts => forallb tuple_free_t ts
  | HComp _ k fs => negb k && forallb tuple_free_f fs
  | HQuant _ vs g => forallb tuple_free_t vs && tuple_free_f g
  end.
Definition tuple_free (e : href) : bool := match e with RTerm t => tuple_free_t t | RFormula f => tuple_free_f f end.
Lemma tuple_free_iff : (forall t, listed_t t = t <-> tuple_free_t t = true) /\ (forall f, listed_f f = f <-> tuple_free_f f = true).
Proof.
  assert (L : forall A (p : A -> bool) (g : A -> A) l, Forall (fun x => g x = x <-> p x = true) l -> (map g l = l <-> forallb p l = true)).
  { induction 1 as [|x l Hx _ IH]; simpl; [tauto|]. rewrite andb_true_iff, <- Hx, <- IH.
    split; [intros E; inversion E as [[E1 E2]]; rewrite E1, E2; auto|intros [-> ->]; auto]. }
  apply hsyntax_ind; simpl; intros; try tauto.
  - rewrite <- (L _ tuple_free_t listed_t); auto. split; [intros E; inversion E as [E1]; rewrite E1; auto|intros ->; auto].
  - rewrite !andb_true_iff, <- H, <- H0, <- H1. split; [intros E; inversion E as [[E1 E2 E3]]; rewrite E1, E2, E3; auto|intros [[-> ->] ->]; auto].
  - rewrite <- (L _ tuple_free_t listed_t); auto. split; [intros E; inversion E as [E1]; rewrite E1; auto|intros ->; auto].
  - rewrite andb_true_iff, <- (L _ tuple_free_f listed_f); auto. match goal with |- context[negb ?b] => destruct b end; simpl; split; try (intros E; discriminate E).
    + intros [? _]; discriminate.
    + intros E; inversion E as [E1]; rewrite E1; auto.
    + intros [_ ->]; auto.
  - rewrite andb_true_iff, <- H0, <- (L _ tuple_free_t listed_t); auto.
    split; [intros E; inversion E as [[E1 E2]]; rewrite E1, E2; auto|intros [-> ->]; auto].
Qed.
Theorem C45_argument_left_behind : forall p e, snd (collect_unique_nodes p e) = listed e /\
  (snd (collect_unique_nodes p e) = e <-> tuple_free e = true).
Proof.
  intros p e. cbn [collect_unique_nodes snd]. rewrite walk_listed. split; [reflexivity|].
  destruct tuple_free_iff as [A B]. destruct e as [t|f]; simpl; [rewrite <- A|rewrite <- B]; split; congruence.
Qed.
Print Assumptions C45_argument_left_behind.
Theorem C45_argument_changed_refuted : exists p e, snd (collect_unique_nodes p e) <> e /\ ref_eqb (snd (collect_unique_nodes p e)) e = false.
Proof.
  exists (fun _ => true), (RFormula (HComp And true [HTop; HBot])). split; [intros H; discriminate H|reflexivity].
Qed.
Print Assumptions C45_argument_changed_refuted.

(** The derived tests. *)
Lemma zero_iff p e : (forall n, p (listed n) = p n) ->
  (Nat.eqb (List.length (fst (collect_unique_nodes p e))) 0 = true <-> forall n, subexpression n e -> p n = false).
Proof.
  intros Hp. rewrite Nat.eqb_eq. split.
  - intros H n Hn. apply not_true_iff_false. intros E. rewrite <- Hp in E. destruct (C45_collect_complete p e n Hn E) as (x & Hx & _).
    destruct (fst (collect_unique_nodes p e)); [destruct Hx|discriminate].
  - intros H. destruct (fst (collect_unique_nodes p e)) as [|x l] eqn:E; [reflexivity|].
    assert (Hx : In x (fst (collect_unique_nodes p e))) by (rewrite E; left; reflexivity).
    apply C45_collect_sound in Hx as (Hpx & n & Hn & ->). rewrite Hp, (H n Hn) in Hpx. discriminate.
Qed.
Theorem C45_is_ground : forall e, is_ground e = true <-> forall x s, ~ subexpression (RTerm (HVar x s)) e.
Proof.
  intros e. unfold is_ground, all_variables. rewrite zero_iff by (intros [[]|[]]; reflexivity). split.
  - intros H x s Hn. specialize (H _ Hn). discriminate.
  - intros H [[x s| | |]|f] Hn; try reflexivity. exfalso. exact (H x s Hn).
Qed.
Print Assumptions C45_is_ground.
Theorem C45_is_function_free : forall e, is_function_free e = true <-> forall f ts, ~ subexpression (RTerm (HApp f ts)) e.
Proof.
  intros e. unfold is_function_free. rewrite zero_iff by (intros [[]|[]]; reflexivity). split.
  - intros H f ts Hn. specialize (H _ Hn). discriminate.
  - intros H [[|x s|f ts|]|f] Hn; try reflexivity. exfalso. exact (H f ts Hn).
Qed.
Print Assumptions C45_is_function_free.
Theorem C45_is_quantifier_free : forall e, is_quantifier_free e = true <-> forall q vs g, ~ subexpression (RFormula (HQuant q vs g)) e.
Proof.
  intros e. unfold is_quantifier_free. rewrite zero_iff by (intros [[]|[]]; reflexivity). split.
  - intros H q vs g Hn. specialize (H _ Hn). discriminate.
  - intros H [t|[| | | |q vs g]] Hn; try reflexivity. exfalso. exact (H q vs g Hn).
Qed.
Print Assumptions C45_is_quantifier_free.
(** [all_variables] returns exactly the variables that occur, each once (whatever the names of the constants). *)
Theorem C45_all_variables : forall e, NoDup (all_variables e) /\
  forall n, In n (all_variables e) <-> exists x s, n = RTerm (HVar x s) /\ subexpression n e.
Proof.
  intros e.
  assert (V : forall n, In n (all_variables e) -> exists x s, n = RTerm (HVar x s) /\ subexpression n e).
  { intros n H. apply C45_collect_sound in H as (Hp & m & Hm & ->). destruct m as [[x s| | |]|[]]; try discriminate Hp. exists x, s. auto. }
  split.
  - unfold all_variables. assert (H : ForallOrdPairs (fun a b => same_key a b = false) (fst (collect_unique_nodes is_variable e))) by (apply fold_distinct; constructor).
    induction H as [|a l Ha H IH]; constructor; [|exact IH]. intros Hin. rewrite Forall_forall in Ha. specialize (Ha a Hin).
    rewrite same_key_refl in Ha. discriminate.
  - intros n. split; [apply V|]. intros (x & s & -> & Hn). destruct (C45_collect_complete is_variable e _ Hn eq_refl) as (y & Hy & E).
    destruct (V y Hy) as (x' & s' & -> & _). apply ref_eqb_canon in E. simpl in E. inversion E; subst. exact Hy.
Qed.
Print Assumptions C45_all_variables.
(** [collect_all_function_names] adds exactly the names of the function symbols that occur. *)
Theorem C45_function_names : forall e out name, In name (collect_all_function_names e out) <->
  In name out \/ exists sig ts, subexpression (RTerm (HApp (name :: sig) ts)) e.
Proof.
  intros e out name. unfold collect_all_function_names.
  assert (H : forall l out, In name (fold_left (fun out n => match n with
                          | RTerm (HApp (name :: _) _) => if in_dec string_dec name out then out else (out ++ [name])%list
                          | _ => out end) l out) <-> In name out \/ exists sig ts, In (RTerm (HApp (name :: sig) ts)) l).
  { induction l as [|n l IH]; intros o; cbn [fold_left]; [firstorder|]. rewrite IH.
    assert (S : forall o', (In name o' <-> In name o \/ exists sig ts, n = RTerm (HApp (name :: sig) ts)) ->
      (In name o' \/ (exists sig ts, In (RTerm (HApp (name :: sig) ts)) l) <->
       In name o \/ exists sig ts, n = RTerm (HApp (name :: sig) ts) \/ In (RTerm (HApp (name :: sig) ts)) l)).
    { intros o' ->. split.
      - intros [[H|(g & us & H)]|(g & us & H)]; [auto| |]; right; exists g, us; auto.
      - intros [H|(g & us & [H|H])]; [auto| |]; [left; right|right]; exists g, us; auto. }
    apply S. clear S. destruct n as [[y r|nm r|[|m sg] us0|c0 a0 b0]|g0].
    4: { destruct (in_dec string_dec m o) as [Hm|Hm].
         - split; [auto|]. intros [H|(g & us & H)]; [auto|inversion H; subst; auto].
         - rewrite in_app_iff. split.
           + intros [H|[<-|[]]]; [auto|right; eauto].
           + intros [H|(g & us & H)]; [auto|inversion H; subst; right; left; reflexivity]. }
    all: split; [auto|intros [H|(g & us & H)]; [auto|discriminate H]]. }
  rewrite H. split; (intros [X|X]; [left; exact X|right]).
  - destruct X as (sig & ts & X). apply C45_collect_sound in X as (_ & n & Hn & E). destruct n as [[| |g us|]|[]]; try discriminate E.
    cbn in E. inversion E; subst. exists sig, us. exact Hn.
  - destruct X as (sig & ts & X). destruct (C45_collect_complete is_compound_term e _ X eq_refl) as (y & Hy & E).
    pose proof (C45_collect_sound _ _ _ Hy) as (Hp & _). destruct y as [[| |g us|]|]; try discriminate Hp.
    apply ref_eqb_canon in E. cbn in E. inversion E; subst. exists sig, us. exact Hy.
Qed.
Print Assumptions C45_function_names.

Example C45_nonvacuous :
  let x := HVar "x" "object" in let fx := HApp ["f"; "object"; "object"] [x] in
  let e := RFormula (HQuant QEx [x] (HComp And true [HAtom ["p"; "object"] [fx]; HAtom ["p"; "object"] [fx]])) in
  no_float e = true /\ List.length (fst (collect_unique_nodes (fun _ => true) e)) = 5 /\ all_variables e = [RTerm x] /\
  is_ground e = false /\ is_function_free e = false /\ is_quantifier_free e = false /\ collect_all_function_names e [] = ["f"].
Proof. vm_compute. repeat split; reflexivity. Qed.

(** A state variable is a function or predicate symbol applied to constants only (possibly to no argument at all). *)
Theorem C45_state_variable_shape : forall e, has_state_variable_shape e = true <->
  ((exists f ts, e = RTerm (HApp f ts) /\ forall t, In t ts -> exists n s, t = HCst n s) \/
   (exists p ts, e = RFormula (HAtom p ts) /\ forall t, In t ts -> exists n s, t = HCst n s)).
Proof.
  assert (A : forall ts, forallb is_const_h ts = true <-> forall t, In t ts -> exists n s, t = HCst n s).
  { intros ts. rewrite forallb_forall. split; intros H t Ht; specialize (H t Ht).
    - destruct t; try discriminate; eauto.
    - destruct H as (n & s & ->); reflexivity. }
  intros e; split.
  - intros H. destruct e as [t|f]; [destruct t|destruct f]; try discriminate H; cbn [has_state_variable_shape] in H; rewrite A in H;
      [left|right]; eauto.
  - intros [(f & ts & -> & H)|(f & ts & -> & H)]; cbn [has_state_variable_shape]; apply A; exact H.
Qed.
