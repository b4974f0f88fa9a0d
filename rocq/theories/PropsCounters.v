(** C62: the counters benchmark, and arithmetic assignments *)
From Coq Require Import Lia Permutation Ascii String List Sorting.
Import ListNotations.
From Verif Require Import Base Syntax SemLemmas ListUtil Build ModelState ModelProofs ModelSpec ModelText ModelTextProofs Eval EvalProofs Subst QElim Effects FreeVars Represent ProgressSpec StateLemmas RelaxSpec GroundingSpec SubstProofs PropsProgress PropsHypergraph BlocksProofs2 SasText SasTextProofs
  Lang Theories Counters CountersSpec CountersProofs CountersProofs2.
#[local] Open Scope string_scope.
#[local] Open Scope list_scope.

(** * Arithmetic assignments *)
Lemma check_sorts_app sub ts us ss rs : List.length ts = List.length ss -> check_sorts sub (ts ++ us) (ss ++ rs) = let! _ := check_sorts sub ts ss in check_sorts sub us rs.
Proof. revert ss. induction ts as [|t ts IH]; intros [|s ss] E; try discriminate; [reflexivity|]. cbn [check_sorts app]. destruct (ModelState.sort_of t); [|reflexivity]. destruct (sub _ _); [|reflexivity]. apply IH. now injection E. Qed.
Lemma arith_integer b x y v : arith b x y = Ok v -> exists z, v = Cst (CInt z) "Integer".
Proof.
  unfold arith. destruct x as [|[|a] s| |]; try discriminate. destruct y as [|[|c] s'| |]; try discriminate. unfold mk_integer. destruct b; try discriminate; destruct (_ && _); try discriminate; intros E; injection E as <-; unfold int_sort; eauto.
Qed.
(** An assignment whose right-hand side is an arithmetic expression succeeds exactly if the built-in sort Integer is a subtype of the codomain: in particular, never if the codomain is an interval. *)
Theorem C62_assignment : forall D sub m inc c n d cod args b x y p q s r z,
  eval_f m c = Ok true -> forallb is_cst args = true -> check_assignment sub d args = Ok tt ->
  evaluate_t m x = Ok (Cst (CInt p) s) -> evaluate_t m y = Ok (Cst (CInt q) r) -> op_value b p q = Some z ->
  let e := Effects.EFun inc c (App (FU n d cod) args) (App (FB b) [x; y]) in
  ((z < - 2147483647 \/ 2147483647 < z)%Z -> apply_effect D sub m e = Err ValueError) /\
  ((- 2147483647 <= z <= 2147483647)%Z -> sub "Integer" cod = false -> apply_effect D sub m e = Err SortMismatch) /\
  ((- 2147483647 <= z <= 2147483647)%Z -> sub "Integer" cod = true -> exists m', apply_effect D sub m e = Ok m' /\ m_value m' (FU n d cod) args = Ok (Cst (CInt z) "Integer") /\
     (forall g pt, (g, pt) <> (FU n d cod, args) -> m_value m' g pt = m_value m g pt) /\ (forall P pt, m_holds m' P pt = m_holds m P pt)).
Proof.
  intros D sub m inc c n d cod args b x y p q s r z Hc Ha Hd Hx Hy Hz e.
  assert (EV : evaluate_t m (App (FB b) [x; y]) = mk_integer z).
  { apply evaluate_t_ok in Hx. apply evaluate_t_ok in Hy. cbn [evaluate_t eval_term]. rewrite Hx, Hy. cbn [arith]. destruct b; cbn in Hz; try discriminate; injection Hz as <-; reflexivity. }
  assert (AE : apply_effect D sub m e = let! v := mk_integer z in m_set sub m (App (FU n d cod) args) v).
  { unfold apply_effect, e. cbn [edepth apply_effect_n econd]. rewrite Hc. cbn [bind negb]. rewrite EV. reflexivity. }
  unfold check_assignment in Hd. destruct (Nat.eqb (List.length d) (List.length args)) eqn:L; [|discriminate]. apply Nat.eqb_eq in L.
  split; [|split].
  - intros B. rewrite AE. unfold mk_integer, int_max. replace (Z.leb _ _ && Z.leb _ _)%bool with false; [reflexivity|]. symmetry. apply andb_false_iff. destruct B as [B|B]; [left|right]; apply Z.leb_gt; lia.
  - intros B S. rewrite AE. unfold mk_integer, int_max. replace (Z.leb _ _ && Z.leb _ _)%bool with true; [|symmetry; apply andb_true_iff; split; apply Z.leb_le; lia]. cbn [bind m_set]. rewrite Ha. unfold check_assignment.
    rewrite !app_length. cbn [List.length]. rewrite L, Nat.eqb_refl, check_sorts_app by (now rewrite L). rewrite Hd. cbn [bind check_sorts ModelState.sort_of]. unfold int_sort. rewrite S. reflexivity.
  - intros B S. rewrite AE. unfold mk_integer, int_max. replace (Z.leb _ _ && Z.leb _ _)%bool with true; [|symmetry; apply andb_true_iff; split; apply Z.leb_le; lia]. cbn [bind].
    destruct (m_set sub m (App (FU n d cod) args) (Cst (CInt z) int_sort)) as [m'|x0] eqn:M.
    + exists m'. destruct (set_spec _ _ _ _ _ M) as (f & a & Et & _ & P1 & V1). injection Et as <- <-. split; [reflexivity|]. rewrite V1. split; [|split; [|exact P1]].
      * replace (same_point _ _ _ _) with true; [reflexivity|]. symmetry. now apply same_point_eq.
      * intros g pt N. rewrite V1. destruct (same_point_dec (FU n d cod) g args pt) as [Q|[Q _]]; rewrite Q; [|reflexivity]. apply same_point_eq in Q as [<- <-]. congruence.
    + exfalso. cbn [m_set] in M. rewrite Ha in M. unfold check_assignment in M. rewrite !app_length in M. cbn [List.length] in M. rewrite L, Nat.eqb_refl, check_sorts_app in M by (now rewrite L). rewrite Hd in M. cbn [bind check_sorts ModelState.sort_of] in M. unfold int_sort in M. rewrite S in M. discriminate.
Qed.
Print Assumptions C62_assignment.
Lemma arith_effect D sub m inc c n d cod args b x y m' : sub "Integer" cod = false ->
  apply_effect D sub m (Effects.EFun inc c (App (FU n d cod) args) (App (FB b) [x; y])) = Ok m' -> eval_f m c = Ok false /\ m' = m.
Proof.
  intros S E. unfold apply_effect in E. cbn [edepth apply_effect_n econd] in E. destruct (eval_f m c) as [[]|]; [|cbn [bind negb] in E; injection E as <-; auto|discriminate]. exfalso. cbn [bind negb] in E.
  destruct (evaluate_t m (App (FB b) [x; y])) as [v|] eqn:EV; [|discriminate]. cbn [bind] in E. apply evaluate_t_ok in EV. cbn [eval_term] in EV. destruct (eval_term m x) as [v1|]; [|discriminate]. destruct (eval_term m y) as [v2|]; [|discriminate].
  apply arith_integer in EV as [z ->]. cbn [m_set] in E. destruct (forallb is_cst args); [|discriminate]. unfold check_assignment in E. rewrite !app_length in E. cbn [List.length] in E. destruct (Nat.eqb _ _) eqn:L; [|discriminate]. apply Nat.eqb_eq in L.
  rewrite check_sorts_app in E by lia. destruct (check_sorts sub args d); [|discriminate]. cbn [bind check_sorts ModelState.sort_of] in E. rewrite S in E. discriminate.
Qed.

(** * The generator *)
(** It raises SemanticError if the bound is below 1, and otherwise succeeds. *)
Theorem C62_generates : forall parse fuel n ub,
  ((ub < 1)%Z -> generate_fstrips_counters_problem parse fuel n ub = Err SemanticError) /\
  ((1 <= ub)%Z -> exists st p, generate_fstrips_counters_problem parse fuel n ub = Ok (st, p)).
Proof.
  intros parse fuel n ub. rewrite problem_spec. split; intros H.
  - replace (Z.leb ub 0) with true; [reflexivity|]. symmetry. apply Z.leb_le. lia.
  - replace (Z.leb ub 0) with false by (symmetry; apply Z.leb_gt; lia). cbv zeta.
    destruct (set_ok fuel (counter_names n) ub empty_model max_int (Cst (CInt ub) "val")) as [m1 ->]; [now left|eauto|]. cbn [bind]. destruct (init_spec parse fuel (counter_names n) ub H (sorted (counter_names n)) m1) as (m2 & -> & _). cbn [bind]. eauto.
Qed.
Print Assumptions C62_generates.
Lemma generated parse fuel n ub st p : generate_fstrips_counters_problem parse fuel n ub = Ok (st, p) ->
  (1 <= ub)%Z /\ st = ctlang (counter_names n) ub /\ p_actions p = [increment; decrement] /\ p_goal p = conj (chain (sorted (counter_names n))) /\ (forall P pt, m_holds (p_init p) P pt = false) /\
  (forall f pt v, m_value (p_init p) f pt = Ok v <-> (f = fvalue /\ v = Cst (CInt 0) "val" /\ exists c, In c (counter_names n) /\ pt = [counter c]) \/ (f = fmax /\ pt = [] /\ v = Cst (CInt ub) "val")).
Proof.
  rewrite problem_spec. destruct (Z.leb ub 0) eqn:Hub; [discriminate|]. apply Z.leb_gt in Hub. cbv zeta.
  destruct (m_set (lsub fuel (clang (counter_names n) ub)) empty_model max_int (Cst (CInt ub) "val")) as [m1|] eqn:E1; [|discriminate]. cbn [bind]. assert (Hub' : (1 <= ub)%Z) by lia.
  destruct (init_spec parse fuel (counter_names n) ub Hub' (sorted (counter_names n)) m1) as (m2 & -> & P2 & V2). cbn [bind]. intros E. injection E as <- <-. cbn [p_actions p_goal p_init].
  destruct (set_spec _ _ _ _ _ E1) as (f & a & Et & _ & P1 & V1). injection Et as <- <-.
  split; [lia|]. split; [reflexivity|]. split; [reflexivity|]. split; [reflexivity|]. split; [intros P pt; rewrite P2, P1; reflexivity|]. intros f pt v. rewrite V2, V1.
  assert (SI : forall pt : list term, (exists c, In c (sorted (counter_names n)) /\ pt = [counter c]) <-> exists c, In c (counter_names n) /\ pt = [counter c]).
  { intros pt'. split; intros (c & Hc & ->); exists c; (split; [now apply (sorted_In (counter_names n) c)|reflexivity]). }
  rewrite !SI. split.
  - intros [H|[H1 H2]]; [now left|]. right. destruct (same_point_dec fmax f [] pt) as [Q|[Q _]]; rewrite Q in H2; [|discriminate]. apply same_point_eq in Q as [<- <-]. injection H2 as <-. auto.
  - intros [H|(-> & -> & ->)]; [now left|]. right. split; [intros (? & _); discriminate|]. reflexivity.
Qed.
(** The initial state: all the counters are 0 and max_int is the bound; nothing else has a value, and no atom is true. *)
Theorem C62_initial : forall parse fuel n ub st p, generate_fstrips_counters_problem parse fuel n ub = Ok (st, p) ->
  (forall f pt v, m_value (p_init p) f pt = Ok v <->
    (f = fvalue /\ v = Cst (CInt 0) "val" /\ exists c, In c (counter_names n) /\ pt = [counter c]) \/ (f = fmax /\ pt = [] /\ v = Cst (CInt ub) "val")) /\
  (forall P pt, m_holds (p_init p) P pt = false).
Proof. intros parse fuel n ub st p E. destruct (generated _ _ _ _ _ _ E) as (_ & _ & _ & _ & P & V). split; assumption. Qed.
Print Assumptions C62_initial.

(** * The goal *)
Lemma ltb_leb c d : String.ltb c d = true <-> String.leb c d = true /\ c <> d.
Proof.
  unfold String.ltb, String.leb. split.
  - destruct (String.compare c d) eqn:E; try discriminate. intros _. split; [reflexivity|]. intros ->. pose proof (String.compare_antisym d d) as X. rewrite E in X. discriminate X.
  - intros [H N]. destruct (String.compare c d) eqn:E; [|reflexivity|discriminate]. apply String.compare_eq_iff in E. contradiction.
Qed.
Lemma less_true m vals a b : shows m vals a -> shows m vals b -> eval_f m (less a b) = Ok (Z.ltb (vals a) (vals b)).
Proof.
  intros [s Ha] [r Hb]. unfold less. rewrite eval_batom. cbn [mapM].
  assert (E : forall c t, m_value m fvalue [counter c] = Ok t -> evaluate_t m (value (counter c)) = Ok t).
  { intros c t H. unfold value. cbn [evaluate_t]. unfold fvalue in *. rewrite eval_app. cbn [mapM counter evaluate_t eval_term bind]. unfold counter in H. now rewrite H. }
  rewrite (E _ _ Ha), (E _ _ Hb). reflexivity.
Qed.
Lemma chain_increasing vals l : StronglySorted (fun x y => String.leb x y = true) l -> NoDup l -> (Forall (fun p => (vals (fst p) < vals (snd p))%Z) (pairs l) <-> increasing l vals).
Proof.
  intros S N. split.
  - intros F. assert (SS : StronglySorted (fun c d => (vals c < vals d)%Z) l).
    { apply Sorted_StronglySorted; [intros x y z; lia|]. clear S N. induction l as [|a l IH]; [constructor|]. destruct l as [|b l]; [repeat constructor|]. unfold pairs in F. cbn [tl combine] in F. inversion F as [|? ? F1 F2]; subst. constructor; [apply IH; exact F2|]. constructor. exact F1. }
    clear F. induction l as [|a l IH]; [intros c d []|]. inversion S as [|? ? S1 S2]; subst. inversion SS as [|? ? SS1 SS2]; subst. inversion N as [|? ? N1 N2]; subst. intros c d Hc Hd L. apply ltb_leb in L as [L D]. rewrite Forall_forall in S2, SS2.
    destruct Hc as [<-|Hc], Hd as [<-|Hd]; [contradiction|now apply SS2| |].
    + exfalso. apply D. apply String.leb_antisym; [exact L|now apply S2].
    + apply (IH S1 N2 SS1 c d Hc Hd). apply ltb_leb. auto.
  - intros I. induction l as [|a l IH]; [constructor|]. destruct l as [|b l]; [constructor|]. inversion S as [|? ? S1 S2]; subst. inversion N as [|? ? N1 N2]; subst. unfold pairs. cbn [tl combine]. constructor.
    + cbn [fst snd]. apply I; [now left|right; now left|]. apply ltb_leb. rewrite Forall_forall in S2. split; [apply S2; now left|]. intros ->. apply N1. now left.
    + apply IH; [exact S1|exact N2|]. intros c d Hc Hd. apply I; now right.
Qed.
Lemma pairs_In {A} (l : list A) p : In p (combine l (tl l)) -> In (fst p) l /\ In (snd p) l.
Proof. destruct p as [a b]. intros H. split; cbn [fst snd]; [eapply in_combine_l; eauto|]. apply in_combine_r in H. destruct l; [exact H|right; exact H]. Qed.
Lemma goal_iff n m vals : (forall c, In c (counter_names n) -> shows m vals c) ->
  (eval_f m (conj (chain (sorted (counter_names n)))) = Ok true <-> increasing (counter_names n) vals) /\ exists b, eval_f m (conj (chain (sorted (counter_names n)))) = Ok b.
Proof.
  intros H. set (l := sorted (counter_names n)). assert (Hl : forall c, In c l <-> In c (counter_names n)) by (intros c; apply sorted_In).
  assert (N : NoDup l) by (eapply Permutation_NoDup; [symmetry; apply sorted_permutation|apply counter_names_NoDup]).
  assert (EL : Forall (fun p => eval_f m (less (fst p) (snd p)) = Ok (Z.ltb (vals (fst p)) (vals (snd p)))) (pairs l)).
  { apply Forall_forall. intros p Hp. apply pairs_In in Hp as [Ha Hb]. apply less_true; apply H; now apply Hl. }
  split.
  - rewrite conj_true. unfold chain. rewrite Forall_map. transitivity (increasing l vals).
    + rewrite <- (chain_increasing vals l (sorted_sorted _) N). rewrite !Forall_forall. rewrite Forall_forall in EL. split; intros F p Hp; specialize (F p Hp); specialize (EL p Hp); [rewrite EL in F; injection F as F; now apply Z.ltb_lt|]. rewrite EL. f_equal. now apply Z.ltb_lt.
    + unfold increasing. split; intros I c d Hc Hd; apply I; now apply Hl.
  - unfold chain. revert EL. generalize (pairs l). intros ps EL. assert (G : forall fs, Forall (fun f => exists b, eval_f m f = Ok b) fs -> exists b, eval_f m (conj fs) = Ok b).
    { intros fs F. destruct fs as [|f [|g fs]]; [exists true; reflexivity|inversion F; assumption|]. cbn [conj]. revert F. generalize (f :: g :: fs). clear. intros fs. rewrite eval_and. induction fs as [|f fs IH]; intros F; [exists true; reflexivity|]. inversion F as [|? ? [b Hb] F2]; subst. cbn. rewrite Hb. destruct b; [apply IH; exact F2|eauto]. }
    apply G. apply Forall_forall. intros f Hf. apply in_map_iff in Hf as (p & <- & Hp). rewrite Forall_forall in EL. rewrite (EL p Hp). eauto.
Qed.
(** The goal is true exactly in the states where the counters increase strictly in the alphabetical order of their names (c10 comes before c2); it can be evaluated in every state that gives an integer to each. *)
Theorem C62_goal : forall parse fuel n ub st p m vals, generate_fstrips_counters_problem parse fuel n ub = Ok (st, p) -> (forall c, In c (counter_names n) -> shows m vals c) ->
  (eval_f m (p_goal p) = Ok true <-> increasing (counter_names n) vals) /\ exists b, eval_f m (p_goal p) = Ok b.
Proof. intros parse fuel n ub st p m vals E H. destruct (generated _ _ _ _ _ _ E) as (_ & _ & _ & -> & _). now apply goal_iff. Qed.
Print Assumptions C62_goal.

(** * Bounds *)
Lemma increasing_room vals lo ub l : StronglySorted (fun c d => (vals c < vals d)%Z) l -> (forall c : string, In c l -> (lo <= vals c <= ub)%Z) -> (Z.of_nat (List.length l) <= Z.max 0 (ub - lo + 1))%Z.
Proof.
  intros S. revert lo. induction S as [|a l S IH F]; intros lo B; [cbn; lia|]. cbn [List.length]. rewrite Forall_forall in F. specialize (IH (vals a + 1)%Z). assert (B' : forall c, In c l -> (vals a + 1 <= vals c <= ub)%Z) by (intros c Hc; specialize (F c Hc); specialize (B c (or_intror Hc)); lia).
  specialize (IH B'). specialize (B a (or_introl eq_refl)). lia.
Qed.
Fixpoint position (l : list string) (c : string) : Z := match l with [] => 0%Z | d :: l' => if string_dec d c then 0%Z else (1 + position l' c)%Z end.
Lemma position_bounds l c : (0 <= position l c)%Z. Proof. induction l as [|d l IH]; cbn [position]; [lia|]. destruct (string_dec d c); lia. Qed.
Lemma position_bound l c : In c l -> (position l c < Z.of_nat (List.length l))%Z.
Proof. induction l as [|d l IH]; [intros []|]. intros H. cbn [position List.length]. destruct (string_dec d c); [lia|]. destruct H as [H|H]; [contradiction|]. specialize (IH H). lia. Qed.
Lemma position_increasing l : StronglySorted (fun x y => String.leb x y = true) l -> NoDup l -> increasing l (position l).
Proof.
  intros S N c d Hc Hd L. induction l as [|a l IH]; [destruct Hc|]. inversion S as [|? ? S1 S2]; subst. inversion N as [|? ? N1 N2]; subst. rewrite Forall_forall in S2. cbn [position]. apply ltb_leb in L as [L D].
  destruct (string_dec a c) as [Ec|Nc], (string_dec a d) as [Ed|Nd]; [congruence|pose proof (position_bounds l d); lia| |].
  - destruct Hc as [Hc|Hc]; [contradiction|]. exfalso. apply D, String.leb_antisym; [exact L|rewrite <- Ed; now apply S2].
  - destruct Hc as [Hc|Hc]; [contradiction|]. destruct Hd as [Hd|Hd]; [contradiction|]. specialize (IH S1 N2 Hc Hd). lia.
Qed.
Lemma run_sets sub vals (Hc : sub "counter" "counter" = true) (Hv : sub "val" "val" = true) l : forall m, exists m', m' = mrun sub (map (fun c => OSet (value (counter c)) (Cst (CInt (vals c)) "val")) l) m /\ (forall c, In c l \/ shows m vals c -> shows m' vals c).
Proof.
  induction l as [|c l IH]; intros m; [exists m; split; [reflexivity|intros c [[]|H]; exact H]|]. cbn [map]. unfold mrun. cbn [fold_left]. cbn [mstep].
  destruct (m_set sub m (value (counter c)) (Cst (CInt (vals c)) "val")) as [m1|] eqn:E1.
  - cbn [of_res snd]. destruct (IH m1) as (m' & -> & V). eexists. split; [reflexivity|]. intros d Hd. apply V. destruct (set_spec _ _ _ _ _ E1) as (f & a & Et & _ & _ & V1). injection Et as <- <-. unfold shows. setoid_rewrite V1.
    destruct (same_point_dec fvalue fvalue [counter c] [counter d]) as [Q|[Q N']]; rewrite Q.
    + right. apply same_point_eq in Q as [_ Q]. injection Q as ->. eauto.
    + destruct Hd as [[->|Hd]|Hd]; [exfalso; apply N'; auto|now left|now right].
  - exfalso. cbn in E1. unfold check_assignment in E1. cbn in E1. rewrite Hc, Hv in E1. discriminate.
Qed.
(** Within the bounds of the sort, the goal can be met exactly if there are at most upper_bound + 1 counters. *)
Theorem C62_bounds : forall parse fuel n ub st p, generate_fstrips_counters_problem parse fuel n ub = Ok (st, p) ->
  (exists m vals, is_state (lsub fuel (t_lang st)) m /\ (forall c, In c (counter_names n) -> shows m vals c /\ (0 <= vals c <= ub)%Z) /\ eval_f m (p_goal p) = Ok true) <-> (Z.of_nat n <= ub + 1)%Z.
Proof.
  intros parse fuel n ub st p E. destruct (generated _ _ _ _ _ _ E) as (Hub & -> & _ & -> & _). set (l := sorted (counter_names n)). assert (Hl : forall c, In c l <-> In c (counter_names n)) by (intros c; apply sorted_In).
  assert (N : NoDup l) by (eapply Permutation_NoDup; [symmetry; apply sorted_permutation|apply counter_names_NoDup]). assert (Len : List.length l = n) by (unfold l; rewrite (Permutation_length (sorted_permutation _)); unfold counter_names; now rewrite map_length, seq_length).
  split.
  - intros (m & vals & _ & H & G). apply (goal_iff n m vals) in G; [|intros c Hc; now apply H]. rewrite <- Len. assert (SS : StronglySorted (fun c d => (vals c < vals d)%Z) l).
    { assert (I : increasing l vals) by (intros c d Hc Hd; apply G; now apply Hl). clear - I N. assert (S := sorted_sorted (counter_names n)). fold l in S. induction S as [|a l' S IH F]; [constructor|]. inversion N as [|? ? N1 N2]; subst. constructor.
      - apply IH; [exact N2|]. intros c d Hc Hd. apply I; now right.
      - rewrite Forall_forall in F |- *. intros d Hd. apply I; [now left|now right|]. apply ltb_leb. split; [now apply F|]. intros ->. contradiction. }
    pose proof (increasing_room vals 0 ub l SS (fun c Hc => proj2 (H c (proj1 (Hl c) Hc)))). lia.
  - intros Hn. set (sub := lsub fuel (t_lang (ctlang (counter_names n) ub))). destruct (run_sets sub (position l) eq_refl eq_refl l empty_model) as (m & Em & V). exists m, (position l). split; [exists (map (fun c => OSet (value (counter c)) (Cst (CInt (position l c)) "val")) l); exact Em|].
    assert (V' : forall c, In c (counter_names n) -> shows m (position l) c) by (intros c Hc; apply V; left; now apply Hl). split.
    + intros c Hc. split; [now apply V'|]. pose proof (position_bounds l c). pose proof (position_bound l c (proj2 (Hl c) Hc)). lia.
    + apply (goal_iff n m (position l) V'). intros c d Hc Hd. apply position_increasing; [apply sorted_sorted|exact N|now apply Hl|now apply Hl].
Qed.
Print Assumptions C62_bounds.

(** * The actions *)
Lemma not_subtype fuel cs ub : lsub fuel (clang cs ub) "Integer" "val" = false.
Proof.
  unfold lsub, is_subtype. change (retrieve (clang cs ub) "Integer") with (Ok "Integer"). change (retrieve (clang cs ub) "val") with (Ok "val"). cbv beta iota. change (String.eqb "Integer" "val") with false. cbv iota.
  change (str_mem "val" (get_set (l_anc (clang cs ub)) "Integer")) with false. cbv iota. unfold connected. change (str_mem "val" (get_set (l_ind (clang cs ub)) "Integer")) with false. cbv iota.
  change (rev (get_set (l_anc (clang cs ub)) "Integer")) with ["object"; "Real"]. destruct fuel as [|[|[|fuel]]]; try reflexivity. destruct fuel as [|[|fuel]]; reflexivity.
Qed.
Lemma binding_none s t : parameter_binding s -> (forall x r, t <> Var x r) -> get_t (sub_t s) t = None.
Proof.
  intros [_ P] N. revert P. generalize (sub_t s). intros l P. induction l as [|[k v] l IH]; [reflexivity|]. cbn [get_t]. destruct (term_eqb k t) eqn:E.
  - apply term_eqb_eq in E. subst t. destruct (P k v (or_introl eq_refl)) as (x & r & ->). now elim (N x r).
  - apply IH. intros k' v' H. apply (P k' v'). now right.
Qed.
Lemma binding_value s t : parameter_binding s -> subst_term s (value t) = value (subst_term s t).
Proof. intros P. change (subst_term s (value t)) with (visit_t s (value (subst_term s t))). unfold visit_t. now rewrite (binding_none s _ P). Qed.
Lemma binding_op s b t u : parameter_binding s -> subst_term s (App (FB b) [t; u]) = App (FB b) [subst_term s t; subst_term s u].
Proof. intros P. change (subst_term s (App (FB b) [t; u])) with (visit_t s (App (FB b) [subst_term s t; subst_term s u])). unfold visit_t. now rewrite (binding_none s _ P). Qed.
(** No application of increment or decrement can be carried out: no state has a successor, whatever the binding of the parameter, so the empty plan is the only one that can be executed. *)
Theorem C62_no_successors : forall parse fuel n ub st p, generate_fstrips_counters_problem parse fuel n ub = Ok (st, p) ->
  forall D fuel' m plan m', execution D (lsub fuel' (t_lang st)) (p_actions p) m plan m' -> Forall (fun step => parameter_binding (snd step)) plan -> plan = [] /\ m' = m.
Proof.
  intros parse fuel n ub st p E D fuel' m plan m' X PB. destruct (generated _ _ _ _ _ _ E) as (_ & -> & EA & _). destruct X as [m|m a s pre effs m1 plan m2 Ha G A P X]; [auto|]. exfalso. rewrite EA in Ha. inversion PB as [|? ? PB1 _]; subst. cbn [snd] in PB1.
  assert (EE : exists b t u, effs = [Effects.EFun false Top (App fvalue [t]) (App (FB b) [App fvalue [t]; u])]).
  { unfold ground_schema in G. destruct (forallb _ (a_params a)); [|discriminate]. destruct (mapM (subst_effect s) (a_effs a)) as [es|] eqn:ES; [|discriminate]. cbn [bind] in G. destruct (flatten _); [|discriminate]. cbn [bind] in G. injection G as _ <-.
    destruct Ha as [<-|[<-|[]]]; cbn [increment decrement a_effs mapM bind] in ES; (destruct (subst_effect s _) as [e|] eqn:SE; [|discriminate]); cbn [bind] in ES; injection ES as <-; cbn [subst_effect bind subst_formula] in SE; apply (f_equal (fun r => match r with Ok a => a | Err _ => e end)) in SE; cbv beta match in SE; rewrite <- SE; rewrite binding_op, binding_value by exact PB1; unfold visit_f; rewrite (proj1 PB1); cbn [get_f].
    all: do 3 eexists; reflexivity. }
  destruct EE as (b & t & u & ->). unfold progress in P. cbn [filter is_del negb app] in P. unfold run_effects in P. cbn [run_with] in P.
  destruct (apply_effect _ _ _ _) as [mm|] eqn:AE in P; [|discriminate]. apply (arith_effect D (lsub fuel' (clang (counter_names n) ub)) m false Top "value" ["counter"] "val" [t] b (App fvalue [t]) u mm (not_subtype fuel' (counter_names n) ub)) in AE. destruct AE as [AE _]. discriminate.
Qed.
Print Assumptions C62_no_successors.
(** Hence the problem has an executable plan exactly if there is at most one counter. *)
Theorem C62_solvable_refuted : forall parse fuel n ub st p D fuel', generate_fstrips_counters_problem parse fuel n ub = Ok (st, p) ->
  (exists plan m', execution D (lsub fuel' (t_lang st)) (p_actions p) (p_init p) plan m' /\ Forall (fun step => parameter_binding (snd step)) plan /\ eval_f m' (p_goal p) = Ok true) <-> n <= 1.
Proof.
  intros parse fuel n ub st p D fuel' E. assert (S : forall c, In c (counter_names n) -> shows (p_init p) (fun _ => 0%Z) c).
  { destruct (generated _ _ _ _ _ _ E) as (_ & _ & _ & _ & _ & V). intros c Hc. exists "val". apply V. left. eauto. }
  destruct (C62_goal _ _ _ _ _ _ _ _ E S) as [G _]. split.
  - intros (plan & m' & X & PB & H). destruct (C62_no_successors _ _ _ _ _ _ E _ _ _ _ _ X PB) as [_ ->]. apply G in H. destruct n as [|[|n]]; [lia|lia|]. exfalso.
    assert (H1 : In (counter_name 1) (counter_names (Datatypes.S (Datatypes.S n)))) by (left; reflexivity). assert (H2 : In (counter_name 2) (counter_names (Datatypes.S (Datatypes.S n)))) by (right; left; reflexivity).
    specialize (H _ _ H1 H2 eq_refl). cbn in H. lia.
  - intros Hn. exists [], (p_init p). split; [constructor|]. split; [constructor|]. apply G. intros c d Hc Hd L. exfalso. destruct n as [|[|n]]; [destruct Hc| |lia]. destruct Hc as [<-|[]]. destruct Hd as [<-|[]]. discriminate L.
Qed.
Print Assumptions C62_solvable_refuted.

(** * Examples *)
Definition np : bool -> string -> option Z := fun _ _ => None.
(** Twelve counters: c10 must be below c2. With the default bound the goal can be met; the increment of c1 is applicable in the initial state and raises SortMismatch. *)
Theorem C62_nonvacuous : exists st p, generate_fstrips_counters_problem np 9 12 (default_bound 12) = Ok (st, p) /\ In (less "c10" "c11") (chain (sorted (counter_names 12))) /\ In (less "c12" "c2") (chain (sorted (counter_names 12))) /\
  (Z.of_nat 12 <= default_bound 12 + 1)%Z /\
  (let s := {| sub_t := [(vc, counter "c1")]; sub_f := [] |} in exists pre effs, ground_schema increment s = Ok (pre, effs) /\ is_applicable (p_init p) pre = Ok true /\ progress (fun _ => None) (lsub 9 (t_lang st)) (p_init p) effs = Err SortMismatch).
Proof.
  destruct (generate_fstrips_counters_problem np 9 12 (default_bound 12)) as [[st p]|] eqn:E; [|vm_compute in E; discriminate].
  exists st, p. split; [reflexivity|]. split; [vm_compute; tauto|]. split; [vm_compute; tauto|]. split; [vm_compute; discriminate|]. cbv zeta. eexists. eexists.
  split; [vm_compute; reflexivity|]. vm_compute in E. injection E as <- <-. split; [vm_compute; reflexivity|vm_compute; reflexivity].
Qed.
Print Assumptions C62_nonvacuous.
(** No counters: the default bound is 0 and the generator raises. *)
Theorem C62_nonvacuous_none : generate_fstrips_counters_problem np 9 0 (default_bound 0) = Err SemanticError /\ is_ok (generate_fstrips_counters_problem np 9 1 (default_bound 1)) = true.
Proof. split; vm_compute; reflexivity. Qed.
Print Assumptions C62_nonvacuous_none.
