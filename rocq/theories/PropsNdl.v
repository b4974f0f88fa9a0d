(** C72: temporal actions with resources *)
From Coq Require Import QArith.
From Verif Require Import Base Syntax SubstProofs ModelState ModelProofs Lang LangSpec LangProofs PropsLang Theories TheoriesSpec TheoriesProofs TheoriesProofs2 TheoriesProofs3 PropsTermOps PropsTermOps2 Ndl NdlSpec.
#[local] Open Scope string_scope.
#[local] Open Scope list_scope.

Lemma key_eqb_eq a b : key_eqb a b = true <-> a = b.
Proof.
  destruct a as [f|f v], b as [g|g w]; cbn [key_eqb]; split; intros H; try discriminate.
  - apply formula_eqb_eq in H. congruence.
  - injection H as ->. apply formula_eqb_refl.
  - apply andb_true_iff in H as [H K]. apply formula_eqb_eq in H. apply Bool.eqb_prop in K. congruence.
  - injection H as -> ->. now rewrite formula_eqb_refl, Bool.eqb_reflx.
Qed.
Lemma condition_class_spec f : condition_class f = true <-> condition f.
Proof.
  unfold condition. destruct f; cbn; split; intros H; try discriminate; eauto; try reflexivity; try (destruct H as [(?&?&?)|[(?&?&?)|?]]; discriminate).
Qed.

(** * Resources *)
Theorem C72_lock : forall ts td r, (exists q, make_lock ts td r = Ok q) <-> exists f args, r = App f args.
Proof. intros ts td r. unfold make_lock. split; [intros [q H]; destruct r; try discriminate; eauto|intros (f & args & ->); eexists; reflexivity]. Qed.
Theorem C72_level : forall st ts td r n,
  (exists q, make_level st ts td r n = Ok q) <-> (exists f args, r = App f args) /\ (exists c s, n = Cst c s) /\ Theories.sort_of st n = Theories.sort_of st r.
Proof.
  intros st ts td r n. unfold make_level. split.
  - intros [q H]. destruct (is_application r) eqn:A; [|discriminate]. destruct (is_constant n) eqn:B; [|discriminate].
    destruct (String.eqb (Theories.sort_of st n) (Theories.sort_of st r)) eqn:C; [|discriminate]. apply String.eqb_eq in C.
    split; [destruct r; try discriminate; eauto|]. split; [destruct n; try discriminate; eauto|exact C].
  - intros ((f & args & ->) & (c & s & ->) & E). cbn [is_application is_constant]. rewrite E, String.eqb_refl. eexists; reflexivity.
Qed.
Theorem C72_built : forall st ts td r n q,
  (make_lock ts td r = Ok q -> q = Lock ts td r) /\ (make_level st ts td r n = Ok q -> q = Level ts td r n).
Proof.
  intros. unfold make_lock, make_level. split; intros H.
  - destruct (is_application r); congruence.
  - destruct (is_application r); [|discriminate]. destruct (is_constant n); [|discriminate]. destruct (String.eqb _ _); congruence.
Qed.

(** * The parts of an action *)
Lemma requirements_ok rs : forall lk lv m x, requirements rs lk lv m = Ok x ->
  fst (fst x) = lk ++ filter is_lock rs /\ snd (fst x) = lv ++ filter is_level rs /\ (forall q, In q rs -> exists d r, q = RTimed d r) /\
  (m <= snd x)%Q /\ (forall d r, In (RTimed d r) rs -> duration r <= snd x)%Q /\ (snd x = m \/ exists d r, In (RTimed d r) rs /\ snd x = duration r).
Proof.
  induction rs as [|q rs IH]; intros lk lv m x H; cbn [requirements] in H.
  - injection H as <-. cbn [fst snd filter]. rewrite !app_nil_r. repeat split; try (intros; contradiction); [apply Qle_refl|now left].
  - destruct q as [d r| |]; [|discriminate|discriminate].
    assert (K : exists lk' lv', requirements rs lk' lv' (py_max m (duration r)) = Ok x /\ lk' ++ filter is_lock rs = lk ++ filter is_lock (RTimed d r :: rs) /\ lv' ++ filter is_level rs = lv ++ filter is_level (RTimed d r :: rs)).
    { destruct r as [ts td r|ts td r n]; eexists; eexists; (split; [exact H|]); cbn [filter is_lock is_level]; rewrite <- ?app_assoc; split; reflexivity. }
    destruct K as (lk' & lv' & K & E1 & E2). destruct (IH _ _ _ _ K) as (A1 & A2 & A3 & A4 & A5 & A6). rewrite E1 in A1. rewrite E2 in A2.
    assert (M1 : (m <= py_max m (duration r))%Q) by (unfold py_max; destruct (Qlt_le_dec m (duration r)); [now apply Qlt_le_weak|apply Qle_refl]).
    assert (M2 : (duration r <= py_max m (duration r))%Q) by (unfold py_max; destruct (Qlt_le_dec m (duration r)); [apply Qle_refl|assumption]).
    split; [exact A1|]. split; [exact A2|]. split; [intros q [<-|I]; eauto|]. split; [eapply Qle_trans; eassumption|]. split.
    + intros d' r' [E|I]; [injection E as <- <-; eapply Qle_trans; eassumption|eauto].
    + destruct A6 as [A6|(d' & r' & I & A6)]; [|right; exists d', r'; split; [now right|exact A6]].
      rewrite A6. unfold py_max. destruct (Qlt_le_dec m (duration r)); [|now left]. right. exists d, r. split; [now left|reflexivity].
Qed.
Lemma requirements_total rs : (forall q, In q rs -> exists d r, q = RTimed d r) -> forall lk lv m, exists x, requirements rs lk lv m = Ok x.
Proof.
  induction rs as [|q rs IH]; intros H lk lv m; cbn [requirements]; [eexists; reflexivity|]. destruct (H q (or_introl eq_refl)) as (d & r & ->).
  assert (H' : forall q, In q rs -> exists d r, q = RTimed d r) by (intros q I; apply H; now right). destruct r; apply IH; exact H'.
Qed.

Section Operators.
Variable parse : bool -> string -> option Z.
Variable fuel : nat.
Variable st : tlang.
Definition decent (e : effect) : Prop := match e with EAssign _ (PyVal c) => no_numeral parse c | _ => True end.
Lemma literal_same c s u : no_numeral parse c -> literal parse st c s = Ok u -> u = Cst c s.
Proof.
  unfold literal. intros N H. destruct (sget (l_sorts (t_lang st)) s) as [r|]; [|discriminate]. destruct (s_kind r) as [|real lb ub].
  - destruct (cn_mem c (s_dom r)); congruence.
  - assert (K : forall y, cast parse real lb ub c = Ok y -> y = c).
    { intros y. unfold cast, encode. destruct c as [x|z].
      - cbn in N. rewrite N. discriminate.
      - match goal with |- (if ?b then _ else _) = _ -> _ => destruct b end; congruence. }
    destruct (cast parse real lb ub c) as [y|] eqn:E; cbn [bind] in H; [|discriminate]. specialize (K y eq_refl). subst y. destruct c; [discriminate|]. destruct (real && _); congruence.
Qed.
Lemma key_of_brings e k : decent e -> key_of parse fuel st e = Ok k -> brings st e k.
Proof.
  destruct e as [f v|[t|f] v|]; cbn [key_of]; intros D H; try discriminate.
  - injection H as <-. constructor.
  - destruct (dispatch_pred parse fuel st PEq (PyTerm t) v) as [g|] eqn:E; [|discriminate]. cbn [bind] in H. injection H as <-.
    apply dispatch_pred_inv in E as (u & w & C & -> & _). destruct v as [c|u']; cbn [cast_operands] in C.
    + destruct (literal parse st c (Theories.sort_of st t)) as [w'|] eqn:L; [|discriminate]. injection C as <- <-. apply literal_same in L; [|exact D]. subst w'. constructor.
    + injection C as <- <-. constructor.
Qed.
Lemma brings_fun e k k' : brings st e k -> brings st e k' -> k = k'.
Proof. intros H K. destruct H; inversion K; reflexivity. Qed.

Lemma brings_dec e k : brings st e k \/ ~ brings st e k.
Proof.
  destruct e as [f v|[t|f] [c|u]|]; try (right; intros X; inversion X; fail);
    match goal with |- brings st ?e k \/ _ => assert (Y : exists k1, brings st e k1) by (eexists; constructor); destruct Y as [k1 Y]; destruct (key_eqb k1 k) eqn:Q;
      [apply key_eqb_eq in Q; subst; now left|right; intros X; rewrite (brings_fun _ _ _ Y X) in Q; now rewrite (proj2 (key_eqb_eq k k) eq_refl) in Q] end.
Qed.
Lemma last_cases gs k : (exists d, last_delay st gs k d) \/ forall d e, In (GTimed d e) gs -> ~ brings st e k.
Proof.
  induction gs as [|g gs [[d (b & e & a & -> & B & N)]|N]]; [right; intros d e []|left; exists d, (g :: b), e, a; auto|].
  destruct g as [d e|]; [|right; intros d e [I|I]; [discriminate|eauto]]. destruct (brings_dec e k) as [B|B]; [left; exists d, [], e, gs; auto|].
  right. intros d' e' [I|I]; [injection I as <- <-; exact B|eauto].
Qed.
Lemma timed_ok gs : forall es ks m x, timed parse fuel st gs es ks m = Ok x -> (forall d e, In (GTimed d e) gs -> decent e) ->
  fst (fst x) = es ++ flat_map (fun g => match g with GTimed d e => [(d, e)] | GBare => [] end) gs /\
  (forall g, In g gs -> exists d e k, g = GTimed d e /\ key_of parse fuel st e = Ok k) /\
  (forall k d, dget key_eqb (snd (fst x)) k = Some d <-> last_delay st gs k d \/ (dget key_eqb ks k = Some d /\ forall d' e', In (GTimed d' e') gs -> ~ brings st e' k)) /\
  (m <= snd x)%Q /\ (forall d e, In (GTimed d e) gs -> d <= snd x)%Q /\ (snd x = m \/ exists e, In (GTimed (snd x) e) gs).
Proof.
  induction gs as [|g gs IH]; intros es ks m x H D; cbn [timed] in H.
  - injection H as <-. cbn [fst snd flat_map]. rewrite app_nil_r. split; [reflexivity|]. split; [intros g []|]. split; [|split; [apply Qle_refl|split; [intros d e []|now left]]].
    intros k d. split; [intros E; right; split; [exact E|intros d' e' []]|]. intros [(b & e & a & E & _)|[E _]]; [destruct b; discriminate|exact E].
  - destruct g as [d e|]; [|discriminate]. destruct (key_of parse fuel st e) as [k0|] eqn:K; [|discriminate]. cbn [bind] in H.
    assert (B0 : brings st e k0) by (apply key_of_brings; [apply (D d); now left|exact K]).
    destruct (IH _ _ _ _ H) as (A1 & A2 & A3 & A4 & A5 & A6); [intros d' e' I; apply (D d'); now right|].
    assert (M1 : (m <= py_max m d)%Q) by (unfold py_max; destruct (Qlt_le_dec m d); [now apply Qlt_le_weak|apply Qle_refl]).
    assert (M2 : (d <= py_max m d)%Q) by (unfold py_max; destruct (Qlt_le_dec m d); [apply Qle_refl|assumption]).
    split; [rewrite A1; cbn [flat_map]; now rewrite <- app_assoc|]. split; [intros g [<-|I]; [exists d, e, k0; auto|auto]|]. split; [|split; [eapply Qle_trans; eassumption|split]].
    + intros k d1. rewrite A3. rewrite (dget_dset key_eqb key_eqb_eq). split.
      * intros [(b & e1 & a & E & B & N)|[E N]].
        -- left. exists (GTimed d e :: b), e1, a. rewrite E. auto.
        -- destruct (key_eqb k0 k) eqn:Q.
           ++ apply key_eqb_eq in Q. subst k. injection E as <-. left. exists [], e, gs. auto.
           ++ right. split; [exact E|]. intros d' e' [I|I]; [|eauto]. injection I as <- <-. intros B. rewrite (brings_fun _ _ _ B B0) in Q. rewrite (proj2 (key_eqb_eq k0 k0) eq_refl) in Q. discriminate.
      * intros [(b & e1 & a & E & B & N)|[E N]].
        -- destruct b as [|g b]; cbn [app] in E; injection E as <- E.
           ++ intros. right. subst e1 a. rewrite (brings_fun _ _ _ B B0). rewrite (proj2 (key_eqb_eq k0 k0) eq_refl). split; [reflexivity|].
              intros d' e' I. rewrite <- (brings_fun _ _ _ B B0). eauto.
           ++ left. exists b, e1, a. auto.
        -- right. destruct (key_eqb k0 k) eqn:Q; [apply key_eqb_eq in Q; subst k; exfalso; apply (N d e); [now left|exact B0]|]. split; [exact E|]. intros d' e' I. apply (N d'). now right.
    + intros d' e' [I|I]; [injection I as <- <-; eapply Qle_trans; eassumption|eauto].
    + destruct A6 as [A6|[e' A6]]; [|right; exists e'; now right]. rewrite A6. unfold py_max. destruct (Qlt_le_dec m d); [|now left]. right. exists e. now left.
Qed.
Lemma timed_total gs : (forall g, In g gs -> exists d e k, g = GTimed d e /\ key_of parse fuel st e = Ok k) -> forall es ks m, exists x, timed parse fuel st gs es ks m = Ok x.
Proof.
  induction gs as [|g gs IH]; intros H es ks m; cbn [timed]; [eexists; reflexivity|]. destruct (H g (or_introl eq_refl)) as (d & e & k & -> & K). rewrite K. cbn [bind].
  apply IH. intros g I. apply H. now right.
Qed.
Lemma decent_In gs d e : Forall (no_numeral parse) (values_of gs) -> In (GTimed d e) gs -> decent e.
Proof.
  intros H I. destruct e as [f v|x [c|t]|]; cbn; try exact Logic.I. rewrite Forall_forall in H. apply H. unfold values_of. apply in_flat_map. eexists. split; [exact I|now left].
Qed.
Lemma build_ok i a : build parse fuel st i = Ok a -> exists lk lv m es ks m', requirements (i_requirements i) [] [] 0%Q = Ok (lk, lv, m) /\ timed parse fuel st (i_timed i) [] [] m = Ok (es, ks, m') /\
  condition (i_precondition i) /\ (forall f, i_postcondition i = Some f -> condition f) /\
  a = {| a_precondition := i_precondition i; a_postcondition := i_postcondition i; a_locks := lk; a_levels := lv; a_timed := es;
         a_untimed := map (fun e => (0%Q, e)) (i_untimed i); a_times := ks; a_max := m' |}.
Proof.
  unfold build. intros H. destruct (condition_class (i_precondition i)) eqn:A; [|discriminate]. apply condition_class_spec in A.
  destruct (match i_postcondition i with None => true | Some f => condition_class f end) eqn:B; [|discriminate].
  destruct (requirements (i_requirements i) [] [] 0%Q) as [[[lk lv] m]|]; cbn [bind] in H; [|discriminate].
  destruct (timed parse fuel st (i_timed i) [] [] m) as [[[es ks] m']|] eqn:E; cbn [bind] in H; [|discriminate]. injection H as <-.
  exists lk, lv, m, es, ks, m'. split; [reflexivity|]. split; [exact E|]. split; [exact A|]. split; [|reflexivity]. intros f Ef. rewrite Ef in B. now apply condition_class_spec.
Qed.
End Operators.

(** Which descriptions of actions are accepted *)
Theorem C72_accepts : forall parse fuel ops i, forallb tnative ops = true -> let st := trun parse ops in
  In TArithmetic (t_theories st) -> In TEquality (t_theories st) -> Forall (no_numeral parse) (values_of (i_timed i)) ->
  ((exists a, build parse fuel st i = Ok a) <-> well_formed parse st i).
Proof.
  intros parse fuel ops i Hn st HA HE HV.
  assert (K : forall d e, In (GTimed d e) (i_timed i) -> ((exists k, key_of parse fuel st e = Ok k) <-> settable parse st e)).
  { intros d e I. assert (De := decent_In parse _ d e HV I). unfold settable. destruct e as [f v|[t|f] v|]; cbn [key_of].
    - split; [intros _; left; eauto|intros _; eexists; reflexivity].
    - assert (C : (exists f, py_compare parse fuel st PEq (PLeaf t) (operand v) = Ok (PyForm f)) <-> compares parse st PEq (PLeaf t) (operand v)).
      { apply C58_compares; [exact Hn|exact HA|exact HE|]. destruct v as [c|u]; cbn; [constructor; [exact De|constructor]|constructor]. }
      assert (C' : (exists f, py_compare parse fuel st PEq (PLeaf t) (operand v) = Ok (PyForm f)) <-> exists f, dispatch_pred parse fuel st PEq (PyTerm t) v = Ok f).
      { unfold py_compare. destruct v as [c|u]; cbn [operand py_eval bind]; destruct (dispatch_pred parse fuel st PEq (PyTerm t) _) as [g|e]; cbn [bind]; split; intros [h Eh]; try discriminate; eauto. }
      split.
      + intros [k E]. right. exists t, v. split; [reflexivity|]. apply C, C'. destruct (dispatch_pred parse fuel st PEq (PyTerm t) v) as [g|]; [eauto|discriminate].
      + intros [(f & w & E)|(t' & v' & E & H)]; [discriminate|]. injection E as <- <-. apply C, C' in H as [g ->]. eexists; reflexivity.
    - split; [intros [k E]; discriminate|]. intros [(f' & w & E)|(t' & v' & E & _)]; discriminate.
    - split; [intros [k E]; discriminate|]. intros [(f' & w & E)|(t' & v' & E & _)]; discriminate. }
  unfold well_formed. split.
  - intros [a H]. apply build_ok in H as (lk & lv & m & es & ks & m' & R & T & P & Q & _).
    apply requirements_ok in R as (_ & _ & R & _). apply timed_ok in T as (_ & T & _); [|intros d e; apply (decent_In parse _ d e HV)].
    split; [exact P|]. split; [exact Q|]. split; [exact R|]. intros g I. destruct (T g I) as (d & e & k & -> & E). exists d, e. split; [reflexivity|]. apply (K d e I). eauto.
  - intros (P & Q & R & T). destruct (requirements_total _ R [] [] 0%Q) as [[[lk lv] m] ER].
    destruct (timed_total parse fuel st (i_timed i)) with (es := @nil (QArith_base.Q * effect)) (ks := @nil (key * QArith_base.Q)) (m := m) as [[[es ks] m'] ET].
    { intros g I. destruct (T g I) as (d & e & -> & S). apply (K d e I) in S as [k S]. eauto. }
    unfold build. rewrite (proj2 (condition_class_spec _) P). replace (match i_postcondition i with None => true | Some f => condition_class f end) with true.
    + rewrite ER. cbn [bind]. rewrite ET. cbn [bind]. eexists; reflexivity.
    + destruct (i_postcondition i) as [f|]; [|reflexivity]. symmetry. now apply condition_class_spec, Q.
Qed.
Print Assumptions C72_accepts.

(** Nothing of what is given is lost: the locks and the levels are the requirements, in order; the effects are those given, and the untimed ones happen at 0. *)
Theorem C72_parts : forall parse fuel st i a, build parse fuel st i = Ok a ->
  a_precondition a = i_precondition i /\ a_postcondition a = i_postcondition i /\
  a_locks a = filter is_lock (i_requirements i) /\ a_levels a = filter is_level (i_requirements i) /\
  (forall q, In q (i_requirements i) <-> In q (a_locks a) \/ In q (a_levels a)) /\
  map (fun x => GTimed (fst x) (snd x)) (a_timed a) = i_timed i /\ a_untimed a = map (fun e => (0%Q, e)) (i_untimed i).
Proof.
  intros parse fuel st i a H. apply build_ok in H as (lk & lv & m & es & ks & m' & R & T & P & Q & ->). cbn [a_precondition a_postcondition a_locks a_levels a_timed a_untimed].
  apply requirements_ok in R as (R1 & R2 & R3 & _). cbn [fst snd app] in R1, R2. subst lk lv.
  split; [reflexivity|]. split; [reflexivity|]. split; [reflexivity|]. split; [reflexivity|]. split.
  - intros q. rewrite !filter_In. split; [intros I|tauto]. destruct (R3 q I) as (d & [ts td r|ts td r n] & ->); [left|right]; auto.
  - split; [|reflexivity]. clear - T.
    assert (G : forall gs es ks m x, timed parse fuel st gs es ks m = Ok x -> map (fun x => GTimed (fst x) (snd x)) (fst (fst x)) = map (fun x => GTimed (fst x) (snd x)) es ++ gs).
    { induction gs as [|g gs IH]; intros es' ks' n x E; cbn [timed] in E; [injection E as <-; cbn [fst]; now rewrite app_nil_r|]. destruct g as [d e|]; [|discriminate].
      destruct (key_of parse fuel st e); [|discriminate]. cbn [bind] in E. apply IH in E. rewrite E, map_app. cbn [map fst snd]. now rewrite <- app_assoc. }
    apply G in T. exact T.
Qed.
(** The time of an effect is the delay of the last timed effect that brings it about; otherwise KeyError is raised. *)
Theorem C72_effect_time : forall parse fuel st i a k, Forall (no_numeral parse) (values_of (i_timed i)) -> build parse fuel st i = Ok a ->
  (forall d, get_effect_time a k = Ok d <-> last_delay st (i_timed i) k d) /\
  (get_effect_time a k = Err KeyError <-> forall d e, In (GTimed d e) (i_timed i) -> ~ brings st e k).
Proof.
  intros parse fuel st i a k HV H. apply build_ok in H as (lk & lv & m & es & ks & m' & R & T & P & Q & ->). unfold get_effect_time. cbn [a_times].
  apply timed_ok in T as (_ & T0 & T & _); [|intros d e; apply (decent_In parse _ d e HV)]. cbn [fst snd] in T. specialize (T k).
  assert (E : forall d, dget key_eqb ks k = Some d <-> last_delay st (i_timed i) k d).
  { intros d. rewrite T. cbn [dget]. split; [intros [H|[H _]]; [exact H|discriminate]|now left]. }
  split.
  - intros d. rewrite <- E. destruct (dget key_eqb ks k); split; intros X; congruence.
  - split.
    + intros X d e I B. destruct (last_cases st (i_timed i) k) as [L|N]; [|now apply (N d e)].
      destruct L as [d' L]. apply E in L. rewrite L in X. discriminate.
    + intros N. destruct (dget key_eqb ks k) as [d|] eqn:G; [|reflexivity]. exfalso. destruct (proj1 (E d) eq_refl) as (b & e & a' & I & B & _). apply (N d e); [rewrite I; apply in_or_app; right; now left|exact B].
Qed.
Print Assumptions C72_effect_time.
(** The largest time is the largest of 0, the durations of the requirements and the delays of the effects. *)
Theorem C72_horizon : forall parse fuel st i a, Forall (no_numeral parse) (values_of (i_timed i)) -> build parse fuel st i = Ok a ->
  (0 <= a_max a)%Q /\ (forall q, mentioned i q -> (q <= a_max a)%Q) /\ (a_max a = 0%Q \/ mentioned i (a_max a)).
Proof.
  intros parse fuel st i a HV H. apply build_ok in H as (lk & lv & m & es & ks & m' & R & T & P & Q & ->). cbn [a_max].
  apply requirements_ok in R as (_ & _ & _ & R1 & R2 & R3). apply timed_ok in T as (_ & _ & _ & T1 & T2 & T3); [|intros d e; apply (decent_In parse _ d e HV)]. cbn [snd] in *.
  split; [eapply Qle_trans; eassumption|]. split.
  - intros q [(d & r & I & ->)|[e I]]; [eapply Qle_trans; [eapply R2; exact I|exact T1]|eapply T2; exact I].
  - destruct T3 as [->|[e I]]; [|right; right; eauto]. destruct R3 as [->|(d & r & I & ->)]; [now left|]. right. left. eauto.
Qed.

(** * Examples *)
Definition ndl_ops : list top := [TLoad TEquality; TLoad TArithmetic; TOp (OSort "rover" None); TOp (OConst (CStr "r1") "rover"); TOp (OFun "battery" ["rover"; "Integer"]); TOp (OPred "idle" ["rover"])].
Definition ndl_st : tlang := Eval vm_compute in trun no_parse ndl_ops.
Definition r1 : term := Cst (CStr "r1") "rover".
Definition battery : term := App (FU "battery" ["rover"] "Integer") [r1].
Definition idle : formula := Atom (PU "idle" ["rover"]) [r1].
Definition drive : input :=
  {| i_precondition := Comp And [idle; Atom (PB PGe) [battery; Cst (CInt 5) "Integer"]]; i_postcondition := None;
     i_requirements := [RTimed 0 (Level 0 20 battery (Cst (CInt 0) "Integer")); RTimed 0 (Lock 5 30 battery)];
     i_timed := [GTimed 10 (ESetLit idle false); GTimed 21 (EAssign (inl battery) (PyVal (CInt 3))); GTimed 25 (ESetLit idle true); GTimed 12 (ESetLit idle false)];
     i_untimed := [EElse] |}.
Definition driven : action :=
  {| a_precondition := i_precondition drive; a_postcondition := None; a_locks := [RTimed 0 (Lock 5 30 battery)]; a_levels := [RTimed 0 (Level 0 20 battery (Cst (CInt 0) "Integer"))];
    a_timed := [(10%Q, ESetLit idle false); (21%Q, EAssign (inl battery) (PyVal (CInt 3))); (25%Q, ESetLit idle true); (12%Q, ESetLit idle false)]; a_untimed := [(0%Q, EElse)];
    a_times := [(KLiteral idle false, 12%Q); (KEquation (Atom (PB PEq) [battery; Cst (CInt 3) "Integer"]), 21%Q); (KLiteral idle true, 25%Q)]; a_max := 30%Q |}.
Theorem C72_nonvacuous : forallb tnative ndl_ops = true /\ In TArithmetic (t_theories (trun no_parse ndl_ops)) /\ In TEquality (t_theories (trun no_parse ndl_ops)) /\
  Forall (no_numeral no_parse) (values_of (i_timed drive)) /\ (exists a, build no_parse 9 (trun no_parse ndl_ops) drive = Ok a) /\ well_formed no_parse (trun no_parse ndl_ops) drive /\
  (forall a, build no_parse 9 (trun no_parse ndl_ops) drive = Ok a ->
     List.length (a_locks a) = 1%nat /\ List.length (a_levels a) = 1%nat /\ a_max a = 30%Q /\ get_effect_time a (KLiteral idle false) = Ok 12%Q /\ get_effect_time a (KLiteral idle true) = Ok 25%Q /\
     get_effect_time a (KEquation (Atom (PB PEq) [battery; Cst (CInt 3) "Integer"])) = Ok 21%Q /\ get_effect_time a (KEquation (Atom (PB PEq) [battery; Cst (CInt 4) "Integer"])) = Err KeyError) /\
  (exists q, make_level (trun no_parse ndl_ops) 0 20 battery (Cst (CInt 0) "Integer") = Ok q).
Proof.
  assert (E : trun no_parse ndl_ops = ndl_st) by (vm_compute; reflexivity).
  assert (A : In TArithmetic (t_theories (trun no_parse ndl_ops))) by (rewrite E; vm_compute; tauto). assert (B : In TEquality (t_theories (trun no_parse ndl_ops))) by (rewrite E; vm_compute; tauto).
  assert (N : Forall (no_numeral no_parse) (values_of (i_timed drive))) by (repeat constructor).
  assert (Y : build no_parse 9 (trun no_parse ndl_ops) drive = Ok driven) by (rewrite E; vm_compute; reflexivity).
  assert (X : exists a, build no_parse 9 (trun no_parse ndl_ops) drive = Ok a) by (exists driven; exact Y).
  split; [reflexivity|]. split; [exact A|]. split; [exact B|]. split; [exact N|]. split; [exact X|]. split; [|split].
  - exact (proj1 (C72_accepts no_parse 9 ndl_ops drive eq_refl A B N) X).
  - intros a H. rewrite Y in H. assert (Q : a = driven) by congruence. subst a. clear.
    repeat (split; [vm_compute; reflexivity|]). vm_compute; reflexivity.
  - exists (Level 0 20 battery (Cst (CInt 0) "Integer")). rewrite E. vm_compute. reflexivity.
Qed.
(** [max_eff_time] can be earlier than the moment at which a lock ends: a lock after 5 for 30 ends at 35. *)
Theorem C72_release_refuted : exists a r, build no_parse 9 (trun no_parse ndl_ops) drive = Ok a /\ In (RTimed 0 r) (a_locks a) /\ (a_max a < released r)%Q.
Proof.
  assert (E : trun no_parse ndl_ops = ndl_st) by (vm_compute; reflexivity). rewrite E.
  exists driven, (Lock 5 30 battery).
  split; [vm_compute; reflexivity|]. split; [now left|]. vm_compute. reflexivity.
Qed.
(** An assignment whose left side is an atom, as its attribute [atom] suggests, is refused, and so is a precondition that is false or quantified. *)
Theorem C72_atom_refuted : forall parse fuel st i d f v l, i_timed i = GTimed d (EAssign (inr f) v) :: l -> condition (i_precondition i) -> i_postcondition i = None -> i_requirements i = [] ->
  build parse fuel st i = Err RuntimeError.
Proof. intros parse fuel st i d f v l H P Q R. unfold build. rewrite (proj2 (condition_class_spec _) P), Q, R, H. reflexivity. Qed.
Theorem C72_condition_refuted : forall parse fuel st i, i_precondition i = Bot \/ (exists q vs f, i_precondition i = Quant q vs f) -> build parse fuel st i = Err SyntaxError.
Proof. intros parse fuel st i [H|(q & vs & f & H)]; unfold build; now rewrite H. Qed.
Print Assumptions C72_horizon.
Print Assumptions C72_parts.
