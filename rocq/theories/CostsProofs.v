(** Proofs about action costs *)
From Verif Require Import ListUtil Base Syntax Semantics SemLemmas Build NnfProofs BuildProofs ModelState ModelProofs Eval EvalSpec EvalProofs Index Subst SubstProofs QElim QElimProofs Effects ProgressSpec StateLemmas ProgressProofs SearchModelProofs NegBuiltinProofs PropsProgress Represent RelaxSpec PropsRelax CompileSpec PropsCompile Grounding GroundingSpec PropsGrounding Simplify SimplifySpec SimplifyProofs SimplifyProofs2 SimplifyProofs3 SimplifyProofs4 Costs CostsSpec.
#[local] Open Scope string_scope.

Definition assigns_tc (e : effect) : bool := match e with EFun _ _ l _ => is_total_cost l | _ => false end.
Lemma process_none e : assigns_tc e = false -> process_cost_effect e = Ok None.
Proof. destruct e; cbn; try reflexivity. intros ->. reflexivity. Qed.
Lemma process_some e o : assigns_tc e = true -> process_cost_effect e = Ok o -> exists i l a t ts, o = Some t /\ e = EFun i Top l (App (FB BAdd) (a :: t :: ts)) /\ is_total_cost l = true.
Proof.
  destruct e as [| |i c l r| | |]; cbn; try discriminate. intros E. rewrite E. destruct c; try discriminate. cbn. destruct r as [| |[[]|] [|a [|t ts]]|]; try discriminate. intros [= <-]. repeat eexists; eauto.
Qed.
Lemma process_effects_spec effs simple costs : process_cost_effects effs = Ok (simple, costs) ->
  simple = filter (fun e => negb (assigns_tc e)) effs /\ Forall2 (fun e t => exists i l a ts, e = EFun i Top l (App (FB BAdd) (a :: t :: ts))) (filter assigns_tc effs) costs.
Proof.
  revert simple costs. induction effs as [|e es IH]; intros simple costs H; cbn [process_cost_effects] in H; [injection H as <- <-; split; [auto|constructor]|].
  cbn [filter]. destruct (assigns_tc e) eqn:A.
  - destruct (process_cost_effect e) as [o|] eqn:P; [|discriminate]. cbn [bind] in H. destruct (process_some e o A P) as (i & l & a & t & ts & -> & -> & _). destruct (process_cost_effects es) as [[s c]|]; [|discriminate]. cbn [bind] in H. injection H as <- <-.
    destruct (IH s c eq_refl) as [H1 H2]. split; [exact H1|]. constructor; [eauto 6|exact H2].
  - rewrite (process_none e A) in H. cbn [bind] in H. destruct (process_cost_effects es) as [[s c]|]; [|discriminate]. cbn [bind] in H. injection H as <- <-. destruct (IH s c eq_refl) as [H1 H2]. split; [cbn [negb]; f_equal; exact H1|exact H2].
Qed.

(** * One step *)
Section Step.
Variables (D : domains) (sub : sort -> sort -> bool) (cod : sort).
Hypothesis TD : typed_domains D sub.
Notation TC := (total_cost cod).
Notation U := (not_cost cod).
(** A ground effect that has nothing to do with total-cost *)
Definition apart (e : effect) : Prop := plain_effect e = true /\ ein U e /\ ~ written e (SymF TC).
Lemma same_sym a b : same_on U a b -> same_on U b a.
Proof. intros [H1 H2]. split; intros; symmetry; auto. Qed.
Lemma same_tr a b c : same_on U a b -> same_on U b c -> same_on U a c.
Proof. intros [H1 H2] [G1 G2]. split; intros; [rewrite H1 by auto; auto|rewrite H2 by auto; auto]. Qed.
Lemma run_apart L a b a' : (forall e, In e L -> apart e) -> proper a -> proper b -> same_on U a b -> run_effects D sub L a = Ok a' ->
  exists b', run_effects D sub L b = Ok b' /\ same_on U a' b' /\ proper a' /\ proper b'.
Proof.
  intros HL Pa Pb S H. apply (run_with_in U (apply_effect D sub) L) with (a := a); auto. intros e a0 b0 a0' He P1 P2 S0 H0. apply (apply_in D sub U TD (edepth e) e a0 b0 a0'); auto. apply (HL e He).
Qed.
Lemma run_keeps_by L a a' (W : sym -> Prop) : (forall e, In e L -> plain_effect e = true) -> (forall e x, In e L -> written e x -> W x) -> proper a -> run_effects D sub L a = Ok a' -> keeps W a a'.
Proof.
  intros HL HW Pa. apply run_with_keeps; [|auto]. intros e m m' He Pm E. apply (keeps_weaken (written e)); [eauto|]. apply (apply_keeps D sub (edepth e)); auto.
Qed.
Lemma split_progress l1 e l2 m : is_del e = false -> progress D sub m (l1 ++ e :: l2) = run_effects D sub ((filter is_del (l1 ++ l2) ++ filter (fun e => negb (is_del e)) l1) ++ e :: filter (fun e => negb (is_del e)) l2) m.
Proof.
  intros E. unfold progress. f_equal. rewrite !filter_app. cbn [filter]. rewrite E. cbn [negb]. rewrite <- !app_assoc. reflexivity.
Qed.
Lemma join_progress l1 l2 m : progress D sub m (l1 ++ l2) = run_effects D sub ((filter is_del (l1 ++ l2) ++ filter (fun e => negb (is_del e)) l1) ++ filter (fun e => negb (is_del e)) l2) m.
Proof. unfold progress. f_equal. rewrite !filter_app. rewrite <- !app_assoc. reflexivity. Qed.

(** The expression [t] is about other symbols than total-cost, none of which is changed by the effects [L]. *)
Definition stable (t : term) (L : list effect) : Prop := forall x, occurs_t x t -> U x /\ forall e, In e L -> ~ written e x.
Lemma stable_eval t L a a1 : stable t L -> (forall e, In e L -> plain_effect e = true) -> proper a -> run_effects D sub L a = Ok a1 -> evaluate_t a1 t = evaluate_t a t.
Proof.
  intros St Pl Pa H. destruct (run_keeps_by L a a1 (fun x => exists e, In e L /\ written e x) Pl (fun e x He W => ex_intro _ e (conj He W)) Pa H) as (_ & K1 & K2).
  apply evaluate_local; [intros p pt Hp; apply K1; intros (e & He & W); exact (proj2 (St (SymP p) Hp) e He W)|intros f pt Hf; apply K2; intros (e & He & W); exact (proj2 (St (SymF f) Hf) e He W)].
Qed.
Lemma stable_same t L a b : stable t L -> same_on U a b -> evaluate_t a t = evaluate_t b t.
Proof. intros St [S1 S2]. apply evaluate_local; [intros p pt Hp; apply S1; exact (proj1 (St (SymP p) Hp))|intros f pt Hf; apply S2; exact (proj1 (St (SymF f) Hf))]. Qed.
Lemma increase_eval a t : evaluate_t a (App (FB BAdd) [App TC []; t]) =
  match eval_term a (App TC []) with Err e => Err e | Ok v => match eval_term a t with Err e => Err e | Ok w => arith BAdd v w end end.
Proof. reflexivity. Qed.
Lemma eval_ok_both a t v : eval_term a t = Ok v <-> evaluate_t a t = Ok v.
Proof. unfold evaluate_t. destruct t; try tauto. cbn. split; discriminate. Qed.
Lemma tc_eval a v : eval_term a (App TC []) = Ok v <-> m_value a TC [] = Ok v.
Proof. cbn. destruct (m_value a TC []) as [w|[]]; split; congruence. Qed.
Lemma arith_add v w u : arith BAdd v w = Ok u <-> exists n z r1 r2, v = Cst (CInt n) r1 /\ w = Cst (CInt z) r2 /\ u = Cst (CInt (n + z)) "Integer" /\ (- int_max <= n + z <= int_max)%Z.
Proof.
  split.
  - destruct v as [|[|n] r1| |], w as [|[|z] r2| |]; cbn; try discriminate. unfold mk_integer. destruct (Z.leb (- int_max) (n + z) && Z.leb (n + z) int_max)%bool eqn:E; [|discriminate]. apply andb_true_iff in E as [E1 E2]. apply Z.leb_le in E1, E2.
    intros [= <-]. repeat eexists; eauto.
  - intros (n & z & r1 & r2 & -> & -> & -> & B1 & B2). cbn. unfold mk_integer. apply Z.leb_le in B1, B2. rewrite B1, B2. reflexivity.
Qed.
Lemma arity_set a u : sub "Integer" cod = true -> exists a', m_set sub a (App TC []) (Cst (CInt u) "Integer") = Ok a'.
Proof. intros H. cbn [m_set total_cost forallb]. unfold check_assignment. cbn. rewrite H. cbn. eauto. Qed.
Lemma set_tc a v a' : m_set sub a (App TC []) v = Ok a' -> proper a -> proper a' /\ same_on U a' a /\ m_value a' TC [] = Ok v.
Proof.
  intros H Pa. destruct (set_spec sub a _ v a' H) as (f & p & E & P1 & H1 & V1). injection E as <- <-. split; [auto|]. split; [split|].
  - intros; apply H1.
  - intros f pt Hn. rewrite V1. destruct (same_point TC f [] pt) eqn:E; [|auto]. apply same_point_eq in E as [<- _]. exfalso. now apply Hn.
  - rewrite V1. replace (same_point TC TC [] []) with true; [reflexivity|]. symmetry. now apply same_point_eq.
Qed.

Lemma cost_step_forward i t l1 l2 a b a' : (forall e, In e (l1 ++ l2) -> apart e) -> stable t (l1 ++ l2) -> proper a -> proper b -> same_on U a b ->
  progress D sub a (l1 ++ EFun i Top (App TC []) (App (FB BAdd) [App TC []; t]) :: l2) = Ok a' ->
  exists b' n z r r0 r1, progress D sub b (l1 ++ l2) = Ok b' /\ same_on U a' b' /\ proper a' /\ proper b' /\ m_value b' TC [] = m_value b TC [] /\
    evaluate_t b t = Ok (Cst (CInt z) r) /\ m_value a TC [] = Ok (Cst (CInt n) r0) /\ m_value a' TC [] = Ok (Cst (CInt (n + z)) r1).
Proof.
  intros HA St Pa Pb S H. rewrite split_progress in H by reflexivity. rewrite join_progress. set (L1 := (filter is_del (l1 ++ l2) ++ filter (fun e => negb (is_del e)) l1)%list) in *. set (L2 := filter (fun e => negb (is_del e)) l2) in *.
  assert (I1 : forall e, In e L1 -> In e (l1 ++ l2)) by (intros e He; unfold L1 in He; repeat rewrite in_app_iff in *; repeat rewrite filter_In in *; repeat rewrite in_app_iff in *; tauto).
  assert (I2 : forall e, In e L2 -> In e (l1 ++ l2)) by (intros e He; unfold L2 in He; repeat rewrite in_app_iff in *; repeat rewrite filter_In in *; repeat rewrite in_app_iff in *; tauto).
  clearbody L1 L2. unfold run_effects in *. rewrite run_with_app in *. destruct (run_with (apply_effect D sub) L1 a) as [a1|] eqn:E1; [|discriminate]. cbn [bind] in H. cbn [run_with] in H.
  destruct (run_apart L1 a b a1) as (b1 & F1 & S1 & Pa1 & Pb1); auto. unfold run_effects in F1. rewrite F1. cbn [bind].
  unfold apply_effect at 1 in H. cbn [edepth apply_effect_n econd eval_f bind negb] in H. rewrite increase_eval in H.
  destruct (eval_term a1 (App TC [])) as [v|] eqn:Ev; [|discriminate]. destruct (eval_term a1 t) as [w|] eqn:Ew; [|discriminate]. destruct (arith BAdd v w) as [u|] eqn:Eu; [|discriminate]. cbn [bind] in H.
  destruct (m_set sub a1 (App TC []) u) as [a2|] eqn:Em; [|discriminate]. cbn [bind] in H. apply arith_add in Eu as (n & z & r1 & r2 & -> & -> & -> & _). apply tc_eval in Ev. apply eval_ok_both in Ew.
  destruct (set_tc a1 _ a2 Em Pa1) as (Pa2 & S2 & V2).
  destruct (run_apart L2 a2 b1 a') as (b' & F2 & S3 & Pa3 & Pb3); auto; [eapply same_tr; eauto|].
  exists b', n, z, r2, r1, "Integer". split; [exact F2|]. split; [auto|]. split; [auto|]. split; [auto|].
  assert (K1 := run_keeps_by L1 a a1 (fun x => x <> SymF TC) ltac:(intros; apply HA; auto) ltac:(intros e x He W ->; eapply HA; eauto) Pa E1).
  assert (K1' := run_keeps_by L1 b b1 (fun x => x <> SymF TC) ltac:(intros; apply HA; auto) ltac:(intros e x He W ->; eapply HA; eauto) Pb F1).
  assert (K2 := run_keeps_by L2 a2 a' (fun x => x <> SymF TC) ltac:(intros; apply HA; auto) ltac:(intros e x He W ->; eapply HA; eauto) Pa2 H).
  assert (K2' := run_keeps_by L2 b1 b' (fun x => x <> SymF TC) ltac:(intros; apply HA; auto) ltac:(intros e x He W ->; eapply HA; eauto) Pb1 F2).
  destruct K1 as (_ & _ & K1), K1' as (_ & _ & K1'), K2 as (_ & _ & K2), K2' as (_ & _ & K2').
  split; [rewrite K2', K1' by (intros N; now apply N); reflexivity|]. split; [|split].
  - rewrite <- (stable_same t _ a b St S). rewrite <- Ew. symmetry. eapply stable_eval; [|intros; apply HA; apply I1; eauto|exact Pa|exact E1]. intros x Hx. split; [apply (St x Hx)|]. intros e He. apply (St x Hx). auto.
  - rewrite <- Ev. symmetry. apply K1. intros N; now apply N.
  - rewrite K2 by (intros N; now apply N). exact V2.
Qed.
Lemma cost_step_backward i t l1 l2 a b b' n z r r0 : (forall e, In e (l1 ++ l2) -> apart e) -> stable t (l1 ++ l2) -> proper a -> proper b -> same_on U a b -> sub "Integer" cod = true ->
  progress D sub b (l1 ++ l2) = Ok b' -> evaluate_t b t = Ok (Cst (CInt z) r) -> m_value a TC [] = Ok (Cst (CInt n) r0) -> (- int_max <= n + z <= int_max)%Z ->
  exists a', progress D sub a (l1 ++ EFun i Top (App TC []) (App (FB BAdd) [App TC []; t]) :: l2) = Ok a' /\ same_on U a' b' /\ proper a' /\ proper b' /\ m_value a' TC [] = Ok (Cst (CInt (n + z)) "Integer").
Proof.
  intros HA St Pa Pb S HI H Ht Hn HB. rewrite join_progress in H. rewrite split_progress by reflexivity. set (L1 := (filter is_del (l1 ++ l2) ++ filter (fun e => negb (is_del e)) l1)%list) in *. set (L2 := filter (fun e => negb (is_del e)) l2) in *.
  assert (I1 : forall e, In e L1 -> In e (l1 ++ l2)) by (intros e He; unfold L1 in He; repeat rewrite in_app_iff in *; repeat rewrite filter_In in *; repeat rewrite in_app_iff in *; tauto).
  assert (I2 : forall e, In e L2 -> In e (l1 ++ l2)) by (intros e He; unfold L2 in He; repeat rewrite in_app_iff in *; repeat rewrite filter_In in *; repeat rewrite in_app_iff in *; tauto).
  clearbody L1 L2. unfold run_effects in *. rewrite run_with_app in *. destruct (run_with (apply_effect D sub) L1 b) as [b1|] eqn:E1; [|discriminate]. cbn [bind] in H.
  destruct (run_apart L1 b a b1) as (a1 & F1 & S1 & Pb1 & Pa1); auto; [now apply same_sym|]. unfold run_effects in F1. rewrite F1. cbn [bind run_with]. unfold apply_effect at 1. cbn [edepth apply_effect_n econd eval_f bind negb]. rewrite increase_eval.
  assert (K1 := run_keeps_by L1 a a1 (fun x => x <> SymF TC) ltac:(intros; apply HA; auto) ltac:(intros e x He W ->; eapply HA; eauto) Pa F1). destruct K1 as (_ & _ & K1).
  assert (Ev : eval_term a1 (App TC []) = Ok (Cst (CInt n) r0)) by (apply tc_eval; rewrite K1 by (intros N; now apply N); exact Hn). rewrite Ev.
  assert (Et : eval_term a1 t = Ok (Cst (CInt z) r)).
  { apply eval_ok_both. rewrite (stable_eval t L1 a a1); [rewrite (stable_same t _ a b St S); exact Ht| |intros; apply HA; apply I1; auto|exact Pa|exact F1]. intros x Hx. split; [apply (St x Hx)|]. intros e He. apply (St x Hx). auto. }
  rewrite Et. assert (Eu : arith BAdd (Cst (CInt n) r0) (Cst (CInt z) r) = Ok (Cst (CInt (n + z)) "Integer")) by (apply arith_add; repeat eexists; lia). rewrite Eu. cbn [bind].
  destruct (arity_set a1 (n + z) HI) as [a2 Em]. rewrite Em. cbn [bind]. destruct (set_tc a1 _ a2 Em Pa1) as (Pa2 & S2 & V2).
  destruct (run_apart L2 b1 a2 b') as (a' & F2 & S3 & Pb3 & Pa3); auto; [apply same_sym; eapply same_tr; [exact S2|now apply same_sym]|].
  exists a'. split; [exact F2|]. split; [now apply same_sym|]. split; [auto|]. split; [auto|].
  assert (K2 := run_keeps_by L2 a2 a' (fun x => x <> SymF TC) ltac:(intros; apply HA; auto) ltac:(intros e x He W ->; eapply HA; eauto) Pa2 F2). destruct K2 as (_ & _ & K2). rewrite K2 by (intros N; now apply N). exact V2.
Qed.
Lemma free_step l a b a' : (forall e, In e l -> apart e) -> proper a -> proper b -> same_on U a b -> progress D sub a l = Ok a' ->
  exists b', progress D sub b l = Ok b' /\ same_on U a' b' /\ proper a' /\ proper b' /\ m_value a' TC [] = m_value a TC [] /\ m_value b' TC [] = m_value b TC [].
Proof.
  intros HA Pa Pb S H. unfold progress in *. set (L := (filter is_del l ++ filter (fun e => negb (is_del e)) l)%list) in *. assert (I : forall e, In e L -> In e l) by (intros e He; unfold L in He; repeat rewrite in_app_iff in *; repeat rewrite filter_In in *; repeat rewrite in_app_iff in *; tauto). clearbody L.
  destruct (run_apart L a b a') as (b' & F & S' & P1 & P2); auto. exists b'. repeat (split; [auto; fail|]).
  destruct (run_keeps_by L a a' (fun x => x <> SymF TC) ltac:(intros; apply HA; auto) ltac:(intros e x He W ->; eapply HA; eauto) Pa H) as (_ & _ & K).
  destruct (run_keeps_by L b b' (fun x => x <> SymF TC) ltac:(intros; apply HA; auto) ltac:(intros e x He W ->; eapply HA; eauto) Pb F) as (_ & _ & K').
  split; [apply K; intros N; now apply N|apply K'; intros N; now apply N].
Qed.

(** * Grounded actions *)
Lemma changes_written e x : changes e x <-> written e x. Proof. reflexivity. Qed.
Lemma reads_ein e : (forall d c, ~ reads e (SymF (FU "total-cost" d c))) -> ein U e.
Proof.
  intros H e' Hs. split; [split|].
  - intros p Hp N. discriminate.
  - intros g Hg [= ->]. apply (H [] cod). exists e'. split; [auto|]. left. exact Hg.
  - destruct e' as [| |i c l r| | |]; try exact I. split; [intros p Hp N; discriminate|]. intros g Hg [= ->]. apply (H [] cod). exists (EFun i c l r). split; [auto|]. right. exact Hg.
Qed.
Lemma ground_apart s e e1 : constant_binding s -> plain_effect e = true -> (forall d c, ~ reads e (SymF (FU "total-cost" d c)) /\ ~ changes e (SymF (FU "total-cost" d c))) -> subst_effect s e = Ok e1 -> apart e1.
Proof.
  intros C Hp H E. destruct (binding_written s (constant_parameter s C) e e1 (SymF TC) Hp E) as [P1 P2]. split; [auto|]. split; [|rewrite P2; apply (H [] cod)]. eapply ein_subst; [exact C|exact E|]. apply reads_ein. intros d c. apply (H d c).
Qed.
Lemma other_process e : plain_effect e = true -> (forall d c, ~ changes e (SymF (FU "total-cost" d c))) -> assigns_tc e = false.
Proof.
  intros Hp H. destruct e as [| |i c l r| | |]; try reflexivity. cbn. destruct l as [| |[|n d k] ts|]; try reflexivity. cbn. destruct (String.eqb n "total-cost") eqn:E; [|auto]. apply String.eqb_eq in E as ->. exfalso. apply (H d k). eexists. split; [constructor|]. cbn. eauto.
Qed.
Lemma ground_increase s i t : constant_binding s -> subst_effect s (EFun i Top (App TC []) (App (FB BAdd) [App TC []; t])) = Ok (EFun i Top (App TC []) (App (FB BAdd) [App TC []; subst_term s t])).
Proof.
  intros C. assert (P := constant_parameter s C). cbn [subst_effect]. rewrite !binding_app by auto. cbn [map]. rewrite binding_app by auto. cbn [map subst_formula]. rewrite binding_formula by auto. reflexivity.
Qed.
Lemma ground_stable s t l l1 : constant_binding s -> (forall e, In e l -> plain_effect e = true) -> (forall x, occurs_t x t -> x <> SymF TC /\ forall e, In e l -> ~ changes e x) -> mapM (subst_effect s) l = Ok l1 -> stable (subst_term s t) l1.
Proof.
  intros C Hp H E x Hx. destruct (proj1 (subst_symbols s C) t) as [S1 S2]. assert (Hx' : occurs_t x t) by (destruct x; cbn in *; auto). destruct (H x Hx') as [H1 H2]. split; [exact H1|]. intros e He W. apply mapM_ok_Forall2 in E. destruct (Forall2_In_r _ _ _ _ E He) as (e0 & H0 & E0).
  destruct (binding_written s (constant_parameter s C) e0 e x (Hp e0 H0) E0) as [_ P2]. apply (H2 e0 H0). apply P2. exact W.
Qed.
End Step.
