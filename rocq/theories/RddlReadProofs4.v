(** The reader of RDDL expressions: what it accepts *)
From Coq Require Import Ascii.
From Verif Require Import Base Syntax Build BuildProofs Semantics SemLemmas ListUtil SubstSpec Subst SubstProofs RddlSpec ModelState Lang LangSpec LangProofs LangProofs2 LangProofs3 ModelProofs Theories TheoriesSpec TheoriesProofs TheoriesProofs2 TheoriesProofs3 PropsTheories PropsTermOps PropsTermOps2 QElim Arith PropsProgress PropsArith RddlRead RddlReadSpec RddlReadProofs RddlReadProofs2 RddlReadProofs3.
#[local] Open Scope string_scope.
#[local] Open Scope list_scope.

(** The kind of a sort never changes *)
Lemma lstep_kind_stable parse l o s' r : inv_tree l -> native o = true -> sget (l_sorts l) s' = Some r -> exists r', sget (l_sorts (fst (lstep parse l o))) s' = Some r' /\ s_kind r' = s_kind r.
Proof.
  intros I H2 Hr. assert (Hs : is_sort l s') by (apply sget_key; eauto). revert Hr.
  intros Hr. assert (At : forall l n r0 p, inv_tree l -> is_sort l p -> s_dom r0 = [] -> (s_kind r0 = KPlain -> s_builtin r0 = false) -> forall r, sget (l_sorts l) s' = Some r -> sget (l_sorts (fst (attach l n r0 p))) s' = Some r).
      { intros l0 n r0 p I0 Hp0 Hd Hb r1 Hr1. unfold attach. destruct (check_name l0 (has_sort l0 n) (CStr n)) as [[]|] eqn:Ec; [|exact Hr1]. destruct (name_free l0 n I0 Ec) as [N1 N2].
        destruct (new_sort l0 n r0 p I0 N1 N2 Hp0 Hd Hb) as (l' & E' & _ & _ & S' & _). rewrite E'. simpl. rewrite S', sget_dset.
        destruct (String.eqb n s') eqn:Q; [|auto]. apply seqb in Q. subst. exfalso. apply N1. apply sget_key. eauto. }
      destruct o as [n p|n p lb ub|c0 s0|n args|n args|n|fuel t st| |n]; cbn [lstep] in *; try discriminate.
      - unfold declare_sort. destruct p as [p|].
        + unfold retrieve. destruct (has_sort l p) eqn:Eq; [|simpl; eauto]. apply has_sort_spec in Eq. erewrite At; eauto.
        + destruct (has_sort l "object") eqn:Eq; [|simpl; eauto]. apply has_sort_spec in Eq. erewrite At; eauto.
      - unfold declare_interval. destruct (check_name l (has_sort l n) (CStr n)) as [[]|] eqn:Ec; [|simpl; eauto].
        unfold retrieve. destruct (has_sort l p) eqn:Ep; [|simpl; eauto]. apply has_sort_spec in Ep.
        destruct (negb _); [simpl; eauto|]. destruct (negb _); [simpl; eauto|]. destruct (Z.leb ub lb); [simpl; eauto|]. destruct (name_free l n I Ec) as [N1 N2].
        destruct (new_sort l n {| s_kind := KInterval (is_real l p) lb ub; s_builtin := false; s_dom := [] |} p I N1 N2 Ep) as (l' & E' & _ & _ & S' & _); auto.
        rewrite E'. simpl. rewrite S', sget_dset. destruct (String.eqb n s') eqn:Q; [|eauto]. apply seqb in Q. subst. contradiction.
      - unfold declare_constant. destruct (sget (l_sorts l) s0) as [r0|] eqn:Es0; [|simpl; eauto]. destruct (s_builtin r0).
        { destruct (s_kind r0); [simpl; eauto|]. destruct (cast _ _ _ _ _); simpl; eauto. }
        destruct (check_name _ _ c0); [|simpl; eauto]. destruct (s_kind r0).
        + destruct (it_rank l I) as (rank & R1 & R2). destruct (extend_spec c0 (S (List.length (l_sorts l))) l s0 rank R1 (it_anc l I)) as (l1 & E1 & [_ X1]); auto.
          { intros x y Hxy. apply anc_sort in Hxy; tauto. } { apply sget_key. eauto. } { specialize (R2 s0). lia. }
          rewrite E1. simpl. destruct (X1 _ _ Hr) as (r' & A1 & A2 & _). eauto.
        + destruct (cast _ _ _ _ _); simpl; eauto.
      - unfold declare_predicate. destruct (check_name l (has_predicate l n) (CStr n)); [|simpl; eauto]. destruct (mapM _ _); simpl; eauto.
      - unfold declare_function. destruct (check_name l (has_function l n) (CStr n)); [|simpl; eauto]. destruct (mapM (retrieve l) args) as [[|]|]; simpl; eauto.
      - unfold remove_symbol. destruct (has_predicate l n); [|destruct (has_function l n)]; simpl; eauto.
      - destruct (is_subtype fuel l t st) as [l' r0] eqn:Eq. destruct (subtype_sound fuel l t st l' r0 I Eq) as (_ & _ & _ & S & _). simpl. rewrite S. eauto.
      - unfold attach_arithmetic. assert (Ho : is_sort l "object"). { destruct (it_object l I) as (q & Hq & _). unfold is_sort. now apply (in_map fst) in Hq. }
        assert (Y1 := At l "Real" (arith_sort true (- real_bound) real_bound) "object" I Ho eq_refl). specialize (Y1 ltac:(discriminate) r Hr).
        destruct (attach_inv l "Real" (arith_sort true (- real_bound) real_bound) "object" I Ho) as (A1 & _ & C1); auto; try discriminate.
        destruct (attach l "Real" _ "object") as [l1 [[]|]]; cbn [fst snd] in *; [|eauto].
        assert (HR : is_sort l1 "Real") by (apply C1; auto).
        assert (Y2 := At l1 "Integer" (arith_sort false (- (2 ^ 31 - 1)) (2 ^ 31 - 1)) "Real" A1 HR eq_refl). specialize (Y2 ltac:(discriminate) r Y1).
        destruct (attach_inv l1 "Integer" (arith_sort false (- (2 ^ 31 - 1)) (2 ^ 31 - 1)) "Real" A1 HR) as (A2 & _ & C2); auto; try discriminate.
        destruct (attach l1 "Integer" _ "Real") as [l3 [[]|]]; cbn [fst snd] in *; [|eauto].
        exists r. split; [|auto]. apply At; auto; try discriminate. apply C2; auto.
Qed.

(** The languages of the reader: the four theories, then declarations *)
Section Language.
Variable parse : bool -> string -> option Z.
Definition theories : list top := [TLoad TEquality; TLoad TArithmetic; TLoad TSpecial; TLoad TRandom].
Record ready (st : tlang) : Prop := {
  rd_tree : inv_tree (t_lang st);
  rd_ite : lget (t_lang st) (CStr "ite") = Ok (EFun "ite" ["object"; "object"; "object"]);
  rd_real : exists r, sget (l_sorts (t_lang st)) "Real" = Some r /\ s_kind r = KInterval true (- real_bound) real_bound;
  rd_int : exists r, sget (l_sorts (t_lang st)) "Integer" = Some r /\ s_kind r = KInterval false (- (2 ^ 31 - 1)) (2 ^ 31 - 1);
  rd_parent : parent_of (t_lang st) "Integer" = Some "Real";
  rd_sym : forall x, In x ["="; "<="; ">="; "+"; "-"; "*"; "/"; "**"; "sqrt"; "abs"; "exp"; "max"; "normal"; "gamma"] -> str_mem x (t_handlers st) = true /\ str_mem x (t_symbols st) = true }.
Lemma ready_start : ready (trun parse theories).
Proof.
  constructor.
  - apply trun_tree. reflexivity.
  - vm_compute. reflexivity.
  - exists (arith_sort true (- real_bound) real_bound). split; [vm_compute; reflexivity|reflexivity].
  - exists (arith_sort false (- (2 ^ 31 - 1)) (2 ^ 31 - 1)). split; [vm_compute; reflexivity|reflexivity].
  - vm_compute. reflexivity.
  - intros x Hx. cbn [In] in Hx. repeat (destruct Hx as [<- |Hx]; [split; vm_compute; reflexivity|]). destruct Hx.
Qed.
Lemma ready_language ops : forallb native ops = true -> (forall n, ~ In (Lang.ORemove n) ops) -> ready (trun parse (theories ++ map TOp ops)).
Proof.
  induction ops as [|o ops IH] using rev_ind; intros H R; [exact ready_start|]. rewrite forallb_app in H. apply andb_true_iff in H as [H1 H2]. cbn [forallb] in H2. rewrite andb_true_r in H2.
  assert (Q := IH H1 ltac:(intros n Hn; apply (R n); apply in_app_iff; auto)). rewrite map_app, app_assoc. cbn [map]. rewrite trun_snoc. set (st := trun parse (theories ++ map TOp ops)) in *.
  cbn [tstep lift fst]. destruct Q as [Q1 Q2 (r1 & Q3 & Q3') (r2 & Q4 & Q4') Q5 Q6]. constructor; cbn [t_lang t_handlers t_symbols].
  - assert (T := trun_tree parse ((theories ++ map TOp ops) ++ [TOp o])). rewrite trun_snoc in T. apply T. rewrite !forallb_app. cbn [forallb tnative]. rewrite H2, andb_true_r. apply andb_true_iff. split; [reflexivity|].
    clear - H1. induction ops as [|o ops IH]; [reflexivity|]. cbn [map forallb tnative] in *. apply andb_true_iff in H1 as [-> H1]. now apply IH.
  - apply (lstep_keeps parse (t_lang st) o Q1 H2); [|exact Q2]. intros n ->. apply (R n). apply in_app_iff. simpl. auto.
  - destruct (lstep_kind_stable parse (t_lang st) o "Real" r1 Q1 H2 Q3) as (r & E & K). exists r. split; [exact E|]. now rewrite K.
  - destruct (lstep_kind_stable parse (t_lang st) o "Integer" r2 Q1 H2 Q4) as (r & E & K). exists r. split; [exact E|]. now rewrite K.
  - rewrite (proj1 (lstep_parent_stable parse (t_lang st) o "Integer" Q1 H2 ltac:(apply sget_key; eauto))). exact Q5.
  - exact Q6.
Qed.
End Language.

Section Accepts.
Variable parse : bool -> string -> option Z.
Variable fuel : nat.
Variable st : tlang.
Variable D : domains.
Notation l := (t_lang st).
Notation tr := (translate parse fuel st D).
Hypothesis R : ready st.

Definition numeral_sort (s : sort) : Prop := s = "Real" \/ s = "Integer".
Inductive numeric_term : term -> Prop :=
| n_cst c s : numeral_sort s -> numeric_term (Cst c s)
| n_fun f dom s ts : numeral_sort s -> numeric_term (App (FU f dom s) ts)
| n_op b ts : numeric_term (App (FB b) ts)
| n_ite c a b : numeric_term a -> numeric_term b -> numeric_term (Ite c a b).
Lemma num_sort t : numeric_term t -> numeral_sort (Theories.sort_of st t) /\ Theories.sort_of st t = Arith.sort_of (parent_sort st) t.
Proof.
  induction 1 as [c s Hs|f dom s ts Hs|b ts|c a b _ [A1 A2] _ [B1 B2]]; cbn [Theories.sort_of Arith.sort_of]; [auto|auto|split; [now left|reflexivity]|].
  unfold ite_sort. rewrite <- A2, <- B2. unfold parent_sort. split.
  - destruct (match sget (l_parent l) (Theories.sort_of st a) with Some (Some p) => _ | _ => _ end); auto.
  - destruct (String.eqb_spec (Theories.sort_of st a) (Theories.sort_of st b)) as [->|N].
    + destruct (match sget (l_parent l) (Theories.sort_of st b) with Some (Some p) => _ | _ => _ end); reflexivity.
    + destruct (sget (l_parent l) (Theories.sort_of st a)) as [[p|]|]; [|reflexivity|reflexivity]. destruct (String.eqb p (Theories.sort_of st b)); reflexivity.
Qed.
Lemma num_subst s t : numeric_term t -> numeric_term (subst_term (of_vars s) t).
Proof. induction 1; rewrite ?subst_cst, ?subst_app, ?subst_ite; constructor; auto. Qed.
Lemma real_is_sort : is_sort l "Real".
Proof. destruct (rd_real st R) as (r & E & _). apply sget_key. eauto. Qed.
Lemma int_is_sort : is_sort l "Integer".
Proof. destruct (rd_int st R) as (r & E & _). apply sget_key. eauto. Qed.
Lemma numeral_le s : numeral_sort s -> le l s "Real".
Proof. intros [-> | ->]; [now left|]. right. apply anc_parent. exact (rd_parent st R). Qed.
Lemma num_check t : numeric_term t -> check_sort fuel st t "Real" = Ok tt.
Proof. intros H. apply check_sort_spec; [apply R|exact real_is_sort|]. apply numeral_le. now apply num_sort. Qed.
Lemma numeral_numeric s : numeral_sort s -> numeric_sort fuel st s = true.
Proof.
  intros H. pose proof (num_check (Cst (CInt 0) s) (n_cst _ _ H)) as C. unfold check_sort in C. cbn [Theories.sort_of] in C. unfold numeric_sort. destruct (snd (is_subtype fuel l s "Real")) as [b|]; [|discriminate C].
  cbn [bind] in C. destruct b; [reflexivity|discriminate C].
Qed.
Lemma numeral_sorted s : numeral_sort s -> exists r real lb ub, sget (l_sorts l) s = Some r /\ s_kind r = KInterval real lb ub /\ (lb <= -1)%Z /\ (1 <= ub)%Z.
Proof.
  intros [-> | ->]; [destruct (rd_real st R) as (r & E & K)|destruct (rd_int st R) as (r & E & K)]; exists r; eauto 10.
  - exists true, (- real_bound)%Z, real_bound. repeat split; auto; unfold real_bound; lia.
  - exists false, (- (2 ^ 31 - 1))%Z, (2 ^ 31 - 1)%Z. repeat split; auto; lia.
Qed.
Lemma small_literal z s : (z = 0 \/ z = 1 \/ z = -1)%Z -> numeral_sort s -> literal parse st (CInt z) s = Ok (Cst (CInt z) s).
Proof.
  intros Hz Hs. destruct (numeral_sorted s Hs) as (r & real & lb & ub & E & K & B1 & B2). unfold literal. rewrite E, K. unfold cast, encode.
  assert (Bz : (Z.leb lb z && Z.leb z ub) = true). { apply andb_true_iff. split; apply Z.leb_le; lia. } rewrite Bz. cbn [bind].
  assert (Q : Z.ltb (2 ^ 53) (Z.abs z) = false) by (apply Z.ltb_ge; lia). rewrite Q, andb_false_r. reflexivity.
Qed.
Lemma real_literal z : (Z.abs z <= 2 ^ 53)%Z -> literal parse st (CInt z) "Real" = Ok (Cst (CInt z) "Real").
Proof.
  intros Hz. destruct (rd_real st R) as (r & E & K). unfold literal. rewrite E, K. unfold cast, encode.
  assert (Bz : (Z.leb (- real_bound) z && Z.leb z real_bound) = true). { apply andb_true_iff. split; apply Z.leb_le; unfold real_bound; lia. } rewrite Bz. cbn [bind].
  assert (Q : Z.ltb (2 ^ 53) (Z.abs z) = false) by (apply Z.ltb_ge; lia). rewrite Q. reflexivity.
Qed.
Lemma zero_ok s : numeral_sort s -> zero_of parse st s = Ok (Cst (CInt 0) s).
Proof. intros Hs. destruct (numeral_sorted s Hs) as (r & real & lb & ub & E & K & _). unfold zero_of. rewrite E, K. apply small_literal; auto. Qed.
Lemma num_ite f t u : numeric_term t -> numeric_term u -> make_ite st (AForm f) (ATerm t) (ATerm u) = Ok (ATerm (Ite f t u)).
Proof.
  intros Ht Hu. unfold make_ite. rewrite (rd_ite st R). cbn [bind]. pose proof (rd_parent st R) as P. unfold parent_of in P. unfold parent_sort.
  destruct (proj1 (num_sort t Ht)) as [-> | ->], (proj1 (num_sort u Hu)) as [-> | ->]; rewrite ?String.eqb_refl; cbn [orb]; try reflexivity.
  - destruct (sget (l_parent l) "Integer") as [[p|]|]; try discriminate P. injection P as ->. rewrite String.eqb_refl, !orb_true_r. reflexivity.
  - destruct (sget (l_parent l) "Integer") as [[p|]|]; try discriminate P. injection P as ->. rewrite String.eqb_refl, !orb_true_r. reflexivity.
Qed.
Lemma same_ite f t u : Theories.sort_of st t = Theories.sort_of st u -> make_ite st (AForm f) (ATerm t) (ATerm u) = Ok (ATerm (Ite f t u)) /\ Theories.sort_of st (Ite f t u) = Theories.sort_of st t.
Proof.
  intros E. unfold make_ite. rewrite (rd_ite st R). cbn [bind Theories.sort_of]. rewrite E, String.eqb_refl. split; [reflexivity|]. destruct (match sget (l_parent l) (Theories.sort_of st u) with Some (Some p) => _ | _ => _ end); reflexivity.
Qed.
Lemma operate_ok o b t u : op_fun o = Some b -> In (bfun_name b) ["+"; "-"; "*"; "/"] -> numeric_term t -> numeric_term u -> operate_terms parse fuel st o (ATerm t) (ATerm u) = Ok (ATerm (App (FB b) [t; u])).
Proof.
  intros Eo Hb Ht Hu. unfold operate_terms, dispatch_fun. rewrite Eo. destruct (rd_sym st R (bfun_name b)) as [S1 S2]; [cbn [In] in *; tauto|]. rewrite S1. cbn [cast_operands bind fst snd]. rewrite S2.
  rewrite (num_check t Ht), (num_check u Hu). reflexivity.
Qed.
Lemma aggregate_ok op y s cs t : D s = Some cs -> cs <> [] -> numeric_term t -> exists r, aggregate (parent_sort st) (numeric_sort fuel st) op D [(y, s)] t = Ok r /\ numeric_term r.
Proof.
  intros Hd Hc Ht. unfold aggregate, variable_domains. cbn [mapM snd]. rewrite Hd. cbn [bind]. assert (Ep : product [cs] = map (fun c => [c]) cs). { cbn [product map]. clear. induction cs as [|c cs IH]; [reflexivity|]. cbn [flat_map map app] in *. now rewrite IH. }
  rewrite Ep. clear Ep Hd.
  assert (M : exists us, mapM (fun values => let! s0 := create_substitution (map (fun v => Var (fst v) (snd v)) [(y, s)]) values in Ok (subst_term s0 t)) (map (fun c => [c]) cs) = Ok us /\ List.length us = List.length cs /\ Forall numeric_term us).
  { clear Hc. induction cs as [|c cs (us & E & HL & F)]; [exists []; repeat split; constructor|]. exists (subst_term (of_vars (rev (combine [(y, s)] [c]))) t :: us). cbn [map mapM fst snd] in *.
    rewrite (substitution_vars [(y, s)] [c] eq_refl : create_substitution [Var y s] [c] = _). cbn [bind]. rewrite E. split; [reflexivity|]. split; [cbn [List.length]; now rewrite HL|]. constructor; [now apply num_subst|exact F]. }
  destruct M as (us & -> & HL & F). cbn [bind]. destruct us as [|u us]; [destruct cs; [now destruct Hc|discriminate HL]|]. inversion F as [|? ? Hu Hus]; subst. clear - Hu Hus R. revert u Hu.
  induction Hus as [|w us Hw _ IH]; intros u Hu; [exists u; auto|]. cbn [combine_all]. unfold combine_terms. rewrite <- (proj2 (num_sort u Hu)), <- (proj2 (num_sort w Hw)), !numeral_numeric by now apply num_sort. cbn [andb bind]. apply IH. constructor.
Qed.

(** Fluents *)
Lemma arguments_read e full bad : argument_sorts e = Some full -> Forall (is_sort l) full -> forall gs pre ss, full = pre ++ ss -> Forall2 (argument_accepted st) gs ss ->
  exists its ts, read_arguments st e (List.length pre) gs = Ok its /\ List.length its = List.length ss /\ check_arguments fuel st bad its ss = Ok ts.
Proof.
  intros He Hf. induction gs as [|g gs IH]; intros pre ss E A; inversion A as [|? s ? ss' Hg A' E1 E2]; subst.
  - exists [], []. repeat split; reflexivity.
  - assert (Hs : is_sort l s). { rewrite Forall_forall in Hf. apply Hf. apply in_app_iff. simpl. auto. }
    destruct (IH (pre ++ [s]) ss') as (its & ts & R1 & R2 & R3); [now rewrite <- app_assoc|exact A'|]. rewrite app_length, Nat.add_1_r in R1. cbn [read_arguments].
    assert (Q : exists t, read_argument st e (List.length pre) g = Ok (ITerm t) /\ check_sort fuel st t s = Ok tt).
    { destruct Hg as (w & -> & Hw & V). destruct w as [|c w]; [congruence|]. cbn [read_argument is_variable] in *. destruct (Ascii.eqb c "?").
      - rewrite He, nth_error_app2 by lia. rewrite Nat.sub_diag. cbn [nth_error]. exists (Var (String c w) s). split; [reflexivity|]. apply check_sort_spec; [apply R|exact Hs|now left].
      - destruct V as [V|(k & s' & V & Hle)]; [discriminate V|]. rewrite V. cbn [bind of_elem]. exists (Cst k s'). split; [reflexivity|]. apply check_sort_spec; [apply R|exact Hs|exact Hle]. }
    destruct Q as (t & Q1 & Q2). exists (ITerm t :: its), (t :: ts). rewrite Q1, R1. cbn [bind check_arguments List.length]. rewrite Q2, R3, R2. auto.
Qed.
Lemma arguments_ok e full bad gs : argument_sorts e = Some full -> Forall (is_sort l) full -> arguments_accepted st gs full ->
  exists its ts, match gs with None => Ok [] | Some gs => read_arguments st e 0 gs end = Ok its /\ List.length its = List.length full /\ check_arguments fuel st bad its full = Ok ts.
Proof.
  intros He Hf A. destruct gs as [gs|]; cbn [arguments_accepted] in A.
  - exact (arguments_read e full bad He Hf gs [] full eq_refl A).
  - subst full. exists [], []. repeat split.
Qed.
Definition typed (x : arg) (t : rtype) : Prop :=
  match t with
  | TBool => exists f, x = AForm f
  | TNum => exists u, x = ATerm u /\ numeric_term u
  | TObj s => exists u, x = ATerm u /\ Theories.sort_of st u = s /\ is_sort l s
  end.
Lemma typed_object x t : typed x t -> t <> TBool -> exists u, x = ATerm u /\ check_sort fuel st u "object" = Ok tt.
Proof.
  assert (O : forall u, is_sort l (Theories.sort_of st u) -> check_sort fuel st u "object" = Ok tt). { intros u Hu. apply check_sort_spec; [apply R|apply object_sort, R|]. apply le_object; [apply R|exact Hu]. }
  intros H N. destruct t as [| |s]; [congruence| |].
  - destruct H as (u & -> & Hu). exists u. split; [reflexivity|]. apply O. destruct (proj1 (num_sort u Hu)) as [-> | ->]; [exact real_is_sort|exact int_is_sort].
  - destruct H as (u & -> & <- & Hs). exists u. split; [reflexivity|]. now apply O.
Qed.
Lemma fun_ok b n ts : In (bfun_name b) ["="; "<="; ">="; "+"; "-"; "*"; "/"; "**"; "sqrt"; "abs"; "exp"; "max"; "normal"; "gamma"] -> List.length ts = n -> Forall numeric_term ts -> read_func fuel st b n (map ATerm ts) = Ok (ATerm (App (FB b) ts)).
Proof.
  intros Hb <- F. unfold read_func. rewrite (proj2 (rd_sym st R _ Hb)), map_length, Nat.eqb_refl. assert (E : numeric_arguments fuel st (map ATerm ts) = Ok ts).
  { clear Hb. induction F as [|t ts Ht _ IH]; [reflexivity|]. cbn [map numeric_arguments]. rewrite (num_check t Ht). cbn [bind]. rewrite IH. reflexivity. }
  rewrite E. reflexivity.
Qed.
Theorem accepted_reads a t : accepted st D a t -> exists x, tr a = Ok x /\ typed x t.
Proof.
  induction 1 as [z Hz|w|z Hz|n next m p ss gs Hn Hl Hss A|n m f ss gs Hn Hl Hne Hss A|c a b t Hc (xc & Ec & Tc) Ha (xa & Ea & Ta) Hb (xb & Eb & Tb) Ht|a b t u Ha (xa & Ea & Ta) Hb (xb & Eb & Tb) Ht Hu
    |op a b Hop Ha (xa & Ea & Ta) Hb (xb & Eb & Tb)|op a b Hop Ha (xa & Ea & Ta) Hb (xb & Eb & Tb)|a Ha (xa & Ea & Ta)|a b Ha (xa & Ea & Ta) Hb (xb & Eb & Tb)|a b Ha (xa & Ea & Ta) Hb (xb & Eb & Tb)
    |n a Hop Ha (xa & Ea & Ta)|n a b Hop Ha (xa & Ea & Ta) Hb (xb & Eb & Tb)|a Ha (xa & Ea & Ta)|op a b Hop Ha (xa & Ea & Ta) Hb (xb & Eb & Tb)|op x ty b t cs Hop Hl Hd Hcs Hb (xb & Eb & Tb) Ht|x ty b Hl Hb (xb & Eb & Tb)];
    cbn [translate mapM].
  - cbn [real_constant]. rewrite (real_literal z Hz). cbn [bind]. eexists. split; [reflexivity|]. exists (Cst (CInt z) "Real"). split; [reflexivity|]. constructor. now left.
  - cbn [real_constant bind]. eexists. split; [reflexivity|]. exists (Cst (CStr w) "Real"). split; [reflexivity|]. constructor. now left.
  - cbn [real_constant]. rewrite (real_literal z Hz). cbn [bind]. eexists. split; [reflexivity|]. exists (Cst (CInt z) "Real"). split; [reflexivity|]. constructor. now left.
  - destruct (fluent_is _ _ _ Hn) as [E1 E2]. unfold read_pvar. rewrite E1, E2, Hl. cbn [bind]. destruct (arguments_ok (EPred p ss) ss LanguageError gs eq_refl Hss A) as (its & ts & R1 & R2 & R3). rewrite R1. cbn [bind call_element].
    rewrite R2, Nat.eqb_refl, R3. cbn [bind]. destruct next; eexists; (split; [reflexivity|]); eexists; reflexivity.
  - destruct (fluent_is _ _ _ Hn) as [E1 E2]. unfold read_pvar. rewrite E1, E2, Hl. cbn [bind].
    assert (Hr : Forall (is_sort l) (removelast ss) /\ is_sort l (last ss "")).
    { rewrite (app_removelast_last "" Hne) in Hss. apply Forall_app in Hss as [H1 H2]. split; [exact H1|]. now inversion H2. }
    destruct (arguments_ok (EFun f ss) (removelast ss) NotModelled gs eq_refl (proj1 Hr) A) as (its & ts & R1 & R2 & R3). rewrite R1. cbn [bind call_element]. rewrite R2, Nat.eqb_refl, R3. cbn [bind]. eexists. split; [reflexivity|].
    unfold type_of_sort. destruct (String.eqb_spec (last ss "") "Real") as [E|_]; cbn [orb]; [eexists; split; [reflexivity|]; constructor; now left|].
    destruct (String.eqb_spec (last ss "") "Integer") as [E|_]; [eexists; split; [reflexivity|]; constructor; now right|]. eexists. split; [reflexivity|]. split; [reflexivity|apply Hr].
  - rewrite Ec, Ea, Eb. cbn [bind]. destruct Tc as (f & ->). destruct t as [| |s]; [congruence| |].
    + destruct Ta as (u & -> & Hu). destruct Tb as (v & -> & Hv). rewrite (num_ite f u v Hu Hv). eexists. split; [reflexivity|]. eexists. split; [reflexivity|]. now constructor.
    + destruct Ta as (u & -> & Su & Hs). destruct Tb as (v & -> & Sv & _). destruct (same_ite f u v) as [I1 I2]; [congruence|]. rewrite I1. eexists. split; [reflexivity|]. eexists. split; [reflexivity|]. split; [congruence|exact Hs].
  - cbn [relational String.eqb]. change (relational "==") with (Some PEq). cbn match. rewrite Ea, Eb. cbn [bind]. destruct (typed_object _ _ Ta Ht) as (v & -> & Cv). destruct (typed_object _ _ Tb Hu) as (w & -> & Cw).
    unfold read_rel. change (bpred_name PEq) with "=". rewrite (proj2 (rd_sym st R "=" ltac:(simpl; auto))). cbn [pred_sort]. rewrite Cv. cbn [bind]. rewrite Cw. cbn [bind]. eexists. split; [reflexivity|]. eexists. reflexivity.
  - destruct Ta as (v & -> & Hv). destruct Tb as (w & -> & Hw). destruct Hop as [-> | ->].
    + change (relational "<=") with (Some PLe). cbn match. rewrite Ea, Eb. cbn [bind]. unfold read_rel. change (bpred_name PLe) with "<=". rewrite (proj2 (rd_sym st R "<=" ltac:(simpl; auto))). cbn [pred_sort].
      rewrite (num_check v Hv). cbn [bind]. rewrite (num_check w Hw). cbn [bind]. eexists. split; [reflexivity|]. eexists. reflexivity.
    + change (relational ">=") with (Some PGe). cbn match. rewrite Ea, Eb. cbn [bind]. unfold read_rel. change (bpred_name PGe) with ">=". rewrite (proj2 (rd_sym st R ">=" ltac:(simpl; auto))). cbn [pred_sort].
      rewrite (num_check v Hv). cbn [bind]. rewrite (num_check w Hw). cbn [bind]. eexists. split; [reflexivity|]. eexists. reflexivity.
  - destruct Ta as (v & -> & Hv). destruct Tb as (w & -> & Hw). destruct Hop as [<- |[<- |[<- |[<- |[]]]]].
    + change (arithmetical_op "+") with (Some OpAdd). cbn match. rewrite Ea, Eb. cbn [bind read_arith]. rewrite (operate_ok OpAdd BAdd v w eq_refl ltac:(simpl; auto) Hv Hw). eexists. split; [reflexivity|]. eexists. split; [reflexivity|]. constructor.
    + change (arithmetical_op "-") with (Some OpSub). cbn match. rewrite Ea, Eb. cbn [bind read_arith]. rewrite (operate_ok OpSub BSub v w eq_refl ltac:(simpl; auto) Hv Hw). eexists. split; [reflexivity|]. eexists. split; [reflexivity|]. constructor.
    + change (arithmetical_op "*") with (Some OpMul). cbn match. rewrite Ea, Eb. cbn [bind read_arith]. rewrite (operate_ok OpMul BMul v w eq_refl ltac:(simpl; auto) Hv Hw). eexists. split; [reflexivity|]. eexists. split; [reflexivity|]. constructor.
    + change (arithmetical_op "/") with (Some OpDiv). cbn match. rewrite Ea, Eb. cbn [bind read_arith]. rewrite (operate_ok OpDiv BDiv v w eq_refl ltac:(simpl; auto) Hv Hw). eexists. split; [reflexivity|]. eexists. split; [reflexivity|]. constructor.
  - destruct Ta as (v & -> & Hv). change (arithmetical_op "-") with (Some OpSub). cbn match. rewrite Ea. cbn [bind read_arith real_constant]. rewrite (small_literal (-1) "Real" ltac:(auto) (or_introl eq_refl)). cbn [bind].
    rewrite (operate_ok OpMul BMul (Cst (CInt (-1)) "Real") v eq_refl ltac:(simpl; auto)); [|constructor; now left|exact Hv]. eexists. split; [reflexivity|]. eexists. split; [reflexivity|]. constructor.
  - destruct Ta as (f & ->). destruct Tb as (w & -> & Hw). change (arithmetical_op "*") with (Some OpMul). cbn match. rewrite Ea, Eb. cbn [bind read_arith]. rewrite (zero_ok _ (proj1 (num_sort w Hw))). cbn [bind].
    rewrite num_ite; [|exact Hw|constructor; now apply num_sort]. eexists. split; [reflexivity|]. eexists. split; [reflexivity|]. constructor; [exact Hw|constructor; now apply num_sort].
  - destruct Ta as (w & -> & Hw). destruct Tb as (f & ->). change (arithmetical_op "*") with (Some OpMul). cbn match. rewrite Ea, Eb. cbn [bind read_arith]. rewrite (zero_ok _ (proj1 (num_sort w Hw))). cbn [bind].
    rewrite num_ite; [|exact Hw|constructor; now apply num_sort]. eexists. split; [reflexivity|]. eexists. split; [reflexivity|]. constructor; [exact Hw|constructor; now apply num_sort].
  - destruct Ta as (v & -> & Hv). assert (F : Forall numeric_term [v]) by (constructor; auto). destruct Hop as [<- |[<- |[<- |[]]]].
    + change (functional "abs") with (Some (BOther "abs", 1)). cbn match. rewrite Ea. cbn [bind]. rewrite (fun_ok (BOther "abs") 1 [v] ltac:(simpl; auto 20) eq_refl F : read_func fuel st (BOther "abs") 1 [ATerm v] = _). eexists. split; [reflexivity|]. eexists. split; [reflexivity|]. constructor.
    + change (functional "sqrt") with (Some (BOther "sqrt", 1)). cbn match. rewrite Ea. cbn [bind]. rewrite (fun_ok (BOther "sqrt") 1 [v] ltac:(simpl; auto 20) eq_refl F : read_func fuel st (BOther "sqrt") 1 [ATerm v] = _). eexists. split; [reflexivity|]. eexists. split; [reflexivity|]. constructor.
    + change (functional "exp") with (Some (BOther "exp", 1)). cbn match. rewrite Ea. cbn [bind]. rewrite (fun_ok (BOther "exp") 1 [v] ltac:(simpl; auto 20) eq_refl F : read_func fuel st (BOther "exp") 1 [ATerm v] = _). eexists. split; [reflexivity|]. eexists. split; [reflexivity|]. constructor.
  - destruct Ta as (v & -> & Hv). destruct Tb as (w & -> & Hw). assert (F : Forall numeric_term [v; w]) by (repeat constructor; auto). destruct Hop as [<- |[<- |[<- |[<- |[]]]]].
    + change (functional "pow") with (Some (BOther "**", 2)). cbn match. rewrite Ea, Eb. cbn [bind]. rewrite (fun_ok (BOther "**") 2 [v; w] ltac:(simpl; auto 20) eq_refl F : read_func fuel st (BOther "**") 2 [ATerm v; ATerm w] = _). eexists. split; [reflexivity|]. eexists. split; [reflexivity|]. constructor.
    + change (functional "max") with (Some (BOther "max", 2)). cbn match. rewrite Ea, Eb. cbn [bind]. rewrite (fun_ok (BOther "max") 2 [v; w] ltac:(simpl; auto 20) eq_refl F : read_func fuel st (BOther "max") 2 [ATerm v; ATerm w] = _). eexists. split; [reflexivity|]. eexists. split; [reflexivity|]. constructor.
    + change (functional "Normal") with (Some (BOther "normal", 2)). cbn match. rewrite Ea, Eb. cbn [bind]. rewrite (fun_ok (BOther "normal") 2 [v; w] ltac:(simpl; auto 20) eq_refl F : read_func fuel st (BOther "normal") 2 [ATerm v; ATerm w] = _). eexists. split; [reflexivity|]. eexists. split; [reflexivity|]. constructor.
    + change (functional "Gamma") with (Some (BOther "gamma", 2)). cbn match. rewrite Ea, Eb. cbn [bind]. rewrite (fun_ok (BOther "gamma") 2 [v; w] ltac:(simpl; auto 20) eq_refl F : read_func fuel st (BOther "gamma") 2 [ATerm v; ATerm w] = _). eexists. split; [reflexivity|]. eexists. split; [reflexivity|]. constructor.
  - destruct Ta as (f & ->). change (logical "~") with true. cbn match. rewrite Ea. cbn. eexists. split; [reflexivity|]. eexists. reflexivity.
  - destruct Ta as (f & ->). destruct Tb as (g & ->). destruct Hop as [<- |[<- |[<- |[]]]]; cbn; rewrite Ea, Eb; cbn; eexists; (split; [reflexivity|]); eexists; reflexivity.
  - assert (Tot : forall o, exists r, read_total parse fuel st D o (ATerm (Var x ty)) xb = Ok r /\ typed r TNum).
    { intros o. unfold read_total. assert (Q : exists u, match xb with ATerm t => Ok t | AForm f => let! one := literal parse st (CInt 1) "Integer" in let! zero := literal parse st (CInt 0) "Integer" in
          let! i := make_ite st (AForm f) (ATerm one) (ATerm zero) in match i with ATerm t => Ok t | AForm _ => Err NotModelled end end = Ok u /\ numeric_term u).
      { destruct Ht as [-> | ->].
        - destruct Tb as (f & ->). rewrite (small_literal 1 "Integer" ltac:(auto) (or_intror eq_refl)), (small_literal 0 "Integer" ltac:(auto) (or_intror eq_refl)). cbn [bind].
          assert (N : forall z, numeric_term (Cst (CInt z) "Integer")) by (intros z; constructor; now right). rewrite (num_ite f _ _ (N 1%Z) (N 0%Z)). cbn [bind]. eexists. split; [reflexivity|]. now constructor.
        - destruct Tb as (u & -> & Hu). exists u. auto. }
      destruct Q as (u & -> & Hu). cbn [bind]. destruct (aggregate_ok o x ty cs u Hd Hcs Hu) as (r & -> & Hr). cbn [bind]. eexists. split; [reflexivity|]. eexists. split; [reflexivity|exact Hr]. }
    destruct Hop as [-> | ->]; cbn [String.eqb]; rewrite Hl; cbn [bind]; rewrite Eb; cbn [bind]; apply Tot.
  - destruct Tb as (f & ->). rewrite Hl. cbn [bind]. rewrite Eb. cbn. eexists. split; [reflexivity|]. eexists. reflexivity.
Qed.
End Accepts.
