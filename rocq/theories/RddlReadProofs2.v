(** The reader of RDDL expressions: meaning *)
From Coq Require Import Ascii Field_theory Ring.
From Verif Require Import Base Syntax Build BuildProofs Semantics SemLemmas ListUtil SubstSpec Subst SubstProofs ArithSpec RddlSpec ModelState Lang LangSpec Theories QElim QElimProofs Arith PropsProgress PropsArith RddlRead RddlReadSpec RddlReadProofs.
#[local] Open Scope string_scope.
#[local] Open Scope list_scope.

(** Conjunctions and disjunctions *)
Lemma tree_value c args g M (e : env M) : c <> Not -> create_compound args c false = Ok g -> fsem M g e = conn_sem c M e args.
Proof.
  intros Hc H. destruct args as [|a [|b args]]; [discriminate H|injection H as <-; destruct c; try congruence; cbn [conn_sem forallb existsb]; now rewrite ?andb_true_r, ?orb_false_r|].
  cbn [create_compound] in H. unfold to_binary_tree in H. assert (R : rev (rev (a :: b :: args)) = a :: b :: args) by apply rev_involutive.
  destruct (rev (a :: b :: args)) as [|z [|y rest]]; try discriminate H. rewrite <- R. clear R. assert (E : compound c [y; z] = Ok (Comp c [y; z])) by (destruct c; try congruence; reflexivity). rewrite E in H. clear E.
  assert (B : fsem M (Comp c [y; z]) e = conn_sem c M e [y; z]) by (destruct c; try congruence; reflexivity).
  change (rev (z :: y :: rest)) with ((rev rest ++ [y]) ++ [z]). rewrite <- app_assoc. change ([y] ++ [z]) with [y; z].
  revert B H. generalize (Comp c [y; z]) as acc. generalize [y; z] as l. intros l acc. revert acc l. induction rest as [|x rest IH]; intros acc l B H; cbn [fold_left] in H.
  - injection H as <-. exact B.
  - cbn [bind] in H. assert (E : compound c [x; acc] = Ok (Comp c [x; acc])) by (destruct c; try congruence; reflexivity). rewrite E in H. cbn [rev]. rewrite <- app_assoc. apply (IH (Comp c [x; acc]) ([x] ++ l)); [|exact H].
    destruct c; try congruence; cbn [conn_sem fsem forallb existsb app] in *; rewrite B, ?andb_true_r, ?orb_false_r; reflexivity.
Qed.
Lemma land_value fs g M (e : env M) : land fs false = Ok g -> fsem M g e = forallb (fun f => fsem M f e) fs.
Proof. destruct fs as [|f fs]; [intros H; injection H as <-; reflexivity|]. intros H. exact (tree_value And (f :: fs) g M e ltac:(discriminate) H). Qed.
Lemma lor_value fs g M (e : env M) : lor fs false = Ok g -> fsem M g e = existsb (fun f => fsem M f e) fs.
Proof. destruct fs as [|f fs]; [intros H; injection H as <-; reflexivity|]. intros H. exact (tree_value Or (f :: fs) g M e ltac:(discriminate) H). Qed.
Lemma land_binders fs g : land fs false = Ok g -> forall v, In v (binders g) -> exists f, In f fs /\ In v (binders f).
Proof.
  destruct fs as [|f fs]; [intros H; injection H as <-; intros v []|]. intros H. apply (create_compound_pred And (fun g => forall v, In v (binders g) -> exists h, In h (f :: fs) /\ In v (binders h)) (f :: fs) g); [|apply Forall_forall; eauto|exact H].
  intros a b Ha Hb v Hv. cbn [binders flat_map] in Hv. rewrite app_nil_r in Hv. apply in_app_iff in Hv as [Hv|Hv]; auto.
Qed.
Lemma lor_binders fs g : lor fs false = Ok g -> forall v, In v (binders g) -> exists f, In f fs /\ In v (binders f).
Proof.
  destruct fs as [|f fs]; [intros H; injection H as <-; intros v []|]. intros H. apply (create_compound_pred Or (fun g => forall v, In v (binders g) -> exists h, In h (f :: fs) /\ In v (binders h)) (f :: fs) g); [|apply Forall_forall; eauto|exact H].
  intros a b Ha Hb v Hv. cbn [binders flat_map] in Hv. rewrite app_nil_r in Hv. apply in_app_iff in Hv as [Hv|Hv]; auto.
Qed.

Section Reader.
Variable parse : bool -> string -> option Z.
Variable fuel : nat.
Variable st : tlang.
Variable D : domains.
Notation l := (t_lang st).
Notation tr := (translate parse fuel st D).
Hypothesis Hs : forall n s, lget l (CStr n) = Ok (ESort s) -> s = n.
Hypothesis HD : forall s cs, D s = Some cs -> Forall (fun u => exists c s', u = Cst c s') cs.

(** The arguments of a fluent *)
Definition argument_is (gs : rarg * sort) (t : term) : Prop :=
  exists w, fst gs = GName w /\ (if is_variable w then t = Var w (snd gs) else exists c s', lget l (CStr w) = Ok (EConst c s') /\ t = Cst c s').
Lemma arguments_are bad e full : argument_sorts e = Some full -> forall gs pre ss its ts, full = pre ++ ss -> read_arguments st e (List.length pre) gs = Ok its -> List.length its = List.length ss ->
  check_arguments fuel st bad its ss = Ok ts -> Forall2 argument_is (combine gs ss) ts /\ List.length gs = List.length ss.
Proof.
  intros He. induction gs as [|g gs IH]; intros pre ss its ts Ef H HL C; cbn [read_arguments] in H.
  - injection H as <-. destruct ss; [|discriminate HL]. cbn in C. injection C as <-. split; [constructor|reflexivity].
  - destruct (read_argument st e (List.length pre) g) as [i|] eqn:E; [|discriminate H]. cbn [bind] in H. destruct (read_arguments st e (S (List.length pre)) gs) as [is|] eqn:E'; [|discriminate H]. cbn [bind] in H.
    injection H as <-. destruct ss as [|s ss]; [discriminate HL|]. cbn [check_arguments] in C. destruct i as [t|x]; [|discriminate C]. destruct (check_sort fuel st t s); [|discriminate C]. cbn [bind] in C.
    destruct (check_arguments fuel st bad is ss) as [us|] eqn:Ec; [|discriminate C]. cbn [bind] in C. injection C as <-.
    destruct (IH (pre ++ [s]) ss is us) as [I1 I2]; [now rewrite <- app_assoc| |now injection HL|exact Ec|].
    { rewrite app_length, Nat.add_1_r. exact E'. }
    cbn [combine List.length]. split; [|now rewrite I2]. constructor; [|exact I1]. clear - He Ef E. unfold read_argument in E. destruct g as [[|c w]|]; try discriminate E. exists (String c w). split; [reflexivity|]. cbn [is_variable].
    destruct (Ascii.eqb c "?").
    + rewrite He in E. rewrite Ef, nth_error_app2 in E by lia. rewrite Nat.sub_diag in E. cbn [nth_error] in E. injection E as <-. reflexivity.
    + destruct (lget l (CStr (String c w))) as [x|]; [|discriminate E]. cbn [bind] in E. destruct x; try discriminate E. injection E as <-. eauto.
Qed.
Lemma arguments_none bad its ss ts : its = [] -> List.length its = List.length ss -> check_arguments fuel st bad its ss = Ok ts -> ts = [] /\ ss = [].
Proof. intros -> H C. destruct ss; [|discriminate H]. cbn in C. injection C as <-. auto. Qed.
Definition given (gs : option (list rarg)) : list rarg := match gs with Some gs => gs | None => [] end.
(** What a fluent becomes *)
Lemma pvar_is n gs x : read_pvar fuel st n gs = Ok x ->
  (exists p ss ts, lget l (CStr (unquote n)) = Ok (EPred p ss) /\ x = AForm (Atom (PU (if has_quote n then p ++ "'" else p) ss) ts) /\ Forall2 argument_is (combine (given gs) ss) ts /\ List.length (given gs) = List.length ss) \/
  (exists f ss ts, has_quote n = false /\ lget l (CStr (unquote n)) = Ok (EFun f ss) /\ x = ATerm (App (FU f (removelast ss) (last ss "")) ts) /\ Forall2 argument_is (combine (given gs) (removelast ss)) ts /\
     List.length (given gs) = List.length (removelast ss)).
Proof.
  unfold read_pvar. destruct (lget l (CStr (unquote n))) as [e|] eqn:Ee; [|discriminate]. cbn [bind]. destruct (match gs with None => Ok [] | Some gs => read_arguments st e 0 gs end) as [its|] eqn:Ei; [|discriminate]. cbn [bind]. intros H.
  assert (A : forall bad full ts, argument_sorts e = Some full -> List.length its = List.length full -> check_arguments fuel st bad its full = Ok ts -> Forall2 argument_is (combine (given gs) full) ts /\ List.length (given gs) = List.length full).
  { intros bad full ts Hf HL C. destruct gs as [gs|]; cbn [given].
    - apply (arguments_are bad e full Hf gs [] full its ts); auto.
    - injection Ei as <-. destruct (arguments_none bad [] full ts eq_refl HL C) as [-> ->]. split; [constructor|reflexivity]. }
  assert (P : forall y, call_element fuel st e its = Ok y ->
     (exists p ss ts, e = EPred p ss /\ y = AForm (Atom (PU p ss) ts) /\ Forall2 argument_is (combine (given gs) ss) ts /\ List.length (given gs) = List.length ss) \/
     (exists f ss ts, e = EFun f ss /\ y = ATerm (App (FU f (removelast ss) (last ss "")) ts) /\ Forall2 argument_is (combine (given gs) (removelast ss)) ts /\ List.length (given gs) = List.length (removelast ss))).
  { intros y C. unfold call_element in C. destruct e as [s|p ss|f ss|c s]; try discriminate C.
    - destruct (Nat.eqb_spec (List.length its) (List.length ss)) as [HL|]; [|discriminate C]. destruct (check_arguments fuel st LanguageError its ss) as [ts|] eqn:Ec; [|discriminate C]. cbn [bind] in C. injection C as <-.
      left. exists p, ss, ts. destruct (A LanguageError ss ts eq_refl HL Ec). auto.
    - destruct (Nat.eqb_spec (List.length its) (List.length (removelast ss))) as [HL|]; [|discriminate C]. destruct (check_arguments fuel st NotModelled its (removelast ss)) as [ts|] eqn:Ec; [|discriminate C]. cbn [bind] in C. injection C as <-.
      right. exists f, ss, ts. destruct (A NotModelled (removelast ss) ts eq_refl HL Ec). auto. }
  destruct (has_quote n).
  - destruct e as [s|p ss|f ss|c s]; try discriminate H. destruct (call_element fuel st (EPred p ss) its) as [y|] eqn:Ec; [|discriminate H]. cbn [bind] in H.
    destruct (P y eq_refl) as [(q & ss' & ts & E & -> & A1 & A2)|(f & ss' & ts & E & _)]; [|discriminate E]. injection E as <- <-. injection H as <-. left. exists p, ss, ts. auto.
  - destruct (P x H) as [(q & ss' & ts & -> & -> & A1 & A2)|(f & ss' & ts & -> & -> & A1 & A2)]; [left|right]; eauto 10.
Qed.

(** The bound variables of the result are those of the quantifiers *)
Notation bound a v := (exists es, In (NAgg "forall" (NTyped (fst v) (snd v) :: es)) (nodes a)).
Lemma bound_child a e v : In e (children a) -> bound e v -> bound a v.
Proof. intros H (es & Hi). exists es. exact (nodes_child a e H _ Hi). Qed.
Lemma plain_binders gss ts : Forall2 argument_is gss ts -> flat_map binders_t ts = [].
Proof.
  induction 1 as [|g t gss ts (w & _ & Ht) _ IH]; [reflexivity|]. cbn [flat_map]. rewrite IH, app_nil_r. destruct (is_variable w); [now rewrite Ht|]. destruct Ht as (c & s' & _ & ->). reflexivity.
Qed.
Lemma mapM_in es xs x : mapM tr es = Ok xs -> In x xs -> exists e, In e es /\ tr e = Ok x.
Proof. intros H Hx. apply mapM_ok_Forall2 in H. induction H as [|e y es ys Hy _ IH]; [destruct Hx|]. destruct Hx as [<-|Hx]; [exists e; simpl; auto|]. destruct (IH Hx) as (e' & ? & ?). exists e'. simpl. auto. Qed.
Lemma combine_all_binders parent numeric op acc us r : combine_all parent numeric op acc us = Ok r -> forall v, In v (binders_t r) -> exists u, In u (acc :: us) /\ In v (binders_t u).
Proof.
  revert acc. induction us as [|u us IH]; intros acc H v Hv; cbn [combine_all] in H.
  - injection H as <-. exists acc. simpl. auto.
  - unfold combine_terms in H. destruct (_ && _); [|discriminate H]. cbn [bind] in H. destruct (IH _ H v Hv) as (w & [<-|Hw] & Hb).
    + cbn [binders_t flat_map] in Hb. rewrite app_nil_r in Hb. apply in_app_iff in Hb as [Hb|Hb]; [exists acc|exists u]; simpl; auto.
    + exists w. simpl. auto.
Qed.
Lemma aggregate_binders parent numeric op y s t r : aggregate parent numeric op D [(y, s)] t = Ok r -> ~ In (y, s) (binders_t t) -> incl (binders_t r) (binders_t t).
Proof.
  intros H HB v Hv. unfold aggregate in H. destruct (variable_domains D [(y, s)]) as [doms|] eqn:Ed; [|discriminate H]. cbn [bind] in H. destruct (mapM _ (product doms)) as [us|] eqn:Eu in H; [|discriminate H]. cbn [bind] in H.
  assert (I : forall u, In u us -> binders_t u = binders_t t).
  { apply variable_domains_ok in Ed. inversion Ed as [|v0 cs ? ? Ecs Q E1 E2]; subst. inversion Q; subst. cbn [snd] in Ecs. intros u Hu. apply mapM_ok_Forall2 in Eu. destruct (Forall2_In_r _ _ _ u Eu Hu) as (b & Hb & Eb).
    apply product_In in Hb. inversion Hb as [|c ? b' ? Hc Hn E1 E2]; subst. inversion Hn; subst. rewrite substitution_vars in Eb by reflexivity. cbn [bind] in Eb. injection Eb as <-.
    pose proof (HD _ _ Ecs) as Hcs. rewrite Forall_forall in Hcs. destruct (Hcs c Hc) as (k & s' & ->).
    assert (CS : const_subst (rev (combine [(y, s)] [Cst k s']))). { intros x u [E|[]]. injection E as <- <-. eauto. }
    apply (proj1 (binders_subst_both _ CS)). apply const_subst_no_clash; [exact CS|]. intros b Hb' u [E|[]]. injection E as <- <-. exact (HB Hb'). }
  destruct us as [|u us]; [discriminate H|]. destruct (combine_all_binders _ _ _ _ _ _ H v Hv) as (w & Hw & Hb). now rewrite (I w Hw) in Hb.
Qed.

Lemma arg_formulas fs x v : In x (map AForm fs) -> In v (arg_binders x) -> exists f, In f fs /\ In v (binders f).
Proof. intros H Hv. apply in_map_iff in H as (f & <- & Hf). eauto. Qed.
Lemma translate_binders a : forall x, not_requantified a -> single_variables a -> tr a = Ok x -> forall v, In v (arg_binders x) -> bound a v.
Proof.
  induction a as [lit|n gs|y ty|es IH|op es IH|op es IH|op es IH|op es IH|op es IH|ty] using rast_ind_nested; intros x NR SV H v Hv; cbn [translate] in H.
  - destruct lit as [z|c|b]; [| |discriminate H]; (destruct (real_constant parse st _) as [t|] eqn:E; [|discriminate H]; cbn [bind] in H; injection H as <-; apply real_constant_is in E as ->; destruct Hv).
  - destruct (pvar_is n gs x H) as [(p & ss & ts & _ & -> & A & _)|(f & ss & ts & _ & _ & -> & A & _)]; cbn [arg_binders binders binders_t] in Hv; rewrite (plain_binders _ _ A) in Hv; destruct Hv.
  - destruct (lget l (CStr ty)) as [e|]; [|discriminate H]. cbn [bind] in H. destruct e; try discriminate H. injection H as <-. destruct Hv.
  - assert (C : forall xs y, mapM tr es = Ok xs -> In y xs -> In v (arg_binders y) -> bound (NIf es) v).
    { intros xs y E Hy Hb. destruct (mapM_in _ _ _ E Hy) as (e & He & Ee). rewrite Forall_forall in IH. apply (bound_child (NIf es) e v He). apply (IH e He y); auto; [exact (notreq_child (NIf es) e NR He)|exact (single_child (NIf es) e SV He)]. }
    destruct (mapM tr es) as [xs|] eqn:E; [|discriminate H]. cbn [bind] in H. destruct xs as [|c [|a [|b [|]]]]; try discriminate H. destruct (make_ite_is _ _ _ _ _ H) as (f & t & u & -> & -> & -> & ->).
    cbn [arg_binders binders_t] in Hv. apply in_app_iff in Hv as [Hv|Hv]; [apply (C _ (AForm f) eq_refl); simpl; auto|]. apply in_app_iff in Hv as [Hv|Hv]; [apply (C _ (ATerm t) eq_refl)|apply (C _ (ATerm u) eq_refl)]; simpl; auto.
  - assert (C : forall xs y, mapM tr es = Ok xs -> In y xs -> In v (arg_binders y) -> bound (NRel op es) v).
    { intros xs y E Hy Hb. destruct (mapM_in _ _ _ E Hy) as (e & He & Ee). rewrite Forall_forall in IH. apply (bound_child (NRel op es) e v He). apply (IH e He y); auto; [exact (notreq_child (NRel op es) e NR He)|exact (single_child (NRel op es) e SV He)]. }
    destruct (relational op) as [b|]; [|discriminate H]. destruct (mapM tr es) as [xs|] eqn:E; [|discriminate H]. cbn [bind] in H. destruct (read_rel_is _ _ _ _ _ H) as (t & u & r & -> & ->).
    cbn [arg_binders binders flat_map] in Hv. rewrite app_nil_r in Hv. apply in_app_iff in Hv as [Hv|Hv]; [apply (C _ (ATerm t) eq_refl)|apply (C _ (ATerm u) eq_refl)]; simpl; auto.
  - destruct (SV op es (nodes_self (NAgg op es))) as (y & ty & b & ->). assert (Hb : In b (children (NAgg op [NTyped y ty; b]))) by (simpl; auto).
    assert (C : forall z, tr b = Ok z -> forall v, In v (arg_binders z) -> bound b v).
    { rewrite Forall_forall in IH. intros z Ez w Hw. apply (IH b ltac:(simpl; auto) z); auto; [exact (notreq_child _ b NR Hb)|exact (single_child _ b SV Hb)]. }
    assert (Tot : op <> "forall" -> forall o, (let! y := tr (NTyped y ty) in let! x := tr b in read_total parse fuel st D o y x) = Ok x -> bound (NAgg op [NTyped y ty; b]) v).
    { intros Hop o E. cbn [translate] in E. destruct (lget l (CStr ty)) as [e|] eqn:Es; [|discriminate E]. cbn [bind] in E. destruct e; try discriminate E. cbn [bind] in E. apply Hs in Es as ->. destruct (tr b) as [z|]; [|discriminate E]. cbn [bind] in E.
      destruct (read_total_is _ _ _ _ _ _ _ _ E) as (y' & s' & t & u & Ev & Ag & -> & Et). injection Ev as <- <-.
      assert (Q : forall w, In w (binders_t t) -> bound b w). { intros w Hw. apply (C z eq_refl w). destruct Et as [-> |(f & -> & ->)]; [exact Hw|]. cbn [binders_t app] in Hw. now rewrite app_nil_r in Hw. }
      apply (bound_child _ b v Hb). apply Q. apply (aggregate_binders _ _ _ _ _ _ _ Ag); [|exact Hv].
      intros Hc. destruct (Q _ Hc) as (es & Hes). exact (NR op y ty b ty es (nodes_self _) Hop Hes). }
    destruct (String.eqb_spec op "sum") as [-> |_]; [exact (Tot ltac:(discriminate) _ H)|]. destruct (String.eqb_spec op "prod") as [-> |_]; [exact (Tot ltac:(discriminate) _ H)|].
    destruct (String.eqb_spec op "forall") as [-> |_]; [|discriminate H]. cbn [translate] in H. destruct (lget l (CStr ty)) as [e|] eqn:Es; [|discriminate H]. cbn [bind] in H. destruct e; try discriminate H. cbn [bind] in H. apply Hs in Es as ->.
    destruct (tr b) as [[t|f]|]; try discriminate H. cbn in H. injection H as <-. cbn [arg_binders binders vars_of] in Hv. destruct Hv as [<-|Hv].
    + exists [b]. apply nodes_self.
    + apply (bound_child _ b v Hb). exact (C (AForm f) eq_refl v Hv).
  - assert (C : forall xs y, mapM tr es = Ok xs -> In y xs -> In v (arg_binders y) -> bound (NArith op es) v).
    { intros xs y E Hy Hb. destruct (mapM_in _ _ _ E Hy) as (e & He & Ee). rewrite Forall_forall in IH. apply (bound_child (NArith op es) e v He). apply (IH e He y); auto; [exact (notreq_child (NArith op es) e NR He)|exact (single_child (NArith op es) e SV He)]. }
    destruct (arithmetical_op op) as [o|] eqn:Eo; [|discriminate H]. destruct (mapM tr es) as [xs|] eqn:E; [|discriminate H]. cbn [bind] in H.
    assert (Ho : o = OpAdd \/ o = OpSub \/ o = OpMul \/ o = OpDiv). { unfold arithmetical_op in Eo. repeat (destruct (String.eqb _ _); [injection Eo as <-; auto|]). discriminate Eo. }
    destruct (read_arith_is _ _ _ _ _ _ Ho H) as [(_ & f & u & Hx & s & ->)|[(_ & t & -> & ->)|(t & u & b & -> & _ & ->)]].
    + cbn [arg_binders binders_t] in Hv. rewrite app_nil_r in Hv. apply in_app_iff in Hv as [Hv|Hv]; [apply (C _ (AForm f) eq_refl)|apply (C _ (ATerm u) eq_refl)]; auto; destruct Hx as [-> | ->]; simpl; auto.
    + cbn [arg_binders binders_t flat_map app] in Hv. rewrite app_nil_r in Hv. apply (C _ (ATerm t) eq_refl); simpl; auto.
    + cbn [arg_binders binders_t flat_map] in Hv. rewrite app_nil_r in Hv. apply in_app_iff in Hv as [Hv|Hv]; [apply (C _ (ATerm t) eq_refl)|apply (C _ (ATerm u) eq_refl)]; simpl; auto.
  - assert (C : forall xs y, mapM tr es = Ok xs -> In y xs -> In v (arg_binders y) -> bound (NFunc op es) v).
    { intros xs y E Hy Hb. destruct (mapM_in _ _ _ E Hy) as (e & He & Ee). rewrite Forall_forall in IH. apply (bound_child (NFunc op es) e v He). apply (IH e He y); auto; [exact (notreq_child (NFunc op es) e NR He)|exact (single_child (NFunc op es) e SV He)]. }
    destruct (functional op) as [[b n]|]; [|discriminate H]. destruct (mapM tr es) as [xs|] eqn:E; [|discriminate H]. cbn [bind] in H. destruct (read_func_is _ _ _ _ _ _ H) as (ts & -> & ->).
    cbn [arg_binders binders_t] in Hv. apply in_flat_map in Hv as (t & Ht & Hv). apply (C _ (ATerm t) eq_refl); [now apply in_map|exact Hv].
  - assert (C : forall xs y, mapM tr es = Ok xs -> In y xs -> In v (arg_binders y) -> bound (NBool op es) v).
    { intros xs y E Hy Hb. destruct (mapM_in _ _ _ E Hy) as (e & He & Ee). rewrite Forall_forall in IH. apply (bound_child (NBool op es) e v He). apply (IH e He y); auto; [exact (notreq_child (NBool op es) e NR He)|exact (single_child (NBool op es) e SV He)]. }
    destruct (logical op); [|discriminate H]. destruct (mapM tr es) as [xs|] eqn:E; [|discriminate H]. cbn [bind] in H. destruct (read_bool_is _ _ _ H) as [(y & -> & -> & _)|(fs & g & -> & -> & Q)].
    + apply (C _ y eq_refl); simpl; auto.
    + assert (F : exists f, In f fs /\ In v (binders f)).
      { cbn [arg_binders] in Hv. destruct Q as [(_ & Q)|[(_ & Q)|[(_ & f & -> & Q)|(_ & f & h & -> & Q)]]].
        - exact (land_binders fs g Q v Hv).
        - exact (lor_binders fs g Q v Hv).
        - cbn in Q. injection Q as <-. cbn [binders flat_map] in Hv. rewrite app_nil_r in Hv. exists f. simpl. auto.
        - unfold implies in Q. cbn [neg compound bind] in Q. change (lor [Comp Not [f]; h] false = Ok g) in Q. destruct (lor_binders _ _ Q v Hv) as (k & [<-|[<-|[]]] & Hk); [|exists h; simpl; auto].
          cbn [binders flat_map] in Hk. rewrite app_nil_r in Hk. exists f. simpl. auto. }
      destruct F as (f & Hf & Hb). apply (C _ (AForm f) eq_refl); [now apply in_map|exact Hb].
  - discriminate H.
Qed.
End Reader.
