(** The counters problem: initial state, goal, and what the actions do *)
From Coq Require Import Lia Permutation Ascii String List Sorting.
Import ListNotations.
From Verif Require Import Base Syntax SemLemmas ListUtil Build ModelState ModelProofs ModelText ModelTextProofs Eval EvalProofs LpGroundProofs3 Subst QElim Effects FreeVars Represent StateLemmas PropsProgress PropsHypergraph BlocksProofs2 SasText SasTextProofs Lang Theories Counters
  CountersProofs.
#[local] Open Scope string_scope.
#[local] Open Scope list_scope.

Definition less (a b : string) : formula := Atom (PB PLt) [value (counter a); value (counter b)].
Definition pairs (cs : list string) : list (string * string) := combine cs (tl cs).
Definition chain (cs : list string) : list formula := map (fun p => less (fst p) (snd p)) (pairs cs).
Definition conj (fs : list formula) : formula := match fs with [] => Top | [f] => f | _ => Comp And fs end.
Definition increment : action :=
  {| a_name := "increment"; a_params := [vc]; a_pre := Atom (PB PLt) [value vc; max_int]; a_effs := [Effects.EFun false Top (value vc) (App (FB BAdd) [value vc; Cst (CInt 1) "val"])] |}.
Definition decrement : action :=
  {| a_name := "decrement"; a_params := [vc]; a_pre := Atom (PB PGt) [value vc; Cst (CInt 0) "val"]; a_effs := [Effects.EFun false Top (value vc) (App (FB BSub) [value vc; Cst (CInt 1) "val"])] |}.

Lemma land_conj fs : land fs true = Ok (conj fs).
Proof. destruct fs as [|f [|g fs]]; reflexivity. Qed.
Lemma conj_true m fs : eval_f m (conj fs) = Ok true <-> Forall (fun f => eval_f m f = Ok true) fs.
Proof.
  destruct fs as [|f [|g fs]].
  - split; [constructor|reflexivity].
  - cbn [conj]. split; [intros H; constructor; [exact H|constructor]|]. intros H. now inversion H.
  - apply eval_all_true.
Qed.
Lemma domain_counters cs ub : sort_domain (clang cs ub) "counter" = Ok (map CStr cs).
Proof.
  unfold sort_domain. change (sget (l_sorts (clang cs ub)) "counter") with (Some {| s_kind := KPlain; s_builtin := false; s_dom := map CStr cs |}). cbv beta iota. cbn [s_kind s_dom].
  assert (G : forall l, incl l cs -> mapM (fun c => match dget cname_eqb (l_consts (clang cs ub)) c with Some (sym, _) => Ok sym | None => Err UndefinedElement end) (map CStr l) = Ok (map CStr l)); [|exact (G cs (incl_refl cs))].
  induction l as [|c l IH]; intros I; [reflexivity|]. cbn [map]. rewrite mapM_cons'. rewrite (IH (fun x H => I x (or_intror H))).
  assert (E : dget cname_eqb (l_consts (clang cs ub)) (CStr c) = Some (CStr c, "counter" : sort)).
  { cbn [clang l_consts]. assert (Hc : In c cs) by (apply I; now left). clear I IH. induction cs as [|d cs IH]; [destruct Hc|]. cbn [map dget]. unfold cname_eqb at 1. destruct (cname_eq_dec _ _) as [Q|N]; [injection Q as ->; reflexivity|].
    apply IH. destruct Hc as [->|Hc]; [congruence|exact Hc]. }
  rewrite E. reflexivity.
Qed.
Lemma text_map cs : map symbol_text (map CStr cs) = cs.
Proof. rewrite map_map. cbn [symbol_text]. apply map_id. Qed.
Lemma compare_ok parse fuel cs ub a b : py_compare parse fuel (ctlang cs ub) PLt (PLeaf (value a)) (PLeaf (value b)) = Ok (PyForm (Atom (PB PLt) [value a; value b])).
Proof. reflexivity. Qed.
Lemma pairs_map {A B} (f : A -> B) l : combine (map f l) (tl (map f l)) = map (fun p => (f (fst p), f (snd p))) (combine l (tl l)).
Proof.
  destruct l as [|a l]; [reflexivity|]. cbn [tl map]. revert a. induction l as [|b l IH]; intros a; [reflexivity|]. cbn [map combine fst snd]. f_equal. apply IH.
Qed.
Lemma inequalities parse fuel cs ub l : mapM (fun cc => let! t := py_compare parse fuel (ctlang cs ub) PLt (PLeaf (value (fst cc))) (PLeaf (value (snd cc))) in form t) (combine (map counter l) (tl (map counter l))) = Ok (chain l).
Proof.
  rewrite pairs_map. unfold chain, pairs. induction (combine l (tl l)) as [|p q IH]; [reflexivity|]. cbn [map]. rewrite mapM_cons', IH. reflexivity.
Qed.

(** The initial state *)
Lemma set_ok fuel cs ub m t v : (t = max_int \/ exists c, t = value (counter c)) -> (exists z, v = Cst (CInt z) "val") -> exists m', m_set (lsub fuel (clang cs ub)) m t v = Ok m'.
Proof. intros [->|[c ->]] [z ->]; eexists; reflexivity. Qed.
Lemma same_point_dec f g a b : same_point f g a b = true \/ same_point f g a b = false /\ ~ (f = g /\ a = b).
Proof. destruct (same_point f g a b) eqn:E; [now left|right; split; [reflexivity|]]. intros H. apply same_point_eq in H. congruence. Qed.
Lemma init_spec parse fuel cs ub : (1 <= ub)%Z -> forall l m, exists m', foldM (fun m c => let! z := literal parse (ctlang cs ub) (CInt 0) "val" in m_set (lsub fuel (clang cs ub)) m (value c) z) (map counter l) m = Ok m' /\
  (forall q b, m_holds m' q b = m_holds m q b) /\
  (forall g b v, m_value m' g b = Ok v <-> (g = fvalue /\ v = Cst (CInt 0) "val" /\ exists c, In c l /\ b = [counter c]) \/ (~ (g = fvalue /\ exists c, In c l /\ b = [counter c]) /\ m_value m g b = Ok v)).
Proof.
  intros Hub. assert (L : literal parse (ctlang cs ub) (CInt 0) "val" = Ok (Cst (CInt 0) "val")).
  { unfold literal. change (sget (l_sorts (t_lang (ctlang cs ub))) "val") with (Some {| s_kind := KInterval false 0 ub; s_builtin := false; s_dom := [] |}). cbv beta iota. cbn [s_kind]. unfold cast. cbn [encode]. replace (Z.leb 0 0 && Z.leb 0 ub)%bool with true by (symmetry; apply andb_true_iff; split; apply Z.leb_le; lia). reflexivity. }
  induction l as [|c l IH]; intros m.
  - exists m. split; [reflexivity|]. split; [reflexivity|]. intros g b v. split; [intros H; right; split; [intros (_ & ? & [] & _)|exact H]|]. intros [(_ & _ & ? & [] & _)|[_ H]]; exact H.
  - cbn [map foldM]. rewrite L. cbn [bind]. destruct (set_ok fuel cs ub m (value (counter c)) (Cst (CInt 0) "val")) as [m1 E1]; [right; eauto|eauto|]. rewrite E1.
    destruct (set_spec _ _ _ _ _ E1) as (f & a & Et & _ & P1 & V1). injection Et as <- <-.
    destruct (IH m1) as (m' & E2 & P2 & V2). exists m'. split; [rewrite L in E2; cbn [bind] in E2; exact E2|]. split; [intros q b; now rewrite P2, P1|]. intros g b v. rewrite V2, V1.
    destruct (same_point_dec fvalue g [counter c] b) as [S|[S N]]; rewrite S.
    + apply same_point_eq in S as [<- <-]. split.
      * intros [(H1 & H2 & d & Hd & E)|[_ H]]; left; (split; [reflexivity|]); [split; [exact H2|]; exists d; split; [now right|exact E]|]. injection H as <-. split; [reflexivity|]. exists c. split; [now left|reflexivity].
      * intros [(_ & -> & _)|[H _]]; [|exfalso; apply H; split; [reflexivity|]; exists c; split; [now left|reflexivity]].
        destruct (in_dec string_dec c l) as [I|I]; [left; split; [reflexivity|]; split; [reflexivity|]; eauto|]. right. split; [|reflexivity]. intros (_ & d & Hd & E). injection E as ->. contradiction.
    + split.
      * intros [(-> & -> & d & Hd & ->)|[H1 H2]]; [left; split; [reflexivity|]; split; [reflexivity|]; exists d; split; [now right|reflexivity]|]. right. split; [|exact H2]. intros (-> & d & [<-|Hd] & ->); [apply N; auto|]. apply H1. split; [reflexivity|]. eauto.
      * intros [(-> & -> & d & [<-|Hd] & ->)|[H1 H2]]; [exfalso; apply N; auto|left; split; [reflexivity|]; split; [reflexivity|]; eauto|]. right. split; [|exact H2]. intros (-> & d & Hd & ->). apply H1. split; [reflexivity|]. exists d. split; [now right|reflexivity].
Qed.
Lemma problem_spec parse fuel n ub : generate_fstrips_counters_problem parse fuel n ub =
  if Z.leb ub 0 then Err SemanticError else
  let cs := counter_names n in
  let! m := m_set (lsub fuel (clang cs ub)) empty_model max_int (Cst (CInt ub) "val") in
  let! m := foldM (fun m c => let! z := literal parse (ctlang cs ub) (CInt 0) "val" in m_set (lsub fuel (clang cs ub)) m (value c) z) (map counter (sorted cs)) m in
  Ok (ctlang cs ub, {| p_actions := [increment; decrement]; p_init := m; p_goal := conj (chain (sorted cs)) |}).
Proof.
  unfold generate_fstrips_counters_problem. rewrite language_spec. destruct (Z.leb ub 0) eqn:Hub; [reflexivity|]. apply Z.leb_gt in Hub. cbn [bind]. change (t_lang (ctlang (counter_names n) ub)) with (clang (counter_names n) ub). rewrite domain_counters. cbn [bind]. cbv zeta. rewrite text_map.
  rewrite inequalities. cbn [bind]. rewrite land_conj. cbn [bind].
  rewrite (compare_ok parse fuel (counter_names n) ub vc vc) || idtac.
  assert (L : forall z, (0 <= z <= ub)%Z -> literal parse (ctlang (counter_names n) ub) (CInt z) "val" = Ok (Cst (CInt z) "val")).
  { intros z Hz. unfold literal. change (sget (l_sorts (t_lang (ctlang (counter_names n) ub))) "val") with (Some {| s_kind := KInterval false 0 ub; s_builtin := false; s_dom := [] |}). cbv beta iota. cbn [s_kind]. unfold cast. cbn [encode].
    replace (Z.leb 0 z && Z.leb z ub)%bool with true by (symmetry; apply andb_true_iff; split; apply Z.leb_le; lia). reflexivity. }
  assert (C1 : py_compare parse fuel (ctlang (counter_names n) ub) PLt (PLeaf (value vc)) (PLeaf max_int) = Ok (PyForm (Atom (PB PLt) [value vc; max_int]))) by reflexivity.
  assert (C2 : py_eval parse fuel (ctlang (counter_names n) ub) (PBin OpAdd (PLeaf (value vc)) (PLit (CInt 1))) = Ok (PyTerm (App (FB BAdd) [value vc; Cst (CInt 1) "val"]))).
  { cbn [py_eval bind py_binary]. unfold dispatch_fun. cbn [op_fun]. replace (str_mem _ _) with true by reflexivity. cbn [cast_operands]. change (sort_of (ctlang (counter_names n) ub) (value vc)) with ("val" : sort). rewrite (L 1%Z) by lia. reflexivity. }
  assert (C3 : py_compare parse fuel (ctlang (counter_names n) ub) PGt (PLeaf (value vc)) (PLit (CInt 0)) = Ok (PyForm (Atom (PB PGt) [value vc; Cst (CInt 0) "val"]))).
  { unfold py_compare. cbn [py_eval bind]. unfold dispatch_pred. replace (str_mem _ _) with true by reflexivity. cbn [cast_operands]. change (sort_of (ctlang (counter_names n) ub) (value vc)) with ("val" : sort). rewrite (L 0%Z) by lia. reflexivity. }
  assert (C4 : py_eval parse fuel (ctlang (counter_names n) ub) (PBin OpSub (PLeaf (value vc)) (PLit (CInt 1))) = Ok (PyTerm (App (FB BSub) [value vc; Cst (CInt 1) "val"]))).
  { cbn [py_eval bind py_binary]. unfold dispatch_fun. cbn [op_fun]. replace (str_mem _ _) with true by reflexivity. cbn [cast_operands]. change (sort_of (ctlang (counter_names n) ub) (value vc)) with ("val" : sort). rewrite (L 1%Z) by lia. reflexivity. }
  rewrite C1, C2, C3, C4. cbn [bind form pterm]. rewrite (L ub) by lia. cbn [bind]. reflexivity.
Qed.
