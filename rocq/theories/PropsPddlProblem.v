(** C51: writing and reading a planning problem *)
From Coq Require Import Permutation Ascii DecimalString.
From Verif Require Import Base Syntax Semantics SemLemmas ListUtil PropsGrounding Asp ModelState ModelSpec ModelProofs ModelText ModelTextSpec ModelTextProofs Lang LangSpec LangProofs LangProofs2 LangProofs3 Effects Represent Costs PddlText PddlRead PddlSpec PddlProofs PddlProofs2
  PddlAction PddlActionSpec PddlActionProofs PropsPddlAction PddlProblem PddlProblemSpec PddlProblemProofs PddlProblemProofs2 PddlProblemProofs3 PddlProblemProofs4 PddlProblemProofs5 PddlProblemProofs6.
Local Open Scope string_scope.

Section RoundTrip.
Variable parse : bool -> string -> option Z.
Variable ops : list lop.
Variable q : pproblem.
Variable cs : list (cname * sort).
Let l := lrun parse ops.
Hypothesis Hl : q_lang q = l.
Hypothesis Hn : forallb native ops = true.
Hypothesis W : writable parse q cs.
Let par := parent_of l.
Let S := map fst (l_sorts l).
Let P := l_preds l.
Let F := l_funs l.
Let C := constants_of l.

Lemma src_plain s : is_sort l s -> is_plain l s /\ sort_ok s.
Proof. pose proof (w_sorts _ _ _ W s) as H. rewrite Hl in H. exact H. Qed.
Lemma src_holds : holds par l S P F C.
Proof. apply source_holds; [exact Hn|]. intros s Hs. now apply src_plain. Qed.
Lemma src_decl : inv_decl l. Proof. exact (lrun_decl parse ops Hn). Qed.
Lemma src_tree : inv_tree l. Proof. exact (lrun_tree parse ops Hn). Qed.
Lemma src_names : NoDup (names_of S P F C). Proof. exact (holds_names _ _ _ _ _ _ src_holds). Qed.
Lemma src_ord : ord par S. Proof. exact (id_ord l src_decl). Qed.
Lemma src_S : exists r, S = "object" :: r.
Proof. pose proof src_ord as H. revert H. generalize S. intros s H. induction H as [|ks n p H [r ->] _ _ _]; [now exists []|]. now exists (r ++ [n])%list. Qed.
Lemma src_NoDup_S : NoDup S.
Proof. pose proof src_names as H. unfold names_of in H. apply NoDup_app_l in H. now apply NoDup_map_inv in H. Qed.
Lemma sort_of_S s : In s S -> sort_ok s. Proof. intros H. now apply src_plain. Qed.
Lemma C_const c s : const_of l c s <-> In (c, s) C. Proof. exact (h_const _ _ _ _ _ _ c s src_holds). Qed.
Lemma C_named c s : In (c, s) C -> In s S /\ exists n, c = CStr n /\ legal_name n = true.
Proof.
  intros H. apply C_const in H. split; [exact (it_const l src_tree c s H)|]. apply (w_consts _ _ _ W c s). now rewrite Hl.
Qed.
Lemma C_NoDup : NoDup (map fst C).
Proof. pose proof src_names as H. unfold names_of in H. now apply NoDup_app_r, NoDup_app_r, NoDup_app_r in H. Qed.

(** *** Types *)
Lemma src_types : exists xs, reads (get_types l) xs /\ read_names true xs = Ok (map (fun n => (n, match par n with Some p => p | None => "" end)) (tl S)).
Proof.
  assert (E : map fst (filter (fun nr => negb (s_builtin (snd nr)) && negb (String.eqb (fst nr) "object")) (l_sorts l)) = tl S).
  { assert (B : forall n r, In (n, r) (l_sorts l) -> s_builtin r = false).
    { intros n r H. destruct (it_dom l src_tree n r H) as (_ & K & _). destruct (src_plain n) as [Hp _]; [apply (in_map fst) in H; exact H|]. destruct (proj1 (plain_sget l n (it_index l src_tree)) Hp) as (r' & Hr & Kr). apply sget_In in Hr; [|exact (ii_sorts l (it_index l src_tree))].
      assert (r' = r); [|subst; now apply K]. assert (N : NoDup (map fst (l_sorts l))) by exact src_NoDup_S. pose proof (dget_NoDup String.eqb String.eqb_eq _ _ _ N H). pose proof (dget_NoDup String.eqb String.eqb_eq _ _ _ N Hr). congruence. }
    destruct src_S as [r Er]. pose proof src_NoDup_S as N. unfold S in Er, N |- *. rewrite Er in N |- *. cbn [tl].
    assert (G : forall ss, (forall n r, In (n, r) ss -> s_builtin r = false) -> ~ In "object" (map fst ss) -> map fst (filter (fun nr : string * sortrec => negb (s_builtin (snd nr)) && negb (String.eqb (fst nr) "object")) ss) = map fst ss).
    { induction ss as [|[n rr] ss IH]; intros B' N'; [reflexivity|]. cbn [filter fst snd]. rewrite (B' n rr) by now left. destruct (String.eqb n "object") eqn:Q; [apply String.eqb_eq in Q; exfalso; apply N'; left; exact Q|]. cbn [negb andb map fst]. f_equal. apply IH; [intros; eapply B'; right; eauto|].
      intros X. apply N'. now right. }
    destruct (l_sorts l) as [|[n rr] ss]; [discriminate|]. cbn [map fst] in Er. injection Er as -> <-. cbn [filter fst snd]. rewrite (String.eqb_refl "object"). cbn [negb]. rewrite andb_false_r. apply G; [intros; eapply B; right; eauto|]. now inversion N. }
  unfold get_types. rewrite E. apply types_trip. intros n Hin. destruct src_S as [r Er]. assert (Hs : In n S) by (rewrite Er in *; now right). pose proof (sort_of_S n Hs) as Hok.
  assert (Hno : n <> "object"). { intros ->. pose proof src_NoDup_S as N. rewrite Er in N, Hin. inversion N. contradiction. }
  destruct Hok as [->|[Hlg Hre]]; [contradiction|]. split; [exact Hlg|]. split; [exact Hre|]. destruct (parent_of l n) as [p|] eqn:Ep; [|exfalso; apply Hno; exact (it_root l src_tree n Hs Ep)].
  exists p. split; [reflexivity|]. apply sort_of_S. exact (it_parent l src_tree n p Ep).
Qed.
(** *** Constants and objects *)
Let rest := filter (fun c => negb (existsb (same_object c) cs)) C.
Lemma same_object_eq a b : same_object a b = true <-> a = b.
Proof. destruct a as [c s], b as [d t]. unfold same_object. cbn [fst snd]. rewrite andb_true_iff, cname_eqb_eq, String.eqb_eq. split; [intros [-> ->]; reflexivity|intros E; injection E; auto]. Qed.
Lemma cs_C c : In c cs -> In c C.
Proof. destruct c as [c s]. intros H. apply C_const. pose proof (proj2 (w_cs _ _ _ W) c s H) as X. now rewrite Hl in X. Qed.
Lemma split_constants : Permutation C (cs ++ rest).
Proof.
  assert (NC : NoDup C) by (pose proof C_NoDup as H; now apply NoDup_map_inv in H). apply NoDup_Permutation; [exact NC| |].
  - apply NoDup_app_iff_simple; [exact (proj1 (w_cs _ _ _ W))|now apply NoDup_filter|]. intros c Hc Hr. apply filter_In in Hr as [_ Hr]. apply negb_true_iff in Hr. assert (X : existsb (same_object c) cs = true); [|congruence]. apply existsb_exists. exists c. split; [exact Hc|now apply same_object_eq].
  - intros c. rewrite in_app_iff. split.
    + intros Hc. destruct (existsb (same_object c) cs) eqn:E; [left; apply existsb_exists in E as (d & Hd & Q); apply same_object_eq in Q; now subst|right; apply filter_In; split; [exact Hc|now rewrite E]].
    + intros [Hc|Hc]; [now apply cs_C|now apply filter_In in Hc].
Qed.
Lemma objects_read ds : NoDup ds -> (forall c s, In (c, s) ds -> In (c, s) C) ->
  exists text xs ds', print_objects ds = Ok text /\ reads text xs /\ Permutation ds ds' /\ forall l0, read_objects parse l0 xs = foldM (fun l c => declare parse l (OConst (fst c) (snd c))) l0 ds'.
Proof.
  intros N H. destruct (named_of ds) as [ns En]; [intros c s Hc; destruct (C_named c s (H c s Hc)) as (_ & n & -> & _); eauto|]. subst ds.
  destruct (objects_trip ns) as (text & xs & T1 & T2 & T3).
  { intros n s Hns. destruct (C_named (CStr n) s) as (Hs & m & E & Hm). { apply H. apply in_map_iff. exists (n, s). auto. } injection E as <-. split; [exact Hm|now apply sort_of_S]. }
  exists text, xs, (named (grouped ns)). split; [exact T1|]. split; [exact T2|]. split.
  - apply Permutation_map. apply grouped_perm. now apply NoDup_map_inv in N.
  - intros l0. unfold read_objects. rewrite T3. cbn [bind]. unfold named. rewrite foldM_map. reflexivity.
Qed.

Theorem round_trip reqs : Permutation reqs (requirements (q_lang q)) ->
  exists dt it q', print_domain q cs reqs = Ok dt /\ print_instance q cs = Ok it /\ read_problem parse dt it = Ok q' /\ same_problem q q' /\ reached parse (q_lang q').
Proof.
  intros Hreq. rewrite Hl in Hreq.
  (* requirements *)
  assert (Htc : ~ In "total-cost" (map fst F)). { intros X. apply in_map_iff in X as ([n ss] & E & X). cbn in E. subst n. destruct (w_funs _ _ _ W "total-cost" ss) as [_ Q]; [now rewrite Hl|]. now apply Q. }
  destruct (requirements_trip parse reqs) as (R1 & R2 & R3). { intros r Hr. apply (requirements_few l); auto using src_tree. { intros s Hs. now apply src_plain. } now apply (Permutation_in _ Hreq). }
  (* types *)
  destruct src_types as (tx & T1 & T2).
  destruct (steps_sorts parse par (fun l n => create_sort parse l (n, match par n with Some p => p | None => "" end)) S src_ord (it_root' l src_tree)) as (l1 & L1 & H1 & D1 & _).
  { intros l0 n p Hin Hp Hs. rewrite Hp. destruct src_S as [r Er]. rewrite Er in Hin. cbn [tl] in Hin. apply create_sort_declare; auto; [apply sort_of_S; rewrite Er; now right| |apply sort_of_S; exact (it_parent l src_tree n p Hp)].
    intros ->. pose proof src_NoDup_S as N. rewrite Er in N. inversion N. contradiction. }
  (* constants *)
  destruct (w_cs _ _ _ W) as [Ncs Hcs].
  destruct (objects_read cs Ncs) as (ct & cx & cs' & O1 & O2 & O3 & O4); [intros c s; apply cs_C|].
  assert (Nrest : NoDup rest) by (apply NoDup_filter; pose proof C_NoDup as H; now apply NoDup_map_inv in H).
  destruct (objects_read rest Nrest) as (ot & ox & rest' & Q1 & Q2 & Q3 & Q4); [intros c s Hc; now apply filter_In in Hc|].
  assert (Pc : Permutation C (cs' ++ rest')) by (eapply perm_trans; [apply split_constants|]; now apply Permutation_app).
  assert (Hc' : forall c s, In (c, s) (cs' ++ rest')%list -> In (c, s) C) by (intros c s; apply Permutation_in; now apply Permutation_sym).
  pose proof (names_perm _ _ _ _ _ Pc src_names) as N'.
  destruct (steps_consts parse par S [] [] cs' l1 [] H1 D1) as (l2 & L2 & H2 & D2).
  { apply (names_fewer S [] P [] F cs' rest'). exact N'. }
  { intros c s Hc. apply (C_named c s). apply Hc'. apply in_app_iff. now left. }
  cbn [app] in H2.
  (* predicates *)
  destruct (predicates_trip parse S P) as (px & P1 & P2); [intros n ss Hin; apply (w_preds _ _ _ W n ss); now rewrite Hl|intros n ss s; apply (id_preds l src_decl)|exact sort_of_S|].
  destruct (steps_preds parse par S [] cs' P l2 [] H2 D2) as (l3 & L3 & H3 & D3).
  { apply (names_fewer S P [] [] F cs' rest'). rewrite app_nil_r. exact N'. }
  { intros n ss s. apply (id_preds l src_decl). }
  cbn [app] in H3. rewrite <- P2 in L3 by (split; [exact (h_tree _ _ _ _ _ _ H2)|intros s Hs; unfold is_sort; now rewrite (h_sorts _ _ _ _ _ _ H2)]).
  (* functions *)
  destruct (functions_trip parse S F) as (fx & F1 & F2); [intros n ss Hin; apply (w_funs _ _ _ W n ss); now rewrite Hl|intros n ss s; apply (id_funs l src_decl)|apply (id_nonempty l src_decl)|exact sort_of_S|].
  destruct (steps_funs parse par S P cs' F l3 [] H3 D3) as (l4 & L4 & H4 & D4).
  { apply (names_fewer S P [] F [] cs' rest'). rewrite !app_nil_r. exact N'. }
  { intros n ss s. apply (id_funs l src_decl). }
  { apply (id_nonempty l src_decl). }
  cbn [app] in H4. rewrite <- F2 in L4 by (split; [exact (h_tree _ _ _ _ _ _ H3)|intros s Hs; unfold is_sort; now rewrite (h_sorts _ _ _ _ _ _ H3)]).
  (* objects *)
  destruct (steps_consts parse par S P F rest' l4 cs' H4 D4) as (l5 & L5 & H5 & D5); [exact N'|intros c s Hc; apply (C_named c s); apply Hc'; apply in_app_iff; now right|].
  (* views *)
  assert (Cn : forall c r, In (c, r) C -> exists n, c = CStr n) by (intros c r Hc; destruct (C_named c r Hc) as (_ & n & -> & _); eauto).
  assert (Ncs' : NoDup (map fst cs)). { pose proof C_NoDup as X. apply (Permutation_NoDup (Permutation_map fst split_constants)) in X. rewrite map_app in X. now apply NoDup_app_l in X. }
  assert (V4 : agree (only_constants cs (view parse l)) (view parse l4)).
  { apply (view_agree parse par par l l4 S P F C cs' cs); auto using src_holds. intros c r Hc. apply (Cn c r), Hc', in_app_iff. now left. }
  assert (V5 : agree (view parse l) (view parse l5)) by (apply (view_agree_all parse par par l l5 S P F C (cs' ++ rest')); auto using src_holds, C_NoDup).
  assert (Rf : forall par0 l0 P0 F0 C0, holds par0 l0 S P0 F0 C0 -> forall s, pl_sub (view parse l0) s s = true) by (intros par0 l0 P0 F0 C0 Hh s; apply (sub_le parse _ _ _ _ _ _ s s Hh); now left).
  (* actions *)
  assert (Ha : forall a, In a (q_actions q) -> readable_action (view parse l4) a = true). { intros a Ha. rewrite (readable_action_agree _ _ V4). destruct (w_actions _ _ _ W a Ha) as [X _]. now rewrite Hl in X. }
  destruct (actions_trip parse l4 (q_actions q)) as (at_ & ax & A1 & A2 & A3); [exact (Rf _ _ _ _ _ H4)|exact Ha|exact (w_action_names _ _ _ W)|].
  assert (Tc : pl_fun (view parse l4) "total-cost" = None). { cbn [view pl_fun]. rewrite (h_funs _ _ _ _ _ _ H4). destruct (sget F "total-cost") eqn:E; [|reflexivity]. exfalso. apply Htc. apply sget_key. eauto. }
  (* initial state *)
  destruct (w_init _ _ _ W) as [(sub & mops & Em & Cm) So Sv]. rewrite Hl in So, Sv. destruct (made_items sub mops Cm) as (St & Mi & Fi). rewrite <- Em in St, Mi, Fi.
  assert (Dc : forall t s, declared_constant l t s -> constant_ok parse l5 t s).
  { intros t s (n & -> & Hc). exists n. split; [reflexivity|]. apply C_const in Hc. destruct (C_named _ _ Hc) as (_ & n' & E & Hlg). injection E as <-. split; [exact Hlg|].
    rewrite (const_view parse _ _ _ _ _ _ n H5). apply (dget_Some_In cname_eqb cname_eqb_eq); [eapply Permutation_NoDup; [apply Permutation_map; exact Pc|exact C_NoDup]|]. exact (Permutation_in _ Pc Hc). }
  assert (Le : forall r s, le l r s -> pl_sub (view parse l5) r s = true).
  { intros r s H. apply (sub_le parse _ _ _ _ _ _ r s H5). apply (le_same l l5); [|exact H]. apply (parent_same par par l l5 S P F C P F (cs' ++ rest')); auto using src_holds. }
  assert (It : exists ix, Forall2 (fun s x => reads s [x]) (map item_text (items (q_init q))) ix /\
     Forall2 (fun x y => forall m, exists m', read_init_element parse l5 m x = Ok m' /\
       exists sub, match y with inr (s, pt) => exists p, s = psig p /\ m_add sub m p pt = Ok m' | inl (s, (pt, v)) => exists g, s = fsig g /\ m_set sub m (App g pt) v = Ok m' end) ix (items (q_init q))).
  { assert (Each : forall y, In y (items (q_init q)) -> exists x, reads (item_text y) [x] /\ forall m, exists m', read_init_element parse l5 m x = Ok m' /\
       exists sub, match y with inr (s, pt) => exists p, s = psig p /\ m_add sub m p pt = Ok m' | inl (s, (pt, v)) => exists g, s = fsig g /\ m_set sub m (App g pt) v = Ok m' end).
    { intros y Hy. unfold items in Hy. apply in_app_iff in Hy as [Hy|Hy]; apply in_map_iff in Hy as (z & <- & Hy).
      - destruct z as [s [pt v]]. apply (fpoints_value _ _ _ _ _ _ _ St) in Hy as (n & d & c & _ & -> & Hv). destruct (Sv _ _ _ Hv) as (n' & ss & c' & E & Hf & Hpt & r & Hr & Hle). injection E as <- <- <-.
        destruct (value_item parse l5 (Rf _ _ _ _ _ H5) n d c pt v) as (x & X1 & X2).
        + apply (w_funs _ _ _ W n (d ++ [c])%list). now rewrite Hl.
        + cbn [view pl_fun]. rewrite (h_funs _ _ _ _ _ _ H5). assert (E : sget F n = Some (d ++ [c])%list). { apply dget_NoDup; [exact String.eqb_eq|exact (ii_funs l (it_index l src_tree))|exact Hf]. } rewrite E, List.removelast_last, List.last_last. reflexivity.
        + clear -Hpt Dc. induction Hpt; constructor; auto.
        + exists r. auto.
        + exists x. split; [exact X1|]. intros m. destruct (X2 m) as (m' & Y1 & Y2). exists m'. split; [exact Y1|]. exists (pl_sub (view parse l5)), (FU n d c). auto.
      - destruct z as [s pt]. apply (ppoints_holds _ _ _ _ _ _ St) in Hy as (n & ss & _ & -> & Hv). destruct (So _ _ Hv) as (n' & ss' & E & Hp & Hpt). injection E as <- <-.
        destruct (atom_item parse l5 n ss pt) as (x & X1 & X2).
        + apply (w_preds _ _ _ W n ss). now rewrite Hl.
        + cbn [view pl_pred]. rewrite (h_preds _ _ _ _ _ _ H5). apply dget_NoDup; [exact String.eqb_eq|exact (ii_preds l (it_index l src_tree))|exact Hp].
        + clear -Hpt Dc Le. induction Hpt as [|t s pt ss (r & Hr & Hle) _ IH]; constructor; [exists r; auto|exact IH].
        + exists x. split; [exact X1|]. intros m. destruct (X2 m) as (m' & Y1 & Y2). exists m'. split; [exact Y1|]. exists (pl_sub (view parse l5)), (PU n ss). auto. }
    clear -Each. induction (items (q_init q)) as [|y ys IH]; [exists []; split; constructor|]. destruct IH as (ix & I1 & I2); [intros; apply Each; now right|]. destruct (Each y (or_introl eq_refl)) as (x & X1 & X2). exists (x :: ix). split; constructor; auto. }
  destruct It as (ix & I1 & I2). destruct (foldM_made _ _ _ _ Fi I2 [] empty_model made_empty (incl_refl _)) as (m' & M1 & M2). cbn [app] in M2.
  assert (I1' : reads (print_init (q_init q)) ix) by (rewrite print_init_items; apply reads_join_gap; [discriminate|reflexivity|exact I1]).
  (* goal *)
  destruct (w_goal _ _ _ W) as [G0 G1]. rewrite Hl in G0. pose proof G0 as G0'. rewrite <- (formula_agree _ _ V5) in G0'. unfold formula_ok in G0'. apply andb_true_iff in G0' as [Gw Gr].
  destruct (formula_trip (view parse l5) (Rf _ _ _ _ _ H5) (q_goal q) None [] eq_refl Gw Gr) as (gt & gx & G2 & G3 & G4 & _).
  (* metric *)
  assert (Mt : exists mt mx, print_metric (q_metric q) = Ok mt /\ reads mt mx /\ exists mq, foldM (read_meta parse l5) None mx = Ok mq /\
    match q_metric q, mq with Some (b, t), Some (b', t') => b' = b /\ t' = canon_t t | None, None => True | _, _ => False end).
  { pose proof (w_metric _ _ _ W) as Wm. unfold print_metric. destruct (q_metric q) as [[b t]|]; [|exists "", []; split; [reflexivity|]; split; [exact reads_nil|]; exists None; split; [reflexivity|exact I]].
    destruct Wm as [(f & ts & ->) Wr]. rewrite Hl in Wr. rewrite <- (readable_t_agree _ _ V5) in Wr. destruct (term_trip (view parse l5) (Rf _ _ _ _ _ H5) None [] eq_refl _ Wr) as (st & x & X1 & X2 & X3 & X4 & _).
    rewrite X1. cbn [bind]. destruct x as [tk|e]; [discriminate X3|]. exists ("(:metric " ++ (if b then "minimize" else "maximize") ++ " " ++ st ++ ")"), [L [A (TKey ":metric"); A (TKey (if b then "minimize" else "maximize")); L e]]. split; [reflexivity|]. split.
    - change ("(:metric " ++ (if b then "minimize" else "maximize") ++ " " ++ st ++ ")") with ("(" ++ ":metric" ++ " " ++ ((if b then "minimize" else "maximize") ++ " " ++ st ++ ")")).
      replace ((if b then "minimize" else "maximize") ++ " " ++ st ++ ")") with (((if b then "minimize" else "maximize") ++ " " ++ st) ++ ")") by (rewrite !sapp_assoc; reflexivity).
      apply reads_form; [key|]. apply (reads_space _ _ [_]); [destruct b; key|exact X2].
    - exists (Some (b, canon_t (App f ts))). split; [|auto]. cbn [foldM read_meta]. rewrite X4. destruct b; reflexivity. }
  destruct Mt as (mt & mx & Mt1 & Mt2 & mq & Mt3 & Mt4).
  (* bounds *)
  assert (Bd : print_bounds l = "").
  { unfold print_bounds. assert (E : flat_map (fun nr => match s_kind (snd nr) with KInterval _ lb ub => if negb (s_builtin (snd nr)) && under_integer l (fst nr) then ["(" ++ fst nr ++ " - int[" ++ name_text (CInt lb) ++ ".." ++ name_text (CInt ub) ++ "])"] else [] | KPlain => [] end) (l_sorts l) = []); [|now rewrite E].
    assert (K : forall n r, In (n, r) (l_sorts l) -> s_kind r = KPlain).
    { intros n r H. destruct (src_plain n) as [Hp _]; [apply (in_map fst) in H; exact H|]. destruct (proj1 (plain_sget l n (it_index l src_tree)) Hp) as (r' & Hr & Kr). apply sget_In in Hr; [|exact (ii_sorts l (it_index l src_tree))]. assert (Nd : NoDup (map fst (l_sorts l))) by exact src_NoDup_S.
      pose proof (dget_NoDup String.eqb String.eqb_eq _ _ _ Nd H). pose proof (dget_NoDup String.eqb String.eqb_eq _ _ _ Nd Hr). congruence. }
    revert K. generalize (l_sorts l). intros ss K. induction ss as [|[n r] ss IH]; [reflexivity|]. cbn [flat_map snd]. rewrite (K n r) by now left. cbn [app]. apply IH. intros; eapply K; right; eauto. }
  (* assembly *)
  change (reads (get_predicates l) px) in P1. change (reads (get_functions l) fx) in F1.
  eexists. eexists. exists {| q_name := q_name q; q_domain := q_domain q; q_lang := l5; q_init := m'; q_goal := canon (q_goal q); q_actions := map (canon_a (view parse l4)) (q_actions q); q_derived := []; q_metric := mq |}.
  split; [|split; [|split]].
  - unfold print_domain. rewrite A1. cbn [bind]. rewrite (w_derived _ _ _ W). change (get_derived []) with (Ok "" : res string). cbn [bind]. rewrite O1. cbn [bind]. rewrite Hl. reflexivity.
  - unfold print_instance. rewrite Hl. fold C. fold rest. rewrite Q1. cbn [bind]. rewrite G2. cbn [bind]. rewrite Mt1. cbn [bind]. rewrite Bd. reflexivity.
  - unfold read_problem. rewrite (domain_text _ _ _ _ _ _ _ _ _ _ _ _ _ (w_domain _ _ _ W) R1 T1 O2 P1 F1 A2). cbn [bind].
    cbv beta iota zeta delta [read_domain block String.eqb Ascii.eqb Bool.eqb andb]. cbn [read_reqs]. rewrite R2. cbn [bind]. change ([] ++ reqs)%list with reqs. rewrite R3. cbn [bind read_block]. rewrite T2. cbn [bind]. rewrite foldM_map. rewrite L1. cbn [bind]. rewrite O4, L2. cbn [bind]. rewrite L3. cbn [bind]. rewrite L4. cbn [bind]. rewrite A3. cbn [bind].
    rewrite (no_costs _ _ _ Tc Ha). cbn [bind].
    rewrite (instance_text _ _ _ _ _ _ _ _ _ _ (w_name _ _ _ W) (w_domain _ _ _ W) Q2 I1' G3 Mt2). cbn [bind].
    cbv beta iota zeta delta [read_instance block String.eqb Ascii.eqb Bool.eqb andb]. cbn [read_reqs bind r_lang r_reqs r_domain r_actions read_block]. rewrite Q4, L5. cbn [bind]. rewrite M1. cbn [bind]. rewrite G4. cbn [bind]. rewrite Mt3. reflexivity.
  - split; [|exact D5]. constructor; cbn [q_name q_domain q_lang q_init q_goal q_actions q_derived q_metric]; auto.
    + rewrite Hl. pose proof src_holds as Hs. constructor.
      * intros s. unfold is_sort. now rewrite (h_sorts _ _ _ _ _ _ H5).
      * intros s. split; intros X; [apply (h_plain _ _ _ _ _ _ Hs)|apply (h_plain _ _ _ _ _ _ H5)]; destruct X as (r & X & _); apply (in_map fst) in X; cbn [fst] in X; [rewrite (h_sorts _ _ _ _ _ _ H5) in X; exact X|exact X].
      * apply (parent_same par par l l5 S P F C P F (cs' ++ rest')); auto.
      * exact (h_preds _ _ _ _ _ _ H5).
      * exact (h_funs _ _ _ _ _ _ H5).
      * intros c s. rewrite (h_const _ _ _ _ _ _ c s H5), C_const. split; apply Permutation_in; [now apply Permutation_sym|exact Pc].
    + exact (made_same _ _ _ Mi M2).
    + apply (canon_truth (view parse l) _ G1 (q_goal q) []); [apply incl_refl|exact G0].
    + assert (X : forall a, In a (q_actions q) -> same_action a (canon_a (view parse l4) a)) by (intros a Ha0; apply action_same; [now apply Ha|exact (proj2 (w_actions _ _ _ W a Ha0))]). clear -X.
      induction (q_actions q) as [|a acts IH]; constructor; [apply X; now left|apply IH; intros; apply X; now right].
    + now rewrite (w_derived _ _ _ W).
    + pose proof (w_metric _ _ _ W) as Wm. destruct (q_metric q) as [[b t]|], mq as [[b' t']|]; auto. destruct Mt4 as [-> ->]. split; [reflexivity|]. destruct Wm as [_ Wr]. rewrite Hl in Wr. apply (canon_value (view parse l) (names_t t) t []); [apply incl_refl|exact Wr].
Qed.
End RoundTrip.

(** A problem is written as two files and read back: for every language built by declarations, whatever the order in which the set of requirements is iterated over, a problem that is writable
    (PddlProblemSpec.v) is printed and read again without an error, and the result has the same names, sorts, hierarchy, symbols, constants and initial state, and a goal, actions and a metric
    that mean the same. The language read is again one that declarations can build, so that the other theorems about languages hold for it. *)
Theorem C51_round_trip : forall parse ops q cs reqs, q_lang q = lrun parse ops -> forallb native ops = true -> writable parse q cs -> Permutation reqs (requirements (q_lang q)) ->
  exists dt it q', print_domain q cs reqs = Ok dt /\ print_instance q cs = Ok it /\ read_problem parse dt it = Ok q' /\ same_problem q q' /\
    exists ops', forallb native ops' = true /\ q_lang q' = lrun parse ops'.
Proof. intros parse ops q cs reqs Hl Hn W Hr. destruct (round_trip parse ops q cs Hl Hn W reqs Hr) as (dt & it & q' & A & B & D & E & R). exists dt, it, q'. auto. Qed.
Print Assumptions C51_round_trip.

(** ** A problem with a hierarchy of sorts, an object constant, a nullary predicate, a function and an action *)
Definition np (b : bool) (s : string) : option Z := None.
Definition base_ops : list lop := [OSort "place" None; OSort "truck" None; OSort "big" (Some "truck"); OConst (CStr "zed") "place"; OConst (CStr "a") "place"; OConst (CStr "t1") "truck"; OConst (CStr "t2") "big";
  OPred "road" ["place"; "place"]; OPred "idle" []; OFun "at" ["truck"; "place"]; OPred "tmp" ["place"]; Lang.ORemove "tmp"].
Definition pos (t : term) : term := App (FU "at" ["truck"] "place") [t].
Definition plc (n : string) : term := Cst (CStr n) "place".
Definition trk : term := Cst (CStr "t1") "truck".
Definition road (a b : term) : formula := Atom (PU "road" ["place"; "place"]) [a; b].
Definition drive : costed := {| c_act := {| a_name := "drive"; a_params := [Var "t" "truck"; Var "p" "place"]; a_pre := road (pos (Var "t" "truck")) (Var "p" "place");
     a_effs := [EFun false Top (pos (Var "t" "truck")) (Var "p" "place"); EAdd Top (road (plc "a") (Var "p" "place"))] |}; c_cost := None |}.
Definition pb (name : string) (extra : list lop) (init : list mop) (ds : list derived) : pproblem :=
  {| q_name := name; q_domain := "dom"; q_lang := lrun np (base_ops ++ extra);
     q_init := mrun (fun _ _ => true) ([OAdd (PU "road" ["place"; "place"]) [plc "a"; plc "zed"]; OAdd (PU "idle" []) []; OSet (pos trk) (plc "a")] ++ init) empty_model;
     q_goal := Comp And [Atom (PB PEq) [pos trk; plc "zed"]; Quant QEx [Var "z" "place"] (road (Var "z" "place") (plc "zed"))]; q_actions := [drive]; q_derived := ds; q_metric := Some (true, pos trk) |}.
Definition cX : list (cname * sort) := [(CStr "a", "place")].
Example C51_writable : writable np (pb "pb" [] [] []) cX.
Proof.
  set (q := pb "pb" [] [] []). constructor.
  - reflexivity.
  - reflexivity.
  - intros s H. vm_compute in H. destruct H as [<-|[<-|[<-|[<-|[]]]]]; (split; [eexists; split; [vm_compute; eauto 8|reflexivity]|]); [now left| | |]; (right; split; [reflexivity|discriminate]).
  - intros n ss H. vm_compute in H. destruct H as [E|[E|[]]]; injection E as <- <-; reflexivity.
  - intros n ss H. vm_compute in H. destruct H as [E|[]]; injection E as <- <-. split; [reflexivity|discriminate].
  - intros c s (sym & H). vm_compute in H. destruct H as [E|[E|[E|[E|[]]]]]; injection E as <- <- <-; eexists; split; reflexivity.
  - split; [repeat constructor; intros []|]. intros c s [E|[]]. injection E as <- <-. exists (CStr "a"). vm_compute. auto.
  - constructor.
    + eexists. eexists. split; [reflexivity|reflexivity].
    + destruct (made_items (fun _ _ => true) [OAdd (PU "road" ["place"; "place"]) [plc "a"; plc "zed"]; OAdd (PU "idle" []) []; OSet (pos trk) (plc "a")] eq_refl) as (_ & [A _] & _).
      intros p pt H. apply (A p pt) in H. vm_compute in H. destruct H as [E|[E|[E|[]]]]; [discriminate| |].
      * injection E as E <-. exists "road", ["place"; "place"]. split; [symmetry; apply psig_inj; exact E|]. split; [vm_compute; auto|].
        repeat constructor; exists "place"; (split; [|now left]); eexists; (split; [reflexivity|]); eexists; vm_compute; eauto 8.
      * injection E as E <-. exists "idle", []. split; [symmetry; apply psig_inj; exact E|]. split; [vm_compute; auto|constructor].
    + destruct (made_items (fun _ _ => true) [OAdd (PU "road" ["place"; "place"]) [plc "a"; plc "zed"]; OAdd (PU "idle" []) []; OSet (pos trk) (plc "a")] eq_refl) as (_ & [_ A] & _).
      intros f pt v H. apply (A f pt v) in H. vm_compute in H. destruct H as [E|[E|[E|[]]]]; [|discriminate|discriminate]. injection E as E <- <-. exists "at", ["truck"], "place". split; [symmetry; apply (fsig_inj (FU "at" ["truck"] "place")); [reflexivity|exact E]|].
      split; [vm_compute; auto|]. split.
      * constructor; [|constructor]. eexists. split; [reflexivity|]. eexists. vm_compute. eauto 8.
      * exists "place". split; [|now left]. eexists. split; [reflexivity|]. eexists. vm_compute. eauto 8.
  - split; [vm_compute; reflexivity|]. apply one_spelling_dec. vm_compute. reflexivity.
  - intros a [<-|[]]. split; [vm_compute; reflexivity|]. apply one_spelling_dec. vm_compute. reflexivity.
  - repeat constructor. intros [].
  - reflexivity.
  - split; [|vm_compute; reflexivity]. eexists. eexists. reflexivity.
Qed.
Definition trip (q : pproblem) (cs : list (cname * sort)) : res pproblem := let! d := print_domain q cs (requirements (q_lang q)) in let! i := print_instance q cs in read_problem np d i.
Example C51_domain_text : print_domain (pb "pb" [] [] []) cX [":typing"; ":equality"] = Ok (header "Domain" ++
"(define (domain dom)
    (:requirements :typing :equality)
    (:types
        place - object
        truck - object
        big - truck
        object
    )

    (:constants
        a - place
    )

    (:predicates
        (road ?x1 - place ?x2 - place)
        (idle )
    )

    (:functions
        (at ?x1 - truck) - place
    )

    

    
    (:action drive
     :parameters (?t - truck ?p - place)
     :precondition (road (at ?t) ?p)
     :effect (and
        (assign (at ?t) ?p)
        (road a ?p))
    )

)
").
Proof. vm_compute. reflexivity. Qed.

(** ** Why the restrictions are there. Each problem below differs from the one above in one respect, and is printed without an error. *)
(** The constants that the actions mention have to be passed to the writer. *)
Theorem C51_constants_refuted : exists q, trip q cX <> Err UndefinedElement /\ trip q [] = Err UndefinedElement.
Proof. exists (pb "pb" [] [] []). split; [intros H; vm_compute in H; discriminate H|vm_compute; reflexivity]. Qed.
Print Assumptions C51_constants_refuted.
(** A function value for an argument whose sort is a proper subsort of the declared one is printed, but not readable: the TypeError of a term that is not hashable. *)
Theorem C51_subsort_refuted : exists q, trip q cX = Err TypeError /\ m_value (q_init q) (FU "at" ["truck"] "place") [Cst (CStr "t2") "big"] = Ok (plc "a") /\ le (q_lang q) "big" "truck".
Proof.
  exists (pb "pb" [] [OSet (pos (Cst (CStr "t2") "big")) (plc "a")] []). split; [vm_compute; reflexivity|]. split; [vm_compute; reflexivity|]. right. apply anc_parent. vm_compute. reflexivity.
Qed.
Print Assumptions C51_subsort_refuted.
(** The default name of a problem contains spaces (fstrips/fstrips.py:285-294) *)
Theorem C51_default_name_refuted : trip (pb "Unnamed FSTRIPS problem" [] [] []) cX = Err SyntaxError.
Proof. vm_compute. reflexivity. Qed.
Print Assumptions C51_default_name_refuted.
(** A constant named by a number cannot be printed. *)
Theorem C51_integer_name_refuted : print_instance (pb "pb" [OConst (CInt 3) "place"] [] []) cX = Err TypeError.
Proof. vm_compute. reflexivity. Qed.
Print Assumptions C51_integer_name_refuted.
(** A sort named "real", or with a capital letter, comes back as another sort. *)
Theorem C51_sort_name_refuted : forall n, n = "real" \/ n = "Place2" -> exists q', trip (pb "pb" [OSort n None] [] []) cX = Ok q' /\ ~ is_sort (q_lang q') n.
Proof.
  intros n [-> | ->]; (eexists; split; [vm_compute; reflexivity|]); intros H; vm_compute in H; repeat match type of H with _ \/ _ => destruct H as [H|H] end; try discriminate H; destruct H.
Qed.
Print Assumptions C51_sort_name_refuted.
(** Functions into the integers or the reals are printed with the types int and number, which are not sorts of the language. *)
Theorem C51_numeric_codomain_refuted : forall s, s = "Integer" \/ s = "Real" -> trip (pb "pb" [OArith; OFun "f" [s]] [] []) cX = Err UndefinedElement.
Proof. intros s [-> | ->]; vm_compute; reflexivity. Qed.
Print Assumptions C51_numeric_codomain_refuted.
(** The reader of :action-costs creates a sort "number"; printed again, the declaration of its type is not in the grammar: a problem with action costs that was read cannot be written and read again. *)
Definition costs_domain : string := "(define (domain d) (:requirements :action-costs) (:predicates (p)) (:functions (total-cost) - number)
  (:action a :parameters () :precondition () :effect (and (p) (increase (total-cost) 2))))".
Definition costs_instance : string := "(define (problem i) (:domain d) (:init ) (:goal (p)) (:metric minimize (total-cost)))".
Theorem C51_action_costs_refuted : exists dt it q, read_problem np dt it = Ok q /\ existsb has_cost (q_actions q) = true /\ trip q [] = Err SyntaxError.
Proof. exists costs_domain, costs_instance. eexists. split; [vm_compute; reflexivity|]. split; [vm_compute; reflexivity|vm_compute; reflexivity]. Qed.
Print Assumptions C51_action_costs_refuted.
(** Derived predicates are written, but not read. *)
Theorem C51_derived_refuted : trip (pb "pb" [] [] [{| d_name := "d"; d_params := []; d_formula := Top |}]) cX = Err SyntaxError.
Proof. vm_compute. reflexivity. Qed.
Print Assumptions C51_derived_refuted.
(** Constants passed twice are declared twice. *)
Theorem C51_repeated_constant_refuted : exists q c, In c (constants_of (q_lang q)) /\ trip q [c; c] = Err DuplicateDefinition.
Proof. exists (pb "pb" [] [] []), (CStr "a", "place"). split; [vm_compute; auto|vm_compute; reflexivity]. Qed.
Print Assumptions C51_repeated_constant_refuted.
