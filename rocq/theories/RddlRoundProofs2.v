(** The instance delivered for the document of a task is well formed and has the names of the task. *)
From Coq Require Import Ascii Permutation.
From Verif Require Import ListUtil Base Syntax SemLemmas ModelState ModelText ModelProofs StateLemmas Lang LangSpec LangProofs LangProofs2 LangProofs3 TheoriesProofs RddlSpec RddlProofs RddlRead RddlReadProofs4 RddlInit RddlInitSpec RddlInitProofs RddlInitProofs3
  Rddl RddlDoc RddlDocSpec RddlDocProofs3 PropsRddlDoc RddlRoundSpec RddlRoundProofs.
#[local] Open Scope string_scope.
#[local] Open Scope list_scope.

Section Delivered.
  Variables (parse : bool -> string -> option Z) (num : numbers) (sub : sort -> sort -> bool) (lops : list lop) (mops : list mop) (t : task) (d : document).
  Hypothesis H : task_ok parse sub lops mops t.
  Hypothesis S : survives parse num mops t.
  Hypothesis D : describes d t.
  Notation l := (t_lang t).
  Notation r := (delivered num d).
  Let I : inv_tree (t_lang t) := proj1 (task_inv _ _ _ _ _ H).

  Lemma d_types : NoDup (map fst (doc_types d)) /\ forall s p, In (s, p) (doc_types d) <-> user_type l s /\ parent_of l s = Some p.
  Proof. exact (proj1 (proj2 (proj2 D))). Qed.
  Lemma d_objects : map fst (doc_objects d) = map fst (doc_types d) /\ forall s ws, In (s, ws) (doc_objects d) -> NoDup ws /\ forall w, In w ws <-> object_in l s w.
  Proof. destruct D as (_ & _ & _ & _ & _ & _ & _ & _ & O & _). exact O. Qed.
  Lemma type_names_r : type_names r = map fst (doc_types d).
  Proof. unfold type_names. cbn [rm_types delivered]. rewrite map_map. reflexivity. Qed.
  Lemma type_names_In n : In n (type_names r) <-> user_type l n.
  Proof.
    rewrite type_names_r, in_map_iff. split; [intros ([s p] & <- & X); now apply d_types in X as [X _]|]. intros U. destruct (user_parent l n I U) as (p & P & _). exists (n, p). split; [reflexivity|]. apply d_types. auto.
  Qed.
  Lemma flat_le u s : user_type l u -> user_type l s -> le l u s -> u = s.
  Proof.
    intros U V [E|A]; [exact E|]. exfalso. assert (P : exists p, parent_of l u = Some p /\ (p = s \/ anc l p s)) by (inversion A; subst; eauto). destruct P as (p & P & Q). apply (sv_flat _ _ _ _ S u p U) in P. subst p. destruct Q as [Q|Q]; [destruct V as [V _]; now apply V|].
    assert (P : exists p, parent_of l "object" = Some p) by (inversion Q; subst; eauto). destruct P as (p & P). pose proof (it_root' _ I). congruence.
  Qed.
  Lemma objects_In s w : In (s, w) (objects_of r) <-> const_of l (CStr w) s.
  Proof.
    unfold objects_of. cbn [rm_objects delivered]. rewrite in_flat_map. split.
    - intros ([s' ws] & X & Y). cbn [fst snd] in Y. apply in_map_iff in Y as (w' & E & Y). injection E as -> ->. assert (U : user_type l s). { apply type_names_In. rewrite type_names_r, <- (proj1 d_objects). apply in_map_iff. exists (s, ws). auto. }
      apply (proj2 d_objects s ws X) in Y as (c & u & E & P & C & L). destruct (sv_constants _ _ _ _ S c u C) as (V & w2 & -> & _). cbn [name_text] in E. subst w2. assert (u = s) as -> by (now apply flat_le). exact C.
    - intros C. destruct (sv_constants _ _ _ _ S _ _ C) as (V & _). assert (Y := proj2 (type_names_In s) V). rewrite type_names_r, <- (proj1 d_objects) in Y. apply in_map_iff in Y as ([s' ws] & E & Y). cbn [fst] in E. subst s'. exists (s, ws). split; [exact Y|]. cbn [fst snd]. apply in_map_iff. exists w. split; [reflexivity|].
      apply (proj2 d_objects s ws Y). exists (CStr w), s. split; [reflexivity|]. split; [destruct V as (_ & x & Hx & _ & K); exists x; auto|]. split; [exact C|now left].
  Qed.
  Lemma objects_NoDup : NoDup (map snd (objects_of r)).
  Proof.
    assert (E : map snd (objects_of r) = flat_map snd (doc_objects d)). { unfold objects_of. cbn [rm_objects delivered]. induction (doc_objects d) as [|[s ws] os IH]; [reflexivity|]. cbn [flat_map fst snd]. rewrite map_app, IH, map_map, map_id. reflexivity. }
    rewrite E. assert (N : NoDup (map fst (doc_objects d))) by (rewrite (proj1 d_objects); exact (proj1 d_types)). apply NoDup_flat_map.
    - apply (NoDup_map_inv fst). exact N.
    - intros [s ws] X. exact (proj1 (proj2 d_objects s ws X)).
    - intros [s ws] [s' ws'] w X X' Y Y'. cbn [snd] in Y, Y'.
      assert (A : In (s, w) (objects_of r)). { unfold objects_of. cbn [rm_objects delivered]. apply in_flat_map. exists (s, ws). split; [exact X|]. apply in_map_iff. exists w. auto. }
      assert (A' : In (s', w) (objects_of r)). { unfold objects_of. cbn [rm_objects delivered]. apply in_flat_map. exists (s', ws'). split; [exact X'|]. apply in_map_iff. exists w. auto. }
      apply objects_In in A. apply objects_In in A'. assert (s = s') as ->. { pose proof (it_index _ I) as J. pose proof (proj2 (ii_spec _ J (CStr w) (EConst (CStr w) s)) (conj eq_refl A)). pose proof (proj2 (ii_spec _ J (CStr w) (EConst (CStr w) s')) (conj eq_refl A')). congruence. }
      f_equal. apply (sget_In _ _ _ N) in X. apply (sget_In _ _ _ N) in X'. congruence.
  Qed.
  (** *** Variables *)
  Lemma kinds_split : exists d1 d2 d3 d4, Forall2 (declared_fluent "state-fluent" "default") (t_state t) d1 /\ Forall2 (declared_fluent "interm-fluent" "level") (t_interm t) d2 /\
     Forall2 (declared_fluent "action-fluent" "default") (t_action t) d3 /\ Forall2 (declared_fluent "non-fluent" "default") (t_non t) d4 /\ variables_of r = map (delivered_variable num) (d4 ++ d1 ++ d2 ++ d3).
  Proof.
    destruct D as (_ & _ & _ & (d1 & d2 & d3 & d4 & E & F1 & F2 & F3 & F4) & _). exists d1, d2, d3, d4. split; [exact F1|]. split; [exact F2|]. split; [exact F3|]. split; [exact F4|].
    assert (K : forall k k' a ds rs, Forall2 (declared_fluent k' a) ds rs -> filter (fun x => String.eqb (d_kind x) k) rs = if String.eqb k' k then rs else []).
    { intros k k' a ds rs F. induction F as [|x y xs ys (_ & _ & K & _) _ IH]; [now destruct (String.eqb k' k)|]. cbn [filter]. rewrite K, IH. now destruct (String.eqb k' k). }
    unfold variables_of. cbn [delivered rm_non_fluents rm_state_fluents rm_interm_fluents rm_action_fluents]. unfold of_kind. rewrite E, !filter_app.
    rewrite !(K _ _ _ _ _ F1), !(K _ _ _ _ _ F2), !(K _ _ _ _ _ F3), !(K _ _ _ _ _ F4). cbn. rewrite !app_nil_r. now rewrite !map_app.
  Qed.
  Lemma sort_called_self s : In s (sort_names r) -> sort_called r s = Some s.
  Proof. intros X. unfold sort_called. destruct (in_dec string_dec s (sort_names r)); [reflexivity|contradiction]. Qed.
  Lemma user_called s : s = "object" \/ user_type l s -> sort_called r s = Some s.
  Proof. intros [->|U]; apply sort_called_self; unfold sort_names; [now left|]. apply in_app_iff. right. now apply type_names_In. Qed.
  Lemma sorts_called_self ss : Forall (fun s => s = "object" \/ user_type l s) ss -> sorts_called r ss = Some ss.
  Proof. intros F. induction F as [|s ss X _ IH]; [reflexivity|]. cbn [sorts_called]. rewrite (user_called s X), IH. reflexivity. Qed.
  Lemma sorts_called_app a b a' b' : sorts_called r a = Some a' -> sorts_called r b = Some b' -> sorts_called r (a ++ b) = Some (a' ++ b').
  Proof.
    revert a'. induction a as [|s a IH]; intros a' E F; cbn [sorts_called List.app] in *; [injection E as <-; exact F|]. destruct (sort_called r s) as [x|]; [|discriminate E]. destruct (sorts_called r a) as [y|]; [|discriminate E]. injection E as <-. rewrite (IH y eq_refl F). reflexivity.
  Qed.
  Lemma not_sort_name n : In n ["real"; "int"] -> ~ In n (sort_names r).
  Proof.
    intros N X. unfold sort_names in X. apply in_app_iff in X as [X|X]; [cbn in N, X; intuition congruence|]. apply type_names_In in X. destruct (sv_names _ _ _ _ S n (or_introl X)) as [_ Y]. now apply Y.
  Qed.
  Lemma range_called c : In c ["Real"; "Integer"] \/ (user_type l c /\ ~ In c ["bool"; "boolean"]) ->
    let x := if String.eqb c "Real" then "real" else if String.eqb c "Integer" then "int" else c in sort_called r x = Some c /\ is_boolean x = false.
  Proof.
    intros [[<-|[<-|[]]]|[U B]]; cbv zeta.
    - change (String.eqb "Real" "Real") with true. cbv iota. split; [|reflexivity]. unfold sort_called. destruct (in_dec string_dec "real" (sort_names r)) as [X|_]; [|reflexivity]. exfalso. revert X. apply not_sort_name. now left.
    - change (String.eqb "Integer" "Real") with false. change (String.eqb "Integer" "Integer") with true. cbv iota. split; [|reflexivity]. unfold sort_called. destruct (in_dec string_dec "int" (sort_names r)) as [X|_]; [|reflexivity]. exfalso. revert X. apply not_sort_name. right. now left.
    - destruct (sv_names _ _ _ _ S c (or_introl U)) as [Y _]. destruct (String.eqb_spec c "Real") as [->|]; [exfalso; apply Y; cbn; tauto|]. destruct (String.eqb_spec c "Integer") as [->|]; [exfalso; apply Y; cbn; tauto|].
      split; [apply user_called; auto|]. unfold is_boolean. apply orb_false_iff. split; apply String.eqb_neq; intros ->; apply B; cbn; tauto.
  Qed.
  Lemma params_back (x : declaration) : parameters_of (delivered_variable num x) = d_params x.
  Proof. unfold parameters_of, delivered_variable. cbn [pv_params]. destruct (d_params x); reflexivity. Qed.
  Lemma fluent_name f : In f (fluents_of t) -> name_ok (symbol_name f) = true /\ known_symbol l f.
  Proof.
    intros X. unfold fluents_of in X. apply in_map_iff in X as (x & <- & X). pose proof (proj1 (Forall_forall _ _) (ok_fluents _ _ _ _ _ H) x X) as (K & N & _). auto.
  Qed.
  Lemma variable_back k a f v x : In f (fluents_of t) -> declared_fluent k a (f, v) x ->
    RddlInitSpec.symbol_name (delivered_variable num x) = symbol_name f /\ exists ss, variable_sorts r (delivered_variable num x) = Some ss /\ symbol_of (delivered_variable num x) ss = elem_of f.
  Proof.
    intros X (N & P & _ & R & _). cbn [fst snd] in *. destruct (fluent_name f X) as [No _]. destruct (sv_sorts _ _ _ _ S f X) as [Ss Sc].
    assert (B : RddlInitSpec.symbol_name (delivered_variable num x) = symbol_name f) by (unfold RddlInitSpec.symbol_name, delivered_variable; cbn [pv_name]; rewrite N; apply name_base; now apply ok_chars).
    split; [exact B|]. unfold variable_sorts, symbol_of. rewrite params_back, B, P. unfold delivered_variable. cbn [pv_range]. rewrite R. destruct f as [n ss|n ss c]; cbn [range_of symbol_sorts symbol_name elem_of] in *.
    - change (is_boolean "bool") with true. cbv iota. exists ss. split; [now apply sorts_called_self|reflexivity].
    - destruct (range_called c Sc) as [E F]. cbv zeta in E, F. rewrite F. exists (ss ++ [c]). split; [|reflexivity]. apply sorts_called_app; [now apply sorts_called_self|]. cbn [sorts_called]. rewrite E. reflexivity.
  Qed.
  Lemma variables_back : (forall v, In v (variables_of r) -> exists f ss, In f (fluents_of t) /\ RddlInitSpec.symbol_name v = symbol_name f /\ variable_sorts r v = Some ss /\ symbol_of v ss = elem_of f) /\
    (forall f, In f (fluents_of t) -> exists v ss, In v (variables_of r) /\ RddlInitSpec.symbol_name v = symbol_name f /\ variable_sorts r v = Some ss /\ symbol_of v ss = elem_of f) /\
    NoDup (map RddlInitSpec.symbol_name (variables_of r)).
  Proof.
    destruct kinds_split as (d1 & d2 & d3 & d4 & F1 & F2 & F3 & F4 & E).
    set (ds := t_non t ++ t_state t ++ t_interm t ++ t_action t).
    assert (Pm : Permutation ds (t_state t ++ t_interm t ++ t_action t ++ t_non t)). { unfold ds. replace (t_state t ++ t_interm t ++ t_action t ++ t_non t) with ((t_state t ++ t_interm t ++ t_action t) ++ t_non t) by (now rewrite <- !app_assoc). apply Permutation_app_comm. }
    assert (F : Forall2 (fun x y => exists k a, declared_fluent k a x y) ds (d4 ++ d1 ++ d2 ++ d3)). { unfold ds. repeat apply Forall2_app; (eapply Forall2_impl_In; [|eassumption]); eauto. }
    assert (Q : forall x, In x ds -> In (fst x) (fluents_of t)) by (intros x X; unfold fluents_of; apply in_map_iff; exists x; split; [reflexivity|]; now apply (Permutation_in _ Pm)).
    rewrite E. clear E F1 F2 F3 F4. split; [|split].
    - intros v X. apply in_map_iff in X as (y & <- & Y). destruct (Forall2_In_r _ _ _ _ F Y) as ([f v] & X & k & a & Df). pose proof (Q _ X) as Z. destruct (variable_back k a f v y Z Df) as (A & ss & B & C). exists f, ss. auto.
    - intros f X. unfold fluents_of in X. apply in_map_iff in X as ([f' v] & <- & X). apply (Permutation_in _ (Permutation_sym Pm)) in X. destruct (Forall2_In_l _ _ _ _ F X) as (y & Y & k & a & Df). destruct (variable_back k a f' v y (Q _ X) Df) as (A & ss & B & C). exists (delivered_variable num y), ss. split; [now apply in_map|auto].
    - assert (M : map RddlInitSpec.symbol_name (map (delivered_variable num) (d4 ++ d1 ++ d2 ++ d3)) = map symbol_name (map fst ds)).
      { clear Pm. revert F Q. generalize (d4 ++ d1 ++ d2 ++ d3) as ys. generalize ds as xs. intros xs ys F Q. induction F as [|[f v] y xs ys (k & a & Df) _ IH]; [reflexivity|]. cbn [map fst]. rewrite IH by (intros; apply Q; now right). f_equal. exact (proj1 (variable_back k a f v y (Q _ (or_introl eq_refl)) Df)). }
      rewrite M. apply NoDup_map_inj_in.
      + apply (Permutation_NoDup (Permutation_map fst (Permutation_sym Pm))). exact (sv_fluents _ _ _ _ S).
      + intros f g X Y N. assert (Tr : forall f, In f (map fst ds) -> In f (fluents_of t)) by (intros f0 Z; apply in_map_iff in Z as (x & <- & Z); auto). apply Tr in X. apply Tr in Y. destruct (fluent_name f X) as [_ Kf], (fluent_name g Y) as [_ Kg]. pose proof (known_lget l f I Kf) as A. pose proof (known_lget l g I Kg) as B. rewrite N in A. rewrite A in B.
        destruct f as [n ss|n ss c], g as [n' ss'|n' ss' c']; try discriminate B; [congruence|]. injection B as <- B. apply app_inj_tail in B as [<- <-]. reflexivity.
  Qed.
  Definition task_names (n : string) (e : elem) : Prop :=
    In (n, e) predefined \/ (user_type l n /\ e = ESort n) \/ (exists s, const_of l (CStr n) s /\ e = EConst (CStr n) s) \/ (exists f, In f (fluents_of t) /\ n = symbol_name f /\ e = elem_of f).
  Lemma names_back n e : names_declared r n e <-> task_names n e.
  Proof.
    unfold names_declared, task_names. rewrite type_names_In. apply or_iff_compat_l, or_iff_compat_l. split.
    - intros [(s & X & ->)|(v & ss & X & -> & V & ->)]; [left; exists s; split; [now apply objects_In|reflexivity]|right]. destruct (proj1 variables_back v X) as (f & ss' & A & B & C & E). rewrite V in C. injection C as <-. exists f. auto.
    - intros [(s & X & ->)|(f & X & -> & ->)]; [left; exists s; split; [now apply objects_In|reflexivity]|right]. destruct (proj1 (proj2 variables_back) f X) as (v & ss & A & B & C & E). exists v, ss. auto.
  Qed.
  Lemma well_formed_back : well_formed r.
  Proof.
    constructor.
    - intros s p X. cbn [rm_types delivered] in X. apply in_map_iff in X as ([s' p'] & E & X). injection E as -> <-. apply d_types in X as [U P]. f_equal. exact (sv_flat _ _ _ _ S s p' U P).
    - destruct variables_back as (V1 & V2 & V3).
      assert (Dt : forall n, In n (type_names r) -> user_type l n) by (intros n; apply type_names_In). assert (Do : forall n, In n (map snd (objects_of r)) -> exists s, const_of l (CStr n) s) by (intros n X; apply in_map_iff in X as ([s w] & <- & X); exists s; now apply objects_In).
      assert (Dv : forall n, In n (map RddlInitSpec.symbol_name (variables_of r)) -> In n (map symbol_name (fluents_of t))) by (intros n X; apply in_map_iff in X as (v & <- & X); destruct (V1 v X) as (f & ss & A & -> & _); now apply in_map).
      assert (Lt : forall n, user_type l n -> lget l (CStr n) = Ok (ESort n)) by (intros n (_ & x & X & _); apply (sort_lget _ _ I); unfold is_sort; apply in_map_iff; exists (n, x); auto).
      assert (Lo : forall n s, const_of l (CStr n) s -> lget l (CStr n) = Ok (EConst (CStr n) s)) by (intros n s X; apply lget_index; apply (ii_spec _ (it_index _ I)); split; auto).
      assert (Lv : forall n, In n (map symbol_name (fluents_of t)) -> exists f, lget l (CStr n) = Ok (elem_of f)) by (intros n X; apply in_map_iff in X as (f & <- & X); exists f; exact (known_lget l f I (proj2 (fluent_name f X)))).
      apply NoDup_app_iff_simple; [|apply NoDup_app_iff_simple; [rewrite type_names_r; exact (proj1 d_types)|apply NoDup_app_iff_simple; [exact objects_NoDup|exact V3|]|]|].
      + cbn. repeat (constructor; [cbn; intuition discriminate|]). constructor.
      + intros n X Y. destruct (Do n X) as [s C]. apply Lo in C. destruct (Lv n (Dv n Y)) as [f E]. rewrite C in E. destruct f; discriminate E.
      + intros n X Y. apply Dt, Lt in X. apply in_app_iff in Y as [Y|Y]; [destruct (Do n Y) as [s C]; apply Lo in C; congruence|]. destruct (Lv n (Dv n Y)) as [f E]. rewrite X in E. destruct f; discriminate E.
      + intros n X Y. rewrite !in_app_iff in Y. apply (sv_names _ _ _ _ S n) in X; [exact X|]. destruct Y as [Y|[Y|Y]]; auto.
    - intros s w X. right. apply type_names_In. apply objects_In in X. exact (proj1 (sv_constants _ _ _ _ S _ _ X)).
    - intros v X. destruct (proj1 variables_back v X) as (f & ss & _ & _ & -> & _). discriminate.
  Qed.
  Lemma ordinary_back : ordinary r.
  Proof.
    constructor.
    - intros s w X Y. apply objects_In in X. destruct (sv_constants _ _ _ _ S _ _ X) as (U & _). destruct (sv_names _ _ _ _ S s (or_introl U)) as [N _]. apply N. cbn in *. tauto.
    - intros n Hn X. apply in_app_iff in X as [X|X].
      + apply in_map_iff in X as ([s w] & <- & X). apply objects_In in X. destruct (sv_names _ _ _ _ S w) as [_ N]; [right; left; eauto|]. now apply N.
      + apply in_map_iff in X as (v & <- & X). destruct (proj1 variables_back v X) as (f & ss & A & E & _). rewrite E in Hn. destruct (sv_names _ _ _ _ S (symbol_name f)) as [_ N]; [right; right; now apply in_map|]. now apply N.
  Qed.
End Delivered.
