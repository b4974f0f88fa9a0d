(** Declarations, actions and the initial state of a printed problem *)
From Coq Require Import Permutation Ascii DecimalString.
From Verif Require Import Base Syntax Semantics SemLemmas ListUtil PropsGrounding Asp ModelState ModelSpec ModelProofs ModelText ModelTextSpec ModelTextProofs Lang LangSpec LangProofs LangProofs2 LangProofs3 Effects Represent Costs PddlText PddlRead PddlSpec PddlProofs PddlProofs2
  PddlAction PddlActionSpec PddlActionProofs PropsPddlAction PddlProblem PddlProblemSpec PddlProblemProofs PddlProblemProofs2 PddlProblemProofs3.
Local Open Scope string_scope.

(** ** Signatures *)
Lemma parameter_legal i : legal_variable ("x" ++ name_text (CInt (Z.of_nat i))) = true.
Proof.
  destruct (numeral_chars (Z.of_nat i)) as (c & r & -> & H1 & H2). unfold legal_variable. cbv beta iota zeta delta [String.append]. change (("x" =? "?")%char) with false. cbv iota. unfold PddlSpec.plain. cbn [all_chars]. change (small "x") with true.
  rewrite (by_byte numeral_char PddlSpec.name_char eq_refl c H1). cbn [andb]. exact (all_chars_imp _ _ _ (by_byte numeral_char name_char eq_refl) H2).
Qed.
Lemma signature_trip ss : (forall s, In s ss -> sort_ok s) -> forall i, exists xs, reads (join " " (signature_from i ss)) xs /\
  forall l, (forall s, In s ss -> pl_sort l s = true) -> exists vs, var_list l [] xs = Ok vs /\ map snd vs = ss.
Proof.
  intros H i. assert (G : exists xss, Forall2 reads (signature_from i ss) xss /\ forall l, (forall s, In s ss -> pl_sort l s = true) -> exists vs, var_list l [] (List.concat xss) = Ok vs /\ map snd vs = ss).
  { revert i. induction ss as [|s ss IH]; intros i.
    - exists []. split; [constructor|]. intros l _. exists []. split; [|reflexivity]. cbn. unfold make_variables. destruct (pl_sort l "object"); reflexivity.
    - destruct (IH (fun s' Hs' => H s' (or_intror Hs')) (Datatypes.S i)) as (xss & I1 & I2). assert (Hs : sort_ok s) by (apply H; now left). destruct (sort_reads s Hs) as (t & T1 & T2 & T3).
      cbn [signature_from]. destruct (sort_facts s Hs) as (-> & _). pose proof (parameter_legal i) as Pl. set (x := "x" ++ name_text (CInt (Z.of_nat i))) in *. clearbody x.
      exists ([A (TVar (pv x)); A (TKey "-"); A t] :: xss). split.
      + constructor; [|exact I1]. change (pv x ++ " - " ++ s) with (pv x ++ " " ++ ("-" ++ " " ++ s)). apply (reads_space _ _ [A (TVar (pv x))]); [now apply variable_reads|]. apply (reads_space _ _ [A (TKey "-")]); [key|exact T1].
      + intros l Hl. destruct (I2 l (fun s' Hs' => Hl s' (or_intror Hs'))) as (vs & V1 & V2). exists ((pv x, s) :: vs). cbn [List.concat app map snd]. rewrite V2. split; [|reflexivity].
        rewrite var_list_step with (k := s); auto; [rewrite V1; reflexivity|now apply variable_lower|apply Hl; now left]. }
  destruct G as (xss & G1 & G2). exists (List.concat xss). split; [|exact G2]. apply join_reads; [discriminate|reflexivity|exact G1].
Qed.
Section Declarations.
Variable parse : bool -> string -> option Z.
Lemma has_sorts_view S l s : has_sorts S l -> In s S -> pl_sort (view parse l) s = true.
Proof. intros [_ H] Hs. cbn [view pl_sort]. apply has_sort_spec. auto. Qed.
Lemma predicates_trip S (ps : list (string * list sort)) : (forall n ss, In (n, ss) ps -> legal_name n = true) -> (forall n ss s, In (n, ss) ps -> In s ss -> In s S) -> (forall s, In s S -> sort_ok s) ->
  exists xs, reads (lines (map (fun ps => "(" ++ fst ps ++ " " ++ print_signature (snd ps) ++ ")") ps)) xs /\
    forall l, has_sorts S l -> foldM (read_predicate parse) l xs = foldM (fun l d => declare parse l (OPred (fst d) (snd d))) l ps.
Proof.
  intros Hn Hs Ho. assert (G : exists xs, Forall2 (fun s x => reads s [x]) (map (fun ps => "(" ++ fst ps ++ " " ++ print_signature (snd ps) ++ ")") ps) xs /\
    Forall2 (fun x d => forall l, has_sorts S l -> read_predicate parse l x = declare parse l (OPred (fst d) (snd d))) xs ps).
  { induction ps as [|[n ss] ps IH]; [exists []; split; constructor|]. destruct IH as (xs & I1 & I2); [intros; eapply Hn; right; eauto|intros; eapply Hs; [right|]; eauto|].
    assert (Hl : legal_name n = true) by (apply (Hn n ss); now left). destruct (signature_trip ss) with (i := 1) as (vs & V1 & V2); [intros s Hs'; apply Ho; apply (Hs n ss); [now left|exact Hs']|].
    exists (L (A (TName n) :: vs) :: xs). cbn [map fst snd]. split; constructor; auto.
    - apply reads_form; [now apply name_reads|exact V1].
    - intros l Hl'. cbn [read_predicate]. destruct (V2 (view parse l)) as (ws & W1 & W2); [intros s Hs'; apply (has_sorts_view S); [exact Hl'|apply (Hs n ss); [now left|exact Hs']]|]. rewrite W1. cbn [bind fst snd]. now rewrite W2, legal_lower. }
  destruct G as (xs & G1 & G2). exists xs. split; [apply reads_join_gap; [discriminate|reflexivity|exact G1]|]. intros l Hl. apply (foldM_sim (has_sorts S)); [exact G2| |exact Hl]. intros l0 [n ss] l1 _ H0 H1. exact (declare_sorts parse S l0 (OPred n ss) l1 eq_refl H0 H1).
Qed.
Lemma removelast_last {X} (ss : list X) d : ss <> [] -> ss = (removelast ss ++ [last ss d])%list.
Proof. apply app_removelast_last. Qed.
Lemma In_last {X} (ss : list X) d : ss <> [] -> In (last ss d) ss.
Proof. intros H. rewrite (app_removelast_last d H) at 2. apply in_app_iff. right. now left. Qed.
Lemma In_removelast {X} (ss : list X) x : In x (removelast ss) -> In x ss.
Proof. destruct ss as [|a ss]; [intros []|]. intros H. rewrite (app_removelast_last a) by discriminate. apply in_app_iff. now left. Qed.
Lemma functions_trip S (fs : list (string * list sort)) : (forall n ss, In (n, ss) fs -> legal_name n = true) -> (forall n ss s, In (n, ss) fs -> In s ss -> In s S) -> (forall n, ~ In (n, []) fs) -> (forall s, In s S -> sort_ok s) ->
  exists xs, reads (lines (map (fun fs => "(" ++ fst fs ++ " " ++ print_signature (removelast (snd fs)) ++ ") - " ++ pddl_type (last (snd fs) "")) fs)) xs /\
    forall l, has_sorts S l -> read_functions parse l xs = foldM (fun l d => declare parse l (OFun (fst d) (snd d))) l fs.
Proof.
  intros Hn Hs He Ho. assert (G : exists xss, Forall2 reads (map (fun fs => "(" ++ fst fs ++ " " ++ print_signature (removelast (snd fs)) ++ ") - " ++ pddl_type (last (snd fs) "")) fs) xss /\
    forall l, has_sorts S l -> read_functions parse l (List.concat xss) = foldM (fun l d => declare parse l (OFun (fst d) (snd d))) l fs).
  { induction fs as [|[n ss] fs IH]; [exists []; split; [constructor|reflexivity]|]. destruct IH as (xs & I1 & I2); [intros; eapply Hn; right; eauto|intros; eapply Hs; [right|]; eauto|intros m Hm; apply (He m); now right|].
    assert (Hl : legal_name n = true) by (apply (Hn n ss); now left). assert (Hne : ss <> []) by (intros ->; apply (He n); now left).
    assert (Hss : forall s, In s ss -> In s S) by (intros s Hs'; apply (Hs n ss); [now left|exact Hs']).
    destruct (signature_trip (removelast ss)) with (i := 1) as (vs & V1 & V2); [intros s Hs'; apply Ho, Hss, In_removelast, Hs'|].
    assert (Hc : sort_ok (last ss "")) by (apply Ho, Hss, In_last, Hne). destruct (sort_reads _ Hc) as (t & T1 & T2 & T3). destruct (sort_facts _ Hc) as (Ep & _).
    exists ([L (A (TName n) :: vs); A (TKey "-"); A t] :: xs). cbn [map fst snd]. split.
    - constructor; [|exact I1]. rewrite Ep. assert (E : "(" ++ n ++ " " ++ print_signature (removelast ss) ++ ") - " ++ last ss "" = ("(" ++ n ++ " " ++ print_signature (removelast ss) ++ ")") ++ " " ++ ("-" ++ " " ++ last ss "")).
      { change (") - " ++ last ss "") with (")" ++ (" " ++ ("-" ++ " " ++ last ss ""))). rewrite !sapp_assoc. reflexivity. }
      rewrite E. apply (reads_space _ _ [_]); [apply reads_form; [now apply name_reads|exact V1]|]. apply (reads_space _ _ [A (TKey "-")]); [key|exact T1].
    - intros l Hl'. cbn [List.concat app read_functions]. change (String.eqb "-" "-") with true. cbn iota. rewrite T2. cbn [bind].
      destruct (V2 (view parse l)) as (ws & W1 & W2); [intros s Hs'; apply (has_sorts_view S); [exact Hl'|apply Hss, In_removelast, Hs']|]. rewrite W1. cbn [bind foldM fst snd]. rewrite W2, legal_lower, <- removelast_last by assumption.
      destruct (declare parse l (OFun n ss)) as [l1|] eqn:E; [|reflexivity]. cbn [bind]. apply I2. exact (declare_sorts parse S l (OFun n ss) l1 eq_refl Hl' E). }
  destruct G as (xss & G1 & G2). exists (List.concat xss). split; [now apply lines_reads|exact G2].
Qed.
Lemma create_sort_declare l n p : sort_ok n -> n <> "object" -> sort_ok p -> is_sort l p -> create_sort parse l (n, p) = declare parse l (OSort n (Some p)).
Proof.
  intros Hn Hno Hp Hs. unfold create_sort. cbn [fst snd]. destruct (sort_facts n Hn) as (_ & _ & -> & _ & _). destruct (sort_facts p Hp) as (_ & _ & -> & -> & _).
  destruct (String.eqb n "object") eqn:E; [apply String.eqb_eq in E; contradiction|]. now rewrite (proj2 (has_sort_spec l p) Hs).
Qed.

(** ** Requirements *)
Lemma requirements_few l : (forall s, is_sort l s -> is_plain l s) -> inv_tree l -> ~ In "total-cost" (map fst (l_funs l)) -> forall r, In r (requirements l) -> r = ":typing" \/ r = ":equality".
Proof.
  intros Hp I Ht r Hr. unfold requirements in Hr. assert (E1 : has_function l "total-cost" = false).
  { destruct (has_function l "total-cost") eqn:E; [|reflexivity]. exfalso. apply Ht. unfold has_function in E. destruct (sget (l_funs l) "total-cost") eqn:Q; [|discriminate]. apply sget_key. eauto. }
  assert (E2 : forall s, is_interval l s = false).
  { intros s. unfold is_interval. destruct (sget (l_sorts l) s) as [r0|] eqn:E; [|reflexivity]. assert (Hs : is_sort l s) by (apply sget_key; eauto). destruct (proj1 (plain_sget l s (it_index l I)) (Hp s Hs)) as (r' & Hr' & Kr). rewrite E in Hr'. injection Hr' as <-. now rewrite Kr. }
  assert (E3 : existsb (fun ns => existsb (is_interval l) (snd ns) && negb (String.eqb (fst ns) "total-cost")) (l_preds l ++ l_funs l)%list = false).
  { destruct (existsb _ _) eqn:E; [|reflexivity]. apply existsb_exists in E as (x & _ & Q). apply andb_true_iff in Q as [Q _]. apply existsb_exists in Q as (s & _ & Q). rewrite E2 in Q. discriminate. }
  rewrite E1, E3 in Hr. rewrite !app_nil_r, in_app_iff in Hr. destruct Hr as [Hr|[<-|[]]]; [|now right]. destruct (Nat.ltb _ _); [destruct Hr as [<-|[]]; now left|destruct Hr].
Qed.
Lemma requirements_trip reqs : (forall r, In r reqs -> r = ":typing" \/ r = ":equality") ->
  reads (join " " reqs) (map (fun k => A (TKey k)) reqs) /\ mapM read_requirement (map (fun k => A (TKey k)) reqs) = Ok reqs /\ process_requirements parse lang0 reqs = Ok lang0.
Proof.
  intros H. split; [|split].
  - apply reads_join. induction reqs as [|r reqs IH]; cbn [map]; constructor; [|apply IH; intros; apply H; now right]. destruct (H r (or_introl eq_refl)) as [-> | ->]; key.
  - induction reqs as [|r reqs IH]; [reflexivity|]. cbn [map]. rewrite mapM_cons, IH by (intros; apply H; now right). destruct (H r (or_introl eq_refl)) as [-> | ->]; reflexivity.
  - unfold process_requirements. change (Lang.has_sort lang0 "Integer") with false. assert (N : forall k, k <> ":typing" -> k <> ":equality" -> mem k reqs = false).
    { intros k K1 K2. unfold mem. destruct (existsb (String.eqb k) reqs) eqn:E; [|reflexivity]. apply existsb_exists in E as (x & Hx & Q). apply String.eqb_eq in Q. subst x. destruct (H k Hx); contradiction. }
    rewrite !N by discriminate. reflexivity.
Qed.

(** ** Actions *)
Lemma action_key c x a : read_action_def c x = Ok a -> exists r, x = L (A (TKey ":action") :: r).
Proof.
  intros H. destruct x as [|[|[[]|] r]]; try discriminate H. exists r. repeat f_equal. unfold read_action_def in H.
  repeat match type of H with context [match ?y with _ => _ end] => is_var y; destruct y; try discriminate H end.
  match type of H with context [String.eqb ?k ":action"] => destruct (String.eqb k ":action") eqn:E; [now apply String.eqb_eq in E|discriminate H] end.
Qed.
Lemma actions_trip l acts : (forall s, pl_sub (view parse l) s s = true) -> (forall a, In a acts -> readable_action (view parse l) a = true) -> NoDup (map (fun a => a_name (c_act a)) acts) ->
  exists text xs, get_actions acts = Ok text /\ reads text xs /\ foldM (read_structure parse l) [] xs = Ok (map (canon_a (view parse l)) acts).
Proof.
  intros Hr H N. assert (G : exists ts xs, mapM print_action acts = Ok ts /\ Forall2 (fun s x => reads s [x]) ts xs /\ Forall2 (fun x a => read_action_def (view parse l) x = Ok (canon_a (view parse l) a)) xs acts).
  { clear N. induction acts as [|a acts IH]; [exists [], []; repeat split; constructor|]. destruct IH as (ts & xs & I1 & I2 & I3); [intros; apply H; now right|].
    destruct (action_trip (view parse l) Hr a (H a (or_introl eq_refl))) as (t & x & A1 & A2 & A3). exists (t :: ts), (x :: xs). rewrite mapM_cons, A1, I1. cbn [bind]. split; [reflexivity|]. split; now constructor. }
  destruct G as (ts & xs & G1 & G2 & G3). exists (join newline ts), xs. unfold get_actions. rewrite G1. split; [reflexivity|]. split; [apply reads_join_gap; [discriminate|reflexivity|exact G2]|].
  assert (F : forall done, NoDup (map (fun a => a_name (c_act a)) (done ++ acts)) -> foldM (read_structure parse l) (map (canon_a (view parse l)) done) xs = Ok (map (canon_a (view parse l)) (done ++ acts))).
  { clear -G3. induction G3 as [|x a xs acts Hx _ IH]; intros done N; [now rewrite app_nil_r|]. cbn [foldM]. destruct (action_key _ _ _ Hx) as (r & ->). cbn [read_structure]. change (String.eqb ":action" ":action") with true. cbn iota. rewrite Hx. cbn [bind].
    assert (E : existsb (fun c' => String.eqb (a_name (c_act c')) (a_name (c_act (canon_a (view parse l) a)))) (map (canon_a (view parse l)) done) = false).
    { destruct (existsb _ _) eqn:E; [|reflexivity]. exfalso. apply existsb_exists in E as (y & Hy & Q). apply in_map_iff in Hy as (b & <- & Hb). apply String.eqb_eq in Q. change (a_name (c_act b) = a_name (c_act a)) in Q.
      rewrite map_app in N. cbn [map] in N. apply NoDup_remove_2 in N. apply N. apply in_app_iff. left. rewrite <- Q. apply (in_map (fun a => a_name (c_act a))). exact Hb. }
    rewrite E. cbn [bind]. specialize (IH (done ++ [a])%list). rewrite <- !app_assoc in IH. rewrite (map_app _ done [a]) in IH. apply IH. exact N. }
  exact (F [] N).
Qed.
Lemma no_costs l acts b : pl_fun l "total-cost" = None -> (forall a, In a acts -> readable_action l a = true) -> uniformize_costs b (map (canon_a l) acts) = Ok (map (canon_a l) acts).
Proof.
  intros Ht H. unfold uniformize_costs. assert (E : existsb has_cost (map (canon_a l) acts) = false); [|now rewrite E].
  destruct (existsb _ _) eqn:E; [|reflexivity]. exfalso. apply existsb_exists in E as (y & Hy & Q). apply in_map_iff in Hy as (a & <- & Ha). specialize (H a Ha). unfold readable_action in H. rewrite !andb_true_iff in H. destruct H as (_ & H).
  unfold readable_cost in H. unfold has_cost in Q. unfold canon_a in Q. cbn [c_cost] in Q. destruct (c_cost a); [|discriminate]. rewrite Ht in H. discriminate.
Qed.
End Declarations.
