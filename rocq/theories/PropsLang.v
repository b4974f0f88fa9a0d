(** Property theorems about languages and sorts (C16-C19). *)
From Verif Require Import Base Syntax ModelState Lang LangSpec.
From Verif Require Import SemLemmas ModelProofs LangProofs LangProofs2 LangProofs3.
#[local] Open Scope string_scope.

(** Example history: a small hierarchy with constants, a predicate, a function, intervals and some failing declarations. *)
Definition no_parse (_ : bool) (s : string) : option Z := if String.eqb s "7" then Some 7%Z else None.
Definition ops2 : list lop :=
  [OSort "vehicle" None; OSort "truck" (Some "vehicle"); OSort "truck" None; OConst (CStr "t1") "truck"; OConst (CStr "v1") "vehicle";
   OConst (CStr "t1") "vehicle"; OArith; OInterval "digit" "Natural" 0 9; OInterval "bad" "Natural" 5 5; OConst (CInt 3) "digit";
   OPred "at" ["truck"; "digit"]; OFun "load" ["vehicle"; "Natural"]; OPred "load" []; OSubtype 9 "truck" "object"; OPred "tmp" []; ORemove "tmp"; OSort "plane" (Some "vehicle");
   OConst (CStr "p1") "plane"; OSubtype 9 "vehicle" "truck"].
Definition l2 := Eval vm_compute in lrun no_parse ops2.
Lemma l2_run : lrun no_parse ops2 = l2. Proof. vm_compute. reflexivity. Qed.

(** ** C16 *)
(** In every reachable language a name is defined as at most one element, and [get] finds exactly the defined elements. *)
Theorem C16_one_element_per_name : forall parse ops n e e', let l := lrun parse ops in
  defined_as l n e -> defined_as l n e' -> e = e'.
Proof. intros parse ops n e e' l H H'. assert (I := lrun_index parse ops). apply (ii_spec _ I) in H. apply (ii_spec _ I) in H'. congruence. Qed.
Print Assumptions C16_one_element_per_name.
Theorem C16_lookup : forall parse ops n e, let l := lrun parse ops in lget l n = Ok e <-> defined_as l n e.
Proof.
  intros parse ops n e l. assert (I := lrun_index parse ops). fold l in I. rewrite <- (ii_spec _ I). unfold lget.
  destruct (dget cname_eqb (l_index l) n); split; congruence.
Qed.
Print Assumptions C16_lookup.
(** Declaring a defined name again raises and changes nothing. (Constants of built-in sorts are not declared, see Lang.v.) *)
Theorem C16_redeclaration_raises : forall parse ops o n e, let l := lrun parse ops in
  declares o = Some n -> defined_as l n e ->
  (forall c s r, o = OConst c s -> In (s, r) (l_sorts l) -> s_builtin r = false) ->
  exists x, lstep parse l o = (l, Err x) /\ (x = DuplicateDefinition \/ x = UndefinedElement).
Proof.
  intros parse ops o n e l Hd He Hb. assert (I := lrun_index parse ops). fold l in I. apply (ii_spec _ I) in He.
  assert (Ck : forall b, check_name l b n = Err DuplicateDefinition). { intros b. unfold check_name. rewrite He. destruct b; reflexivity. }
  destruct o as [m p|m p lb ub|c s|m args|m args|m|fuel t st| |m]; inversion Hd; subst n; cbn [lstep].
  - unfold declare_sort. assert (A : forall p, attach l m plain_rec p = (l, Err DuplicateDefinition)) by (intros; unfold attach; now rewrite Ck).
    destruct p as [p|]; [unfold retrieve; destruct (has_sort l p)|destruct (has_sort l "object")]; rewrite ?A; eauto.
  - unfold declare_interval. rewrite Ck. eauto.
  - unfold declare_constant. destruct (sget (l_sorts l) s) as [r|] eqn:E; [|eauto]. apply (sget_In _ _ _ (ii_sorts l I)) in E. rewrite (Hb c s r eq_refl E), Ck. eauto.
  - unfold declare_predicate. rewrite Ck. eauto.
  - unfold declare_function. rewrite Ck. eauto.
  - unfold attach_foreign. rewrite Ck. eauto.
Qed.
Print Assumptions C16_redeclaration_raises.
(** A declaration that succeeds defines its name, and no other name changes meaning. *)
Theorem C16_declaration_defines : forall parse ops o n, let l := lrun parse ops in
  declares o = Some n -> (forall c s r, o = OConst c s -> In (s, r) (l_sorts l) -> s_builtin r = false) ->
  snd (lstep parse l o) = Ok tt ->
  (exists e, defined_as (fst (lstep parse l o)) n e) /\ (forall m, m <> n -> lget (fst (lstep parse l o)) m = lget l m).
Proof.
  intros parse ops o n l Hd Hb Ho. assert (I := lrun_index parse ops). fold l in I. assert (I' := lstep_index parse l o I).
  assert (G : exists e, l_index (fst (lstep parse l o)) = dset cname_eqb (l_index l) n e).
  { assert (SP : forall ow l s p, l_index (fst (set_parent ow l s p)) = l_index l).
    { intros ow l0 s0 p0. unfold set_parent. destruct (sget (l_parent l0) s0) as [[|]|]; try destruct ow; try destruct (closure _ _ p0); reflexivity. }
    assert (At : forall m r p, snd (attach l m r p) = Ok tt -> l_index (fst (attach l m r p)) = dset cname_eqb (l_index l) (CStr m) (ESort m)).
    { intros m r p. unfold attach. destruct (check_name l (has_sort l m) (CStr m)); [|discriminate]. intros _. rewrite SP. reflexivity. }
    destruct o as [m p|m p lb ub|c s|m args|m args|m|fuel t st| |m]; inversion Hd; subst n; cbn [lstep] in *.
    - unfold declare_sort in *. destruct p as [p|]; [destruct (retrieve l p)|destruct (has_sort l "object")]; try discriminate; exists (ESort m); now apply At.
    - unfold declare_interval in *. destruct (check_name l (has_sort l m) (CStr m)); [|discriminate]. destruct (retrieve l p); [|discriminate].
      destruct (negb _); [discriminate|]. destruct (negb _); [discriminate|]. destruct (Z.leb ub lb); [discriminate|]. rewrite SP. eexists; reflexivity.
    - unfold declare_constant in *. destruct (sget (l_sorts l) s) as [r|] eqn:E; [|discriminate]. apply (sget_In _ _ _ (ii_sorts l I)) in E. rewrite (Hb c s r eq_refl E) in *.
      destruct (check_name l (has_constant l c) c); [|discriminate]. destruct (s_kind r).
      + destruct (extend _ l s c) as [l1|] eqn:X; [|discriminate]. apply extend_same in X. destruct X as (_ & _ & _ & _ & _ & _ & X & _). simpl. rewrite X. eexists; reflexivity.
      + destruct (cast _ _ _ _ _); [|discriminate]. eexists; reflexivity.
    - unfold declare_predicate in *. destruct (check_name l (has_predicate l m) (CStr m)); [|discriminate]. destruct (mapM _ _); [|discriminate]. eexists; reflexivity.
    - unfold declare_function in *. destruct (check_name l (has_function l m) (CStr m)); [|discriminate]. destruct (mapM (retrieve l) args) as [[|]|]; try discriminate. eexists; reflexivity.
    - unfold attach_foreign in *. destruct (check_name l (has_sort l m) (CStr m)); discriminate. }
  destruct G as [e G]. split.
  - exists e. apply (ii_spec _ I'). rewrite G, cidx. assert (E : cname_eqb n n = true) by now apply cname_eqb_eq. now rewrite E.
  - intros m Hm. unfold lget. rewrite G, cidx. destruct (cname_eqb n m) eqn:E; [apply cname_eqb_eq in E; congruence|reflexivity].
Qed.
Print Assumptions C16_declaration_defines.
(** Removing a symbol makes its name undefined and leaves the others. *)
Theorem C16_removal_undefines : forall parse ops n, let l := lrun parse ops in
  snd (lstep parse l (ORemove n)) = Ok tt ->
  (forall e, ~ defined_as (fst (lstep parse l (ORemove n))) (CStr n) e) /\ (forall m, m <> CStr n -> lget (fst (lstep parse l (ORemove n))) m = lget l m).
Proof.
  intros parse ops n l Ho. assert (I := lrun_index parse ops). fold l in I. assert (I' := lstep_index parse l (ORemove n) I).
  assert (G : l_index (fst (lstep parse l (ORemove n))) = ddel cname_eqb (l_index l) (CStr n)).
  { cbn [lstep] in *. unfold remove_symbol in *. destruct (has_predicate l n); [reflexivity|]. destruct (has_function l n); [reflexivity|discriminate]. }
  split.
  - intros e H. apply (ii_spec _ I') in H. rewrite G, (dget_ddel cname_eqb cname_eqb_eq) in H by apply I.
    assert (E : cname_eqb (CStr n) (CStr n) = true) by now apply cname_eqb_eq. rewrite E in H. discriminate.
  - intros m Hm. unfold lget. rewrite G, (dget_ddel cname_eqb cname_eqb_eq) by apply I. destruct (cname_eqb (CStr n) m) eqn:E; [apply cname_eqb_eq in E; congruence|reflexivity].
Qed.
Print Assumptions C16_removal_undefines.
(** Failing calls of sort, interval, constant, predicate, function, remove_symbol and is_subtype change nothing. *)
Theorem C16_failures_change_nothing : forall parse ops o x, forallb native ops = true -> atomic o = true ->
  snd (lstep parse (lrun parse ops) o) = Err x -> fst (lstep parse (lrun parse ops) o) = lrun parse ops.
Proof.
  intros parse ops o x Hn Ha Hx. destruct (lstep_inv parse (lrun parse ops) o) as [_ B]; [now apply lrun_tree|destruct o; auto|]. eauto.
Qed.
Print Assumptions C16_failures_change_nothing.
(** Two other calls can fail half-way: attach_sort with a foreign parent leaves a sort without parent behind, and loading the arithmetic
    sorts when "Integer" is taken leaves "Real" behind. *)
Theorem C16_partial_failures : exists ops o1 o2 n1 n2,
  let l := lrun no_parse ops in
  (exists x, snd (lstep no_parse l o1) = Err x) /\ lget l n1 = Err UndefinedElement /\ is_ok (lget (fst (lstep no_parse l o1)) n1) = true /\
  (exists x, snd (lstep no_parse l o2) = Err x) /\ lget l n2 = Err UndefinedElement /\ is_ok (lget (fst (lstep no_parse l o2)) n2) = true.
Proof.
  exists [OSort "Integer" None], (OAttachForeign "s"), OArith, (CStr "s"), (CStr "Real"). vm_compute. repeat split; eexists; reflexivity.
Qed.
Print Assumptions C16_partial_failures.
Example C16_nonvacuous :
  defined_as l2 (CStr "load") (EFun "load" ["vehicle"; "Natural"]) /\ lget l2 (CStr "tmp") = Err UndefinedElement /\ defined_as l2 (CInt 3) (EConst (CInt 3) "digit") /\
  map (fun k => is_ok (snd (lstep no_parse (lrun no_parse (firstn k ops2)) (nth k ops2 OArith)))) (seq 0 (List.length ops2))
    = [true; true; false; true; true; false; true; true; false; true; true; true; false; true; true; true; true; true; true].
Proof. vm_compute. repeat split; auto 10. eexists; auto 10. Qed.

(** ** C17 *)
(** The immediate-parent relation is a tree rooted at [object]. *)
Theorem C17_sorts_form_a_tree : forall parse ops, forallb native ops = true -> let l := lrun parse ops in
  (forall s, is_sort l s -> le l s "object") /\ parent_of l "object" = None /\ (forall s, ~ anc l s s) /\
  (forall s p, parent_of l s = Some p -> is_sort l s /\ is_sort l p).
Proof.
  intros parse ops Hn l. assert (I := lrun_tree parse ops Hn). fold l in I. destruct (it_rank l I) as (rank & R1 & R2).
  assert (Rk := anc_rank l rank R1). repeat split.
  - intros s. remember (rank s) as k eqn:Ek. revert s Ek. induction k as [k IH] using lt_wf_ind; intros s -> Hs.
    destruct (parent_of l s) as [p|] eqn:E.
    + destruct (IH (rank p) (R1 _ _ E) p eq_refl (it_parent l I _ _ E)) as [->|H]; right; [now apply anc_parent|now apply anc_up with p].
    + left. now apply (it_root l I).
  - apply I.
  - intros s H. specialize (Rk s s H). lia.
  - eapply parent_sort; eauto.
  - eapply it_parent; eauto.
Qed.
Print Assumptions C17_sorts_form_a_tree.
(** Queries: after every history of declarations and queries, is_subtype terminates and answers whether the second sort is the first or one
    of its ancestors; answering changes no later answer. *)
Theorem C17_is_subtype : forall parse ops s t, forallb native ops = true -> let l := lrun parse ops in
  is_sort l s -> is_sort l t ->
  exists n0, forall n, n0 <= n -> exists b, snd (is_subtype n l s t) = Ok b /\ (b = true <-> le l s t).
Proof.
  intros parse ops s t Hn l Hs Ht. assert (I := lrun_tree parse ops Hn). fold l in I. destruct (subtype_complete l s t I Hs Ht) as [n0 H].
  exists n0. intros n Hge. destruct (H n Hge) as [b Hb]. exists b. split; [auto|]. destruct (is_subtype n l s t) as [l' r] eqn:E.
  destruct (subtype_sound n l s t l' r I E) as (_ & X & _). simpl in Hb. apply (X b Hb).
Qed.
Print Assumptions C17_is_subtype.
(** whatever the fuel, a query that answers answers correctly, and queries never change the hierarchy *)
Theorem C17_queries_are_pure : forall parse ops n s t, forallb native ops = true -> let l := lrun parse ops in
  let l' := fst (is_subtype n l s t) in
  (forall b, snd (is_subtype n l s t) = Ok b -> (b = true <-> le l s t)) /\
  (forall x y, le l' x y <-> le l x y) /\ l_sorts l' = l_sorts l /\ l_index l' = l_index l.
Proof.
  intros parse ops n s t Hn l l'. assert (I := lrun_tree parse ops Hn). fold l in I. unfold l'.
  destruct (is_subtype n l s t) as [l1 r] eqn:E. destruct (subtype_sound n l s t l1 r I E) as (_ & X & P & S & _ & Ix & _). simpl.
  split; [intros b Hb; apply (X b Hb)|]. split; [|auto]. intros x y. unfold le. rewrite (anc_parent_eq l l1 P). tauto.
Qed.
Print Assumptions C17_queries_are_pure.
(** The subsort relation is a partial order. *)
Theorem C17_partial_order : forall parse ops, forallb native ops = true -> let l := lrun parse ops in
  (forall s, le l s s) /\ (forall s t u, le l s t -> le l t u -> le l s u) /\ (forall s t, le l s t -> le l t s -> s = t).
Proof.
  intros parse ops Hn l. assert (I := lrun_tree parse ops Hn). fold l in I. repeat split.
  - intros s. now left.
  - intros s t u. apply le_trans.
  - intros s t [->|H]; [auto|]. intros [->|H']; [auto|]. exfalso. destruct (C17_sorts_form_a_tree parse ops Hn) as (_ & _ & A & _). apply (A s). eapply anc_trans; eauto.
Qed.
Print Assumptions C17_partial_order.
(** The parent of a new sort is the declared one, and it is never changed by later operations. *)
Theorem C17_parent_as_declared : forall parse ops name p ops', forallb native (ops ++ OSort name p :: ops') = true ->
  snd (lstep parse (lrun parse ops) (OSort name p)) = Ok tt ->
  parent_of (lrun parse (ops ++ OSort name p :: ops')) name = Some (match p with Some q => q | None => "object" end).
Proof.
  intros parse ops name p ops' Hn Ho. assert (Hn1 := Hn). rewrite forallb_app in Hn1. apply andb_true_iff in Hn1 as [Hn1 _].
  assert (I := lrun_tree parse ops Hn1). replace (ops ++ OSort name p :: ops')%list with ((ops ++ [OSort name p]) ++ ops')%list in * by (rewrite <- app_assoc; reflexivity).
  assert (G : forall q, snd (attach (lrun parse ops) name plain_rec q) = Ok tt -> is_sort (lrun parse ops) q ->
     parent_of (fst (attach (lrun parse ops) name plain_rec q)) name = Some q /\ is_sort (fst (attach (lrun parse ops) name plain_rec q)) name).
  { intros q Hq Hs. unfold attach in *. destruct (check_name _ _ (CStr name)) as [[]|] eqn:E; [|discriminate].
    destruct (name_free _ name I E) as [N1 N2]. destruct (new_sort (lrun parse ops) name plain_rec q I N1 N2 Hs) as (l' & E' & I' & P' & S' & _); auto. rewrite E'. simpl.
    rewrite P', String.eqb_refl. split; [auto|]. unfold is_sort. rewrite S'. apply (dset_keys String.eqb seqb). auto. }
  assert (G2 : parent_of (lrun parse (ops ++ [OSort name p])) name = Some (match p with Some q => q | None => "object" end) /\ is_sort (lrun parse (ops ++ [OSort name p])) name).
  { rewrite lrun_snoc. cbn [lstep] in *. unfold declare_sort in *. destruct p as [q|].
    - unfold retrieve in *. destruct (has_sort (lrun parse ops) q) eqn:E; [|discriminate]. apply has_sort_spec in E. now apply G.
    - destruct (has_sort (lrun parse ops) "object") eqn:E; [|discriminate]. apply has_sort_spec in E. now apply G. }
  destruct G2 as [G2 G3]. destruct (lrun_parent_stable parse (ops ++ [OSort name p]) ops' name Hn G3) as [-> _]. exact G2.
Qed.
Print Assumptions C17_parent_as_declared.
(** most_restricted_type returns the lower of two comparable sorts and None for incomparable ones. *)
Theorem C17_most_restricted_type : forall parse ops n s t r, forallb native ops = true -> let l := lrun parse ops in
  snd (most_restricted n l s t) = Ok r ->
  (forall u, r = Some u -> (u = s \/ u = t) /\ le l u s /\ le l u t) /\ (r = None -> ~ le l s t /\ ~ le l t s).
Proof.
  intros parse ops n s t r Hn l. assert (I := lrun_tree parse ops Hn). fold l in I. unfold most_restricted.
  destruct (is_subtype n l s t) as [l1 r1] eqn:E1. destruct (subtype_sound n l s t l1 r1 I E1) as (I1 & X1 & P1 & _).
  destruct r1 as [[]|]; [|destruct (is_subtype n l1 t s) as [l3 r2] eqn:E2; destruct (subtype_sound n l1 t s l3 r2 I1 E2) as (I2 & X2 & P2 & _); destruct r2 as [[]|]|];
  simpl; intros H; try discriminate; inversion H; subst; (split; [intros u Hu; try discriminate; injection Hu as <-|intros Hu; try discriminate]).
  - destruct (X1 true eq_refl) as (_ & _ & A). repeat split; auto; [now left|now apply A].
  - destruct (X2 true eq_refl) as (_ & _ & A). assert (le l t s). { assert (B : le l1 t s) by now apply A. unfold le in *. now rewrite (anc_parent_eq l l1 P1) in B. }
    repeat split; auto. now left.
  - destruct (X1 false eq_refl) as (_ & _ & A). destruct (X2 false eq_refl) as (_ & _ & B). unfold le in *. rewrite (anc_parent_eq l l1 P1) in B. split; intros C; [apply A in C|apply B in C]; discriminate.
Qed.
Print Assumptions C17_most_restricted_type.
(** Through the low-level [set_parent] the claim fails: giving [object] a parent makes a cycle on which [inclusion_closure] never ends; and
    overwriting a parent leaves the former ancestors in place. *)
Theorem C17_set_parent_refuted :
  (exists ops l', set_parent false (lrun no_parse ops) "object" "a" = (l', Err OutOfFuel) /\ parent_of l' "object" = Some "a" /\ forall fuel, closure fuel l' "a" = Err OutOfFuel) /\
  (exists ops l', set_parent true (lrun no_parse ops) "c" "b" = (l', Ok tt) /\ parent_of l' "c" = Some "b" /\ ~ le l' "c" "a" /\ forall fuel, snd (is_subtype fuel l' "c" "a") = Ok true).
Proof.
  split.
  - exists [OSort "a" None]. eexists. split; [vm_compute; reflexivity|]. split; [reflexivity|].
    intros fuel. match goal with |- closure _ ?l _ = _ => assert (H : forall n, closure n l "a" = Err OutOfFuel /\ closure n l "object" = Err OutOfFuel) end; [|apply H].
    induction n as [|n [IH1 IH2]]; [split; reflexivity|]. split; cbn [closure].
    + change (sget _ "a") with (Some (Some "object")). cbv iota. rewrite IH2. reflexivity.
    + change (sget _ "object") with (Some (Some "a")). cbv iota. rewrite IH1. reflexivity.
  - exists [OSort "a" None; OSort "b" None; OSort "c" (Some "a")]. eexists. split; [vm_compute; reflexivity|]. split; [reflexivity|]. split.
    + intros [H|H]; [discriminate|]. apply anc_inv in H as (p & H & [H2|H2]); [subst; discriminate|]. injection H as <-.
      apply anc_inv in H2 as (p & H & [H2|H2]); [subst; discriminate|]. injection H as <-. apply anc_inv in H2 as (p & H & _). discriminate.
    + intros fuel. reflexivity.
Qed.
Print Assumptions C17_set_parent_refuted.
Example C17_nonvacuous : forallb native ops2 = true /\ is_sort l2 "truck" /\ le l2 "truck" "object" /\ ~ le l2 "plane" "truck" /\ snd (is_subtype 20 l2 "plane" "truck") = Ok false.
Proof.
  assert (T : le l2 "truck" "object"). { right. eapply anc_up; [reflexivity|]. apply anc_parent. reflexivity. }
  split; [reflexivity|]. split; [unfold is_sort; simpl; auto 20|]. split; [exact T|]. split; [|reflexivity].
  destruct (C17_queries_are_pure no_parse ops2 20 "plane" "truck" eq_refl) as (A & _). rewrite l2_run in A. intros H. apply (A false eq_refl) in H. discriminate.
Qed.

(** ** C18 *)
(** The domain of an uninterpreted sort is the set of constants declared with it or with an uninterpreted subsort. *)
Theorem C18_domain_exact : forall parse ops s, forallb native ops = true -> let l := lrun parse ops in
  is_plain l s ->
  exists d, sort_domain l s = Ok d /\ NoDup d /\ (forall c, In c d <-> exists s', is_plain l s' /\ const_of l c s' /\ le l s' s) /\
            (forall c, sort_contains parse l s c = Ok (cn_mem c d)) /\ sort_cardinality l s = Ok (Z.of_nat (List.length d)).
Proof.
  intros parse ops s Hn l (r & Hr & K). assert (I := lrun_tree parse ops Hn). fold l in I. destruct (it_dom l I s r Hr) as (N & D & _). destruct (D K) as [_ D5].
  exists (s_dom r). apply (sget_In _ _ _ (ii_sorts l (it_index l I))) in Hr. unfold sort_domain, sort_contains, sort_cardinality. rewrite Hr, K. repeat split; auto; try apply D5.
  apply mapM_id. apply Forall_forall. intros c Hc. apply D5 in Hc as (s' & Hp & [sym Hs] & _).
  apply (dget_Some_In cname_eqb cname_eqb_eq _ _ _ (ii_consts l (it_index l I))) in Hs. rewrite Hs. f_equal.
  eapply plain_const_name; eauto.
Qed.
Print Assumptions C18_domain_exact.
(** Domains grow along the hierarchy. *)
Theorem C18_domain_monotone : forall parse ops s t d d', forallb native ops = true -> let l := lrun parse ops in
  is_plain l s -> is_plain l t -> le l s t -> sort_domain l s = Ok d -> sort_domain l t = Ok d' -> incl d d'.
Proof.
  intros parse ops s t d d' Hn l Hs Ht Hle Ed Ed' c Hc.
  destruct (C18_domain_exact parse ops s Hn Hs) as (d1 & E1 & _ & X1 & _). destruct (C18_domain_exact parse ops t Hn Ht) as (d2 & E2 & _ & X2 & _).
  subst l. assert (d1 = d) by congruence. assert (d2 = d') by congruence. subst. apply X2. apply X1 in Hc as (s' & A & B & C). exists s'. split; [auto|]. split; [auto|].
  eapply le_trans; eauto.
Qed.
Print Assumptions C18_domain_monotone.
(** Constants of a user interval sort do not enter the domain of [object], although the interval sort is a subsort of it. *)
Theorem C18_interval_constants_refuted : exists ops c s, forallb native ops = true /\ let l := lrun no_parse ops in
  const_of l c s /\ le l s "object" /\ sort_contains no_parse l "object" c = Ok false /\ sort_domain l "object" = Ok [].
Proof.
  exists [OArith; OInterval "digit" "Natural" 0 9; OConst (CInt 3) "digit"], (CInt 3), "digit". split; [reflexivity|]. cbv zeta. split; [vm_compute; eauto|].
  split; [|split; reflexivity]. right. eapply anc_up; [reflexivity|]. eapply anc_up; [reflexivity|]. eapply anc_up; [reflexivity|]. apply anc_parent. reflexivity.
Qed.
Print Assumptions C18_interval_constants_refuted.
Example C18_nonvacuous : sort_domain l2 "vehicle" = Ok [CStr "t1"; CStr "v1"; CStr "p1"] /\ sort_domain l2 "truck" = Ok [CStr "t1"] /\ is_plain l2 "vehicle" /\
  sort_domain l2 "object" = Ok [CStr "t1"; CStr "v1"; CStr "p1"].
Proof. repeat split; try reflexivity. eexists. simpl. eauto. Qed.

(** ** C19 *)
Lemma zrange_In lb ub z : In z (zrange lb ub) <-> (lb <= z <= ub)%Z.
Proof.
  unfold zrange. rewrite in_map_iff. split.
  - intros (n & <- & H). apply in_seq in H. lia.
  - intros H. exists (Z.to_nat (z - lb)). split; [lia|]. apply in_seq. lia.
Qed.
Lemma zrange_NoDup lb ub : NoDup (zrange lb ub).
Proof. unfold zrange. apply FinFun.Injective_map_NoDup; [|apply seq_NoDup]. intros a b H. lia. Qed.
Lemma zrange_length lb ub : List.length (zrange lb ub) = Z.to_nat (ub - lb + 1).
Proof. unfold zrange. now rewrite map_length, seq_length. Qed.
Lemma NoDup_map_CInt l : NoDup l -> NoDup (map CInt l).
Proof. apply FinFun.Injective_map_NoDup. intros a b H. now inversion H. Qed.

(** Integers and an interval sort of any reachable language: contains, cast and the enumerated domain agree with the bounds;
    cast returns the value itself; the enumerated domain has as many elements as the cardinality. *)
Theorem C19_interval_values : forall parse ops s r real lb ub z, let l := lrun parse ops in
  In (s, r) (l_sorts l) -> s_kind r = KInterval real lb ub ->
  (sort_contains parse l s (CInt z) = Ok true <-> (lb <= z <= ub)%Z) /\
  (cast parse real lb ub (CInt z) = Ok (CInt z) <-> (lb <= z <= ub)%Z) /\
  (cast parse real lb ub (CInt z) = Err ValueError <-> ~ (lb <= z <= ub)%Z) /\
  (forall d, sort_domain l s = Ok d -> NoDup d /\ (In (CInt z) d <-> (lb <= z <= ub)%Z) /\
             ((lb <= ub)%Z -> sort_cardinality l s = Ok (Z.of_nat (List.length d)))).
Proof.
  intros parse ops s r real lb ub z l Hin K. assert (I := lrun_index parse ops). fold l in I. apply (sget_In _ _ _ (ii_sorts l I)) in Hin.
  unfold sort_contains, sort_domain, sort_cardinality. rewrite Hin, K. unfold cast, encode.
  assert (B : (Z.leb lb z && Z.leb z ub)%bool = true <-> (lb <= z <= ub)%Z) by (rewrite andb_true_iff, !Z.leb_le; tauto).
  split; [|split; [|split]].
  - destruct (Z.leb lb z && Z.leb z ub)%bool; split; intros X; try congruence; try (now apply B); apply B in X; congruence.
  - destruct (Z.leb lb z && Z.leb z ub)%bool; split; intros X; try congruence; try (now apply B); apply B in X; congruence.
  - destruct (Z.leb lb z && Z.leb z ub)%bool; split; intros X; try congruence; [exfalso; apply X; now apply B|intros Y; apply B in Y; congruence].
  - intros d Hd. destruct (s_builtin r || (9999 <? ub - lb)%Z); [discriminate|]. inversion Hd; subst d. split; [|split].
    + apply NoDup_map_CInt, zrange_NoDup.
    + rewrite in_map_iff. split.
      * intros (y & Hy & Hr). inversion Hy; subst. now apply zrange_In.
      * intros X. exists z. split; [auto|]. now apply zrange_In.
    + intros X. rewrite map_length, zrange_length. f_equal. lia.
Qed.
Print Assumptions C19_interval_values.
(** The domain can be enumerated exactly for user intervals of at most 10000 values. *)
Theorem C19_domain_enumerable : forall parse ops s r real lb ub, let l := lrun parse ops in
  In (s, r) (l_sorts l) -> s_kind r = KInterval real lb ub ->
  is_ok (sort_domain l s) = true <-> s_builtin r = false /\ (ub - lb <= 9999)%Z.
Proof.
  intros parse ops s r real lb ub l Hin K. assert (I := lrun_index parse ops). fold l in I. apply (sget_In _ _ _ (ii_sorts l I)) in Hin.
  unfold sort_domain. rewrite Hin, K. destruct (s_builtin r); simpl; [split; [discriminate|intros [? _]; discriminate]|].
  destruct (9999 <? ub - lb)%Z eqn:E; simpl.
  - apply Z.ltb_lt in E. split; [discriminate|lia].
  - apply Z.ltb_ge in E. split; [auto|reflexivity].
Qed.
Print Assumptions C19_domain_enumerable.
(** Creating a constant of an interval sort succeeds exactly for values within the bounds (and, for the sorts whose constants are
    registered, names that are still free). *)
Theorem C19_constant_creation : forall parse ops s r real lb ub z, let l := lrun parse ops in
  In (s, r) (l_sorts l) -> s_kind r = KInterval real lb ub ->
  snd (lstep parse l (OConst (CInt z) s)) = Ok tt <->
  (lb <= z <= ub)%Z /\ (s_builtin r = true \/ forall e, ~ defined_as l (CInt z) e).
Proof.
  intros parse ops s r real lb ub z l Hin K. assert (I := lrun_index parse ops). fold l in I. apply (sget_In _ _ _ (ii_sorts l I)) in Hin.
  cbn [lstep]. unfold declare_constant. rewrite Hin, K. unfold cast, encode.
  assert (B : (Z.leb lb z && Z.leb z ub)%bool = true <-> (lb <= z <= ub)%Z) by (rewrite andb_true_iff, !Z.leb_le; tauto).
  assert (B' : (Z.leb lb z && Z.leb z ub)%bool = false -> ~ (lb <= z <= ub)%Z) by (intros X Y; apply B in Y; congruence).
  destruct (s_builtin r) eqn:Hb.
  - destruct (Z.leb lb z && Z.leb z ub)%bool; simpl; split; auto; try discriminate. { intros _. split; [now apply B|auto]. } { intros [X _]. now apply B' in X. }
  - assert (D : (exists e, dget cname_eqb (l_index l) (CInt z) = Some e) -> ~ (false = true \/ forall e, ~ defined_as l (CInt z) e)).
    { intros [e He] [X|X]; [discriminate|]. apply (X e). now apply (ii_spec l I). }
    assert (C : check_name l (has_constant l (CInt z)) (CInt z) = match dget cname_eqb (l_index l) (CInt z) with Some _ => Err DuplicateDefinition | None => Ok tt end).
    { unfold check_name, has_constant. destruct (dget cname_eqb (l_consts l) (CInt z)) as [[sym t]|] eqn:E; [|reflexivity].
      apply (dget_In cname_eqb cname_eqb_eq) in E. assert (X : defined_as l (CInt z) (EConst (CInt z) t)) by (simpl; eauto). apply (ii_spec l I) in X. now rewrite X. }
    rewrite C. destruct (dget cname_eqb (l_index l) (CInt z)) as [e|] eqn:E.
    + simpl. split; [discriminate|]. intros [_ X]. exfalso. apply D in X; eauto.
    + assert (N := not_defined l _ I E). destruct (Z.leb lb z && Z.leb z ub)%bool; simpl; split; auto; try discriminate. { intros _. split; [now apply B|auto]. } { intros [X _]. now apply B' in X. }
Qed.
Print Assumptions C19_constant_creation.
(** What is not guaranteed: a numeric subsort may have values that its parent lacks (the built-in naturals exceed the built-in integers,
    and [interval] does not compare with the bounds of the parent); casting a numeral string does not return the value itself; and a number can be
    declared as a constant of one interval sort only. *)
Theorem C19_numeric_inclusion_refuted : exists ops, forallb native ops = true /\ let l := lrun no_parse ops in
  le l "Natural" "Integer" /\ sort_contains no_parse l "Natural" (CInt (2 ^ 32 - 1)) = Ok true /\ sort_contains no_parse l "Integer" (CInt (2 ^ 32 - 1)) = Ok false /\
  le l "temperature" "Natural" /\ sort_contains no_parse l "temperature" (CInt (-5)) = Ok true /\ sort_contains no_parse l "Natural" (CInt (-5)) = Ok false.
Proof.
  exists [OArith; OInterval "temperature" "Natural" (-20) 40]. split; [reflexivity|]. cbv zeta. repeat split; try reflexivity; right; apply anc_parent; reflexivity.
Qed.
Print Assumptions C19_numeric_inclusion_refuted.
Theorem C19_cast_of_numeral_string : exists ops s c, forallb native ops = true /\ let l := lrun no_parse ops in
  le l s "Natural" /\ sort_contains no_parse l s c = Ok true /\ cast no_parse false 0 9 c = Ok (CInt 7) /\ c = CStr "7".
Proof.
  exists [OArith; OInterval "digit" "Natural" 0 9], "digit", (CStr "7"). split; [reflexivity|]. cbv zeta. repeat split; try reflexivity. right; apply anc_parent; reflexivity.
Qed.
Print Assumptions C19_cast_of_numeral_string.
Theorem C19_shared_number_refuted : exists ops z, forallb native ops = true /\ let l := lrun no_parse ops in
  sort_contains no_parse l "a" (CInt z) = Ok true /\ sort_contains no_parse l "b" (CInt z) = Ok true /\
  snd (lstep no_parse l (OConst (CInt z) "a")) = Ok tt /\ snd (lstep no_parse (fst (lstep no_parse l (OConst (CInt z) "a"))) (OConst (CInt z) "b")) = Err DuplicateDefinition.
Proof. exists [OArith; OInterval "a" "Natural" 0 9; OInterval "b" "Natural" 0 5], 2%Z. repeat split; reflexivity. Qed.
Print Assumptions C19_shared_number_refuted.
Example C19_nonvacuous : exists r, In ("digit", r) (l_sorts l2) /\ s_kind r = KInterval false 0 9 /\ s_builtin r = false /\
  sort_domain l2 "digit" = Ok (map CInt [0; 1; 2; 3; 4; 5; 6; 7; 8; 9]%Z).
Proof. eexists. split; [simpl; eauto 20|]. repeat split. Qed.
