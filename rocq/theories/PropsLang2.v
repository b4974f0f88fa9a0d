(** C20: numbering of constants by sort *)
From Verif Require Import ListUtil Base Syntax SemLemmas ModelState ModelProofs ModelText Lang LangSpec LangProofs LangProofs2 LangProofs3 SortIds SortIdsProofs.
From Coq Require Import Permutation.
#[local] Open Scope string_scope.
Definition no_parse : bool -> string -> option Z := fun _ _ => None.

(** ** C20. After any history of declarations in which no uninterpreted sort is below a numeric one, and the constants of one sort are all named by strings or all by
    integers: the numbering succeeds, exactly the constants of uninterpreted sorts get a number, the numbers are consecutive from [start], exactly the uninterpreted sorts get
    bounds, and the bounds of [s] enclose exactly the numbers of the constants of [s] and of its subsorts. *)
Theorem C20_ids_contiguous : forall parse ops start, forallb native ops = true -> let l := lrun parse ops in
  (forall s p, parent_of l s = Some p -> is_plain l s -> is_plain l p) ->
  (forall s c c', is_plain l s -> const_of l c s -> const_of l c' s -> is_cstr c = is_cstr c') ->
  exists ids bounds, sort_ids l start = Ok (ids, bounds) /\
    map snd ids = seq start (List.length ids) /\ NoDup (map fst ids) /\
    (forall c s, In (c, s) (map fst ids) <-> is_plain l s /\ const_of l c s) /\
    (forall s, is_plain l s <-> sget bounds s <> None) /\
    (forall s lo hi, sget bounds s = Some (lo, hi) -> start <= lo <= hi /\ hi <= start + List.length ids /\
       (forall c s' i, In ((c, s'), i) ids -> lo <= i < hi <-> le l s' s)).
Proof.
  intros parse ops start Hn l Hup Hhom. assert (I := lrun_tree parse ops Hn). fold l in I.
  assert (Hname : forall k c s, is_plain l s -> In (k, (c, s)) (l_consts l) -> c = k).
  { intros k c s Hs Hi. apply (dget_Some_In cname_eqb cname_eqb_eq _ _ _ (ii_consts l (it_index l I))) in Hi. eapply plain_const_name; eauto. }
  assert (ND := lrun_ND parse ops). fold l in ND. destruct (it_rank l I) as (rank & Rp & Rb).
  assert (Ho := it_object l I).
  destruct (assign_spec l I ND Hname Hup Hhom rank Rp Rb (S (List.length (l_sorts l))) "object" ([], []) start) as (b & E & B); [lia|auto|intros ? ? []|].
  cbn [fst snd app] in *. set (os := ord l "object") in *. exists (numbered os start), b. split; [exact E|].
  assert (Ln : List.length (numbered os start) = List.length os). { unfold numbered. rewrite combine_length, seq_length. apply Nat.min_id. }
  assert (Root : forall s, is_sort l s -> le l s "object").
  { intros s. revert s. assert (X : forall n s, rank s < n -> is_sort l s -> le l s "object").
    { induction n as [|n IH]; intros s Hr Hs; [lia|]. destruct (parent_of l s) as [p|] eqn:Ep.
      - apply (le_trans l s p "object"); [right; now apply anc_parent|]. apply IH; [pose proof (Rp _ _ Ep); lia|]. exact (it_parent l I s p Ep).
      - left. exact (it_root l I s Hs Ep). }
    intros s Hs. apply (X (S (rank s))); auto. }
  assert (IO := In_ord l I ND Hname Hup rank Rp Rb). assert (NO := ord_NoDup l I ND Hname Hup rank Rp Rb).
  split; [rewrite numbered_vals, Ln; reflexivity|]. split; [rewrite numbered_keys; apply NO; auto|].
  split. { intros c s. rewrite numbered_keys. assert (X := IO "object" Ho (c, s)). fold os in X. cbn [fst snd] in X. split; [intros H; apply X in H; tauto|].
    intros [H1 H2]. apply X. split; [auto|]. split; [auto|]. apply Root. now apply plain_sort. }
  split.
  { intros s. destruct (B s) as [B1 B2]. split.
    - intros Hs. destruct (B1 Hs (Root _ (plain_sort l s Hs))) as (p & q & _ & ->). discriminate.
    - intros Hb. destruct (has_sort l s) eqn:Es; [|exfalso; apply Hb, B2; intros [Hp _]; apply plain_sort, has_sort_spec in Hp; congruence].
      apply has_sort_spec in Es. apply (plain_interval l I s Es). destruct (is_interval l s) eqn:Ei; [|auto]. exfalso. apply Hb, B2. intros [Hp _]. apply (plain_interval l I s Es) in Hp. congruence. }
  intros s lo hi Hb. assert (Hs : is_plain l s).
  { destruct (B s) as [_ B2]. destruct (has_sort l s) eqn:Es.
    - apply has_sort_spec in Es. apply (plain_interval l I s Es). destruct (is_interval l s) eqn:Ei; [|auto]. exfalso.
      assert (X : sget b s = None) by (apply B2; intros [Hp _]; apply (plain_interval l I s Es) in Hp; congruence). congruence.
    - exfalso. assert (X : sget b s = None) by (apply B2; intros [Hp _]; apply plain_sort, has_sort_spec in Hp; congruence). congruence. }
  destruct (B s) as [B1 _]. destruct (B1 Hs (Root _ (plain_sort l s Hs))) as (p & q & Eo & Eb). rewrite Eb in Hb. injection Hb as <- <-.
  assert (LO : List.length os = List.length p + (List.length (ord l s) + List.length q)) by (rewrite Eo, !app_length; reflexivity).
  split; [split; apply Nat.le_add_r|]. split; [rewrite Ln, LO; lia|].
  intros c s' i Hi. assert (No : NoDup os) by (apply NO; auto).
  assert (Hc : In (c, s') os). { rewrite <- (numbered_keys os start). apply in_map_iff. eexists; split; [|exact Hi]. reflexivity. }
  assert (Hcs := proj1 (IO _ Ho (c, s')) Hc). cbn [fst snd] in Hcs. destruct Hcs as (Hp' & Hco & _).
  assert (Val : forall k st, In ((c, s'), i) (numbered k st) -> st <= i < st + List.length k).
  { intros k st H. assert (X : In i (map snd (numbered k st))) by (apply in_map_iff; eexists; split; [|exact H]; reflexivity). rewrite numbered_vals in X. apply in_seq in X. lia. }
  assert (Key : forall k st, In ((c, s'), i) (numbered k st) -> In (c, s') k).
  { intros k st H. rewrite <- (numbered_keys k st). apply in_map_iff. eexists; split; [|exact H]. reflexivity. }
  rewrite Eo in Hi. rewrite !numbered_app in Hi. rewrite !in_app_iff in Hi. rewrite Eo in No.
  split.
  - intros Hb. destruct Hi as [Hi|[Hi|Hi]]; [apply Val in Hi; lia| |apply Val in Hi; lia].
    apply Key in Hi. apply (IO _ Hs) in Hi. tauto.
  - intros Hle. assert (Hin : In (c, s') (ord l s)) by (apply (IO _ Hs); auto).
    destruct Hi as [Hi|[Hi|Hi]]; [|apply Val in Hi; lia|].
    + exfalso. apply Key in Hi. eapply NoDup_app_disj; [exact No|exact Hi|]. apply in_or_app. now left.
    + exfalso. apply Key in Hi. apply NoDup_app_r in No. eapply NoDup_app_disj; [exact No|exact Hin|exact Hi].
Qed.
Print Assumptions C20_ids_contiguous.

Definition opsN := [OSort "vehicle" None; OSort "truck" (Some "vehicle"); OSort "plane" (Some "vehicle"); OConst (CStr "p1") "plane"; OConst (CStr "t2") "truck";
                    OConst (CStr "v1") "vehicle"; OConst (CStr "t1") "truck"; OConst (CStr "a") "object"].
Example C20_nonvacuous : sort_ids (lrun no_parse opsN) 10 =
  Ok ([((CStr "p1", "plane"), 10); ((CStr "t1", "truck"), 11); ((CStr "t2", "truck"), 12); ((CStr "v1", "vehicle"), 13); ((CStr "a", "object"), 14)],
      [("plane", (10, 11)); ("truck", (11, 13)); ("vehicle", (10, 14)); ("object", (10, 15))]) /\
  (forall s p, parent_of (lrun no_parse opsN) s = Some p -> is_plain (lrun no_parse opsN) s -> is_plain (lrun no_parse opsN) p) /\
  (forall s c c', is_plain (lrun no_parse opsN) s -> const_of (lrun no_parse opsN) c s -> const_of (lrun no_parse opsN) c' s -> is_cstr c = is_cstr c').
Proof.
  split; [reflexivity|]. split.
  - intros s p E _. assert (I := lrun_tree no_parse opsN eq_refl). assert (Hs := it_parent _ I _ _ E). apply (plain_interval _ I _ Hs).
    unfold is_sort in Hs. vm_compute in Hs. destruct Hs as [<-|[<-|[<-|[<-|[]]]]]; reflexivity.
  - assert (W : forall c s, const_of (lrun no_parse opsN) c s -> is_cstr c = true).
    { intros c s [y H]. assert (X : forallb (fun kv => is_cstr (fst kv)) (l_consts (lrun no_parse opsN)) = true) by reflexivity. rewrite forallb_forall in X. exact (X _ H). }
    intros s c c' _ H H'. rewrite (W _ _ H), (W _ _ H'). reflexivity.
Qed.

(** Without the first hypothesis the claim fails: the constants of an uninterpreted sort declared below [Integer] are objects of the domain of [object], but get no number and no bounds. *)
Theorem C20_below_interval_refuted : exists ops c s, forallb native ops = true /\ let l := lrun no_parse ops in
  is_plain l s /\ const_of l c s /\ (exists d, sort_domain l "object" = Ok d /\ In c d) /\
  exists ids bounds, sort_ids l 0 = Ok (ids, bounds) /\ ~ In (c, s) (map fst ids) /\ sget bounds s = None.
Proof.
  exists [OArith; OSort "level" (Some "Integer"); OConst (CStr "low") "level"], (CStr "low"), "level". split; [reflexivity|]. cbv zeta.
  split; [vm_compute; eauto 20|]. split; [vm_compute; eauto|]. split; [eexists; split; [vm_compute; reflexivity|left; reflexivity]|].
  eexists _, _. split; [vm_compute; reflexivity|]. split; [intros []|reflexivity].
Qed.
Print Assumptions C20_below_interval_refuted.
(** Without the second hypothesis it raises: one sort with a string-named and an integer-named constant. *)
Theorem C20_mixed_names_refuted : exists ops, forallb native ops = true /\ sort_ids (lrun no_parse ops) 0 = Err TypeError.
Proof. exists [OConst (CStr "a") "object"; OConst (CInt 1) "object"]. split; reflexivity. Qed.
Print Assumptions C20_mixed_names_refuted.
