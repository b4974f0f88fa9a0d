(** C52: The constraint hypergraph and the primal graph of an action schema *)
From Verif Require Import ListUtil Base Syntax FolSpec NnfProofs ModelState ModelText ModelTextProofs Index Effects Represent Algorithms PropsAlgorithms CspSpec Csp PropsCsp CspSchema HypergraphSpec.
From Coq Require Import Permutation Sorted.
#[local] Open Scope string_scope.

Lemma is_simple_plain ts : forallb is_simple ts = forallb plain_term ts.
Proof. induction ts as [|[] ts IH]; cbn; auto. Qed.
Lemma collect_And fs edges : collect_hyperedges (Comp And fs) edges = match fs with [] => Ok edges | f :: r => let! e := collect_hyperedges f edges in collect_hyperedges (Comp And r) e end.
Proof. destruct fs; reflexivity. Qed.
Lemma add_edge_In e l x : In x (add_edge e l) <-> x = e \/ In x l.
Proof. unfold add_edge. destruct in_dec as [H|H]; [split; [auto|intros [->|]; auto]|]. rewrite in_app_iff. cbn. split; [intros [?|[?|[]]]; auto|intros [->|?]; auto]. Qed.
Lemma add_edge_NoDup e l : NoDup l -> NoDup (add_edge e l).
Proof. intros N. unfold add_edge. destruct in_dec as [H|H]; [auto|]. apply Permutation_NoDup with (e :: l); [apply Permutation_cons_append|]. now constructor. Qed.
(** The edge of an atom *)
Lemma atom_edge_In ts y : In y (atom_edge ts) <-> exists v s, In (Var v s) ts /\ y = drop_first v.
Proof.
  unfold atom_edge. rewrite sorted_In, nodup_In, in_flat_map. split.
  - intros ([v s| | |] & Ht & Hy); cbn in Hy; try tauto. destruct Hy as [<-|[]]. eauto.
  - intros (v & s & H & ->). exists (Var v s). cbn. auto.
Qed.
Definition has_var (ts : list term) : bool := existsb (fun t => match t with Var _ _ => true | _ => false end) ts.
Definition edges_of (f : formula) : list (list string) := flat_map (fun a => match a with Atom _ ts => if has_var ts then [atom_edge ts] else [] | _ => [] end) (atoms_of f).
Lemma atom_edge_nil ts : atom_edge ts = [] <-> has_var ts = false.
Proof.
  split; intros H.
  - destruct (has_var ts) eqn:E; [|auto]. exfalso. unfold has_var in E. apply existsb_exists in E as ([v s| | |] & Ht & Hv); try discriminate.
    assert (X : In (drop_first v) (atom_edge ts)) by (apply atom_edge_In; eauto). rewrite H in X. destruct X.
  - destruct (atom_edge ts) as [|y l] eqn:E; [auto|]. exfalso. assert (X : In y (atom_edge ts)) by (rewrite E; now left). apply atom_edge_In in X as (v & s & Hv & _).
    assert (has_var ts = true); [|congruence]. apply existsb_exists. exists (Var v s). auto.
Qed.
Lemma collect_spec f : wf f = true -> conjunctive_query f = true -> forall edges, NoDup edges -> exists h, collect_hyperedges f edges = Ok h /\ NoDup h /\ forall e, In e h <-> In e edges \/ In e (edges_of f).
Proof.
  induction f as [| |p ts|c fs IH|q vs g IH] using formula_ind_simple; intros W Q edges N; try discriminate.
  - cbn [collect_hyperedges]. rewrite is_simple_plain. cbn in Q. rewrite Q. unfold edges_of. cbn [atoms_of flat_map]. rewrite app_nil_r. destruct (has_var ts) eqn:E.
    + assert (X : atom_edge ts <> []) by (intros X; apply atom_edge_nil in X; congruence). destruct (atom_edge ts) as [|y l] eqn:Ea; [congruence|].
      eexists. split; [reflexivity|]. split; [now apply add_edge_NoDup|]. intros e. rewrite add_edge_In. cbn. firstorder.
    + apply atom_edge_nil in E. rewrite E. exists edges. split; [reflexivity|]. split; [auto|]. cbn. tauto.
  - destruct c; try discriminate.
    + assert (Wf : forallb wf fs = true). { apply wf_Comp in W as [_ W]. apply forallb_forall. rewrite Forall_forall in W. auto. }
      cbn [conjunctive_query] in Q. clear W. unfold edges_of. cbn [atoms_of]. revert edges N. induction fs as [|f fs IHl]; intros edges N; rewrite collect_And.
      * exists edges. cbn. split; [auto|]. split; [auto|]. tauto.
      * inversion IH as [|? ? I1 I2]; subst. cbn [forallb] in Q, Wf. apply andb_true_iff in Q as [Q1 Q2]. apply andb_true_iff in Wf as [W1 W2]. destruct (I1 W1 Q1 edges N) as (h & -> & Nh & Hh). cbn [bind].
        destruct (IHl I2 Q2 W2 h Nh) as (h' & E' & Nh' & Hh'). exists h'. split; [exact E'|]. split; [exact Nh'|]. intros e. rewrite Hh', Hh. cbn [flat_map]. rewrite flat_map_app, in_app_iff. unfold edges_of. tauto.
    + apply wf_Not in W as (g & -> & Wg). inversion IH as [|? ? I1 _]; subst. cbn [conjunctive_query] in Q. cbn [collect_hyperedges]. destruct (I1 Wg Q edges N) as (h & E & Nh & Hh). exists h. split; [exact E|]. split; [exact Nh|]. intros e. rewrite Hh. unfold edges_of. cbn [atoms_of flat_map]. rewrite app_nil_r. tauto.
Qed.
Lemma collect_fails f : wf f = true -> conjunctive_query f = false -> forall edges, exists e, collect_hyperedges f edges = Err e /\ (e = TarskiError \/ e = AssertionError).
Proof.
  induction f as [| |p ts|c fs IH|q vs g IH] using formula_ind_simple; intros W Q edges; try (eexists; split; [reflexivity|auto]; fail).
  - cbn [collect_hyperedges]. rewrite is_simple_plain. cbn in Q. rewrite Q. eauto.
  - destruct c; [|eexists; split; [reflexivity|auto]|].
    + assert (Wf : forallb wf fs = true). { apply wf_Comp in W as [_ W]. apply forallb_forall. rewrite Forall_forall in W. auto. }
      cbn [conjunctive_query] in Q. clear W. revert edges. induction fs as [|f fs IHl]; intros edges; rewrite collect_And; [discriminate|]. inversion IH as [|? ? I1 I2]; subst. cbn [forallb] in Q, Wf. apply andb_true_iff in Wf as [W1 W2].
      destruct (conjunctive_query f) eqn:E.
      * destruct (collect_hyperedges f edges) as [h|e] eqn:Ec; cbn [bind]; [apply IHl; auto|].
        assert (X := W1). clear IHl I1. exfalso. assert (G : forall f edges e, wf f = true -> conjunctive_query f = true -> collect_hyperedges f edges <> Err e).
        { clear. induction f as [| |p ts|c fs IH|q vs g IH] using formula_ind_simple; intros edges e W Q; try discriminate.
          - cbn [collect_hyperedges]. rewrite is_simple_plain. cbn in Q. rewrite Q. discriminate.
          - destruct c; try discriminate.
            + assert (Wf : forallb wf fs = true). { apply wf_Comp in W as [_ W]. apply forallb_forall. rewrite Forall_forall in W. auto. }
              cbn [conjunctive_query] in Q. clear W. revert edges. induction fs as [|f fs IHl]; intros edges; rewrite collect_And; [discriminate|]. inversion IH as [|? ? I1 I2]; subst. cbn [forallb] in Q, Wf. apply andb_true_iff in Q as [Q1 Q2]. apply andb_true_iff in Wf as [W1 W2].
              destruct (collect_hyperedges f edges) as [h|e'] eqn:Ec; cbn [bind]; [apply IHl; auto|]. exfalso. exact (I1 edges e' W1 Q1 Ec).
            + apply wf_Not in W as (g & -> & Wg). inversion IH as [|? ? I1 _]; subst. exact (I1 edges e Wg Q). }
        exact (G f edges e X E Ec).
      * destruct (I1 W1 eq_refl edges) as (e & -> & He). cbn [bind]. eauto.
    + apply wf_Not in W as (g & -> & Wg). inversion IH as [|? ? I1 _]; subst. exact (I1 Wg Q edges).
Qed.


Lemma drop_question x : drop_first ("?" ++ x) = x. Proof. reflexivity. Qed.
Lemma edge_mentions f p ts : question_marks f -> In (Atom p ts) (atoms_of f) -> forall x, In x (atom_edge ts) <-> mentions (Atom p ts) x.
Proof.
  intros Q H x. rewrite atom_edge_In. cbn [mentions]. split.
  - intros (v & s & Hv & ->). destruct (Q p ts v s H Hv) as (y & ->). exists s. exact Hv.
  - intros (s & Hs). exists ("?" ++ x), s. auto.
Qed.
Lemma atoms_atom f a : In a (atoms_of f) -> exists p ts, a = Atom p ts.
Proof.
  induction f as [| |p ts|c fs IH|q vs g IH] using formula_ind_simple; cbn [atoms_of]; intros H; try destruct H.
  - subst. eauto.
  - destruct H.
  - apply in_flat_map in H as (g & Hg & H). rewrite Forall_forall in IH. eauto.
  - auto.
Qed.
Lemma insert_sorted a l : StronglySorted (fun x y => String.leb x y = true) l -> StronglySorted (fun x y => String.leb x y = true) (insert a l).
Proof.
  induction 1 as [|b l S IH F]; cbn [insert]; [repeat constructor|]. destruct (String.leb a b) eqn:E.
  - constructor; [now constructor|]. constructor; [exact E|]. rewrite Forall_forall in F |- *. intros x Hx. eapply leb_trans; eauto.
  - constructor; [exact IH|]. rewrite Forall_forall in F |- *. intros x Hx. apply insert_In in Hx as [->|Hx]; [|auto]. destruct (String.leb_total a b); congruence.
Qed.
Lemma sorted_sorted l : StronglySorted (fun x y => String.leb x y = true) (sorted l).
Proof. induction l as [|a l IH]; cbn [sorted]; [constructor|]. now apply insert_sorted. Qed.
Lemma insert_perm a l : Permutation (insert a l) (a :: l).
Proof. induction l as [|b l IH]; cbn [insert]; [auto|]. destruct String.leb; [auto|]. etransitivity; [apply perm_skip, IH|]. apply perm_swap. Qed.
Lemma sorted_permutation l : Permutation (sorted l) l.
Proof. induction l as [|a l IH]; cbn [sorted]; [auto|]. etransitivity; [apply insert_perm|]. now apply perm_skip. Qed.
Lemma atom_edge_NoDup ts : NoDup (atom_edge ts).
Proof. unfold atom_edge. eapply Permutation_NoDup; [symmetry; apply sorted_permutation|]. apply NoDup_nodup. Qed.
Lemma edges_of_In f e : In e (edges_of f) -> exists p ts, In (Atom p ts) (atoms_of f) /\ has_var ts = true /\ e = atom_edge ts.
Proof.
  unfold edges_of. intros H. apply in_flat_map in H as (a & Ha & He). destruct a as [| |p ts| |]; try destruct He. destruct (has_var ts) eqn:E; [|destruct He]. destruct He as [<-|[]]. eauto.
Qed.
Lemma edges_of_intro f p ts : In (Atom p ts) (atoms_of f) -> has_var ts = true -> In (atom_edge ts) (edges_of f).
Proof. intros H E. apply in_flat_map. exists (Atom p ts). split; [exact H|]. rewrite E. now left. Qed.

(** The hypergraph exists exactly for conjunctive queries; its edges are exactly the sets of variables of the atoms that have some, each set once. *)
Theorem C52_hypergraph a : wf (a_pre a) = true -> question_marks (a_pre a) ->
  if conjunctive_query (a_pre a) then exists h, compute_schema_constraint_hypergraph a = Ok h /\ NoDup h /\
    (forall e, In e h -> NoDup e /\ e <> [] /\ exists atom, In atom (atoms_of (a_pre a)) /\ forall x, In x e <-> mentions atom x) /\
    (forall atom x, In atom (atoms_of (a_pre a)) -> mentions atom x -> exists e, In e h /\ forall y, In y e <-> mentions atom y) /\
    (forall e e', In e h -> In e' h -> (forall x, In x e <-> In x e') -> e = e')
  else exists e, compute_schema_constraint_hypergraph a = Err e /\ (e = TarskiError \/ e = AssertionError).
Proof.
  intros W Q. destruct (conjunctive_query (a_pre a)) eqn:C; [|exact (collect_fails _ W C [])].
  destruct (collect_spec _ W C [] (NoDup_nil _)) as (h & E & N & H). exists h. split; [exact E|]. split; [exact N|].
  assert (H' : forall e, In e h <-> In e (edges_of (a_pre a))) by (intros e; rewrite H; cbn; tauto). split.
  { intros e He. apply H' in He. apply edges_of_In in He as (p & ts & Ha & Hv & ->). split; [apply atom_edge_NoDup|]. split; [intros X; apply atom_edge_nil in X; congruence|]. exists (Atom p ts). split; [exact Ha|]. now apply edge_mentions with (a_pre a). }
  split.
  { intros atom x Ha M. destruct (atoms_atom _ _ Ha) as (p & ts & ->). exists (atom_edge ts). split; [|now apply edge_mentions with (a_pre a)]. apply H'. apply edges_of_intro with p; [exact Ha|]. destruct M as (s & Hs). apply existsb_exists. exists (Var ("?" ++ x) s). auto. }
  intros e e' He He' X. apply H' in He. apply H' in He'. apply edges_of_In in He as (p & ts & _ & _ & ->). apply edges_of_In in He' as (p' & ts' & _ & _ & ->). unfold atom_edge in *. apply sorted_perm. apply NoDup_Permutation; try apply NoDup_nodup. intros x. assert (Y := X x). rewrite !sorted_In in Y. exact Y.
Qed.

Lemma combinations_In u v l : In (u, v) (combinations l) -> In u l /\ In v l.
Proof. induction l as [|x l IH]; cbn [combinations]; [intros []|]. intros H. apply in_app_iff in H as [H|H]; [apply in_map_iff in H as (y & [= <- <-] & H); cbn; auto|apply IH in H as [A B]; cbn; auto]. Qed.
Lemma combinations_pair u v l : u <> v -> In u l -> In v l -> In (u, v) (combinations l) \/ In (v, u) (combinations l).
Proof.
  intros N. induction l as [|x l IH]; [intros []|]. cbn [combinations]. rewrite !in_app_iff. intros [->|A] [B|B]; [congruence| | |].
  - left. left. apply in_map_iff. eauto.
  - subst x. right. left. apply in_map_iff. eauto.
  - destruct (IH A B); auto.
Qed.
Lemma combinations_ordered u v l : StronglySorted (fun x y => String.leb x y = true) l -> NoDup l -> In (u, v) (combinations l) -> u <> v /\ String.leb u v = true.
Proof.
  intros S. induction S as [|x l S IH F]; cbn [combinations]; [intros _ []|]. intros N H. inversion N; subst. apply in_app_iff in H as [H|H]; [|now apply IH]. apply in_map_iff in H as (y & [= <- <-] & Hy). rewrite Forall_forall in F. split; [congruence|auto].
Qed.
(** The primal graph joins two different variables exactly when they occur together in an atom; each pair is listed once, in one direction. *)
Theorem C52_primal_graph a : wf (a_pre a) = true -> question_marks (a_pre a) ->
  if conjunctive_query (a_pre a) then exists g, compute_schema_primal_graph a = Ok g /\ NoDup g /\
    (forall u v, In (u, v) g \/ In (v, u) g <-> u <> v /\ exists atom, In atom (atoms_of (a_pre a)) /\ mentions atom u /\ mentions atom v) /\
    (forall u v, In (u, v) g -> ~ In (v, u) g)
  else exists e, compute_schema_primal_graph a = Err e /\ (e = TarskiError \/ e = AssertionError).
Proof.
  intros W Q. unfold compute_schema_primal_graph, compute_schema_constraint_hypergraph. destruct (conjunctive_query (a_pre a)) eqn:C.
  2:{ destruct (collect_fails _ W C []) as (e & -> & He). exists e. auto. }
  destruct (collect_spec _ W C [] (NoDup_nil _)) as (h & E & N & H). rewrite E. cbn [bind]. eexists. split; [reflexivity|]. split; [apply NoDup_nodup|].
  assert (H' : forall e, In e h <-> In e (edges_of (a_pre a))) by (intros e; rewrite H; cbn; tauto). unfold compute_primal_graph_from_hypergraph.
  assert (O : forall u v, In (u, v) (nodup pair_dec (flat_map combinations h)) -> u <> v /\ String.leb u v = true /\ exists p ts, In (Atom p ts) (atoms_of (a_pre a)) /\ In u (atom_edge ts) /\ In v (atom_edge ts)).
  { intros u v X. apply nodup_In in X. apply in_flat_map in X as (e & He & X). apply H' in He. apply edges_of_In in He as (p & ts & Ha & _ & ->). destruct (combinations_ordered u v (atom_edge ts) (sorted_sorted _) (atom_edge_NoDup ts) X) as [A B]. destruct (combinations_In _ _ _ X). split; [exact A|]. split; [exact B|]. eauto. }
  split.
  - intros u v. split.
    + intros [X|X]; apply O in X as (A & _ & p & ts & Ha & Hu & Hv); (split; [congruence|]); exists (Atom p ts); (split; [exact Ha|]); split; apply (edge_mentions _ _ _ Q Ha); auto.
    + intros (A & atom & Ha & Mu & Mv). destruct (atoms_atom _ _ Ha) as (p & ts & ->). rewrite !nodup_In, !in_flat_map. apply (edge_mentions _ _ _ Q Ha) in Mu. apply (edge_mentions _ _ _ Q Ha) in Mv.
      assert (He : In (atom_edge ts) h). { apply H'. apply edges_of_intro with p; [exact Ha|]. destruct (has_var ts) eqn:Ev; [auto|]. apply atom_edge_nil in Ev. rewrite Ev in Mu. destruct Mu. }
      destruct (combinations_pair u v (atom_edge ts) A Mu Mv); [left|right]; exists (atom_edge ts); auto.
  - intros u v X Y. apply O in X as (A & B & _). apply O in Y as (_ & B' & _). apply A. now apply String.leb_antisym.
Qed.

(** Hypergraphs whose edges are contained in each other's edges *)
Lemma numbered_from {A} (h : list (list A)) : forall n, ids (combine (seq n (List.length h)) h) = seq n (List.length h).
Proof. unfold ids. induction h as [|e h IH]; intros n; [auto|]. cbn. f_equal. apply IH. Qed.
Lemma numbered_app {A} (h h' : list (list A)) : numbered (h ++ h') = (numbered h ++ combine (seq (List.length h) (List.length h')) h')%list.
Proof.
  unfold numbered. rewrite app_length, seq_app. cbn [Nat.add]. generalize (seq (List.length h) (List.length h')) as r. generalize 0. induction h as [|e h IH]; intros n r; cbn; [auto|]. f_equal. apply IH.
Qed.
Lemma acyclic_red {A} (h : list (list A)) : acyclic h <-> red (numbered h).
Proof. unfold acyclic. symmetry. apply red_iff_tree. rewrite numbered_ids. apply seq_NoDup. Qed.
Lemma absorb {A} (F : list (nat * list A)) : forall G, NoDup (ids (F ++ G)) -> (forall i e, In (i, e) G -> exists k f, In (k, f) F /\ incl e f) -> red (F ++ G) <-> red F.
Proof.
  induction G as [|[i e] G IH]; intros N C; [rewrite app_nil_r; tauto|].
  assert (Z : forall l : list (nat * list A), ~ In i (ids l) -> rm i l = l). { clear. induction l as [|[j g] l IH]; [auto|]. cbn. intros H. destruct (Nat.eqb j i) eqn:Q; [apply Nat.eqb_eq in Q; subst; tauto|]. cbn. f_equal. apply IH. tauto. }
  destruct (C i e (or_introl eq_refl)) as (k & f & Hk & If).
  assert (N' := N). unfold ids in N'. rewrite map_app in N'. cbn [map fst] in N'.
  assert (Ri : rm i (F ++ (i, e) :: G) = (F ++ G)%list).
  { unfold rm. rewrite filter_app. cbn [filter fst]. rewrite Nat.eqb_refl. cbn [negb]. f_equal; apply Z; intros X.
    - apply (NoDup_app_disj _ _ i N' X). now left.
    - apply NoDup_app_r in N'. inversion N'; subst. auto. }
  assert (Er : ear (F ++ (i, e) :: G) i k). { split.
    - intros ->. apply (NoDup_app_disj _ _ k N'); [exact (in_map fst _ _ Hk)|now left].
    - exists e, f. split; [apply in_or_app; right; now left|]. split; [apply in_or_app; now left|]. intros v j g Hv _ _ _. auto. }
  rewrite (red_rm _ i k N Er), Ri. apply IH; [rewrite <- Ri; now apply rm_NoDup|]. intros j g Hg. apply (C j g). now right.
Qed.
Lemma in_numbered {A} (h : list (list A)) : forall n e, In e h -> exists i, In (i, e) (combine (seq n (List.length h)) h).
Proof. induction h as [|x h IH]; intros n e []; [subst; exists n; now left|]. destruct (IH (S n) e H) as (i & Hi). exists i. now right. Qed.
Lemma acyclic_app {A} (h h' : list (list A)) : (forall e, In e h' -> exists f, In f h /\ incl e f) -> acyclic (h ++ h') <-> acyclic h.
Proof.
  intros C. rewrite !acyclic_red, numbered_app. apply absorb.
  - rewrite <- numbered_app, numbered_ids. apply seq_NoDup.
  - intros i e H. apply in_combine_r in H. destruct (C e H) as (f & Hf & If). destruct (in_numbered h 0 f Hf) as (k & Hk). exists k, f. auto.
Qed.
Lemma in_combine_seq {A} (h : list A) : forall n i e, In (i, e) (combine (seq n (List.length h)) h) <-> n <= i /\ nth_error h (i - n) = Some e.
Proof.
  induction h as [|x h IH]; intros n i e; cbn [List.length seq combine].
  - split; [intros []|]. intros [_ H]. destruct (i - n); discriminate.
  - cbn [In]. rewrite IH. split.
    + intros [[= <- <-]|[L H]]; [rewrite Nat.sub_diag; auto|]. split; [lia|]. replace (i - n) with (S (i - S n)) by lia. exact H.
    + intros [L H]. destruct (Nat.eq_dec i n) as [->|Hn]; [rewrite Nat.sub_diag in H; injection H as ->; auto|]. right. split; [lia|]. replace (i - n) with (S (i - S n)) in H by lia. exact H.
Qed.
Lemma acyclic_comm {A} (h h' : list (list A)) : acyclic (h ++ h') -> acyclic (h' ++ h).
Proof.
  rewrite !acyclic_red. intros R. assert (NI : forall x : list (list A), NoDup (ids (numbered x))) by (intros x; rewrite numbered_ids; apply seq_NoDup).
  assert (P : forall (h h' : list (list A)) i e, In (i, e) (numbered (h ++ h')) -> (i < List.length h /\ nth_error h i = Some e) \/ (List.length h <= i /\ nth_error h' (i - List.length h) = Some e)).
  { clear. intros h h' i e H. unfold numbered in H. apply in_combine_seq in H as [_ H]. rewrite Nat.sub_0_r in H. destruct (Nat.lt_ge_cases i (List.length h)) as [L|L]; [left|right]; (split; [exact L|]); [rewrite nth_error_app1 in H by exact L|rewrite nth_error_app2 in H by exact L]; exact H. }
  assert (P' : forall (h h' : list (list A)) i e, (i < List.length h /\ nth_error h i = Some e) \/ (List.length h <= i /\ nth_error h' (i - List.length h) = Some e) -> In (i, e) (numbered (h ++ h'))).
  { clear. intros h h' i e H. unfold numbered. apply in_combine_seq. split; [lia|]. rewrite Nat.sub_0_r. destruct H as [[L H]|[L H]]; [rewrite nth_error_app1 by exact L|rewrite nth_error_app2 by exact L]; exact H. }
  set (n := List.length h) in *. set (m := List.length h') in *.
  apply (red_iso _ R _ (fun x => (if Nat.ltb (fst x) n then fst x + m else fst x - n, snd x))); auto.
  - intros [i e] H. apply P in H. apply P'. cbn [fst snd]. fold n in H. fold m. destruct H as [[L H]|[L H]].
    + right. rewrite (proj2 (Nat.ltb_lt _ _) L). split; [lia|]. replace (i + m - m) with i by lia. exact H.
    + left. destruct (Nat.ltb i n) eqn:X; [apply Nat.ltb_lt in X; lia|]. split; [|exact H]. apply nth_error_Some. congruence.
  - intros [i e] H. apply P in H. fold m in H. destruct H as [[L H]|[L H]].
    + exists (i + n, e). split; [apply P'; right; fold n; split; [lia|]; replace (i + n - n) with i by lia; exact H|]. cbn [fst snd]. destruct (Nat.ltb (i + n) n) eqn:X; [apply Nat.ltb_lt in X; lia|]. f_equal. lia.
    + assert (L' : i - m < n) by (apply nth_error_Some; congruence). exists (i - m, e). split; [apply P'; left; fold n; auto|]. cbn [fst snd]. rewrite (proj2 (Nat.ltb_lt _ _) L'). f_equal. lia.
  - intros [i e] [j e'] H H'. apply P in H. apply P in H'. fold n in H, H'. cbn [fst]. assert (Li : i < n + m). { destruct H as [[L _]|[L H]]; [lia|]. assert (i - n < m) by (apply nth_error_Some; congruence). lia. } assert (Lj : j < n + m). { destruct H' as [[L _]|[L H']]; [lia|]. assert (j - n < m) by (apply nth_error_Some; congruence). lia. }
    destruct (Nat.ltb_spec i n), (Nat.ltb_spec j n); lia.
  - intros [i e] [j e'] _ _ _ v. cbn [fst snd]. tauto.
Qed.
Lemma acyclic_mutual {A} (h h' : list (list A)) : (forall e, In e h' -> exists f, In f h /\ incl e f) -> (forall e, In e h -> exists f, In f h' /\ incl e f) -> acyclic h <-> acyclic h'.
Proof. intros C C'. rewrite <- (acyclic_app h h' C), <- (acyclic_app h' h C'). split; apply acyclic_comm. Qed.
Lemma acyclic_small {A} (h : list (list A)) : List.length h <= 1 -> acyclic h.
Proof. intros L. apply acyclic_red, red_small. unfold numbered. rewrite combine_length, seq_length. lia. Qed.
Lemma numbered_map {A B} (f : list A -> list B) h : forall n, combine (seq n (List.length (map f h))) (map f h) = map (fun x => (fst x, f (snd x))) (combine (seq n (List.length h)) h).
Proof. induction h as [|e h IH]; intros n; cbn; [auto|]. f_equal. apply IH. Qed.
Lemma acyclic_map {A B} (f : A -> B) (h : list (list A)) : (forall x y, f x = f y -> x = y) -> acyclic (map (map f) h) <-> acyclic h.
Proof.
  intros I. unfold acyclic. assert (HH : forall v i, holds (numbered (map (map f) h)) v i <-> exists w, v = f w /\ holds (numbered h) w i).
  { intros v i. unfold holds, numbered. rewrite numbered_map. split.
    - intros (e & He & Hv). apply in_map_iff in He as ([j g] & [= <- <-] & Hg). apply in_map_iff in Hv as (w & <- & Hw). eauto.
    - intros (w & -> & e & He & Hw). exists (map f e). split; [apply in_map_iff; exists (i, e); auto|now apply in_map]. }
  assert (HI : ids (numbered (map (map f) h)) = ids (numbered h)) by (rewrite !numbered_ids, map_length; auto).
  assert (HL : List.length (numbered (map (map f) h)) = List.length (numbered h)) by (unfold numbered; rewrite !combine_length, !seq_length, map_length; auto).
  split; intros (T & [J1 J2 J3 J4]); exists T; constructor; rewrite ?HI, ?HL in *; auto.
  - intros v i j Hi Hj. assert (X := J4 (f v) i j). apply (linked_mono T T (holds (numbered (map (map f) h)) (f v))); [apply incl_refl| |apply X; apply HH; eauto]. intros x Hx. apply HH in Hx as (w & E & Hw). apply I in E as <-. exact Hw.
  - intros v i j Hi Hj. apply HH in Hi as (w & -> & Hi). apply HH in Hj as (w' & E & Hj). apply I in E as <-. apply (linked_mono T T (holds (numbered h) w)); [apply incl_refl| |apply J4; auto]. intros x Hx. apply HH. eauto.
Qed.
Lemma has_var_names p ts : has_var ts = true <-> variables_of_atom (Atom p ts) <> [].
Proof.
  cbn [variables_of_atom]. induction ts as [|t ts IH]; cbn; [split; congruence|]. destruct t; cbn; try (rewrite IH; tauto). split; [discriminate|auto].
Qed.
(** The acyclicity test, applied to the hypergraph of the schema, decides whether the atoms of the precondition have a join tree, in whatever order the sets are iterated. *)
Theorem C52_acyclic a h order : wf (a_pre a) = true -> question_marks (a_pre a) -> compute_schema_constraint_hypergraph a = Ok h -> (forall k l, Permutation (order k l) l) ->
  exists b, check_hypergraph_acyclicity String.eqb order h = Ok b /\ (b = true <-> acyclic_query (a_pre a)).
Proof.
  intros W Q E P. destruct (C36_acyclicity String.eqb order h (fun x y => String.eqb_eq x y) P) as (b & Eb & Hb). exists b. split; [exact Eb|]. rewrite Hb. clear b Eb Hb order P. unfold acyclic_query.
  assert (C : conjunctive_query (a_pre a) = true). { destruct (conjunctive_query (a_pre a)) eqn:C; [auto|]. destruct (collect_fails _ W C []) as (e & X & _). unfold compute_schema_constraint_hypergraph in E. congruence. }
  destruct (collect_spec _ W C [] (NoDup_nil _)) as (h' & E' & _ & H'). unfold compute_schema_constraint_hypergraph in E. rewrite E in E'. injection E' as <-.
  assert (H : forall e, In e h <-> In e (edges_of (a_pre a))) by (intros e; rewrite H'; cbn; tauto). clear H'.
  rewrite <- (acyclic_map (fun x => "?" ++ x) h) by (intros x y X; injection X; auto).
  assert (EV : forall p ts, In (Atom p ts) (atoms_of (a_pre a)) -> forall v, In v (map (fun x => "?" ++ x) (atom_edge ts)) <-> In v (variables_of_atom (Atom p ts))).
  { intros p ts Ha v. cbn [variables_of_atom]. rewrite in_map_iff, in_flat_map. split.
    - intros (x & <- & Hx). apply (edge_mentions _ _ _ Q Ha) in Hx as (s & Hs). exists (Var ("?" ++ x) s). split; [exact Hs|now left].
    - intros ([y s| | |] & Ht & Hv); try destruct Hv; [|destruct H0]. subst y. destruct (Q p ts v s Ha Ht) as (x & ->). exists x. split; [auto|]. apply atom_edge_In. exists ("?" ++ x), s. auto. }
  destruct h as [|e0 h0] eqn:Eh.
  - split; intros _; [|apply acyclic_small; cbn; lia]. assert (A : forall a', In a' (atoms_of (a_pre a)) -> variables_of_atom a' = []).
    { intros a' Ha. destruct (atoms_atom _ _ Ha) as (p & ts & ->). destruct (variables_of_atom (Atom p ts)) as [|v l] eqn:Ev; [auto|]. exfalso. apply (proj2 (H (atom_edge ts))). apply edges_of_intro with p; [exact Ha|]. apply (has_var_names p). rewrite Ev. discriminate. }
    destruct (atoms_of (a_pre a)) as [|a0 l0] eqn:El; [apply acyclic_small; cbn; lia|]. rewrite <- El in *. apply (acyclic_mutual [[]]); [| |apply acyclic_small; cbn; lia].
    + intros e He. apply in_map_iff in He as (a' & <- & Ha). exists []. split; [now left|]. rewrite (A a' Ha). apply incl_refl.
    + intros e [<-|[]]. exists (variables_of_atom a0). split; [apply in_map; rewrite El; now left|]. intros x [].
  - assert (H0 : In e0 h) by (rewrite Eh; now left). rewrite <- Eh in *. clear Eh. apply acyclic_mutual.
    + intros e He. apply in_map_iff in He as (a' & <- & Ha). destruct (atoms_atom _ _ Ha) as (p & ts & ->). destruct (has_var ts) eqn:Ev.
      * exists (map (fun x => "?" ++ x) (atom_edge ts)). split; [apply in_map, H, edges_of_intro with p; auto|]. intros v Hv. now apply (EV p ts Ha).
      * assert (X : variables_of_atom (Atom p ts) = []). { destruct (variables_of_atom (Atom p ts)) eqn:X; [auto|]. exfalso. assert (has_var ts = true); [|congruence]. apply (has_var_names p). rewrite X. discriminate. }
        rewrite X. exists (map (fun x => "?" ++ x) e0). split; [now apply in_map|intros x []].
    + intros e He. apply in_map_iff in He as (e' & <- & He). apply H, edges_of_In in He as (p & ts & Ha & _ & ->). exists (variables_of_atom (Atom p ts)). split; [now apply in_map|]. intros v Hv. now apply (EV p ts Ha).
Qed.

(** An instance: drive(?t, ?a, ?b) with two literals over the same variables, one with a constant and one without variables; it is cyclic when the literal with all three variables is left out. *)
Definition vt : term := Var "?t" "truck". Definition va : term := Var "?a" "place". Definition vb : term := Var "?b" "place". Definition home : term := Cst (CStr "home") "place".
Definition at_ := PU "at" ["truck"; "place"]. Definition road := PU "road" ["place"; "place"]. Definition trip := PU "trip" ["truck"; "place"; "place"].
Definition drive (fs : list formula) : action := {| a_name := "drive"; a_params := [vt; va; vb]; a_pre := Comp And fs; a_effs := [] |}.
Definition tri : list formula := [Atom at_ [vt; va]; Comp Not [Atom at_ [vt; vb]]; Comp And [Atom road [vb; va]; Atom road [va; vb]]; Atom road [home; va]; Atom road [home; home]].
Example C52_nonvacuous : let a := drive tri in wf (a_pre a) = true /\ question_marks (a_pre a) /\ conjunctive_query (a_pre a) = true /\
  compute_schema_constraint_hypergraph a = Ok [["a"; "t"]; ["b"; "t"]; ["a"; "b"]; ["a"]] /\ compute_schema_primal_graph a = Ok [("a", "t"); ("b", "t"); ("a", "b")] /\
  check_hypergraph_acyclicity String.eqb (fun _ l => l) [["a"; "t"]; ["b"; "t"]; ["a"; "b"]; ["a"]] = Ok false /\
  exists h, compute_schema_constraint_hypergraph (drive (tri ++ [Atom trip [vt; va; vb]])) = Ok h /\ check_hypergraph_acyclicity String.eqb (fun _ l => l) h = Ok true.
Proof.
  split; [reflexivity|]. split.
  { intros p ts v s H Hv. cbn in H. repeat (destruct H as [H|H]; [injection H as <- <-; cbn in Hv; repeat (destruct Hv as [Hv|Hv]; [try discriminate Hv; injection Hv as <- <-; eexists; reflexivity|]); destruct Hv|]). destruct H. }
  split; [reflexivity|]. split; [vm_compute; reflexivity|]. split; [vm_compute; reflexivity|]. split; [vm_compute; reflexivity|]. eexists. split; [vm_compute; reflexivity|vm_compute; reflexivity].
Qed.
(** The first character of a variable's name is dropped whatever it is: variables x1 and y1 (not written with a question mark) are identified. *)
Theorem C52_names_refuted : exists a, wf (a_pre a) = true /\ conjunctive_query (a_pre a) = true /\ a_pre a = Atom road [Var "x1" "place"; Var "y1" "place"] /\
  compute_schema_constraint_hypergraph a = Ok [["1"]] /\ compute_schema_primal_graph a = Ok [].
Proof. exists {| a_name := "a"; a_params := []; a_pre := Atom road [Var "x1" "place"; Var "y1" "place"]; a_effs := [] |}. repeat split. Qed.
(** An action without a precondition is not accepted, although the empty conjunction is. *)
Theorem C52_no_precondition_refuted a : a_pre a = Top -> compute_schema_constraint_hypergraph a = Err TarskiError.
Proof. intros E. unfold compute_schema_constraint_hypergraph. now rewrite E. Qed.
