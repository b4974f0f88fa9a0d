(** C25: breadth-first search *)
From Verif Require Import ListUtil Base Syntax SemLemmas ModelState ModelSpec ModelProofs ModelText ModelTextSpec ModelTextProofs Eval Subst SubstProofs QElim Effects ProgressSpec StateLemmas ProgressProofs Bfs BfsProofs SearchModel SearchModelProofs.
#[local] Open Scope string_scope.

Section C25.
Context {St : Type} (eqb : St -> St -> bool) (goal : St -> res bool) (succ : St -> res (list St)) (root : St).
(** A search that reports completeness has expanded every reachable state exactly once, by increasing distance, and counted every goal. *)
Theorem C25_exhaustive mx fuel o : equivalence eqb -> congruent eqb succ root -> search eqb goal succ mx fuel root = Ok o -> complete o = true ->
  distinct eqb (expanded o) /\ (forall s, In s (expanded o) -> reachable succ root s) /\ (forall s, reachable succ root s -> exists s', In s' (expanded o) /\ eqb s' s = true) /\
  (exists ds, Forall2 (distance eqb succ root) (expanded o) ds /\ ForallOrdPairs le ds) /\
  nexpansions o = List.length (expanded o) /\ iterations o = List.length (expanded o) /\
  exists gs, mapM goal (expanded o) = Ok gs /\ num_goals o = List.length (filter (fun b => b) gs).
Proof.
  intros EQ CG H Hc. destruct (search_result eqb goal succ root EQ mx fuel o H) as (vt & vo & cl & I & Ex & En & Eg & [(_ & -> & Ei & Eo & _)|(X & _)]); [|congruence].
  assert (Di := i_distinct _ _ _ _ _ _ I). rewrite app_nil_r in Di. rewrite Ex. split; [auto|]. split; [|split; [|split; [|split; [|split]]]].
  - intros s Hs. apply in_map_iff in Hs as ([s' d] & <- & Hs). exists d. apply (i_reach _ _ _ _ _ _ I). rewrite app_nil_r. auto.
  - intros s [n Hn]. destruct (closed_complete eqb succ root EQ CG vt cl I n s Hn) as (v & d & Hv & E & _). exists v. split; [|auto]. apply in_map_iff. exists (v, d). auto.
  - exists (map snd vt). assert (So := i_sorted _ _ _ _ _ _ I). rewrite app_nil_r in So. split; [|auto]. assert (Hd := closed_distance eqb succ root EQ CG vt cl I). clear - Hd. induction vt as [|[s d] vt IH]; cbn; constructor; [apply Hd; cbn; auto|apply IH; intros; apply Hd; cbn; auto].
  - rewrite En. symmetry. apply map_length.
  - rewrite Ei. symmetry. apply map_length.
  - rewrite Eo. clear - Eg. induction (map fst vt) as [|s l IH]; [exists []; auto|]. destruct IH as (gs & E1 & E2); [intros; apply Eg; cbn; auto|]. destruct (Eg s (or_introl eq_refl)) as [b Eb]. exists (b :: gs). cbn [mapM]. rewrite Eb, E1. split; [auto|].
    unfold goal_count in *. cbn [filter]. unfold goal_true at 1. rewrite Eb. destruct b; cbn; auto.
Qed.
(** Without a bound the search reports completeness. *)
Theorem C25_unbounded_complete mx fuel o : equivalence eqb -> (mx < 0)%Z -> search eqb goal succ mx fuel root = Ok o -> complete o = true.
Proof.
  intros EQ Hm H. destruct (search_result eqb goal succ root EQ mx fuel o H) as (vt & vo & cl & I & _ & _ & _ & [(X & _)|(_ & X & _)]); [auto|lia].
Qed.
(** It terminates whenever finitely many states are reachable and the search model raises no exception on them. *)
Theorem C25_terminates mx N : equivalence eqb -> finitely_many eqb succ root N -> (forall s, reachable succ root s -> is_ok (goal s) = true /\ is_ok (succ s) = true) ->
  exists fuel o, search eqb goal succ mx fuel root = Ok o.
Proof.
  intros EQ HN HT. exists (S N). apply (loop_terminates eqb goal succ root EQ mx N HN HT (S N) [] [(root, 0)] [root]); [apply init_inv; auto|cbn; lia].
Qed.
(** With a bound at most that many states are expanded; when completeness is not reported, exactly that many were, each once, and a further state is reachable. *)
Theorem C25_bounded mx fuel o : equivalence eqb -> (0 <= mx)%Z -> search eqb goal succ mx fuel root = Ok o ->
  (Z.of_nat (nexpansions o) <= mx)%Z /\ nexpansions o = List.length (expanded o) /\
  (complete o = false -> Z.of_nat (nexpansions o) = mx /\ distinct eqb (expanded o) /\ (forall s, In s (expanded o) -> reachable succ root s) /\
     exists s, reachable succ root s /\ forall s', In s' (expanded o) -> eqb s' s = false).
Proof.
  intros EQ Hm H. destruct (search_result eqb goal succ root EQ mx fuel o H) as (vt & vo & cl & I & Ex & En & _ & X). rewrite Ex, map_length, En.
  destruct X as [(Hc & -> & _ & _ & Hb)|(Hc & _ & Hb & s & d & vo'' & -> & _)].
  - split; [auto|]. split; [auto|]. congruence.
  - split; [lia|]. split; [auto|]. intros _. split; [auto|]. assert (Di := i_distinct _ _ _ _ _ _ I). rewrite map_app in Di. split; [eapply FOP_app_l; exact Di|]. split.
    + intros x Hx. apply in_map_iff in Hx as ([x' dx] & <- & Hx). exists dx. apply (i_reach _ _ _ _ _ _ I). apply in_or_app. auto.
    + exists s. split; [exists d; apply (i_reach _ _ _ _ _ _ I); apply in_or_app; right; left; auto|]. intros x Hx. cbn [map fst] in Di. revert Di Hx. generalize (map fst vt) as L. induction L as [|a L IH]; intros Di Hx; [destruct Hx|].
      inversion Di as [|? ? F Di']; subst. destruct Hx as [->|Hx]; [|auto]. rewrite Forall_forall in F. apply F. apply in_or_app. right. left. auto.
Qed.
End C25.
(** The ground search model: for every ground problem with add/delete effects over an unambiguous vocabulary, unbounded search terminates, reports completeness, and
    visits exactly the reachable states in the sense of [C25_exhaustive]. *)
Theorem C25_ground_problems D sub iops ops goal mx : forallb op_constants iops = true -> Forall (ground_operator sub) ops -> unambiguous (iops ++ flat_map op_history ops) -> ground_cond goal = true -> (mx < 0)%Z ->
  let root := mrun sub iops empty_model in let succ := gm_successors D sub ops in
  exists fuel o, search model_eq (gm_is_goal goal) succ mx fuel root = Ok o /\ complete o = true /\
    distinct model_eq (expanded o) /\ (forall s, In s (expanded o) -> reachable succ root s) /\ (forall s, reachable succ root s -> exists s', In s' (expanded o) /\ same_state s' s) /\
    (exists gs, mapM (gm_is_goal goal) (expanded o) = Ok gs /\ num_goals o = List.length (filter (fun b => b) gs)).
Proof.
  intros Hc Ho U Hg Hm root succ. assert (EQ := model_eq_equivalence). assert (CG := gm_congruent D sub iops ops Hc Ho U).
  destruct (C25_terminates model_eq (gm_is_goal goal) succ root mx _ EQ (gm_finite D sub iops ops Hc Ho) (fun s Rs => gm_total D sub iops ops Ho goal s Hg Rs)) as (fuel & o & H).
  exists fuel, o. assert (C := C25_unbounded_complete model_eq (gm_is_goal goal) succ root mx fuel o EQ Hm H). destruct (C25_exhaustive model_eq (gm_is_goal goal) succ root mx fuel o EQ CG H C) as (X1 & X2 & X3 & _ & _ & _ & X7).
  split; [auto|]. split; [auto|]. split; [auto|]. split; [auto|]. split; [|auto]. intros s Hs. destruct (X3 s Hs) as (s' & Hs' & E). exists s'. split; [auto|]. apply (eq_same sub iops ops U); [| |auto]; apply (reach_J D sub iops ops Hc Ho); auto.
Qed.

(** A concrete problem: two locations, a move in each direction. *)
Definition la := Cst (CStr "a") "loc".
Definition lb := Cst (CStr "b") "loc".
Definition pAt := PU "at" ["loc"].
Definition mv (x y : term) : operator := {| op_pre := Atom pAt [x]; op_effs := [EAdd Top (Atom pAt [y]); EDel Top (Atom pAt [x])] |}.
Example C25_problem : forallb op_constants [OAdd pAt [la]] = true /\ Forall (ground_operator String.eqb) [mv la lb; mv lb la] /\ unambiguous ([OAdd pAt [la]] ++ flat_map op_history [mv la lb; mv lb la]) /\
  exists o, search model_eq (gm_is_goal (Atom pAt [lb])) (gm_successors (fun _ => None) String.eqb [mv la lb; mv lb la]) (-1) 3 (mrun String.eqb [OAdd pAt [la]] empty_model) = Ok o /\
    complete o = true /\ nexpansions o = 2 /\ num_goals o = 1.
Proof.
  split; [reflexivity|]. split; [|split; [|eexists; repeat split; reflexivity]].
  - assert (WT : forall x, x = la \/ x = lb -> well_typed_args String.eqb pAt [x]) by (intros x [-> | ->] m; reflexivity).
    repeat constructor; cbn; eexists _, pAt, _; (split; [|left; split; [reflexivity|apply WT; auto]] || (split; [|right; reflexivity])); reflexivity.
  - split; cbn.
    + intros o p H E. repeat destruct H as [<-|H]; try contradiction; injection E as <-; reflexivity.
    + intros o f H E. repeat destruct H as [<-|H]; try contradiction; discriminate.
    + intros o o' n ss ss' H H' E E'. repeat destruct H as [<-|H]; try contradiction; repeat destruct H' as [<-|H']; try contradiction; injection E as <- <-; injection E' as <-; reflexivity.
    + intros o o' n d c d' c' H H' E E'. repeat destruct H as [<-|H]; try contradiction; discriminate.
    + intros o t H Ht. repeat destruct H as [<-|H]; try contradiction; cbn in Ht; destruct Ht as [<-|[]]; split; reflexivity.
    + intros o o' t t' H H' Ht Ht' E. repeat destruct H as [<-|H]; try contradiction; repeat destruct H' as [<-|H']; try contradiction; cbn in Ht, Ht'; destruct Ht as [<-|[]]; destruct Ht' as [<-|[]]; cbn in E; try reflexivity; discriminate.
Qed.
Print Assumptions C25_exhaustive. Print Assumptions C25_unbounded_complete. Print Assumptions C25_terminates. Print Assumptions C25_bounded. Print Assumptions C25_ground_problems.
