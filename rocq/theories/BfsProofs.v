From Verif Require Import ListUtil Base Bfs.
Section P.
Context {St : Type} (eqb : St -> St -> bool) (goal : St -> res bool) (succ : St -> res (list St)) (root : St).
Hypothesis EQ : equivalence eqb.
Notation reach_in := (reach_in succ root).
Notation distinct := (distinct eqb).
Notation mem := (mem eqb).
Lemma eq_refl' a : eqb a a = true. Proof. destruct EQ as (A & B & C). auto. Qed.
Lemma eq_sym' a b : eqb a b = true -> eqb b a = true. Proof. destruct EQ as (A & B & C). auto. Qed.
Lemma eq_trans' a b c : eqb a b = true -> eqb b c = true -> eqb a c = true. Proof. destruct EQ as (A & B & C). eauto. Qed.
Lemma mem_iff x l : mem x l = true <-> exists y, In y l /\ eqb y x = true.
Proof. unfold Bfs.mem. rewrite existsb_exists. reflexivity. Qed.
Lemma FOP_snoc {A} (R : A -> A -> Prop) l x : ForallOrdPairs R l -> (forall y, In y l -> R y x) -> ForallOrdPairs R (l ++ [x]).
Proof.
  induction 1 as [|a l F H IH]; intros Hx; cbn; [repeat constructor|]. constructor.
  - apply Forall_app. split; [auto|]. constructor; [apply Hx; cbn; auto|constructor].
  - apply IH. intros. apply Hx. cbn. auto.
Qed.
Lemma FOP_app_l {A} (R : A -> A -> Prop) l l' : ForallOrdPairs R (l ++ l') -> ForallOrdPairs R l.
Proof. induction l as [|a l IH]; intros H; [constructor|]. inversion H; subst. apply Forall_app in H2 as [? ?]. constructor; auto. Qed.

(** Discovered states with their depths: [vt] expanded, [vo] open. *)
Record inv (vt vo : list (St * nat)) (closed : list St) : Prop := {
  i_reach : forall s d, In (s, d) (vt ++ vo) -> reach_in d s;
  i_distinct : distinct (map fst (vt ++ vo));
  i_sorted : ForallOrdPairs le (map snd (vt ++ vo));
  i_last : forall s d, In (s, d) (vt ++ vo) -> forall s0 d0, hd_error vo = Some (s0, d0) -> d <= S d0;
  i_closed : forall x, In x closed <-> In x (map fst (vt ++ vo));
  i_succ : forall s d, In (s, d) vt -> exists l, succ s = Ok l /\ forall s', In s' l -> exists v d', In (v, d') (vt ++ vo) /\ eqb v s' = true /\ d' <= S d;
  i_root : In (root, 0) (vt ++ vo)
}.
(** One expansion: [vt] is the list before, [s0] is being expanded at depth [d0]. *)
Lemma push_inv : forall ss vt vo closed s0 d0 lall pre, succ s0 = Ok lall -> lall = pre ++ ss ->
  (forall s d, In (s, d) (vt ++ vo) -> reach_in d s) -> In (s0, d0) vt -> distinct (map fst (vt ++ vo)) -> ForallOrdPairs le (map snd (vt ++ vo)) ->
  (forall s d, In (s, d) (vt ++ vo) -> d <= S d0) -> (forall x, In x closed <-> In x (map fst (vt ++ vo))) ->
  (forall s', In s' pre -> exists v d', In (v, d') (vt ++ vo) /\ eqb v s' = true /\ d' <= S d0) ->
  exists vo', fst (push eqb ss (map fst vo) closed) = map fst vo' /\ (exists ext, vo' = vo ++ ext) /\
  (forall s d, In (s, d) (vt ++ vo') -> reach_in d s) /\ distinct (map fst (vt ++ vo')) /\ ForallOrdPairs le (map snd (vt ++ vo')) /\
  (forall s d, In (s, d) (vt ++ vo') -> d <= S d0) /\ (forall x, In x (snd (push eqb ss (map fst vo) closed)) <-> In x (map fst (vt ++ vo'))) /\
  (forall s', In s' lall -> exists v d', In (v, d') (vt ++ vo') /\ eqb v s' = true /\ d' <= S d0).
Proof.
  induction ss as [|s ss IH]; intros vt vo closed s0 d0 lall pre Hs Hl Hr Hin Hd Hso Hle Hc Hp.
  - exists vo. rewrite app_nil_r in Hl. subst pre. split; [reflexivity|]. split; [exists []; now rewrite app_nil_r|]. auto 9.
  - cbn [push]. destruct (mem s closed) eqn:E.
    + apply (IH vt vo closed s0 d0 lall (pre ++ [s])); auto; [rewrite <- app_assoc; auto|]. intros s' Hs'. apply in_app_or in Hs' as [Hs'|[<-|[]]]; [auto|].
      apply mem_iff in E as (y & Hy & Ey). apply Hc in Hy. apply in_map_iff in Hy as ([v d'] & <- & Hv). exists v, d'. split; [auto|]. split; [auto|]. eapply Hle; eauto.
    + destruct (IH vt (vo ++ [(s, S d0)]) (s :: closed) s0 d0 lall (pre ++ [s])) as (vo' & E1 & (ext & E2) & R); auto.
      * rewrite <- app_assoc. auto.
      * intros x d Hx. rewrite app_assoc in Hx. apply in_app_or in Hx as [Hx|[Hx|[]]]; [auto|]. injection Hx as <- <-. eapply reach_step; [apply Hr; apply in_or_app; left; exact Hin|exact Hs|]. subst lall. apply in_or_app. right. left. auto.
      * rewrite app_assoc, map_app. apply FOP_snoc; [auto|]. intros y Hy. apply not_true_is_false. intros X. apply Hc in Hy. assert (mem s closed = true) by (apply mem_iff; eauto). congruence.
      * rewrite app_assoc, map_app. apply FOP_snoc; [auto|]. intros y Hy. apply in_map_iff in Hy as ([v d'] & <- & Hv). cbn. eapply Hle; eauto.
      * intros x d Hx. rewrite app_assoc in Hx. apply in_app_or in Hx as [Hx|[Hx|[]]]; [eauto|]. injection Hx as <- <-. lia.
      * intros x. rewrite app_assoc, map_app, in_app_iff. cbn. rewrite Hc. tauto.
      * intros s' Hs'. apply in_app_or in Hs' as [Hs'|[<-|[]]].
        { destruct (Hp s' Hs') as (v & d' & X & Y). exists v, d'. split; [|auto]. rewrite app_assoc. apply in_or_app. auto. }
        { exists s, (S d0). split; [rewrite app_assoc; apply in_or_app; right; left; auto|]. split; [apply eq_refl'|lia]. }
      * exists vo'. assert (EM : map fst (vo ++ [(s, S d0)]) = map fst vo ++ [s]) by (rewrite map_app; reflexivity). rewrite EM in E1, R. split; [exact E1|]. split; [exists ((s, S d0) :: ext); rewrite E2, <- app_assoc; auto|]. exact R.
Qed.
Lemma step_inv vt vo closed s d ss : inv vt ((s, d) :: vo) closed -> succ s = Ok ss ->
  exists vo', fst (push eqb ss (map fst vo) closed) = map fst vo' /\ inv (vt ++ [(s, d)]) vo' (snd (push eqb ss (map fst vo) closed)).
Proof.
  intros [R Di So La Cl Su Ro] Hs. assert (A : forall l : list (St * nat), vt ++ (s, d) :: l = (vt ++ [(s, d)]) ++ l) by (intros; rewrite <- app_assoc; reflexivity).
  rewrite (A vo) in *.
  destruct (push_inv ss (vt ++ [(s, d)]) vo closed s d ss []) as (vo' & E1 & (ext & E2) & R' & Di' & So' & Le' & Cl' & Su'); auto.
  - apply in_or_app. right. left. auto.
  - intros x dx Hx. eapply La; eauto. reflexivity.
  - intros s' [].
  - exists vo'. split; [auto|]. split; auto.
    + intros x dx Hx s0 d0 H0. destruct vo' as [|[s1 d1] vo']; [discriminate|]. injection H0 as <- <-.
      assert (d <= d1). { clear - So'. rewrite !map_app in So'. cbn [map snd] in So'. rewrite <- app_assoc in So'. cbn [app] in So'. revert So'. generalize (map snd vt) as L. induction L as [|a L IH]; cbn; intros H; inversion H; subst; [inversion H2; auto|auto]. }
      specialize (Le' x dx Hx). lia.
    + intros x dx Hx. apply in_app_or in Hx as [Hx|[Hx|[]]].
      * destruct (Su x dx Hx) as (l & El & Hl). exists l. split; [auto|]. intros s' Hs'. destruct (Hl s' Hs') as (v & d' & X & Y). exists v, d'. split; [|auto]. rewrite E2, app_assoc. apply in_or_app. auto.
      * injection Hx as <- <-. exists ss. auto.
    + rewrite E2, app_assoc. apply in_or_app. auto.
Qed.
Definition goal_true (s : St) : bool := match goal s with Ok b => b | Err _ => false end.
Definition goal_count (l : list St) : nat := List.length (filter goal_true l).
Lemma goal_count_snoc l s g : goal s = Ok g -> goal_count (l ++ [s]) = if g then S (goal_count l) else goal_count l.
Proof. intros H. unfold goal_count. rewrite filter_app. cbn [filter]. unfold goal_true at 2. rewrite H. rewrite app_length. destruct g; cbn; lia. Qed.

Record good (vt : list (St * nat)) (o : outcome St) : Prop := {
  g_trace : expanded o = map fst vt;
  g_n : nexpansions o = List.length vt;
  g_it : iterations o = List.length vt;
  g_goals : num_goals o = goal_count (map fst vt);
  g_total : forall s, In s (map fst vt) -> exists b, goal s = Ok b;
  g_inc : complete o = false
}.
(** Loop invariant: what a returned outcome satisfies *)
Lemma loop_result mx : forall fuel vt vo closed o o', inv vt vo closed -> good vt o -> (Z.le 0 mx -> Z.le (Z.of_nat (List.length vt)) mx) ->
  loop eqb goal succ mx fuel (map fst vo) closed o = Ok o' ->
  exists vt' vo' closed' , inv vt' vo' closed' /\ expanded o' = map fst vt' /\ nexpansions o' = List.length vt' /\ (exists e, vt' = vt ++ e) /\ (forall s, In s (map fst vt') -> exists b, goal s = Ok b) /\
  ((complete o' = true /\ vo' = [] /\ iterations o' = List.length vt' /\ num_goals o' = goal_count (map fst vt') /\ (Z.le 0 mx -> Z.le (Z.of_nat (List.length vt')) mx)) \/
   (complete o' = false /\ Z.le 0 mx /\ Z.of_nat (List.length vt') = mx /\ exists s d vo'', vo' = (s, d) :: vo'' /\ iterations o' = S (List.length vt') /\ num_goals o' = goal_count (map fst (vt' ++ [(s, d)])) )).
Proof.
  induction fuel as [|fuel IH]; intros vt vo closed o o' I [Gt Gn Gi Gg GT Gc] HB H.
  - destruct vo as [|[s d] vo]; [|discriminate]. injection H as <-. exists vt, [], closed. cbn [expanded nexpansions complete iterations num_goals]. split; [auto|]. split; [auto|]. split; [auto|]. split; [exists []; now rewrite app_nil_r|]. split; [auto|]. left. auto.
  - destruct vo as [|[s d] vo].
    { injection H as <-. exists vt, [], closed. cbn [expanded nexpansions complete iterations num_goals]. split; [auto|]. split; [auto|]. split; [auto|]. split; [exists []; now rewrite app_nil_r|]. split; [auto|]. left. auto. }
    cbn [map fst loop] in H. destruct (goal s) as [g|] eqn:Eg; [|discriminate]. cbn [bind] in H. destruct (bound_reached mx (nexpansions o)) eqn:Eb.
    + injection H as <-. unfold bound_reached in Eb. apply andb_true_iff in Eb as [B1 B2]. apply Z.leb_le in B1, B2. rewrite Gn in B2. specialize (HB B1).
      exists vt, ((s, d) :: vo), closed. cbn [expanded nexpansions complete iterations num_goals]. split; [auto|]. split; [auto|]. split; [auto|]. split; [exists []; now rewrite app_nil_r|]. split; [auto|]. right. split; [auto|]. split; [auto|]. split; [lia|].
      exists s, d, vo. split; [auto|]. split; [auto|]. rewrite map_app. cbn [map fst]. rewrite (goal_count_snoc _ s g Eg), Gg. reflexivity.
    + destruct (succ s) as [ss|] eqn:Es; [|discriminate]. cbn [bind] in H. destruct (step_inv vt vo closed s d ss I Es) as (vo' & E1 & I'). destruct (push eqb ss (map fst vo) closed) as [open2 closed2]. cbn [fst snd] in E1, I'. subst open2.
      edestruct (IH (vt ++ [(s, d)]) vo' closed2) as (vt' & vo2 & cl' & J1 & J2 & J3 & (e & J4) & J5); [exact I'| | |exact H|].
      * split; cbn [expanded nexpansions complete iterations num_goals].
        -- rewrite map_app, Gt. reflexivity.
        -- rewrite app_length, Gn. cbn. lia.
        -- rewrite app_length, Gi. cbn. lia.
        -- rewrite map_app. cbn [map fst]. rewrite (goal_count_snoc _ s g Eg), Gg. reflexivity.
        -- intros x Hx. rewrite map_app in Hx. apply in_app_or in Hx as [Hx|[<-|[]]]; [auto|]. cbn. eauto.
        -- auto.
      * intros B. rewrite app_length. cbn [List.length]. unfold bound_reached in Eb. rewrite Gn in Eb. apply andb_false_iff in Eb as [Eb|Eb]; apply Z.leb_gt in Eb; lia.
      * exists vt', vo2, cl'. split; [auto|]. split; [auto|]. split; [auto|]. split; [|auto]. exists ((s, d) :: e). rewrite J4, <- app_assoc. reflexivity.
Qed.
Lemma init_inv : inv [] [(root, 0)] [root].
Proof.
  split; cbn.
  - intros s d [[= <- <-]|[]]. constructor.
  - repeat constructor.
  - repeat constructor.
  - intros s d [[= <- <-]|[]] s0 d0 [= <- <-]. lia.
  - tauto.
  - intros s d [].
  - auto.
Qed.
Lemma search_result mx fuel o' : search eqb goal succ mx fuel root = Ok o' ->
  exists vt' vo' closed' , inv vt' vo' closed' /\ expanded o' = map fst vt' /\ nexpansions o' = List.length vt' /\ (forall s, In s (map fst vt') -> exists b, goal s = Ok b) /\
  ((complete o' = true /\ vo' = [] /\ iterations o' = List.length vt' /\ num_goals o' = goal_count (map fst vt') /\ (Z.le 0 mx -> Z.le (Z.of_nat (List.length vt')) mx)) \/
   (complete o' = false /\ Z.le 0 mx /\ Z.of_nat (List.length vt') = mx /\ exists s d vo'', vo' = (s, d) :: vo'' /\ iterations o' = S (List.length vt') /\ num_goals o' = goal_count (map fst (vt' ++ [(s, d)])) )).
Proof.
  intros H. edestruct (loop_result mx fuel [] [(root, 0)] [root]) as (vt' & vo' & c' & A & B & C & _ & E); [exact init_inv| | |exact H|].
  - split; auto. intros s [].
  - cbn. lia.
  - exists vt', vo', c'. split; [auto|]. split; [auto|]. split; [auto|]. auto.
Qed.
(** Completeness of a closed space *)
Hypothesis CG : congruent eqb succ root.
Lemma closed_complete vt cl : inv vt [] cl -> forall n s, reach_in n s -> exists v d, In (v, d) vt /\ eqb v s = true /\ d <= n.
Proof.
  intros [R Di So La Cl Su Ro]. rewrite app_nil_r in *. induction 1 as [|n s l s' H IH Hs Hin].
  - exists root, 0. split; [auto|]. split; [apply eq_refl'|lia].
  - destruct IH as (v & d & Hv & Ev & Hd). destruct (Su v d Hv) as (l' & El & Hl). destruct (CG v s l' l s') as (s'' & Hs'' & E''); auto; [eexists; eauto|eexists; eauto|].
    destruct (Hl s'' Hs'') as (w & d' & Hw & Ew & Hd'). exists w, d'. split; [auto|]. split; [eapply eq_trans'; eauto|lia].
Qed.
Lemma distinct_pairs (l : list (St * nat)) a da b db : distinct (map fst l) -> In (a, da) l -> In (b, db) l -> eqb a b = true -> (a, da) = (b, db).
Proof.
  induction l as [|[x dx] l IH]; intros Hd Ha Hb E; [destruct Ha|]. cbn [map fst] in Hd. inversion Hd as [|? ? F H]; subst. rewrite Forall_forall in F.
  destruct Ha as [Ha|Ha], Hb as [Hb|Hb].
  - congruence.
  - injection Ha as -> ->. assert (eqb a b = false) by (apply F; apply in_map_iff; exists (b, db); auto). congruence.
  - injection Hb as -> ->. assert (eqb b a = false) by (apply F; apply in_map_iff; exists (a, da); auto). apply eq_sym' in E. congruence.
  - auto.
Qed.
Lemma closed_distance vt cl : inv vt [] cl -> forall s d, In (s, d) vt -> distance eqb succ root s d.
Proof.
  intros I s d Hin. split.
  - exists s. split; [apply eq_refl'|]. apply (i_reach _ _ _ I). rewrite app_nil_r. auto.
  - intros n' s' E H. destruct (closed_complete vt cl I n' s' H) as (v & d' & Hv & Ev & Hd). assert (X := i_distinct _ _ _ I). rewrite app_nil_r in X.
    assert (Y := distinct_pairs vt v d' s d X Hv Hin (eq_trans' _ _ _ Ev E)). congruence.
Qed.
(** Pigeonhole for [==] *)
Lemma pigeonhole : forall (l L : list St), distinct l -> (forall x, In x l -> exists y, In y L /\ eqb x y = true) -> List.length l <= List.length L.
Proof.
  induction l as [|x l IH]; intros L Hd H; [cbn; lia|]. inversion Hd as [|? ? F Hd']; subst. rewrite Forall_forall in F. destruct (H x (or_introl eq_refl)) as (y & Hy & Ey).
  apply in_split in Hy as (L1 & L2 & ->). assert (List.length l <= List.length (L1 ++ L2)).
  { apply IH; [auto|]. intros z Hz. destruct (H z (or_intror Hz)) as (w & Hw & Ew). exists w. split; [|auto]. apply in_app_or in Hw as [Hw|[<-|Hw]]; [apply in_or_app; auto| |apply in_or_app; auto].
    exfalso. assert (eqb x z = false) by auto. assert (eqb x z = true) by (eapply eq_trans'; [exact Ey|apply eq_sym'; auto]). congruence. }
  rewrite !app_length in *. cbn. lia.
Qed.
Lemma loop_terminates mx N : finitely_many eqb succ root N -> (forall s, reachable succ root s -> is_ok (goal s) = true /\ is_ok (succ s) = true) ->
  forall fuel vt vo closed o, inv vt vo closed -> N < List.length vt + fuel -> exists o', loop eqb goal succ mx fuel (map fst vo) closed o = Ok o'.
Proof.
  intros HL HT. induction fuel as [|fuel IH]; intros vt vo closed o I Hlen.
  - exfalso. assert (List.length (map fst (vt ++ vo)) <= N).
    { apply HL; [apply I|]. intros x Hx. apply in_map_iff in Hx as ([x' d] & <- & Hx). exists d. apply (i_reach _ _ _ I). auto. }
    rewrite map_length, app_length in H. lia.
  - destruct vo as [|[s d] vo]; [eexists; reflexivity|]. cbn [map fst loop]. assert (Rs : reachable succ root s) by (exists d; apply (i_reach _ _ _ I); apply in_or_app; right; left; auto). destruct (HT s Rs) as [Tg Ts].
    destruct (goal s) as [g|]; [|discriminate]. cbn [bind]. destruct (bound_reached _ _); [eexists; reflexivity|]. destruct (succ s) as [ss|] eqn:Es; [|discriminate]. cbn [bind].
    destruct (step_inv vt vo closed s d ss I Es) as (vo' & E1 & I'). destruct (push eqb ss (map fst vo) closed) as [open2 closed2]. cbn [fst snd] in E1, I'. subst open2. apply (IH (vt ++ [(s, d)])); [auto|]. rewrite app_length. cbn. lia.
Qed.
End P.
