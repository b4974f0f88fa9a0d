(** Proofs about blocksworld, part 3: every configuration can be reached from every other; patterns lay out worlds. *)
From Coq Require Import Permutation FinFun.
From Verif Require Import ListUtil Base Syntax SemLemmas Build ModelState ModelProofs Eval EvalProofs Subst SubstProofs QElim Effects ProgressSpec StateLemmas ProgressProofs PropsProgress FreeVars Represent RelaxSpec
  SasText SasTextProofs Blocks BlocksSpec BlocksProofs BlocksProofs2.
#[local] Open Scope string_scope.
#[local] Open Scope list_scope.

(** * Sequences of moves *)
Lemma same_world_refl w : same_world w w. Proof. split; auto. Qed.
Lemma move_same w1 w2 a xs w1' : same_world w1 w2 -> move w1 a xs w1' -> exists w2', move w2 a xs w2' /\ same_world w1' w2'.
Proof.
  intros [P E] M. destruct M as [w x ts Pm Em|w x Em|w x y t ts Pm Em|w x y t ts Pm Em].
  - eexists. split; [apply (m_pick_up w2 x ts); [eapply perm_trans; [apply Permutation_sym; eauto|auto]|congruence]|apply same_world_refl].
  - eexists. split; [apply (m_put_down w2 x); congruence|]. split; [|reflexivity]. cbn. now apply perm_skip.
  - eexists. split; [apply (m_unstack w2 x y t ts); [eapply perm_trans; [apply Permutation_sym; eauto|auto]|congruence]|apply same_world_refl].
  - eexists. split; [apply (m_stack w2 x y t ts); [eapply perm_trans; [apply Permutation_sym; eauto|auto]|congruence]|apply same_world_refl].
Qed.
Lemma moves_same w1 plan w1' : moves w1 plan w1' -> forall w2, same_world w1 w2 -> exists w2', moves w2 plan w2' /\ same_world w1' w2'.
Proof.
  induction 1 as [w|w a xs w' plan w'' M _ IH]; intros w2 S; [exists w2; split; [constructor|auto]|]. destruct (move_same _ _ _ _ _ S M) as (v & Mv & Sv).
  destruct (IH v Sv) as (v' & Mv' & Sv'). exists v'. split; [econstructor; eauto|auto].
Qed.
Lemma moves_app w p w' q w'' : moves w p w' -> moves w' q w'' -> moves w (p ++ q) w''.
Proof. induction 1; intros K; [auto|]. cbn. econstructor; eauto. Qed.
Lemma moves_valid blocks w p w' : valid blocks w -> moves w p w' -> valid blocks w'.
Proof. intros V M. induction M; [auto|]. apply IHM. eapply move_valid; eauto. Qed.
(** Every move can be undone. *)
Lemma move_back w a xs w' : move w a xs w' -> exists a' xs' v, move w' a' xs' v /\ same_world v w.
Proof.
  intros M. destruct M as [w x ts P E|w x E|w x y t ts P E|w x y t ts P E].
  - eexists. eexists. eexists. split; [now apply m_put_down|]. split; cbn; [now apply Permutation_sym|congruence].
  - eexists. eexists. eexists. split; [eapply m_pick_up; cbn; auto|]. split; cbn; [auto|congruence].
  - eexists. eexists. eexists. split; [eapply m_stack; cbn; auto|]. split; cbn; [now apply Permutation_sym|congruence].
  - eexists. eexists. eexists. split; [eapply m_unstack; cbn; auto|]. split; cbn; [now apply Permutation_sym|congruence].
Qed.
Lemma moves_back w p w' : moves w p w' -> exists p' v, moves w' p' v /\ same_world v w /\ List.length p' = List.length p.
Proof.
  induction 1 as [w|w a xs w1 p w2 M _ (p' & v & M' & S & L)]; [exists [], w; split; [constructor|split; [apply same_world_refl|auto]]|].
  destruct (move_back _ _ _ _ M) as (a' & xs' & u & Mu & Su). destruct (move_same _ v _ _ _ (same_world_sym _ _ S) Mu) as (u' & Mu' & Su').
  exists (p' ++ [(a', xs')]), u'. split; [|split].
  - eapply moves_app; [exact M'|]. econstructor; [exact Mu'|constructor].
  - eapply same_world_trans; [apply same_world_sym, Su'|exact Su].
  - rewrite app_length, L. cbn. lia.
Qed.
(** Everything can be put on the table. *)
Definition flat (bs : list string) : list (list string) := map (fun x => [x]) bs.
Lemma tear_one t : t <> [] -> forall ts, exists p w', moves {| towers := t :: ts; hand := None |} p w' /\ same_world w' {| towers := flat t ++ ts; hand := None |} /\ List.length p <= 2 * List.length t.
Proof.
  induction t as [|x t IH]; [congruence|]. intros _ ts. destruct t as [|y t]; [exists []; eexists; split; [constructor|split; [apply same_world_refl|cbn; lia]]|].
  destruct (IH ltac:(discriminate) ([x] :: ts)) as (p & w' & M & S & L).
  destruct (moves_same _ _ _ M {| towers := [x] :: (y :: t) :: ts; hand := None |}) as (w2 & M2 & S2); [split; [apply perm_swap|reflexivity]|].
  exists (("unstack", [x; y]) :: ("put-down", [x]) :: p), w2. split; [|split].
  - econstructor; [apply (m_unstack _ x y t ts); cbn; auto|]. econstructor; [apply m_put_down; reflexivity|]. exact M2.
  - eapply same_world_trans; [apply same_world_sym, S2|]. eapply same_world_trans; [exact S|]. split; [|reflexivity]. cbn. apply Permutation_sym. exact (Permutation_middle ([y] :: flat t) ts [x]).
  - cbn [List.length] in *. lia.
Qed.
Lemma tear_all todo : ~ In [] todo -> forall ts, exists p w', moves {| towers := todo ++ ts; hand := None |} p w' /\ same_world w' {| towers := flat (List.concat todo) ++ ts; hand := None |} /\ List.length p <= 2 * List.length (List.concat todo).
Proof.
  induction todo as [|t todo IH]; intros N ts; [exists []; eexists; split; [constructor|split; [apply same_world_refl|cbn; lia]]|].
  destruct (tear_one t) with (ts := todo ++ ts) as (p & w1 & M & S & L); [intros ->; apply N; now left|].
  destruct (IH ltac:(intros K; apply N; now right) (flat t ++ ts)) as (q & w2 & M2 & S2 & L2).
  destruct (moves_same _ _ _ M2 w1) as (w3 & M3 & S3).
  { eapply same_world_trans; [|apply same_world_sym, S]. split; [|reflexivity]. cbn. rewrite !app_assoc. apply Permutation_app_tail, Permutation_app_comm. }
  exists (p ++ q), w3. split; [eapply moves_app; eauto|]. split.
  - eapply same_world_trans; [apply same_world_sym, S3|]. eapply same_world_trans; [exact S2|]. split; [|reflexivity]. cbn [List.concat towers]. unfold flat. rewrite map_app, !app_assoc. apply Permutation_app_tail, Permutation_app_comm.
  - rewrite app_length. cbn [List.concat]. rewrite app_length. lia.
Qed.
Lemma world_eta w : {| towers := towers w; hand := hand w |} = w. Proof. now destruct w. Qed.
Lemma perm_len {A} (l l' : list A) : Permutation l l' -> List.length l = List.length l'. Proof. apply Permutation_length. Qed.
Lemma connect blocks w v : valid blocks w -> valid blocks v -> hand w = None -> hand v = None ->
  exists p w', moves w p w' /\ same_world w' v /\ List.length p <= 4 * List.length blocks.
Proof.
  intros [P N] [P' N'] E E'. unfold held in P, P'. rewrite E in P. rewrite E' in P'. rewrite app_nil_r in P, P'.
  destruct (tear_all _ N []) as (p & w1 & M & S & L). destruct (tear_all _ N' []) as (q & v1 & M' & S' & L'). rewrite app_nil_r in *.
  rewrite <- E, world_eta in M. rewrite <- E', world_eta in M'. destruct (moves_back _ _ _ M') as (q' & v2 & M2 & S2 & L2).
  destruct (moves_same _ _ _ M2 w1) as (w2 & M3 & S3).
  { eapply same_world_trans; [exact S'|]. eapply same_world_trans; [|apply same_world_sym, S]. split; [|reflexivity]. cbn. rewrite ?app_nil_r. apply Permutation_map. eapply perm_trans; [exact P'|apply Permutation_sym, P]. }
  exists (p ++ q'), w2. split; [eapply moves_app; eauto|]. split; [eapply same_world_trans; [apply same_world_sym, S3|exact S2]|].
  rewrite app_length, L2. apply perm_len in P, P'. rewrite P in L. rewrite P' in L'. lia.
Qed.

(** * Plans and moves *)
Lemma binds_ok a b xs pre effs : step_of a b xs pre effs -> instantiates a (binds xs) xs.
Proof. intros H. destruct H; split; reflexivity. Qed.
Definition written (plan : list (string * list string)) : list (string * subst) := map (fun p => (fst p, binds (snd p))) plan.
Lemma moves_execution D sub b blocks w plan w' : objects_are sub -> NoDup blocks -> moves w plan w' -> forall m, is_state sub m -> describes m w -> valid blocks w ->
  exists m', execution D sub (bw_actions b) m (written plan) m' /\ describes m' w' /\ is_state sub m'.
Proof.
  intros Ob ND. induction 1 as [w|w n xs w1 plan w2 M _ IH]; intros m Sm Dm V; [exists m; split; [constructor|auto]|].
  destruct (move_step D sub b blocks m w n xs w1 Ob ND Sm Dm V M) as (a & pre & effs & m1 & Ha & <- & St & A & Pr & D1).
  assert (S1 : is_state sub m1) by (eapply progress_state; [exact Sm|eapply step_uncond; eauto|exact Pr]).
  destruct (IH m1 S1 D1 (move_valid _ _ _ _ _ V M)) as (m2 & X & D2 & S2). exists m2. split; [|auto]. unfold written. cbn [map fst snd]. econstructor; eauto. eapply step_ground; eauto. eapply binds_ok; eauto.
Qed.
Lemma execution_moves D sub b blocks m plan m' : NoDup blocks -> execution D sub (bw_actions b) m plan m' -> forall w, is_state sub m -> describes m w -> valid blocks w -> Forall (fun p => sub_f (snd p) = []) plan ->
  exists wplan w', moves w wplan w' /\ describes m' w' /\ is_state sub m' /\ Forall2 (fun p q => fst p = fst q /\ exists a, In a (bw_actions b) /\ a_name a = fst p /\ instantiates a (snd p) (snd q)) plan wplan.
Proof.
  intros ND. induction 1 as [m|m a s pre effs m1 plan m2 Ha G A Pr _ IH]; intros w Sm Dm V F; [exists [], w; split; [apply ms_nil|split; [auto|split; [auto|constructor]]]|]. inversion F as [|? ? F1 F2]; subst. cbn [snd] in F1.
  destruct (step_move D sub b blocks m w a s pre effs m1 ND Sm Dm V F1 Ha G A Pr) as (xs & w1 & St & I & M & D1 & S1).
  destruct (IH w1 S1 D1 (move_valid _ _ _ _ _ V M) F2) as (wp & w2 & Ms & D2 & S2 & FF). exists ((a_name a, xs) :: wp), w2. split; [econstructor; eauto|]. split; [auto|]. split; [auto|]. constructor; [|auto]. cbn [fst snd]. split; [auto|]. exists a. auto.
Qed.

(** * Patterns *)
Lemma placed_same w w' x y : same_world w w' -> placed w x y -> placed w' x y.
Proof. intros [P _] [[E (u & H)]|[E (t & H & O)]]; [left; split; [auto|exists u]|right; split; [auto|exists t; split; [|auto]]]; eapply Permutation_in; eauto. Qed.
Lemma placed_cons t ts h x y : placed {| towers := t :: ts; hand := h |} x y <-> (y = "table" /\ exists u, t = u ++ [x]) \/ (y <> "table" /\ directly_on x y t) \/ placed {| towers := ts; hand := h |} x y.
Proof.
  unfold placed. cbn [towers In]. split.
  - intros [[E (u & [H|H])]|[E (t' & [<-|H] & O)]]; [left; eauto|right; right; left; eauto|right; left; auto|right; right; right; eauto].
  - intros [[E (u & ->)]|[[E O]|[[E (u & H)]|[E (t' & H & O)]]]]; [left; split; [auto|exists u; auto]|right; split; [auto|exists t; auto]|left; split; [auto|exists u; auto]|right; split; [auto|exists t'; auto]].
Qed.
Definition pattern_inv (done cl : list string) (pat : list (string * string)) : Prop :=
  exists w, valid done w /\ laid_out pat w /\ (forall z, In z cl <-> z = "table" \/ exists below, In (z :: below) (towers w)).
Lemma pattern_loop_spec choice bs : forall done cl pat, pattern_inv done cl pat -> NoDup (done ++ bs) -> ~ In "table" (done ++ bs) ->
  exists cl' pat', pattern_loop choice bs cl pat = Ok (cl', pat') /\ pattern_inv (done ++ bs) cl' pat'.
Proof.
  induction bs as [|b bs IH]; intros done cl pat I ND NT; [exists cl, pat; rewrite app_nil_r; auto|]. cbn [pattern_loop]. destruct I as (w & V & L & C).
  assert (Hcl : List.length cl <> 0). { intros K. apply length_zero_iff_nil in K. assert (X := proj2 (C "table") (or_introl eq_refl)). rewrite K in X. destruct X. }
  destruct (nth_error cl (choice (List.length pat) mod List.length cl)) as [target|] eqn:En; [|exfalso; apply nth_error_None in En; assert (X := PeanoNat.Nat.mod_upper_bound (choice (List.length pat)) _ Hcl); lia].
  apply nth_error_In in En. rewrite <- app_assoc in IH || idtac. replace (done ++ b :: bs) with ((done ++ [b]) ++ bs) in * by (rewrite <- app_assoc; reflexivity).
  assert (Hb : ~ In b done). { rewrite <- app_assoc in ND. cbn in ND. apply NoDup_remove_2 in ND. intros K. apply ND, in_or_app. auto. }
  assert (Tb : b <> "table"). { intros ->. apply NT. apply in_or_app. left. apply in_or_app. right. now left. }
  assert (Dt : ~ In "table" done). { intros K. apply NT. apply in_or_app. left. apply in_or_app. auto. }
  destruct L as [L1 L2]. assert (V' := V). destruct V' as [P N]. unfold held in P. rewrite L1, app_nil_r in P.
  assert (Tw : forall z t, In t (towers w) -> In z t -> In z done). { intros z t H1 H2. eapply Permutation_in; [exact P|]. eapply concat_in; eauto. }
  apply IH; [|auto|auto]. clear IH. destruct (String.eqb_spec target "table") as [Et|Et].
  - subst target. exists {| towers := [b] :: towers w; hand := None |}. split; [|split].
    + split; cbn; [|intros [K|K]; [discriminate|auto]]. rewrite app_nil_r. eapply perm_trans; [apply perm_skip; exact P|]. apply (Permutation_cons_append done b).
    + split; [reflexivity|]. intros x y. rewrite in_app_iff, (L2 x y), placed_cons. cbn [In]. split.
      * intros [H|[H|[]]]; [right; right; destruct w; exact H|]. injection H as -> ->. left. split; [auto|exists []; auto].
      * intros [[-> (u & E)]|[[E O]|H]]; [|now apply on_one in O|left; destruct w; exact H]. destruct u as [|? [|]]; try discriminate. injection E as ->. auto.
    + intros z. destruct (existsb (String.eqb b) cl) eqn:Eb.
      * exfalso. apply existsb_exists in Eb as (z' & Hz & Ez). apply String.eqb_eq in Ez. subst z'. apply C in Hz as [Hz|(u & Hz)]; [auto|]. apply Hb. eapply Tw; [exact Hz|now left].
      * rewrite in_app_iff, (C z). cbn [towers In]. split.
        -- intros [[H|(u & H)]|[H|[]]]; [auto|right; exists u; auto|right; subst; exists []; auto].
        -- intros [H|(u & [H|H])]; [auto|injection H as <- <-; auto|eauto].
  - apply C in En as [En|(u & Hu)]; [contradiction|]. destruct (in_perm _ _ Hu) as (ts & Pm).
    assert (S : same_world w {| towers := (target :: u) :: ts; hand := None |}) by (split; auto).
    assert (ND' : NoDup done). { apply (nodup_app_l done [b]). apply (nodup_app_l _ bs). exact ND. }
    assert (Vn := valid_NoDup _ _ ND' (valid_same _ _ _ S V)). cbn [towers] in Vn. apply nodup_front in Vn as [V0 V1].
    assert (Nt : target <> "table"). { exact Et. }
    exists {| towers := (b :: target :: u) :: ts; hand := None |}. split; [|split].
    + apply perm_concat in Pm as Pc. split; cbn.
      * rewrite app_nil_r. eapply perm_trans; [|apply (Permutation_cons_append done b)]. apply perm_skip. eapply perm_trans; [|exact P]. apply Permutation_sym. exact Pc.
      * intros [K|K]; [discriminate|]. apply N. eapply Permutation_in; [apply Permutation_sym, Pm|now right].
    + split; [reflexivity|]. intros x y. rewrite in_app_iff, (L2 x y). cbn [In].
      assert (Q : placed w x y <-> placed {| towers := (target :: u) :: ts; hand := None |} x y) by (split; apply placed_same; [auto|now apply same_world_sym]). rewrite Q, !placed_cons, bottom_cons, on_two. split.
      * intros [[H|[H|H]]|[H|[]]]; [left; auto|right; left; tauto|right; right; auto|]. injection H as -> ->. right. left. auto.
      * intros [H|[[E [[-> ->]|O]]|H]]; [left; left; auto|right; left; auto|left; right; left; auto|left; right; right; auto].
    + intros z. assert (Eb : existsb (String.eqb b) (sremove target cl) = false).
      { destruct (existsb (String.eqb b) (sremove target cl)) eqn:Eb; [|reflexivity]. exfalso. apply existsb_exists in Eb as (z' & Hz & Ez). apply String.eqb_eq in Ez. subst z'. apply filter_In in Hz as [Hz _].
        apply C in Hz as [Hz|(u' & Hz)]; [auto|]. apply Hb. eapply Tw; [exact Hz|now left]. }
      rewrite Eb, in_app_iff. unfold sremove. rewrite filter_In, (C z), negb_true_iff, String.eqb_neq. cbn [towers In]. split.
      * intros [[[H|(v & H)] Nz]|[H|[]]]; [auto| |right; subst; exists (target :: u); auto]. right. eapply Permutation_in in H; [|exact Pm]. destruct H as [H|H]; [injection H as -> ->; contradiction|]. exists v. auto.
      * intros [->|(v & [H|H])]; [left; split; [auto|congruence]|injection H as <- <-; right; auto|]. left. split.
        -- right. exists v. eapply Permutation_in; [apply Permutation_sym, Pm|now right].
        -- intros <-. apply (proj1 (V1 target (or_introl eq_refl))). eapply concat_in; [exact H|now left].
Qed.
Lemma pattern_spec choice blocks : NoDup blocks -> ~ In "table" blocks ->
  exists cl pat w, generate_random_bw_pattern choice blocks = Ok (cl, pat) /\ valid blocks w /\ laid_out pat w /\ (forall z, In z cl <-> z = "table" \/ exists below, In (z :: below) (towers w)).
Proof.
  intros ND NT. destruct (pattern_loop_spec choice blocks [] ["table"] []) as (cl & pat & E & w & V & L & C); [|auto|auto|exists cl, pat, w; auto].
  exists {| towers := []; hand := None |}. split; [split; [constructor|intros []]|]. split; [split; [reflexivity|]|].
  - intros x y. split; [intros []|]. intros [[_ (u & [])]|[_ (t & [] & _)]].
  - intros z. cbn. split; [intros [<-|[]]; auto|]. intros [->|(u & [])]. auto.
Qed.
(** The names *)
Lemma block_names_NoDup n : NoDup (block_names n).
Proof.
  unfold block_names. apply FinFun.Injective_map_NoDup; [|apply seq_NoDup]. intros x y E. unfold block_name in E. cbn in E. injection E as E. assert (K := f_equal rnum E). rewrite !rnum_num in K. congruence.
Qed.
Lemma block_names_table n : ~ In "table" (block_names n).
Proof. intros H. apply in_map_iff in H as (k & E & _). unfold block_name in E. cbn in E. discriminate. Qed.

(** * The initial state *)
Lemma fold_adds {A} sub (f : A -> option (psym * list term)) (g : model -> A -> res model) l :
  (forall m a, g m a = match f a with Some (p, pt) => m_add sub m p pt | None => Ok m end) -> (forall a p pt, f a = Some (p, pt) -> well_typed sub p pt) ->
  forall m, is_state sub m -> exists m', foldM g l m = Ok m' /\ is_state sub m' /\ forall p pt, m_holds m' p pt = true <-> m_holds m p pt = true \/ exists a, In a l /\ f a = Some (p, pt).
Proof.
  intros G W. induction l as [|a l IH]; intros m Sm; [exists m; split; [reflexivity|split; [auto|]]; intros p pt; split; [auto|intros [H|(a & [] & _)]; auto]|].
  assert (X : exists m1, g m a = Ok m1 /\ is_state sub m1 /\ forall p pt, m_holds m1 p pt = true <-> m_holds m p pt = true \/ f a = Some (p, pt)).
  { rewrite G. destruct (f a) as [[p pt]|] eqn:E; [|exists m; split; [auto|split; [auto|]]; intros p pt; split; [auto|intros [H|H]; [auto|discriminate]]].
    assert (O := proj2 (add_ok sub m p pt) (W _ _ _ E)). destruct (m_add sub m p pt) as [m1|] eqn:Em; [|discriminate]. exists m1. split; [auto|]. split; [eapply state_add; eauto|].
    destruct (add_spec _ _ _ _ _ Em (state_proper _ _ Sm)) as (_ & A1 & _). intros q b. rewrite A1, orb_true_iff, same_atom_eq. split; [intros [[-> ->]|H]; auto|intros [H|H]; [auto|injection H as -> ->; auto]]. }
  destruct X as (m1 & E1 & S1 & H1). destruct (IH m1 S1) as (m2 & E2 & S2 & H2). exists m2. split; [|split; [auto|]].
  - cbn [foldM]. rewrite E1. exact E2.
  - intros p pt. rewrite H2, H1. cbn [In]. split; [intros [[H|H]|(b & Hb & E)]; eauto|]. intros [H|(b & [<-|Hb] & E)]; eauto.
Qed.
Definition loc_atom (xy : string * string) : option (psym * list term) := Some (if String.eqb (snd xy) "table" then (ontable, [block (fst xy)]) else (on, [block (fst xy); block (snd xy)])).
Definition clear_atom (x : string) : option (psym * list term) := if String.eqb x "table" then None else Some (clear, [block x]).
Lemma placed_fact w x y : placed w x y -> exists p pt, loc_atom (x, y) = Some (p, pt) /\ fact w p pt.
Proof.
  intros [[-> (u & H)]|[N (t & H & O)]]; unfold loc_atom; cbn [fst snd].
  - exists ontable. eexists. split; [reflexivity|]. eapply f_ontable; eauto.
  - apply String.eqb_neq in N. rewrite N. exists on. eexists. split; [reflexivity|]. eapply f_on; eauto.
Qed.
Lemma fact_placed w x y p pt : loc_atom (x, y) = Some (p, pt) -> fact w p pt -> placed w x y.
Proof.
  unfold loc_atom. cbn [fst snd]. destruct (String.eqb_spec y "table") as [->|N]; intros E F; injection E as <- <-.
  - apply fact_ontable in F as (x' & u & E & H). apply block_inj in E. subst x'. left. eauto.
  - apply fact_on in F as (x' & y' & t & E1 & E2 & H & O). apply block_inj in E1, E2. subst. right. eauto.
Qed.
Lemma init_spec sub blocks cl pat w : objects_are sub -> NoDup blocks -> ~ In "table" blocks -> valid blocks w -> laid_out pat w -> (forall z, In z cl <-> z = "table" \/ exists below, In (z :: below) (towers w)) ->
  exists m, bw_init sub cl pat = Ok m /\ is_state sub m /\ describes m w.
Proof.
  intros Ob ND NT V [L1 L2] C. unfold bw_init.
  assert (W1 : forall p x, p = ontable \/ p = clear \/ p = holding -> well_typed sub p [block x]).
  { intros p x [-> | [-> | ->]]; (eexists; eexists; split; [reflexivity|]); (constructor; [exists (CStr x), obj; auto|constructor]). }
  assert (W2 : forall x y, well_typed sub on [block x; block y]).
  { intros x y. eexists; eexists; split; [reflexivity|]. constructor; [exists (CStr x), obj; auto|]. constructor; [exists (CStr y), obj; auto|constructor]. }
  assert (W0 : well_typed sub handempty []) by (eexists; eexists; split; [reflexivity|constructor]).
  destruct (fold_adds sub loc_atom (add_location sub) pat) with (m := empty_model) as (m1 & E1 & S1 & H1).
  { intros m a. unfold add_location, loc_atom. destruct (String.eqb (snd a) "table"); reflexivity. }
  { intros a p pt E. unfold loc_atom in E. destruct (String.eqb (snd a) "table"); injection E as <- <-; auto. }
  { exists []. reflexivity. }
  destruct (fold_adds sub clear_atom (add_clear sub) cl) with (m := m1) as (m2 & E2 & S2 & H2).
  { intros m a. unfold add_clear, clear_atom. destruct (String.eqb a "table"); reflexivity. }
  { intros a p pt E. unfold clear_atom in E. destruct (String.eqb a "table"); [discriminate|]. injection E as <- <-; auto. }
  { exact S1. }
  rewrite E1. cbn [bind]. rewrite E2. cbn [bind]. assert (O := proj2 (add_ok sub m2 handempty []) W0). destruct (m_add sub m2 handempty []) as [m3|] eqn:E3; [|discriminate]. exists m3. split; [reflexivity|]. split; [eapply state_add; eauto|].
  destruct (add_spec _ _ _ _ _ E3 (state_proper _ _ S2)) as (_ & A3 & _).
  destruct V as [P N]. unfold held in P. rewrite L1, app_nil_r in P. assert (Tw : forall z t, In t (towers w) -> In z t -> z <> "table"). { intros z t H3 H4 ->. apply NT. eapply Permutation_in; [exact P|]. eapply concat_in; eauto. }
  intros p pt. rewrite A3, orb_true_iff, same_atom_eq, H2, H1. split.
  - intros [[<- <-]|[[H|((x & y) & Hp & E)]|(x & Hx & E)]].
    + now apply f_handempty.
    + discriminate.
    + apply L2 in Hp. apply placed_fact in Hp as (p' & pt' & E' & F). rewrite E' in E. injection E as -> ->. exact F.
    + unfold clear_atom in E. destruct (String.eqb_spec x "table") as [->|Nx]; [discriminate|]. injection E as <- <-. apply C in Hx as [Hx|(u & Hx)]; [contradiction|]. eapply f_clear; eauto.
  - intros F. destruct F as [x y t Ht O'|x u H|x u H|x H|H].
    + right. left. right. exists (x, y). split.
      * apply L2. right. split; [eapply Tw; [exact Ht|now apply on_in in O']|eauto].
      * unfold loc_atom. cbn [fst snd]. assert (Ny : y <> "table") by (eapply Tw; [exact Ht|now apply on_in in O']). apply String.eqb_neq in Ny. now rewrite Ny.
    + right. left. right. exists (x, "table"). split; [apply L2; left; eauto|reflexivity].
    + right. right. exists x. split; [apply C; eauto|]. unfold clear_atom. assert (Nx : x <> "table") by (eapply Tw; [exact H|now left]). apply String.eqb_neq in Nx. now rewrite Nx.
    + congruence.
    + left. auto.
Qed.

(** * The goal *)
Lemma split_unique {A} (x : A) a : forall b a' b', NoDup (a ++ x :: b) -> a ++ x :: b = a' ++ x :: b' -> a = a' /\ b = b'.
Proof.
  induction a as [|z a IH]; intros b a' b' N E; destruct a' as [|z' a']; cbn in *.
  - injection E as ->. auto.
  - injection E as <- ->. inversion N as [|? ? N1 _]; subst. exfalso. apply N1, in_or_app. right. now left.
  - injection E as -> E. inversion N as [|? ? N1 _]; subst. exfalso. apply N1, in_or_app. right. now left.
  - injection E as <- E. inversion N; subst. destruct (IH b a' b') as [-> ->]; auto.
Qed.
Lemma placed_unique blocks w x y y' : NoDup blocks -> valid blocks w -> placed w x y -> placed w x y' -> y = y'.
Proof.
  intros ND V H H'. assert (N := nodup_app_l _ _ (valid_NoDup _ _ ND V)).
  assert (Ex : forall z, placed w x z -> exists t u v, In t (towers w) /\ t = u ++ x :: v /\ ((z = "table" /\ v = []) \/ exists v', v = z :: v')).
  { intros z [[-> (u & K)]|[_ (t & K & u & v & ->)]]; [exists (u ++ [x]), u, []; auto|]. exists (u ++ x :: z :: v), u, (z :: v). eauto 7. }
  apply Ex in H as (t & u & v & I & E & Q). apply Ex in H' as (t' & u' & v' & I' & E' & Q').
  assert (Et : t = t'). { eapply (nodup_unique x _ _ (towers w) N); eauto; subst; apply in_or_app; right; now left. } subst t'. apply (nodup_tower _ _ N) in I. rewrite E in I.
  destruct (split_unique x u v u' v' I) as [_ Ev]; [congruence|]. subst v'. destruct Q as [[-> ->]|(q & ->)], Q' as [[-> Ev]|(q' & Ev)]; congruence.
Qed.
Lemma placed_total blocks w x : ~ In "table" blocks -> valid blocks w -> In x blocks -> hand w <> Some x -> exists y, placed w x y.
Proof.
  intros NT [P N] Hx Hh. assert (Hx' := Permutation_in _ (Permutation_sym P) Hx). apply in_app_or in Hx' as [H|H].
  - apply in_concat in H as (t & Ht & Hx'). apply in_split in Hx' as (u & v & ->). destruct v as [|y v]; [exists "table"; left; eauto|]. exists y. right. split; [|exists (u ++ x :: y :: v); split; [auto|exists u, v; auto]].
    intros ->. apply NT. eapply Permutation_in; [exact P|]. apply in_or_app. left. eapply concat_in; [exact Ht|]. apply in_or_app. right. right. now left.
  - unfold held in H. destruct (hand w) as [z|]; [|destruct H]. destruct H as [<-|[]]. congruence.
Qed.
Lemma placed_in blocks w x y : valid blocks w -> placed w x y -> In x (List.concat (towers w)) /\ In x blocks.
Proof.
  intros [P N] H. assert (K : In x (List.concat (towers w))). { destruct H as [[_ (u & H)]|[_ (t & H & O)]]; [eapply concat_in; [exact H|apply in_or_app; right; now left]|eapply concat_in; [exact H|now apply on_in in O]]. }
  split; [auto|]. eapply Permutation_in; [exact P|]. apply in_or_app. auto.
Qed.
Lemma eval_ontable m x : eval_f m (Atom ontable [block x]) = Ok (m_holds m ontable [block x]).
Proof. now apply eval_holds. Qed.
Lemma eval_on m x y : eval_f m (Atom on [block x; block y]) = Ok (m_holds m on [block x; block y]).
Proof. now apply eval_holds. Qed.
Lemma goal_spec sub blocks pat v m w g : NoDup blocks -> ~ In "table" blocks -> valid blocks v -> laid_out pat v -> bw_goal pat = Ok g -> is_state sub m -> describes m w -> valid blocks w ->
  (eval_f m g = Ok true <-> laid_out pat w).
Proof.
  intros ND NT Vv [Lh L] G Sm Dm V. transitivity (forall x y, In (x, y) pat -> placed w x y).
  - assert (E : eval_f m g = Ok true <-> Forall (fun f => eval_f m f = Ok true) (map goal_conjunct pat)).
    { unfold bw_goal, land in G. destruct (map goal_conjunct pat) as [|f [|f2 fs]]; cbn in G; injection G as <-.
      - split; auto.
      - split; [auto|]. intros H. now inversion H.
      - apply eval_all_true. }
    rewrite E, Forall_forall. assert (Q : forall x y, eval_f m (goal_conjunct (x, y)) = Ok true <-> placed w x y).
    { intros x y. unfold goal_conjunct. cbn [fst snd]. destruct (String.eqb_spec y "table") as [->|Ny]; rewrite ?eval_ontable, ?eval_on.
      - split; [intros H; assert (F : fact w ontable [block x]) by (apply Dm; congruence); apply (fact_placed w x "table" _ _ eq_refl F)|].
        intros H. apply placed_fact in H as (p & pt & E' & F). injection E' as <- <-. f_equal. now apply Dm.
      - assert (El : loc_atom (x, y) = Some (on, [block x; block y])) by (unfold loc_atom; cbn [fst snd]; apply String.eqb_neq in Ny; now rewrite Ny).
        split; [intros H; assert (F : fact w on [block x; block y]) by (apply Dm; congruence); apply (fact_placed w x y _ _ El F)|].
        intros H. apply placed_fact in H as (p & pt & E' & F). rewrite El in E'. injection E' as <- <-. f_equal. now apply Dm. }
    split.
    + intros H x y Hp. apply Q, H. apply in_map_iff. eauto.
    + intros H f Hf. apply in_map_iff in Hf as ((x & y) & <- & Hp). apply Q, H, Hp.
  - split; [|intros [_ L'] x y; apply L'].
    intros H. split.
    + destruct (hand w) as [x|] eqn:Eh; [|reflexivity]. exfalso. assert (N := valid_NoDup _ _ ND V). assert (Hx : In x blocks). { destruct V as [P _]. eapply Permutation_in; [exact P|]. apply in_or_app. right. unfold held. rewrite Eh. now left. }
      destruct (placed_total blocks v x NT Vv Hx) as (y & Hy); [congruence|]. apply L, H in Hy. apply (placed_in _ _ _ _ V) in Hy as [Hy _].
      unfold held in N. rewrite Eh in N. apply NoDup_remove_2 in N. apply N. rewrite app_nil_r. exact Hy.
    + intros x y. split; [auto|]. intros Hp. destruct (placed_in _ _ _ _ V Hp) as [_ Hx]. destruct (placed_total blocks v x NT Vv Hx) as (y' & Hy); [congruence|]. apply L in Hy.
      rewrite (placed_unique blocks w x y y' ND V Hp (H _ _ Hy)). exact Hy.
Qed.
