(** Durative actions: they are read as an action with the conjunction of the conditions, whose parts are then sorted by time. *)
From Verif Require Import Base Syntax Build Semantics SemLemmas ListUtil ModelState ModelProofs SubstProofs FreeVars Lang LangSpec LangProofs Theories RddlRead RddlInitProofs2 PddlInstance PddlInstanceSpec PropsPddlInstance PddlExpr PddlExprSpec PddlExprProofs PddlExprProofs2 PddlExprProofs3 PddlExprProofs4 PddlExprProofs5.
#[local] Open Scope string_scope.
#[local] Open Scope list_scope.

Section Lists.
Variable parse : bool -> string -> option Z.
Variable fuel : nat.
Variable i : pinst.
Notation rd := (read_gd parse fuel i).
Definition timed (x : when * gd) : dgd := DCond (fst x) (snd x).
Definition timed_eff (x : bool * peff) : deff := DEff (fst x) (snd x).
Lemma dgd_list cs : forall d ps d', read_list (read_dgd parse fuel i) d cs = Ok (ps, d') -> exists wgs, cs = map timed wgs /\ read_list rd d (map snd wgs) = Ok (map snd ps, d') /\ map fst ps = map fst wgs.
Proof.
  induction cs as [|c cs IH]; intros d ps d' R; [injection R as <- <-; exists []; split; [reflexivity|split; reflexivity]|]. rewrite read_list_cons in R. apply bind_some in R as ([p d1] & R1 & R). apply bind_some in R as ([ps' d2] & R2 & R). injection R as <- <-. cbn [fst snd] in *.
  destruct c as [w g|]; [|discriminate R1]. cbn [read_dgd] in R1. apply bind_some in R1 as ([f d1'] & R1 & Q). injection Q as <- <-. cbn [fst snd] in *. destruct (IH _ _ _ R2) as (wgs & -> & A & B). exists ((w, g) :: wgs). split; [reflexivity|]. split; [|cbn [map fst]; now f_equal].
  cbn [map snd]. rewrite read_list_cons, R1. cbn [bind fst snd]. rewrite A. reflexivity.
Qed.
Lemma dgd_list_ok wgs : forall d fs d', read_list rd d (map snd wgs) = Ok (fs, d') -> exists ps, read_list (read_dgd parse fuel i) d (map timed wgs) = Ok (ps, d').
Proof.
  induction wgs as [|[w g] wgs IH]; intros d fs d' R; [injection R as _ <-; eexists; reflexivity|]. cbn [map snd] in R. rewrite read_list_cons in R. apply bind_some in R as ([f d1] & R1 & R). apply bind_some in R as ([fs' d2] & R2 & R). injection R as _ <-. cbn [fst snd] in *. destruct (IH _ _ _ R2) as (ps & A).
  cbn [map]. rewrite read_list_cons. cbn [timed read_dgd fst snd]. rewrite R1. cbn [bind fst snd]. rewrite A. eexists. reflexivity.
Qed.
Lemma deff_list d cs : forall ps, mapM (read_deff parse fuel i d) cs = Ok ps -> exists bfs, cs = map timed_eff bfs /\ mapM (read_effect parse fuel i d) (map snd bfs) = Ok (map snd ps) /\ map fst ps = map fst bfs.
Proof.
  induction cs as [|c cs IH]; intros ps R; cbn [mapM] in R; [injection R as <-; exists []; split; [reflexivity|split; reflexivity]|]. apply bind_some in R as (p & R1 & R). apply bind_some in R as (ps' & R2 & R). injection R as <-.
  destruct c as [b f|b fs|]; cbn [read_deff] in R1; [|apply bind_some in R1 as (x & _ & R1); discriminate R1|discriminate R1]. apply bind_some in R1 as (a & R1 & Q). injection Q as <-. destruct (IH _ R2) as (bfs & -> & A & B). exists ((b, f) :: bfs). split; [reflexivity|]. split; [|cbn [map fst]; now f_equal].
  cbn [map snd mapM]. rewrite R1. cbn [bind]. rewrite A. reflexivity.
Qed.
Lemma deff_list_ok d bfs : forall fs, mapM (read_effect parse fuel i d) (map snd bfs) = Ok fs -> exists ps, mapM (read_deff parse fuel i d) (map timed_eff bfs) = Ok ps.
Proof.
  induction bfs as [|[b f] bfs IH]; intros fs R; [eexists; reflexivity|]. cbn [map snd mapM] in R. apply bind_some in R as (a & R1 & R). apply bind_some in R as (l & R2 & R). destruct (IH _ R2) as (ps & A). cbn [map mapM timed_eff read_deff fst snd]. rewrite R1. cbn [bind]. rewrite A. eexists. reflexivity.
Qed.
(** From a durative action to an action *)
Lemma durative_action d n params dur pre eff a d' : read_durative parse fuel i d n params dur pre eff = Ok (a, d') ->
  exists wgs bfs ps qs d1 b, pre = Some (map timed wgs) /\ eff = Some (map timed_eff bfs) /\
    read_action parse fuel i d n params (Some (GAnd (map snd wgs))) (Some (map snd bfs)) = Ok (b, d') /\
    read_list rd (enter d (typed_variables params)) (map snd wgs) = Ok (map snd ps, d1) /\ map fst ps = map fst wgs /\ mapM (read_effect parse fuel i d1) (map snd bfs) = Ok (map snd qs) /\ map fst qs = map fst bfs /\
    match dur with DurIs e => exists t, read_exp parse fuel i (enter d (typed_variables params)) e = Ok t /\ pd_duration a = Some t | DurNone => pd_duration a = None | DurOther => False end /\
    pd_name a = n /\ pd_parameters a = typed_variables params /\ pd_start_pre a = refs_at AtStart ps /\ pd_end_pre a = refs_at AtEnd ps /\ pd_overall a = refs_at OverAll ps /\
    pd_start_post a = map snd (filter (fun e => negb (fst e)) qs) /\ pd_end_post a = map snd (filter fst qs).
Proof.
  unfold read_durative. intros R. apply bind_some in R as (ys & X & R). assert (T := normalize_typed i params [] ys X). cbn [map app] in T. rewrite T in R, X. clear ys T. apply bind_some in R as (t & Dt & R). apply bind_some in R as ([ps d1] & R1 & R). apply bind_some in R as (qs & R2 & R). cbn [fst snd] in *.
  destruct pre as [cs|]; [|discriminate R]. destruct eff as [es|]; [|discriminate R]. apply bind_some in R as (d2 & L & R). injection R as <- <-. cbn [pd_duration pd_name pd_parameters pd_start_pre pd_end_pre pd_overall pd_start_post pd_end_post].
  destruct (dgd_list _ _ _ _ R1) as (wgs & -> & A & B). destruct (deff_list _ _ _ R2) as (bfs & -> & C & D). destruct (land_total (map snd ps)) as (h & Lh).
  assert (Ra : exists b, read_action parse fuel i d n params (Some (GAnd (map snd wgs))) (Some (map snd bfs)) = Ok (b, d2)). { unfold read_action. rewrite X. cbn [bind]. cbn [read_gd]. rewrite A. cbn [bind fst snd]. rewrite Lh. cbn [bind fst snd]. rewrite C. cbn [bind fst snd]. rewrite L. cbn [bind]. eexists. reflexivity. }
  destruct Ra as (b & Ra). exists wgs, bfs, ps, qs, d1, b. split; [reflexivity|]. split; [reflexivity|]. split; [exact Ra|]. split; [exact A|]. split; [exact B|]. split; [exact C|]. split; [exact D|]. split.
  - destruct dur as [e| |]; [apply bind_some in Dt as (u & U & Q); injection Q as <-; eauto|injection Dt as <-; reflexivity|discriminate Dt].
  - split; [reflexivity|]. split; [reflexivity|]. split; [reflexivity|]. split; [reflexivity|]. split; [reflexivity|]. split; reflexivity.
Qed.
Lemma action_durative d n params dur wgs bfs a d' : read_action parse fuel i d n params (Some (GAnd (map snd wgs))) (Some (map snd bfs)) = Ok (a, d') ->
  match dur with DurIs e => exists t, read_exp parse fuel i (enter d (typed_variables params)) e = Ok t | DurNone => True | DurOther => False end ->
  exists b, read_durative parse fuel i d n params dur (Some (map timed wgs)) (Some (map timed_eff bfs)) = Ok (b, d').
Proof.
  unfold read_action, read_durative. intros R Dt. apply bind_some in R as (ys & X & R). assert (T := normalize_typed i params [] ys X). cbn [map app] in T. rewrite T in R, X. clear ys T. rewrite X. cbn [bind]. apply bind_some in R as ([of d1] & R1 & R). apply bind_some in R as (oes & R2 & R). apply bind_some in R as (d2 & L & R). injection R as _ <-. cbn [fst snd] in *.
  apply bind_some in R1 as ([f d1'] & R1 & Q). injection Q as _ Q. cbn [snd] in Q. subst d1'. cbn [read_gd] in R1. apply bind_some in R1 as ([fs d1'] & R1 & Q). apply bind_some in Q as (h & _ & Q). injection Q as _ Q. cbn [snd] in Q. subst d1'. apply bind_some in R2 as (l & R2 & _).
  destruct (dgd_list_ok _ _ _ _ R1) as (ps & A). destruct (deff_list_ok _ _ _ R2) as (qs & B).
  assert (Et : exists t, match dur with DurIs e => let! t := read_exp parse fuel i (enter d (typed_variables params)) e in Ok (Some t) | DurNone => Ok None | DurOther => Err TarskiError end = Ok t). { destruct dur as [e| |]; [destruct Dt as (t & ->); eexists; reflexivity|eexists; reflexivity|destruct Dt]. }
  destruct Et as (t & ->). cbn [bind]. rewrite A. cbn [bind fst snd]. rewrite B. cbn [bind]. rewrite L. cbn [bind]. eexists. reflexivity.
Qed.
End Lists.
(** ** The lists of conditions by time *)
Lemma add_ref_In fs f g : In g (add_ref fs f) <-> In g fs \/ g = f.
Proof.
  unfold add_ref. destruct (existsb (formula_eqb f) fs) eqn:E; [|rewrite in_app_iff; cbn; intuition]. apply existsb_exists in E as (h & Hh & E). apply formula_eqb_eq in E. subst h. split; [auto|intros [H| ->]; auto].
Qed.
Lemma add_ref_NoDup fs f : NoDup fs -> NoDup (add_ref fs f).
Proof.
  unfold add_ref. intros N. destruct (existsb (formula_eqb f) fs) eqn:E; [exact N|]. apply NoDup_app_iff_simple; [exact N|repeat constructor; intros []|]. intros g Hg [<-|[]]. assert (X : existsb (formula_eqb f) fs = true) by (apply existsb_exists; exists f; split; [exact Hg|apply formula_eqb_refl]). congruence.
Qed.
Lemma refs_fold w ps : forall fs, NoDup fs -> NoDup (fold_left (fun fs (c : when * formula) => if when_eqb (fst c) w then add_ref fs (snd c) else fs) ps fs) /\ forall g, In g (fold_left (fun fs (c : when * formula) => if when_eqb (fst c) w then add_ref fs (snd c) else fs) ps fs) <-> In g fs \/ exists c, In c ps /\ when_eqb (fst c) w = true /\ snd c = g.
Proof.
  induction ps as [|c ps IH]; intros fs N; cbn [fold_left]; [split; [exact N|]; intros g; split; [auto|intros [H|(c & [] & _)]; exact H]|]. destruct (when_eqb (fst c) w) eqn:E.
  - destruct (IH (add_ref fs (snd c)) (add_ref_NoDup _ _ N)) as [A B]. split; [exact A|]. intros g. rewrite B, add_ref_In. split.
    + intros [[H|H]|(x & H & Q)]; [auto|right; exists c; split; [now left|auto]|right; exists x; split; [now right|exact Q]].
    + intros [H|(x & [->|H] & Q)]; [auto|left; right; symmetry; tauto|right; eauto].
  - destruct (IH fs N) as [A B]. split; [exact A|]. intros g. rewrite B. split.
    + intros [H|(x & H & Q)]; [auto|right; exists x; split; [now right|exact Q]].
    + intros [H|(x & [->|H] & Q)]; [auto|rewrite E in Q; destruct Q as [Q _]; discriminate Q|right; eauto].
Qed.
Lemma refs_In w ps g : In g (refs_at w ps) <-> exists c, In c ps /\ when_eqb (fst c) w = true /\ snd c = g.
Proof. unfold refs_at. rewrite (proj2 (refs_fold w ps [] (NoDup_nil _))). split; [intros [[]|H]; exact H|auto]. Qed.
Lemma refs_NoDup w ps : NoDup (refs_at w ps).
Proof. exact (proj1 (refs_fold w ps [] (NoDup_nil _))). Qed.
Lemma refs_forallb (k : formula -> bool) w ps : forallb k (refs_at w ps) = forallb (fun c => if when_eqb (fst c) w then k (snd c) else true) ps.
Proof.
  apply Bool.eq_iff_eq_true. rewrite !forallb_forall. split.
  - intros H c Hc. destruct (when_eqb (fst c) w) eqn:E; [|reflexivity]. apply H. apply refs_In. eauto.
  - intros H g Hg. apply refs_In in Hg as (c & Hc & E & <-). specialize (H c Hc). now rewrite E in H.
Qed.
Lemma timed_values (k : formula -> bool) (v : gd -> bool) w wgs : forall ps, map fst ps = map fst wgs -> map (fun f => k f) (map snd ps) = map v (map snd wgs) -> forallb (fun c => if when_eqb (fst c) w then k (snd c) else true) ps = forallb v (conditions_at w (map timed wgs)).
Proof.
  induction wgs as [|[w' g] wgs IH]; intros ps A B; [destruct ps; [reflexivity|discriminate A]|]. destruct ps as [|[w'' f] ps]; [discriminate A|]. cbn [map fst snd] in A, B. injection A as -> A. injection B as Q B. change (conditions_at w (map timed ((w', g) :: wgs))) with ((if when_eqb w' w then [g] else []) ++ conditions_at w (map timed wgs)). rewrite forallb_app. cbn [forallb fst snd]. rewrite (IH ps A B). f_equal. destruct (when_eqb w' w); [|reflexivity]. cbn [forallb]. now rewrite Q, Bool.andb_true_r.
Qed.
Lemma timed_effects (k : bool) (K : peff -> assignment -> Prop) bfs : forall qs, map fst qs = map fst bfs -> Forall2 K (map snd bfs) (map snd qs) -> Forall2 K (effects_at k (map timed_eff bfs)) (map snd (filter (fun e : bool * assignment => Bool.eqb (fst e) k) qs)).
Proof.
  induction bfs as [|[b f] bfs IH]; intros qs A B; [destruct qs; [constructor|discriminate A]|]. destruct qs as [|[b' x] qs]; [discriminate A|]. cbn [map fst snd] in A, B. injection A as -> A. inversion B as [|? ? ? ? Q B']; subst. change (effects_at k (map timed_eff ((b, f) :: bfs))) with ((if Bool.eqb b k then [f] else []) ++ effects_at k (map timed_eff bfs)). cbn [filter fst]. specialize (IH qs A B'). destruct (Bool.eqb b k); [|exact IH]. cbn [app map snd]. constructor; [exact Q|exact IH].
Qed.
(** ** Which durative actions and initial facts are accepted *)
Section Accept.
Variable parse : bool -> string -> option Z.
Variable fuel : nat.
Variable i : pinst.
Variable es : list tentry.
Variable ds : list decl.
Hypothesis F : facts es ds i.
Hypothesis O : decides es i fuel.
Lemma timed_all cs (K : gd -> Prop) : (forall c, In c cs -> exists w g, c = DCond w g /\ K g) <-> exists wgs, cs = map timed wgs /\ Forall K (map snd wgs).
Proof.
  split.
  - induction cs as [|c cs IH]; intros H; [exists []; split; [reflexivity|constructor]|]. destruct (H c (or_introl eq_refl)) as (w & g & -> & Kg). destruct IH as (wgs & -> & A); [intros x Hx; apply H; now right|]. exists ((w, g) :: wgs). split; [reflexivity|now constructor].
  - intros (wgs & -> & A) c Hc. apply in_map_iff in Hc as ([w g] & <- & Hc). exists w, g. split; [reflexivity|]. rewrite Forall_forall in A. apply A. apply in_map_iff. exists (w, g). auto.
Qed.
Lemma timed_eff_all cs (K : peff -> Prop) : (forall c, In c cs -> exists b f, c = DEff b f /\ K f) <-> exists bfs, cs = map timed_eff bfs /\ Forall K (map snd bfs).
Proof.
  split.
  - induction cs as [|c cs IH]; intros H; [exists []; split; [reflexivity|constructor]|]. destruct (H c (or_introl eq_refl)) as (w & g & -> & Kg). destruct IH as (wgs & -> & A); [intros x Hx; apply H; now right|]. exists ((w, g) :: wgs). split; [reflexivity|now constructor].
  - intros (wgs & -> & A) c Hc. apply in_map_iff in Hc as ([w g] & <- & Hc). exists w, g. split; [reflexivity|]. rewrite Forall_forall in A. apply A. apply in_map_iff. exists (w, g). auto.
Qed.
Theorem durative_accept n params dur pre eff : (exists a d, read_durative parse fuel i [] n params dur pre eff = Ok (a, d)) <-> durative_ok es ds params dur pre eff.
Proof.
  set (xs := typed_variables params).
  assert (Mx : variables_ok es params -> NoDup (map fst xs) -> matches es (enter [] xs) xs). { intros V N. rewrite <- (app_nil_r xs) at 2. apply matches_enter; [exact (matches_empty es)|exact N|intros x _ []|exact (variables_typed _ _ V)]. }
  unfold durative_ok. fold xs. split.
  - intros (a & d & R). destruct (durative_action _ _ _ _ _ _ _ _ _ _ _ R) as (wgs & bfs & ps & qs & d1 & b & -> & -> & Ra & _ & _ & _ & _ & Dt & _).
    destruct (proj1 (action_accept parse fuel i es ds F O n params _ _) (ex_intro _ b (ex_intro _ d Ra))) as (V & N & G & E). split; [exact V|]. split; [exact N|]. destruct (G _ eq_refl) as [G1 G2]. specialize (E _ eq_refl). assert (M := Mx V N). fold xs in G1, G2, E, Dt. inversion G1; subst. inversion G2; subst. split.
    + destruct dur as [e| |]; [|exact I|exact Dt]. destruct Dt as (t & Dt & _). exists (Theories.sort_of (with_theories i) t). exact (exp_sound parse fuel i es ds F O _ _ M e t Dt).
    + split; [|apply timed_eff_all; eauto]. apply (timed_all _ (fun g => gd_ok es ds xs g /\ no_rebinding (map fst xs) g)). exists wgs. split; [reflexivity|]. match goal with A : Forall (gd_ok _ _ _) _, B : Forall (no_rebinding _) _ |- _ => rewrite Forall_forall in A, B |- *; auto end.
  - intros (V & N & Dt & G & E). destruct pre as [cs|]; [|destruct G]. destruct eff as [fs|]; [|destruct E]. apply (timed_all _ (fun g => gd_ok es ds xs g /\ no_rebinding (map fst xs) g)) in G as (wgs & -> & G). apply timed_eff_all in E as (bfs & -> & E). assert (M := Mx V N).
    destruct (proj2 (action_accept parse fuel i es ds F O n params (Some (GAnd (map snd wgs))) (Some (map snd bfs)))) as (a & d & Ra).
    + split; [exact V|]. split; [exact N|]. split; [|intros f Q; injection Q as <-; exact E]. intros g Q. injection Q as <-. fold xs. rewrite Forall_forall in G. split; constructor; apply Forall_forall; intros g Hg; exact (match G g Hg with conj A B => ltac:(first [exact A|exact B]) end).
    + destruct (action_durative _ _ _ _ _ _ dur _ _ _ _ Ra) as (b & Rb); [|eauto]. fold xs. destruct dur as [e| |]; [|exact I|exact Dt]. destruct Dt as (s & Dt). destruct (exp_complete parse fuel i es ds F O _ _ M e s Dt) as (u & -> & _). eauto.
Qed.
Theorem init_accept f : (exists a, read_init fuel i [] f = Ok a) <-> init_ok es ds f.
Proof.
  assert (M := matches_empty es).
  assert (Tm : forall t u, read_term fuel i [] t = Ok (ITerm u) -> exists s, has_type es ds [] t s). { intros t u X. apply (term_sound fuel i es ds F O [] [] M) in X as [(t' & Q & X)|[(e & Q) _]]; [eauto|discriminate Q]. }
  assert (It : forall t, (exists x, read_term fuel i [] t = Ok x) <-> ((exists s, has_type es ds [] t s) \/ exists n, t = PId n /\ In n (reserved ++ types_of es ++ map fst (signatures ds)))).
  { intros t. split; [intros (x & X); apply (term_sound fuel i es ds F O [] [] M) in X as [(t' & -> & X)|[_ X]]; [left; eauto|right; exact X]|]. intros [(s & X)|(n & -> & Hn)]; [destruct (proj1 (terms_complete fuel i es ds F O [] [] M) t s X) as (u & -> & _); eauto|]. cbn [read_term]. destruct (fa_used _ _ _ F n Hn) as (e & ->). cbn [semantic bind]. eauto. }
  destruct f as [p ts|p ts|t c|t n|t u|t u|]; cbn [read_init init_ok].
  - split.
    + intros (a & R). apply bind_some in R as (its & S & R). apply bind_some in R as (e & L & R). apply semantic_ok in L. apply bind_some in R as (u & C & _). destruct (call_sound fuel i es ds F O [] [] M p e its u ts L C (all_read fuel i es ds F O [] [] M ts its S)) as (ss & A & B). eauto.
    + intros (ss & cod & A & B). destruct (call_complete fuel i es ds F [] p ss cod ts A) as (its & u & -> & L & C & _); [|cbn [bind]; rewrite L; cbn [semantic bind]; rewrite C; eexists; reflexivity].
      apply (readable_iff fuel i es ds F O [] [] M); [|exact B]. exact (proj1 (symbol_args i es ds F p ss cod A)).
  - split; [|tauto]. intros (a & R). apply bind_some in R as (its & S & R). apply bind_some in R as (e & L & R). apply bind_some in R as (u & C & R). discriminate R.
  - rewrite <- It. split; [intros (a & R); apply bind_some in R as (x & X & _); eauto|intros (x & ->); eexists; reflexivity].
  - rewrite <- It. split.
    + intros (a & R). apply bind_some in R as (x & X & R). apply bind_some in R as (e & L & R). apply semantic_ok in L. split; [eauto|]. destruct (fa_elem _ _ _ F n e L) as [[-> H]|[(s & -> & H)|(ss & -> & H)]]; [discriminate R|eauto|discriminate R].
    + intros [(x & ->) (s & H)]. cbn [bind]. destruct (proj1 (terms_complete fuel i es ds F O [] [] M) (PId n) s (ht_object es ds [] n s H)) as (u & Ru & _). cbn [read_term] in Ru. apply bind_some in Ru as (e & -> & Q). cbn [bind]. destruct (item_of e); [eexists; reflexivity|discriminate Q].
  - rewrite <- It. split.
    + intros (a & R). apply bind_some in R as (x & X & R). apply bind_some in R as (y & Y & R). destruct y as [v|]; [|discriminate R]. split; [eauto|eauto].
    + intros [(x & ->) (s & H)]. cbn [bind]. destruct (proj1 (terms_complete fuel i es ds F O [] [] M) u s H) as (v & -> & _). eexists. reflexivity.
  - split; [|tauto]. intros (a & R). apply bind_some in R as (x & X & R). apply bind_some in R as (y & Y & R). discriminate R.
  - split; [|tauto]. intros (a & R). discriminate R.
Qed.
End Accept.
