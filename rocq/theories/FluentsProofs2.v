(** Proofs about the passes and the loop of the fluent/static analysis *)
From Verif Require Import Base Syntax ListUtil Subst SubstProofs QElim Effects Represent Fluents FluentsSpec PropsFol2 FluentsProofs.

Definition targeted (acts : list action) (r : tref) : Prop := exists a e, In a acts /\ In e (a_effs a) /\ effect_target e r.
Definition read_by (acts : list action) (r : tref) : Prop := exists a, In a acts /\ (atom_of (a_pre a) r \/ exists e, In e (a_effs a) /\ atom_of (econd e) r).
Definition nodups (s : list tref * list tref) : Prop := NoDup (fst s) /\ NoDup (snd s).
Lemma gs_effect_spec e s : match gs_effect e s with
  | Ok s' => (forall c, e <> EOther c) /\ (forall r, In r (fst s') <-> In r (fst s) \/ effect_target e r) /\ (forall r, In r (snd s') <-> In r (snd s) \/ atom_of (econd e) r) /\ (nodups s -> nodups s')
  | Err x => x = RuntimeError /\ exists c, e = EOther c end.
Proof.
  assert (Q : forall r, In r (pv_formula (econd e) (snd s)) <-> In r (snd s) \/ atom_of (econd e) r) by (intros; apply pv_formula_In).
  destruct e as [c a|c a|i c l h|c vs es|c l|c]; cbn [gs_effect fst snd]; try (split; [discriminate|split; [|split; [exact Q|intros [N1 N2]; split; cbn; auto using ev_formula_NoDup, pv_formula_NoDup, ev_term_NoDup]]]).
  - intros r. rewrite ev_formula_In. split; (intros [?|H]; [auto|right]); [constructor; auto|inversion H; auto].
  - intros r. rewrite ev_formula_In. split; (intros [?|H]; [auto|right]); [constructor; auto|inversion H; auto].
  - intros r. rewrite ev_term_In. split; (intros [?|H]; [auto|right]); [constructor; auto|inversion H; auto].
  - intros r. split; [auto|]. intros [?|H]; [auto|inversion H].
  - intros r. rewrite ev_formula_In. split; (intros [?|H]; [auto|right]); [constructor; auto|inversion H; auto].
  - split; [auto|eauto].
Qed.
Lemma gs_effects_spec es : forall s, match gs_effects es s with
  | Ok s' => (forall e c, In e es -> e <> EOther c) /\ (forall r, In r (fst s') <-> In r (fst s) \/ exists e, In e es /\ effect_target e r) /\
             (forall r, In r (snd s') <-> In r (snd s) \/ exists e, In e es /\ atom_of (econd e) r) /\ (nodups s -> nodups s')
  | Err x => x = RuntimeError /\ exists e c, In e es /\ e = EOther c end.
Proof.
  induction es as [|e es IH]; intros s; cbn [gs_effects].
  - split; [intros ? ? []|]. split; [|split; [|auto]]; intros r; (split; [auto|intros [?|(e & [] & _)]; auto]).
  - assert (E := gs_effect_spec e s). destruct (gs_effect e s) as [s1|x]; cbn [bind].
    + specialize (IH s1). destruct (gs_effects es s1) as [s'|x].
      * destruct E as (E1 & E2 & E3 & E4), IH as (I1 & I2 & I3 & I4). split; [intros g c [<-|H]; auto|]. split; [|split; [|auto]].
        -- intros r. rewrite I2, E2. split; [intros [[?|?]|(g & Hg & ?)]; [auto|right; exists e; cbn; auto|right; exists g; cbn; auto]|intros [?|(g & [<-|Hg] & ?)]; [auto|auto|right; eauto]].
        -- intros r. rewrite I3, E3. split; [intros [[?|?]|(g & Hg & ?)]; [auto|right; exists e; cbn; auto|right; exists g; cbn; auto]|intros [?|(g & [<-|Hg] & ?)]; [auto|auto|right; eauto]].
      * destruct IH as (-> & g & c & Hg & ->). split; [auto|]. exists (EOther c), c. cbn; auto.
    + destruct E as (-> & c & ->). split; [auto|]. exists (EOther c), c. cbn; auto.
Qed.
Lemma gs_actions_spec acts : forall s, match gs_actions acts s with
  | Ok s' => analysable acts /\ (forall r, In r (fst s') <-> In r (fst s) \/ targeted acts r) /\ (forall r, In r (snd s') <-> In r (snd s) \/ read_by acts r) /\ (nodups s -> nodups s')
  | Err x => x = RuntimeError /\ ~ analysable acts end.
Proof.
  induction acts as [|a acts IH]; intros s; cbn [gs_actions].
  - split; [intros ? ? ? []|]. split; [|split; [|auto]]; intros r; (split; [auto|intros [?|H]; [auto|]]); [destruct H as (a & e & [] & _)|destruct H as (a & [] & _)].
  - assert (E := gs_effects_spec (a_effs a) (fst s, pv_formula (a_pre a) (snd s))). destruct (gs_effects (a_effs a) _) as [s1|x]; cbn [bind].
    + specialize (IH s1). destruct E as (E1 & E2 & E3 & E4). cbn [fst snd] in *. destruct (gs_actions acts s1) as [s'|x].
      * destruct IH as (I1 & I2 & I3 & I4). split; [intros b e c [<-|Hb] He; [eauto|eapply I1; eauto]|]. split; [|split].
        -- intros r. rewrite I2, E2. split.
           ++ intros [[?|(e & He & ?)]|(b & e & Hb & ?)]; [auto|right; exists a, e; cbn; auto|right; exists b, e; cbn; tauto].
           ++ intros [?|(b & e & [<-|Hb] & He & ?)]; [auto|left; right; eauto|right; exists b, e; auto].
        -- intros r. rewrite I3, E3, pv_formula_In. split.
           ++ intros [[[?|?]|(e & He & ?)]|(b & Hb & ?)]; [auto|right; exists a; cbn; auto|right; exists a; split; [left; auto|right; exists e; auto]|right; exists b; cbn; auto].
           ++ intros [?|(b & [<-|Hb] & [?|(e & He & ?)])]; [auto|auto|left; right; eauto|right; exists b; auto|right; exists b; eauto].
        -- intros [N1 N2]. apply I4, E4. split; cbn; [auto|now apply pv_formula_NoDup].
      * destruct IH as (-> & N). split; [auto|]. intros K. apply N. intros b e c Hb. apply K. now right.
    + destruct E as (-> & e & c & He & ->). split; [auto|]. intros K. eapply (K a _ c); [left; reflexivity|exact He|reflexivity].
Qed.
Definition fullb (F : list tref) (c : cform) : bool := forallb (fun r => rmem r F) (v_vis (cv_formula false c {| v_fl := []; v_st := []; v_vis := [] |})).
Lemma fullb_spec F c : fullb F c = true <-> forall r, refs c r -> In r F.
Proof.
  unfold fullb. rewrite forallb_forall. assert (V := vi_vis _ _ _ _ (cv_visits c false {| v_fl := []; v_st := []; v_vis := [] |})). cbn [v_vis] in V. split; intros H r Hr.
  - apply rmem_In, H, V. auto.
  - apply rmem_In, H. apply V in Hr as [[]|?]; auto.
Qed.
Lemma constraints_spec cs : forall s, let s' := fold_left gs_constraint cs s in
  (forall r, In r (fst s) -> In r (fst s')) /\ (forall c r, In c cs -> occurs c true r -> ~ ref_builtin r -> In r (fst s')) /\
  (forall r, In r (snd s') <-> In r (snd s) \/ exists c, In c cs /\ occurs c false r) /\
  (forall X : tref -> Prop, (forall r, In r (fst s) -> X r) -> (forall c r, In c cs -> occurs c true r -> ~ ref_builtin r -> X r) ->
    (forall c k fs r r', In c cs -> subformula (KComp k fs) c -> refs (KComp k fs) r -> X r -> refs (KComp k fs) r' -> X r') -> forall r, In r (fst s') -> X r) /\
  (nodups s -> nodups s') /\
  ((forall r, In r (fst s') -> In r (fst s)) -> forall c k fs r r', In c cs -> subformula (KComp k fs) c -> refs (KComp k fs) r -> In r (fst s) -> refs (KComp k fs) r' -> In r' (fst s)) /\
  ((forall c r, In c cs -> occurs c true r -> ~ ref_builtin r -> In r (fst s)) -> forall x, In x (fst s') -> ~ In x (fst s) -> exists c, In c cs /\ fullb (fst s) c = false /\ fullb (fst s') c = true).
Proof.
  induction cs as [|c cs IH]; intros s; cbn [fold_left]; cbn zeta.
  - split; [auto|]. split; [intros ? ? []|]. split; [intros r; split; [auto|intros [?|(c & [] & _)]; auto]|]. split; [auto|]. split; [auto|]. split; [intros _ ? ? ? ? ? []|]. tauto.
  - set (s1 := gs_constraint s c). specialize (IH s1). cbn zeta in IH. set (s' := fold_left gs_constraint cs s1) in *. destruct IH as (I1 & I2 & I3 & I4 & I5 & I6 & I7).
    set (v := {| v_fl := fst s; v_st := snd s; v_vis := [] |}). assert (V := cv_visits c false v). assert (E1 : fst s1 = v_fl (cv_formula false c v)) by reflexivity. assert (E2 : snd s1 = v_st (cv_formula false c v)) by reflexivity.
    destruct V as [V1 V2 V3 V4 V5 V6]. rewrite <- E1, <- ?E2 in *. cbn [v v_fl v_st v_vis] in V3, V2, V5.
    assert (N1 : forall r, occurs c true r -> ~ ref_builtin r -> In r (fst s1)) by (intros r Ho N; apply (V4 r true); auto).
    split; [auto|]. split; [intros g r [<-|Hg] Ho N; eauto|]. split; [|split; [|split; [|split]]].
    + intros r. rewrite I3, V2. split; [intros [[?|[_ ?]]|(g & Hg & ?)]; [auto|right; exists c; cbn; auto|right; exists g; cbn; auto]|intros [?|(g & [<-|Hg] & ?)]; [auto|auto|right; eauto]].
    + intros X X1 X2 X3. apply I4; [|intros g r Hg; apply X2; right; auto|intros g k fs r r' Hg; apply X3; right; auto]. apply V5; [auto|intros r b Ho Eb; cbn in Eb; subst b; apply (X2 c); auto; left; auto|intros k fs r r'; apply (X3 c); left; auto].
    + intros [A B]. apply I5. destruct V6 as (W1 & W2 & W3); [split; [|split]; cbn; auto; constructor|]. split; [rewrite E1|rewrite E2]; auto.
    + intros K g k fs r r' [<-|Hg] Hs Hr Hin Hr'.
      * apply K, I1. rewrite E1. eapply (cv_complete c false v eq_refl k fs r r'); eauto.
      * apply K, I1. apply (I6 (fun y Hy => V3 y (K y Hy)) g k fs r r'); auto.
    + intros K x Hx Nx. destruct (rmem x (fst s1)) eqn:Em.
      * apply rmem_In in Em. assert (Fu : forall r, refs c r -> In r (fst s1)). { rewrite E1 in *. apply (cv_full c false v eq_refl) with (x := x); auto. intros r b Ho Eb N. cbn in Eb. subst b. apply (K c); auto. left; auto. }
        exists c. split; [left; auto|]. split; [|apply fullb_spec; auto]. destruct (fullb (fst s) c) eqn:Ef; [|auto]. exfalso. rewrite fullb_spec in Ef. apply Nx. rewrite E1 in Em. apply cv_within in Em as [?|?]; auto.
      * apply rmem_not in Em. destruct (I7 ltac:(intros g r Hg Ho N; apply V3; apply (K g); auto; right; auto) x Hx Em) as (g & Hg & Hf & Hf'). exists g. split; [right; auto|]. split; [|auto].
        destruct (fullb (fst s) g) eqn:Eg; [|auto]. rewrite fullb_spec in Eg. exfalso. assert (T : fullb (fst s1) g = true) by (apply fullb_spec; auto). congruence.
Qed.

(** * One pass *)
Definition based (acts : list action) (cs : list cform) (F : list tref) : Prop := (forall r, targeted acts r -> In r F) /\ forall c r, In c cs -> occurs c true r -> ~ ref_builtin r -> In r F.
Lemma mentioned_iff acts cs r : mentioned acts cs r <-> read_by acts r \/ exists c, In c cs /\ occurs c false r.
Proof.
  split.
  - intros [a r' Ha H|a e r' Ha He H|c r' Hc H]; [left; exists a; auto|left; exists a; split; [auto|right; exists e; auto]|right; eauto].
  - intros [(a & Ha & [H|(e & He & H)])|(c & Hc & H)]; [eapply me_pre|eapply me_cond|eapply me_constraint]; eauto.
Qed.
Lemma target_user e r : effect_target e r -> ~ ref_builtin r.
Proof.
  assert (T : forall t r, term_target t r -> ~ ref_builtin r) by (induction 1; auto).
  assert (Q : forall f r, formula_target f r -> ~ ref_builtin r) by (induction 1; auto; eapply T; eauto).
  intros H. inversion H; subst; eauto.
Qed.
Lemma fluent_user acts cs r : fluent acts cs r -> ~ ref_builtin r.
Proof. induction 1; auto. eapply target_user; eauto. Qed.
Lemma pass_spec acts cs s : match gs_problem acts cs s with
  | Ok s' => analysable acts /\ (forall r, In r (fst s) -> In r (fst s')) /\ based acts cs (fst s') /\ ((forall r, In r (fst s) -> fluent acts cs r) -> forall r, In r (fst s') -> fluent acts cs r) /\
      (forall r, In r (snd s') <-> In r (snd s) \/ mentioned acts cs r) /\ ((forall r, In r (fst s') -> In r (fst s)) -> forall r, fluent acts cs r -> In r (fst s)) /\ (nodups s -> nodups s') /\
      (based acts cs (fst s) -> forall x, In x (fst s') -> ~ In x (fst s) -> exists c, In c cs /\ fullb (fst s) c = false /\ fullb (fst s') c = true)
  | Err x => x = RuntimeError /\ ~ analysable acts end.
Proof.
  unfold gs_problem. assert (A := gs_actions_spec acts s). destruct (gs_actions acts s) as [s1|x]; cbn [bind]; [|exact A]. destruct A as (A1 & A2 & A3 & A4).
  assert (C := constraints_spec cs s1). cbn zeta in C. set (s' := fold_left gs_constraint cs s1) in *. destruct C as (C1 & C2 & C3 & C4 & C5 & C6 & C7).
  assert (M : forall r, In r (fst s) -> In r (fst s1)) by (intros; apply A2; auto).
  split; [auto|]. split; [auto|]. split; [split; [intros r H; apply C1, A2; auto|exact C2]|]. split; [|split; [|split; [|split; [auto|]]]].
  - intros K. apply C4.
    + intros r H. apply A2 in H as [H|(a & e & Ha & He & H)]; [auto|eapply fluent_effect; eauto].
    + intros c r Hc Ho N. eapply fluent_next; eauto.
    + intros c k fs r r' Hc Hs ((b & Hb) & _) Hr ((b' & Hb') & N). eapply fluent_linked; [exact Hc|exact Hs|exact Hb|exact Hb'|exact N|exact Hr].
  - intros r. rewrite C3, A3, mentioned_iff. tauto.
  - intros K. assert (K1 : forall r, In r (fst s') -> In r (fst s1)) by auto. induction 1 as [a e r Ha He H|c r Hc Ho N|c k fs b b' r r' Hc Hs Hb Hb' N Hf IH].
    + apply K, C1, A2. right. exists a, e. auto.
    + apply K. eapply C2; eauto.
    + apply K, C1. eapply (C6 K1 c k fs r r'); [auto|auto|split; [eauto|eapply fluent_user; eauto]|apply M, IH|split; [eauto|auto]].
  - intros [B1 B2] x Hx Nx. assert (E : forall r, In r (fst s1) <-> In r (fst s)) by (intros r; split; [intros H; apply A2 in H as [?|?]; auto|auto]).
    destruct (C7 (fun c r H1 H2 H3 => M r (B2 c r H1 H2 H3)) x Hx (fun H => Nx (proj1 (E x) H))) as (c & Hc & F1 & F2). exists c. split; [auto|]. split; [|auto].
    destruct (fullb (fst s) c) eqn:Ef; [|auto]. rewrite fullb_spec in Ef. assert (T : fullb (fst s1) c = true) by (apply fullb_spec; auto). congruence.
Qed.

(** * The loop *)
Definition loop_state (acts : list action) (cs : list cform) (s : list tref * list tref) (own : option (list tref)) (o_f o_s : nat) : Prop :=
  nodups s /\ (forall r, In r (fst s) -> fluent acts cs r) /\ o_f = List.length (fst s) /\ (forall r, In r (snd s) -> mentioned acts cs r) /\
  match own with
  | None => s = ([], []) /\ o_s = 0
  | Some l => (forall r, In r l <-> mentioned acts cs r /\ ~ In r (fst s)) /\ NoDup l /\ o_s = List.length l /\ based acts cs (fst s)
  end.
Definition statics_of (own : option (list tref)) (s' : list tref * list tref) : list tref := filter (fun r => negb (rmem r (fst s'))) (match own with None => snd s' | Some l => l end).
Lemma loop_next acts cs s own o_f o_s s' : loop_state acts cs s own o_f o_s -> gs_problem acts cs s = Ok s' ->
  (forall r, In r (statics_of own s') <-> mentioned acts cs r /\ ~ In r (fst s')) /\ NoDup (statics_of own s') /\
  loop_state acts cs s' (Some (statics_of own s')) (List.length (fst s')) (List.length (statics_of own s')) /\ (List.length (fst s') = o_f -> forall r, In r (fst s') -> In r (fst s)).
Proof.
  intros (L1 & L2 & L3 & L4 & L5) Hp. assert (P := pass_spec acts cs s). rewrite Hp in P. destruct P as (P1 & P2 & P3 & P4 & P5 & P6 & P7 & P8).
  assert (S : forall r, In r (statics_of own s') <-> mentioned acts cs r /\ ~ In r (fst s')).
  { intros r. unfold statics_of. rewrite filter_In, negb_true_iff, rmem_not. destruct own as [l|].
    - destruct L5 as (L5 & _). rewrite L5. split; [tauto|]. intros [H1 H2]. split; [split; [auto|]|auto]. intros H. auto.
    - destruct L5 as [-> _]. rewrite P5. cbn. tauto. }
  assert (N : NoDup (statics_of own s')). { unfold statics_of. apply NoDup_filter. destruct own as [l|]; [apply L5|apply (P7 L1)]. }
  split; [auto|]. split; [auto|]. split.
  - split; [auto|]. split; [auto|]. split; [auto|]. split; [intros r H; apply P5 in H as [?|?]; auto|]. auto.
  - intros E r H. assert (Le : List.length (fst s') <= List.length (fst s)) by lia. exact (NoDup_length_incl (proj1 L1) Le P2 r H).
Qed.
Lemma loop_sound n : forall acts cs s own o_f o_s F S, loop_state acts cs s own o_f o_s -> ps_loop n acts cs s own o_f o_s = Ok (F, S) ->
  (forall r, In r F <-> fluent acts cs r) /\ (forall r, In r S <-> mentioned acts cs r /\ ~ fluent acts cs r) /\ NoDup F /\ NoDup S.
Proof.
  induction n as [|n IH]; intros acts cs s own o_f o_s F S L H; cbn [ps_loop] in H; [discriminate|]. destruct (gs_problem acts cs s) as [s'|x] eqn:Hp; [|discriminate]. cbn [bind] in H. cbn zeta in H.
  fold (statics_of own s') in H. destruct (loop_next _ _ _ _ _ _ _ L Hp) as (A & B & C & D). destruct (Nat.eqb _ o_f && Nat.eqb _ o_s) eqn:E; [|eapply IH; eauto].
  apply andb_true_iff in E as [E _]. apply Nat.eqb_eq in E. injection H as <- <-. assert (P := pass_spec acts cs s). rewrite Hp in P. destruct P as (P1 & P2 & P3 & P4 & P5 & P6 & P7 & P8).
  assert (Q : forall r, In r (fst s') <-> fluent acts cs r). { intros r. split; [apply P4, L|]. intros H. apply P2, P6; auto. }
  split; [auto|]. split; [intros r; rewrite A, Q; tauto|]. split; [apply (P7 (proj1 L))|auto].
Qed.
Definition open_constraints (F : list tref) (cs : list cform) : nat := List.length (filter (fun c => negb (fullb F c)) cs).
Lemma open_le F cs : open_constraints F cs <= List.length cs.
Proof. unfold open_constraints. induction cs as [|c cs IH]; cbn; [lia|]. destruct (negb _); cbn; lia. Qed.
Lemma open_mono F F' cs : (forall r, In r F -> In r F') -> open_constraints F' cs <= open_constraints F cs.
Proof.
  intros H. unfold open_constraints. induction cs as [|c cs IH]; cbn; [lia|]. destruct (fullb F c) eqn:E; cbn [negb].
  - rewrite fullb_spec in E. assert (T : fullb F' c = true) by (apply fullb_spec; auto). rewrite T. cbn. lia.
  - destruct (fullb F' c); cbn; lia.
Qed.
Lemma open_less F F' cs c : (forall r, In r F -> In r F') -> In c cs -> fullb F c = false -> fullb F' c = true -> open_constraints F' cs < open_constraints F cs.
Proof.
  intros H Hc E E'. induction cs as [|d cs IH]; [destruct Hc|]. destruct Hc as [->|Hc].
  - unfold open_constraints. cbn. rewrite E, E'. cbn. assert (M := open_mono F F' cs H). unfold open_constraints in M. lia.
  - specialize (IH Hc). unfold open_constraints in *. cbn. destruct (fullb F d) eqn:Ed; cbn [negb].
    + rewrite fullb_spec in Ed. assert (T : fullb F' d = true) by (apply fullb_spec; auto). rewrite T. cbn. lia.
    + destruct (fullb F' d); cbn; lia.
Qed.
Lemma filter_all {A} (f : A -> bool) l : (forall x, In x l -> f x = true) -> filter f l = l.
Proof. induction l as [|x l IH]; intros H; [auto|]. cbn. rewrite (H x (or_introl eq_refl)), IH; [auto|]. intros; apply H; right; auto. Qed.
Lemma loop_ends n : forall acts cs s l o_f o_s, analysable acts -> loop_state acts cs s (Some l) o_f o_s -> open_constraints (fst s) cs < n -> exists F S, ps_loop n acts cs s (Some l) o_f o_s = Ok (F, S).
Proof.
  induction n as [|n IH]; intros acts cs s l o_f o_s An L Hn; [lia|]. cbn [ps_loop]. assert (P := pass_spec acts cs s). destruct (gs_problem acts cs s) as [s'|x] eqn:Hp; [|tauto]. cbn [bind]. cbn zeta.
  fold (statics_of (Some l) s'). destruct (loop_next _ _ _ _ _ _ _ L Hp) as (A & B & C & D). destruct (Nat.eqb _ o_f && Nat.eqb _ o_s) eqn:E; [eauto|].
  apply IH; [auto|auto|]. destruct P as (P1 & P2 & P3 & P4 & P5 & P6 & P7 & P8). destruct L as (L1 & L2 & L3 & L4 & L5 & L6 & L7 & L8).
  assert (X : exists x, In x (fst s') /\ ~ In x (fst s)).
  { destruct (existsb (fun x => negb (rmem x (fst s))) (fst s')) eqn:Ex.
    - apply existsb_exists in Ex as (x & Hx & Nx). exists x. split; [auto|]. now apply negb_true_iff, rmem_not in Nx.
    - exfalso. assert (I : forall x, In x (fst s') -> In x (fst s)).
      { intros x Hx. destruct (rmem x (fst s)) eqn:Em; [now apply rmem_In|]. assert (T : existsb (fun x => negb (rmem x (fst s))) (fst s') = true) by (apply existsb_exists; exists x; split; [auto|now rewrite Em]). congruence. }
      assert (Le : List.length (fst s') = o_f). { assert (N' := P7 L1). assert (X1 := NoDup_incl_length (proj1 L1) P2). assert (X2 := NoDup_incl_length (proj1 N') I). lia. }
      assert (Ls : statics_of (Some l) s' = l). { unfold statics_of. apply filter_all. intros x Hx. apply negb_true_iff, rmem_not. intros K. apply I in K. apply L5 in Hx. tauto. }
      rewrite Ls, Le, L7, !Nat.eqb_refl in E. discriminate. }
  destruct X as (x & Hx & Nx). destruct (P8 L8 x Hx Nx) as (c & Hc & F1 & F2). assert (Y := open_less (fst s) (fst s') cs c P2 Hc F1 F2). lia.
Qed.
Lemma initial_state acts cs : loop_state acts cs ([], []) None 0 0.
Proof. split; [split; constructor|]. split; [intros ? []|]. split; [auto|]. split; [intros ? []|]. auto. Qed.
