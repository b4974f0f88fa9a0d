(** C71: problems keep what they are given *)
From Coq Require Import Lia.
From Verif Require Import Base Syntax ModelState ModelProofs Lang Effects Containers ContainersSpec.
#[local] Open Scope list_scope.

Lemma snoc_cases : forall (X : Type) (h : list X) x h1 y h2, h ++ [x] = h1 ++ y :: h2 -> (h1 = h /\ y = x /\ h2 = []) \/ exists h2', h2 = h2' ++ [x] /\ h = h1 ++ y :: h2'.
Proof.
  intros X h x h1 y h2 E. destruct h2 as [|z h2] using rev_ind.
  - apply app_inj_tail in E as [-> ->]. now left.
  - right. exists h2. rewrite app_comm_cons, app_assoc in E. apply app_inj_tail in E as [-> ->]. auto.
Qed.

(** A register that keeps the first acceptable definition *)
Section Registers.
Variable A : Type.
Variable defines : request -> option (string * A).
Variable acceptable : list request -> string -> A -> Prop.
Variable acc : list request -> string -> A -> bool.
Hypothesis acc_spec : forall h n a, acc h n a = true <-> acceptable h n a.
Variable reg : list request -> list (string * A).
Hypothesis reg_nil : reg [] = [].
Notation first := (first_definition A defines acceptable).
Notation last := (last_definition A defines acceptable).
Notation undef := (undefined A defines acceptable).
Lemma undef_snoc : forall h q n, undef (h ++ [q]) n <-> undef h n /\ forall a, ~ accepted_at A defines acceptable h q n a.
Proof.
  intros h q n. split.
  - intros U. split; [|intros a; now apply (U h q [] a)]. intros h1 q' h2 a E. apply (U h1 q' (h2 ++ [q]) a). now rewrite E, <- app_assoc.
  - intros [U V] h1 q' h2 a E. apply snoc_cases in E as [(-> & -> & ->) | (h2' & -> & ->)]; [apply V | now apply (U h1 q' h2' a)].
Qed.
Section First.
Hypothesis reg_snoc : forall h q, reg (h ++ [q]) = match defines q with Some (n, a) => if defined (reg h) n then reg h else if acc h n a then dset String.eqb (reg h) n a else reg h | None => reg h end.
Lemma first_snoc : forall h q n a, first (h ++ [q]) n a <-> first h n a \/ (undef h n /\ accepted_at A defines acceptable h q n a).
Proof.
  intros h q n a. split.
  - intros (h1 & q' & h2 & E & Ac & F). apply snoc_cases in E as [(-> & -> & ->) | (h2' & -> & ->)].
    + right. split; [exact F|exact Ac].
    + left. exists h1, q', h2'. auto.
  - intros [(h1 & q' & h2 & -> & Ac & F) | [U Ac]].
    + exists h1, q', (h2 ++ [q]). split; [now rewrite <- app_assoc|auto].
    + exists h, q, []. auto.
Qed.
Lemma first_register : forall h, (forall n a, sget (reg h) n = Some a <-> first h n a) /\ forall n, sget (reg h) n = None <-> undef h n.
Proof.
  induction h as [|q h [IH1 IH2]] using rev_ind.
  - rewrite reg_nil. split.
    + intros n a. split; [discriminate|]. intros (h1 & q & h2 & E & _). destruct h1; discriminate.
    + intros n. split; [|reflexivity]. intros _ h1 q h2 a E. destruct h1; discriminate.
  - rewrite reg_snoc. assert (St : forall n a, sget (match defines q with Some (n0, a0) => if defined (reg h) n0 then reg h else if acc h n0 a0 then dset String.eqb (reg h) n0 a0 else reg h | None => reg h end) n = Some a <->
        sget (reg h) n = Some a \/ (sget (reg h) n = None /\ accepted_at A defines acceptable h q n a)).
    { intros n a. unfold accepted_at. destruct (defines q) as [[n0 a0]|]; [|split; [now left | intros [H | (_ & H & _)]; [exact H|discriminate]]]. unfold defined.
      destruct (sget (reg h) n0) as [b|] eqn:Eb.
      - split; [now left|]. intros [H | (N & H & _)]; [exact H|]. injection H as -> ->. congruence.
      - destruct (acc h n0 a0) eqn:Ea.
        + unfold sget in *. rewrite dget_dset by exact String.eqb_eq. destruct (String.eqb_spec n0 n) as [<- | Nn].
          * split; [intros H; injection H as ->; right; split; [exact Eb|split; [reflexivity|now apply acc_spec]] | intros [H | (_ & H & _)]; [congruence|now injection H as ->]].
          * split; [now left|]. intros [H | (_ & H & _)]; [exact H|]. now injection H as -> ->.
        + split; [now left|]. intros [H | (_ & H & Q)]; [exact H|]. injection H as -> ->. apply acc_spec in Q. congruence. }
    split.
    + intros n a. rewrite St, first_snoc, IH1, IH2. tauto.
    + intros n. rewrite undef_snoc, <- IH2. split.
      * intros N. split.
        { destruct (sget (reg h) n) as [a|] eqn:E; [|reflexivity]. exfalso. pose proof (proj2 (St n a) (or_introl E)). congruence. }
        { intros a Ac. destruct (sget (reg h) n) as [b|] eqn:E; [pose proof (proj2 (St n b) (or_introl E)); congruence|]. pose proof (proj2 (St n a) (or_intror (conj E Ac))). congruence. }
      * intros [N V]. match goal with |- ?x = None => destruct x as [a|] eqn:E; [|reflexivity] end. apply St in E as [E | [_ Ac]]; [congruence | now apply V in Ac].
Qed.
(** definitions stay where they are *)
Lemma first_grows : forall h h', exists more, reg (h ++ h') = reg h ++ more.
Proof.
  intros h h'. induction h' as [|q h' (more & IH)] using rev_ind; [exists []; now rewrite !app_nil_r|]. rewrite app_assoc, reg_snoc, IH.
  destruct (defines q) as [[n a]|]; [|eauto]. destruct (defined (reg h ++ more) n) eqn:D; [eauto|]. destruct (acc (h ++ h') n a); [|eauto]. exists (more ++ [(n, a)]). rewrite app_assoc.
  unfold defined, sget in D. clear - D. induction (reg h ++ more) as [|[k v] l IH]; cbn in *; [reflexivity|]. destruct (String.eqb k n); [discriminate|]. now rewrite IH.
Qed.
End First.
Section Last.
Hypothesis reg_snoc : forall h q, reg (h ++ [q]) = match defines q with Some (n, a) => if acc h n a then dset String.eqb (reg h) n a else reg h | None => reg h end.
Lemma last_register : forall h, (forall n a, sget (reg h) n = Some a <-> last h n a) /\ forall n, sget (reg h) n = None <-> undef h n.
Proof.
  assert (LS : forall h q n a, last (h ++ [q]) n a <-> accepted_at A defines acceptable h q n a \/ (last h n a /\ forall a', ~ accepted_at A defines acceptable h q n a')).
  { intros h q n a. split.
    - intros (h1 & q' & h2 & E & Ac & F). apply snoc_cases in E as [(-> & -> & ->) | (h2' & -> & ->)]; [now left|]. right. split.
      + exists h1, q', h2'. split; [reflexivity|split; [exact Ac|]]. intros h3 q2 h4 a' ->. apply (F h3 q2 (h4 ++ [q]) a'). now rewrite <- app_assoc.
      + intros a' Ac'. apply (F h2' q [] a' eq_refl Ac').
    - intros [Ac | ((h1 & q' & h2 & -> & Ac & F) & N)].
      + exists h, q, []. split; [reflexivity|split; [exact Ac|]]. intros h3 q' h4 a' E. destruct h3; discriminate.
      + exists h1, q', (h2 ++ [q]). split; [now rewrite <- app_assoc|split; [exact Ac|]]. intros h3 q2 h4 a' E. apply snoc_cases in E as [(-> & -> & ->) | (h4' & -> & ->)]; [apply N | now apply (F h3 q2 h4' a')]. }
  induction h as [|q h [IH1 IH2]] using rev_ind.
  - rewrite reg_nil. split.
    + intros n a. split; [discriminate|]. intros (h1 & q & h2 & E & _). destruct h1; discriminate.
    + intros n. split; [|reflexivity]. intros _ h1 q h2 a E. destruct h1; discriminate.
  - assert (St : forall n, (exists a, accepted_at A defines acceptable h q n a /\ sget (reg (h ++ [q])) n = Some a) \/ ((forall a, ~ accepted_at A defines acceptable h q n a) /\ sget (reg (h ++ [q])) n = sget (reg h) n)).
    { intros n. rewrite reg_snoc. unfold accepted_at. destruct (defines q) as [[n0 a0]|]; [|right; split; [intros a [E _]; discriminate|reflexivity]]. destruct (acc h n0 a0) eqn:Ea.
      - unfold sget. rewrite dget_dset by exact String.eqb_eq. destruct (String.eqb_spec n0 n) as [<- | Nn]; [left; exists a0; split; [split; [reflexivity|now apply acc_spec]|reflexivity] | right; split; [intros a [E _]; congruence|reflexivity]].
      - right. split; [|reflexivity]. intros a [E Q]. injection E as -> ->. apply acc_spec in Q. congruence. }
    split.
    + intros n a. rewrite LS. destruct (St n) as [(b & Ac & Eb) | [N Eb]]; rewrite Eb.
      * split; [intros E; injection E as ->; now left|]. intros [[E _] | (_ & N)]; [|now apply N in Ac]. destruct Ac as [E' _]. congruence.
      * rewrite IH1. split; [intros L; right; auto | intros [Ac | [L _]]; [now apply N in Ac|exact L]].
    + intros n. rewrite undef_snoc, <- IH2. destruct (St n) as [(b & Ac & Eb) | [N Eb]]; rewrite Eb; [split; [discriminate|intros [_ V]; now apply V in Ac] | tauto].
Qed.
End Last.
End Registers.

Section Props.
Variable parse : bool -> string -> option Z.
Notation run := (run parse).
Notation step := (step parse).
Lemma run_snoc : forall h q, run (h ++ [q]) = fst (step (run h) q).
Proof. intros h q. unfold Containers.run. now rewrite fold_left_app. Qed.
Lemma run_lang : forall h, p_lang (run h) = lrun parse (declarations h).
Proof.
  induction h as [|q h IH] using rev_ind; [reflexivity|]. rewrite run_snoc. unfold declarations. rewrite flat_map_app. fold (declarations h). unfold lrun. rewrite fold_left_app. fold (lrun parse (declarations h)). rewrite <- IH.
  destruct q as [o|n a|n d|n r|n d|n s]; cbn -[lstep].
  - now destruct (lstep parse (p_lang (run h)) o).
  - now destruct (defined _ _).
  - destruct (defined _ _); [reflexivity|]. now destruct (check_derived _ _ _).
  - now destruct (defined _ _).
  - destruct (defined _ _); [reflexivity|]. now destruct (check_diff _).
  - destruct (defined _ _); [reflexivity|]. now destruct (check_sensor _).
Qed.
Ltac steps q h := rewrite run_snoc; destruct q as [o|n a|n d|n r|n d|n s]; cbn -[lstep]; [now destruct (lstep parse (p_lang (run h)) o)|..].

Definition yes {A} (h : list request) (n : string) (a : A) : bool := true.
Lemma yes_spec : forall A h n (a : A), yes h n a = true <-> anything h n a. Proof. now split. Qed.
Lemma actions_snoc : forall h q, p_actions (run (h ++ [q])) = match an_action q with Some (n, a) => if defined (p_actions (run h)) n then p_actions (run h) else if yes h n a then dset String.eqb (p_actions (run h)) n a else p_actions (run h) | None => p_actions (run h) end.
Proof.
  intros h q. steps q h.
  - now destruct (defined _ _).
  - destruct (defined _ _); [reflexivity|]. now destruct (check_derived _ _ _).
  - now destruct (defined _ _).
  - destruct (defined _ _); [reflexivity|]. now destruct (check_diff _).
  - destruct (defined _ _); [reflexivity|]. now destruct (check_sensor _).
Qed.
Lemma reactions_snoc : forall h q, p_reactions (run (h ++ [q])) = match a_reaction q with Some (n, a) => if defined (p_reactions (run h)) n then p_reactions (run h) else if yes h n a then dset String.eqb (p_reactions (run h)) n a else p_reactions (run h) | None => p_reactions (run h) end.
Proof.
  intros h q. steps q h.
  - now destruct (defined _ _).
  - destruct (defined _ _); [reflexivity|]. now destruct (check_derived _ _ _).
  - now destruct (defined _ _).
  - destruct (defined _ _); [reflexivity|]. now destruct (check_diff _).
  - destruct (defined _ _); [reflexivity|]. now destruct (check_sensor _).
Qed.
Definition ok {A} (r : res A) : bool := match r with Ok _ => true | Err _ => false end.
Definition derived_ok (h : list request) (n : string) (d : derived) : bool := ok (check_derived (lrun parse (declarations h)) n d).
Lemma pairwise : forall (ss : list sort) (vs : list var), List.length vs = List.length ss -> forallb (fun sv => String.eqb (fst sv) (snd (snd sv))) (combine ss vs) = true <-> ss = map snd vs.
Proof.
  induction ss as [|s ss IH]; intros [|v vs] L; cbn in *; try discriminate; [tauto|]. injection L as L. rewrite Bool.andb_true_iff, (IH vs L), String.eqb_eq. split; [intros [-> ->]; reflexivity | intros E; injection E as -> ->; auto].
Qed.
Lemma derived_spec : forall h n d, derived_ok h n d = true <-> fits_predicate parse h n d.
Proof.
  intros h n d. unfold derived_ok, check_derived, fits_predicate. destruct (sget (l_preds (lrun parse (declarations h))) n) as [ss|]; [|split; discriminate].
  destruct (Nat.eqb (List.length (de_parameters d)) (List.length ss)) eqn:L.
  - apply Nat.eqb_eq in L. pose proof (pairwise ss (de_parameters d) L) as P. destruct (forallb _ _) eqn:E.
    + split; [intros _; f_equal; now apply P | reflexivity].
    + split; [discriminate|]. intros Q. injection Q as Q. apply P in Q. discriminate.
  - split; [discriminate|]. intros Q. injection Q as ->. rewrite map_length, Nat.eqb_refl in L. discriminate.
Qed.
Lemma derived_snoc : forall h q, p_derived (run (h ++ [q])) = match a_derived q with Some (n, a) => if defined (p_derived (run h)) n then p_derived (run h) else if derived_ok h n a then dset String.eqb (p_derived (run h)) n a else p_derived (run h) | None => p_derived (run h) end.
Proof.
  intros h q. unfold derived_ok. rewrite <- run_lang. steps q h.
  - now destruct (defined _ _).
  - destruct (defined _ _); [reflexivity|]. now destruct (check_derived _ _ _).
  - now destruct (defined _ _).
  - destruct (defined _ _); [reflexivity|]. now destruct (check_diff _).
  - destruct (defined _ _); [reflexivity|]. now destruct (check_sensor _).
Qed.
Definition sensor_ok (h : list request) (n : string) (s : sensor) : bool := ok (check_sensor s).
Lemma sensor_spec : forall h n s, sensor_ok h n s = true <-> literal_observation h n s.
Proof.
  intros h n s. unfold sensor_ok, check_sensor, literal_observation. destruct (se_obs s) as [| |p ts|c fs|q vs f].
  - split; [discriminate | intros (p & ts & [E | (fs & E)]); discriminate].
  - split; [discriminate | intros (p & ts & [E | (fs & E)]); discriminate].
  - split; [intros _; exists p, ts; now left | reflexivity].
  - split.
    + destruct c; try discriminate. destruct fs as [|[| |p ts| |] fs]; try discriminate. intros _. exists p, ts. right. now exists fs.
    + intros (p & ts & [E | (fs' & E)]); [discriminate|]. injection E as -> ->. reflexivity.
  - split; [discriminate | intros (p & ts & [E | (fs & E)]); discriminate].
Qed.
Lemma sensors_snoc : forall h q, p_sensors (run (h ++ [q])) = match a_sensor q with Some (n, a) => if defined (p_sensors (run h)) n then p_sensors (run h) else if sensor_ok h n a then dset String.eqb (p_sensors (run h)) n a else p_sensors (run h) | None => p_sensors (run h) end.
Proof.
  intros h q. unfold sensor_ok. steps q h.
  - now destruct (defined _ _).
  - destruct (defined _ _); [reflexivity|]. now destruct (check_derived _ _ _).
  - now destruct (defined _ _).
  - destruct (defined _ _); [reflexivity|]. now destruct (check_diff _).
  - destruct (defined _ _); [reflexivity|]. now destruct (check_sensor _).
Qed.
Lemma get_spec : forall (A : Type) (d : list (string * A)) n, (forall a, get d n = Ok a <-> sget d n = Some a) /\ (get d n = Err UndefinedElement <-> sget d n = None).
Proof. intros A d n. unfold get. destruct (sget d n) as [b|]; split; [intros a; split; congruence|split; discriminate|intros a; split; discriminate|split; reflexivity]. Qed.

(** An action that was added is found under its name: the first one that was given that name. All others are found under no name. *)
Theorem C71_actions : forall h n, (forall a, get (p_actions (run h)) n = Ok a <-> first_definition action an_action anything h n a) /\ (get (p_actions (run h)) n = Err UndefinedElement <-> undefined action an_action anything h n).
Proof.
  intros h n. destruct (first_register action an_action anything yes (yes_spec action) (fun h => p_actions (run h)) eq_refl actions_snoc h) as [F U]. destruct (get_spec _ (p_actions (run h)) n) as [G1 G2].
  split; [intros a; now rewrite G1, F | now rewrite G2, U].
Qed.
Theorem C71_reactions : forall h n, (forall a, get (p_reactions (run h)) n = Ok a <-> first_definition reaction a_reaction anything h n a) /\ (get (p_reactions (run h)) n = Err UndefinedElement <-> undefined reaction a_reaction anything h n).
Proof.
  intros h n. destruct (first_register reaction a_reaction anything yes (yes_spec reaction) (fun h => p_reactions (run h)) eq_refl reactions_snoc h) as [F U]. destruct (get_spec _ (p_reactions (run h)) n) as [G1 G2].
  split; [intros a; now rewrite G1, F | now rewrite G2, U].
Qed.
(** A derived predicate is the first definition whose parameters have the sorts that the predicate has in the language at that time. *)
Theorem C71_derived : forall h n, (forall d, get (p_derived (run h)) n = Ok d <-> first_definition derived a_derived (fits_predicate parse) h n d) /\
  (get (p_derived (run h)) n = Err UndefinedElement <-> undefined derived a_derived (fits_predicate parse) h n).
Proof.
  intros h n. destruct (first_register derived a_derived (fits_predicate parse) derived_ok derived_spec (fun h => p_derived (run h)) eq_refl derived_snoc h) as [F U]. destruct (get_spec _ (p_derived (run h)) n) as [G1 G2].
  split; [intros a; now rewrite G1, F | now rewrite G2, U].
Qed.
(** A sensor is the first definition with a literal as its observation. *)
Theorem C71_sensors : forall h n, (forall s, get (p_sensors (run h)) n = Ok s <-> first_definition sensor a_sensor literal_observation h n s) /\
  (get (p_sensors (run h)) n = Err UndefinedElement <-> undefined sensor a_sensor literal_observation h n).
Proof.
  intros h n. destruct (first_register sensor a_sensor literal_observation sensor_ok sensor_spec (fun h => p_sensors (run h)) eq_refl sensors_snoc h) as [F U]. destruct (get_spec _ (p_sensors (run h)) n) as [G1 G2].
  split; [intros a; now rewrite G1, F | now rewrite G2, U].
Qed.
(** Later requests neither change nor move what is there. *)
Theorem C71_grows : forall h h', (exists more, p_actions (run (h ++ h')) = p_actions (run h) ++ more) /\ (exists more, p_derived (run (h ++ h')) = p_derived (run h) ++ more) /\
  (exists more, p_reactions (run (h ++ h')) = p_reactions (run h) ++ more) /\ (exists more, p_sensors (run (h ++ h')) = p_sensors (run h) ++ more).
Proof.
  intros h h'. split; [|split; [|split]].
  - exact (first_grows action an_action yes (fun h => p_actions (run h)) actions_snoc h h').
  - exact (first_grows derived a_derived derived_ok (fun h => p_derived (run h)) derived_snoc h h').
  - exact (first_grows reaction a_reaction yes (fun h => p_reactions (run h)) reactions_snoc h h').
  - exact (first_grows sensor a_sensor sensor_ok (fun h => p_sensors (run h)) sensors_snoc h h').
Qed.

Lemma reaction_known : forall h n, defined (p_reactions (run h)) n = true <-> exists r, In (QReaction n r) h.
Proof.
  intros h n. destruct (first_register reaction a_reaction anything yes (yes_spec reaction) (fun h => p_reactions (run h)) eq_refl reactions_snoc h) as [F U]. unfold defined. destruct (sget (p_reactions (run h)) n) as [r|] eqn:E.
  - split; [intros _|reflexivity]. apply F in E as (h1 & q & h2 & -> & (D & _) & _). destruct q; try discriminate. injection D as -> ->. exists r. apply in_or_app. right. now left.
  - split; [discriminate|]. intros (r & Hr). exfalso. apply in_split in Hr as (h1 & h2 & Eh). apply (proj1 (U n) E h1 (QReaction n r) h2 r Eh). now split.
Qed.
Definition diff_ok (h : list request) (n : string) (d : diffconstraint) : bool := negb (defined (p_reactions (run h)) n) && ok (check_diff d).
Lemma diff_spec : forall h n d, diff_ok h n d = true <-> code_variate h n d.
Proof.
  intros h n d. unfold diff_ok, code_variate. rewrite Bool.andb_true_iff, Bool.negb_true_iff. split.
  - intros [D C]. split; [unfold check_diff in C; destruct (dc_variate d) as [| |f ts|]; try discriminate; eauto|]. intros r Hr. pose proof (proj2 (reaction_known h n) (ex_intro _ r Hr)). congruence.
  - intros [(f & ts & E) N]. split; [|unfold check_diff; now rewrite E]. destruct (defined (p_reactions (run h)) n) eqn:D; [|reflexivity]. apply reaction_known in D as (r & Hr). now apply N in Hr.
Qed.
Lemma diff_snoc : forall h q, p_diff (run (h ++ [q])) = match a_diff q with Some (n, a) => if diff_ok h n a then dset String.eqb (p_diff (run h)) n a else p_diff (run h) | None => p_diff (run h) end.
Proof.
  intros h q. unfold diff_ok. steps q h.
  - now destruct (defined _ _).
  - destruct (defined _ _); [reflexivity|]. now destruct (check_derived _ _ _).
  - now destruct (defined _ _).
  - destruct (defined _ _); [reflexivity|]. now destruct (check_diff _).
  - destruct (defined _ _); [reflexivity|]. now destruct (check_sensor _).
Qed.
(** Differential constraints: what is found is the last definition with a compound term as variate which came before any reaction of that name. *)
Theorem C71_diff : forall h n, (forall d, get (p_diff (run h)) n = Ok d <-> last_definition diffconstraint a_diff code_variate h n d) /\ (get (p_diff (run h)) n = Err UndefinedElement <-> undefined diffconstraint a_diff code_variate h n).
Proof.
  intros h n. destruct (last_register diffconstraint a_diff code_variate diff_ok diff_spec (fun h => p_diff (run h)) eq_refl diff_snoc h) as [F U]. destruct (get_spec _ (p_diff (run h)) n) as [G1 G2].
  split; [intros a; now rewrite G1, F | now rewrite G2, U].
Qed.
(** What a request answers. *)
Theorem C71_answers : forall h,
  (forall n a, snd (step (run h) (QAction n a)) = if defined (p_actions (run h)) n then Err DuplicateDefinition else Ok tt) /\
  (forall n r, snd (step (run h) (QReaction n r)) = if defined (p_reactions (run h)) n then Err DuplicateDefinition else Ok tt) /\
  (forall n d, snd (step (run h) (QDerived n d)) = Ok tt <-> undefined derived a_derived (fits_predicate parse) h n /\ fits_predicate parse h n d) /\
  (forall n s, snd (step (run h) (QSensor n s)) = Ok tt <-> undefined sensor a_sensor literal_observation h n /\ literal_observation h n s) /\
  (forall q e, (forall o, q <> QLang o) -> snd (step (run h) q) = Err e -> fst (step (run h) q) = run h).
Proof.
  intros h. split; [intros n a; cbn; now destruct (defined _ _)|]. split; [intros n r; cbn; now destruct (defined _ _)|]. split; [|split].
  - intros n d. rewrite <- derived_spec. destruct (first_register derived a_derived (fits_predicate parse) derived_ok derived_spec (fun h => p_derived (run h)) eq_refl derived_snoc h) as [_ U]. rewrite <- U. unfold derived_ok. rewrite <- run_lang. cbn. unfold defined.
    destruct (sget (p_derived (run h)) n); [split; [discriminate|intros [? _]; discriminate]|]. destruct (check_derived _ _ _); split; try discriminate; try tauto. intros [_ ?]. discriminate.
  - intros n s. rewrite <- sensor_spec. destruct (first_register sensor a_sensor literal_observation sensor_ok sensor_spec (fun h => p_sensors (run h)) eq_refl sensors_snoc h) as [_ U]. rewrite <- U. unfold sensor_ok. cbn. unfold defined.
    destruct (sget (p_sensors (run h)) n); [split; [discriminate|intros [? _]; discriminate]|]. destruct (check_sensor _); split; try discriminate; try tauto. intros [_ ?]. discriminate.
  - intros q e N E. destruct q as [o|n a|n d|n r|n d|n s]; [now destruct (N o)|..]; cbn in *.
    + destruct (defined _ _); [reflexivity|discriminate].
    + destruct (defined _ _); [reflexivity|]. destruct (check_derived _ _ _); [discriminate|reflexivity].
    + destruct (defined _ _); [reflexivity|discriminate].
    + destruct (defined _ _); [reflexivity|]. destruct (check_diff _); [discriminate|reflexivity].
    + destruct (defined _ _); [reflexivity|]. destruct (check_sensor _); [discriminate|reflexivity].
Qed.
(** Refuted: parameters of the wrong sort are refused, but not with InvalidDerivedPredicateError (TarskiError): it is an AttributeError. *)
Theorem C71_derived_mismatch_refuted : forall h n d ss, undefined derived a_derived (fits_predicate parse) h n -> sget (l_preds (lrun parse (declarations h))) n = Some ss -> List.length ss = List.length (de_parameters d) ->
  ss <> map snd (de_parameters d) -> snd (step (run h) (QDerived n d)) = Err AttributeError.
Proof.
  intros h n d ss U P L N. destruct (first_register derived a_derived (fits_predicate parse) derived_ok derived_spec (fun h => p_derived (run h)) eq_refl derived_snoc h) as [_ U']. apply U' in U. cbn. unfold defined. rewrite U, run_lang. unfold check_derived. rewrite P.
  rewrite L, Nat.eqb_refl. destruct (forallb _ _) eqn:E; [|reflexivity]. now apply (pairwise ss (de_parameters d) (eq_sym L)) in E.
Qed.
(** Refuted: one would expect of differential constraints what holds of the others. A second definition replaces the first without an exception; *)
Theorem C71_diff_replaced_refuted : forall h n d d', code_variate h n d -> code_variate h n d' ->
  snd (step (run h) (QDiff n d)) = Ok tt /\ snd (step (run (h ++ [QDiff n d])) (QDiff n d')) = Ok tt /\ get (p_diff (run (h ++ [QDiff n d; QDiff n d']))) n = Ok d'.
Proof.
  intros h n d d' C C'. assert (C2 : code_variate (h ++ [QDiff n d]) n d') by (destruct C' as [V N]; split; [exact V|]; intros r Hr; apply in_app_or in Hr as [Hr | [Hr | []]]; [now apply N in Hr|discriminate]).
  assert (St : forall h d, code_variate h n d -> snd (step (run h) (QDiff n d)) = Ok tt).
  { intros h0 d0 H. apply diff_spec in H. unfold diff_ok in H. apply Bool.andb_true_iff in H as [H1 H2]. apply Bool.negb_true_iff in H1. cbn. rewrite H1. now destruct (check_diff d0). }
  split; [now apply St|]. split; [now apply St|]. apply C71_diff. exists (h ++ [QDiff n d]), (QDiff n d'), []. split; [now rewrite <- app_assoc|]. split; [now split|]. intros h3 q h4 a E. destruct h3; discriminate.
Qed.
(** one that shares its name with a reaction is refused as a duplicate although there is none; *)
Theorem C71_diff_reaction_refuted : forall h n r d, In (QReaction n r) h -> undefined diffconstraint a_diff code_variate h n -> snd (step (run h) (QDiff n d)) = Err DuplicateDefinition.
Proof. intros h n r d Hr _. cbn. now rewrite (proj2 (reaction_known h n) (ex_intro _ r Hr)). Qed.
(** and a variate over an operator, which the class means to refuse, is accepted. *)
Theorem C71_diff_builtin_refuted : forall h n d b ts, (forall r, ~ In (QReaction n r) h) -> dc_variate d = App (FB b) ts -> ~ proper_variate h n d /\ snd (step (run h) (QDiff n d)) = Ok tt.
Proof.
  intros h n d b ts N E. split; [intros (f & ss & c & us & E'); congruence|]. cbn. destruct (defined (p_reactions (run h)) n) eqn:D; [apply reaction_known in D as (r & Hr); now apply N in Hr|]. unfold check_diff. now rewrite E.
Qed.
End Props.

Definition xvar : var := ("?x"%string, "object"%string).
Definition history : list request :=
  [QLang (OPred "above" ["object"; "object"]%string); QAction "go" {| ac_parameters := [xvar]; ac_precondition := Top; ac_effects := []; ac_cost := None |};
   QAction "go" {| ac_parameters := []; ac_precondition := Bot; ac_effects := []; ac_cost := None |};
   QDerived "above" {| de_parameters := [xvar]; de_formula := Top |}; QDerived "above" {| de_parameters := [xvar; xvar]; de_formula := Bot |};
   QSensor "see" {| se_parameters := []; se_condition := Top; se_obs := Comp And [] |}; QSensor "see" {| se_parameters := []; se_condition := Bot; se_obs := Comp Not [Atom (PU "p" []) []] |};
   QReaction "fall" {| re_parameters := []; re_condition := Top; re_effect := EAdd Top (Atom (PU "p" []) []) |};
   QDiff "fall" {| dc_parameters := []; dc_condition := Top; dc_variate := App (FU "v" [] "Real") []; dc_ode := App (FU "v" [] "Real") [] |};
   QDiff "grow" {| dc_parameters := []; dc_condition := Top; dc_variate := App (FU "v" [] "Real") []; dc_ode := App (FU "v" [] "Real") [] |};
   QDiff "grow" {| dc_parameters := []; dc_condition := Bot; dc_variate := App (FB BAdd) []; dc_ode := App (FU "v" [] "Real") [] |}]%string.
Theorem C71_nonvacuous : let p := run (fun _ _ => None) history in
  (let! a := get (p_actions p) "go" in Ok (ac_precondition a)) = Ok Top /\ (let! d := get (p_derived p) "above" in Ok (de_formula d)) = Ok Bot /\ (let! s := get (p_sensors p) "see" in Ok (se_condition s)) = Ok Bot /\
  get (p_diff p) "fall" = Err UndefinedElement /\ (let! d := get (p_diff p) "grow" in Ok (dc_condition d)) = Ok Bot.
Proof. vm_compute. repeat split. Qed.
Print Assumptions C71_actions. Print Assumptions C71_derived. Print Assumptions C71_diff. Print Assumptions C71_answers.
