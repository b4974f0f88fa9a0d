(** C65: the language, the objects and the initial state that the reader builds for an RDDL instance. *)
From Coq Require Import Ascii.
From Verif Require Import Base Syntax Build SemLemmas ListUtil ModelState ModelProofs StateLemmas FreeVars Lang LangSpec LangProofs LangProofs2 LangProofs3 Theories TheoriesSpec TheoriesProofs TheoriesProofs2 TheoriesProofs3 Counters
  PropsTermOps RddlRead RddlReadProofs4 PropsRddlRead RddlInit RddlInitSpec RddlInitProofs RddlInitProofs2 RddlInitProofs3.
#[local] Open Scope string_scope.
#[local] Open Scope list_scope.

#[local] Opaque language.
Lemma term_dec : forall t u : term, {t = u} + {t <> u}.
Proof. intros t u. destruct (term_eqb t u) eqn:E; [left; now apply SubstProofs.term_eqb_eq|right; intros ->]. rewrite SubstProofs.term_eqb_refl in E. discriminate E. Qed.
Lemma about_dec l x e ts : {about l x e ts} + {~ about l x e ts}.
Proof.
  unfold about. destruct (lget l (CStr (unquote (fst (fst x))))) as [e'|] eqn:E; [|right; intros [H _]; discriminate H]. assert (De : {e' = e} + {e' <> e}) by (repeat (decide equality)). destruct De as [->|N]; [|right; intros [H _]; congruence].
  generalize (match snd (fst x) with Some gs => gs | None => [] end) as gs. intros gs. clear E.
  assert (D : {Forall2 (fun g t => exists w c s, g = GName w /\ lget l (CStr w) = Ok (EConst c s) /\ t = Cst c s) gs ts} + {~ Forall2 (fun g t => exists w c s, g = GName w /\ lget l (CStr w) = Ok (EConst c s) /\ t = Cst c s) gs ts}).
  { revert ts. induction gs as [|g gs IH]; intros [|t ts]; [left; constructor|right; intros H; inversion H|right; intros H; inversion H|]. destruct (IH ts) as [F|F]; [|right; intros H; inversion H; contradiction].
    assert (Dg : {exists w c s, g = GName w /\ lget l (CStr w) = Ok (EConst c s) /\ t = Cst c s} + {~ exists w c s, g = GName w /\ lget l (CStr w) = Ok (EConst c s) /\ t = Cst c s}).
    { destruct g as [w|z]; [|right; intros (w & c & s & Q & _); discriminate Q]. destruct (lget l (CStr w)) as [[| | |c s]|] eqn:E; try (right; intros (w' & c' & s' & Q & G & _); injection Q as <-; congruence).
      destruct (term_dec t (Cst c s)) as [->|N]; [left; exists w, c, s; auto|right; intros (w' & c' & s' & Q & G & ->)]. injection Q as <-. rewrite E in G. injection G as <- <-. now apply N. }
    destruct Dg as [Dg|Dg]; [left; constructor; auto|right; intros H; inversion H; contradiction]. }
  destruct D as [D|D]; [left; auto|right; intros [_ H]; contradiction].
Qed.
Section Language.
Variable parse : bool -> string -> option Z.
Variable r : rmodel.
Hypothesis O : ordinary r.

(** The reader builds a language exactly for the well-formed texts. *)
Theorem C65_language : (exists st, read_language parse r = Ok st) <-> well_formed r.
Proof.
  split.
  - intros [st E]. exact (proj1 (language_only parse r st O E)).
  - intros W. destruct (language_ok parse r O W) as (st & E & _). exists st. exact E.
Qed.
(** Its names denote what the text declares, and nothing else *)
Theorem C65_names : forall st, read_language parse r = Ok st -> forall n e, lget (t_lang st) (CStr n) = Ok e <-> names_declared r n e.
Proof. intros st E n e. destruct (language_only parse r st O E) as [W B]. rewrite (b_names _ _ _ B). apply declared_iff. exact (wf_variables r W). Qed.
(** The types are children of object, and the sorts of numbers are one inside the other. *)
Theorem C65_hierarchy : forall st, read_language parse r = Ok st -> forall s p, parent_of (t_lang st) s = Some p <-> In (s, p) predefined_parents \/ (In s (type_names r) /\ p = "object").
Proof.
  intros st E s p. destruct (language_only parse r st O E) as [W B]. rewrite (b_parent _ _ _ B), in_app_iff, in_map_iff. apply or_iff_compat_l. split; [intros (t & Q & H); injection Q as -> <-; auto|intros [H ->]; exists s; auto].
Qed.
Lemma const_lget st c s : inv_tree (t_lang st) -> const_of (t_lang st) c s <-> lget (t_lang st) c = Ok (EConst c s).
Proof. intros I. rewrite (proj2 (lget_index _ _)), (ii_spec _ (it_index _ I)). cbn [defined_as]. unfold const_of. tauto. Qed.
Lemma constants st : read_language parse r = Ok st -> forall c s, const_of (t_lang st) c s <-> exists o, c = CStr o /\ In (s, o) (objects_of r).
Proof.
  intros E c s. destruct (language_only parse r st O E) as [W B]. pose proof (rd_tree st (b_ready _ _ _ B)) as I. rewrite (const_lget st c s I). destruct c as [o|z].
  - rewrite (C65_names st E o). split.
    + intros [H|[[_ H]|[(t & H & Q)|(v & ss & _ & _ & _ & Q)]]].
      * cbn in H. repeat (destruct H as [H|H]; [discriminate H|]). destruct H.
      * discriminate H.
      * injection Q as <-. exists o. auto.
      * unfold symbol_of in Q. destruct (is_boolean _); discriminate Q.
    + intros (o' & Q & H). injection Q as <-. right. right. left. exists s. auto.
  - split; [intros H; now destruct (b_ints _ _ _ B z _ H)|]. intros (o & Q & _). discriminate Q.
Qed.
(** The elements of a type are the objects declared for it, those of object are all the objects. *)
Theorem C65_domains : forall st, read_language parse r = Ok st ->
  (forall t, In t (type_names r) -> exists d, In (t, d) (l_sorts (t_lang st)) /\ s_kind d = KPlain /\ NoDup (s_dom d) /\ forall c, In c (s_dom d) <-> exists o, c = CStr o /\ In (t, o) (objects_of r)) /\
  (exists d, In ("object", d) (l_sorts (t_lang st)) /\ s_kind d = KPlain /\ NoDup (s_dom d) /\ forall c, In c (s_dom d) <-> exists o t, c = CStr o /\ In (t, o) (objects_of r)).
Proof.
  intros st E. destruct (language_only parse r st O E) as [W B]. pose proof (rd_tree st (b_ready _ _ _ B)) as I. assert (S := C65_hierarchy st E). assert (K := constants st E).
  assert (ND : NoDup (map fst predefined ++ type_names r)). { assert (N := wf_names r W). rewrite app_assoc in N. exact (NoDup_app_l _ _ N). }
  assert (TO : forall t, In t (type_names r) -> ~ In t ["object"; "Real"; "Integer"; "Natural"; "ite"]). { intros t Ht H. exact (NoDup_app_disj _ _ t ND H Ht). }
  assert (LE : forall t s, In t ("object" :: type_names r) -> (exists o, In (s, o) (objects_of r)) -> (le (t_lang st) s t <-> s = t \/ t = "object")).
  { intros t s Ht [o Ho]. assert (Hs := wf_objects r W s o Ho). split.
    - intros [->|A]; [now left|]. assert (P : exists p, parent_of (t_lang st) s = Some p /\ (p = t \/ anc (t_lang st) p t)). { inversion A; subst; eauto. } destruct P as (p & P & Q). apply S in P as [P|[P ->]].
      + exfalso. assert (M := od_objects r O s o Ho). cbn in P, M. intuition congruence.
      + destruct Q as [<- |Q]; [now right|]. exfalso. assert (P' : exists p, parent_of (t_lang st) "object" = Some p) by (inversion Q; subst; eauto). destruct P' as [q P']. apply S in P' as [P'|[P' _]]; [cbn in P'; intuition congruence|]. apply (TO _ P'). now left.
    - intros [->|Q]; [now left|]. subst t. destruct Hs as [<- |Hs]; [now left|]. right. apply anc_parent. apply S. auto. }
  assert (DM : forall t, In t ("object" :: type_names r) -> exists d, In (t, d) (l_sorts (t_lang st)) /\ s_kind d = KPlain /\ NoDup (s_dom d) /\ forall c, In c (s_dom d) <-> exists s, (s = t \/ t = "object") /\ exists o, c = CStr o /\ In (s, o) (objects_of r)).
  { intros t Ht. destruct (b_plain _ _ _ B t Ht) as (d & G & Kd). exists d. apply (sget_In _ _ _ (ii_sorts _ (it_index _ I))) in G. split; [exact G|]. split; [exact Kd|]. destruct (it_dom _ I t d G) as (N & D & _). split; [exact N|]. intros c. rewrite (proj2 (D Kd)). split.
    - intros (s & _ & C & L). apply K in C as (o & -> & Ho). exists s. split; [apply (LE t s Ht); eauto|eauto].
    - intros (s & Q & o & -> & Ho). exists s. assert (Hs := wf_objects r W s o Ho). split; [|split; [apply K; eauto|apply (LE t s Ht); eauto]].
      destruct (b_plain _ _ _ B s Hs) as (d' & G' & K'). exists d'. split; [now apply (sget_In _ _ _ (ii_sorts _ (it_index _ I)))|exact K']. }
  split.
  - intros t Ht. destruct (DM t (or_intror Ht)) as (d & A1 & A2 & A3 & A4). exists d. split; [exact A1|split; [exact A2|split; [exact A3|]]]. intros c. rewrite A4. split.
    + intros (s & [->|Q] & H); [exact H|]. subst t. destruct (TO _ Ht). now left.
    + intros H. exists t. auto.
  - destruct (DM "object" (or_introl eq_refl)) as (d & A1 & A2 & A3 & A4). exists d. split; [exact A1|split; [exact A2|split; [exact A3|]]]. intros c. rewrite A4. split.
    + intros (s & _ & o & H). exists o, s. exact H.
    + intros (o & s & H). exists s. split; [now right|]. exists o. exact H.
Qed.
Lemma called_sorts ss ts : sorts_called r ss = Some ts -> Forall (fun t => In t (sort_names r)) ts /\ List.length ts = List.length ss.
Proof.
  revert ts. induction ss as [|s ss IH]; intros ts H; cbn [sorts_called] in H; [injection H as <-; split; constructor|]. destruct (sort_called r s) as [t|] eqn:E; [|discriminate H]. destruct (sorts_called r ss) as [ts'|]; [|discriminate H]. injection H as <-.
  destruct (IH ts' eq_refl) as [A L]. split; [|cbn; now rewrite L]. constructor; [|exact A]. unfold sort_called in E. destruct (in_dec string_dec s (sort_names r)) as [Hs|_]; [injection E as <-; exact Hs|].
  destruct (String.eqb s "real"); [injection E as <-; right; now left|]. destruct (String.eqb s "int"); [injection E as <-; right; right; now left|discriminate E].
Qed.
Lemma sort_names_sorts st : read_language parse r = Ok st -> forall t, In t (sort_names r) -> is_sort (t_lang st) t.
Proof.
  intros E t Ht. destruct (language_only parse r st O E) as [W B]. pose proof (rd_tree st (b_ready _ _ _ B)) as I. apply (sort_lget _ _ I). apply (C65_names st E). unfold sort_names in Ht. apply in_app_iff in Ht as [H|H]; [left|right; left; auto].
  cbn in H |- *. intuition congruence.
Qed.
Lemma symbol_sorts st : read_language parse r = Ok st -> (forall n p ss, lget (t_lang st) (CStr n) = Ok (EPred p ss) -> Forall (is_sort (t_lang st)) ss) /\ (forall n f ss, lget (t_lang st) (CStr n) = Ok (EFun f ss) -> Forall (is_sort (t_lang st)) ss /\ ss <> []).
Proof.
  intros E. assert (S := sort_names_sorts st E). split.
  - intros n p ss H. apply (C65_names st E) in H as [H|[[_ H]|[(t & _ & H)|(v & ss' & _ & _ & Q & H)]]]; try discriminate H.
    + cbn in H. repeat (destruct H as [H|H]; [discriminate H|]). destruct H.
    + unfold symbol_of in H. destruct (is_boolean _); [|discriminate H]. injection H as -> ->. destruct (called_sorts _ _ Q) as [A _]. eapply Forall_impl; [|exact A]. exact S.
  - intros n f ss H. apply (C65_names st E) in H as [H|[[_ H]|[(t & _ & H)|(v & ss' & _ & _ & Q & H)]]]; try discriminate H.
    + cbn in H. repeat (destruct H as [H|H]; [try discriminate H|]); [|destruct H]. injection H as <- <- <-. assert (So : is_sort (t_lang st) "object") by (apply S; now left). split; [repeat constructor; exact So|discriminate].
    + unfold symbol_of in H. unfold variable_sorts in Q. destruct (is_boolean _); [discriminate H|]. injection H as -> ->. destruct (called_sorts _ _ Q) as [A L]. split; [eapply Forall_impl; [|exact A]; exact S|]. intros ->. rewrite app_length in L. cbn in L. lia.
Qed.

(** ** The initial state *)
Variable fuel : nat.
Hypothesis R : Forall (fun x : entry => Forall object_argument (match snd (fst x) with Some gs => gs | None => [] end) /\ exact_value parse (snd x)) (entries_of r).

(** The instance is accepted exactly if the text is well formed and every entry speaks about a declared fluent, has objects of the right types, and a value of the right type. *)
Theorem C65_accepts : (exists x, translate_rddl_model parse fuel r = Ok x) <-> well_formed r /\ forall st, read_language parse r = Ok st -> Forall (entry_ok parse (t_lang st)) (entries_of r).
Proof.
  unfold translate_rddl_model. split.
  - intros [x H]. apply bind_some in H as (st & E & H). apply bind_some in H as (m & F & _). destruct (language_only parse r st O E) as [W B]. split; [exact W|]. intros st' E'. assert (st' = st) as -> by congruence.
    destruct (symbol_sorts st E) as [Hp Hf]. exact (proj1 (entries_spec parse fuel st (rd_tree st (b_ready _ _ _ B)) Hp Hf _ m R F)).
  - intros [W T]. destruct (language_ok parse r O W) as (st & E & B). destruct (symbol_sorts st E) as [Hp Hf]. destruct (entries_run parse fuel st (rd_tree st (b_ready _ _ _ B)) Hp Hf _ R (T st E) empty_model) as (m & F).
    rewrite E. cbn [bind]. rewrite F. cbn [bind]. eauto.
Qed.
(** In the initial state, an atom holds exactly if some entry says so, and a function has the value that the last entry about it gives. *)
Theorem C65_state : forall x, translate_rddl_model parse fuel r = Ok x -> let l := t_lang (rd_lang x) in
  read_language parse r = Ok (rd_lang x) /\
  (forall p ss ts, m_holds (rd_state x) (PU p ss) ts = true <-> exists y, In y (entries_of r) /\ snd y = IBool true /\ about l y (EPred p ss) ts) /\
  (forall f ss s ts v, m_value (rd_state x) (FU f ss s) ts = Ok v <-> exists w, given l (entries_of r) (EFun f (ss ++ [s])) ts w /\ value_as parse l w s v) /\
  rd_horizon x = rm_horizon r /\ rd_discount x = rm_discount r /\ (forall k, rd_max x = Some k <-> rm_max_nondef r = AtMost k).
Proof.
  intros x H l. unfold translate_rddl_model in H. apply bind_some in H as (st & E & H). apply bind_some in H as (m & F & H). injection H as <-. subst l. cbn [rd_lang rd_state rd_horizon rd_discount rd_max]. split; [exact E|].
  destruct (language_only parse r st O E) as [W B]. destruct (symbol_sorts st E) as [Hp Hf]. destruct (entries_spec parse fuel st (rd_tree st (b_ready _ _ _ B)) Hp Hf _ m R F) as (_ & _ & S1 & S2). split; [exact S1|]. split; [exact S2|]. split; [reflexivity|]. split; [reflexivity|].
  intros k. clear. destruct (rm_max_nondef r) as [|z]; [split; intros Q; discriminate Q|split; intros Q; injection Q as ->; reflexivity].
Qed.
(** For Boolean fluents that are false by default, or that have no default, this is the initial state of RDDL, provided that the entries do not contradict each other. *)
Theorem C65_initial : forall x v ss ts, translate_rddl_model parse fuel r = Ok x -> consistent (t_lang (rd_lang x)) (entries_of r) -> In v (variables_of r) -> is_boolean (pv_range v) = true -> variable_sorts r v = Some ss -> pv_default v <> Some (IBool true) ->
  m_holds (rd_state x) (PU (symbol_name v) ss) ts = true <-> initial_value (t_lang (rd_lang x)) r v (EPred (symbol_name v) ss) ts (IBool true).
Proof.
  intros x v ss ts H C Hv Hb Hs Hd. destruct (C65_state x H) as (E & S & _). rewrite S. unfold initial_value. split.
  - intros (y & Hy & V & A). left. destruct (in_split _ _ Hy) as (before & after & Es). clear Hy. 
    assert (G : forall es, In y es -> consistent (t_lang (rd_lang x)) es -> given (t_lang (rd_lang x)) es (EPred (symbol_name v) ss) ts (IBool true)).
    { clear - V A. induction es as [|z es IH] using rev_ind; [contradiction|]. intros Hy C. apply given_snoc. destruct (about_dec (t_lang (rd_lang x)) z (EPred (symbol_name v) ss) ts) as [Az|Nz].
      - left. split; [exact Az|]. rewrite <- V. apply (C z y (EPred (symbol_name v) ss) ts); auto. apply in_app_iff. right. now left.
      - right. split; [exact Nz|]. apply in_app_iff in Hy as [Hy|[<- |[]]]; [|contradiction]. apply IH; [exact Hy|]. intros a b e us Ha Hb'. apply (C a b e us); apply in_app_iff; auto. }
    apply G; [rewrite Es; apply in_app_iff; right; now left|exact C].
  - intros [(before & y & after & Es & A & V & _)|[_ Q]]; [|congruence]. exists y. split; [rewrite Es; apply in_app_iff; right; now left|auto].
Qed.
End Language.

(** ** Where the state differs from RDDL *)
Definition var_ (n : string) (ps : list string) (range : string) (d : option ivalue) : pvariable := {| pv_name := n; pv_params := Some ps; pv_range := range; pv_default := d |}.
Definition instance_ (types : list (string * option string)) (vs : list pvariable) (es : list entry) : rmodel :=
  {| rm_types := types; rm_objects := [("robot", ["r1"]); ("cell", ["c1"; "c2"])]; rm_non_fluents := [var_ "CONN/2" ["cell"; "cell"] "bool" (Some (IBool false))]; rm_state_fluents := vs; rm_interm_fluents := []; rm_action_fluents := [var_ "move/2" ["robot"; "cell"] "bool" (Some (IBool false))];
     rm_init_state := es; rm_init_non_fluent := [(("CONN", Some [GName "c1"; GName "c2"]), IBool true)]; rm_horizon := 40; rm_discount := "1.0"; rm_max_nondef := AtMost 1 |}.
Definition two_types : list (string * option string) := [("robot", Some "object"); ("cell", Some "object")].
Definition at_ : pvariable := var_ "at/2" ["robot"; "cell"] "bool" (Some (IBool false)).
Definition energy_ : pvariable := var_ "energy/1" ["robot"] "real" (Some (IInt 10)).
Definition rover_ : rmodel := instance_ two_types [at_; energy_] [(("at", Some [GName "r1"; GName "c1"]), IBool true); (("energy'", Some [GName "r1"]), IInt 5); (("at", Some [GName "r1"; GName "c2"]), IBool false)].
Definition state_after (m : rmodel) : model := match translate_rddl_model no_number 10 m with Ok x => rd_state x | Err _ => empty_model end.
(** A Boolean fluent that is true by default and not mentioned is false. *)
Theorem C65_default_refuted : exists r x v ss ts, translate_rddl_model no_number 10 r = Ok x /\ In v (variables_of r) /\ variable_sorts r v = Some ss /\
  initial_value (t_lang (rd_lang x)) r v (EPred (symbol_name v) ss) ts (IBool true) /\ m_holds (rd_state x) (PU (symbol_name v) ss) ts = false.
Proof.
  pose (idle := var_ "idle/1" ["robot"] "bool" (Some (IBool true))). pose (r := instance_ two_types [idle] []). destruct (translate_rddl_model no_number 10 r) as [x|] eqn:E; [|vm_compute in E; discriminate E].
  exists r, x, idle, ["robot"], [Cst (CStr "r1") "robot"]. split; [exact E|]. split; [right; now left|]. split; [vm_compute; reflexivity|].
  assert (L : forall n e, lget (t_lang (rd_lang x)) (CStr n) = Ok e -> lget (t_lang (match translate_rddl_model no_number 10 r with Ok x => rd_lang x | Err _ => rd_lang x end)) (CStr n) = Ok e) by (rewrite E; auto).
  split; [|assert (Q : m_holds (state_after r) (PU "idle" ["robot"]) [Cst (CStr "r1") "robot"] = false) by (vm_compute; reflexivity); unfold state_after in Q; rewrite E in Q; exact Q].
  right. split; [|reflexivity]. intros y [<- |[]] [H _]. apply L in H. vm_compute in H. discriminate H.
Qed.
(** A function that is not mentioned has no value, although it has a default. *)
Theorem C65_function_default_refuted : exists r x v w ss s ts, translate_rddl_model no_number 10 r = Ok x /\ In v (variables_of r) /\ variable_sorts r v = Some (ss ++ [s]) /\
  initial_value (t_lang (rd_lang x)) r v (EFun (symbol_name v) (ss ++ [s])) ts w /\ m_value (rd_state x) (FU (symbol_name v) ss s) ts = Err KeyError.
Proof.
  pose (r := instance_ two_types [energy_] []). destruct (translate_rddl_model no_number 10 r) as [x|] eqn:E; [|vm_compute in E; discriminate E].
  exists r, x, energy_, (IInt 10), ["robot"], "Real", [Cst (CStr "r1") "robot"]. split; [exact E|]. split; [right; now left|]. split; [vm_compute; reflexivity|].
  assert (L : forall n e, lget (t_lang (rd_lang x)) (CStr n) = Ok e -> lget (t_lang (match translate_rddl_model no_number 10 r with Ok x => rd_lang x | Err _ => rd_lang x end)) (CStr n) = Ok e) by (rewrite E; auto).
  split; [|assert (Q : m_value (state_after r) (FU "energy" ["robot"] "Real") [Cst (CStr "r1") "robot"] = Err KeyError) by (vm_compute; reflexivity); unfold state_after in Q; rewrite E in Q; exact Q].
  right. split; [|reflexivity]. intros y [<- |[]] [H _]. apply L in H. vm_compute in H. discriminate H.
Qed.
(** A later entry that makes a fluent false does not undo an earlier one. *)
Theorem C65_later_false_refuted : exists r x p ss ts, translate_rddl_model no_number 10 r = Ok x /\ given (t_lang (rd_lang x)) (entries_of r) (EPred p ss) ts (IBool false) /\ m_holds (rd_state x) (PU p ss) ts = true.
Proof.
  pose (r := instance_ two_types [at_] [(("at", Some [GName "r1"; GName "c1"]), IBool true); (("at", Some [GName "r1"; GName "c1"]), IBool false)]). destruct (translate_rddl_model no_number 10 r) as [x|] eqn:E; [|vm_compute in E; discriminate E].
  exists r, x, "at", ["robot"; "cell"], [Cst (CStr "r1") "robot"; Cst (CStr "c1") "cell"]. split; [exact E|].
  assert (L : forall n, lget (t_lang (rd_lang x)) (CStr n) = lget (t_lang (match translate_rddl_model no_number 10 r with Ok x => rd_lang x | Err _ => rd_lang x end)) (CStr n)) by (rewrite E; auto).
  split; [|assert (Q : m_holds (state_after r) (PU "at" ["robot"; "cell"]) [Cst (CStr "r1") "robot"; Cst (CStr "c1") "cell"] = true) by (vm_compute; reflexivity); unfold state_after in Q; rewrite E in Q; exact Q].
  exists [(("at", Some [GName "r1"; GName "c1"]), IBool true)], (("at", Some [GName "r1"; GName "c1"]), IBool false), [(("CONN", Some [GName "c1"; GName "c2"]), IBool true)]. split; [reflexivity|]. split; [|split; [reflexivity|]].
  - split; [cbn [fst snd]; rewrite L; vm_compute; reflexivity|]. constructor; [|constructor; [|constructor]]; eexists _, _, _; (split; [reflexivity|]); rewrite L; (split; [vm_compute; reflexivity|reflexivity]).
  - intros y [<- |[]] [H _]. cbn [fst snd] in H. rewrite L in H. vm_compute in H. discriminate H.
Qed.
(** Variables of the same name with different numbers of parameters, and enumerated types, are rejected. *)
Theorem C65_overloading_refuted : exists v w, pv_name v <> pv_name w /\ variable_sorts (instance_ two_types [v; w] []) v <> None /\ variable_sorts (instance_ two_types [v; w] []) w <> None /\
  translate_rddl_model no_number 10 (instance_ two_types [v; w] []) = Err DuplicateDefinition.
Proof. exists (var_ "p/1" ["robot"] "bool" None), (var_ "p/2" ["robot"; "cell"] "bool" None). split; [discriminate|]. split; [vm_compute; discriminate|]. split; [vm_compute; discriminate|vm_compute; reflexivity]. Qed.
Theorem C65_enumerated_refuted : forall parse fuel r t, In (t, None) (rm_types r) -> forall x, translate_rddl_model parse fuel r <> Ok x.
Proof.
  intros parse fuel r t H x E. unfold translate_rddl_model in E. apply bind_some in E as (st & E & _). unfold read_language in E. apply bind_some in E as (st0 & _ & E). apply bind_some in E as (st1 & E & _). clear x st. revert st0 st1 E.
  induction (rm_types r) as [|[t' p] ts IH]; intros st0 st1 E; [contradiction|]. cbn [foldM] in E. destruct (read_type parse st0 (t', p)) as [s2|] eqn:Q; [|discriminate E]. destruct H as [H|H]; [|eauto]. injection H as -> ->. discriminate Q.
Qed.
(** A non-trivial case *)
Lemma rover_ordinary : ordinary rover_.
Proof.
  constructor.
  - intros t o H K. cbn in H. repeat (destruct H as [H|H]; [injection H as <- <-; cbn in K; intuition discriminate|]). destruct H.
  - intros n Hn H. cbn in H, Hn. destruct Hn as [<- |[<- |[]]]; repeat (destruct H as [H|H]; [discriminate H|]); destruct H.
Qed.
Example C65_nonvacuous : ordinary rover_ /\ well_formed rover_ /\
  Forall (fun x : entry => Forall object_argument (match snd (fst x) with Some gs => gs | None => [] end) /\ exact_value no_number (snd x)) (entries_of rover_) /\
  (exists x, translate_rddl_model no_number 10 rover_ = Ok x /\ m_holds (rd_state x) (PU "at" ["robot"; "cell"]) [Cst (CStr "r1") "robot"; Cst (CStr "c1") "cell"] = true /\
     m_holds (rd_state x) (PU "at" ["robot"; "cell"]) [Cst (CStr "r1") "robot"; Cst (CStr "c2") "cell"] = false /\ m_value (rd_state x) (FU "energy" ["robot"] "Real") [Cst (CStr "r1") "robot"] = Ok (Cst (CInt 5) "Real") /\
     rd_max x = Some 1%Z) /\
  consistent (t_lang (match translate_rddl_model no_number 10 rover_ with Ok x => rd_lang x | Err _ => trun no_number [] end)) (entries_of rover_).
Proof.
  split; [exact rover_ordinary|]. split.
  { apply (C65_language no_number rover_ rover_ordinary). destruct (read_language no_number rover_) as [st|] eqn:E; [eauto|vm_compute in E; discriminate E]. }
  split. { repeat (constructor; [split; [repeat (constructor; [cbn; discriminate|]); constructor|cbn; try exact I; lia]|]). constructor. }
  split.
  - destruct (translate_rddl_model no_number 10 rover_) as [x|] eqn:E; [|vm_compute in E; discriminate E]. exists x. split; [reflexivity|].
    assert (Q : (m_holds (state_after rover_) (PU "at" ["robot"; "cell"]) [Cst (CStr "r1") "robot"; Cst (CStr "c1") "cell"] = true /\ m_holds (state_after rover_) (PU "at" ["robot"; "cell"]) [Cst (CStr "r1") "robot"; Cst (CStr "c2") "cell"] = false) /\
       m_value (state_after rover_) (FU "energy" ["robot"] "Real") [Cst (CStr "r1") "robot"] = Ok (Cst (CInt 5) "Real")) by (split; [split; [vm_compute; reflexivity|vm_compute; reflexivity]|vm_compute; reflexivity]).
    unfold state_after in Q. rewrite E in Q. destruct Q as [[Q1 Q2] Q3]. split; [exact Q1|]. split; [exact Q2|]. split; [exact Q3|]. unfold translate_rddl_model in E. apply bind_some in E as (st & _ & E). apply bind_some in E as (m & _ & E). injection E as <-. reflexivity.
  - match goal with |- consistent ?l _ => set (L := l) end. intros x y e ts Hx Hy Ax Ay.
    assert (Na : lget L (CStr "at") = Ok (EPred "at" ["robot"; "cell"])) by (vm_compute; reflexivity). assert (Ne : lget L (CStr "energy") = Ok (EFun "energy" ["robot"; "Real"])) by (vm_compute; reflexivity).
    assert (Nc : lget L (CStr "CONN") = Ok (EPred "CONN" ["cell"; "cell"])) by (vm_compute; reflexivity).
    assert (N1 : lget L (CStr "c1") = Ok (EConst (CStr "c1") "cell")) by (vm_compute; reflexivity). assert (N2 : lget L (CStr "c2") = Ok (EConst (CStr "c2") "cell")) by (vm_compute; reflexivity).
    assert (D : forall g g' t, (exists w c s, g = GName w /\ lget L (CStr w) = Ok (EConst c s) /\ t = Cst c s) -> (exists w c s, g' = GName w /\ lget L (CStr w) = Ok (EConst c s) /\ t = Cst c s) -> g = GName "c1" -> g' = GName "c2" -> False).
    { intros g g' t (w & c & s & -> & G & ->) (w' & c' & s' & -> & G' & Q) Q1 Q2. injection Q1 as ->. injection Q2 as ->. rewrite N1 in G. rewrite N2 in G'. congruence. }
    clearbody L. destruct Ax as [Ex Fx]. destruct Ay as [Ey Fy].
    assert (U1 : unquote "at" = "at") by reflexivity. assert (U2 : unquote "energy'" = "energy") by reflexivity. assert (U3 : unquote "CONN" = "CONN") by reflexivity.
    cbn [entries_of rover_ instance_ rm_init_state rm_init_non_fluent app In] in Hx, Hy.
    destruct Hx as [<- |[<- |[<- |[<- |[]]]]]; cbn [fst snd] in Ex, Fx; rewrite ?U1, ?U2, ?U3 in Ex; rewrite ?Na, ?Ne, ?Nc in Ex; injection Ex as <-;
      (destruct Hy as [<- |[<- |[<- |[<- |[]]]]]; cbn [fst snd] in Ey, Fy; rewrite ?U1, ?U2, ?U3 in Ey; rewrite ?Na, ?Ne, ?Nc in Ey; try discriminate Ey; try reflexivity);
      exfalso; inversion Fx as [|? ? ? ? _ Fx']; subst; inversion Fx' as [|? ? ? ? Dx _]; subst; inversion Fy as [|? ? ? ? _ Fy']; subst; inversion Fy' as [|? ? ? ? Dy _]; subst;
      [exact (D _ _ _ Dx Dy eq_refl eq_refl)|exact (D _ _ _ Dy Dx eq_refl eq_refl)].
Qed.
Print Assumptions C65_language. Print Assumptions C65_names. Print Assumptions C65_hierarchy. Print Assumptions C65_domains. Print Assumptions C65_accepts. Print Assumptions C65_state. Print Assumptions C65_initial.
Print Assumptions C65_default_refuted. Print Assumptions C65_function_default_refuted. Print Assumptions C65_later_false_refuted. Print Assumptions C65_overloading_refuted. Print Assumptions C65_enumerated_refuted.
