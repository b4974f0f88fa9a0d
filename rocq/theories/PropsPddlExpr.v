(** C67: conditions, expressions, effects and actions of PDDL files (io/pddl) *)
From Verif Require Import Base Syntax Semantics SemLemmas ListUtil ModelState ModelProofs SubstProofs FreeVars Lang LangSpec LangProofs Theories RddlRead RddlInitProofs2 PddlInstance PddlInstanceSpec PropsPddlInstance PddlExpr PddlExprSpec PddlExprProofs PddlExprProofs2 PddlExprProofs3 PddlExprProofs4 PddlExprProofs5 PddlExprProofs6.
#[local] Open Scope string_scope.
#[local] Open Scope list_scope.

Section Domain.
Variable parse : bool -> string -> option Z.
Variable es : list tentry.
Variable ds : list decl.
Variable i : pinst.
Hypothesis R : read_domain parse es ds = Ok i.
Notation P := (predicate_names ds).
Lemma distinct_nil : distinct [].
Proof. constructor. Qed.

(** An action can be read, with enough steps, exactly when it is well formed. *)
Theorem C67_actions : exists n0, forall fuel n params pre eff, n0 <= fuel ->
  (exists a d, read_action parse fuel i [] n params pre eff = Ok (a, d)) <-> action_ok es ds params pre eff.
Proof.
  destruct (order parse es ds i R) as (n0 & O). exists n0. intros fuel n params pre eff Hf. exact (action_accept parse fuel i es ds (read_facts parse es ds i R) (O fuel Hf) n params pre eff).
Qed.
(** The same of a goal, or of any condition without free variables *)
Theorem C67_goals : exists n0, forall fuel g, n0 <= fuel -> (exists f d, read_gd parse fuel i [] g = Ok (f, d)) <-> gd_ok es ds [] g /\ no_rebinding [] g.
Proof.
  destruct (order parse es ds i R) as (n0 & O). exists n0. intros fuel g Hf. assert (F := read_facts parse es ds i R). assert (A := gd_accept parse fuel i es ds F (O fuel Hf) g [] [] (matches_empty es)). split.
  - intros (f & d & X). destruct (gd_scope _ _ _ _ _ _ _ distinct_nil X) as [N _]. split; [apply (A N); eauto|exact N].
  - intros [G N]. destruct (proj2 (A N) G) as ([f d] & X). eauto.
Qed.
Lemma empty_scope (d : scope) : distinct d -> (forall x, sget d x = None) -> d = [].
Proof. intros _ H. destruct d as [|[k v] d]; [reflexivity|]. specialize (H k). unfold sget in H. cbn [dget] in H. rewrite String.eqb_refl in H. discriminate H. Qed.
Lemma action_parts fuel n params pre eff a d : read_action parse fuel i [] n params pre eff = Ok (a, d) -> pa_name a = n /\ pa_parameters a = typed_variables params /\ d = [] /\
  exists d1, (forall x v, sget d1 x = Some v -> sget (enter [] (typed_variables params)) x = Some v) /\
    (match pre with None => pa_pre a = None | Some g => exists f d2, pa_pre a = Some f /\ read_gd parse fuel i (enter [] (typed_variables params)) g = Ok (f, d2) end) /\
    (match eff with None => pa_post a = None | Some fs => exists l, pa_post a = Some l /\ mapM (read_effect parse fuel i d1) fs = Ok l end).
Proof.
  unfold read_action. intros H. apply bind_some in H as (ys & X & H). apply normalize_typed in X. cbn [map app] in X. subst ys. set (xs := typed_variables params) in *. apply bind_some in H as ([of d1] & R1 & H). apply bind_some in H as (oes & R2 & H). apply bind_some in H as (d2 & L & H). injection H as <- <-. cbn [fst snd pa_name pa_parameters pa_pre pa_post] in *.
  assert (D0 : distinct (enter [] xs)) by (apply enter_distinct; constructor). split; [reflexivity|]. split; [reflexivity|].
  assert (S : exists ns, scope_ok (enter [] xs) ns d1). { destruct pre as [g|]; [apply bind_some in R1 as ([f d1'] & R1 & Q); injection Q as _ <-; destruct (gd_scope _ _ _ _ _ _ _ D0 R1) as [_ S]; eauto|injection R1 as _ <-; exists []; now apply scope_ok_refl]. }
  destruct S as (ns & S). split.
  - destruct (leave_spec _ _ _ (proj1 S) L) as (E & _ & _ & G). apply empty_scope; [exact E|]. intros x. refine (eq_trans (G x) _). match goal with |- context [str_mem ?a ?b] => destruct (str_mem a b) eqn:M end; [reflexivity|]. refine (eq_trans (proj2 S x) _). destruct (str_mem x ns); [reflexivity|]. rewrite enter_other; [reflexivity|]. intros Q. match type of M with str_mem ?a ?b = _ => assert (M' : str_mem a b = true) by (apply str_mem_In; exact Q) end. congruence.
  - exists d1. split; [exact (scope_sub _ _ _ S)|]. split.
    + destruct pre as [g|]; [|injection R1 as <- _; reflexivity]. apply bind_some in R1 as ([f d1'] & R1 & Q). injection Q as <- _. cbn [fst]. eauto.
    + destruct eff as [fs|]; [|injection R2 as <-; reflexivity]. apply bind_some in R2 as (l & R2 & Q). injection Q as <-. eauto.
Qed.
(** The name, the parameters and their types are those of the text, and no variable stays in scope. *)
Theorem C67_parameters fuel n params pre eff a d : read_action parse fuel i [] n params pre eff = Ok (a, d) -> pa_name a = n /\ pa_parameters a = typed_variables params /\ d = [] /\ (pre = None <-> pa_pre a = None) /\ (eff = None <-> pa_post a = None).
Proof.
  intros H. destruct (action_parts fuel n params pre eff a d H) as (A & B & C & d1 & _ & D & E). split; [exact A|]. split; [exact B|]. split; [exact C|]. split.
  - destruct pre as [g|]; [destruct D as (f & d2 & -> & _); split; discriminate|rewrite D; tauto].
  - destruct eff as [fs|]; [destruct E as (l & -> & _); split; discriminate|rewrite E; tauto].
Qed.
Lemma fun_fact n f ss : lget (pi_lang i) (CStr n) = Ok (EFun f ss) -> f = n /\ String.eqb (last ss "") "Bool" = str_mem n P.
Proof.
  intros L. assert (F := read_facts parse es ds i R). destruct (fa_elem _ _ _ F n _ L) as [[Q _]|[(s & Q & _)|(ss' & Q & H)]]; try discriminate Q. injection Q as -> ->. split; [reflexivity|exact (fa_preds _ _ _ F _ _ H)].
Qed.
Lemma obj_fact n c s : lget (pi_lang i) (CStr n) = Ok (EConst c s) -> c = CStr n /\ s <> "Real".
Proof.
  intros L. assert (F := read_facts parse es ds i R). destruct (fa_elem _ _ _ F n _ L) as [[Q _]|[(s' & Q & H)|(ss' & Q & H)]]; try discriminate Q. injection Q as -> ->. split; [reflexivity|]. intros ->. apply (fa_new _ _ _ F "Real"); [exact (fa_ctyped _ _ _ F _ _ H)|]. cbn. tauto.
Qed.
(** An environment that gives the parameters of an action the values they have under their names *)
Definition gives (W : world) (params : list vtoken) (en : env (structure_of W)) (e : names W) : Prop := forall x s, In (x, s) (typed_variables params) -> en (x, s) = e x.
Lemma enter_in vs : forall d x v, sget (enter d vs) x = Some v -> (fst v = x /\ In v vs) \/ sget d x = Some v.
Proof.
  induction vs as [|u vs IH]; intros d x v H; [now right|]. change (enter d (u :: vs)) with (enter (dset String.eqb d (fst u) u) vs) in H. destruct (IH _ _ _ H) as [[A B]|A]; [left; split; [exact A|now right]|]. rewrite sget_dset in A. destruct (String.eqb_spec (fst u) x) as [Q|Q]; [|now right]. injection A as <-. left. split; [exact Q|now left].
Qed.
Lemma gives_agree W params en e : gives W params en e -> agree W (enter [] (typed_variables params)) en e.
Proof. intros G x v H. apply enter_in in H as [[A B]|H]; [|discriminate H]. split; [exact A|]. destruct v as [y s]. cbn [fst] in A. subst y. exact (G x s B). Qed.
(** The precondition of an action holds in a world exactly when the condition of the text does; its atoms must be predicates. *)
Theorem C67_preconditions fuel n params g eff a d : read_action parse fuel i [] n params (Some g) eff = Ok (a, d) -> exists f, pa_pre a = Some f /\
  forall (W : world) en e, gives W params en e -> (forall p, In p (atom_symbols g) -> In p P) -> fsem (structure_of W) f en = gd_value W P e g.
Proof.
  intros H. destruct (action_parts fuel n params (Some g) eff a d H) as (_ & _ & _ & d1 & _ & (f & d2 & A & B) & _). exists f. split; [exact A|]. intros W en e G Pr. apply (gd_means parse fuel i W P fun_fact obj_fact g _ _ _ _ _ (enter_distinct (typed_variables params) [] distinct_nil) Pr B). now apply gives_agree.
Qed.
Theorem C67_goal_meaning fuel g f d : read_gd parse fuel i [] g = Ok (f, d) -> forall (W : world) en e, (forall p, In p (atom_symbols g) -> In p P) -> fsem (structure_of W) f en = gd_value W P e g.
Proof. intros H W en e Pr. apply (gd_means parse fuel i W P fun_fact obj_fact g [] f d en e distinct_nil Pr H). intros x v Q. discriminate Q. Qed.
(** The effects of an action, in the order of the text, make the changes that the text describes; except for scale-down, see below. *)
Definition a_change (f : peff) : Prop := match f with EEq (PApp _ _) _ => True | EEq _ _ | EScaleDown _ _ => False | _ => True end.
Lemma effects_meaning fuel n params pre fs a d : read_action parse fuel i [] n params pre (Some fs) = Ok (a, d) -> exists l, pa_post a = Some l /\
  forall (W : world) en e, gives W params en e -> Forall2 (fun f x => simple f -> exists c, assignment_change W x en = Some c /\ effect_change W P e (as_read f) = Some c) fs l.
Proof.
  intros H. destruct (action_parts fuel n params pre (Some fs) a d H) as (_ & _ & _ & d1 & Su & _ & (l & A & B)). exists l. split; [exact A|]. intros W en e G. assert (Ag : agree W d1 en e) by (apply (agree_sub W _ _ _ _ Su); now apply gives_agree).
  clear - B Ag R. revert l B. induction fs as [|f fs IH]; intros l B; cbn [mapM] in B; [injection B as <-; constructor|]. apply bind_some in B as (x & X & B). apply bind_some in B as (xs & Xs & B). injection B as <-. constructor; [|exact (IH xs Xs)]. intros Sf. exact (effect_means parse fuel i W P fun_fact obj_fact d1 en e f x Ag Sf X).
Qed.
Theorem C67_effects fuel n params pre fs a d : read_action parse fuel i [] n params pre (Some fs) = Ok (a, d) -> exists l, pa_post a = Some l /\ List.length l = List.length fs /\
  forall (W : world) en e k f x, gives W params en e -> nth_error fs k = Some f -> nth_error l k = Some x -> a_change f -> exists c, effect_change W P e f = Some c /\ assignment_change W x en = Some c.
Proof.
  intros H. destruct (effects_meaning fuel n params pre fs a d H) as (l & A & B). exists l. split; [exact A|]. split.
  - destruct (action_parts fuel n params pre (Some fs) a d H) as (_ & _ & _ & d1 & _ & _ & (l' & A' & M)). rewrite A in A'. injection A' as <-. apply mapM_length in M. exact M.
  - intros W en e k f x G Hf Hx C. specialize (B W en e G). clear A H. revert k Hf Hx. induction B as [|f0 x0 fs l B _ IH]; intros [|k] Hf Hx; try discriminate Hf.
    + injection Hf as ->. injection Hx as ->. destruct B as (c & B1 & B2); [destruct f as [| |[]| | | | | | | | | | ]; cbn in C |- *; tauto|]. exists c. split; [|exact B1]. destruct f; cbn [a_change as_read] in *; try exact B2. destruct C.
    + exact (IH k Hf Hx).
Qed.
(** Scaling down multiplies, as scaling up does. *)
Theorem C67_scale_down fuel n params pre fs a d : read_action parse fuel i [] n params pre (Some fs) = Ok (a, d) -> exists l, pa_post a = Some l /\
  forall (W : world) en e k h x y, gives W params en e -> nth_error fs k = Some (EScaleDown h x) -> nth_error l k = Some y -> assignment_change W y en = effect_change W P e (EScaleUp h x).
Proof.
  intros H. destruct (effects_meaning fuel n params pre fs a d H) as (l & A & B). exists l. split; [exact A|]. intros W en e k h x y G Hf Hx. specialize (B W en e G). clear A H. revert k Hf Hx. induction B as [|f0 x0 fs l B _ IH]; intros [|k] Hf Hx; try discriminate Hf.
  - injection Hf as ->. injection Hx as ->. destruct (B I) as (c & B1 & B2). cbn [as_read] in B2. exact (eq_trans B1 (eq_sym B2)).
  - exact (IH k Hf Hx).
Qed.
(** ** Durative actions *)
Theorem C67_durative_actions : exists n0, forall fuel n params dur pre eff, n0 <= fuel ->
  (exists a d, read_durative parse fuel i [] n params dur pre eff = Ok (a, d)) <-> durative_ok es ds params dur pre eff.
Proof.
  destruct (order parse es ds i R) as (n0 & O). exists n0. intros fuel n params dur pre eff Hf. exact (durative_accept parse fuel i es ds (read_facts parse es ds i R) (O fuel Hf) n params dur pre eff).
Qed.
Definition conditions_of (w : when) (a : pdurative) : list formula := match w with AtStart => pd_start_pre a | AtEnd => pd_end_pre a | OverAll => pd_overall a end.
Lemma conditions_refs fuel n params dur pre eff a d : read_durative parse fuel i [] n params dur pre eff = Ok (a, d) -> exists wgs ps d1, pre = Some (map timed wgs) /\ read_list (read_gd parse fuel i) (enter [] (typed_variables params)) (map snd wgs) = Ok (map snd ps, d1) /\ map fst ps = map fst wgs /\ forall w, conditions_of w a = refs_at w ps.
Proof.
  intros H. destruct (durative_action _ _ _ _ _ _ _ _ _ _ _ H) as (wgs & bfs & ps & qs & d1 & b & Q1 & Q2 & _ & A & B & _ & _ & _ & _ & _ & S1 & S2 & S3 & _). exists wgs, ps, d1. split; [exact Q1|]. split; [exact A|]. split; [exact B|]. intros []; assumption.
Qed.
(** The conditions for each time hold exactly when those of the text do; none is there twice. *)
Theorem C67_durative_conditions fuel n params dur cs eff a d : read_durative parse fuel i [] n params dur (Some cs) eff = Ok (a, d) -> forall w, NoDup (conditions_of w a) /\
  forall (W : world) en e, gives W params en e -> (forall g p, In g (conditions_at w cs) -> In p (atom_symbols g) -> In p P) -> forallb (fun f => fsem (structure_of W) f en) (conditions_of w a) = forallb (gd_value W P e) (conditions_at w cs).
Proof.
  intros H w. destruct (conditions_refs _ _ _ _ _ _ _ _ H) as (wgs & ps & d1 & Q & A & B & C). injection Q as ->. rewrite (C w). split; [apply refs_NoDup|]. intros W en e G Pr. rewrite refs_forallb. clear H C.
  assert (Ag := gives_agree W params en e G). assert (D := enter_distinct (typed_variables params) [] distinct_nil). revert A B Pr Ag D. generalize (enter [] (typed_variables params)) as d0. revert ps d1. induction wgs as [|[w' g] wgs IH]; intros ps d1 d0 A B Pr Ag D; [destruct ps; [reflexivity|discriminate B]|].
  destruct ps as [|[w'' f] ps]; [discriminate B|]. cbn [map fst snd] in A, B. injection B as -> B. rewrite read_list_cons in A. apply bind_some in A as ([f' d2] & A1 & A). apply bind_some in A as ([fs d3] & A2 & A). cbn [fst snd] in A, A2. injection A as -> -> ->.
  change (conditions_at w (map timed ((w', g) :: wgs))) with ((if when_eqb w' w then [g] else []) ++ conditions_at w (map timed wgs)) in *. rewrite forallb_app. cbn [forallb fst snd]. destruct (gd_scope _ _ _ _ _ _ _ D A1) as [_ S].
  rewrite (IH ps d1 d2 A2 B); [|intros g' p Hg; apply Pr; apply in_app_iff; now right|exact (agree_sub W _ _ _ _ (scope_sub _ _ _ S) Ag)|exact (proj1 S)]. f_equal. destruct (when_eqb w' w); [|reflexivity]. cbn [forallb]. rewrite Bool.andb_true_r. apply (gd_means parse fuel i W P fun_fact obj_fact g d0 f d2 en e D) with (2 := A1); [|exact Ag]. intros p Hp. apply (Pr g p); [now left|exact Hp].
Qed.
(** The effects at the start and at the end make the changes of the text, in its order; the duration has the value of its expression. *)
Definition makes (W : world) (en : env (structure_of W)) (e : names W) (f : peff) (x : assignment) : Prop := a_change f -> exists c, effect_change W P e f = Some c /\ assignment_change W x en = Some c.
Lemma effects_make fuel (W : world) en e d1 fs l : agree W d1 en e -> mapM (read_effect parse fuel i d1) fs = Ok l -> Forall2 (makes W en e) fs l.
Proof.
  intros Ag. revert l. induction fs as [|f fs IH]; intros l B; cbn [mapM] in B; [injection B as <-; constructor|]. apply bind_some in B as (x & X & B). apply bind_some in B as (xs & Xs & B). injection B as <-. constructor; [|exact (IH xs Xs)]. intros C.
  destruct (effect_means parse fuel i W P fun_fact obj_fact d1 en e f x Ag) as (c & B1 & B2); [destruct f as [| |[]| | | | | | | | | | ]; cbn in C |- *; tauto|exact X|]. exists c. split; [|exact B1]. destruct f; cbn [a_change as_read] in *; try exact B2. destruct C.
Qed.
Theorem C67_durative_effects fuel n params dur pre fs a d : read_durative parse fuel i [] n params dur pre (Some fs) = Ok (a, d) -> pd_name a = n /\ pd_parameters a = typed_variables params /\ d = [] /\
  forall (W : world) en e, gives W params en e ->
    Forall2 (makes W en e) (effects_at false fs) (pd_start_post a) /\ Forall2 (makes W en e) (effects_at true fs) (pd_end_post a) /\
    match dur with DurIs x => exists t, pd_duration a = Some t /\ tsem (structure_of W) t en = exp_value W P e x | _ => pd_duration a = None end.
Proof.
  intros H. destruct (durative_action _ _ _ _ _ _ _ _ _ _ _ H) as (wgs & bfs & ps & qs & d1 & b & Q1 & Q2 & Ra & A & B & C & D & Dt & E1 & E2 & _ & _ & _ & S1 & S2). injection Q2 as ->. split; [exact E1|]. split; [exact E2|].
  destruct (action_parts _ _ _ _ _ _ _ Ra) as (_ & _ & Ed & d2 & Su & _ & (l & E3 & E4)). split; [exact Ed|]. intros W en e G.
  assert (Ag0 := gives_agree W params en e G). assert (Ag : agree W d1 en e).
  { destruct (land_total (map snd ps)) as (h & Lh). assert (X : read_gd parse fuel i (enter [] (typed_variables params)) (GAnd (map snd wgs)) = Ok (h, d1)) by (cbn [read_gd]; rewrite A; cbn [bind fst snd]; rewrite Lh; reflexivity).
    destruct (gd_scope _ _ _ _ _ _ _ (enter_distinct (typed_variables params) [] distinct_nil) X) as [_ S]. exact (agree_sub W _ _ _ _ (scope_sub _ _ _ S) Ag0). }
  assert (K := effects_make fuel W en e d1 _ _ Ag C). rewrite S1, S2. split; [|split].
  - assert (X := timed_effects false (makes W en e) bfs qs D K). replace (filter (fun e => negb (fst e)) qs) with (filter (fun e : bool * assignment => Bool.eqb (fst e) false) qs); [exact X|]. apply filter_ext. intros [[] x]; reflexivity.
  - assert (X := timed_effects true (makes W en e) bfs qs D K). replace (filter fst qs) with (filter (fun e : bool * assignment => Bool.eqb (fst e) true) qs); [exact X|]. apply filter_ext. intros [[] x]; reflexivity.
  - destruct dur as [x| |]; [|exact Dt|destruct Dt]. destruct Dt as (t & Rt & E). exists t. split; [exact E|]. exact (exp_means parse fuel i W P fun_fact obj_fact _ en e Ag0 x t Rt).
Qed.
(** ** The initial state *)
Theorem C67_initial_facts : exists n0, forall fuel f, n0 <= fuel -> (exists a, read_init fuel i [] f = Ok a) <-> init_ok es ds f.
Proof. destruct (order parse es ds i R) as (n0 & O). exists n0. intros fuel f Hf. exact (init_accept fuel i es ds (read_facts parse es ds i R) (O fuel Hf) f). Qed.
Theorem C67_initial_values fuel f a : read_init fuel i [] f = Ok a -> (match f with IEqNum t (CStr _) => False | IEqNum t _ | IEqId t _ | IEqTerm t _ => exists g ts, t = PApp g ts | _ => True end) ->
  forall (W : world) en e, exists c, init_change W P e f = Some c /\ assignment_change W a en = Some c.
Proof.
  intros H Sf W en e. assert (Ag : agree W [] en e) by (intros x v Q; discriminate Q).
  assert (Hd : forall g ts x, read_term fuel i [] (PApp g ts) = Ok x -> exists us ss, x = ITerm (App (FU g (removelast ss) (last ss "")) us) /\ map (fun u => tsem (structure_of W) u en) us = map (term_value W P e) ts).
  { intros g ts x X. cbn [read_term] in X. apply bind_some in X as (its & S & X). apply bind_some in X as (el & L & X). apply semantic_ok in L. apply bind_some in X as (t & C & X). injection X as <-. destruct (call_value fuel i W P fun_fact _ _ _ _ L C) as (us & ss & Q & _ & -> & _). exists us, ss. split; [reflexivity|]. exact (stands_all W P en e its us ts (all_args fuel i W P fun_fact obj_fact [] en e Ag ts its S) Q). }
  destruct f as [p ts|p ts|t c|t n|t u|t u|]; cbn [read_init init_change] in *.
  - apply bind_some in H as (its & S & H). apply bind_some in H as (el & L & H). apply bind_some in H as (t & C & H). injection H as <-. destruct (Hd p ts (ITerm t)) as (us & ss & Q & V); [cbn [read_term]; rewrite S; cbn [bind]; rewrite L; cbn [bind]; rewrite C; reflexivity|]. injection Q as ->. cbn [assignment_change]. rewrite V. eexists. split; reflexivity.
  - apply bind_some in H as (its & S & H). apply bind_some in H as (el & L & H). apply bind_some in H as (t & C & H). discriminate H.
  - destruct c as [|z]; [destruct Sf|]. destruct Sf as (g & ts & ->). apply bind_some in H as (x & X & H). injection H as <-. destruct (Hd g ts x X) as (us & ss & -> & V). cbn [assignment_change]. rewrite V. eexists. split; reflexivity.
  - destruct Sf as (g & ts & ->). apply bind_some in H as (x & X & H). destruct (Hd g ts x X) as (us & ss & -> & V). apply bind_some in H as (el & L & H). destruct (item_of el) as [u|] eqn:It; [|discriminate H]. injection H as <-. cbn [assignment_change]. rewrite V.
    assert (Tn := term_means fuel i W P fun_fact obj_fact [] en e Ag (PId n) (ITerm u)). rewrite (Tn ltac:(cbn [read_term]; rewrite L; cbn [bind]; now rewrite It) u eq_refl). cbn [term_value]. eexists. split; reflexivity.
  - destruct Sf as (g & ts & ->). apply bind_some in H as (x & X & H). destruct (Hd g ts x X) as (us & ss & -> & V). apply bind_some in H as (y & Y & H). destruct y as [v|]; [|discriminate H]. injection H as <-. cbn [assignment_change]. rewrite V, (term_means fuel i W P fun_fact obj_fact [] en e Ag u _ Y v eq_refl). eexists. split; reflexivity.
  - apply bind_some in H as (x & X & H). apply bind_some in H as (y & Y & H). discriminate H.
  - discriminate H.
Qed.
End Domain.
(** ** Examples: the logistics domain of C66 *)
Definition deliver_params : list vtoken := [VVar "?p"; VType "package"; VVar "?v"; VType "vehicle"].
Definition in_ (x v : string) : gd := GAtom "in" [PVar x; PVar v; PVar v; PId "c1"].
Definition deliver_pre : gd := GAnd [in_ "?p" "?v"; GAll [VVar "?q"; VType "package"] (GImply (in_ "?q" "?v") (GComp PGe (FApp "load" [PVar "?v"]) (FNat 1))); GOr [GNotEq (PVar "?p") (PId "p1"); GEx [VVar "?t"; VType "truck"] (GEq (PApp "home" [PVar "?t"]) (PId "c1"))]].
Definition deliver_eff : list peff := [ENot "in" [PVar "?p"; PVar "?v"; PVar "?v"; PId "c1"]; EDecrease (HApp "load" [PVar "?v"]) (FNat 1); EAssign (HId "total") (FPlus (FId "total") (FApp "load" [PVar "?v"]) [FNat 2]); EScaleDown (HId "total") (FNat 2)].
(** Objects are numbers over 100; the load of the truck [t1] is given. *)
Definition log_world (load : Z) : world.
Proof.
  refine {| w_car := Z; w_eqb := Z.eqb; w_eqb_ok := Z.eqb_eq; w_num := fun z => z; w_real := fun _ => 0%Z; w_add := Z.add; w_sub := Z.sub; w_mul := Z.mul; w_div := Z.div; w_less := Z.ltb;
            w_dom := fun s => if String.eqb s "truck" then [101; 102]%Z else if String.eqb s "package" then [103]%Z else if String.eqb s "city" then [104]%Z else [];
            w_obj := fun n => if String.eqb n "t1" then 101%Z else if String.eqb n "t2" then 102%Z else if String.eqb n "p1" then 103%Z else 104%Z;
            w_pred := fun p xs => match xs with [103; 101; 101; 104]%Z => String.eqb p "in" | _ => false end;
            w_fun := fun f xs => if String.eqb f "load" then load else if String.eqb f "home" then 104%Z else 5%Z |}.
  discriminate.
Defined.
Definition log_names : string -> Z := fun x => if String.eqb x "?p" then 103%Z else 101%Z.
Definition log_env (k : Z) : env (structure_of (log_world k)) := fun v => log_names (fst v).
Definition changes_in (k : Z) (l : list assignment) : list (option ((string * list Z) * Z)) := map (fun x => assignment_change (log_world k) x (log_env k)) l.
Lemma above_one s t : In (s, t) (pairs_of log_types) -> conforms log_types s t.
Proof. intros H. right. right. now constructor. Qed.
Ltac listed := vm_compute; repeat (first [left; reflexivity | right]).
Ltac types := repeat (first [apply hts_nil | eapply hts_cons; [first [apply ht_variable; listed | apply ht_object; listed] | first [left; reflexivity | right; left; reflexivity | apply above_one; listed] | ]]).
Lemma in_ok sc x v : In (x, "package") sc -> In (v, "vehicle") sc -> gd_ok log_types log_decls sc (in_ x v).
Proof.
  intros A B. apply ok_atom. exists ["package"; "vehicle"; "vehicle"; "object"], "Bool". split; [listed|]. split; [listed|].
  eapply hts_cons; [apply ht_variable; exact A|left; reflexivity|]. eapply hts_cons; [apply ht_variable; exact B|left; reflexivity|]. eapply hts_cons; [apply ht_variable; exact B|left; reflexivity|]. eapply hts_cons; [apply ht_object; listed|right; left; reflexivity|]. apply hts_nil.
Qed.
Theorem C67_nonvacuous : action_ok log_types log_decls deliver_params (Some deliver_pre) (Some deliver_eff) /\
  (forall p, In p (atom_symbols deliver_pre) -> In p (predicate_names log_decls)) /\ (forall k, gives (log_world k) deliver_params (log_env k) log_names) /\
  match (let! i := read_domain no_num log_types log_decls in read_action no_num 100 i [] "deliver" deliver_params (Some deliver_pre) (Some deliver_eff)) with
  | Ok (a, d) => match pa_pre a, pa_post a with
      | Some f, Some l => d = [] /\ map (fun k => fsem (structure_of (log_world k)) f (log_env k)) [3; 0]%Z = [true; false] /\ map (fun k => gd_value (log_world k) (predicate_names log_decls) log_names deliver_pre) [3; 0]%Z = [true; false] /\
          changes_in 3 l = [Some (("in", [103; 101; 101; 104]%Z), 0%Z); Some (("load", [101%Z]), 2%Z); Some (("total", []), 10%Z); Some (("total", []), 10%Z)]
      | _, _ => False end
  | Err _ => False end.
Proof.
  split; [|split; [|split]].
  - assert (Vt : forall t, In t ["package"; "vehicle"; "truck"] -> In t (types_of log_types)) by (intros t [<-|[<-|[<-|[]]]]; listed).
    split; [intros t Ht; apply Vt; revert Ht; vm_compute; tauto|]. split; [repeat constructor; vm_compute; intuition discriminate|]. split.
    + intros g Q. injection Q as <-. split.
      * apply ok_and. constructor; [apply in_ok; listed|]. constructor; [|constructor; [|constructor]].
        -- apply ok_all; [discriminate|intros t Ht; apply Vt; revert Ht; vm_compute; tauto|]. apply ok_imply; [apply in_ok; listed|]. apply (ok_comp _ _ _ _ _ _ "Real" "Integer"); [|constructor; vm_compute; discriminate|right; right; split; listed].
           apply et_apply. exists ["vehicle"]. split; [listed|]. eapply hts_cons; [apply ht_variable; listed|left; reflexivity|apply hts_nil].
        -- apply ok_or. constructor; [|constructor; [|constructor]]; [apply (ok_neq _ _ _ _ _ "package" "package"); constructor; listed|]. apply ok_ex; [discriminate|intros t Ht; apply Vt; revert Ht; vm_compute; tauto|]. apply (ok_eq _ _ _ _ _ "city" "city"); [|constructor; listed]. apply (ht_apply _ _ _ "home" ["truck"]); [listed|]. eapply hts_cons; [apply ht_variable; listed|left; reflexivity|apply hts_nil].
      * apply nb_and. constructor; [apply nb_atom|]. constructor; [|constructor; [|constructor]].
        -- apply nb_all; [repeat constructor; intros []|vm_compute; intuition congruence|]. apply nb_imply; [apply nb_atom|apply nb_comp].
        -- apply nb_or. constructor; [apply nb_neq|]. constructor; [|constructor]. apply nb_ex; [repeat constructor; intros []|vm_compute; intuition congruence|apply nb_eq].
    + intros fs Q. injection Q as <-. constructor; [|constructor; [|constructor; [|constructor; [|constructor]]]]; cbn [effect_ok].
      * exists ["package"; "vehicle"; "vehicle"; "object"], "Bool". split; [listed|types].
      * exists "Real", "Integer". split; [exists ["vehicle"]; split; [listed|types]|]. split; [listed|]. split; [constructor; vm_compute; discriminate|listed].
      * exists "Integer", "Real". split; [listed|]. apply et_plus. constructor; [exists "Integer"; split; [apply et_id; listed|listed]|]. constructor; [exists "Real"; split; [apply et_apply; exists ["vehicle"]; split; [listed|types]|listed]|]. constructor; [exists "Integer"; split; [constructor; vm_compute; discriminate|listed]|constructor].
      * exists "Integer", "Integer". split; [listed|]. split; [listed|]. split; [constructor; vm_compute; discriminate|listed].
  - intros p Hp. vm_compute in Hp |- *. tauto.
  - intros k x s _. reflexivity.
  - vm_compute. split; [reflexivity|]. split; [reflexivity|]. split; reflexivity.
Qed.
(** Scaling down: the example above leaves 10 where the text says 5 / 2. *)
Theorem C67_scale_down_wrong : effect_change (log_world 3) (predicate_names log_decls) log_names (EScaleDown (HId "total") (FNat 2)) = Some (("total", []), 2%Z) /\
  match (let! i := read_domain no_num log_types log_decls in read_action no_num 100 i [] "halve" [] None (Some [EScaleDown (HId "total") (FNat 2)])) with
  | Ok (a, _) => match pa_post a with Some l => changes_in 3 l = [Some (("total", []), 10%Z)] | None => False end | Err _ => False end.
Proof. split; vm_compute; reflexivity. Qed.
(** An atom over a function with numbers as values is accepted: it says that the value is 1, and its negation that it is 0; both may be false. *)
Theorem C67_numeric_atoms : match (let! i := read_domain no_num log_types log_decls in let! fd := read_gd no_num 100 i [] (GAtom "load" [PId "t1"]) in let! gd := read_gd no_num 100 i [] (GNotAtom "load" [PId "t1"]) in Ok (fst fd, fst gd)) with
  | Ok (f, g) => map (fun k => (fsem (structure_of (log_world k)) f (log_env k), fsem (structure_of (log_world k)) g (log_env k))) [1; 0; 3]%Z = [(true, false); (false, true); (false, false)] | Err _ => False end.
Proof. vm_compute. reflexivity. Qed.
(** What is refused: a variable bound twice, or not at all; a wrong type; arithmetic on things that are not numbers; conditional and universal effects; negative numbers; negated initial facts; the empty condition of a durative action *)
Definition refused {A} (r : pinst -> res A) : option exn := match (let! i := read_domain no_num log_types log_decls in r i) with Ok _ => None | Err x => Some x end.
Theorem C67_refused :
  refused (fun i => read_action no_num 100 i [] "a" deliver_params (Some (GAll [VVar "?p"; VType "package"] (in_ "?p" "?v"))) None) = Some KeyError /\
  refused (fun i => read_action no_num 100 i [] "a" [VVar "?p"; VVar "?p"] None None) = Some KeyError /\
  refused (fun i => read_action no_num 100 i [] "a" [] (Some (in_ "?p" "?v")) None) = Some SemanticError /\
  refused (fun i => read_action no_num 100 i [] "a" [VVar "?p"; VVar "?v"] (Some (in_ "?p" "?v")) None) = Some SortMismatch /\
  refused (fun i => read_action no_num 100 i [] "a" [VVar "?v"; VType "truck"] (Some (GComp PLt (FApp "home" [PVar "?v"]) (FNat 1))) None) = Some SortMismatch /\
  refused (fun i => read_action no_num 100 i [] "a" [] None (Some [EWhen (GEq (PId "t1") (PId "t2")) [EAssign (HId "total") (FNat 1)]])) = Some TarskiError /\
  refused (fun i => read_action no_num 100 i [] "a" [] None (Some [EAssign (HId "total") (FNeg (FNat 1))])) = Some TypeError /\
  refused (fun i => read_init 100 i [] (INot "in" [PId "p1"; PId "t1"; PId "t1"; PId "c1"])) = Some TypeError /\
  refused (fun i => read_durative no_num 100 i [] "a" [] (DurIs (FNat 3)) None (Some [DEff true (EAssign (HId "total") (FNat 1))])) = Some TypeError.
Proof.
  split; [vm_compute; reflexivity|]. split; [vm_compute; reflexivity|]. split; [vm_compute; reflexivity|]. split; [vm_compute; reflexivity|]. split; [vm_compute; reflexivity|]. split; [vm_compute; reflexivity|]. split; [vm_compute; reflexivity|]. split; vm_compute; reflexivity.
Qed.
(** A durative action *)
Definition drive : list dgd := [DCond AtStart (GNotAtom "in" [PId "p1"; PVar "?v"; PVar "?v"; PId "c1"]); DCond OverAll (GComp PLt (FId "total") (FNat 9)); DCond AtStart (GNotAtom "in" [PId "p1"; PVar "?v"; PVar "?v"; PId "c1"]); DCond AtEnd (GAnd [])].
Theorem C67_durative_example : match (let! i := read_domain no_num log_types log_decls in read_durative no_num 100 i [] "drive" [VVar "?v"; VType "truck"] (DurIs (FTimes (FNat 2) (FId "total") [])) (Some drive) (Some [DEff true (EIncrease (HId "total") (FNat 1)); DEff false (EAtom "in" [PId "p1"; PVar "?v"; PVar "?v"; PId "c1"]); DEff true (EAssign (HApp "load" [PVar "?v"]) (FNat 7))])) with
  | Ok (a, d) => d = [] /\ map (fun w => List.length (conditions_of w a)) [AtStart; AtEnd; OverAll] = [1; 1; 1] /\ changes_in 3 (pd_start_post a) = [Some (("in", [103; 101; 101; 104]%Z), 1%Z)] /\
      changes_in 3 (pd_end_post a) = [Some (("total", []), 6%Z); Some (("load", [101%Z]), 7%Z)] /\ option_map (fun t => tsem (structure_of (log_world 3)) t (log_env 3)) (pd_duration a) = Some 10%Z
  | Err _ => False end.
Proof. vm_compute. split; [reflexivity|]. split; [reflexivity|]. split; [reflexivity|]. split; reflexivity. Qed.
