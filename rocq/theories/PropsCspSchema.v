(** C53: The solutions of the constraint satisfaction problem of an action schema are its applicable instances *)
From Verif Require Import ListUtil Base Syntax Semantics SemLemmas FolSpec Build NnfProofs BuildProofs Nnf Prenex PropsFol PropsPrenex RepresentSpec PropsRepresent ModelState ModelProofs ModelText Eval EvalSpec EvalProofs PropsModel Index Subst SubstProofs QElim Effects ProgressSpec Represent RelaxSpec Grounding GroundingSpec PropsGrounding NegBuiltin Simplify SimplifySpec SimplifyProofs2 SimplifyProofs4 PropsSimplify Lang LangSpec LangProofs LangProofs2 LangProofs3 SortIds SortIdsProofs PropsLang PropsLang2 Asp AspProofs3 CspSchema CspSchemaSpec CspSchemaProofs.
#[local] Open Scope string_scope.

Lemma cobj_eqb_eq x y : cobj_eqb x y = true <-> x = y.
Proof. unfold cobj_eqb. destruct x, y. cbn [fst snd]. rewrite andb_true_iff, cname_eqb_eq, String.eqb_eq. split; [intros [-> ->]; auto|intros [= -> ->]; auto]. Qed.
Lemma snd_inj {A B} (d : list (A * B)) x y i : NoDup (map snd d) -> In (x, i) d -> In (y, i) d -> x = y.
Proof.
  induction d as [|[u j] r IH]; [intros _ []|]. cbn [map snd]. intros N. inversion N as [|? ? N1 N2]; subst.
  intros [E|E] [F|F]; [congruence|exfalso; apply N1; injection E as <- <-; exact (in_map snd _ _ F)|exfalso; apply N1; injection F as <- <-; exact (in_map snd _ _ E)|auto].
Qed.
Section Main.
Variables (parse : bool -> string -> option Z) (ops : list lop) (start : nat) (ids : list (cobj * nat)) (bounds : list (string * (nat * nat))).
Hypothesis Hn : forallb native ops = true.
Let l := lrun parse ops.
Hypothesis (HN : numberable l) (HI : sort_ids l start = Ok (ids, bounds)).
Let D := lang_domains l.
Lemma id_facts : map snd ids = seq start (List.length ids) /\ NoDup (map fst ids) /\
    (forall c s, In (c, s) (map fst ids) <-> is_plain l s /\ const_of l c s) /\
    (forall s, is_plain l s <-> sget bounds s <> None) /\
    (forall s lo hi, sget bounds s = Some (lo, hi) -> start <= lo <= hi /\ hi <= start + List.length ids /\
       (forall c s' i, In ((c, s'), i) ids -> lo <= i < hi <-> le l s' s)).
Proof. destruct HN as [H1 H2]. destruct (C20_ids_contiguous parse ops start Hn H1 H2) as (ids' & bounds' & E & F). fold l in E, F. rewrite HI in E. injection E as <- <-. exact F. Qed.
Lemma id_get o i : dget cobj_eqb ids o = Some i <-> In (o, i) ids.
Proof. apply (dget_Some_In cobj_eqb cobj_eqb_eq). apply id_facts. Qed.
Lemma id_exists c s : is_plain l s -> const_of l c s -> exists i, In ((c, s), i) ids.
Proof. intros P C. destruct id_facts as (_ & _ & H & _). assert (X := proj2 (H c s) (conj P C)). apply in_map_iff in X as ([o i] & E & X). cbn in E. subst o. eauto. Qed.
Lemma id_inj o o' i : In (o, i) ids -> In (o', i) ids -> o = o'.
Proof. destruct id_facts as (H & _). apply snd_inj. rewrite H. apply seq_NoDup. Qed.
Lemma id_fun o i j : In (o, i) ids -> In (o, j) ids -> i = j.
Proof. rewrite <- !id_get. congruence. Qed.
Lemma id_const c s i : In ((c, s), i) ids -> is_plain l s /\ const_of l c s.
Proof. intros H. destruct id_facts as (_ & _ & X & _). apply X. exact (in_map fst _ _ H). Qed.
Lemma const_sort c s s' : const_of l c s -> const_of l c s' -> s = s'.
Proof. intros H H'. apply const_dget in H as (y & E). apply const_dget in H' as (y' & E'). congruence. Qed.
(** Domains and bounds *)
Lemma domain_value r cs c r' : is_plain l r -> D r = Some cs -> In (Cst c r') cs -> exists i lo hi, In ((c, r'), i) ids /\ sget bounds r = Some (lo, hi) /\ lo <= i < hi.
Proof.
  intros P E H. unfold D, lang_domains in E. destruct (lang_domain l r) as [d|] eqn:Ed; [|discriminate]. injection E as ->. destruct (domain_constants parse ops Hn r cs _ P Ed H) as (c' & s' & [= <- <-] & C & P' & L). fold l in C, P', L.
  destruct (id_exists c r' P' C) as (i & Hi). destruct id_facts as (_ & _ & _ & B & F). destruct (sget bounds r) as [[lo hi]|] eqn:Eb; [|exfalso; now apply (proj1 (B r) P)]. exists i, lo, hi. split; [exact Hi|]. split; [auto|]. destruct (F r lo hi Eb) as (_ & _ & G). now apply (G c r' i Hi).
Qed.
Lemma value_domain r lo hi (z : Z) : is_plain l r -> sget bounds r = Some (lo, hi) -> (Z.of_nat lo <= z <= Z.of_nat hi - 1)%Z -> exists cs c r' i, D r = Some cs /\ In (Cst c r') cs /\ In ((c, r'), i) ids /\ z = Z.of_nat i.
Proof.
  intros P Eb Hz. destruct id_facts as (S & _ & _ & _ & F). destruct (F r lo hi Eb) as (F1 & F2 & F3). assert (Hi : In (Z.to_nat z) (map snd ids)) by (rewrite S; apply in_seq; lia). apply in_map_iff in Hi as ([[c r'] i] & E & Hi). cbn in E. subst i.
  assert (L : le l r' r) by (apply (F3 c r' (Z.to_nat z) Hi); lia). destruct (id_const _ _ _ Hi) as [P' C'].
  assert (X : exists cs, lang_domain l r = Ok cs /\ In (Cst c r') cs).
  { unfold lang_domain. destruct P as (rec & Hr & K). destruct (sget (l_sorts l) r) as [rec'|] eqn:Er.
    - assert (K' : s_kind rec' = KPlain) by (apply (plain_kind parse ops r rec'); [exists rec; auto|exact Er]). rewrite K'. assert (Hd := dom_spec parse ops Hn r rec' Er K').
      assert (M : exists cs, mapM (fun c : cname => match dget cname_eqb (l_consts l) c with Some (sym, srt) => Ok (Cst sym srt) | None => Err UndefinedElement end) (s_dom rec') = Ok cs).
      { assert (G : forall d, (forall c, In c d -> exists v, dget cname_eqb (l_consts l) c = Some v) -> exists cs, mapM (fun c : cname => match dget cname_eqb (l_consts l) c with Some (sym, srt) => Ok (Cst sym srt) | None => Err UndefinedElement end) d = Ok cs).
        { induction d as [|y d IH]; intros G; [eexists; reflexivity|]. rewrite mapM_cons. destruct (G y (or_introl eq_refl)) as ([u v] & ->). cbn [bind]. destruct IH as (cs & ->); [intros; apply G; now right|]. eexists. reflexivity. }
        apply G. intros y Hy. apply Hd in Hy as (s' & _ & Hc & _). apply const_dget in Hc as (w & Ew). eauto. }
      destruct M as (cs & EM). exists cs. split; [exact EM|]. apply mapM_Forall2 in EM. assert (Hc : In c (s_dom rec')) by (apply Hd; eauto). destruct (Forall2_In_l _ _ _ _ EM Hc) as (t & Ht & Et). destruct (const_dget parse ops c r' C') as (w & Ew). fold l in Ew. rewrite Ew in Et. injection Et as <-. assert (w = c) by exact (plain_const_name parse ops Hn c w r' P' Ew). now subst w.
    - exfalso. apply (sget_In _ _ _ (ii_sorts l (lrun_index parse ops))) in Hr. congruence. }
  destruct X as (cs & Ec & Hc). exists cs, c, r', (Z.to_nat z). split; [unfold D, lang_domains; now rewrite Ec|]. split; [exact Hc|]. split; [exact Hi|]. lia.
Qed.

Variables (svs : list svar) (a : action).
Hypothesis HA : csp_action l a.
Let T := action_term l (a_params a).
Lemma T_entries t : T t -> match t with Var _ r => sget bounds r <> None | Cst c r => dget cobj_eqb ids (c, r) <> None | _ => False end.
Proof.
  intros H. destruct t as [x r|c r| |]; try exact H; cbn [T action_term] in H.
  - destruct (ca_params l a HA _ H) as (y & q & [= <- <-] & P). destruct id_facts as (_ & _ & _ & B & _). now apply B.
  - destruct H as [P C]. destruct (id_exists c r P C) as (i & Hi). apply (id_get (c, r) i) in Hi. intros X. unfold dget in *. rewrite Hi in X. discriminate.
Qed.
Lemma T_simple t : T t -> simple_term t = true.
Proof. destruct t; cbn; tauto. Qed.
Lemma params_vars : param_vars a = vars_of (a_params a) /\ (forall x r, In (x, r) (param_vars a) <-> In (Var x r) (a_params a)).
Proof.
  assert (P := ca_params l a HA). assert (N := ca_names l a HA). assert (V : a_params a = map (fun v => Var (fst v) (snd v)) (vars_of (a_params a))).
  { clear - P. induction (a_params a) as [|t ts IH]; [auto|]. destruct (P t (or_introl eq_refl)) as (x & r & -> & _). cbn. f_equal. apply IH. intros; apply P; now right. }
  assert (ND : NoDup (map fst (vars_of (a_params a)))).
  { rewrite V in N. clear V P. induction (vars_of (a_params a)) as [|[x r] vs IH]; [constructor|]. cbn [map fst]. constructor.
    - intros H. apply in_map_iff in H as ([y q] & E & H). cbn in E. subst y. apply In_nth_error in H as (j & Hj). assert (X : 0 = S j) by (apply (N 0 (S j) x r q); [reflexivity|cbn [map nth_error]; apply (map_nth_error (fun v => Var (fst v) (snd v)) _ _ Hj)]). discriminate.
    - apply IH. intros i j x' r' q' Hi Hj. assert (X : S i = S j) by (apply (N (S i) (S j) x' r' q'); auto). now injection X. }
  unfold param_vars. rewrite (vb_make_distinct _ ND). split; [reflexivity|]. intros x r. rewrite V at 2. rewrite in_map_iff. split; [intros H; exists (x, r); auto|intros ([y q] & [= <- <-] & H); exact H].
Qed.
Lemma param_sort x r q : In (Var x r) (a_params a) -> In (Var x q) (a_params a) -> r = q.
Proof. intros H H'. apply In_nth_error in H as (i & Hi). apply In_nth_error in H' as (j & Hj). assert (i = j) by exact (ca_names l a HA i j x r q Hi Hj). congruence. Qed.

(** What the bounds mean *)
Definition in_bounds (k : csp) (sigma : string -> Z) : Prop := forall x kind lo hi, In (x, kind, (lo, hi)) (c_vars k) -> (Z.of_nat lo <= sigma x <= hi)%Z.
Lemma bound_const k sigma c r : VI bounds ids T k -> in_bounds k sigma -> T (Cst c r) -> has k (name_text c) -> exists i, In ((c, r), i) ids /\ sigma (name_text c) = Z.of_nat i.
Proof.
  intros V B Ht (kind & [lo hi] & H). unfold VI in V. rewrite Forall_forall in V. assert (X := B _ _ _ _ H). destruct Ht as [P C]. destruct (V _ H) as [(x & q & lo' & hi' & Hx & _ & E & _)|(c' & q & i & [P' C'] & Hi & E & E2)]; cbn [fst snd] in *.
  - exfalso. cbn in Hx. exact (ca_clash l a HA x q c r Hx P C (eq_sym E)).
  - assert (c' = c) by (apply (ca_texts l a HA c' q c r); auto). subst c'. assert (q = r) by exact (const_sort c q r C' C). subst q. injection E2 as -> ->. exists i. split; [now apply id_get|lia].
Qed.
Lemma bound_param k sigma x r : VI bounds ids T k -> in_bounds k sigma -> In (Var x r) (a_params a) -> has k x -> exists lo hi, sget bounds r = Some (lo, hi) /\ (Z.of_nat lo <= sigma x <= Z.of_nat hi - 1)%Z.
Proof.
  intros V B Hx (kind & [lo hi] & H). unfold VI in V. rewrite Forall_forall in V. assert (X := B _ _ _ _ H). destruct (V _ H) as [(y & q & lo' & hi' & Hy & Eb & E & E2)|(c & q & i & [P C] & Hi & E & E2)]; cbn [fst snd] in *.
  - subst y. cbn in Hy. assert (q = r) by exact (param_sort x q r Hy Hx). subst q. injection E2 as -> ->. eauto.
  - exfalso. exact (ca_clash l a HA x r c q Hx P C E).
Qed.

(** Constraints *)
Section Constraints.
Variables (m : model) (s : subst) (sigma : string -> Z).
Hypothesis (Hs : constant_binding s) (He : encodes ids a s sigma).
Lemma inst_var x r : In (Var x r) (a_params a) -> numbered_as ids (subst_term s (Var x r)) (sigma x).
Proof. intros H. destruct (He x r H) as (t & E & N). cbn [subst_term]. unfold visit_t. now rewrite E. Qed.
Lemma inst_const c r : subst_term s (Cst c r) = Cst c r.
Proof. cbn [subst_term]. unfold visit_t. destruct (get_t (sub_t s) (Cst c r)) eqn:E; [|auto]. exfalso. destruct (binding_get s _ _ (constant_parameter s Hs) E) as (x & q & X). discriminate. Qed.
Lemma inst_value t : T t -> is_const (subst_term s t).
Proof.
  intros H. destruct t as [x r|c r| |]; try destruct H.
  - destruct (inst_var x r H) as (c & q & i & -> & _). eexists _, _. reflexivity.
  - rewrite inst_const. eexists _, _. reflexivity.
Qed.
Definition named (t : term) : Prop := numbered_as ids (subst_term s t) (sigma (vname t)).
Lemma numbered_inj t u v : numbered_as ids t v -> numbered_as ids u v -> t = u.
Proof. intros (c & r & i & -> & Hi & ->) (c' & r' & i' & -> & Hi' & E). apply Nat2Z.inj in E. subst i'. assert (X := id_inj _ _ _ Hi Hi'). congruence. Qed.
Lemma sat_atom p ts neg : csp_condition T (Atom p ts) -> Forall named (atom_terms svs p ts) -> satisfied ids m sigma (constraint_of svs p ts neg) <-> truth m (subst_term s) (Atom p ts) = negb neg.
Proof.
  intros H N. unfold constraint_of, atom_terms in *. destruct (forallb is_cst ts && svar_mem svs (SymP p, ts)) eqn:E.
  - apply andb_true_iff in E as [E _]. cbn [satisfied]. assert (Hc : Forall is_const ts). { apply Forall_forall. intros t Ht. rewrite forallb_forall in E. specialize (E t Ht). destruct t; try discriminate. eexists _, _. reflexivity. }
    assert (C : csp_condition is_const (Atom p ts)). { apply csp_atom in H as [(n & ss & -> & _)|(b & t & u & -> & Hb & -> & _)]; [exact Hc|]. inversion Hc as [|? ? H1 Hc']; subst. inversion Hc' as [|? ? H2 _]; subst. destruct Hb as [-> | ->]; cbn; auto. }
    rewrite (eval_truth m _ C). assert (X : truth m (subst_term s) (Atom p ts) = truth m (fun t => t) (Atom p ts)).
    { apply csp_atom in H as [(n & ss & -> & _)|(b & t & u & -> & Hb & -> & _)]; cbn [truth].
      - rewrite map_id. f_equal. rewrite <- (map_id ts) at 2. apply map_ext_in. intros t Ht. rewrite Forall_forall in Hc. destruct (Hc t Ht) as (c & r & ->). apply inst_const.
      - inversion Hc as [|? ? (c & r & ->) Hc']; subst. inversion Hc' as [|? ? (c' & r' & ->) _]; subst. now rewrite !inst_const. }
    rewrite X. split; [intros [= Y]; exact Y|intros ->; reflexivity].
  - clear E. apply csp_atom in H as [(n & ss & -> & H)|(b & t & u & -> & Hb & -> & Ht & Hu)].
    + assert (Y : in_table ids m (PU n ss) (map sigma (map vname ts)) <-> m_holds m (PU n ss) (map (subst_term s) ts) = true).
      { unfold in_table. assert (F2 : Forall2 (numbered_as ids) (map (subst_term s) ts) (map sigma (map vname ts))). { clear - N. induction N; cbn [map]; constructor; auto. } split; [|eauto]. intros (pt & Hp & F). assert (pt = map (subst_term s) ts); [|congruence]. clear - F F2 HI HN Hn. revert pt F. induction F2 as [|x y xs ys Hxy _ IH]; intros pt F; inversion F as [|? ? ? ? G1 G2]; subst; [auto|]. f_equal; [exact (numbered_inj _ _ _ G1 Hxy)|auto]. }
      assert (Z : satisfied ids m sigma (CTable (inr (Atom (PU n ss) ts)) (map (fun t => Some (vname t)) ts) neg) <-> (in_table ids m (PU n ss) (map sigma (map vname ts)) <-> neg = false)).
      { cbn [satisfied]. split; [intros (names & E & X)|intros X; exists (map vname ts); split; [now rewrite map_map|exact X]]. assert (names = map vname ts); [|now subst]. clear - E. revert names E. induction ts as [|t ts IH]; intros [|x names] E; try discriminate; [auto|]. cbn [map] in *. injection E as -> E. f_equal. auto. }
      rewrite Z, Y. cbn [truth]. destruct (m_holds m (PU n ss) (map (subst_term s) ts)), neg; cbn [negb]; (split; [intros [A B]; try reflexivity; try (specialize (A eq_refl); discriminate A); try (specialize (B eq_refl); discriminate B)|intros X; try discriminate X; split; congruence]).
    + cbn [satisfied truth]. inversion N as [|? ? N1 N']; subst. inversion N' as [|? ? N2 _]; subst. destruct N1 as (c & r & i & E1 & Hi & ->). destruct N2 as (c' & r' & i' & E2 & Hi' & ->). rewrite E1, E2.
      assert (Q : Z.of_nat i = Z.of_nat i' <-> c = c').
      { split; [intros X; apply Nat2Z.inj in X; subst i'; assert (Y := id_inj _ _ _ Hi Hi'); congruence|]. intros <-. destruct (id_const _ _ _ Hi) as [_ C1]. destruct (id_const _ _ _ Hi') as [_ C2]. assert (r = r') by exact (const_sort c r r' C1 C2). subst r'. f_equal. exact (id_fun _ _ _ Hi Hi'). }
      unfold compares. destruct Hb as [-> | ->]; destruct neg; cbn [bpred_name complement name_cmp negb]; destruct (cname_eq_dec c c') as [e|e]; split; intros X; try congruence; try tauto;
        try (exfalso; repeat (destruct X as [[X0 X]|X]; [try discriminate X0; tauto|]); destruct X as [X0 _]; discriminate X0).
Qed.
Lemma sat_all f : csp_condition T f -> Forall named (terms_of svs f) -> Forall (satisfied ids m sigma) (constraints_of svs f) <-> truth m (subst_term s) f = true.
Proof.
  induction f as [| |p ts|c fs IH|q vs g IH] using formula_ind_simple; intros H N; try destruct H.
  - cbn [constraints_of terms_of] in *. rewrite (Forall_cons_iff). rewrite (sat_atom p ts false H N). split; [tauto|]. intros X. split; [exact X|constructor].
  - apply csp_cases in H as [(p & ts & E)|[(p & ts & E & H)|(gs & E & H)]]; [discriminate| |]; injection E as -> ->.
    + cbn [constraints_of terms_of] in *. rewrite (Forall_cons_iff), (sat_atom p ts true H N). change (truth m (subst_term s) (Comp Not [Atom p ts])) with (negb (truth m (subst_term s) (Atom p ts))). rewrite negb_true_iff. split; [tauto|]. intros X. split; [exact X|constructor].
    + cbn [constraints_of terms_of truth] in *. induction H as [|g gs Hg Hgs IHl]; [split; auto; constructor|]. inversion IH as [|? ? I1 I2]; subst. cbn [flat_map forallb] in *. apply Forall_app in N as [N1 N2]. rewrite Forall_app, andb_true_iff, (I1 Hg N1), (IHl I2 N2). tauto.
Qed.
End Constraints.

(** The CSP *)
Definition good (pre : formula) : Prop := pre = Top \/ csp_condition T pre.
Lemma build_spec pre free : good pre -> collect_effect_free_parameters a = Ok free -> exists k, build_csp svs bounds ids a pre = Ok k /\ c_cons k = constraints_of svs pre /\ VI bounds ids T k /\
  (forall x r, In (Var x r) (a_params a) -> has k x) /\ Forall (fun t => has k (vname t)) (terms_of svs pre) /\ c_index k = map fst (param_vars a) /\
  c_relevant k = filter (fun x => negb (existsb (term_eqb x) free)) (map (fun v => Var (fst v) (snd v)) (param_vars a)).
Proof.
  intros G Ef. unfold build_csp. destruct params_vars as [_ PV].
  destruct (parameters_spec bounds ids T T_entries (param_vars a) (fun x r H => proj1 (PV x r) H) no_csp (Forall_nil _)) as (k0 & E0 & A0 & V0 & M0 & H0). rewrite E0. cbn [bind fst snd]. rewrite Ef.
  assert (X : exists k, compile_formula svs bounds ids pre k0 = Ok k /\ extends bounds ids T k0 k (constraints_of svs pre) (terms_of svs pre)).
  { destruct G as [->|G]; [exists k0; split; [reflexivity|]; split; [now rewrite app_nil_r|]; cbn; auto|]. exact (compile_spec svs bounds ids T T_entries pre G k0 V0). }
  destruct X as (k & E & A & V & M & H). rewrite E. cbn [bind]. eexists. split; [reflexivity|]. cbn [c_cons c_index c_relevant]. rewrite A, A0. split; [reflexivity|]. split; [exact V|]. split; [|auto].
  intros x r Hx. apply PV in Hx. rewrite Forall_forall in H0. apply (M x). exact (H0 (Var x r) (in_map (fun v => Var (fst v) (snd v)) _ _ Hx)).
Qed.
Lemma terms_T pre : good pre -> Forall T (terms_of svs pre).
Proof.
  intros [->|H]; [constructor|]. assert (G : forall p ts, csp_condition T (Atom p ts) -> Forall T (atom_terms svs p ts)). { intros p ts X. unfold atom_terms. destruct (_ && _); [constructor|]. eapply csp_atom_terms; eauto. }
  revert H. induction pre as [| |p ts|c fs IH|q vs g IH] using formula_ind_simple; intros H; try destruct H; [exact (G p ts H)|].
  apply csp_cases in H as [(p & ts & E)|[(p & ts & E & H)|(gs & E & H)]]; [discriminate| |]; injection E as -> ->; [exact (G p ts H)|]. cbn [terms_of]. apply Forall_flat_map. rewrite Forall_forall in *. auto.
Qed.
Section Solve.
Variables (m : model) (k : csp) (pre : formula).
Hypothesis (HG : good pre) (Hcons : c_cons k = constraints_of svs pre) (HV : VI bounds ids T k) (Hpar : forall x r, In (Var x r) (a_params a) -> has k x) (Hter : Forall (fun t => has k (vname t)) (terms_of svs pre)).
Lemma solution_iff s sigma : constant_binding s -> encodes ids a s sigma -> in_bounds k sigma -> Forall (satisfied ids m sigma) (c_cons k) <-> (pre = Top \/ truth m (subst_term s) pre = true).
Proof.
  intros Hs He Hb. rewrite Hcons. destruct HG as [->|H]; [cbn; split; auto|]. rewrite (sat_all m s sigma Hs pre H).
  - split; [auto|]. intros [->|X]; [destruct H|exact X].
  - assert (HTm := terms_T pre HG). rewrite Forall_forall in *. intros t Ht. specialize (HTm t Ht). unfold named. destruct t as [x r|c r| |]; try destruct HTm.
    + cbn [vname]. now apply inst_var.
    + rewrite inst_const by exact Hs. destruct (bound_const k sigma c r HV Hb (conj H0 H1) (Hter _ Ht)) as (i & Hi & E). exists c, r, i. auto.
Qed.
(** The solution of an instance *)
Definition sigma_of (s : subst) (name : string) : Z :=
  match find (fun v => String.eqb (fst v) name) (param_vars a) with
  | Some v => match get_t (sub_t s) (Var (fst v) (snd v)) with Some (Cst c q) => match dget cobj_eqb ids (c, q) with Some i => Z.of_nat i | None => 0%Z end | _ => 0%Z end
  | None => match find (fun e => String.eqb (name_text (fst (fst e))) name) ids with Some e => Z.of_nat (snd e) | None => 0%Z end
  end.
Lemma legal_value s : legal_step D [a] (a_name a, s) -> forall x r, In (Var x r) (a_params a) -> exists c q i lo hi, get_t (sub_t s) (Var x r) = Some (Cst c q) /\ In ((c, q), i) ids /\ sget bounds r = Some (lo, hi) /\ lo <= i < hi.
Proof.
  intros [Hc L] x r Hx. destruct (L a x r (or_introl eq_refl) eq_refl Hx) as (cs & t & Ed & Ht & Eg). cbn [snd] in Eg. destruct (ca_params l a HA _ Hx) as (y & q & [= <- <-] & P).
  assert (Hk : exists c q, t = Cst c q). { unfold D, lang_domains in Ed. destruct (lang_domain l r) as [d|] eqn:E; [|discriminate]. injection Ed as ->. destruct (domain_constants parse ops Hn r cs t P E Ht) as (c & q & -> & _). eauto. }
  destruct Hk as (c & q & ->). destruct (domain_value r cs c q P Ed Ht) as (i & lo & hi & Hi & Eb & L'). exists c, q, i, lo, hi. auto.
Qed.
Lemma sigma_param s x r c q i : In (Var x r) (a_params a) -> get_t (sub_t s) (Var x r) = Some (Cst c q) -> In ((c, q), i) ids -> sigma_of s x = Z.of_nat i.
Proof.
  intros Hx Eg Hi. unfold sigma_of. destruct params_vars as [_ PV]. destruct (find (fun v => String.eqb (fst v) x) (param_vars a)) as [[y r']|] eqn:F.
  - apply find_some in F as [F E]. apply String.eqb_eq in E. cbn [fst] in E. subst y. apply PV in F. assert (r' = r) by exact (param_sort x r' r F Hx). subst r'. cbn [fst snd]. rewrite Eg. apply id_get in Hi. unfold dget in *. now rewrite Hi.
  - exfalso. apply PV in Hx. apply (find_none _ _ F) in Hx. cbn in Hx. now rewrite String.eqb_refl in Hx.
Qed.
Lemma sigma_const s c r i : In ((c, r), i) ids -> sigma_of s (name_text c) = Z.of_nat i.
Proof.
  intros Hi. destruct (id_const _ _ _ Hi) as [P C]. unfold sigma_of. destruct params_vars as [_ PV]. destruct (find (fun v => String.eqb (fst v) (name_text c)) (param_vars a)) as [[y r']|] eqn:F.
  - exfalso. apply find_some in F as [F E]. apply String.eqb_eq in E. cbn [fst] in E. apply PV in F. exact (ca_clash l a HA y r' c r F P C E).
  - destruct (find (fun e => String.eqb (name_text (fst (fst e))) (name_text c)) ids) as [[[c' q] j]|] eqn:G.
    + apply find_some in G as [G E]. apply String.eqb_eq in E. cbn [fst snd] in *. destruct (id_const _ _ _ G) as [P' C']. assert (c' = c) by exact (ca_texts l a HA c' q c r P' C' P C E). subst c'. assert (q = r) by exact (const_sort c q r C' C). subst q. f_equal. exact (id_fun _ _ _ G Hi).
    + exfalso. apply (find_none _ _ G) in Hi. cbn in Hi. now rewrite String.eqb_refl in Hi.
Qed.
Lemma sigma_encodes s : legal_step D [a] (a_name a, s) -> encodes ids a s (sigma_of s) /\ in_bounds k (sigma_of s).
Proof.
  intros L. split.
  - intros x r Hx. destruct (legal_value s L x r Hx) as (c & q & i & lo & hi & Eg & Hi & _). exists (Cst c q). split; [exact Eg|]. exists c, q, i. split; [auto|]. split; [exact Hi|]. exact (sigma_param s x r c q i Hx Eg Hi).
  - intros n kind lo hi H. unfold VI in HV. rewrite Forall_forall in HV. destruct (HV _ H) as [(x & r & lo' & hi' & Hx & Eb & E & E2)|(c & r & i & _ & Hi & E & E2)]; cbn [fst snd] in *; subst n; injection E2 as -> ->.
    + cbn in Hx. destruct (legal_value s L x r Hx) as (c & q & i & lo2 & hi2 & Eg & Hi & Eb2 & B). assert (EE : (lo', hi') = (lo2, hi2)) by (unfold sget in *; congruence). injection EE as -> ->. rewrite (sigma_param s x r c q i Hx Eg Hi). lia.
    + apply id_get in Hi. rewrite (sigma_const s c r i Hi). lia.
Qed.
(** Every solution is the solution of an instance. *)
Lemma decode sigma : in_bounds k sigma -> exists s, legal_step D [a] (a_name a, s) /\ encodes ids a s sigma.
Proof.
  intros B. assert (X : exists b, Forall2 (fun (v : var) (t : term) => exists cs c q, D (snd v) = Some cs /\ t = Cst c q /\ In (Cst c q) cs /\ exists i, In ((c, q), i) ids /\ sigma (fst v) = Z.of_nat i) (param_vars a) b).
  { destruct params_vars as [_ PV]. assert (H : forall v, In v (param_vars a) -> exists t, (fun (v : var) (t : term) => exists cs c q, D (snd v) = Some cs /\ t = Cst c q /\ In (Cst c q) cs /\ exists i, In ((c, q), i) ids /\ sigma (fst v) = Z.of_nat i) v t).
    { intros [x r] Hv. apply PV in Hv. destruct (bound_param k sigma x r HV B Hv (Hpar x r Hv)) as (lo & hi & Eb & Bz). destruct (ca_params l a HA _ Hv) as (y & q & [= <- <-] & P). destruct (value_domain r lo hi (sigma x) P Eb Bz) as (cs & c & q & i & Ed & Hc & Hi & E). exists (Cst c q). exists cs, c, q. cbn [fst snd]. eauto 8. }
    clear - H. induction (param_vars a) as [|v vs IH]; [exists []; constructor|]. destruct (H v (or_introl eq_refl)) as (t & Ht). destruct IH as (b & Hb); [intros; apply H; now right|]. exists (t :: b). constructor; auto. }
  destruct X as (b & F). set (s := {| sub_t := combine (map (fun v => Var (fst v) (snd v)) (param_vars a)) b; sub_f := [] |}). destruct params_vars as [PE PV].
  assert (G : forall x r, In (Var x r) (a_params a) -> exists cs c q i, D r = Some cs /\ get_t (sub_t s) (Var x r) = Some (Cst c q) /\ In (Cst c q) cs /\ In ((c, q), i) ids /\ sigma x = Z.of_nat i).
  { intros x r Hx. apply PV in Hx. unfold s. cbn [sub_t]. clear - F Hx. induction F as [|[y q] t vs b H F IH]; [destruct Hx|]. cbn [map combine get_t fst snd]. destruct (term_eqb (Var y q) (Var x r)) eqn:E.
    - assert (E' : Var y q = Var x r) by now apply term_eqb_eq. injection E' as -> ->. destruct H as (cs & c & q' & Ed & -> & Hc & i & Hi & Es). cbn [fst snd] in *. exists cs, c, q', i. auto.
    - destruct Hx as [[= -> ->]|Hx]; [exfalso; rewrite term_eqb_refl in E; discriminate|auto]. }
  exists s. split; [split|].
  - split; [reflexivity|]. intros kk v H. unfold s in H. cbn [snd sub_t] in H. split.
    + apply in_combine_l in H. apply in_map_iff in H as ([x r] & <- & _). eauto.
    + apply in_combine_r in H. destruct (Forall2_In_r _ _ _ _ F H) as (w & _ & cs & c & q & _ & -> & _). eauto.
  - intros a' x r [<-|[]] _ Hx. destruct (G x r Hx) as (cs & c & q & i & Ed & Eg & Hc & _). exists cs, (Cst c q). auto.
  - intros x r Hx. destruct (G x r Hx) as (cs & c & q & i & Ed & Eg & Hc & Hi & E). exists (Cst c q). split; [exact Eg|]. exists c, q, i. auto.
Qed.
End Solve.
(** The steps before the construction of the CSP *)
Lemma compile_steps init statics : exists f, flatten (a_pre a) = Ok f /\ csp_condition T f /\ wf f = true /\ compile_schema_csp svs bounds ids init statics a =
  let! r := simplify_expression (Some init) (Some statics) f in
  match r with OBool false => Ok None | OBool true => let! k := build_csp svs bounds ids a Top in Ok (Some k) | OForm g => let! k := build_csp svs bounds ids a g in Ok (Some k) end.
Proof.
  destruct (csp_flatten T _ (ca_wf l a HA) (ca_pre l a HA)) as (f & E & C & W & _). exists f. split; [exact E|]. split; [exact C|]. split; [exact W|]. unfold compile_schema_csp. rewrite E. cbn [bind].
  destruct (csp_nnf T f C) as (N & Q & L & U). assert (NF : to_negation_normal_form f = Ok f) by exact (nnf_id f N). rewrite (C06_prenex_quantifier_free f f W NF Q (size f) (Nat.le_refl _)). cbn [bind]. rewrite U. rewrite (proj1 (C29_complete f W) L). reflexivity.
Qed.
End Main.

(** ** The solutions of the CSP, in a state reached from the initial one, are exactly the instances applicable in it *)
Theorem C53_solutions parse ops start ids bounds svs sub declared acts fluents statics init plan m a r :
  forallb native ops = true -> let l := lrun parse ops in let D := lang_domains l in
  numberable l -> sort_ids l start = Ok (ids, bounds) -> csp_action l a ->
  is_state sub init -> approximate_symbol_fluency false declared acts = Ok (fluents, statics) -> execution D sub acts init plan m -> Forall (fun st => constant_binding (snd st)) plan ->
  compile_schema_csp svs bounds ids init statics a = Ok r ->
  (** every instance: applicable if and only if it is encoded by a solution *)
  (forall s pre effs, legal_step D [a] (a_name a, s) -> ground_schema a s = Ok (pre, effs) ->
     (is_applicable m pre = Ok true <-> exists k sigma, r = Some k /\ solution ids m k sigma /\ encodes ids a s sigma) /\ exists b, is_applicable m pre = Ok b) /\
  (** every solution encodes an instance *)
  (forall k sigma, r = Some k -> solution ids m k sigma -> exists s, legal_step D [a] (a_name a, s) /\ encodes ids a s sigma) /\
  (** and the parameters are listed in order *)
  (forall k, r = Some k -> map (fun x => Some x) (c_index k) = map (fun t => match t with Var x _ => Some x | _ => None end) (a_params a)).
Proof.
  intros Hn l D HN HI HA HS Hf Hx Hp HC. assert (Hp' : Forall (fun st : string * subst => parameter_binding (snd st)) plan) by (eapply Forall_impl; [|exact Hp]; intros st H; now apply constant_parameter).
  set (T := action_term l (a_params a)).
  destruct (compile_steps parse ops ids bounds svs a HA init statics) as (f & Ef & Cf & Wf & Ec). rewrite Ec in HC. clear Ec.
  destruct (simp_csp T init (Some statics) (T_simple parse ops a) f Cf) as (r0 & E0 & G0). rewrite E0 in HC. cbn [bind] in HC.
  assert (Hsem : forall s pre effs, legal_step D [a] (a_name a, s) -> ground_schema a s = Ok (pre, effs) ->
    eval_f m pre = Ok (truth m (subst_term s) (a_pre a)) /\ eval_f m (subst_formula s (bool_to_expr r0)) = Ok (truth m (subst_term s) (a_pre a)) /\
    (forall g, r0 = OForm g -> truth m (subst_term s) g = truth m (subst_term s) (a_pre a))).
  { intros s pre effs L Eg. destruct (sigma_encodes parse ops start ids bounds Hn HN HI a HA no_csp (Forall_nil _) s L) as [He _]. assert (Hs := proj1 L). cbn [snd] in Hs.
    assert (HTc : forall t, T t -> is_const (subst_term s t)) by (intros t; exact (inst_value parse ops ids a s _ Hs He t)).
    assert (E1 : eval_f m pre = Ok (truth m (subst_term s) (a_pre a))).
    { unfold ground_schema in Eg. destruct (forallb _ (a_params a)); [|discriminate]. destruct (mapM (subst_effect s) (a_effs a)); [|discriminate]. cbn [bind] in Eg. destruct (flatten (subst_formula s (a_pre a))) as [g|] eqn:F; [|discriminate]. injection Eg as <- <-.
      exact (inst_eval_flat T s Hs HTc m (a_pre a) g (ca_pre l a HA) (ca_wf l a HA) F). }
    assert (E2 : eval_f m (subst_formula s f) = Ok (truth m (subst_term s) (a_pre a))).
    { rewrite (inst_eval_csp T s Hs HTc m f Cf). now rewrite (truth_flat T m (subst_term s) (a_pre a) (ca_wf l a HA) (ca_pre l a HA) f Ef). }
    assert (E3 := C31_evaluation D sub declared acts fluents statics init plan m f r0 s _ HS Hf Hx Hp' E0 (constant_parameter s Hs) E2).
    split; [exact E1|]. split; [exact E3|]. intros g ->. cbn [bool_to_expr] in E3. rewrite (inst_eval_csp T s Hs HTc m g (G0 g eq_refl)) in E3. now injection E3. }
  assert (Hcsp : forall k, r = Some k -> exists pre0, (pre0 = Top \/ csp_condition T pre0) /\ c_cons k = constraints_of svs pre0 /\ VI bounds ids T k /\
    (forall x r, In (Var x r) (a_params a) -> has k x) /\ Forall (fun t => has k (vname t)) (terms_of svs pre0) /\ c_index k = map fst (param_vars a) /\ bool_to_expr r0 = pre0).
  { intros k ->. assert (X : forall g, (g = Top \/ csp_condition T g) -> (let! k0 := build_csp svs bounds ids a g in Ok (Some k0)) = Ok (Some k) -> c_cons k = constraints_of svs g /\ VI bounds ids T k /\ (forall x r, In (Var x r) (a_params a) -> has k x) /\ Forall (fun t => has k (vname t)) (terms_of svs g) /\ c_index k = map fst (param_vars a)).
    { intros g G E. destruct (collect_effect_free_parameters a) as [free|] eqn:F.
      - destruct (build_spec parse ops start ids bounds Hn HN HI svs a HA g free G F) as (k' & E' & A1 & A2 & A3 & A4 & A5 & _). rewrite E' in E. injection E as <-. auto.
      - exfalso. unfold build_csp in E. destruct (parameters bounds ids (param_vars a) no_csp) as [kp|]; [|discriminate]. cbn [bind] in E. destruct (compile_formula svs bounds ids g (fst kp)); [|discriminate]. cbn [bind] in E. rewrite F in E. discriminate. }
    destruct r0 as [[|]|g]; [|discriminate|].
    - exists Top. destruct (X Top (or_introl eq_refl) HC) as (A1 & A2 & A3 & A4 & A5). auto 8.
    - exists g. destruct (X g (or_intror (G0 g eq_refl)) HC) as (A1 & A2 & A3 & A4 & A5). auto 9. }
  split; [|split].
  - intros s pre effs L Eg. destruct (Hsem s pre effs L Eg) as (E1 & E3 & E4). unfold is_applicable. rewrite E1. split; [|eauto]. assert (Hs := proj1 L). cbn [snd] in Hs. split.
    + intros [= Ht]. rewrite Ht in *. destruct r as [k|].
      * destruct (Hcsp k eq_refl) as (pre0 & A0 & A1 & A2 & A3 & A4 & A5 & A6). destruct (sigma_encodes parse ops start ids bounds Hn HN HI a HA k A2 s L) as [He Hb]. exists k, (sigma_of ids a s). split; [auto|]. split; [|exact He]. split; [exact Hb|].
        apply (solution_iff parse ops start ids bounds Hn HN HI svs a HA m k pre0 A0 A1 A2 A4 s _ Hs He Hb). destruct A0 as [A0|A0]; [auto|]. right. destruct r0 as [[|]|g]; cbn [bool_to_expr] in A6; subst pre0; try destruct A0. now apply E4.
      * exfalso. destruct r0 as [[|]|g]; [unfold bind in HC; destruct (build_csp svs bounds ids a Top); discriminate HC| |unfold bind in HC; destruct (build_csp svs bounds ids a g); discriminate HC].
        assert (X : subst_formula s (bool_to_expr (OBool false)) = Bot) by (cbn; exact (binding_formula s _ (constant_parameter s Hs))). rewrite X in E3. discriminate E3.
    + intros (k & sigma & -> & [Hb Hc] & He). destruct (Hcsp k eq_refl) as (pre0 & A0 & A1 & A2 & A3 & A4 & A5 & A6).
      apply (solution_iff parse ops start ids bounds Hn HN HI svs a HA m k pre0 A0 A1 A2 A4 s sigma Hs He Hb) in Hc. f_equal. destruct Hc as [->|Hc].
      * destruct r0 as [[|]|g]; cbn [bool_to_expr] in A6; [|discriminate|].
        -- assert (X : subst_formula s (bool_to_expr (OBool true)) = Top) by (cbn; exact (binding_formula s _ (constant_parameter s Hs))). rewrite X in E3. now injection E3.
        -- subst g. specialize (G0 Top eq_refl). destruct G0.
      * destruct r0 as [[|]|g]; cbn [bool_to_expr] in A6; subst pre0; [destruct A0 as [_|[]]|discriminate HC|rewrite <- (E4 g eq_refl); exact Hc].
        assert (X : subst_formula s (bool_to_expr (OBool true)) = Top) by (cbn; exact (binding_formula s _ (constant_parameter s Hs))). rewrite X in E3. now injection E3.
  - intros k sigma E [Hb _]. destruct (Hcsp k E) as (pre0 & A0 & A1 & A2 & A3 & A4 & A5 & A6). exact (decode parse ops start ids bounds Hn HN HI a HA k A2 A3 sigma Hb).
  - intros k E. destruct (Hcsp k E) as (pre0 & A0 & A1 & A2 & A3 & A4 & A5 & A6). rewrite A5. destruct (params_vars parse ops a HA) as [PE _]. rewrite PE.
    assert (P := ca_params l a HA). clear - P. induction (a_params a) as [|t ts IH]; [reflexivity|]. destruct (P t (or_introl eq_refl)) as (x & q & -> & _). cbn. f_equal. apply IH. intros u Hu. apply P. now right.
Qed.

(** ** The compilation of these actions succeeds, and lists the parameters that the effects mention *)
Theorem C53_total parse ops start ids bounds svs init statics a free : forallb native ops = true -> numberable (lrun parse ops) -> sort_ids (lrun parse ops) start = Ok (ids, bounds) -> csp_action (lrun parse ops) a ->
  collect_effect_free_parameters a = Ok free ->
  exists r, compile_schema_csp svs bounds ids init statics a = Ok r /\ forall k, r = Some k -> c_relevant k = filter (fun x => negb (existsb (term_eqb x) free)) (a_params a).
Proof.
  intros Hn HN HI HA Ef. set (l := lrun parse ops) in *. set (T := action_term l (a_params a)).
  destruct (compile_steps parse ops ids bounds svs a HA init statics) as (f & _ & Cf & _ & Ec). rewrite Ec. clear Ec.
  destruct (simp_csp T init (Some statics) (T_simple parse ops a) f Cf) as (r0 & E0 & G0). rewrite E0. cbn [bind].
  assert (X : forall g, (g = Top \/ csp_condition T g) -> exists r, (let! k0 := build_csp svs bounds ids a g in Ok (Some k0)) = Ok r /\ forall k, r = Some k -> c_relevant k = filter (fun x => negb (existsb (term_eqb x) free)) (a_params a)).
  { intros g G. destruct (build_spec parse ops start ids bounds Hn HN HI svs a HA g free G Ef) as (k' & E' & _ & _ & _ & _ & _ & A5). rewrite E'. cbn [bind]. eexists. split; [reflexivity|]. intros k [= <-]. rewrite A5. f_equal.
    destruct (params_vars parse ops a HA) as [PE _]. rewrite PE. assert (P := ca_params l a HA). clear - P. induction (a_params a) as [|t ts IH]; [reflexivity|]. destruct (P t (or_introl eq_refl)) as (x & q & -> & _). cbn. f_equal. apply IH. intros u Hu. apply P. now right. }
  destruct r0 as [[|]|g]; [apply X; auto|exists None; split; [reflexivity|discriminate]|apply X; auto].
Qed.
(** ** The actions reported as inapplicable are never applicable *)
Theorem C53_inapplicable parse ops start ids bounds svs sub declared p names plan m a s pre effs :
  forallb native ops = true -> let l := lrun parse ops in let D := lang_domains l in
  numberable l -> sort_ids l start = Ok (ids, bounds) -> (forall b, In b (p_actions p) -> csp_action l b) -> NoDup (map a_name (p_actions p)) ->
  is_state sub (p_init p) -> process_problem svs bounds ids declared p = Ok names -> execution D sub (p_actions p) (p_init p) plan m -> Forall (fun st => constant_binding (snd st)) plan ->
  In a (p_actions p) -> In (a_name a) names -> legal_step D [a] (a_name a, s) -> ground_schema a s = Ok (pre, effs) -> is_applicable m pre = Ok false.
Proof.
  intros Hn l D HN HI HA Nd HS Hpp Hx Hp Ha Hnm L Eg. unfold process_problem in Hpp. destruct (approximate_symbol_fluency false declared (p_actions p)) as [[fl st]|] eqn:F; [|discriminate]. cbn [bind snd] in Hpp.
  assert (X : forall acts ns, NoDup (map a_name acts) -> inapplicable svs bounds ids (p_init p) st acts = Ok ns -> incl ns (map a_name acts) /\ forall b, In b acts -> In (a_name b) ns -> compile_schema_csp svs bounds ids (p_init p) st b = Ok None).
  { clear. induction acts as [|b acts IH]; intros ns N E; cbn [inapplicable] in E; [injection E as <-; split; [intros x []|intros b []]|].
    destruct (compile_schema_csp svs bounds ids (p_init p) st b) as [k|] eqn:Ek; [|discriminate]. cbn [bind] in E. destruct (inapplicable svs bounds ids (p_init p) st acts) as [l0|] eqn:El; [|discriminate]. cbn [bind] in E. cbn [map] in N. inversion N as [|? ? N1 N2]; subst.
    destruct (IH l0 N2 eq_refl) as [I1 I2]. injection E as <-. destruct k as [k|]; (split; [intros x Hx; cbn [map]; try (destruct Hx as [<-|Hx]; [now left|]); right; auto|]).
    - intros c [<-|Hc] Hin; [exfalso; apply N1; auto|auto].
    - intros c [<-|Hc] Hin; [auto|]. destruct Hin as [Hin|Hin]; [exfalso; apply N1; rewrite Hin; now apply in_map|auto]. }
  destruct (X (p_actions p) names Nd Hpp) as [_ X2]. specialize (X2 a Ha Hnm).
  destruct (C53_solutions parse ops start ids bounds svs sub declared (p_actions p) fl st (p_init p) plan m a None Hn HN HI (HA a Ha) HS F Hx Hp X2) as [Y _]. destruct (Y s pre effs L Eg) as [Y1 [b Y2]].
  destruct b; [|exact Y2]. apply Y1 in Y2 as (k & _ & E & _). discriminate.
Qed.

(** ** An instance *)
Definition opsC : list lop := [OSort "place" None; OSort "truck" None; OSort "big" (Some "truck"); OConst (CStr "home") "place"; OConst (CStr "far") "place"; OConst (CStr "t1") "truck"; OConst (CStr "t2") "big"].
Notation lC := (lrun no_parse opsC).
Definition cpl (n : string) : term := Cst (CStr n) "place".
Definition vT : term := Var "?t" "truck". Definition vP : term := Var "?p" "place".
Definition atC := PU "at" ["truck"; "place"]. Definition roadC := PU "road" ["place"; "place"].
Definition act (name : string) (pre : formula) : action := {| a_name := name; a_params := [vT; vP]; a_pre := pre; a_effs := [EAdd Top (Atom atC [vT; vP]); EDel Top (Atom atC [vT; cpl "home"])] |}.
Definition go : action := act "go" (Comp And [Atom atC [vT; cpl "home"]; Comp Not [Atom roadC [vP; cpl "home"]]; Atom (PB PNe) [vP; cpl "home"]; Comp And [Comp Not [Atom atC [Cst (CStr "t2") "big"; cpl "far"]]; Atom roadC [cpl "home"; cpl "far"]]]).
Definition fly : action := act "fly" (Comp And [Atom atC [vT; cpl "home"]; Atom roadC [cpl "far"; cpl "home"]]).
Definition initC : model := mrun (fun _ _ => true) [OAdd atC [Cst (CStr "t1") "truck"; cpl "home"]; OAdd atC [Cst (CStr "t2") "big"; cpl "home"]; OAdd roadC [cpl "home"; cpl "far"]] empty_model.
Definition svsC : list svar := [(SymP atC, [Cst (CStr "t2") "big"; cpl "far"])].
Definition idsC : list (cobj * nat) := [((CStr "far", "place"), 0); ((CStr "home", "place"), 1); ((CStr "t2", "big"), 2); ((CStr "t1", "truck"), 3)].
Definition boundsC : list (string * (nat * nat)) := [("place", (0, 2)); ("big", (2, 3)); ("truck", (2, 4)); ("object", (0, 4))].
Definition bindC : subst := {| sub_t := [(vT, Cst (CStr "t2") "big"); (vP, cpl "far")]; sub_f := [] |}.
Lemma lC_const c s : const_of lC c s -> In (c, s) (map fst idsC).
Proof.
  intros [y H]. assert (X : forallb (fun kv => existsb (fun o => cobj_eqb o (fst kv, snd (snd kv))) (map fst idsC)) (l_consts lC) = true) by reflexivity. rewrite forallb_forall in X. specialize (X _ H). apply existsb_exists in X as (o & Ho & E). apply cobj_eqb_eq in E. cbn [fst snd] in E. rewrite <- E. exact Ho.
Qed.
Lemma lC_numberable : numberable lC.
Proof.
  constructor.
  - intros s p E _. assert (I := lrun_tree no_parse opsC eq_refl). assert (Hs := it_parent _ I _ _ E). apply (plain_interval _ I _ Hs). unfold is_sort in Hs. vm_compute in Hs. repeat (destruct Hs as [<-|Hs]; [reflexivity|]). destruct Hs.
  - intros s c c' _ H H'. apply lC_const in H, H'. cbn in H, H'. assert (G : forall d, (CStr "far", "place") = d \/ (CStr "home", "place") = d \/ (CStr "t2", "big") = d \/ (CStr "t1", "truck") = d \/ False -> is_cstr (fst d) = true) by (intros d K; repeat (destruct K as [<-|K]; [reflexivity|]); destruct K).
    rewrite (G _ H : is_cstr c = true), (G _ H' : is_cstr c' = true). reflexivity.
Qed.
Lemma lC_plain s : In s ["place"; "truck"; "big"] -> is_plain lC s.
Proof. intros H. repeat (destruct H as [<-|H]; [vm_compute; eauto 20|]). destruct H. Qed.
Lemma lC_here c s : In (c, s) (map fst idsC) -> is_plain lC s /\ const_of lC c s.
Proof. intros H. cbn in H. repeat (destruct H as [[= <- <-]|H]; [split; [apply lC_plain; cbn; auto|vm_compute; eauto 20]|]). destruct H. Qed.
Lemma act_csp name pre : wf pre = true -> csp_condition (action_term lC [vT; vP]) pre -> csp_action lC (act name pre).
Proof.
  intros W C. constructor; cbn [act a_params a_pre]; auto.
  - intros t [<-|[<-|[]]]; [exists "?t", "truck"|exists "?p", "place"]; (split; [reflexivity|apply lC_plain; cbn; auto]).
  - intros i j x r q Hi Hj. destruct i as [|[|[|]]]; destruct j as [|[|[|]]]; cbn in Hi, Hj; try discriminate; auto; injection Hi as <- <-; discriminate Hj.
  - intros x r c s Hx _ Hc E. apply lC_const in Hc. cbn in Hx, Hc. repeat (destruct Hc as [[= <- <-]|Hc]; [repeat (destruct Hx as [[= <- <-]|Hx]; [discriminate E|]); destruct Hx|]). destruct Hc.
  - intros c s c' s' _ Hc _ Hc' E. apply lC_const in Hc, Hc'. cbn in Hc, Hc'. repeat (destruct Hc as [[= <- <-]|Hc]; [repeat (destruct Hc' as [[= <- <-]|Hc']; [try discriminate E; reflexivity|]); destruct Hc'|]). destruct Hc.
Qed.
Lemma go_pre (T : term -> Prop) : T vT -> T vP -> T (cpl "home") -> T (cpl "far") -> T (Cst (CStr "t2") "big") -> csp_condition T (a_pre go) /\ csp_condition T (a_pre fly).
Proof. intros. cbn. repeat (split || constructor); auto. Qed.
Lemma lC_terms : let T := action_term lC [vT; vP] in T vT /\ T vP /\ T (cpl "home") /\ T (cpl "far") /\ T (Cst (CStr "t2") "big").
Proof. cbv zeta. split; [now left|]. split; [now right; left|]. split; [apply lC_here; cbn; tauto|]. split; apply lC_here; cbn; tauto. Qed.
Example C53_nonvacuous : forallb native opsC = true /\ numberable lC /\ sort_ids lC 0 = Ok (idsC, boundsC) /\ csp_action lC go /\ csp_action lC fly /\ is_state (fun _ _ => true) initC /\
  (exists fluents, approximate_symbol_fluency false [SymP atC; SymP roadC] [go; fly] = Ok (fluents, [SymP roadC])) /\
  (exists pre effs m, ground_schema go bindC = Ok (pre, effs) /\ legal_step (lang_domains lC) [go] ("go", bindC) /\ is_applicable initC pre = Ok true /\
     execution (lang_domains lC) (fun _ _ => true) [go; fly] initC [("go", bindC)] m /\ is_applicable m pre = Ok false) /\
  process_problem svsC boundsC idsC [SymP atC; SymP roadC] {| p_init := initC; p_goal := Top; p_actions := [go; fly] |} = Ok ["fly"] /\
  compile_schema_csp svsC boundsC idsC initC [SymP roadC] go = Ok (Some {| c_vars := [("?t", "param", (2, 3%Z)); ("?p", "param", (0, 1%Z)); ("home", "const", (1, 1%Z))];
    c_cons := [CTable (inr (Atom atC [vT; cpl "home"])) [Some "?t"; Some "home"] false; CTable (inr (Atom roadC [vP; cpl "home"])) [Some "?p"; Some "home"] true; CRel (Some "?p") (Some "home") "!=";
               CState (Atom atC [Cst (CStr "t2") "big"; cpl "far"]) false]; c_relevant := [vT; vP]; c_index := ["?t"; "?p"] |}).
Proof.
  split; [reflexivity|]. split; [exact lC_numberable|]. split; [vm_compute; reflexivity|]. split.
  { destruct lC_terms as (A & B & C & E & F). apply act_csp; [reflexivity|]. apply go_pre; assumption. }
  split.
  { destruct lC_terms as (A & B & C & E & F). apply act_csp; [reflexivity|]. apply go_pre; assumption. }
  split; [eexists; reflexivity|]. split; [eexists; vm_compute; reflexivity|]. split.
  { eexists. eexists. eexists. split; [vm_compute; reflexivity|]. split; [|split; [vm_compute; reflexivity|split]].
    - split; [split; [reflexivity|]|].
      + intros k v [[= <- <-]|[[= <- <-]|[]]]; cbn; unfold vT, vP, cpl; eauto 8.
      + intros a x s [<-|[]] _ [[= <- <-]|[[= <- <-]|[]]]; eexists; eexists; (split; [vm_compute; reflexivity|split; [|vm_compute; reflexivity]]); vm_compute; auto.
    - eapply (ex_step _ _ _ _ go); [now left|vm_compute; reflexivity|vm_compute; reflexivity|vm_compute; reflexivity|apply ex_nil].
    - vm_compute. reflexivity. }
  split; [vm_compute; reflexivity|]. vm_compute. reflexivity.
Qed.
(** ** Where it fails *)
(** A disjunction passes the test for conjunctions of literals, and its disjuncts are all required: an applicable instance has no solution. *)
Definition go_or : action := act "go" (Comp Or [Atom atC [vT; cpl "home"]; Atom atC [vT; cpl "far"]]).
Theorem C53_disjunction_refuted : exists k pre effs, compile_schema_csp svsC boundsC idsC initC [SymP roadC] go_or = Ok (Some k) /\
  ground_schema go_or bindC = Ok (pre, effs) /\ is_applicable initC pre = Ok true /\ forall sigma, solution idsC initC k sigma -> ~ encodes idsC go_or bindC sigma.
Proof.
  eexists. eexists. eexists. split; [vm_compute; reflexivity|]. split; [vm_compute; reflexivity|]. split; [vm_compute; reflexivity|].
  intros sigma [Hb Hc] He. assert (B := Hb "far" "const" 0 0%Z). cbn in B. specialize (B ltac:(auto 8)). inversion Hc as [|? ? _ Hc2]; subst. inversion Hc2 as [|? ? H2 _]; subst. cbn in H2. destruct H2 as (names & E & H2). destruct names as [|n1 [|n2 [|]]]; try discriminate. injection E as <- <-.
  destruct H2 as [_ H2]. destruct (H2 eq_refl) as (pt & Hp & F). cbn [map] in F. inversion F as [|t1 z1 ? ? _ F2]; subst. inversion F2 as [|t2 z2 ? ? N2 F3]; subst. inversion F3; subst.
  destruct N2 as (c & s & i & -> & Hi & Ez). assert (i = 0) by lia. subst i. cbn in Hi. assert (Ecs : (c, s) = (CStr "far", "place")) by (repeat (destruct Hi as [Hi|Hi]; [try discriminate Hi; now injection Hi as <- <-|]); destruct Hi). injection Ecs as -> ->.
  assert (In [t1; Cst (CStr "far") "place"] [[Cst (CStr "t1") "truck"; cpl "home"]; [Cst (CStr "t2") "big"; cpl "home"]]) as [X|[X|[]]]; [|discriminate X|discriminate X].
  assert (Ed : exists ext, dget sig_eqb (preds initC) (psig atC) = Some ext /\ forall x, In x ext -> In x [[Cst (CStr "t1") "truck"; cpl "home"]; [Cst (CStr "t2") "big"; cpl "home"]]) by (eexists; split; [vm_compute; reflexivity|intros x Hx; cbn in *; tauto]).
  destruct Ed as (ext & Ed & Hx). assert (Hp' : pt_mem [t1; Cst (CStr "far") "place"] ext = true). { assert (G : forall q, m_holds initC atC q = pt_mem q ext) by (intros q; unfold m_holds; rewrite Ed; reflexivity). rewrite <- G. exact Hp. }
  apply Hx, pt_mem_In, Hp'.
Qed.
(** An action without a precondition is not accepted. *)
Theorem C53_no_precondition_refuted svs bounds ids init statics a : a_pre a = Top -> compile_schema_csp svs bounds ids init statics a = Err TarskiError.
Proof. intros E. unfold compile_schema_csp. now rewrite E. Qed.
(** Function terms: the constraint refers to no variable for them. *)
Theorem C53_functions_refuted : exists k, compile_schema_csp svsC boundsC idsC initC [] (act "go" (Atom atC [vT; App (FU "base" ["truck"] "place") [vT]])) = Ok (Some k) /\
  c_cons k = [CTable (inl (App (FU "base" ["truck"] "place") [vT])) [Some "?t"] false; CTable (inl (App (FU "base" ["truck"] "place") [vT])) [Some "?t"] false; CTable (inr (Atom atC [vT; App (FU "base" ["truck"] "place") [vT]])) [Some "?t"; None] false].
Proof. eexists. split; [vm_compute; reflexivity|reflexivity]. Qed.
(** A parameter with the name of a constant: one CSP variable for both *)
Definition go_clash : action := {| a_name := "go"; a_params := [vT; Var "home" "place"]; a_pre := Atom atC [vT; cpl "home"]; a_effs := [EAdd Top (Atom atC [vT; Var "home" "place"])] |}.
Theorem C53_clash_refuted : exists k, compile_schema_csp svsC boundsC idsC initC [SymP roadC] go_clash = Ok (Some k) /\ c_vars k = [("?t", "param", (2, 3%Z)); ("home", "param", (0, 1%Z))] /\
  c_cons k = [CTable (inr (Atom atC [vT; cpl "home"])) [Some "?t"; Some "home"] false].
Proof. eexists. split; [vm_compute; reflexivity|split; reflexivity]. Qed.
