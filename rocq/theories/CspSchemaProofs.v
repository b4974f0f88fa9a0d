(** Lemmas for C53 *)
From Verif Require Import ListUtil Base Syntax Semantics SemLemmas FolSpec Build NnfProofs BuildProofs Nnf Prenex PropsFol PropsPrenex RepresentSpec PropsRepresent ModelState ModelProofs ModelText Eval EvalSpec EvalProofs PropsModel Index Subst QElim Effects ProgressSpec Represent RelaxSpec Grounding GroundingSpec PropsGrounding NegBuiltin Simplify SimplifySpec SimplifyProofs2 PropsSimplify Lang LangSpec LangProofs LangProofs2 LangProofs3 SortIds PropsLang2 Asp AspProofs3 CspSchema CspSchemaSpec.
#[local] Open Scope string_scope.

Lemma csp_And T fs : csp_condition T (Comp And fs) <-> Forall (csp_condition T) fs.
Proof. induction fs as [|g r IH]; [split; constructor|]. change (csp_condition T (Comp And (g :: r))) with (csp_condition T g /\ csp_condition T (Comp And r)). rewrite IH. split; [intros []; now constructor|intros H; inversion H; auto]. Qed.
Definition lit_ok (T : term -> Prop) (f : formula) : Prop := csp_condition T f /\ literal f = true.
Lemma csp_cases T f : csp_condition T f -> (exists p ts, f = Atom p ts) \/ (exists p ts, f = Comp Not [Atom p ts] /\ csp_condition T (Atom p ts)) \/ exists fs, f = Comp And fs /\ Forall (csp_condition T) fs.
Proof.
  intros H. destruct f as [| |p ts|c fs|q vs g]; try destruct H; eauto. destruct c; [right; right; exists fs; split; [auto|now apply csp_And]|destruct H|]. destruct fs as [|g [|? ?]]; try destruct H. right. left. destruct g; try destruct H. eauto.
Qed.
Lemma csp_atom T p ts : csp_condition T (Atom p ts) -> (exists n ss, p = PU n ss /\ Forall T ts) \/ (exists b t u, p = PB b /\ (b = PEq \/ b = PNe) /\ ts = [t; u] /\ T t /\ T u).
Proof.
  intros H. destruct p as [b|n ss]; [|left; eauto]. right. destruct b; try destruct H; destruct ts as [|t [|u [|? ?]]]; try destruct H; eauto 10.
Qed.
Lemma csp_atom_terms T p ts : csp_condition T (Atom p ts) -> Forall T ts.
Proof. intros H. apply csp_atom in H as [(n & ss & -> & H)|(b & t & u & -> & _ & -> & Ht & Hu)]; auto. Qed.
(** Shape facts *)
Lemma csp_nnf T f : csp_condition T f -> is_nnf f = true /\ has_quantifier f = false /\ conjunction_of literal f = true /\ universal f = false.
Proof.
  induction f as [| |p ts|c fs IH|q vs g IH] using formula_ind_simple; intros H; try destruct H; [repeat split|].
  apply csp_cases in H as [(p & ts & E)|[(p & ts & E & H)|(gs & E & H)]]; [discriminate|injection E as -> ->; repeat split|]. injection E as -> <-. cbn [is_nnf has_quantifier conjunction_of universal].
  assert (A : Forall (fun f => is_nnf f = true /\ has_quantifier f = false /\ conjunction_of literal f = true /\ universal f = false) fs) by (rewrite Forall_forall in *; auto). clear IH H.
  induction A as [|g fs (A1 & A2 & A3 & A4) _ IH]; [repeat split|]. destruct IH as (B1 & B2 & B3 & B4). cbn [forallb existsb]. rewrite A1, A2, A3, A4. auto.
Qed.
(** Flattening *)
Lemma csp_flatten_aux T f : csp_condition T f -> Forall (csp_condition T) (flatten_aux And f).
Proof.
  induction f as [| |p ts|c fs IH|q vs g IH] using formula_ind_simple; intros H; try destruct H; [repeat constructor; exact H|].
  cbn [flatten_aux]. destruct (conn_eqb c And) eqn:E; [|repeat constructor; exact H]. apply conn_eqb_eq in E as ->. apply csp_And in H. apply Forall_flat_map. rewrite Forall_forall in *. auto.
Qed.
Lemma csp_flatten T f : wf f = true -> csp_condition T f -> exists g, flatten f = Ok g /\ csp_condition T g /\ wf g = true /\ g = match f with Comp And _ => Comp And (flatten_aux And f) | _ => f end.
Proof.
  intros W H. destruct (flatten_correct f W) as (g & E & Wg & _). destruct (flatten_ok f W) as (g' & E' & G). rewrite E in E'. injection E' as <-. exists g. split; [exact E|].
  assert (G' : g = match f with Comp And _ => Comp And (flatten_aux And f) | _ => f end). { rewrite G. destruct (csp_cases T f H) as [(p & ts & ->)|[(p & ts & -> & _)|(fs & -> & _)]]; reflexivity. }
  split; [|auto]. rewrite G'. destruct (csp_cases T f H) as [(p & ts & ->)|[(p & ts & -> & _)|(fs & -> & _)]]; auto. apply csp_And. now apply csp_flatten_aux.
Qed.

(** Truth of such conditions, when the terms have the values [v] *)
Fixpoint truth (m : model) (v : term -> term) (f : formula) : bool :=
  match f with
  | Atom (PU n ss) ts => m_holds m (PU n ss) (map v ts)
  | Atom (PB b) [t; u] => match v t, v u with Cst x _, Cst y _ => match name_cmp b x y with Some r => r | None => false end | _, _ => false end
  | Comp Not [g] => negb (truth m v g)
  | Comp And fs => forallb (truth m v) fs
  | _ => false
  end.
Lemma truth_flatten T m v f : csp_condition T f -> forallb (truth m v) (flatten_aux And f) = truth m v f.
Proof.
  induction f as [| |p ts|c fs IH|q vs g IH] using formula_ind_simple; intros H; try destruct H; [cbn [flatten_aux forallb]; apply andb_true_r|].
  cbn [flatten_aux]. destruct (conn_eqb c And) eqn:E; [|cbn [forallb]; apply andb_true_r]. apply conn_eqb_eq in E as ->. apply csp_And in H. cbn [truth].
  induction H as [|g fs Hg Hfs IHl]; [auto|]. inversion IH; subst. cbn [flat_map forallb]. rewrite forallb_app, H1, IHl; auto.
Qed.
Lemma truth_flat T m v f : wf f = true -> csp_condition T f -> forall g, flatten f = Ok g -> truth m v g = truth m v f.
Proof.
  intros W H g E. destruct (csp_flatten T f W H) as (g' & E' & _ & _ & G). rewrite E in E'. injection E' as <-. rewrite G. destruct f; auto. destruct c; auto. cbn [truth]. now rewrite (truth_flatten T).
Qed.
Definition is_const (t : term) : Prop := exists c s, t = Cst c s.
Lemma den_consts m ts : Forall is_const ts -> sequence (map (den_t m) ts) = Some ts.
Proof. induction 1 as [|t ts (c & s & ->) _ IH]; [reflexivity|]. cbn [map den_t]. change (match sequence (map (den_t m) ts) with Some xs => Some (Cst c s :: xs) | None => None end = Some (Cst c s :: ts)). now rewrite IH. Qed.
Lemma den_Not m g b : den m g = Some b -> den m (Comp Not [g]) = Some (negb b).
Proof. intros H. cbn [den map]. rewrite H. reflexivity. Qed.
Lemma den_truth m f : csp_condition is_const f -> den m f = Some (truth m (fun t => t) f) /\ flat_ite f = true.
Proof.
  induction f as [| |p ts|c fs IH|q vs g IH] using formula_ind_simple; intros H; try destruct H.
  - assert (Hc := csp_atom_terms _ _ _ H). cbn [den]. rewrite (den_consts m ts Hc). split.
    + apply csp_atom in H as [(n & ss & -> & _)|(b & t & u & -> & Hb & -> & (c & s & ->) & (c' & s' & ->))]; [cbn [truth]; now rewrite map_id|]. cbn [truth]. destruct Hb as [-> | ->]; reflexivity.
    + cbn [flat_ite]. apply forallb_forall. intros t Ht. rewrite Forall_forall in Hc. destruct (Hc t Ht) as (c & s & ->). reflexivity.
  - apply csp_cases in H as [(p & ts & E)|[(p & ts & E & H)|(gs & E & H)]]; [discriminate| |].
    + injection E as -> ->. inversion IH as [|? ? I1 _]; subst. destruct (I1 H) as [D F]. split; [exact (den_Not m _ _ D)|]. cbn [flat_ite forallb] in *. now rewrite F.
    + injection E as -> <-. cbn [den truth flat_ite]. assert (A : sequence (map (den m) fs) = Some (map (truth m (fun t => t)) fs) /\ forallb flat_ite fs = true).
      { induction H as [|g fs Hg _ IHl]; [split; reflexivity|]. inversion IH as [|? ? I1 I2]; subst. destruct (I1 Hg) as [D F]. destruct (IHl I2) as [D' F']. cbn [map forallb]. rewrite F, F', D. split; [|auto]. change (match sequence (map (den m) fs) with Some xs => Some (truth m (fun t => t) g :: xs) | None => None end = Some (truth m (fun t => t) g :: map (truth m (fun t => t)) fs)). now rewrite D'. }
      destruct A as [-> A]. split; [|exact A]. f_equal. clear. induction fs as [|g fs IH]; [auto|]. cbn. now rewrite IH.
Qed.
Lemma eval_truth m f : csp_condition is_const f -> eval_f m f = Ok (truth m (fun t => t) f).
Proof. intros H. destruct (den_truth m f H) as [D F]. now apply C12_evaluator_complete. Qed.

(** Instances *)
Section Instance.
Variables (T : term -> Prop) (s : subst).
Hypothesis (Hs : constant_binding s) (HT : forall t, T t -> is_const (subst_term s t)).
Lemma sub_f_nil : sub_f s = []. Proof. apply Hs. Qed.
Lemma inst_atom p ts : subst_formula s (Atom p ts) = Atom p (map (subst_term s) ts).
Proof. cbn [subst_formula]. unfold visit_f. now rewrite sub_f_nil. Qed.
Lemma inst_comp c fs : subst_formula s (Comp c fs) = Comp c (map (subst_formula s) fs).
Proof. cbn [subst_formula]. unfold visit_f. now rewrite sub_f_nil. Qed.
Lemma inst_csp f : csp_condition T f -> csp_condition is_const (subst_formula s f) /\ forall m, truth m (fun t => t) (subst_formula s f) = truth m (subst_term s) f.
Proof.
  induction f as [| |p ts|c fs IH|q vs g IH] using formula_ind_simple; intros H; try destruct H.
  - rewrite inst_atom. apply csp_atom in H as [(n & ss & -> & H)|(b & t & u & -> & Hb & -> & Ht & Hu)].
    + split; [cbn; apply Forall_map; eapply Forall_impl; [|exact H]; exact HT|]. intros m. cbn [truth]. now rewrite map_id.
    + split; [destruct Hb as [-> | ->]; cbn; auto|]. intros m. reflexivity.
  - apply csp_cases in H as [(p & ts & E)|[(p & ts & E & H)|(gs & E & H)]]; [discriminate| |]; injection E as -> ->; rewrite inst_comp.
    + inversion IH as [|? ? I1 _]; subst. destruct (I1 H) as [A B]. cbn [map]. rewrite inst_atom in *. split; [exact A|]. intros m. cbn [truth]. f_equal. exact (B m).
    + split.
      * apply csp_And. apply Forall_map. rewrite Forall_forall in *. intros g Hg. exact (proj1 (IH g Hg (H g Hg))).
      * intros m. cbn [truth]. rewrite Forall_forall in *. clear - IH H. induction gs as [|g gs IHl]; [auto|]. cbn [map forallb]. rewrite (proj2 (IH g (or_introl eq_refl) (H g (or_introl eq_refl)))). f_equal. apply IHl; intros x Hx; [apply IH|apply H]; now right.
Qed.
Lemma wf_inst f : csp_condition T f -> wf f = true -> wf (subst_formula s f) = true.
Proof.
  induction f as [| |p ts|c fs IH|q vs g IH] using formula_ind_simple; intros H W; try destruct H.
  - rewrite inst_atom. assert (Ht := csp_atom_terms _ _ _ H). cbn [wf]. apply forallb_forall. intros t Hin. apply in_map_iff in Hin as (u & <- & Hu). rewrite Forall_forall in Ht. destruct (HT u (Ht u Hu)) as (c & r & ->). reflexivity.
  - apply csp_cases in H as [(p & ts & E)|[(p & ts & E & H)|(gs & E & H)]]; [discriminate| |]; injection E as -> ->; rewrite inst_comp.
    + apply wf_Not in W as (g & E & W). injection E as <-. inversion IH as [|? ? I1 _]; subst. cbn [map]. change (wf (subst_formula s (Atom p ts)) && true = true). rewrite (I1 H W). reflexivity.
    + apply wf_Comp in W as [L W]. cbn [wf]. rewrite map_length, L. cbn [andb]. apply forallb_forall. intros g Hg. apply in_map_iff in Hg as (x & <- & Hx). rewrite Forall_forall in *. auto.
Qed.
(** The value of the instance of a condition, as computed by [ground_schema] *)
Lemma inst_eval_flat m f g : csp_condition T f -> wf f = true -> flatten (subst_formula s f) = Ok g -> eval_f m g = Ok (truth m (subst_term s) f).
Proof.
  intros H W E. destruct (inst_csp f H) as [A B]. rewrite <- B. rewrite <- (truth_flat is_const m (fun t => t) _ (wf_inst f H W) A g E). apply eval_truth.
  destruct (csp_flatten _ _ (wf_inst f H W) A) as (g' & E' & C & _). congruence.
Qed.
Lemma inst_eval_csp m f : csp_condition T f -> eval_f m (subst_formula s f) = Ok (truth m (subst_term s) f).
Proof. intros H. destruct (inst_csp f H) as [A B]. rewrite <- B. now apply eval_truth. Qed.
End Instance.

(** Simplification *)
Section Simp.
Variables (T : term -> Prop) (init : model) (statics : option (list sym)).
Hypothesis HT : forall t, T t -> simple_term t = true.
Lemma simp_terms ts : Forall T ts -> mapM (simplify_term (Some init) statics) ts = Ok ts.
Proof. induction 1 as [|t ts H _ IH]; [reflexivity|]. rewrite mapM_cons. apply HT in H. destruct t; try discriminate; cbn [simplify_term bind]; rewrite IH; reflexivity. Qed.
Lemma simp_atom p ts : csp_condition T (Atom p ts) -> simplify_expression (Some init) statics (Atom p ts) = Ok (OForm (Atom p ts)) \/ exists b, simplify_expression (Some init) statics (Atom p ts) = Ok (OBool b).
Proof.
  intros H. assert (Ht := csp_atom_terms _ _ _ H). cbn [simplify_expression]. rewrite (simp_terms ts Ht). cbn [bind]. destruct (_ && forallb is_cst ts) eqn:E; [|auto]. apply andb_true_iff in E as [_ E]. right.
  assert (C : csp_condition is_const (Atom p ts)). { assert (K : forall t, In t ts -> is_const t). { intros t Hin. rewrite forallb_forall in E. specialize (E t Hin). destruct t; try discriminate. eexists _, _. reflexivity. }
    apply csp_atom in H as [(n & ss & -> & _)|(b & t & u & -> & Hb & -> & _)]; [apply Forall_forall; exact K|]. assert (is_const t /\ is_const u) by (split; apply K; cbn; auto). destruct Hb as [-> | ->]; assumption. }
  rewrite (eval_truth init _ C). cbn [bind]. eauto.
Qed.
Lemma simp_csp f : csp_condition T f -> exists r, simplify_expression (Some init) statics f = Ok r /\ forall g, r = OForm g -> csp_condition T g.
Proof.
  induction f as [| |p ts|c fs IH|q vs g IH] using formula_ind_simple; intros H; try destruct H.
  - destruct (simp_atom p ts H) as [E|(b & E)]; rewrite E; eexists; (split; [reflexivity|]); intros g [= <-]; exact H.
  - apply csp_cases in H as [(p & ts & E)|[(p & ts & E & H)|(gs & E & H)]]; [discriminate| |]; injection E as -> ->.
    + change (exists r, (let! r := simplify_expression (Some init) statics (Atom p ts) in match r with OBool b => Ok (OBool (negb b)) | OForm (Comp Not hs) => match hs with [] => Err IndexError | h :: _ => Ok (OForm h) end | OForm g' => Ok (OForm (Comp Not [g'])) end) = Ok r /\ forall g, r = OForm g -> csp_condition T g).
      destruct (simp_atom p ts H) as [E|(b & E)]; rewrite E; cbn [bind]; eexists; (split; [reflexivity|]); intros g [= <-]; exact H.
    + cbn [simplify_expression]. assert (A : exists l, simplify_members (simplify_expression (Some init) statics) true gs = Ok l /\ forall fs, l = Some fs -> Forall (csp_condition T) fs).
      { induction H as [|g gs Hg Hgs IHl]; [exists (Some []); split; [reflexivity|]; intros fs [= <-]; constructor|]. inversion IH as [|? ? I1 I2]; subst. destruct (I1 Hg) as (r & E & K). destruct (IHl I2) as (l & El & Kl).
        change (exists l0, (let! r := simplify_expression (Some init) statics g in match r with OForm g' => let! l := simplify_members (simplify_expression (Some init) statics) true gs in Ok (option_map (cons g') l) | OBool b => if Bool.eqb b true then simplify_members (simplify_expression (Some init) statics) true gs else Ok None end) = Ok l0 /\ forall fs, l0 = Some fs -> Forall (csp_condition T) fs).
        rewrite E. cbn [bind]. destruct r as [b|g'].
        - destruct (Bool.eqb b true); [exists l; auto|]. exists None. split; [reflexivity|discriminate].
        - rewrite El. cbn [bind]. exists (option_map (cons g') l). split; [reflexivity|]. intros fs E'. destruct l as [fs'|]; [|discriminate]. injection E' as <-. constructor; auto. }
      destruct A as (l & -> & K). cbn [bind]. eexists. split; [reflexivity|]. intros g E. destruct l as [[|x [|y fs]]|]; try discriminate; injection E as <-; specialize (K _ eq_refl); [inversion K; auto|now apply csp_And].
Qed.
End Simp.

(** Compilation *)
Section Comp.
Variables (svs : list svar) (bounds : list (string * (nat * nat))) (ids : list (cobj * nat)) (T : term -> Prop).
Definition vname (t : term) : string := match t with Var x _ => x | Cst c _ => name_text c | _ => "" end.
Definition has (k : csp) (n : string) : Prop := exists kind b, In (n, kind, b) (c_vars k).
(** [e] is the entry of a term of [T]. *)
Definition entry_of (e : string * string * (nat * Z)) : Prop :=
  (exists x r lo hi, T (Var x r) /\ sget bounds r = Some (lo, hi) /\ fst (fst e) = x /\ snd e = (lo, (Z.of_nat hi - 1)%Z)) \/
  (exists c r i, T (Cst c r) /\ dget cobj_eqb ids (c, r) = Some i /\ fst (fst e) = name_text c /\ snd e = (i, Z.of_nat i)).
Definition VI (k : csp) : Prop := Forall entry_of (c_vars k).
Hypothesis HT : forall t, T t -> match t with Var _ r => sget bounds r <> None | Cst c r => dget cobj_eqb ids (c, r) <> None | _ => False end.
Definition extends (k k' : csp) (new : list constraint) (ts : list term) : Prop :=
  c_cons k' = (c_cons k ++ new)%list /\ VI k' /\ (forall n, has k n -> has k' n) /\ Forall (fun t => has k' (vname t)) ts.
Lemma add_variable_spec k name kind b : VI k -> entry_of (name, kind, b) -> VI (add_variable k name kind b) /\ c_cons (add_variable k name kind b) = c_cons k /\ (forall n, has k n -> has (add_variable k name kind b) n) /\ has (add_variable k name kind b) name.
Proof.
  intros V E. unfold add_variable. destruct (existsb _ (c_vars k)) eqn:X.
  - split; [auto|]. split; [auto|]. split; [auto|]. apply existsb_exists in X as ([[n kd] b'] & Hin & X). apply String.eqb_eq in X. cbn in X. subst n. exists kd, b'. exact Hin.
  - cbn [c_cons c_vars]. split; [apply Forall_app; split; [exact V|constructor; [exact E|constructor]]|]. split; [auto|]. split; [intros n (kd & b' & H); exists kd, b'; cbn [c_vars]; apply in_app_iff; auto|]. exists kind, b. cbn [c_vars]. apply in_app_iff. right. now left.
Qed.
Lemma variable_spec k t kind : T t -> VI k -> exists k', variable bounds ids k t kind = Ok (k', vname t) /\ VI k' /\ c_cons k' = c_cons k /\ (forall n, has k n -> has k' n) /\ has k' (vname t).
Proof.
  intros Ht V. assert (H := HT t Ht). destruct t as [x r|c r| |]; try (exfalso; exact H); cbn [variable vname].
  - destruct (sget bounds r) as [[lo hi]|] eqn:E; [|congruence]. eexists. split; [reflexivity|]. apply add_variable_spec; [exact V|]. left. exists x, r, lo, hi. auto.
  - destruct (dget cobj_eqb ids (c, r)) as [i|] eqn:E; [|congruence]. eexists. split; [reflexivity|]. apply add_variable_spec; [exact V|]. right. exists c, r, i. auto.
Qed.
Lemma compile_term_spec k t : T t -> VI k -> exists k', compile_term bounds ids t k = Ok (k', Some (vname t)) /\ extends k k' [] [t].
Proof.
  intros Ht V. assert (H := HT t Ht). destruct t as [x r|c r| |]; try (exfalso; exact H); cbn [compile_term].
  - destruct (variable_spec k (Var x r) "var" Ht V) as (k' & -> & A & B & C & D). exists k'. split; [reflexivity|]. split; [now rewrite app_nil_r|]. auto.
  - destruct (variable_spec k (Cst c r) "const" Ht V) as (k' & -> & A & B & C & D). exists k'. split; [reflexivity|]. split; [now rewrite app_nil_r|]. auto.
Qed.
Lemma extends_trans k1 k2 k3 n1 n2 ts us : extends k1 k2 n1 ts -> extends k2 k3 n2 us -> extends k1 k3 (n1 ++ n2) (ts ++ us).
Proof.
  intros (A1 & _ & C1 & D1) (A2 & B2 & C2 & D2). split; [rewrite A2, A1, app_assoc; auto|]. split; [exact B2|]. split; [auto|]. apply Forall_app. split; [|exact D2]. eapply Forall_impl; [|exact D1]. auto.
Qed.
Lemma compile_list_spec ts : Forall T ts -> forall k, VI k -> exists k', compile_list (compile_term bounds ids) ts k = Ok (k', map (fun t => Some (vname t)) ts) /\ extends k k' [] ts.
Proof.
  induction 1 as [|t ts Ht _ IH]; intros k V; [exists k; split; [reflexivity|split; [now rewrite app_nil_r|auto]]|]. destruct (compile_term_spec k t Ht V) as (k1 & E1 & X1). destruct (IH k1 (proj1 (proj2 X1))) as (k2 & E2 & X2).
  exists k2. split; [|exact (extends_trans _ _ _ _ _ _ _ X1 X2)].
  change (compile_list (compile_term bounds ids) (t :: ts) k) with (let! kx := compile_term bounds ids t k in let! kr := compile_list (compile_term bounds ids) ts (fst kx) in Ok (fst kr, snd kx :: snd kr)). rewrite E1. cbn [bind fst snd]. rewrite E2. reflexivity.
Qed.
Lemma extends_constraint k k' ts c : extends k k' [] ts -> extends k (add_constraint k' c) [c] ts.
Proof. intros (A & B & C & D). rewrite app_nil_r in A. split; [cbn [add_constraint c_cons]; now rewrite A|]. auto. Qed.
(** The constraint of a literal *)
Definition constraint_of (p : psym) (ts : list term) (neg : bool) : constraint :=
  if forallb is_cst ts && svar_mem svs (SymP p, ts) then CState (Atom p ts) (negb neg)
  else match p, ts with
       | PB b, [u; v] => CRel (Some (vname u)) (Some (vname v)) (bpred_name (if neg then complement b else b))
       | _, _ => CTable (inr (Atom p ts)) (map (fun t => Some (vname t)) ts) neg
       end.
Fixpoint constraints_of (f : formula) : list constraint :=
  match f with
  | Atom p ts => [constraint_of p ts false]
  | Comp Not [Atom p ts] => [constraint_of p ts true]
  | Comp And fs => flat_map constraints_of fs
  | _ => []
  end.
(** The terms that become variables of the CSP *)
Definition atom_terms (p : psym) (ts : list term) : list term := if forallb is_cst ts && svar_mem svs (SymP p, ts) then [] else ts.
Lemma compile_atom_spec p ts neg k : csp_condition T (Atom p ts) -> VI k -> exists k', compile_atom svs bounds ids p ts neg k = Ok k' /\ extends k k' [constraint_of p ts neg] (atom_terms p ts).
Proof.
  intros H V. unfold compile_atom, constraint_of, atom_terms. destruct (forallb is_cst ts && svar_mem svs (SymP p, ts)).
  { eexists. split; [reflexivity|]. apply (extends_constraint k k). split; [now rewrite app_nil_r|]. auto. }
  apply csp_atom in H as [(n & ss & -> & H)|(b & t & u & -> & Hb & -> & Ht & Hu)].
  - destruct (compile_list_spec ts H k V) as (k1 & E1 & X1). rewrite E1. cbn [bind fst snd]. destruct (compile_list_spec ts H k1 (proj1 (proj2 X1))) as (k2 & E2 & X2). rewrite E2. cbn [bind fst snd]. eexists. split; [reflexivity|]. apply extends_constraint.
    assert (X := extends_trans _ _ _ _ _ _ _ X1 X2). destruct X as (A & B & C & D). split; [exact A|]. split; [exact B|]. split; [exact C|]. now apply Forall_app in D as [D _].
  - destruct (compile_term_spec k t Ht V) as (k1 & E1 & X1). rewrite E1. cbn [bind fst snd]. destruct (compile_term_spec k1 u Hu (proj1 (proj2 X1))) as (k2 & E2 & X2). rewrite E2. cbn [bind fst snd]. eexists. split; [reflexivity|]. apply extends_constraint. exact (extends_trans _ _ _ _ _ _ _ X1 X2).
Qed.
Fixpoint terms_of (f : formula) : list term :=
  match f with
  | Atom p ts => atom_terms p ts
  | Comp Not [Atom p ts] => atom_terms p ts
  | Comp And fs => flat_map terms_of fs
  | _ => []
  end.
Lemma compile_And_cons f fs k : compile_formula svs bounds ids (Comp And (f :: fs)) k = let! k' := compile_formula svs bounds ids f k in compile_formula svs bounds ids (Comp And fs) k'.
Proof. reflexivity. Qed.
Lemma compile_spec f : csp_condition T f -> forall k, VI k -> exists k', compile_formula svs bounds ids f k = Ok k' /\ extends k k' (constraints_of f) (terms_of f).
Proof.
  induction f as [| |p ts|c fs IH|q vs g IH] using formula_ind_simple; intros H k V; try destruct H; [exact (compile_atom_spec p ts false k H V)|].
  apply csp_cases in H as [(p & ts & E)|[(p & ts & E & H)|(gs & E & H)]]; [discriminate| |]; injection E as -> ->; [exact (compile_atom_spec p ts true k H V)|].
  revert k V. induction H as [|g gs Hg Hgs IHl]; intros k V; [exists k; split; [reflexivity|]; split; [now rewrite app_nil_r|]; cbn; auto|]. inversion IH as [|? ? I1 I2]; subst. destruct (I1 Hg k V) as (k1 & E1 & X1). destruct (IHl I2 k1 (proj1 (proj2 X1))) as (k2 & E2 & X2). exists k2. rewrite compile_And_cons, E1. cbn [bind]. split; [exact E2|]. exact (extends_trans _ _ _ _ _ _ _ X1 X2).
Qed.
Lemma parameters_spec vs : (forall x r, In (x, r) vs -> T (Var x r)) -> forall k, VI k -> exists k', parameters bounds ids vs k = Ok (k', map fst vs) /\ extends k k' [] (map (fun v => Var (fst v) (snd v)) vs).
Proof.
  induction vs as [|[x r] vs IH]; intros H k V; [exists k; split; [reflexivity|]; split; [now rewrite app_nil_r|]; cbn; auto|].
  destruct (variable_spec k (Var x r) "param" (H x r (or_introl eq_refl)) V) as (k1 & E1 & A & B & C & D). destruct (IH (fun y q Hy => H y q (or_intror Hy)) k1 A) as (k2 & E2 & X2). exists k2. split.
  - cbn [parameters fst snd]. rewrite E1. cbn [bind fst snd]. rewrite E2. reflexivity.
  - apply (extends_trans k k1 k2 [] [] [Var x r]); [|exact X2]. split; [now rewrite app_nil_r|]. auto.
Qed.
End Comp.
