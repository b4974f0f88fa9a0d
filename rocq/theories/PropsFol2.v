(** Exact forms of C03, C05 and C09: what the functions do outside the class of formulas on which the main theorems hold. *)
From Verif Require Import Base Syntax Semantics FolSpec SemLemmas Nnf NnfProofs Cnf NegBuiltin NegBuiltinProofs SubstSpec FreeVars FreeVarsProofs PropsFol FolSpec2.
Local Open Scope string_scope.

(** ** C03 *)
Theorem C03_negated_constant : forall f, wf f = true -> has_negated_constant f = true -> to_conjunctive_normal_form f = Err NotAFormula.
Proof. intros f Hw H. unfold to_conjunctive_normal_form. rewrite (C01_nnf_result_not_a_formula f Hw H). reflexivity. Qed.
Print Assumptions C03_negated_constant.

(** ** C05 *)
Lemma binary_first_two f : binary f = true -> first_two f = f.
Proof.
  induction f as [ | | p ts | c fs IH | q vs f IH] using formula_ind_simple; intros Hb; try reflexivity.
  - destruct (connective_eq_dec c Not) as [->|Hc]; [reflexivity|].
    assert (Hb' : List.length fs = 2 /\ forallb binary fs = true).
    { destruct c; try congruence; simpl in Hb; apply andb_true_iff in Hb as [H1 H2]; apply Nat.eqb_eq in H1; auto. }
    destruct Hb' as [Hl Hb']. destruct fs as [|a [|b [|]]]; try discriminate.
    simpl in Hb'. apply andb_true_iff in Hb' as [Ba Bb]. rewrite andb_true_r in Bb.
    inversion IH as [|? ? Ia IH']; subst. inversion IH' as [|? ? Ib _]; subst.
    destruct c; try congruence; cbn [first_two]; now rewrite Ia, Ib.
  - cbn [first_two]. now rewrite IH.
Qed.
Lemma first_two_spec f : wf f = true -> builtin_binary f = true ->
  absorb f = absorb (first_two f) /\ wf (first_two f) = true /\ builtin_binary (first_two f) = true /\ binary (first_two f) = true.
Proof.
  induction f as [ | | p ts | c fs IH | q vs f IH] using formula_ind_simple; intros Hw Hbb.
  1-3: split; [reflexivity|]; split; [exact Hw|]; split; [exact Hbb|reflexivity].
  - destruct (connective_eq_dec c Not) as [->|Hc].
    + split; [reflexivity|]; split; [exact Hw|]; split; [exact Hbb|reflexivity].
    + apply wf_Comp in Hw as [Har Hw]. cbn [builtin_binary] in Hbb.
      destruct fs as [|a [|b fs]]; [destruct c; try congruence; discriminate Har..|].
      inversion Hw as [|? ? Wa Hw']; subst. inversion Hw' as [|? ? Wb _]; subst.
      inversion IH as [|? ? Ia IH']; subst. inversion IH' as [|? ? Ib _]; subst.
      cbn [forallb] in Hbb. apply andb_true_iff in Hbb as [Ca Hbb]. apply andb_true_iff in Hbb as [Cb _].
      destruct (Ia Wa Ca) as (A1 & A2 & A3 & A4). destruct (Ib Wb Cb) as (B1 & B2 & B3 & B4).
      destruct c; try congruence; cbn [first_two absorb]; rewrite <- A1, <- B1; (split; [reflexivity|]);
        cbn [wf builtin_binary binary comp_arity_ok List.length forallb]; rewrite A2, B2, A3, B3, A4, B4; auto.
  - cbn [wf] in Hw. apply andb_true_iff in Hw as [Hq Hw]. destruct (IH Hw Hbb) as (A1 & A2 & A3 & A4).
    cbn [first_two absorb wf builtin_binary binary]. rewrite <- A1, A2, Hq. auto.
Qed.
(** On every well-formed formula: the result means what the formula means once conjunctions and disjunctions are cut after their second
    member; the cut changes nothing when connectives are binary. *)
Theorem C05_absorption_exact : forall f, wf f = true -> builtin_binary f = true ->
  exists g, absorb f = Ok g /\ no_negated_builtin g = true /\
    (forall M e, standard_comparisons M -> fsem M g e = fsem M (first_two f) e) /\
    (binary f = true -> first_two f = f).
Proof.
  intros f Hw Hb. destruct (first_two_spec f Hw Hb) as (A1 & A2 & A3 & A4).
  destruct (absorb_correct (first_two f) A2 A4 A3) as (g & Eg & Hg). exists g. rewrite A1. split; [exact Eg|].
  split; [|split; [exact Hg|apply binary_first_two]].
  clear Hg A1 Hb Hw. revert g Eg A2 A3. generalize (first_two f). clear f A4.
  intros f. induction f as [ | | p ts | c fs IH | q vs f IH] using formula_ind_simple; intros g Eg Hw Hbb.
  1-3: cbn [absorb] in Eg; injection Eg as <-; reflexivity.
  - destruct (connective_eq_dec c Not) as [->|Hc].
    + apply wf_Not in Hw as (h & -> & _). cbn [absorb] in Eg.
      destruct h as [ | | [b|n ss] ts | | ]; try (injection Eg as <-; reflexivity).
      unfold negate_builtin_atom in Eg. destruct ts as [|l [|r [|]]]; try discriminate. injection Eg as <-. reflexivity.
    + apply wf_Comp in Hw as [Har Hw]. cbn [builtin_binary] in Hbb.
      destruct fs as [|a [|b fs]]; [destruct c; try congruence; discriminate Har..|].
      inversion Hw as [|? ? Wa Hw']; subst. inversion Hw' as [|? ? Wb _]; subst.
      inversion IH as [|? ? Ia IH']; subst. inversion IH' as [|? ? Ib _]; subst.
      cbn [forallb] in Hbb. apply andb_true_iff in Hbb as [Ca Hbb]. apply andb_true_iff in Hbb as [Cb _].
      assert (E : bind (absorb a) (fun a' => bind (absorb b) (fun b' => Ok (Comp c [a'; b']))) = Ok g) by (destruct c; try congruence; exact Eg).
      destruct (absorb a) as [a'|]; [|discriminate E]. destruct (absorb b) as [b'|]; [|discriminate E]. cbn [bind] in E. injection E as <-.
      destruct c; try congruence; cbn [no_negated_builtin forallb]; rewrite (Ia a' eq_refl Wa Ca), (Ib b' eq_refl Wb Cb); reflexivity.
  - cbn [wf] in Hw. apply andb_true_iff in Hw as [_ Hw]. cbn [absorb] in Eg. destruct (absorb f) as [g'|]; [|discriminate Eg].
    cbn [bind] in Eg. injection Eg as <-. exact (IH g' eq_refl Hw Hbb).
Qed.
Print Assumptions C05_absorption_exact.
Example C05_exact_nonvacuous : let eq a b := Atom (PB PEq) [a; b] in let f := Comp And [Comp Not [eq x_ c_]; P_ x_; Q_ x_] in
  wf f = true /\ builtin_binary f = true /\ absorb f = Ok (Comp And [Atom (PB PNe) [x_; c_]; P_ x_]) /\ first_two f = Comp And [Comp Not [eq x_ c_]; P_ x_].
Proof. vm_compute. repeat split. Qed.

(** ** C09 *)
Definition some_constant : term := Cst (CInt 0) "object".
Fixpoint blank_t (t : term) : term := match t with App g ts => App g (map blank_t ts) | Ite _ _ _ => some_constant | _ => t end.
Fixpoint blank (f : formula) : formula :=
  match f with
  | Atom p ts => Atom p (map blank_t ts)
  | Comp c fs => Comp c (map blank fs)
  | Quant q vs g => Quant q vs (blank g)
  | _ => f
  end.
Lemma term_ind_simple (P : term -> Prop) : (forall x s, P (Var x s)) -> (forall c s, P (Cst c s)) -> (forall f ts, Forall P ts -> P (App f ts)) ->
  (forall c a b, P a -> P b -> P (Ite c a b)) -> forall t, P t.
Proof. intros H1 H2 H3 H4 t. apply (term_ind_nested P (fun _ => True)); auto. Qed.
Lemma blank_ite_t t : ite_free_t (blank_t t) = true /\ (forall st, fv_term (blank_t t) st = fv_term t st) /\
  (forall x, free_in_t x (blank_t t) = occurs_outside_ite x t) /\ (wf_term t = true -> wf_term (blank_t t) = true).
Proof.
  induction t as [y s|c s|g ts IH|c a b _ _] using term_ind_simple.
  - repeat split; auto.
  - repeat split; auto.
  - cbn [blank_t ite_free_t fv_term free_in_t occurs_outside_ite wf_term]. split; [|split; [|split]].
    + induction IH as [|u us (A & _) _ IH2]; cbn [map forallb]; [reflexivity|]. now rewrite A.
    + induction IH as [|u us (_ & A & _) _ IH2]; intros st; cbn [map fold_left]; [reflexivity|]. rewrite A. apply IH2.
    + intros x. induction IH as [|u us (_ & _ & A & _) _ IH2]; cbn [map existsb]; [reflexivity|]. now rewrite A, IH2.
    + intros H. induction IH as [|u us (_ & _ & _ & A) _ IH2]; cbn [map forallb] in *; [reflexivity|].
      apply andb_true_iff in H as [H1 H2]. rewrite A, IH2; auto.
  - repeat split; auto.
Qed.
Lemma blank_list ts : (forall st, fold_left (fun s u => fv_term u s) (map blank_t ts) st = fold_left (fun s u => fv_term u s) ts st) /\
  forallb ite_free_t (map blank_t ts) = true /\ (forall x, existsb (free_in_t x) (map blank_t ts) = existsb (occurs_outside_ite x) ts) /\
  (forallb wf_term ts = true -> forallb wf_term (map blank_t ts) = true).
Proof.
  induction ts as [|t ts (I1 & I2 & I3 & I4)]; cbn [map fold_left forallb existsb]; [repeat split; auto|].
  destruct (blank_ite_t t) as (A & B & C & W). repeat split.
  - intros st. rewrite B. apply I1.
  - now rewrite A, I2.
  - intros x. now rewrite C, I3.
  - intros H. apply andb_true_iff in H as [H1 H2]. rewrite W, I4; auto.
Qed.
Lemma foldM_ext {A B S} (f : S -> A -> res S) (g : S -> B -> res S) (h : A -> B) l : Forall (fun a => forall s, g s (h a) = f s a) l ->
  forall s, foldM g (map h l) s = foldM f l s.
Proof. induction 1 as [|a l H _ IH]; intros s; cbn [map foldM]; [reflexivity|]. rewrite H. destruct (f s a); auto. Qed.
Lemma blank_ite f : ite_free (blank f) = true /\ (forall st, fv_formula (blank f) st = fv_formula f st) /\
  (forall x, free_in x (blank f) = free_outside_ite x f) /\ (wf f = true -> wf (blank f) = true) /\ (forall B, no_rebinding B (blank f) = no_rebinding B f).
Proof.
  induction f as [ | | p ts | c fs IH | q vs f IH] using formula_ind_simple.
  1-2: repeat split; auto.
  - destruct (blank_list ts) as (A & B & C & W). cbn [blank ite_free fv_formula free_in free_outside_ite wf no_rebinding].
    split; [exact B|]. split; [intros st; now rewrite A|]. split; [exact C|]. split; [exact W|reflexivity].
  - cbn [blank ite_free fv_formula free_in free_outside_ite wf no_rebinding]. rewrite map_length. split; [|split; [|split; [|split]]].
    + induction IH as [|u us (A & _) _ IH2]; cbn [map forallb]; [reflexivity|]. now rewrite A.
    + apply foldM_ext. eapply Forall_impl; [|exact IH]. intros a (_ & A & _). exact A.
    + intros x. induction IH as [|u us (_ & _ & A & _) _ IH2]; cbn [map existsb]; [reflexivity|]. now rewrite A, IH2.
    + intros H. apply andb_true_iff in H as [-> H]. cbn [andb]. induction IH as [|u us (_ & _ & _ & A & _) _ IH2]; cbn [map forallb] in *; [reflexivity|].
      apply andb_true_iff in H as [H1 H2]. rewrite A, IH2; auto.
    + intros B. induction IH as [|u us (_ & _ & _ & _ & A) _ IH2]; cbn [map forallb] in *; [reflexivity|]. now rewrite A, IH2.
  - destruct IH as (A & B & C & W & R). cbn [blank ite_free fv_formula free_in free_outside_ite wf no_rebinding].
    split; [exact A|]. split; [intros st; now rewrite B|]. split.
    + intros x. rewrite C. f_equal. f_equal. unfold vars_of, mem_var.
      induction vs as [|v vs IHv]; [reflexivity|]. cbn [flat_map existsb]. rewrite existsb_app. unfold vars_of in IHv. destruct v; cbn [existsb]; rewrite ?orb_false_r, <- IHv; reflexivity.
    + split; [|intros B'; now rewrite R]. intros H. apply andb_true_iff in H as [-> H]. cbn [andb]. auto.
Qed.
(** On every well-formed formula in which no quantifier binds a variable already in scope: exactly the variables with a free occurrence
    outside if-then-else terms, each once. *)
Theorem C09_free_variables_exact : forall f, wf f = true -> no_rebinding [] f = true ->
  exists l, free_variables f = Ok l /\ NoDup l /\ forall t, In t l <-> exists x s, t = Var x s /\ free_outside_ite (x, s) f = true.
Proof.
  intros f Hw Hr. destruct (blank_ite f) as (A & B & C & W & R).
  assert (E : free_variables (blank f) = free_variables f) by (unfold free_variables; now rewrite B).
  destruct (C09_free_variables (blank f) (W Hw) A) as (l & El & Hl & Ht); [now rewrite R|].
  exists l. rewrite <- E. split; [exact El|]. split; [exact Hl|]. intros t. rewrite Ht.
  split; intros (x & s & -> & H); exists x, s; (split; [reflexivity|]); [rewrite <- C|rewrite C]; exact H.
Qed.
Print Assumptions C09_free_variables_exact.
Example C09_exact_nonvacuous : let f := Comp And [R_ x_ (Ite (P_ y_) c_ d_); Quant QEx [y_] (P_ y_)] in
  wf f = true /\ no_rebinding [] f = true /\ free_variables f = Ok [x_] /\ free_outside_ite ("x", "object") f = true /\
  free_outside_ite ("y", "object") f = false /\ free_in ("y", "object") f = true.
Proof. vm_compute. repeat split. Qed.
