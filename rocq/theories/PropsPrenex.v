(** Property theorems about the prenex transformation (C06). *)
From Verif Require Import Base Syntax Semantics FolSpec SubstSpec PrenexSpec Nnf Prenex.
From Verif Require Import NnfProofs PrenexProofs PropsFol.
#[local] Open Scope string_scope.

(** ** C06 *)
(** Full claim: for every formula the result is prenex and equivalent. Proved for formulas whose negation normal form has
    binary connectives, quantifiers of a single kind, distinct bound variables that do not occur free, and no conjunction of two
    quantified members, on structures without empty sorts. Each of these restrictions is necessary (refutations below). *)
Theorem C06_prenex : forall q f g, wf f = true -> to_negation_normal_form f = Ok g ->
  binary g = true -> only_quantifier q g = true -> conjunctions_ok g = true -> clean_binders g = true ->
  forall fuel, size g <= fuel ->
  exists h, to_prenex fuel f = Ok h /\ is_prenex h = true /\
            (forall M : structure, nonempty_sorts M -> forall e, fsem M h e = fsem M f e) /\
            (forall x, free_in x h = true -> free_in x g = true).
Proof.
  intros q f g Hw Hg Hb Hq Hc Hcl fuel Hs. unfold clean_binders in Hcl. apply andb_true_iff in Hcl as [Hd Hf].
  destruct (nnf_correct f false g Hw Hg) as (A & B & C & _).
  assert (Hfr : forall b, In b (binders g) -> free_in b g = false).
  { intros b Hbd. rewrite forallb_forall in Hf. apply Hf in Hbd. now apply negb_true_iff. }
  destruct (convert_frag q fuel g) as (h & Eh & Sh & Frh & Rh); auto.
  exists h. repeat split; auto.
  - unfold to_prenex. now rewrite Hg.
  - destruct Rh as [[Qf ->]|(vs & body & _ & -> & _ & _ & Qb & _ & _)].
    + destruct g; simpl in *; auto; try discriminate; try (now rewrite Qf).
    + simpl. destruct body; simpl in *; auto; try discriminate; now rewrite Qb.
  - intros M HM e. rewrite (Sh M HM e), A. reflexivity.
Qed.
Print Assumptions C06_prenex.
(** A formula without quantifiers is only put in negation normal form. *)
Theorem C06_prenex_quantifier_free : forall f g, wf f = true -> to_negation_normal_form f = Ok g -> has_quantifier g = false ->
  forall fuel, size g <= fuel -> to_prenex fuel f = Ok g.
Proof.
  intros f g Hw Hg Hq fuel Hs. unfold to_prenex. rewrite Hg. cbn [bind]. destruct (nnf_correct f false g Hw Hg) as (_ & B & C & _).
  clear Hg Hw f. revert fuel Hs C B Hq. induction g as [| |p ts|c fs IH|q vs g IH] using formula_ind_simple; intros [|n] Hs C B Hq; simpl in Hs; try lia; try reflexivity; try discriminate.
  cbn [convert]. destruct (connective_eq_dec c Not) as [->|Hn].
  { apply wf_Not in C as (g & -> & Cg). destruct g; try discriminate; reflexivity. }
  apply wf_Comp in C as [L W]. destruct fs as [|f1 [|f2 fs]]; try (destruct c; try discriminate; congruence).
  inversion W as [|? ? W1 W']; subst. inversion W' as [|? ? W2 W'']; subst. inversion IH as [|? ? I1 I']; subst. inversion I' as [|? ? I2 I'']; subst.
  assert (Hq' : has_quantifier f1 = false /\ has_quantifier f2 = false).
  { simpl in Hq. apply orb_false_iff in Hq as [? Hq]. apply orb_false_iff in Hq. tauto. }
  assert (BB : is_nnf f1 = true /\ is_nnf f2 = true). { destruct c; try congruence; simpl in B; rewrite !andb_true_iff in B; tauto. }
  assert (Sz : size f1 <= n /\ size f2 <= n). { simpl in Hs. lia. }
  rewrite (I1 n), (I2 n) by tauto. cbn [bind]. destruct Hq' as [Q1 Q2].
  destruct c; try congruence; destruct f1, f2; try discriminate; reflexivity.
Qed.
Print Assumptions C06_prenex_quantifier_free.

Definition ex (v : term) f := Quant QEx [v] f.
Definition al (v : term) f := Quant QAll [v] f.
(** ∃x P(x) ∧ ∃y Q(y) becomes ∃x,y (P(x) ∨ Q(y)). *)
Theorem C06_prenex_conjunction_refuted : exists f h M e, wf f = true /\ clean_binders f = true /\ nonempty_sorts M /\
  to_prenex (size f) f = Ok h /\ fsem M h e <> fsem M f e.
Proof.
  exists (Comp And [ex x_ (P_ x_); ex y_ (Comp And [P_ y_; Q_ y_])]). eexists. exists M2, e2.
  repeat split; try reflexivity; [intros s H; discriminate|discriminate].
Qed.
Print Assumptions C06_prenex_conjunction_refuted.
(** ∀x ∃y R(x,y) becomes ∃y ∀x R(x,y). *)
Theorem C06_prenex_alternation_refuted : exists f h M e, wf f = true /\ clean_binders f = true /\ nonempty_sorts M /\
  to_prenex (size f) f = Ok h /\ fsem M h e <> fsem M f e.
Proof.
  exists (al x_ (ex y_ (R_ x_ y_))). eexists. exists M2, e2. repeat split; try reflexivity; [intros s H; discriminate|discriminate].
Qed.
Print Assumptions C06_prenex_alternation_refuted.
(** P(x) ∧ ∃x Q(x) becomes ∃x (P(x) ∧ Q(x)). *)
Theorem C06_prenex_capture_refuted : exists f h M e, wf f = true /\ only_quantifier QEx f = true /\ conjunctions_ok f = true /\ nonempty_sorts M /\
  to_prenex (size f) f = Ok h /\ fsem M h e <> fsem M f e.
Proof.
  exists (Comp And [P_ x_; ex x_ (Q_ x_)]). eexists. exists M2, e2. repeat split; try reflexivity; [intros s H; discriminate|discriminate].
Qed.
Print Assumptions C06_prenex_capture_refuted.
(** ∃x P(x) ∨ ∃x Q(x) raises TypeError. *)
Theorem C06_prenex_shared_variable_raises : exists f, wf f = true /\ only_quantifier QEx f = true /\ conjunctions_ok f = true /\
  forall fuel, 3 <= fuel -> to_prenex fuel f = Err TypeError.
Proof.
  exists (Comp Or [ex x_ (P_ x_); ex x_ (Q_ x_)]). repeat split; try reflexivity.
  intros fuel H. do 3 (destruct fuel; [lia|]). reflexivity.
Qed.
Print Assumptions C06_prenex_shared_variable_raises.
(** The third member of a disjunction keeps its quantifier, and if one of the first two is quantified it is lost. *)
Theorem C06_prenex_third_member_refuted : exists f h f' h' M e, wf f = true /\ clean_binders f = true /\ only_quantifier QEx f = true /\
  to_prenex (size f) f = Ok h /\ is_prenex h = false /\
  wf f' = true /\ clean_binders f' = true /\ only_quantifier QEx f' = true /\ nonempty_sorts M /\
  to_prenex (size f') f' = Ok h' /\ fsem M h' e <> fsem M f' e.
Proof.
  exists (Comp Or [P_ c_; Q_ c_; ex x_ (P_ x_)]). eexists. exists (Comp Or [Comp And [P_ c_; Q_ c_]; ex x_ (R_ c_ d_); P_ c_]). eexists. exists M2, e2.
  repeat split; try reflexivity; [intros s H; discriminate|discriminate].
Qed.
Print Assumptions C06_prenex_third_member_refuted.
(** On a structure with an empty sort the result may differ even within the proved fragment. *)
Theorem C06_prenex_empty_sort_refuted : exists f h M e, wf f = true /\ clean_binders f = true /\ only_quantifier QEx f = true /\ binary f = true /\
  to_prenex (size f) f = Ok h /\ fsem M h e <> fsem M f e.
Proof.
  exists (Comp Or [P_ c_; ex x_ (P_ x_)]). eexists.
  exists {| carrier := bool; dom := fun _ => []; cint := fun _ _ => true; fint := fun _ _ => true; pint := fun _ _ => true |}, (fun _ => true).
  repeat split; try reflexivity. discriminate.
Qed.
Print Assumptions C06_prenex_empty_sort_refuted.
Example C06_nonvacuous :
  let f := Comp Not [Comp Or [Comp Not [ex x_ (Comp Or [P_ x_; ex y_ (R_ x_ y_)])]; al (Var "z" "object") (Comp Not [P_ (Var "z" "object")])]] in
  let f' := Comp Or [ex x_ (Comp Or [P_ x_; ex y_ (R_ x_ y_)]); Comp And [P_ c_; Comp Not [al (Var "z" "object") (P_ (Var "z" "object"))]]] in
  (exists g', to_negation_normal_form f' = Ok g' /\ binary g' = true /\ only_quantifier QEx g' = true /\ conjunctions_ok g' = true /\ clean_binders g' = true /\
  to_prenex (size g') f' = Ok (Quant QEx [x_; y_; Var "z" "object"]
    (Comp Or [Comp Or [P_ x_; R_ x_ y_]; Comp And [P_ c_; Comp Not [P_ (Var "z" "object")]]]))) /\
  (exists g, to_negation_normal_form f = Ok g /\ conjunctions_ok g = false).
Proof. split; eexists; repeat split; reflexivity. Qed.
