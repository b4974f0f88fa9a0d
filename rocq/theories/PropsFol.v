(** Property theorems about formula construction, transformation and traversal (C01-C05, C07-C11).
    Statements only use the model ([Nnf], [Cnf], ...), the Tarskian semantics ([Semantics]) and the specification vocabulary
    ([FolSpec], [SubstSpec]). *)
From Verif Require Import Base Syntax Semantics FolSpec SubstSpec Build Nnf Cnf NegBuiltin Subst QElim FreeVars.
From Verif Require Import SemLemmas BuildProofs NnfProofs CnfProofs NegBuiltinProofs SubstProofs FreeVarsProofs QElimProofs.
#[local] Open Scope string_scope.

(** Example vocabulary for the non-vacuity checks and witnesses. *)
Definition x_ : term := Var "x" "object".
Definition y_ : term := Var "y" "object".
Definition c_ : term := Cst (CStr "c") "object".
Definition d_ : term := Cst (CStr "d") "object".
Definition P_ (t : term) : formula := Atom (PU "p" ["object"]) [t].
Definition Q_ (t : term) : formula := Atom (PU "q" ["object"]) [t].
Definition R_ (t u : term) : formula := Atom (PU "r" ["object"; "object"]) [t; u].
Definition eq_ (t u : term) : formula := Atom (PB PEq) [t; u].
(** A two-element structure over booleans; c = true, d = false; p = {true}, q = {false}, r = equality. *)
Definition M2 : structure :=
  {| carrier := bool; dom := fun _ => [true; false];
     cint := fun c _ => match c with CStr "c" => true | _ => false end;
     fint := fun _ _ => true;
     pint := fun p l => match p, l with
                        | PU "p" _, [a] => a
                        | PU "q" _, [a] => negb a
                        | PU "r" _, [a; b] => Bool.eqb a b
                        | PB PEq, [a; b] => Bool.eqb a b
                        | PB PNe, [a; b] => negb (Bool.eqb a b)
                        | PB PLt, [a; b] => andb (negb a) b
                        | PB PGe, [a; b] => negb (andb (negb a) b)
                        | PB PLe, [a; b] => implb a b
                        | PB PGt, [a; b] => negb (implb a b)
                        | _, _ => false
                        end |}.
Definition e2 : env M2 := fun _ => true.

(** ** C01 *)
(** Full claim: to_negation_normal_form always returns an equivalent formula in NNF. Proved for every well-formed formula
    in which no truth constant is under an odd number of negations; exactly on the others the result is not a formula. *)
Theorem C01_nnf_equivalent : forall f, wf f = true -> has_negated_constant f = false ->
  exists g, to_negation_normal_form f = Ok g /\ is_nnf g = true /\ wf g = true /\ equivalent f g.
Proof.
  intros f Hw Hn. destruct (nnf_ok_iff f false Hw) as [H _]. apply H in Hn as [g Hg].
  exists g. destruct (nnf_correct f false g Hw Hg) as (A & B & C & _). repeat split; auto. intros M e. now rewrite A.
Qed.
Print Assumptions C01_nnf_equivalent.
Theorem C01_nnf_result_not_a_formula : forall f, wf f = true -> has_negated_constant f = true ->
  to_negation_normal_form f = Err NotAFormula.
Proof.
  intros f Hw Hn. destruct (nnf_ok_iff f false Hw) as [H E]. unfold to_negation_normal_form.
  destruct (nnf false f) as [g|e] eqn:G; [|now rewrite (E e eq_refl)].
  unfold has_negated_constant in Hn. assert (negated_constant_at false f = false) by (apply H; eauto). congruence.
Qed.
Print Assumptions C01_nnf_result_not_a_formula.
(** Witness: the negation of the tautology. *)
Theorem C01_nnf_refuted : exists f, wf f = true /\ ~ (exists g, to_negation_normal_form f = Ok g).
Proof. exists (Comp Not [Top]). split; [reflexivity|]. intros [g H]. discriminate. Qed.
Print Assumptions C01_nnf_refuted.
Example C01_nonvacuous :
  let f := Comp Not [Quant QAll [x_] (Comp Or [P_ x_; Comp Not [Comp And [Q_ x_; R_ x_ c_; Top]]; Comp Not [Comp Not [P_ c_]]])] in
  wf f = true /\ has_negated_constant f = false /\ has_negated_constant (Comp Not [f]) = true /\
  to_negation_normal_form (Comp Not [Quant QAll [x_] (Comp And [P_ x_; Comp Not [Q_ x_]])]) =
    Ok (Quant QEx [x_] (Comp Or [Comp Not [P_ x_]; Q_ x_])).
Proof. vm_compute. repeat split. Qed.

(** ** C02 *)
Theorem C02_nnf_idempotent : forall f, wf f = true -> is_nnf f = true -> to_negation_normal_form f = Ok f.
Proof. intros f _ H. exact (nnf_id f H). Qed.
Print Assumptions C02_nnf_idempotent.
Theorem C02_nnf_twice : forall f g, wf f = true -> to_negation_normal_form f = Ok g -> to_negation_normal_form g = Ok g.
Proof. intros f g Hw H. apply nnf_id. now destruct (nnf_correct f false g Hw H) as (_ & A & _). Qed.
Print Assumptions C02_nnf_twice.
Theorem C02_nnf_same_atoms : forall f g, wf f = true -> to_negation_normal_form f = Ok g -> atoms_of g = atoms_of f.
Proof. intros f g Hw H. now destruct (nnf_correct f false g Hw H) as (_ & _ & _ & A). Qed.
Print Assumptions C02_nnf_same_atoms.
Example C02_nonvacuous :
  let f := Comp Not [Comp And [P_ c_; Comp Not [Q_ c_]; Quant QAll [x_] (R_ x_ c_)]] in
  exists g, wf f = true /\ to_negation_normal_form f = Ok g /\ is_nnf g = true /\ atoms_of g = [P_ c_; Q_ c_; R_ x_ c_].
Proof. eexists. vm_compute. repeat split. Qed.

(** ** C03 *)
(** Restriction: no truth constant under an odd number of negations (C01). *)
Theorem C03_cnf_equivalent : forall f, wf f = true -> has_negated_constant f = false -> has_quantifier f = false ->
  exists g, to_conjunctive_normal_form f = Ok g /\ is_cnf g = true /\ equivalent f g.
Proof.
  intros f Hw Hn Hq. destruct (to_cnf_correct f Hw Hn) as [_ H]. destruct (H Hq) as (g & A & B & C).
  exists g. repeat split; auto. now apply bcnf_is_cnf.
Qed.
Print Assumptions C03_cnf_equivalent.
Theorem C03_cnf_rejects_quantifiers : forall f, wf f = true -> has_negated_constant f = false -> has_quantifier f = true ->
  to_conjunctive_normal_form f = Err TransformationError.
Proof. intros f Hw Hn Hq. destruct (to_cnf_correct f Hw Hn) as [H _]. exact (H Hq). Qed.
Print Assumptions C03_cnf_rejects_quantifiers.
Theorem C03_cnf_refuted : exists f, wf f = true /\ has_quantifier f = false /\ ~ (exists g, to_conjunctive_normal_form f = Ok g).
Proof. exists (Comp Or [P_ c_; Comp Not [Bot]]). repeat split. intros [g H]. vm_compute in H. discriminate. Qed.
Print Assumptions C03_cnf_refuted.
Example C03_nonvacuous :
  let f := Comp Not [Comp And [Comp Or [P_ c_; Q_ c_; P_ d_]; Comp Not [Comp And [P_ c_; Q_ d_]]]] in
  wf f = true /\ has_negated_constant f = false /\ has_quantifier f = false /\
  is_cnf f = false /\ is_ok (to_conjunctive_normal_form f) = true.
Proof. vm_compute. repeat split. Qed.

(** ** C04 *)
(** Full claim: the clause list is equivalent to the formula. It holds whenever the CNF has at least two clauses. *)
Theorem C04_clauses : forall f g fs, wf f = true -> to_conjunctive_normal_form f = Ok g -> g = Comp And fs ->
  exists cls, to_conjunctive_normal_form_clauses f = Ok cls /\
    (forall cl l, In cl cls -> In l cl -> is_literal_or_constant l = true) /\
    forall M e, clauses_true M e cls = fsem M f e.
Proof.
  intros f g fs Hw Hg ->. destruct (to_clauses_correct f _ Hw Hg) as (cls & A & B & C). exists cls. auto.
Qed.
Print Assumptions C04_clauses.
(** When the CNF is a single clause the returned list is empty, i.e. it denotes truth. *)
Theorem C04_single_clause_lost : forall f g, wf f = true -> to_conjunctive_normal_form f = Ok g -> is_and g = false ->
  to_conjunctive_normal_form_clauses f = Ok [].
Proof.
  intros f g Hw Hg Ha. destruct (to_clauses_correct f g Hw Hg) as (cls & A & B & C).
  unfold is_and in Ha. destruct g as [| | |[]|]; try discriminate; simpl in C; now subst.
Qed.
Print Assumptions C04_single_clause_lost.
Theorem C04_clauses_refuted : exists f cls M e, wf f = true /\ has_negated_constant f = false /\ has_quantifier f = false /\
  to_conjunctive_normal_form_clauses f = Ok cls /\ clauses_true M e cls <> fsem M f e.
Proof. exists (Comp Or [Q_ c_; P_ d_]), [], M2, e2. vm_compute. repeat split. discriminate. Qed.
Print Assumptions C04_clauses_refuted.
Example C04_nonvacuous : exists g fs, to_conjunctive_normal_form (Comp Or [Comp And [P_ c_; Q_ c_]; Comp Not [P_ d_]]) = Ok g /\ g = Comp And fs.
Proof. eexists. eexists. vm_compute. split; reflexivity. Qed.

(** ** C05 *)
(** Full claim: NegatedBuiltinAbsorption preserves meaning. Holds when every conjunction/disjunction has two members; the code
    drops the members beyond the second. *)
Theorem C05_absorption : forall f, wf f = true -> binary f = true -> builtin_binary f = true ->
  exists g, absorb f = Ok g /\ forall M e, standard_comparisons M -> fsem M g e = fsem M f e.
Proof. exact absorb_correct. Qed.
Print Assumptions C05_absorption.
Theorem C05_absorption_refuted : exists f g M e, wf f = true /\ builtin_binary f = true /\ standard_comparisons M /\
  absorb f = Ok g /\ fsem M g e <> fsem M f e.
Proof.
  exists (Comp And [P_ c_; P_ c_; P_ d_]), (Comp And [P_ c_; P_ c_]), M2, e2.
  split; [reflexivity|]. split; [reflexivity|]. split; [intros [] []; vm_compute; auto|]. split; [reflexivity|]. vm_compute. discriminate.
Qed.
Print Assumptions C05_absorption_refuted.
Example C05_nonvacuous :
  let f := Comp And [Comp Not [eq_ c_ d_]; Quant QEx [x_] (Comp Or [Comp Not [Atom (PB PLt) [x_; c_]]; P_ x_])] in
  wf f = true /\ binary f = true /\ builtin_binary f = true /\ standard_comparisons M2 /\
  absorb f = Ok (Comp And [Atom (PB PNe) [c_; d_]; Quant QEx [x_] (Comp Or [Atom (PB PGe) [x_; c_]; P_ x_])]).
Proof. repeat split; intros [] []; vm_compute; auto. Qed.

(** ** C07 *)
(** The quantifiers each mode asks to remove, as documented for [QuantifierEliminationMode]
    (quantifier_elimination.py:15-19), independently of the tests in the code. *)
Definition requested (m : qmode) (q : quant) : bool :=
  match m with
  | MAll => match q with QAll => true | QEx => true end
  | MForall => match q with QAll => true | QEx => false end
  | MExists => match q with QAll => false | QEx => true end
  end.
Lemma requested_eliminated m : requested m = eliminated m.
Proof. destruct m; reflexivity. Qed.
(** Restriction: no variable is bound again inside the scope of a quantifier binding it. [D] gives the constants of each sort
    ([None]: built-in sort). *)
Theorem C07_quantifier_elimination : forall D m f,
  constants_only D -> wf f = true -> no_shadowing f = true ->
  (forall s, In s (quantified_sorts (requested m) f) -> exists c cs, D s = Some (c :: cs)) ->
  exists g, remove_quantifiers D m f = Ok g /\ wf g = true /\ has_quantifier_in (requested m) g = false /\
    forall M e, respects D M -> fsem M g e = fsem M f e.
Proof.
  intros D m f HD Hw Hn Hs. pose proof (remove_quantifiers_correct D m f HD Hw Hn) as H. rewrite requested_eliminated in *.
  destruct (remove_quantifiers D m f) as [g|e]; cbn [qe_result] in H.
  - destruct H as (A & B & _ & C). exists g. auto.
  - destruct H as [(_ & s & Hin & E)|(_ & s & Hin & E)]; destruct (Hs s Hin) as (c & cs & E'); congruence.
Qed.
Print Assumptions C07_quantifier_elimination.
Theorem C07_empty_sort_raises : forall D m f,
  constants_only D -> wf f = true -> no_shadowing f = true ->
  (forall s, In s (quantified_sorts (requested m) f) -> D s <> None) ->
  (exists s, In s (quantified_sorts (requested m) f) /\ D s = Some []) ->
  remove_quantifiers D m f = Err TransformationError.
Proof.
  intros D m f HD Hw Hn Hs (s & Hin & E). pose proof (remove_quantifiers_correct D m f HD Hw Hn) as H. rewrite requested_eliminated in *.
  destruct (remove_quantifiers D m f) as [g|e]; cbn [qe_result] in H.
  - destruct H as (_ & _ & A & _). destruct (A s Hin) as (c & cs & E'). congruence.
  - destruct H as [(-> & _)|(_ & r & Hr & E')]; [reflexivity|]. exfalso. exact (Hs r Hr E').
Qed.
Print Assumptions C07_empty_sort_raises.
(** A quantifier over a built-in sort can never be eliminated. *)
Theorem C07_builtin_sort_raises : forall D m f,
  constants_only D -> wf f = true -> no_shadowing f = true ->
  (exists s, In s (quantified_sorts (requested m) f) /\ D s = None) ->
  remove_quantifiers D m f = Err UnableToGroundError \/ remove_quantifiers D m f = Err TransformationError.
Proof.
  intros D m f HD Hw Hn (s & Hin & E). pose proof (remove_quantifiers_correct D m f HD Hw Hn) as H. rewrite requested_eliminated in *.
  destruct (remove_quantifiers D m f) as [g|e]; cbn [qe_result] in H.
  - destruct H as (_ & _ & A & _). destruct (A s Hin) as (c & cs & E'). congruence.
  - destruct H as [(-> & _)|(-> & _)]; auto.
Qed.
Print Assumptions C07_builtin_sort_raises.
Definition D2 : domains := fun s => if String.eqb s "object" then Some [c_; d_] else None.
(** With a rebound variable the result is wrong: forall x (p(x) or exists x q(x)), eliminating forall only. The inner binder is
    replaced by a constant, so the inner formula is no longer a quantification. *)
Theorem C07_quantifier_elimination_refuted : exists D m f g M e, constants_only D /\ wf f = true /\
  (forall s, In s (quantified_sorts (requested m) f) -> exists c cs, D s = Some (c :: cs)) /\
  respects D M /\ remove_quantifiers D m f = Ok g /\ (fsem M g e <> fsem M f e \/ wf g = false) .
Proof.
  exists D2, MForall, (Quant QAll [x_] (Comp Or [P_ x_; Quant QEx [x_] (Q_ x_)])).
  eexists. exists M2, e2.
  split; [|split; [reflexivity|split; [|split; [|split; [vm_compute; reflexivity|]]]]].
  - intros s cs t. unfold D2. destruct (String.eqb s "object"); intros H; inversion H; subst.
    intros [<-|[<-|[]]]; unfold c_, d_; eauto.
  - intros s H. vm_compute in H. destruct H as [<-|[]]. vm_compute. eauto.
  - intros s cs d. unfold D2. destruct (String.eqb s "object"); intros H; inversion H; subst. split.
    + intros _. destruct d; [exists (CStr "c"), "object" | exists (CStr "d"), "object"]; split; try reflexivity; simpl; auto.
    + intros _. simpl. destruct d; auto.
  - right. reflexivity.
Qed.
Print Assumptions C07_quantifier_elimination_refuted.
(** A wrong truth value, when all quantifiers are eliminated:  exists x (p(x) and exists x q(x)) is true in M2, but after the
    outer expansion the inner body has become q(c), resp. q(d), instead of exists x q(x). *)
Theorem C07_wrong_truth_value_refuted : exists f g, wf f = true /\ remove_quantifiers D2 MAll f = Ok g /\ respects D2 M2 /\
  fsem M2 g e2 <> fsem M2 f e2.
Proof.
  exists (Quant QEx [x_] (Comp And [P_ x_; Quant QEx [x_] (Q_ x_)])). eexists.
  split; [reflexivity|]. split; [vm_compute; reflexivity|]. split; [|vm_compute; discriminate].
  intros s cs d. unfold D2. destruct (String.eqb s "object"); intros H; inversion H; subst. split.
  + intros _. destruct d; [exists (CStr "c"), "object" | exists (CStr "d"), "object"]; split; try reflexivity; simpl; auto.
  + intros _. simpl. destruct d; auto.
Qed.
Print Assumptions C07_wrong_truth_value_refuted.
Example C07_nonvacuous :
  let f := Quant QAll [x_] (Comp Or [P_ x_; Quant QEx [y_] (R_ x_ y_)]) in
  wf f = true /\ no_shadowing f = true /\ quantified_sorts (requested MAll) f = ["object"; "object"] /\
  remove_quantifiers D2 MAll f = Ok (Comp And [Comp Or [P_ c_; Comp Or [R_ c_ c_; R_ c_ d_]]; Comp Or [P_ d_; Comp Or [R_ d_ c_; R_ d_ d_]]]).
Proof. vm_compute. repeat split. Qed.

(** ** C08 *)
(** [of_vars s] is the Python dict mapping (references to) the variables of [s] to terms. *)
Theorem C08_substitution_lemma : forall s f, no_clash (binders f) s = true ->
  forall M (e : env M), fsem M (subst_formula (of_vars s) f) e = fsem M f (env_subst s e).
Proof. intros s f H M e. exact (subst_lemma M s f e H). Qed.
Print Assumptions C08_substitution_lemma.
Theorem C08_substitution_lemma_terms : forall s t, no_clash (binders_t t) s = true ->
  forall M (e : env M), tsem M (subst_term (of_vars s) t) e = tsem M t (env_subst s e).
Proof. intros s t H M e. exact (subst_lemma_t M s t e H). Qed.
Print Assumptions C08_substitution_lemma_terms.
(** Every free occurrence is replaced: the free variables of the result are exactly those of the replacing terms of free
    variables, plus the free variables that are not replaced. *)
Theorem C08_free_occurrences_replaced : forall s f y, no_clash (binders f) s = true ->
  (free_in y (subst_formula (of_vars s) f) = true <->
   exists x, free_in x f = true /\ match lookup s x with Some t => free_in_t y t = true | None => x = y end).
Proof. intros s f y H. exact (free_in_subst s f y H). Qed.
Print Assumptions C08_free_occurrences_replaced.
(** Variable capture, and substitution of bound occurrences. *)
Theorem C08_capture_refuted : exists s f M e, wf f = true /\ fsem M (subst_formula (of_vars s) f) e <> fsem M f (env_subst s e).
Proof.
  exists [(("x", "object"), y_)], (Quant QAll [y_] (R_ x_ y_)), M2, e2. split; [reflexivity|]. vm_compute. discriminate.
Qed.
Print Assumptions C08_capture_refuted.
Theorem C08_bound_occurrence_refuted : exists s f, wf f = true /\ free_in ("x", "object") f = false /\
  wf (subst_formula (of_vars s) f) = false /\ exists M e, fsem M (subst_formula (of_vars s) f) e <> fsem M f (env_subst s e).
Proof.
  exists [(("x", "object"), c_)], (Quant QAll [x_] (P_ x_)). repeat split. exists M2, e2. vm_compute. discriminate.
Qed.
Print Assumptions C08_bound_occurrence_refuted.
Example C08_nonvacuous :
  let f := Quant QEx [y_] (Comp And [R_ x_ y_; P_ (App (FU "f" ["object"] "object") [x_])]) in
  no_clash (binders f) [(("x", "object"), c_); (("z", "object"), x_)] = true /\
  subst_formula (of_vars [(("x", "object"), c_); (("z", "object"), x_)]) f =
    Quant QEx [y_] (Comp And [R_ c_ y_; P_ (App (FU "f" ["object"] "object") [c_])]).
Proof. vm_compute. repeat split. Qed.

(** ** C09 *)
(** Restriction: no if-then-else, no rebinding of a variable in scope, no variable listed twice in one quantifier. *)
Theorem C09_free_variables : forall f, wf f = true -> ite_free f = true -> no_rebinding [] f = true ->
  exists l, free_variables f = Ok l /\ NoDup l /\
    forall t, In t l <-> exists x s, t = Var x s /\ free_in (x, s) f = true.
Proof.
  intros f Hw Hi Hr. pose proof (free_variables_spec f Hw) as H. destruct (free_variables f) as [l|e].
  - destruct H as (_ & A & B & C). exists l. split; [auto|]. split; [auto|]. intros t. split.
    + intros Ht. destruct (B t Ht) as ([x s] & -> & Hx). exists x, s. auto.
    + intros (x & s & -> & Hx). exact (C Hi (x, s) Hx).
  - destruct H. congruence.
Qed.
Print Assumptions C09_free_variables.
(** Never reports a variable without a free occurrence, in any well-formed formula. *)
Theorem C09_free_variables_sound : forall f l, wf f = true -> free_variables f = Ok l ->
  NoDup l /\ forall t, In t l -> exists x s, t = Var x s /\ free_in (x, s) f = true.
Proof.
  intros f l Hw E. pose proof (free_variables_spec f Hw) as H. rewrite E in H. destruct H as (_ & A & B & _).
  split; [auto|]. intros t Ht. destruct (B t Ht) as ([x s] & -> & Hx). exists x, s. auto.
Qed.
Print Assumptions C09_free_variables_sound.
(** Truth depends on the reported variables only. *)
Theorem C09_truth_depends_on_free_variables : forall f l, wf f = true -> ite_free f = true -> free_variables f = Ok l ->
  forall M (e e' : env M), (forall x s, In (Var x s) l -> e (x, s) = e' (x, s)) -> fsem M f e = fsem M f e'.
Proof.
  intros f l Hw Hi E M e e' H. pose proof (free_variables_spec f Hw) as Hs. rewrite E in Hs. destruct Hs as (_ & _ & _ & C).
  apply fsem_coincidence. intros [x s] Hx. apply H. exact (C Hi (x, s) Hx).
Qed.
Print Assumptions C09_truth_depends_on_free_variables.
(** The exact set of formulas on which free_variables raises (KeyError). *)
Theorem C09_free_variables_raises_iff : forall f, wf f = true ->
  (free_variables f = Err KeyError <-> no_rebinding [] f = false).
Proof.
  intros f Hw. pose proof (free_variables_spec f Hw) as H. destruct (free_variables f) as [l|e].
  - destruct H as [H _]. split; [discriminate|congruence].
  - destruct H as [-> H]. tauto.
Qed.
Print Assumptions C09_free_variables_raises_iff.
Theorem C09_free_variables_refuted :
  (exists f, wf f = true /\ free_variables f = Err KeyError) /\
  (exists f l x s, wf f = true /\ free_variables f = Ok l /\ free_in (x, s) f = true /\ ~ In (Var x s) l).
Proof.
  split.
  - exists (Quant QAll [x_] (Comp And [P_ x_; Quant QEx [x_] (Q_ x_)])). split; reflexivity.
  - exists (P_ (Ite (P_ x_) c_ d_)), [], "x", "object". repeat split. intros [].
Qed.
Print Assumptions C09_free_variables_refuted.
Example C09_nonvacuous :
  let f := Comp And [R_ x_ y_; Quant QAll [x_] (Quant QEx [Var "z" "object"] (Comp Or [P_ x_; R_ y_ (Var "z" "object")])); Quant QEx [x_] (P_ x_)] in
  wf f = true /\ ite_free f = true /\ no_rebinding [] f = true /\ free_variables f = Ok [x_; y_].
Proof. vm_compute. repeat split. Qed.

(** ** C10 *)
Theorem C10_flatten : forall f, wf f = true ->
  exists g, flatten f = Ok g /\ wf g = true /\ equivalent f g /\ flatten g = Ok g /\
    match g with
    | Comp And gs => Forall (fun h => forall hs, h <> Comp And hs) gs
    | Comp Or gs => Forall (fun h => forall hs, h <> Comp Or hs) gs
    | _ => True
    end.
Proof.
  intros f Hw. destruct (flatten_correct f Hw) as (g & A & B & C & D & E). exists g. repeat split; auto.
  destruct g as [| | |[]|]; auto.
  - refine (Forall_impl _ _ D). intros h Hh hs ->. discriminate.
  - refine (Forall_impl _ _ D). intros h Hh hs ->. discriminate.
Qed.
Print Assumptions C10_flatten.
Example C10_nonvacuous :
  let f := Comp Or [P_ c_; Comp Or [Q_ c_; Comp And [P_ d_; Comp And [Q_ d_; P_ c_]]]; Comp Or [P_ d_; Q_ d_]] in
  wf f = true /\ flatten f = Ok (Comp Or [P_ c_; Q_ c_; Comp And [P_ d_; Comp And [Q_ d_; P_ c_]]; P_ d_; Q_ d_]).
Proof. vm_compute. repeat split. Qed.

(** ** C11 *)
Theorem C11_land : forall args flat, Forall (fun f => wf f = true) args ->
  exists g, land args flat = Ok g /\ wf g = true /\ forall M e, fsem M g e = forallb (fun f => fsem M f e) args.
Proof. exact land_correct. Qed.
Print Assumptions C11_land.
Theorem C11_lor : forall args flat, Forall (fun f => wf f = true) args ->
  exists g, lor args flat = Ok g /\ wf g = true /\ forall M e, fsem M g e = existsb (fun f => fsem M f e) args.
Proof. exact lor_correct. Qed.
Print Assumptions C11_lor.
Theorem C11_neg_implies_equiv : forall f g, wf f = true -> wf g = true ->
  (exists h, neg f = Ok h /\ wf h = true /\ forall M e, fsem M h e = negb (fsem M f e)) /\
  (exists h, implies f g = Ok h /\ wf h = true /\ forall M e, fsem M h e = implb (fsem M f e) (fsem M g e)) /\
  (exists h, equiv f g = Ok h /\ wf h = true /\ forall M e, fsem M h e = Bool.eqb (fsem M f e) (fsem M g e)).
Proof. intros f g Hf Hg. split; [exact (neg_correct f Hf)|]. split; [exact (implies_correct f g Hf Hg) | exact (equiv_correct f g Hf Hg)]. Qed.
Print Assumptions C11_neg_implies_equiv.
(** forall/exists accept exactly one or more variables followed by a formula. *)
Theorem C11_quantified : forall q args g,
  quantified q args = Ok g <->
  exists xs f, xs <> [] /\ forallb is_var xs = true /\ args = (map ATerm xs ++ [AForm f])%list /\ g = Quant q xs f.
Proof. exact quantified_iff. Qed.
Print Assumptions C11_quantified.
Theorem C11_quantified_rejects : forall q args, (forall g, quantified q args <> Ok g) -> quantified q args = Err LanguageError.
Proof.
  intros q args H. destruct (quantified q args) as [g|e] eqn:E; [exfalso; exact (H g eq_refl)|]. now rewrite (quantified_err q args e E).
Qed.
Print Assumptions C11_quantified_rejects.
Example C11_nonvacuous :
  land [P_ c_; Q_ c_; P_ d_] false = Ok (Comp And [P_ c_; Comp And [Q_ c_; P_ d_]]) /\
  land [P_ c_; Q_ c_; P_ d_] true = Ok (Comp And [P_ c_; Q_ c_; P_ d_]) /\
  quantified QAll [ATerm x_; ATerm y_; AForm (R_ x_ y_)] = Ok (Quant QAll [x_; y_] (R_ x_ y_)) /\
  quantified QAll [ATerm c_; AForm (P_ c_)] = Err LanguageError.
Proof. vm_compute. repeat split. Qed.
