From Verif Require Import ListUtil Base Syntax Semantics SemLemmas FolSpec SubstSpec SubstProofs Build BuildProofs NnfProofs Subst QElim QElimProofs NegBuiltin NegBuiltinProofs Nnf Cnf PropsFol PropsFol2 Effects NaiveGround NaiveGroundSpec NaiveGroundProofs LpGroundProofs3.
From Coq Require Import Permutation.

Lemma absorb_form f : constraint_form f = true -> has_quantifier f = false -> forall g, absorb f = Ok g -> constraint_form g = true /\ has_quantifier g = false.
Proof.
  induction f as [| |p ts|c fs IH|q vs f IH] using formula_ind_simple; intros H Q g E; try discriminate H; try discriminate Q; [injection E as <-; auto|].
  apply form_cases in H as [(p & ts & X)|[(g1 & X & G)|[(d & g1 & g2 & Hd & X & G & H)|(ws & g1 & X & L & V & G)]]]; try discriminate X; injection X as -> ->.
  - cbn in E. assert (Z : Ok (Comp Not [g1]) = Ok g -> constraint_form g = true /\ has_quantifier g = false) by (intros [= <-]; auto).
    destruct g1 as [| |[b|] ts|c fs|q vs h]; auto. unfold negate_builtin_atom in E. destruct ts as [|l [|r [|]]]; try discriminate. injection E as <-. exact (conj G eq_refl).
  - cbn in Q. rewrite orb_false_r in Q. apply orb_false_iff in Q as [Q1 Q2]. inversion IH as [|? ? I1 IH2]; subst. inversion IH2 as [|? ? I2 _]; subst.
    assert (E' : (let! a' := absorb g1 in let! b' := absorb g2 in Ok (Comp d [a'; b'])) = Ok g) by (destruct Hd as [-> | ->]; exact E). clear E.
    destruct (absorb g1) as [a|]; [|discriminate]. cbn [bind] in E'. destruct (absorb g2) as [b|]; [|discriminate]. injection E' as <-. destruct (I1 G Q1 _ eq_refl) as [A1 A2]. destruct (I2 H Q2 _ eq_refl) as [B1 B2].
    cbn [has_quantifier existsb]. rewrite A2, B2. split; [|reflexivity]. destruct Hd as [-> | ->]; cbn; now rewrite A1, B1.
Qed.
Lemma ground_constraint_correct f : constraint_form f = true -> has_quantifier f = false ->
  exists g, ground_constraint f = Ok g /\ is_cnf g = true /\ incl (occurring g) (occurring f) /\ forall M e, standard_comparisons M -> fsem M g e = fsem M f e.
Proof.
  intros H Q. destruct (form_facts f H) as (A1 & A2 & A3 & _ & _). destruct (C05_absorption f A1 A2 A3) as (h & Eh & Sh). destruct (absorb_form f H Q h Eh) as [B1 B2]. destruct (form_facts h B1) as (W & _ & _ & N & _).
  destruct (C03_cnf_equivalent h W (N false) B2) as (g & Eg & Cg & Sg). exists g. unfold ground_constraint. rewrite Eh. cbn [bind]. split; [destruct h as [| | | |[]]; try exact Eg; discriminate B2|]. split; [exact Cg|]. split.
  - unfold to_conjunctive_normal_form in Eg. unfold to_negation_normal_form in Eg. destruct (nnf false h) as [n|] eqn:En; [|discriminate]. cbn [bind] in Eg. intros y Hy. apply (absorb_occurring f h Eh). rewrite <- (nnf_occurring h false n En). exact (cnf_occurring n g Eg y Hy).
  - intros M e SM. rewrite <- Sh by auto. symmetry. apply Sg.
Qed.

(** * The index *)
Section Index.
Variable eqb : formula -> formula -> bool.
Definition add_all : list formula -> list formula -> res (list formula) := fix go gs index := match gs with [] => Ok index | g :: r => let! index' := index_add eqb index g in go r index' end.
Lemma instances_add c vars (h : list term -> formula) values index : (forall v, In v values -> (let! s := create_substitution vars v in ground_constraint (subst_formula s c)) = Ok (h v)) ->
  ground_instances eqb c vars values index = add_all (map h values) index.
Proof.
  revert index. induction values as [|v r IH]; intros index H; [reflexivity|]. cbn [ground_instances map add_all]. specialize (H v (or_introl eq_refl)) as Hv. destruct (create_substitution vars v) as [s|]; [|discriminate]. cbn [bind] in *. rewrite Hv. cbn [bind].
  destruct (index_add eqb index (h v)); [|reflexivity]. cbn [bind]. apply IH. intros w Hw. apply H. now right.
Qed.
Lemma add_all_app a b index : add_all (a ++ b) index = let! i := add_all a index in add_all b i.
Proof. revert index. induction a as [|g a IH]; intros index; [reflexivity|]. cbn [app add_all]. destruct (index_add eqb index g); [|reflexivity]. cbn [bind]. apply IH. Qed.
Lemma add_all_cases gs index : match add_all gs index with Ok r => r = (index ++ gs)%list | Err e => e = DuplicateDefinition end.
Proof.
  revert index. induction gs as [|g gs IH]; intros index; cbn [add_all]; [now rewrite app_nil_r|]. unfold index_add. destruct (existsb _ index); cbn [bind]; [reflexivity|]. specialize (IH (index ++ [g])%list). destruct (add_all gs _); [|exact IH]. now rewrite <- app_assoc in IH.
Qed.
Lemma add_all_distinct gs index : (forall f g, eqb f g = true -> f = g) -> NoDup (index ++ gs) -> add_all gs index = Ok (index ++ gs)%list.
Proof.
  intros Hs. revert index. induction gs as [|g gs IH]; intros index N; cbn [add_all]; [now rewrite app_nil_r|]. unfold index_add. destruct (existsb _ index) eqn:E; cbn [bind].
  - exfalso. apply existsb_exists in E as (h & Hh & E). apply Hs in E. subst h. apply NoDup_remove_2 in N. apply N. apply in_or_app. auto.
  - rewrite IH; [now rewrite <- app_assoc|]. now rewrite <- app_assoc.
Qed.
Lemma add_all_repeated gs index : (forall f, eqb f f = true) -> NoDup index -> ~ NoDup (index ++ gs) -> add_all gs index = Err DuplicateDefinition.
Proof.
  intros Hr. revert index. induction gs as [|g gs IH]; intros index N1 N; cbn [add_all]; [rewrite app_nil_r in N; contradiction|]. unfold index_add. destruct (existsb _ index) eqn:E; cbn [bind]; [reflexivity|]. apply IH; [|now rewrite <- app_assoc].
  apply NoDup_app_iff_simple; [auto|repeat constructor; auto|]. intros h Hh [<-|[]]. enough (X : existsb (fun h => eqb h g) index = true) by congruence. apply existsb_exists. eauto.
Qed.
End Index.

(** * One constraint *)
Lemma cardinality_product inst : cardinality inst = List.length (product inst).
Proof.
  assert (X : forall l n, fold_left (fun n (cs : list term) => n * List.length cs) l n = n * List.length (product l)).
  { induction l as [|cs l IH]; intros n; [cbn; lia|]. cbn [fold_left]. rewrite IH. cbn [product]. rewrite <- Nat.mul_assoc. f_equal. clear. induction cs as [|c cs IH]; [reflexivity|]. cbn [flat_map List.length]. rewrite app_length, map_length, <- IH. lia. }
  unfold cardinality. rewrite X. lia.
Qed.
Lemma has_quantifier_subst s f : has_quantifier (subst_formula (of_vars s) f) = has_quantifier f.
Proof.
  induction f as [| |p ts|c fs IH|q vs f IH] using formula_ind_simple; rewrite subst_f_unfold; try reflexivity. cbn [has_quantifier]. induction IH as [|f fs H IH IHf]; [reflexivity|]. cbn. now rewrite H, IHf.
Qed.
Lemma all_variables_spec f x s : In (Var x s) (all_variables f) <-> In (x, s) (occurring f).
Proof. unfold all_variables. rewrite in_map_iff. split; [intros ([y r] & [= -> ->] & H); now apply nodup_In in H|]. intros H. exists (x, s). split; [reflexivity|]. now apply nodup_In. Qed.
Lemma all_variables_vars f t : In t (all_variables f) -> exists x s, t = Var x s.
Proof. unfold all_variables. intros H. apply in_map_iff in H as (v & <- & _). eauto. Qed.

Section One.
Variables (D : domains) (order : list term -> list term) (eqb : formula -> formula -> bool).
Hypothesis HD : constants_only D.
Hypothesis Ho : forall l, Permutation (order l) l.
Lemma constraint_instances c : groundable_constraint D c ->
  exists c' inst (h : list term -> formula), remove_quantifiers D MForall c = Ok c' /\ enumerate_groundings D (order (all_variables c')) = Ok inst /\
    (forall v, In v (product inst) -> (let! s := create_substitution (order (all_variables c')) v in ground_constraint (subst_formula s c')) = Ok (h v) /\ is_cnf (h v) = true /\ (forall y, free_in y (h v) = false)) /\
    forall M e, respects D M -> standard_comparisons M -> (forallb (fun g => fsem M g e) (map h (product inst)) = true <-> universally_true M c).
Proof.
  intros [Hf Hn Hb Hfr]. destruct (form_facts c Hf) as (W & _ & _ & _ & _).
  destruct (C07_quantifier_elimination D MForall c HD W Hn) as (c' & Ec & Wc & _ & Sc).
  { intros s Hs. apply Hb. clear - Hs Hf. induction c as [| |p ts|k fs IH|q vs f IH] using formula_ind_simple; try exact Hs.
    - cbn [quantified_sorts] in *. apply in_flat_map in Hs as (g & Hg & Hs). apply in_flat_map. exists g. split; [auto|]. rewrite Forall_forall in IH. apply IH; auto. apply form_cases in Hf as [(p & ts & X)|[(g1 & X & G)|[(d & g1 & g2 & Hd & X & G & H)|(ws & g1 & X & L & V & G)]]]; try discriminate X; injection X as -> ->; [destruct Hg as [<-|[]]; auto|destruct Hg as [<-|[<-|[]]]; auto].
    - cbn [quantified_sorts] in *. destruct q; [discriminate|]. rewrite in_app_iff in *. destruct Hs as [Hs|Hs]; [auto|]. right. apply IH; auto. cbn [constraint_form] in Hf. apply andb_true_iff in Hf. tauto. }
  destruct (qe_form D HD (qdepth c) c c' Hf Hn Ec) as [Fc Frc].
  assert (Qc : has_quantifier c' = false). { clear - Fc Ec HD W Hn. pose proof (remove_quantifiers_correct D MForall c HD W Hn) as X. rewrite Ec in X. cbn [qe_result] in X. destruct X as (_ & X & _). clear - Fc X.
    induction c' as [| |p ts|k fs IH|q vs f IH] using formula_ind_simple; try reflexivity.
    - cbn [has_quantifier has_quantifier_in] in *. apply not_true_iff_false. intros Y. apply existsb_exists in Y as (g & Hg & Y). rewrite Forall_forall in IH. rewrite IH in Y; [discriminate|auto| |].
      + apply form_cases in Fc as [(p & ts & E)|[(g1 & E & G)|[(d & g1 & g2 & Hd & E & G & H)|(ws & g1 & E & L & V & G)]]]; try discriminate E; injection E as -> ->; [destruct Hg as [<-|[]]; auto|destruct Hg as [<-|[<-|[]]]; auto].
      + apply not_true_iff_false. intros Z. rewrite (proj2 (existsb_exists _ _)) in X; [discriminate|eauto].
    - destruct q; [discriminate Fc|]. discriminate X. }
  assert (Occ : forall y, In y (occurring c') <-> free_in y c = true) by (intros y; rewrite occurring_free by auto; apply Frc).
  set (vars := order (all_variables c')) in *.
  assert (Hin : forall t, In t vars <-> In t (all_variables c')). { intros t. split; apply Permutation_in; [apply Ho|apply Permutation_sym, Ho]. }
  assert (HV : forallb is_var vars = true). { apply forallb_forall. intros t Ht. apply Hin in Ht. apply all_variables_vars in Ht as (x & s & ->). reflexivity. }
  assert (Hvo : forall y, In y (vars_of vars) <-> free_in y c = true).
  { intros [x s]. rewrite <- Occ. unfold vars_of. rewrite in_flat_map, <- all_variables_spec, <- Hin. split; [intros (t & Ht & X); destruct t as [y r| | |]; [destruct X as [X|[]]; injection X as -> ->; exact Ht|destruct X|destruct X|destruct X]|]. intros H. exists (Var x s). split; [auto|now left]. }
  pose proof (enumerate_spec D vars HV) as HS. destruct (enumerate_groundings D vars) as [inst|e] eqn:EG.
  2:{ exfalso. destruct HS as (_ & s & Hs & E). apply in_map_iff in Hs as ([x r] & Er & Hx). cbn in Er. subst r. apply Hvo in Hx. exact (Hfr x s Hx E). }
  assert (Hlen : forall values, In values (product inst) -> List.length values = List.length vars). { intros values Hi. apply product_length in Hi. rewrite Hi. clear - HS. induction HS; simpl; auto. }
  assert (Hconst : forall values, In values (product inst) -> const_subst (rev (combine (vars_of vars) values))).
  { intros values Hi x t Hx. apply in_rev in Hx. apply in_combine_r in Hx. apply product_In in Hi. destruct (Forall2_In_l _ _ _ _ Hi Hx) as (cs & Hcs & Htc). destruct (Forall2_In_r _ _ _ _ HS Hcs) as (v & _ & y & s & -> & Hs). exact (HD s cs t Hs Htc). }
  assert (Nb : binders c' = []). { clear - Fc Qc. induction c' as [| |p ts|k fs IH|q vs f IH] using formula_ind_simple; try reflexivity; try discriminate.
    - cbn in Fc. apply andb_true_iff in Fc as [Fc _]. cbn. clear p Qc. induction ts as [|t ts IH]; [reflexivity|]. cbn in Fc |- *. apply andb_true_iff in Fc as [F1 F2]. rewrite (IH F2), app_nil_r. clear - F1. induction t as [x r|d r|f ts IH|] using term_ind_simple; try reflexivity; try discriminate.
      cbn in *. induction IH as [|t ts H IH IHt]; [reflexivity|]. cbn in *. apply andb_true_iff in F1 as [F1 F2]. now rewrite H, IHt.
    - cbn. assert (X : forall g, In g fs -> binders g = []).
      { intros g Hg. rewrite Forall_forall in IH. apply IH; auto.
        - apply form_cases in Fc as [(p & ts & E)|[(g1 & E & G)|[(d & g1 & g2 & Hd & E & G & H)|(ws & g1 & E & L & V & G)]]]; try discriminate E; injection E as -> ->; [destruct Hg as [<-|[]]; auto|destruct Hg as [<-|[<-|[]]]; auto].
        - cbn in Qc. apply not_true_iff_false. intros Z. rewrite (proj2 (existsb_exists _ _)) in Qc; [discriminate|eauto]. }
      clear - X. induction fs as [|g fs IH]; [reflexivity|]. cbn. rewrite X by now left. apply IH. intros h Hh. apply X. now right. }
  assert (Hnc : forall s, no_clash (binders c') s = true) by (intros s; rewrite Nb; reflexivity).
  set (sub := fun values => subst_formula (of_vars (rev (combine (vars_of vars) values))) c').
  assert (Hsub : forall values, In values (product inst) -> constraint_form (sub values) = true /\ has_quantifier (sub values) = false /\ occurring (sub values) = []).
  { intros values Hi. assert (X : constraint_form (sub values) = true) by (apply form_subst; auto). assert (Y : has_quantifier (sub values) = false) by (unfold sub; now rewrite has_quantifier_subst). split; [auto|]. split; [auto|].
    destruct (occurring (sub values)) as [|y l] eqn:Eo; [reflexivity|]. exfalso. assert (Z : In y (occurring (sub values))) by (rewrite Eo; now left). rewrite occurring_free in Z by auto. unfold sub in Z. rewrite free_in_subst in Z by auto. destruct Z as (x & Hx & Hl).
    destruct (lookup (rev (combine (vars_of vars) values)) x) as [t|] eqn:El; [apply lookup_In in El; destruct (Hconst values Hi _ _ El) as (k & r & ->); discriminate|]. subst x. revert El. intros El. apply (lookup_combine_none (vars_of vars) values y) in El; [|rewrite vars_of_length by auto; auto]. apply El. apply Hvo, Frc. exact Hx. }
  exists c', inst, (fun v => match ground_constraint (sub v) with Ok g => g | Err _ => Top end). split; [exact Ec|]. split; [exact EG|]. split; fold vars.
  - intros v Hv. rewrite create_substitution_ok by auto. cbn [bind]. change (subst_formula (of_vars (rev (combine (vars_of vars) v))) c') with (sub v). destruct (Hsub v Hv) as (X & Y & Z). destruct (ground_constraint_correct (sub v) X Y) as (g & Eg & Cg & Og & _). rewrite Eg. split; [reflexivity|]. split; [exact Cg|].
    intros y. apply occurring_none_t. rewrite Z in Og. destruct (occurring g) as [|z l]; [reflexivity|]. destruct (Og z (or_introl eq_refl)).
  - intros M e HM SM. rewrite forallb_map.
    assert (ES : forall v, In v (product inst) -> fsem M (match ground_constraint (sub v) with Ok g => g | Err _ => Top end) e = fsem M c (env_subst (rev (combine (vars_of vars) v)) e)).
    { intros v Hv. destruct (Hsub v Hv) as (X & Y & Z). destruct (ground_constraint_correct (sub v) X Y) as (g & Eg & _ & _ & Sg). rewrite Eg, Sg by auto. unfold sub. rewrite subst_lemma by auto. apply Sc. auto. }
    rewrite (forallb_ext_in _ _ _ ES), forallb_forall. split.
    + intros H e' He'. assert (P : exists v, In v (product inst) /\ forall x t, In (x, t) (combine (vars_of vars) v) -> tsem M t e = e' x).
      { assert (Hd : forall x, In x (vars_of vars) -> In (e' x) (dom M (snd x))) by (intros [x s] Hx; apply He'; now apply Hvo). clear - HS Hd HM HD HV. clearbody vars. induction HS as [|t cs ts inst (x & s & -> & Hs) HS IH]; [exists []; split; [now left|intros ? ? []]|]. cbn in HV.
        change (vars_of (Var x s :: ts)) with ((x, s) :: vars_of ts) in *. destruct IH as (v & Hv & Ev); [auto|intros y Hy; apply Hd; now right|]. specialize (Hd (x, s) (or_introl eq_refl)). cbn [snd] in Hd. apply (HM s cs _ Hs) in Hd as (k & r & Hk & Ek).
        exists (Cst k r :: v). split; [apply product_In; constructor; [exact Hk|now apply product_In]|]. intros y u [[= <- <-]|Hy]; [symmetry; exact Ek|auto]. }
      destruct P as (v & Hv & Ev). rewrite <- (H v Hv). symmetry. apply coincidence. intros y Hy. unfold env_subst. destruct (lookup (rev (combine (vars_of vars) v)) y) as [t|] eqn:El.
      * apply lookup_In, in_rev in El. apply Ev. exact El.
      * apply (lookup_combine_none (vars_of vars) v y) in El; [|rewrite vars_of_length by auto; auto]. exfalso. apply El. now apply Hvo.
    + intros H v Hv. apply H. intros x s Hx. unfold env_subst. destruct (lookup (rev (combine (vars_of vars) v)) (x, s)) as [t|] eqn:El.
      * apply lookup_In, in_rev in El. destruct (Hconst v Hv (x, s) t) as (k & r & ->); [now apply -> in_rev|].
        assert (Hc : exists cs, D s = Some cs /\ In (Cst k r) cs). { apply product_In in Hv. clear - HS Hv El HV. clearbody vars. revert v Hv El. induction HS as [|t cs ts inst (y & q & -> & Hs) HS IH]; intros v Hv El; [destruct El|]. inversion Hv as [|u ? v' ? Hu Hv']; subst. change (vars_of (Var y q :: ts)) with ((y, q) :: vars_of ts) in El. destruct El as [[= -> -> ->]|El]; [eauto|]. eapply IH; eauto. }
        destruct Hc as (cs & Hs & Hi). apply (HM s cs _ Hs). exists k, r. split; [exact Hi|reflexivity].
      * apply (lookup_combine_none (vars_of vars) v (x, s)) in El; [|rewrite vars_of_length by auto; auto]. exfalso. apply El. now apply Hvo.
Qed.
Lemma calculate_constraints_spec cs : Forall (groundable_constraint D) cs -> exists gs, (forall index n, calculate_constraints D order eqb cs (index, n) = let! i := add_all eqb gs index in Ok (i, n + List.length gs)) /\
  Forall (fun g => is_cnf g = true /\ forall y, free_in y g = false) gs /\ forall M e, respects D M -> standard_comparisons M -> (forallb (fun g => fsem M g e) gs = true <-> forall c, In c cs -> universally_true M c).
Proof.
  intros HF. induction HF as [|c cs H HF (gs & E & P & S)].
  - exists []. split; [intros index n; cbn; now rewrite Nat.add_0_r|]. split; [constructor|]. intros M e _ _. cbn. split; [intros _ c []|auto].
  - destruct (constraint_instances c H) as (c' & inst & h & E1 & E2 & E3 & E4). exists (map h (product inst) ++ gs)%list. split; [|split].
    + intros index n. cbn [calculate_constraints]. rewrite E1. cbn [bind]. rewrite E2. cbn [bind fst snd]. rewrite (instances_add eqb c' _ h) by (intros v Hv; apply E3; auto). rewrite add_all_app. destruct (add_all eqb (map h (product inst)) index) as [i|]; [|reflexivity]. cbn [bind]. rewrite E. rewrite app_length, map_length, cardinality_product, Nat.add_assoc. reflexivity.
    + apply Forall_app. split; [|exact P]. apply Forall_forall. intros g Hg. apply in_map_iff in Hg as (v & <- & Hv). destruct (E3 v Hv) as (_ & A & B). auto.
    + intros M e HM SM. rewrite forallb_app, andb_true_iff, (E4 M e HM SM), (S M e HM SM). split; [intros [A B] d [<-|Hd]; auto|]. intros X. split; [apply X; now left|intros d Hd; apply X; now right].
Qed.
End One.
