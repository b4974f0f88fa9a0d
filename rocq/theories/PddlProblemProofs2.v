(** The same can be read in languages that agree *)
From Coq Require Import Permutation FinFun.
From Verif Require Import Base Syntax SemLemmas ListUtil PropsFol2 ModelState ModelProofs Lang LangSpec LangProofs LangProofs2 LangProofs3 Effects Represent Costs PddlText PddlRead PddlSpec PddlProofs PddlProofs2
  PddlAction PddlActionSpec PddlProblem PddlProblemSpec PddlProblemProofs.
Local Open Scope string_scope.

Record agree (l l' : plang) : Prop := {
  ag_const : forall n, pl_const l' n = pl_const l n;
  ag_pred : forall n, pl_pred l' n = pl_pred l n;
  ag_fun : forall n, pl_fun l' n = pl_fun l n;
  ag_sort : forall n, pl_sort l' n = pl_sort l n;
  ag_sub : forall s t, pl_sub l' s t = pl_sub l s t;
  ag_num : forall s z, pl_num l' s z = pl_num l s z;
  ag_cmp : forall b, pl_cmp l' b = pl_cmp l b;
  ag_arith : forall b, pl_arith l' b = pl_arith l b
}.
Section Agree.
Context (l l' : plang) (H : agree l l').
Lemma operands_agree s a b : operands l' s a b = operands l s a b.
Proof. unfold operands. destruct (numeral a), (numeral b); rewrite ?(ag_num _ _ H), ?(ag_sub _ _ H), ?(ag_sort _ _ H); reflexivity. Qed.
Lemma fits_agree s t : fits l' s t = fits l s t.
Proof. unfold fits. destruct (numeral t); [apply (ag_num _ _ H)|apply (ag_sub _ _ H)]. Qed.
Lemma forallb_ext_all {X} (f g : X -> bool) xs : Forall (fun x => f x = g x) xs -> forallb f xs = forallb g xs.
Proof. induction 1 as [|x xs E _ IH]; cbn; congruence. Qed.
Lemma readable_t_agree B : forall t, readable_t l' B t = readable_t l B t.
Proof.
  refine (term_ind_simple _ _ _ _ _).
  - intros x s. reflexivity.
  - intros [n|z] s; [|reflexivity]. cbn [readable_t]. now rewrite (ag_const _ _ H).
  - intros f ts IH. destruct f as [b|n ss c]; cbn [readable_t].
    + destruct ts as [|x [|y [|z ts]]]; try reflexivity. rewrite (ag_arith _ _ H), operands_agree. inversion IH as [|? ? I1 I2]; subst. inversion I2 as [|? ? I3 I4]; subst. now rewrite I1, I3.
    + rewrite (ag_fun _ _ H). f_equal; [f_equal|].
      * apply forallb_ext_all, Forall_forall. intros [s t] _. apply fits_agree.
      * apply forallb_ext_all. exact IH.
  - reflexivity.
Qed.
Lemma vars_agree vs : forallb (fun v => match v with Var x s => legal_variable x && legal_type s && pl_sort l' s | _ => false end) vs = forallb (fun v => match v with Var x s => legal_variable x && legal_type s && pl_sort l s | _ => false end) vs.
Proof. apply forallb_ext_all, Forall_forall. intros [x s| | |] _; try reflexivity. now rewrite (ag_sort _ _ H). Qed.
Lemma readable_agree : forall f B, readable l' B f = readable l B f.
Proof.
  refine (formula_ind_simple _ _ _ _ _ _).
  - reflexivity.
  - intros B. cbn [readable]. now rewrite (ag_cmp _ _ H), operands_agree.
  - intros p ts B. destruct p as [b|n ss]; cbn [readable].
    + destruct ts as [|x [|y [|z ts]]]; try reflexivity. now rewrite (ag_cmp _ _ H), operands_agree, !readable_t_agree.
    + rewrite (ag_pred _ _ H). f_equal; [f_equal|].
      * apply forallb_ext_all, Forall_forall. intros [s t] _. apply (ag_sub _ _ H).
      * apply forallb_ext_all, Forall_forall. intros t _. destruct (numeral t); [reflexivity|]. apply readable_t_agree.
  - intros c fs IH B. cbn [readable]. apply forallb_ext_all, Forall_forall. intros f Hf. rewrite Forall_forall in IH. now apply IH.
  - intros q vs g IH B. cbn [readable]. now rewrite vars_agree, IH.
Qed.
Lemma formula_agree B f : formula_ok l' B f = formula_ok l B f.
Proof. unfold formula_ok. now rewrite readable_agree. Qed.
Lemma declarable_agree B vs : declarable l' B vs = declarable l B vs.
Proof. unfold declarable. now rewrite vars_agree. Qed.
Lemma readable_e_agree : forall e B, readable_e l' B e = readable_e l B e.
Proof.
  refine (effect_ind_nested _ _ _ _ _ _ _).
  - intros c a B. cbn [readable_e]. now rewrite !formula_agree.
  - intros c a B. cbn [readable_e]. now rewrite !formula_agree.
  - intros inc c lhs rhs B. cbn [readable_e]. rewrite formula_agree, !readable_t_agree. f_equal. destruct inc; [now rewrite (ag_arith _ _ H), operands_agree|]. destruct (numeral rhs); [apply (ag_num _ _ H)|reflexivity].
  - intros c vs es IH B. cbn [readable_e]. rewrite declarable_agree. f_equal. apply forallb_ext_all, Forall_forall. intros e He. rewrite Forall_forall in IH. now apply IH.
  - reflexivity.
  - reflexivity.
Qed.
Lemma readable_action_agree c : readable_action l' c = readable_action l c.
Proof.
  unfold readable_action. rewrite declarable_agree, formula_agree. assert (E : forallb (readable_e l' (map printed_var (a_params (c_act c)))) (a_effs (c_act c)) = forallb (readable_e l (map printed_var (a_params (c_act c)))) (a_effs (c_act c))).
  { apply forallb_ext_all, Forall_forall. intros e _. apply readable_e_agree. }
  rewrite E. f_equal. unfold readable_cost. destruct (c_cost c) as [t|]; [|reflexivity]. rewrite (ag_fun _ _ H). destruct (pl_fun l "total-cost") as [[[|] s]|]; try reflexivity. now rewrite (ag_arith _ _ H), operands_agree, readable_t_agree.
Qed.
End Agree.

(** ** The reader's view of languages with the same declarations *)
Section View.
Variable parse : bool -> string -> option Z.
Lemma sub_le par l S P F C s t : holds par l S P F C -> pl_sub (view parse l) s t = true <-> le l s t.
Proof.
  intros H. pose proof (h_tree _ _ _ _ _ _ H) as I. cbn [view pl_sub]. rewrite orb_true_iff, String.eqb_eq. destruct (it_rank l I) as (rank & R1 & R2).
  destruct (sget (l_parent l) s) as [o|] eqn:E.
  - destruct (closure_spec l rank R1) with (n := Datatypes.S (List.length (l_sorts l))) (s := s) as (c & Ec & Hc).
    { intros a b Q. apply (it_keys l I). eapply it_parent; eauto. } { specialize (R2 s). lia. } { eauto. }
    rewrite Ec, str_mem_In, Hc. unfold le. tauto.
  - cbn [closure]. rewrite E. unfold le. split; [intros [X|X]; [auto|discriminate]|]. intros [X|X]; [auto|]. exfalso. apply anc_sort in X as [X _]; [|exact I]. apply (it_keys l I) in X as [o X]. congruence.
Qed.
Lemma num_false par l S P F C s z : holds par l S P F C -> (forall c r, In (c, r) C -> exists n, c = CStr n) -> pl_num (view parse l) s z = false.
Proof.
  intros H Hc. pose proof (h_tree _ _ _ _ _ _ H) as I. cbn [view pl_num]. unfold sort_contains. destruct (sget (l_sorts l) s) as [r|] eqn:E; [|reflexivity].
  assert (Hs : In s S) by (rewrite <- (h_sorts _ _ _ _ _ _ H); apply sget_key; eauto).
  destruct (proj1 (plain_sget l s (it_index l I)) (h_plain _ _ _ _ _ _ H s Hs)) as (r' & Hr & Kr). rewrite E in Hr. injection Hr as <-. rewrite Kr.
  destruct (cn_mem (CInt z) (s_dom r)) eqn:Q; [|reflexivity]. exfalso. apply cn_mem_In in Q. apply (sget_In _ _ _ (ii_sorts l (it_index l I))) in E. destruct (it_dom l I s r E) as (_ & D & _). destruct (D Kr) as [_ D'].
  apply D' in Q as (s' & _ & Q & _). apply (h_const _ _ _ _ _ _ _ _ H) in Q. destruct (Hc _ _ Q) as [n X]. discriminate.
Qed.
Lemma parent_same par par' l l' S P F C P' F' C' : holds par l S P F C -> holds par' l' S P' F' C' -> (forall s, In s S -> par' s = par s) -> forall s, parent_of l' s = parent_of l s.
Proof.
  intros H H' E s. destruct (in_dec string_dec s S) as [Hs|Hs].
  - rewrite (h_parent _ _ _ _ _ _ H s Hs), (h_parent _ _ _ _ _ _ H' s Hs). auto.
  - assert (N : forall l0 par0 P0 F0 C0, holds par0 l0 S P0 F0 C0 -> parent_of l0 s = None).
    { intros l0 par0 P0 F0 C0 H0. destruct (parent_of l0 s) eqn:Q; [|reflexivity]. apply (parent_sort l0 s _ (h_tree _ _ _ _ _ _ H0)) in Q. unfold is_sort in Q. rewrite (h_sorts _ _ _ _ _ _ H0) in Q. contradiction. }
    now rewrite (N _ _ _ _ _ H), (N _ _ _ _ _ H').
Qed.
Lemma le_same l l' s t : (forall s, parent_of l' s = parent_of l s) -> le l' s t <-> le l s t.
Proof.
  intros E. unfold le. assert (A : forall a b, (forall s, parent_of b s = parent_of a s) -> anc b s t -> anc a s t).
  { intros a b Q X. induction X as [s p X|s p t X _ IH]; rewrite Q in X; [now apply anc_parent|eapply anc_up; eauto]. }
  split; (intros [X|X]; [now left|right]); [apply (A l l')|apply (A l' l)]; auto.
Qed.
Lemma const_view par l S P F C n : holds par l S P F C -> pl_const (view parse l) n = dget cname_eqb C (CStr n).
Proof.
  intros H. cbn [view pl_const]. rewrite (h_consts _ _ _ _ _ _ H). clear H. induction C as [|[c s] C IH]; cbn [map dget fst]; [reflexivity|]. destruct (cname_eqb c (CStr n)); [reflexivity|exact IH].
Qed.
Lemma dget_perm {V} (C C' : list (cname * V)) n : NoDup (map fst C) -> Permutation C C' -> dget cname_eqb C n = dget cname_eqb C' n.
Proof.
  intros N Hp. assert (N' : NoDup (map fst C')) by (eapply Permutation_NoDup; [apply Permutation_map; exact Hp|exact N]).
  destruct (dget cname_eqb C n) as [v|] eqn:E.
  - symmetry. apply (dget_Some_In cname_eqb cname_eqb_eq _ _ _ N'). apply (Permutation_in _ Hp). now apply (dget_Some_In cname_eqb cname_eqb_eq _ _ _ N).
  - destruct (dget cname_eqb C' n) as [v|] eqn:E'; [|reflexivity]. apply (dget_Some_In cname_eqb cname_eqb_eq _ _ _ N') in E'. apply (Permutation_in _ (Permutation_sym Hp)) in E'. apply (dget_Some_In cname_eqb cname_eqb_eq _ _ _ N) in E'. congruence.
Qed.
Lemma view_agree par par' l l' S P F C C' cs : holds par l S P F C -> holds par' l' S P F C' -> (forall s, In s S -> par' s = par s) ->
  (forall c r, In (c, r) C -> exists n, c = CStr n) -> (forall c r, In (c, r) C' -> exists n, c = CStr n) -> NoDup (map fst cs) -> Permutation cs C' ->
  agree (only_constants cs (view parse l)) (view parse l').
Proof.
  intros H H' E Hc Hc' N Hp. pose proof (parent_same _ _ _ _ _ _ _ _ _ _ _ H H' E) as Pe.
  assert (Hs : forall n, Lang.has_sort l' n = Lang.has_sort l n).
  { intros n. apply eq_true_iff_eq. rewrite !has_sort_spec. unfold is_sort. now rewrite (h_sorts _ _ _ _ _ _ H), (h_sorts _ _ _ _ _ _ H'). }
  constructor.
  - intros n. rewrite (const_view _ _ _ _ _ _ _ H'). cbn [only_constants pl_const]. symmetry. now apply dget_perm.
  - intros n. cbn [only_constants view pl_pred]. now rewrite (h_preds _ _ _ _ _ _ H), (h_preds _ _ _ _ _ _ H').
  - intros n. cbn [only_constants view pl_fun]. now rewrite (h_funs _ _ _ _ _ _ H), (h_funs _ _ _ _ _ _ H').
  - intros n. exact (Hs n).
  - intros s t. apply eq_true_iff_eq. change (pl_sub (only_constants cs (view parse l)) s t) with (pl_sub (view parse l) s t). rewrite (sub_le _ _ _ _ _ _ _ _ H), (sub_le _ _ _ _ _ _ _ _ H'). now apply le_same.
  - intros s z. change (pl_num (only_constants cs (view parse l)) s z) with (pl_num (view parse l) s z). now rewrite (num_false _ _ _ _ _ _ _ _ H Hc), (num_false _ _ _ _ _ _ _ _ H' Hc').
  - intros b. cbn [only_constants view pl_cmp]. now rewrite Hs.
  - intros b. cbn [only_constants view pl_arith]. now rewrite Hs.
Qed.
Lemma view_agree_all par par' l l' S P F C C' : holds par l S P F C -> holds par' l' S P F C' -> (forall s, In s S -> par' s = par s) ->
  (forall c r, In (c, r) C -> exists n, c = CStr n) -> NoDup (map fst C) -> Permutation C C' -> agree (view parse l) (view parse l').
Proof.
  intros H H' E Hc N Hp. assert (Hc' : forall c r, In (c, r) C' -> exists n, c = CStr n) by (intros c r X; apply (Hc c r); apply (Permutation_in _ (Permutation_sym Hp)); exact X).
  destruct (view_agree _ _ _ _ _ _ _ _ _ C H H' E Hc Hc' N Hp) as [A1 A2 A3 A4 A5 A6 A7 A8]. constructor; auto. intros n. rewrite A1. symmetry. apply (const_view _ _ _ _ _ _ _ H).
Qed.
(** ** The language of the problem *)
Lemma source_holds ops : forallb native ops = true -> let l := lrun parse ops in (forall s, is_sort l s -> is_plain l s) ->
  holds (parent_of l) l (map fst (l_sorts l)) (l_preds l) (l_funs l) (constants_of l).
Proof.
  intros N l Hp. pose proof (lrun_tree parse ops N) as I. fold l in I. constructor; auto.
  unfold constants_of. rewrite map_map. rewrite <- (map_id (l_consts l)) at 1. apply map_ext_in. intros [c [sym s]] Hin. cbn [fst snd]. f_equal.
  assert (Hd : dget cname_eqb (l_consts l) c = Some (sym, s)) by (apply (dget_Some_In cname_eqb cname_eqb_eq _ _ _ (ii_consts l (it_index l I))); exact Hin).
  symmetry. apply (plain_const_name parse ops N c sym s); [|exact Hd]. apply Hp. apply (it_const l I c). now exists sym.
Qed.
Lemma holds_names par l S P F C : holds par l S P F C -> NoDup (names_of S P F C).
Proof.
  intros H. pose proof (h_tree _ _ _ _ _ _ H) as I. pose proof (it_index l I) as X. pose proof (ii_spec l X) as D.
  assert (Inj : forall n e e', defined_as l n e -> defined_as l n e' -> e = e') by (intros n e e' A B; apply D in A; apply D in B; congruence).
  assert (Ks : forall xs, NoDup xs -> NoDup (map CStr xs)) by (intros xs; apply FinFun.Injective_map_NoDup; intros a b E; congruence).
  assert (DS : forall n, In n (map CStr S) -> exists e, defined_as l n e /\ exists s, e = ESort s).
  { intros n Hn. apply in_map_iff in Hn as (s & <- & Hs). exists (ESort s). split; [|eauto]. cbn. split; [reflexivity|]. now rewrite (h_sorts _ _ _ _ _ _ H). }
  assert (DP : forall n, In n (map CStr (map fst P)) -> exists e, defined_as l n e /\ exists p ts, e = EPred p ts).
  { intros n Hn. apply in_map_iff in Hn as (s & <- & Hs). apply in_map_iff in Hs as ([p ts] & <- & Hs). exists (EPred p ts). split; [|eauto]. cbn. split; [reflexivity|]. now rewrite (h_preds _ _ _ _ _ _ H). }
  assert (DF : forall n, In n (map CStr (map fst F)) -> exists e, defined_as l n e /\ exists p ts, e = Lang.EFun p ts).
  { intros n Hn. apply in_map_iff in Hn as (s & <- & Hs). apply in_map_iff in Hs as ([p ts] & <- & Hs). exists (Lang.EFun p ts). split; [|eauto]. cbn. split; [reflexivity|]. now rewrite (h_funs _ _ _ _ _ _ H). }
  assert (DC : forall n, In n (map fst C) -> exists e, defined_as l n e /\ exists c s, e = EConst c s).
  { intros n Hn. apply in_map_iff in Hn as ([c s] & <- & Hs). exists (EConst c s). split; [|eauto]. cbn. split; [reflexivity|]. now apply (h_const _ _ _ _ _ _ _ _ H). }
  unfold names_of. apply NoDup_app_iff_simple; [|apply NoDup_app_iff_simple; [|apply NoDup_app_iff_simple|]|].
  - apply Ks. rewrite <- (h_sorts _ _ _ _ _ _ H). apply X.
  - apply Ks. rewrite <- (h_preds _ _ _ _ _ _ H). apply X.
  - apply Ks. rewrite <- (h_funs _ _ _ _ _ _ H). apply X.
  - rewrite <- consts_keys. rewrite <- (h_consts _ _ _ _ _ _ H). apply X.
  - intros n A B. destruct (DF n A) as (e & E & p & ts & ->). destruct (DC n B) as (e' & E' & p' & ts' & ->). specialize (Inj _ _ _ E E'). discriminate.
  - intros n A B. destruct (DP n A) as (e & E & p & ts & ->). apply in_app_iff in B as [B|B]; [destruct (DF n B) as (e' & E' & p' & ts' & ->)|destruct (DC n B) as (e' & E' & p' & ts' & ->)]; specialize (Inj _ _ _ E E'); discriminate.
  - intros n A B. destruct (DS n A) as (e & E & s & ->). rewrite !in_app_iff in B. destruct B as [B|[B|B]]; [destruct (DP n B) as (e' & E' & p' & ts' & ->)|destruct (DF n B) as (e' & E' & p' & ts' & ->)|destruct (DC n B) as (e' & E' & p' & ts' & ->)]; specialize (Inj _ _ _ E E'); discriminate.
Qed.
Lemma names_perm S P F C C' : Permutation C C' -> NoDup (names_of S P F C) -> NoDup (names_of S P F C').
Proof. intros Hp N. eapply Permutation_NoDup; [|exact N]. unfold names_of. do 3 apply Permutation_app_head. now apply Permutation_map. Qed.
End View.
