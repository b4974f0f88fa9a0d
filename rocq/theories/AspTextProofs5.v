(** The rules of the compiler are safe: every variable occurs in an atom of the body. *)
From Coq Require Import Ascii.
From Verif Require Import Base Syntax SubstSpec SemLemmas Build QElimProofs Subst FreeVars QElim ModelState ModelText Lang LangSpec LangProofs LangProofs2 LangProofs3 Effects Represent Grounding Index Asp AspNamesSpec PropsAspNames SubstProofs NnfProofs FreeVarsProofs AspText AspTextSpec AspTextProofs1 AspTextProofs2 AspTextProofs3 AspTextProofs4 AspProofs2 AspProofs1 AspSpec.
#[local] Open Scope string_scope.

(** * Substituting constants *)
Definition constant_values (s : subst) : Prop := sub_f s = [] /\ forall k v, In (k, v) (sub_t s) -> is_var v = false.
Definition covered (s : subst) (v : var) : Prop := get_t (sub_t s) (Var (fst v) (snd v)) <> None.
Lemma vars_of_iff ts v : In v (vars_of ts) <-> In (Var (fst v) (snd v)) ts.
Proof. split; [apply vars_of_In|]. intros H. unfold vars_of. apply in_flat_map. exists (Var (fst v) (snd v)). split; [exact H|]. destruct v. left. reflexivity. Qed.
Lemma subst_term_var s t x r : constant_values s -> subst_term s t = Var x r -> t = Var x r /\ ~ covered s (x, r).
Proof.
  intros [_ H] E. assert (V : forall u, visit_t s u = Var x r -> u = Var x r /\ ~ covered s (x, r)).
  { intros u. unfold visit_t. destruct (get_t (sub_t s) u) as [v|] eqn:G; intros ->.
    - apply get_t_In in G as (k & Hk). specialize (H _ _ Hk). discriminate.
    - split; [reflexivity|]. unfold covered. cbn [fst snd]. rewrite G. intros X. now apply X. }
  destruct t; cbn [subst_term] in E; apply V in E as [E1 E2]; try discriminate. split; [exact E1|exact E2].
Qed.
Lemma uncovered_var s vs v : ~ covered s v -> In v (vars_of vs) -> In v (vars_of (map (subst_term s) vs)).
Proof.
  intros N H. apply vars_of_iff in H. apply vars_of_iff. apply in_map_iff. exists (Var (fst v) (snd v)). split; [|exact H]. cbn [subst_term]. unfold visit_t. unfold covered in N. destruct (get_t (sub_t s) _); [|reflexivity]. exfalso. apply N. discriminate.
Qed.
Lemma compared_subst s : constant_values s -> forall f v, In v (compared (subst_formula s f)) -> In v (compared f) /\ ~ covered s v.
Proof.
  intros S. assert (V : forall f, visit_f s f = f) by (intros f; unfold visit_f; rewrite (proj1 S); reflexivity).
  refine (formula_ind_simple _ _ _ _ _ _).
  - intros v. cbn [subst_formula]. rewrite V. intros [].
  - intros v. cbn [subst_formula]. rewrite V. intros [].
  - intros p ts v. cbn [subst_formula]. rewrite V. destruct p; cbn [compared]; [|intros []]. rewrite !vars_of_iff. intros H. apply in_map_iff in H as (t & E & Ht). apply subst_term_var in E as [-> N]; [|exact S]. split; [exact Ht|]. destruct v. exact N.
  - intros c fs IH v. cbn [subst_formula]. rewrite V. assert (G : In v (flat_map compared (map (subst_formula s) fs)) -> In v (flat_map compared fs) /\ ~ covered s v).
    { intros H. apply in_flat_map in H as (g & Hg & H). apply in_map_iff in Hg as (g0 & <- & Hg). rewrite Forall_forall in IH. destruct (IH g0 Hg v H) as [A B]. split; [apply in_flat_map; eauto|exact B]. }
    destruct c; cbn [compared]; [exact G|intros []|exact G].
  - intros q vs g IH v. cbn [subst_formula]. rewrite V. destruct q; cbn [compared]; [intros []|]. intros H. apply filter_In in H as [H N]. destruct (IH v H) as [A B]. split; [|exact B]. apply filter_In. split; [exact A|].
    apply negb_true_iff in N. apply negb_true_iff. apply mem_var_false in N. apply mem_var_false. intros X. apply N. now apply uncovered_var.
Qed.
Lemma local_subst s : constant_values s -> forall f U U', (forall v, covered s v -> In v U) -> incl U' U -> locally_compared U f -> locally_compared U' (subst_formula s f).
Proof.
  intros S. assert (V : forall f, visit_f s f = f) by (intros f; unfold visit_f; rewrite (proj1 S); reflexivity).
  refine (formula_ind_simple _ _ _ _ _ _).
  - intros U U' _ _ _. cbn [subst_formula]. rewrite V. exact I.
  - intros U U' _ _ _. cbn [subst_formula]. rewrite V. exact I.
  - intros p ts U U' _ _ _. cbn [subst_formula]. rewrite V. exact I.
  - intros c fs IH U U' HU HI H. cbn [subst_formula]. rewrite V. cbn [locally_compared] in *. apply fold_and in H. apply fold_and. rewrite Forall_forall in *. intros g Hg. apply in_map_iff in Hg as (g0 & <- & Hg). apply (IH g0 Hg U U'); auto.
  - intros q vs g IH U U' HU HI H. cbn [subst_formula]. rewrite V. destruct q; cbn [locally_compared] in *.
    + destruct H as [A B]. split; [|eauto]. intros v Hv. apply (compared_subst s S) in Hv as [X Y]. apply uncovered_var; auto.
    + destruct H as (A & B & G). assert (E : map (subst_term s) vs = vs).
      { rewrite <- (map_id vs) at 2. apply map_ext_in. intros t Ht. rewrite forallb_forall in A. specialize (A t Ht). destruct t as [x r| | |]; try discriminate. cbn [subst_term]. unfold visit_t. destruct (get_t (sub_t s) (Var x r)) eqn:Gt; [|reflexivity].
        exfalso. apply (B (x, r)); [now apply vars_of_iff|]. apply HU. unfold covered. cbn [fst snd]. rewrite Gt. discriminate. }
      rewrite E. split; [exact A|]. split; [intros v Hv X; exact (B v Hv (HI v X))|]. apply (IH (vars_of vs ++ U)%list); [intros v Hv; apply in_or_app; right; auto| |exact G]. intros v Hv. apply in_app_or in Hv as [Hv|Hv]; apply in_or_app; auto.
Qed.
Section Domains.
Variable D : domains.
Hypothesis HC : forall s cs t, D s = Some cs -> In t cs -> is_var t = false.
Lemma create_constant symbols values s : Forall (fun t => is_var t = false) values -> create_substitution symbols values = Ok s -> constant_values s /\ (List.length symbols = List.length values -> forall t, In t symbols -> get_t (sub_t s) t <> None) /\ (forall v, covered s v -> In (Var (fst v) (snd v)) symbols).
Proof.
  unfold create_substitution. intros H. destruct (create_pairs symbols values) as [l|] eqn:E; [|discriminate]. cbn [bind]. intros X. injection X as <-. cbn [sub_t sub_f].
  assert (K : forall k v, In (k, v) l -> is_var v = false).
  { revert symbols l E. induction H as [|u values Hu H IH]; intros symbols l E k v Hin.
    - assert (E' : Ok [] = Ok l) by (rewrite <- E; destruct symbols; reflexivity). injection E' as <-. destruct Hin.
    - destruct symbols as [|k' symbols]; [discriminate|]. cbn [create_pairs] in E. destruct (create_pairs symbols values) as [l'|] eqn:E'; [|discriminate]. cbn [bind] in E. injection E as <-. destruct Hin as [X|Hin]; [injection X as _ <-; exact Hu|eauto]. }
  split; [split; [reflexivity|intros k v Hin; apply in_rev in Hin; eauto]|]. split; cycle 1.
  { intros v Hv. unfold covered in Hv. cbn [sub_t] in Hv. destruct (get_t (rev l) _) as [w|] eqn:G; [|contradiction]. clear Hv. assert (Y : In (Var (fst v) (snd v), w) (rev l)).
    { revert G. generalize (rev l). intros m. induction m as [|[k u] m IH]; cbn [get_t]; [discriminate|]. destruct (term_eqb k _) eqn:T; [intros X; injection X as ->; apply term_eqb_eq in T; subst k; left; reflexivity|right; auto]. }
    apply in_rev in Y. clear - E Y. revert symbols l E Y. induction values as [|u values IH]; intros symbols l E Y.
    - assert (E' : Ok [] = Ok l) by (rewrite <- E; destruct symbols; reflexivity). injection E' as <-. destruct Y.
    - destruct symbols as [|k symbols]; [discriminate|]. cbn [create_pairs] in E. destruct (create_pairs symbols values) as [l'|] eqn:E'; [|discriminate]. cbn [bind] in E. injection E as <-. destruct Y as [X|Y]; [injection X as -> _; left; reflexivity|right; eauto]. }
  intros L t Ht. assert (N : exists v, In (t, v) l).
  { clear K H. revert values l E L. induction symbols as [|k symbols IH]; intros values l E L; [destruct Ht|]. destruct values as [|u values]; [discriminate|]. cbn [create_pairs] in E. destruct (create_pairs symbols values) as [l'|] eqn:E'; [|discriminate]. cbn [bind] in E. injection E as <-.
    destruct Ht as [->|Ht]; [exists u; left; reflexivity|]. destruct (IH Ht values l' E') as [v Hv]; [now injection L|]. exists v. right. exact Hv. }
  destruct N as [v Hv]. apply in_rev in Hv. clear - Hv. induction (rev l) as [|[k u] m IH]; [destruct Hv|]. cbn [get_t]. destruct (term_eqb k t) eqn:T; [discriminate|]. destruct Hv as [X|Hv]; [|auto]. injection X as -> ->. rewrite term_eqb_refl in T. discriminate.
Qed.
Lemma product_constant inst values : Forall (Forall (fun t => is_var t = false)) inst -> In values (product inst) -> Forall (fun t => is_var t = false) values /\ List.length values = List.length inst.
Proof.
  intros H Hin. apply product_In in Hin. induction Hin as [|u cs us inst A B IH]; [split; [constructor|reflexivity]|]. inversion H as [|? ? Hc Hi]; subst. destruct (IH Hi) as [X Y]. split; [|cbn; now rewrite Y]. constructor; [|exact X]. rewrite Forall_forall in Hc. auto.
Qed.
Lemma groundings_constant vs : forallb is_var vs = true -> forall inst, enumerate_groundings D vs = Ok inst -> Forall (Forall (fun t => is_var t = false)) inst /\ List.length inst = List.length vs.
Proof.
  induction vs as [|v vs IH]; intros F inst H; cbn [enumerate_groundings] in H; [injection H as <-; split; [constructor|reflexivity]|]. cbn [forallb] in F. apply andb_true_iff in F as [F1 F2]. destruct v as [x s| | |]; try discriminate.
  destruct (D s) as [cs|] eqn:E; [|discriminate]. destruct (enumerate_groundings D vs) as [r|]; [|discriminate]. cbn [bind] in H. injection H as <-. destruct (IH F2 r eq_refl) as [A B]. split; [|cbn; now rewrite B]. constructor; [apply Forall_forall; eauto|exact A].
Qed.
Lemma local_expand U vs g h : forallb is_var vs = true -> locally_compared (vars_of vs ++ U) g -> expand D QAll vs g = Ok h -> locally_compared U h /\ incl (compared h) (filter (fun v => negb (mem_var v (vars_of vs))) (compared g)).
Proof.
  intros F G. unfold expand. destruct (enumerate_groundings D vs) as [inst|] eqn:E; [|discriminate]. cbn [bind]. apply groundings_constant in E as [E L]; [|exact F]. destruct (Nat.eqb (cardinality inst) 0); [discriminate|].
  destruct (mapM _ (product inst)) as [cs|] eqn:Mc; [|discriminate]. cbn [bind]. set (W := filter _ _).
  assert (X : Forall (fun f => locally_compared U f /\ incl (compared f) W) cs).
  { apply Forall_forall. intros f Hf. destruct (mapM_In _ _ _ _ Mc Hf) as (values & Hv & Ev). destruct (create_substitution vs values) as [s|] eqn:Es; [|discriminate]. cbn [bind] in Ev. injection Ev as <-.
    destruct (product_constant _ _ E Hv) as [Cv Lv]. destruct (create_constant _ _ _ Cv Es) as (S & Dm & Ds). split.
    - apply (local_subst s S g (vars_of vs ++ U)%list); [|intros v Hw; apply in_or_app; auto|exact G]. intros v Hw. apply in_or_app. left. apply vars_of_iff. auto.
    - intros v Hin. apply (compared_subst s S) in Hin as [A B]. unfold W. apply filter_In. split; [exact A|].
      apply negb_true_iff. destruct (mem_var v (vars_of vs)) eqn:Mv; [|reflexivity]. exfalso. apply B. unfold mem_var in Mv. apply existsb_exists in Mv as (w & Hw & Ew). apply var_eqb_eq in Ew. subst w. apply vars_of_iff in Hw. unfold covered. apply Dm; [congruence|exact Hw]. }
  assert (K : forall a b, locally_compared U a /\ incl (compared a) W -> locally_compared U b /\ incl (compared b) W -> locally_compared U (Comp And [a; b]) /\ incl (compared (Comp And [a; b])) W).
  { intros a b [A1 A2] [B1 B2]. split; [cbn; auto|]. cbn [compared flat_map]. rewrite app_nil_r. apply incl_app; auto. }
  intros H. destruct cs as [|a l]; cbn in H; [injection H as <-; split; [exact I|intros v []]|].
  apply (create_compound_pred And (fun f => locally_compared U f /\ incl (compared f) W) (a :: l) h K X H).
Qed.
Lemma local_qe : forall n f f' U, locally_compared U f -> qe D MForall n f = Ok f' -> locally_compared U f' /\ incl (compared f') (compared f).
Proof.
  induction n as [|n IHn]; refine (formula_ind_simple _ _ _ _ _ _).
  1-3,6-8: intros; rewrite qe_unfold in *; match goal with E : Ok _ = Ok _ |- _ => injection E as <-; split; [assumption|apply incl_refl] end.
  all: first [intros c fs HF f' U Hf E; rewrite qe_unfold in E; destruct (mapM (qe D MForall _) fs) as [fs'|] eqn:Em; cbn [bind] in E; [|discriminate]; injection E as <-; cbn [locally_compared] in *; apply fold_and in Hf; rewrite Forall_forall in HF, Hf;
              (split; [apply fold_and; rewrite Forall_forall; intros g Hg; destruct (mapM_In _ _ _ _ Em Hg) as (g0 & Hg0 & Eg); apply (HF g0 Hg0 g U (Hf g0 Hg0) Eg)|
                 assert (Y : incl (flat_map compared fs') (flat_map compared fs)) by (intros v Hv; apply in_flat_map in Hv as (g & Hg & Hv); destruct (mapM_In _ _ _ _ Em Hg) as (g0 & Hg0 & Eg); apply in_flat_map; exists g0; split; [exact Hg0|]; apply (HF g0 Hg0 g U (Hf g0 Hg0) Eg); exact Hv);
                 destruct c; cbn [compared]; [exact Y|apply incl_refl|exact Y]])
             |intros q vs g IH f' U Hq E; rewrite qe_unfold in E; destruct q; cbn [eliminated] in E; destruct Hq as [Hv Hg]].
  - destruct (qe D MForall 0 g) as [g'|] eqn:G; cbn [bind] in E; [|discriminate]. injection E as <-. destruct (IH g' U Hg eq_refl) as [A B]. cbn [locally_compared compared]. split; [split; [|exact A]|apply incl_refl]. intros v X. auto.
  - discriminate.
  - destruct (qe D MForall (S n) g) as [g'|] eqn:G; cbn [bind] in E; [|discriminate]. injection E as <-. destruct (IH g' U Hg eq_refl) as [A B]. cbn [locally_compared compared]. split; [split; [|exact A]|apply incl_refl]. intros v X. auto.
  - destruct (expand D QAll vs g) as [h|] eqn:Ex; cbn [bind] in E; [|discriminate]. destruct Hg as [_ Hg]. destruct (local_expand U vs g h Hv Hg Ex) as [A B]. destruct (IHn h f' U A E) as [A' B']. split; [exact A'|]. cbn [compared]. intros v X. auto.
Qed.
Lemma local_remove U f f' : locally_compared U f -> remove_quantifiers D MForall f = Ok f' -> locally_compared U f' /\ incl (compared f') (compared f).
Proof. apply local_qe. Qed.
(** One level of universal effects *)
Lemma bound_expand W e es : bound_effect [] W e -> expand_effect D e = Ok es -> forall e' c a, In e' es -> e' = EAdd c a -> bound_effect [] W e'.
Proof.
  intros B E e' c a Hin Ee. destruct e as [c0 a0|c0 a0|i c0 x y|c0 vs es0|c0 a0|c0]; cbn [expand_effect] in E; try (injection E as <-; destruct Hin as [<-|[]]; exact B).
  destruct (is_top c0); [|discriminate]. destruct (enumerate_substitutions D vs) as [ss|] eqn:Es; [|discriminate]. cbn [bind] in E. destruct (mapM (fun s => mapM (subst_effect s) es0) ss) as [ls|] eqn:El; [|discriminate]. cbn [bind] in E. injection E as <-.
  apply in_concat in Hin as (l & Hl & Hin). destruct (mapM_In _ _ _ _ El Hl) as (s & Hs & Em). destruct (mapM_In _ _ _ _ Em Hin) as (e0 & He0 & Es0). cbn [bound_effect] in B. apply fold_and in B. rewrite Forall_forall in B. specialize (B e0 He0). rewrite app_nil_r in B.
  unfold enumerate_substitutions in Es. destruct (forallb is_var vs) eqn:Hv; [|discriminate]. destruct (mapM _ vs) as [doms|] eqn:Ed in Es; cbn [bind] in Es; [|discriminate]. destruct (mapM_In _ _ _ _ Es Hs) as (values & Hvs & Ec).
  assert (Cd : Forall (Forall (fun t => is_var t = false)) doms). { apply Forall_forall. intros cs Hcs. destruct (mapM_In _ _ _ _ Ed Hcs) as (v & _ & Ev). destruct v as [x r| | |]; try discriminate. destruct (D r) as [cs'|] eqn:Er; [|discriminate]. injection Ev as <-. apply Forall_forall. eauto. }
  destruct (product_constant _ _ Cd Hvs) as [Cv Lv]. assert (Ld : List.length doms = List.length vs) by (apply mapM_Forall2 in Ed; symmetry; clear - Ed; induction Ed; cbn; auto).
  destruct (create_constant _ _ _ Cv Ec) as (S & Dm & Ds). subst e'. destruct e0 as [c1 a1|c1 a1|i c1 x y|c1 vs1 es1|c1 a1|c1]; cbn [subst_effect] in Es0; try discriminate; [|destruct (mapM (subst_effect s) es1); discriminate].
  injection Es0 as <- <-. destruct B as (B1 & B2 & B3). assert (HW : forall v, In v (vars_of vs ++ W) -> ~ covered s v -> In v W).
  { intros v Hw N. apply in_app_or in Hw as [Hw|Hw]; [|exact Hw]. exfalso. apply N. unfold covered. apply Dm; [congruence|]. now apply vars_of_iff. }
  cbn [bound_effect]. split; [apply (local_subst s S c1 (vars_of vs)); [intros v X; apply vars_of_iff; auto|intros v []|exact B1]|]. split.
  - intros v Hw. apply (compared_subst s S) in Hw as [X Y]. auto.
  - assert (V : forall f, visit_f s f = f) by (intros f; unfold visit_f; rewrite (proj1 S); reflexivity). destruct a1 as [| |p ts| |]; cbn [subst_formula]; rewrite V; try exact I.
    intros v Hw. apply vars_of_iff in Hw. apply in_map_iff in Hw as (t & Et & Ht). apply (subst_term_var s t) in Et as [-> N]; [|exact S]. apply HW; [apply B3; now apply vars_of_iff|destruct v; exact N].
Qed.
End Domains.
