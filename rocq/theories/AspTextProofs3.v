(** Everything the compiler writes can be read: the names in the rules. *)
From Coq Require Import Ascii.
From Verif Require Import Base Syntax SemLemmas Build QElimProofs Subst FreeVars QElim ModelState ModelText Lang LangSpec LangProofs LangProofs2 Effects Represent Grounding Index Asp AspNamesSpec PropsAspNames AspText AspTextSpec AspTextProofs1 AspTextProofs2 AspProofs2 AspProofs1.
#[local] Open Scope string_scope.

(** * A logic for the compiler's monad: [R] holds of all rules *)
Section Hoare.
Variable R : rule -> Prop.
Definition post {A} (m : M A) (Q : A -> Prop) : Prop :=
  forall st a st', inv_ok (c_tr st) -> Forall R (c_rules st) -> m st = Ok (a, st') -> inv_ok (c_tr st') /\ Forall R (c_rules st') /\ Q a.
Lemma post_ret {A} (x : A) (Q : A -> Prop) : Q x -> post (ret x) Q.
Proof. intros H st a st' I F E. apply ret_inv in E as [-> ->]. auto. Qed.
Lemma post_fail {A} e (Q : A -> Prop) : post (fail e) Q. Proof. intros st a st' _ _ E. discriminate. Qed.
Lemma post_lift {A} (r : res A) (Q : A -> Prop) : (forall x, r = Ok x -> Q x) -> post (lift r) Q.
Proof. intros H st a st' I F E. apply lift_inv in E as [-> ->]. auto. Qed.
Lemma post_bnd {A B} (m : M A) (k : A -> M B) (Q : A -> Prop) (Q' : B -> Prop) : post m Q -> (forall a, Q a -> post (k a) Q') -> post (bnd m k) Q'.
Proof. intros Hm Hk st b st' I F E. apply bnd_inv in E as (a & st1 & E1 & E2). destruct (Hm _ _ _ I F E1) as (I1 & F1 & Qa). exact (Hk a Qa _ _ _ I1 F1 E2). Qed.
Lemma post_weaken {A} (m : M A) (Q Q' : A -> Prop) : (forall a, Q a -> Q' a) -> post m Q -> post m Q'.
Proof. intros H Hm st a st' I F E. destruct (Hm _ _ _ I F E) as (X & Y & Z). auto. Qed.
Lemma post_mapS {A B} (f : A -> M B) (Q : A -> B -> Prop) l : (forall x, In x l -> post (f x) (Q x)) -> post (mapS f l) (Forall2 Q l).
Proof.
  induction l as [|x l IH]; intros H; cbn [mapS]; [apply post_ret; constructor|]. eapply post_bnd; [apply H; left; reflexivity|]. intros y Hy. eapply post_bnd; [apply IH; intros z Hz; apply H; right; exact Hz|]. intros ys Hys. apply post_ret. now constructor.
Qed.
Lemma post_each {A B} (f : A -> M B) l : (forall x, In x l -> post (f x) (fun _ => True)) -> post (mapS f l) (fun _ => True).
Proof. intros H. eapply post_weaken; [|apply (post_mapS f (fun _ _ => True)); exact H]. auto. Qed.
Lemma post_add_rule h b : R {| r_head := h; r_body := b |} -> post (add_rule h b) (fun _ => True).
Proof. intros H st a st' I F E. unfold add_rule in E. injection E as <- <-. cbn [c_tr c_rules]. split; [exact I|]. split; [|exact Logic.I]. apply Forall_app. auto. Qed.
Lemma post_norm n q : ~ contains "-" q -> post (norm n q) (fun s => s = sanitize (full_name (n, q))).
Proof. intros Hq st a st' I F E. unfold norm in E. destruct (normalize (c_tr st) n q) as [[s t]|] eqn:N; [|discriminate]. injection E as <- <-. cbn [c_tr c_rules]. destruct (normalize_spec _ _ _ _ _ I Hq N) as (I' & _ & -> & _). auto. Qed.
Lemma post_norms args : post (mapS (fun a => norm a "") args) (fun l => l = map sanitize args).
Proof.
  eapply post_weaken; [|apply (post_mapS (fun a => norm a "") (fun a s => s = sanitize a)); intros a _; eapply post_weaken; [|apply post_norm, no_hyphen_empty]; auto].
  intros l H. induction H as [|a s args l -> H IH]; [reflexivity|]. cbn [map]. now rewrite IH.
Qed.
Lemma post_lp_atom s args q : ~ contains "-" q -> post (lp_atom s args q) (fun a => a = {| lp_sym := sanitize (full_name (s, q)); lp_args := map sanitize args; lp_infix := false |}).
Proof. intros Hq. unfold lp_atom. eapply post_bnd; [now apply post_norm|]. intros x ->. eapply post_bnd; [apply post_norms|]. intros l ->. apply post_ret. reflexivity. Qed.
Lemma post_builtin b args : post (lp_builtin b args) (fun a => a = {| lp_sym := bpred_name b; lp_args := map sanitize args; lp_infix := true |} /\ List.length args = 2).
Proof.
  unfold lp_builtin. eapply post_bnd; [apply post_norm, no_hyphen_empty|]. intros x ->. eapply post_bnd; [apply post_norms|]. intros l ->. rewrite map_length. destruct (Nat.eqb (List.length args) 2) eqn:E; [|apply post_fail].
  apply post_ret. apply Nat.eqb_eq in E. split; [|exact E]. destruct b; reflexivity.
Qed.
Lemma post_aux args : post (gen_aux_atom args) (fun a => writable_pred (lp_sym a) /\ lp_args a = map sanitize args /\ lp_infix a = false).
Proof.
  intros st a st' I F E. unfold gen_aux_atom in E. destruct (post_lp_atom ("__f" ++ name_text (CInt (Z.of_nat (S (c_aux st))))) args "" no_hyphen_empty {| c_tr := c_tr st; c_aux := S (c_aux st); c_rules := c_rules st |} _ _ I F E) as (I' & F' & ->). cbn [lp_sym lp_args lp_infix]. split; [exact I'|]. split; [exact F'|]. split; [apply aux_pred|]. split; reflexivity.
Qed.
End Hoare.

(** * Spelling is kept by substitution and expansion *)
Lemma sp_fold {A} (P : A -> Prop) l : fold_right (fun x Q => P x /\ Q) True l <-> Forall P l.
Proof. apply fold_and. Qed.
Lemma get_t_In l t v : get_t l t = Some v -> exists k, In (k, v) l.
Proof. induction l as [|[k u] l IH]; cbn [get_t]; [discriminate|]. destruct (term_eqb k t); [intros H; injection H as ->; exists k; left; reflexivity|]. intros H. destruct (IH H) as [k' Hk]. exists k'. right. exact Hk. Qed.
Definition spelled_subst (s : subst) : Prop := sub_f s = [] /\ forall k v, In (k, v) (sub_t s) -> spelled_term v.
Lemma visit_spelled s t : spelled_subst s -> spelled_term t -> spelled_term (visit_t s t).
Proof. intros [_ H] T. unfold visit_t. destruct (get_t (sub_t s) t) as [v|] eqn:E; [|exact T]. destruct (get_t_In _ _ _ E) as [k Hk]. eauto. Qed.
Lemma subst_term_spelled s : spelled_subst s -> forall t, spelled_term t -> spelled_term (subst_term s t).
Proof.
  intros S. refine (term_ind_nested (fun t => spelled_term t -> spelled_term (subst_term s t)) (fun _ => True) _ _ _ _ _ _ _ _ _); auto; intros.
  - cbn [subst_term]. now apply visit_spelled.
  - cbn [subst_term]. now apply visit_spelled.
  - cbn [subst_term]. apply visit_spelled; [exact S|]. cbn [spelled_term] in *. apply sp_fold. match goal with H : fold_right _ _ _ |- _ => apply sp_fold in H; rename H into B end. rewrite Forall_forall in *. intros u Hu. apply in_map_iff in Hu as (u' & <- & Hu). auto.
  - cbn [subst_term]. apply visit_spelled; [exact S|exact Logic.I].
Qed.
Lemma subst_formula_spelled s : spelled_subst s -> forall f, spelled_formula f -> spelled_formula (subst_formula s f).
Proof.
  intros S. assert (V : forall f, visit_f s f = f) by (intros f; unfold visit_f; rewrite (proj1 S); reflexivity).
  assert (T : forall ts, Forall spelled_term ts -> Forall spelled_term (map (subst_term s) ts)) by (intros ts H; rewrite Forall_forall in *; intros u Hu; apply in_map_iff in Hu as (u' & <- & Hu); apply subst_term_spelled; auto).
  refine (formula_ind_simple _ _ _ _ _ _).
  - intros _. cbn [subst_formula]. rewrite V. exact Logic.I.
  - intros _. cbn [subst_formula]. rewrite V. exact Logic.I.
  - intros p ts [A B]. cbn [subst_formula]. rewrite V. cbn [spelled_formula]. auto.
  - intros c fs H A. cbn [subst_formula]. rewrite V. cbn [spelled_formula] in *. apply sp_fold. apply sp_fold in A. rewrite Forall_forall in *. intros u Hu. apply in_map_iff in Hu as (u' & <- & Hu). auto.
  - intros q vs g IH [A B]. cbn [subst_formula]. rewrite V. cbn [spelled_formula]. auto.
Qed.
Section Domains.
Variable D : domains.
Hypothesis HD : forall s cs t, D s = Some cs -> In t cs -> spelled_term t.
Lemma create_spelled symbols values s : Forall spelled_term values -> create_substitution symbols values = Ok s -> spelled_subst s.
Proof.
  unfold create_substitution. intros H. destruct (create_pairs symbols values) as [l|] eqn:E; [|discriminate]. cbn [bind]. intros X. injection X as <-. split; [reflexivity|]. cbn [sub_t]. intros k v Hin. apply in_rev in Hin.
  revert symbols l E Hin. induction H as [|u values Hu H IH]; intros symbols l E Hin.
  - assert (E' : Ok [] = Ok l) by (rewrite <- E; destruct symbols; reflexivity). injection E' as <-. destruct Hin.
  - destruct symbols as [|k' symbols]; [discriminate|]. cbn [create_pairs] in E. destruct (create_pairs symbols values) as [l'|] eqn:E'; [|discriminate]. cbn [bind] in E. injection E as <-. destruct Hin as [X|Hin]; [injection X as _ <-; exact Hu|eauto].
Qed.
Lemma product_spelled inst values : Forall (Forall spelled_term) inst -> In values (product inst) -> Forall spelled_term values.
Proof.
  intros H Hin. apply product_In in Hin. induction Hin as [|u cs us inst A B IH]; [constructor|]. inversion H as [|? ? Hc Hi]; subst. constructor; [|auto]. rewrite Forall_forall in Hc. auto.
Qed.
Lemma groundings_spelled vs : forall inst, enumerate_groundings D vs = Ok inst -> Forall (Forall spelled_term) inst.
Proof.
  induction vs as [|v vs IH]; intros inst H; cbn [enumerate_groundings] in H; [injection H as <-; constructor|]. destruct v as [x s| | |]; try discriminate; [|auto].
  destruct (D s) as [cs|] eqn:E; [|discriminate]. destruct (enumerate_groundings D vs) as [r|]; [|discriminate]. cbn [bind] in H. injection H as <-. constructor; [apply Forall_forall; eauto|auto].
Qed.
Lemma mapM_In {A B} (f : A -> res B) l ys y : mapM f l = Ok ys -> In y ys -> exists x, In x l /\ f x = Ok y.
Proof. intros H Hin. apply mapM_Forall2 in H. destruct (Forall2_In_r _ _ _ _ H Hin) as (x & Hx & E). eauto. Qed.
Lemma expand_spelled q vs g h : spelled_formula g -> expand D q vs g = Ok h -> spelled_formula h.
Proof.
  intros G. unfold expand. destruct (enumerate_groundings D vs) as [inst|] eqn:E; [|discriminate]. cbn [bind]. apply groundings_spelled in E. destruct (Nat.eqb (cardinality inst) 0); [discriminate|].
  destruct (mapM _ (product inst)) as [cs|] eqn:Mc; [|discriminate]. cbn [bind].
  assert (F : Forall spelled_formula cs).
  { apply Forall_forall. intros f Hf. destruct (mapM_In _ _ _ _ Mc Hf) as (values & Hv & Ev). destruct (create_substitution vs values) as [s|] eqn:Es; [|discriminate]. cbn [bind] in Ev. injection Ev as <-. apply subst_formula_spelled; [|exact G].
    eapply create_spelled; [|exact Es]. eapply product_spelled; eauto. }
  assert (K : forall c a b, spelled_formula a -> spelled_formula b -> spelled_formula (Comp c [a; b])) by (intros c a b Ha Hb; cbn; auto).
  intros H. destruct q; destruct cs as [|a l]; cbn in H; try (injection H as <-; exact Logic.I); (eapply create_compound_pred; [apply K|exact F|exact H]).
Qed.
Lemma qe_spelled m : forall n f f', spelled_formula f -> qe D m n f = Ok f' -> spelled_formula f'.
Proof.
  induction n as [|n IHn]; refine (formula_ind_simple _ _ _ _ _ _).
  1-3,6-8: intros; rewrite qe_unfold in *; match goal with E : Ok _ = Ok _ |- _ => injection E as <-; assumption end.
  all: first [intros c fs HF f' Hf E; rewrite qe_unfold in E; destruct (mapM (qe D m _) fs) as [fs'|] eqn:Em; cbn [bind] in E; [|discriminate]; injection E as <-; cbn [spelled_formula] in *; apply sp_fold; apply sp_fold in Hf; rewrite Forall_forall in *;
              intros g Hg; destruct (mapM_In _ _ _ _ Em Hg) as (g0 & Hg0 & Eg); eauto
             |intros q vs g IH f' [Hv Hg] E; rewrite qe_unfold in E].
  - destruct (eliminated m q); [discriminate|]. destruct (qe D m 0 g) as [g'|] eqn:G; cbn [bind] in E; [|discriminate]. injection E as <-. cbn [spelled_formula]. eauto.
  - destruct (eliminated m q).
    + destruct (expand D q vs g) as [h|] eqn:Ex; cbn [bind] in E; [|discriminate]. apply expand_spelled in Ex; [|exact Hg]. eauto.
    + destruct (qe D m (S n) g) as [g'|] eqn:G; cbn [bind] in E; [|discriminate]. injection E as <-. cbn [spelled_formula]. eauto.
Qed.
Lemma remove_spelled m f f' : spelled_formula f -> remove_quantifiers D m f = Ok f' -> spelled_formula f'.
Proof. apply qe_spelled. Qed.
Lemma subst_effect_spelled s : spelled_subst s -> forall e e', spelled_effect e -> subst_effect s e = Ok e' -> spelled_effect e'.
Proof.
  intros S. assert (SF := subst_formula_spelled s S). refine (effect_ind_nested _ _ _ _ _ _ _).
  - intros c a e' (A & B & C) E. cbn [subst_effect] in E. injection E as <-. cbn [spelled_effect]. split; [auto|]. split; [auto|]. assert (V : forall f, visit_f s f = f) by (intros f; unfold visit_f; rewrite (proj1 S); reflexivity).
    destruct a; cbn [subst_formula]; rewrite V; exact C.
  - intros c a e' [A B] E. cbn [subst_effect] in E. injection E as <-. cbn [spelled_effect]. auto.
  - intros i c x y e' _ E. cbn [subst_effect] in E. injection E as <-. exact Logic.I.
  - intros c vs es HF e' [A B] E. cbn [subst_effect] in E. destruct (mapM (subst_effect s) es) as [es'|] eqn:Em; [|discriminate]. cbn [bind] in E. injection E as <-. cbn [spelled_effect]. split.
    + rewrite Forall_forall in *. intros v Hv. apply filter_In in Hv as [Hv _]. auto.
    + apply sp_fold in B. apply sp_fold. rewrite Forall_forall in *. intros x Hx. destruct (mapM_In _ _ _ _ Em Hx) as (x0 & Hx0 & Ex). eauto.
  - intros c a e' [A B] E. cbn [subst_effect] in E. injection E as <-. cbn [spelled_effect]. auto.
  - intros c e' _ E. discriminate.
Qed.
Lemma expand_effect_spelled e es : spelled_effect e -> expand_effect D e = Ok es -> Forall spelled_effect es.
Proof.
  destruct e as [c a|c a|i c x y|c vs es0|c a|c]; intros S E; cbn [expand_effect] in E; try (injection E as <-; constructor; [exact S|constructor]).
  destruct (is_top c); [|discriminate]. destruct (enumerate_substitutions D vs) as [ss|] eqn:Es; [|discriminate]. cbn [bind] in E. destruct (mapM (fun s => mapM (subst_effect s) es0) ss) as [ls|] eqn:El; [|discriminate]. cbn [bind] in E. injection E as <-.
  destruct S as [_ S]. apply sp_fold in S. apply Forall_forall. intros e He. apply in_concat in He as (l & Hl & He). destruct (mapM_In _ _ _ _ El Hl) as (s & Hs & Em). destruct (mapM_In _ _ _ _ Em He) as (e0 & He0 & Ee).
  assert (Ss : spelled_subst s).
  { unfold enumerate_substitutions in Es. destruct (forallb is_var vs); [|discriminate]. destruct (mapM _ vs) as [doms|] eqn:Ed; [|discriminate]. cbn [bind] in Es. destruct (mapM_In _ _ _ _ Es Hs) as (values & Hv & Ec). eapply create_spelled; [|exact Ec]. eapply product_spelled; [|exact Hv].
    apply Forall_forall. intros cs Hcs. destruct (mapM_In _ _ _ _ Ed Hcs) as (v & _ & Ev). destruct v as [x r| | |]; try discriminate. destruct (D r) as [cs'|] eqn:Er; [|discriminate]. injection Ev as <-. apply Forall_forall. eauto. }
  rewrite Forall_forall in S. exact (subst_effect_spelled s Ss e0 e (S e0 He0) Ee).
Qed.

(** * Free variables *)
Lemma add_t_spelled t l : spelled_term t -> Forall spelled_term l -> Forall spelled_term (add_t t l).
Proof. intros H F. unfold add_t. destruct (mem_t t l); [exact F|]. apply Forall_app. auto. Qed.
Lemma fv_term_spelled : forall t st, spelled_term t -> Forall spelled_term (snd st) -> Forall spelled_term (snd (fv_term t st)).
Proof.
  refine (term_ind_nested (fun t => forall st, spelled_term t -> Forall spelled_term (snd st) -> Forall spelled_term (snd (fv_term t st))) (fun _ => True) _ _ _ _ _ _ _ _ _); auto; intros.
  - cbn [fv_term]. destruct (mem_t _ _); [assumption|]. cbn [snd]. apply add_t_spelled; assumption.
  - cbn [fv_term spelled_term] in *. match goal with H : fold_right _ _ _ |- _ => apply sp_fold in H end.
    match goal with HF : Forall (fun t => forall st, _) ?l, HS : Forall spelled_term ?l, HI : Forall spelled_term (snd ?st) |- _ => revert HF HS HI; generalize l st; clear; intros ts; induction ts as [|u ts IH]; intros st HF HS HI; cbn [fold_left]; [exact HI|]; inversion HF; inversion HS; subst; auto end.
Qed.
Lemma fv_formula_spelled : forall f st st', spelled_formula f -> Forall spelled_term (snd st) -> fv_formula f st = Ok st' -> Forall spelled_term (snd st').
Proof.
  refine (formula_ind_simple _ _ _ _ _ _).
  - intros st st' _ H E. injection E as <-. exact H.
  - intros st st' _ H E. injection E as <-. exact H.
  - intros p ts st st' [_ S] H E. cbn [fv_formula] in E. injection E as <-. revert st H. induction S as [|t ts Ht S IH]; intros st H; cbn [fold_left]; [exact H|]. apply IH. now apply fv_term_spelled.
  - intros c fs HF st st' S H E. cbn [fv_formula spelled_formula] in *. apply sp_fold in S. revert st H E. induction fs as [|g fs IH]; intros st H E; cbn [foldM] in E; [injection E as <-; exact H|].
    inversion HF as [|? ? Hg HF']; inversion S as [|? ? Sg S']; subst. destruct (fv_formula g st) as [st1|] eqn:E1; [|discriminate]. exact (IH HF' S' st1 (Hg st st1 Sg H E1) E).
  - intros q vs g IH st st' [_ S] H E. cbn [fv_formula] in E. destruct (fv_formula g _) as [st2|] eqn:E2; [|discriminate]. cbn [bind] in E. destruct (foldM _ vs (fst st2)) as [q'|]; [|discriminate]. cbn [bind] in E. injection E as <-. cbn [snd].
    eapply IH; [exact S| |exact E2]. exact H.
Qed.
Lemma free_variables_spelled f vs : spelled_formula f -> free_variables f = Ok vs -> Forall spelled_term vs.
Proof. intros S. unfold free_variables. destruct (fv_formula f ([], [])) as [st|] eqn:E; [|discriminate]. cbn [bind]. intros H. injection H as <-. eapply fv_formula_spelled; [exact S| |exact E]. constructor. Qed.

(** * Atoms *)
Lemma process_term_writable t x : spelled_term t -> process_term t = Ok x -> writable (sanitize x).
Proof.
  destruct t as [y s|c s| |]; cbn [process_term spelled_term]; try discriminate.
  - intros [A _] H. exact (proj1 (variable_unknown _ _ A H)).
  - intros [A _] H. injection H as <-. exact (proj1 (constant_fixed c A)).
Qed.
Lemma process_terms_writable ts xs : Forall spelled_term ts -> mapM process_term ts = Ok xs -> Forall writable (map sanitize xs).
Proof.
  intros S E. apply Forall_forall. intros x Hx. apply in_map_iff in Hx as (y & <- & Hy). destruct (mapM_In _ _ _ _ E Hy) as (t & Ht & Et). rewrite Forall_forall in S. exact (process_term_writable t y (S t Ht) Et).
Qed.
Variable R : rule -> Prop.
Notation post := (post R).
Lemma post_atom p ts : spelled_formula (Atom p ts) -> post (tarski_atom_to_lp_atom p ts) writable_atom.
Proof.
  intros [A S]. unfold tarski_atom_to_lp_atom. eapply post_bnd; [apply post_lift; intros xs E; exact (process_terms_writable ts xs S E)|]. intros xs W. destruct p as [b|n ss].
  - eapply post_weaken; [|apply post_builtin]. intros a (-> & L). split; [exact W|]. cbn [lp_infix lp_sym lp_args]. rewrite map_length. split; [destruct b; cbn; tauto|exact L].
  - eapply post_weaken; [|apply post_lp_atom, atom_prefix]. intros a ->. split; [exact W|]. apply prefixed_pred; [cbn; tauto|exact A].
Qed.
Lemma post_user n ss ts : spelled_formula (Atom (PU n ss) ts) -> post (tarski_atom_to_lp_atom (PU n ss) ts) (fun a => writable_atom a /\ lp_infix a = false).
Proof.
  intros [A S]. unfold tarski_atom_to_lp_atom. eapply post_bnd; [apply post_lift; intros xs E; exact (process_terms_writable ts xs S E)|]. intros xs W.
  eapply post_weaken; [|apply post_lp_atom, atom_prefix]. intros a ->. split; [|reflexivity]. split; [exact W|]. apply prefixed_pred; [cbn; tauto|exact A].
Qed.
Lemma post_type t : spelled_term t -> post (lp_type_atom t) (fun a => writable_atom a /\ lp_infix a = false).
Proof.
  destruct t as [x s|c s| |]; cbn [lp_type_atom spelled_term]; intros S; try apply post_fail; destruct S as [A B].
  - eapply post_bnd; [apply post_lift; intros y E; exact (proj1 (variable_unknown _ _ A E))|]. intros y W. eapply post_weaken; [|apply post_lp_atom, type_prefix]. intros a ->. split; [|reflexivity]. split; [constructor; [exact W|constructor]|]. apply prefixed_pred; [cbn; tauto|exact B].
  - eapply post_bnd; [apply post_lift; intros y E; exact (uncapitalize_name _ _ A E)|]. intros y ->. eapply post_weaken; [|apply post_lp_atom, type_prefix]. intros a ->. split; [|reflexivity].
    split; [constructor; [exact (proj1 (constant_fixed c A))|constructor]|]. apply prefixed_pred; [cbn; tauto|exact B].
Qed.
Lemma post_types ts : Forall spelled_term ts -> post (mapS lp_type_atom ts) (Forall writable_atom).
Proof.
  intros S. eapply post_weaken; [|apply (post_mapS R lp_type_atom (fun _ a => writable_atom a)); intros t Ht; eapply post_weaken; [|apply post_type; rewrite Forall_forall in S; auto]; cbv beta; tauto].
  intros l H. clear S. induction H; constructor; auto.
Qed.
Lemma tautology_writable : writable_atom lp_tautology.
Proof. split; [repeat constructor; try reflexivity; discriminate|]. split; [left; reflexivity|reflexivity]. Qed.
Lemma negate_writable a b : writable_atom a -> negate_lp_atom a = Ok b -> writable_atom b.
Proof.
  intros W. unfold negate_lp_atom. destruct (symbol_complements (lp_sym a)) as [s|] eqn:E; destruct (lp_infix a) eqn:I; try discriminate; intros H; injection H as <-; [|exact tautology_writable].
  destruct W as [F W]. rewrite I in W. destruct W as [_ L]. split; [exact F|]. cbn [lp_infix lp_sym lp_args]. split; [|exact L]. unfold symbol_complements in E. cbn in E.
  repeat match type of E with context [if ?b then _ else _] => destruct b; [injection E as <-; cbn; tauto|] end. discriminate.
Qed.
End Domains.

Section Writable.
Notation R := writable_rule.
Lemma post_formula ineq : forall f, spelled_formula f -> post R (process_formula ineq f) (Forall writable_atom).
Proof.
  assert (AUX : forall a, writable_pred (lp_sym a) -> lp_infix a = false -> Forall writable (lp_args a) -> writable_atom a) by (intros a A B C; split; [exact C|rewrite B; exact A]).
  refine (formula_ind_simple _ _ _ _ _ _).
  - intros _. apply post_ret. constructor.
  - intros _. apply post_fail.
  - intros p ts S. cbn [process_formula]. eapply post_bnd; [apply post_atom; exact S|]. intros a W. apply post_ret. auto.
  - intros c fs HF S. assert (S' := S). cbn [spelled_formula] in S'. apply sp_fold in S'. assert (FS : forall g, In g fs -> post R (process_formula ineq g) (Forall writable_atom)) by (rewrite Forall_forall in *; auto).
    assert (MS : post R (mapS (process_formula ineq) fs) (Forall (Forall writable_atom))).
    { eapply post_weaken; [|apply (post_mapS R (process_formula ineq) (fun _ b => Forall writable_atom b)); exact FS]. intros l H. clear - H. induction H; constructor; auto. }
    destruct c; cbn [process_formula].
    + eapply post_bnd; [exact MS|]. intros l H. apply post_ret. clear - H. induction H; cbn [List.concat]; [constructor|]. apply Forall_app. auto.
    + eapply post_bnd; [apply post_lift; intros vs E; exact (free_variables_spelled _ vs S E)|]. intros vs Hvs. eapply post_bnd; [apply post_lift; intros xs E; exact (process_terms_writable vs xs Hvs E)|]. intros xs W.
      eapply post_bnd; [apply post_aux|]. intros aux (A & B & C). eapply post_bnd; [apply post_types; exact Hvs|]. intros types T. eapply post_bnd; [exact MS|]. intros sub Hsub. assert (WA : writable_atom aux) by (apply AUX; [exact A|exact C|rewrite B; exact W]).
      eapply post_bnd; [apply post_each; intros body Hb; apply post_add_rule; rewrite Forall_forall in Hsub|].
      * split; [exact C|]. split; [exact WA|]. cbn [r_body]. apply Forall_app. auto.
      * intros _ _. apply post_ret. auto.
    + destruct (negb ineq); [apply post_ret; constructor; [exact tautology_writable|constructor]|]. destruct fs as [|g [|g' fs]]; try apply post_fail; [destruct g as [| |p ts| |]; try apply post_fail|destruct g; apply post_fail].
      inversion S' as [|? ? Sg _]; subst. eapply post_bnd; [apply post_atom; exact Sg|]. intros a W. eapply post_bnd; [apply post_lift; intros b E; exact (negate_writable a b W E)|]. intros b Wb. apply post_ret. auto.
  - intros q vs g IH [Sv Sg]. destruct q; cbn [process_formula]; [|apply post_fail]. eapply post_bnd; [apply post_aux|]. intros aux (A & B & C). assert (WA : writable_atom aux) by (apply AUX; [exact A|exact C|rewrite B; constructor]).
    eapply post_bnd; [apply post_types; exact Sv|]. intros types T. eapply post_bnd; [exact (IH Sg)|]. intros body Hb. eapply post_bnd; [apply post_add_rule; split; [exact C|]; split; [exact WA|]; cbn [r_body]; apply Forall_app; auto|]. intros _ _. apply post_ret. auto.
Qed.
Section WithDomains.
Variable D : domains.
Hypothesis HD : forall s cs t, D s = Some cs -> In t cs -> spelled_term t.
Definition rule_part (r : option (lpatom * list lpatom)) : Prop := match r with Some (h, b) => writable_atom h /\ lp_infix h = false /\ Forall writable_atom b | None => True end.
Lemma post_effect ineq e : spelled_effect e -> post R (process_effect D ineq e) rule_part.
Proof.
  destruct e as [c a|c a|i c x y|c vs es|c a|c]; cbn [process_effect]; intros S; try apply post_fail; [|apply post_ret; exact Logic.I].
  destruct a as [| |p ts| |]; try apply post_fail. destruct S as (Sc & Sa & U). destruct p as [b|n ss]; [destruct U|]. eapply post_bnd; [apply post_user; exact Sa|]. intros h [W I].
  eapply post_bnd; [apply post_lift; intros f E; exact (remove_spelled D HD _ _ _ Sc E)|]. intros f Sf. eapply post_bnd; [apply post_formula; exact Sf|]. intros b Wb. apply post_ret. cbn [rule_part]. auto.
Qed.
Lemma post_effect_rule pre r : Forall writable_atom pre -> rule_part r -> post R (add_effect_rule pre r) (fun _ => True).
Proof. intros P H. destruct r as [[h b]|]; cbn [add_effect_rule]; [|apply post_ret; exact Logic.I]. destruct H as (W & I & B). apply post_add_rule. split; [exact I|]. split; [exact W|]. cbn [r_body]. apply Forall_app. auto. Qed.
End WithDomains.
End Writable.
