(** The rules of the compiler are safe: the rules. *)
From Coq Require Import Ascii.
From Verif Require Import Base Syntax SubstSpec SemLemmas Build QElimProofs Subst FreeVars QElim ModelState ModelText Lang LangSpec LangProofs LangProofs2 LangProofs3 Effects Represent Grounding Index Asp AspNamesSpec PropsAspNames SubstProofs NnfProofs FreeVarsProofs AspText AspTextSpec AspTextProofs1 AspTextProofs2 AspTextProofs3 AspTextProofs4 AspTextProofs5 AspProofs3 AspProofs2 AspProofs1 AspSpec.
#[local] Open Scope string_scope.

(** * Free variables *)
Definition vt (v : var) : term := Var (fst v) (snd v).
Lemma add_t_In t l u : In u (add_t t l) <-> u = t \/ In u l.
Proof.
  unfold add_t. destruct (mem_t t l) eqn:E.
  - split; [auto|]. intros [-> |H]; [|exact H]. unfold mem_t in E. apply existsb_exists in E as (w & Hw & Ew). apply term_eqb_eq in Ew. now subst.
  - rewrite in_app_iff. cbn [In]. split; intros H; intuition.
Qed.
Lemma fv_terms_grow : forall ts st, fst (fold_left (fun s u => fv_term u s) ts st) = fst st /\ incl (snd st) (snd (fold_left (fun s u => fv_term u s) ts st)) /\ (forall v, In (vt v) ts -> ~ In (vt v) (fst st) -> In (vt v) (snd (fold_left (fun s u => fv_term u s) ts st))).
Proof.
  assert (G : forall t st, fst (fv_term t st) = fst st /\ incl (snd st) (snd (fv_term t st))).
  { refine (term_ind_nested (fun t => forall st, fst (fv_term t st) = fst st /\ incl (snd st) (snd (fv_term t st))) (fun _ => True) _ _ _ _ _ _ _ _ _); auto; intros; cbn [fv_term]; try (split; [reflexivity|apply incl_refl]).
    - destruct (mem_t _ _); cbn [fst snd]; split; try reflexivity; try apply incl_refl. intros u Hu. apply add_t_In. auto.
    - match goal with HF : Forall (fun t => forall st, _) ?l |- _ => revert st; induction HF as [|u ts Hu HF IH]; intros st; cbn [fold_left]; [split; [reflexivity|apply incl_refl]|]; destruct (IH (fv_term u st)) as [A B]; destruct (Hu st) as [A' B']; split; [congruence|intros w Hw; auto] end. }
  induction ts as [|t ts IH]; intros st; cbn [fold_left]; [split; [reflexivity|]; split; [apply incl_refl|intros v []]|]. destruct (G t st) as [A B]. destruct (IH (fv_term t st)) as (A' & B' & C'). split; [congruence|]. split; [intros w Hw; auto|].
  intros v Hv N. destruct Hv as [-> |Hv]; [|apply C'; [exact Hv|rewrite A; exact N]]. apply B'. unfold vt in *. cbn [fv_term]. destruct (mem_t (Var (fst v) (snd v)) (fst st)) eqn:E; [|cbn [snd]; apply add_t_In; auto].
  exfalso. apply N. unfold mem_t in E. apply existsb_exists in E as (w & Hw & Ew). apply term_eqb_eq in Ew. now subst.
Qed.
Lemma add_t_NoDup t l : NoDup l -> NoDup (add_t t l).
Proof.
  intros H. unfold add_t. destruct (mem_t t l) eqn:E; [exact H|]. rewrite <- (rev_involutive (l ++ [t])). apply NoDup_rev. rewrite rev_app_distr. cbn. constructor; [|now apply NoDup_rev]. intros X. apply in_rev in X.
  assert (Y : mem_t t l = true) by (unfold mem_t; apply existsb_exists; exists t; split; [exact X|apply term_eqb_refl]). congruence.
Qed.
Lemma adds_t vs : forall q, NoDup q -> NoDup (fold_left (fun q v => add_t v q) vs q) /\ (forall u, In u (fold_left (fun q v => add_t v q) vs q) <-> In u q \/ In u vs).
Proof.
  induction vs as [|v vs IH]; intros q H; cbn [fold_left]; [split; [exact H|]; intros u; cbn [In]; tauto|]. destruct (IH (add_t v q) (add_t_NoDup v q H)) as [A B]. split; [exact A|]. intros u. rewrite B, add_t_In. cbn [In]. intuition.
Qed.
Lemma remove_t_spec t : forall l l', NoDup l -> remove_t t l = Ok l' -> NoDup l' /\ (forall u, In u l' -> In u l /\ u <> t).
Proof.
  induction l as [|u l IH]; intros l' H E; cbn [remove_t] in E; [discriminate|]. inversion H as [|? ? N H']; subst. destruct (term_eqb t u) eqn:T.
  - injection E as <-. apply term_eqb_eq in T. subst u. split; [exact H'|]. intros w Hw. split; [right; exact Hw|]. intros ->. contradiction.
  - destruct (remove_t t l) as [r|]; [|discriminate]. cbn [bind] in E. injection E as <-. destruct (IH r H' eq_refl) as [A B]. split; [constructor; [intros X; apply N; apply (B u X)|exact A]|].
    intros w [<-|Hw]; [split; [left; reflexivity|]; intros ->; rewrite term_eqb_refl in T; discriminate|]. destruct (B w Hw). split; [right; assumption|assumption].
Qed.
Lemma removes_t vs : forall q q', NoDup q -> foldM (fun q v => remove_t v q) vs q = Ok q' -> NoDup q' /\ (forall u, In u q' -> In u q /\ ~ In u vs).
Proof.
  induction vs as [|v vs IH]; intros q q' H E; cbn [foldM] in E; [injection E as <-; split; [exact H|]; intros u Hu; split; [exact Hu|intros []]|]. destruct (remove_t v q) as [q1|] eqn:R; [|discriminate]. destruct (remove_t_spec v q q1 H R) as [A B]. destruct (IH q1 q' A E) as [A' B'].
  split; [exact A'|]. intros u Hu. destruct (B' u Hu) as [X Y]. destruct (B u X) as [Z T]. split; [exact Z|]. intros [K|K]; [congruence|contradiction].
Qed.
Lemma fv_compared : forall f st st', NoDup (fst st) -> fv_formula f st = Ok st' -> NoDup (fst st') /\ incl (fst st') (fst st) /\ incl (snd st) (snd st') /\ (forall v, In v (compared f) -> ~ In (vt v) (fst st) -> In (vt v) (snd st')).
Proof.
  refine (formula_ind_simple _ _ _ _ _ _).
  - intros st st' N E. injection E as <-. split; [exact N|]. split; [apply incl_refl|]. split; [apply incl_refl|intros v []].
  - intros st st' N E. injection E as <-. split; [exact N|]. split; [apply incl_refl|]. split; [apply incl_refl|intros v []].
  - intros p ts st st' N E. cbn [fv_formula] in E. injection E as <-. destruct (fv_terms_grow ts st) as (A & B & C). rewrite A. split; [exact N|]. split; [apply incl_refl|]. split; [exact B|]. intros v Hv. destruct p; cbn [compared] in Hv; [|destruct Hv]. apply C. now apply vars_of_iff in Hv.
  - intros c fs HF st st' N E. cbn [fv_formula] in E.
    assert (G : NoDup (fst st') /\ incl (fst st') (fst st) /\ incl (snd st) (snd st') /\ (forall v, In v (flat_map compared fs) -> ~ In (vt v) (fst st) -> In (vt v) (snd st'))).
    { revert st N E. induction HF as [|g fs Hg HF IH]; intros st N E; cbn [foldM] in E; [injection E as <-; split; [exact N|]; split; [apply incl_refl|]; split; [apply incl_refl|intros v []]|].
      destruct (fv_formula g st) as [st1|] eqn:E1; [|discriminate]. destruct (Hg st st1 N E1) as (A & B & C & F). destruct (IH st1 A E) as (A' & B' & C' & F'). split; [exact A'|]. split; [intros u Hu; auto|]. split; [intros u Hu; auto|].
      intros v Hv X. cbn [flat_map] in Hv. apply in_app_or in Hv as [Hv|Hv]; [apply C'; apply F; assumption|]. apply F'; [exact Hv|]. intros Y. apply X. auto. }
    destruct G as (A & B & C & F). split; [exact A|]. split; [exact B|]. split; [exact C|]. destruct c; cbn [compared]; [exact F|intros v []|exact F].
  - intros q vs g IH st st' N E. cbn [fv_formula] in E. destruct (fv_formula g _) as [st2|] eqn:E2; [|discriminate]. cbn [bind] in E. destruct (foldM _ vs (fst st2)) as [q'|] eqn:E3; [|discriminate]. cbn [bind] in E. injection E as <-. cbn [fst snd].
    destruct (adds_t vs (fst st) N) as [N1 H1]. destruct (IH (fold_left (fun q v => add_t v q) vs (fst st), snd st) st2 N1 E2) as (A & B & C & F). cbn [fst snd] in *. destruct (removes_t vs (fst st2) q' A E3) as [N2 H2]. split; [exact N2|]. split.
    + intros u Hu. destruct (H2 u Hu) as [X Y]. apply B, H1 in X as [X|X]; [exact X|contradiction].
    + split; [exact C|]. intros v Hv X. destruct q; cbn [compared] in Hv; [destruct Hv|]. apply filter_In in Hv as [Hv Hm]. apply F; [exact Hv|]. intros Y. apply H1 in Y as [Y|Y]; [contradiction|]. apply negb_true_iff, mem_var_false in Hm. apply Hm. now apply vars_of_iff.
Qed.
Lemma free_compared fs g vs : free_variables (Comp Or fs) = Ok vs -> In g fs -> incl (compared g) (vars_of vs).
Proof.
  unfold free_variables. destruct (fv_formula (Comp Or fs) ([], [])) as [st|] eqn:E; [|discriminate]. cbn [bind]. intros H Hg. injection H as <-. cbn [fv_formula] in E.
  assert (G : forall st0 st1, fst st0 = [] -> foldM (fun s g => fv_formula g s) fs st0 = Ok st1 -> forall v, In v (compared g) -> In (vt v) (snd st1)).
  { clear st E. induction fs as [|h fs IH]; intros st0 st1 F0 E v Hv; [destruct Hg|]. cbn [foldM] in E. destruct (fv_formula h st0) as [st2|] eqn:E2; [|discriminate].
    assert (N0 : NoDup (fst st0)) by (rewrite F0; constructor). destruct (fv_compared h st0 st2 N0 E2) as (A & B & C & F). rewrite F0 in B. assert (F2 : fst st2 = []) by (destruct (fst st2) as [|u q]; [reflexivity|]; destruct (B u (or_introl eq_refl))).
    destruct Hg as [-> |Hg]; [|apply (IH Hg st2 st1 F2 E v Hv)]. assert (X : In (vt v) (snd st2)) by (apply F; [exact Hv|rewrite F0; intros []]). assert (N2 : NoDup (fst st2)) by (rewrite F2; constructor).
    destruct (fv_compared (Comp Or fs) st2 st1 N2 E) as (_ & _ & C' & _). apply C'. exact X. }
  intros v Hv. apply vars_of_iff. exact (G ([], []) st eq_refl E v Hv).
Qed.

(** * Safe rules *)
Definition occurs_in (body : list lpatom) (x : string) : Prop := exists a, In a body /\ lp_infix a = false /\ In x (lp_args a).
Definition safe_rule (r : rule) : Prop := forall x, variable_like x = true -> In x (lp_args (r_head r)) \/ (exists a, In a (r_body r) /\ In x (lp_args a)) -> occurs_in (r_body r) x.
Definition named_by (ws : list var) (x : string) : Prop := exists v, In v ws /\ written v x.
Definition names_only (ws : list var) (xs : list string) : Prop := forall x, In x xs -> variable_like x = true -> named_by ws x.
Definition compares_only (ws : list var) (a : lpatom) : Prop := lp_infix a = true -> names_only ws (lp_args a).
Lemma named_incl ws ws' x : incl ws ws' -> named_by ws x -> named_by ws' x. Proof. intros H (v & Hv & W). exists v. auto. Qed.
Lemma compares_incl ws ws' a : incl ws ws' -> compares_only ws a -> compares_only ws' a. Proof. intros H C I x Hx V. exact (named_incl _ _ _ H (C I x Hx V)). Qed.
Lemma compares_all ws ws' b : incl ws ws' -> Forall (compares_only ws) b -> Forall (compares_only ws') b. Proof. intros H F. rewrite Forall_forall in *. intros a Ha. exact (compares_incl _ _ _ H (F a Ha)). Qed.
Lemma safe_intro ws h b : names_only ws (lp_args h) -> Forall (compares_only ws) b -> (forall x, named_by ws x -> occurs_in b x) -> safe_rule {| r_head := h; r_body := b |}.
Proof.
  intros H F O x V [X|(a & Ha & X)]; cbn [r_head r_body] in *; [apply O, H; auto|]. destruct (lp_infix a) eqn:I; [|exists a; auto]. rewrite Forall_forall in F. apply O. exact (F a Ha I x X V).
Qed.
Lemma safe_clause r : writable_rule r -> safe_rule r -> safe (clause_of r).
Proof.
  intros (I & W & B) S. rewrite Forall_forall in B.
  assert (K : forall y, writable y -> In y (lp_args (r_head r)) \/ (exists a, In a (r_body r) /\ In y (lp_args a)) -> bound_in (c_body (clause_of r)) (arg_of y)).
  { intros y [Wa Ww] H. rewrite (underscore_like y Wa Ww). destruct (variable_like y) eqn:V; [|constructor]. destruct (S y V H) as (a & Ha & Ia & Hy). apply bound_atom with (p := lp_sym a) (args := map arg_of (lp_args a)).
    - cbn [clause_of c_body]. apply in_map_iff. exists a. split; [|exact Ha]. unfold literal_of. rewrite Ia. reflexivity.
    - apply in_map_iff. exists y. split; [|exact Hy]. rewrite (underscore_like y Wa Ww), V. reflexivity. }
  split; [|split].
  - intros a Ha. cbn [clause_of c_args] in Ha. apply in_map_iff in Ha as (y & <- & Hy). apply K; [|auto]. destruct W as [W _]. rewrite Forall_forall in W. auto.
  - intros p args a Hp Ha. cbn [clause_of c_body] in Hp. apply in_map_iff in Hp as (b & Eb & Hb). destruct (B b Hb) as [Wb _]. rewrite Forall_forall in Wb. destruct (lp_infix b) eqn:Ib; [destruct (writable_two b (B b Hb) Ib) as (x & y & E & _); unfold literal_of in Eb; rewrite Ib, E in Eb; discriminate|].
    unfold literal_of in Eb. rewrite Ib in Eb. assert (E2 : Holds (lp_sym b) (map arg_of (lp_args b)) = Holds p args) by exact Eb. injection E2 as _ <-. apply in_map_iff in Ha as (y & <- & Hy). apply K; [auto|]. right. eauto.
  - intros op x y Hp. cbn [clause_of c_body] in Hp. apply in_map_iff in Hp as (b & Eb & Hb). destruct (lp_infix b) eqn:Ib; [|unfold literal_of in Eb; rewrite Ib in Eb; discriminate]. destruct (writable_two b (B b Hb) Ib) as (x' & y' & E & Wx & Wy & _).
    unfold literal_of in Eb. rewrite Ib, E in Eb. injection Eb as _ <- <-. split; (apply K; [assumption|]; right; exists b; split; [exact Hb|rewrite E; cbn; auto]).
Qed.
Lemma fixed_plain x : fixed x -> variable_like x = false.
Proof. intros [[A B] E]. rewrite (underscore_like x A B) in E. destruct (variable_like x); [discriminate|reflexivity]. Qed.
Lemma process_names ts xs : Forall spelled_term ts -> mapM process_term ts = Ok xs -> names_only (vars_of ts) (map sanitize xs).
Proof.
  intros S E x Hx V. apply in_map_iff in Hx as (y & <- & Hy). destruct (mapM_In _ _ _ _ E Hy) as (t & Ht & Et). rewrite Forall_forall in S. specialize (S t Ht). destruct t as [z s|c s| |]; cbn [process_term] in Et; try discriminate.
  - exists (z, s). split; [now apply vars_of_iff|]. exists y. auto.
  - exfalso. injection Et as <-. rewrite (fixed_plain _ (constant_fixed c (proj1 S))) in V. discriminate.
Qed.
Lemma process_covers ts xs x : mapM process_term ts = Ok xs -> named_by (vars_of ts) x -> In x (map sanitize xs).
Proof.
  intros E (v & Hv & y & Ey & ->). apply vars_of_iff in Hv. apply mapM_Forall2 in E. destruct (Forall2_In_l _ _ _ _ E Hv) as (z & Hz & Ez). cbn [process_term] in Ez. rewrite Ey in Ez. injection Ez as ->. now apply in_map.
Qed.
Section Safe.
Notation R := safe_rule.
Definition typed (vs : list var) (types : list lpatom) : Prop := Forall (fun a => lp_infix a = false) types /\ forall x, named_by vs x -> occurs_in types x.
Lemma post_typed ts : post R (mapS lp_type_atom ts) (typed (vars_of ts)).
Proof.
  eapply post_weaken; [|apply (post_mapS R lp_type_atom (fun t a => lp_infix a = false /\ forall x s w, t = Var x s -> written (x, s) w -> In w (lp_args a)))].
  - intros l H. split; [induction H as [|t a ts l [A _] H IH]; constructor; auto|]. intros w (v & Hv & Wv). apply vars_of_iff in Hv. destruct (Forall2_In_l _ _ _ _ H Hv) as (a & Ha & I & X). exists a. split; [exact Ha|]. split; [exact I|]. apply (X (fst v) (snd v)); [reflexivity|destruct v; exact Wv].
  - intros t _. destruct t as [x s|c s| |]; cbn [lp_type_atom]; try apply post_fail.
    + eapply post_bnd; [apply post_lift; intros y E; exact E|]. intros y E. eapply post_weaken; [|apply post_lp_atom, type_prefix]. intros a ->. split; [reflexivity|]. intros x' s' w X (y' & Ey & ->). injection X as <- <-. cbn [fst] in Ey. rewrite E in Ey. injection Ey as <-. cbn [lp_args map]. left. reflexivity.
    + eapply post_bnd; [apply post_lift; intros y E; exact Logic.I|]. intros y _. eapply post_weaken; [|apply post_lp_atom, type_prefix]. intros a ->. split; [reflexivity|]. intros. discriminate.
Qed.
Lemma occurs_app_l a b x : occurs_in a x -> occurs_in (a ++ b)%list x. Proof. intros (c & H & X). exists c. split; [apply in_or_app; auto|exact X]. Qed.
Lemma occurs_app_r a b x : occurs_in b x -> occurs_in (a ++ b)%list x. Proof. intros (c & H & X). exists c. split; [apply in_or_app; auto|exact X]. Qed.
Lemma compares_plain ws b : Forall (fun a => lp_infix a = false) b -> Forall (compares_only ws) b.
Proof. intros H. rewrite Forall_forall in *. intros a Ha I. rewrite (H a Ha) in I. discriminate. Qed.
Lemma post_atom_names p ts : spelled_formula (Atom p ts) -> post R (tarski_atom_to_lp_atom p ts) (fun a => names_only (vars_of ts) (lp_args a) /\ match p with PU _ _ => lp_infix a = false | PB _ => True end).
Proof.
  intros [_ S]. unfold tarski_atom_to_lp_atom. eapply post_bnd; [apply post_lift; intros xs E; exact (process_names ts xs S E)|]. intros xs W. destruct p as [b|n ss].
  - eapply post_weaken; [|apply post_builtin]. intros a (-> & _). split; [exact W|exact Logic.I].
  - eapply post_weaken; [|apply post_lp_atom, atom_prefix]. intros a ->. split; [exact W|reflexivity].
Qed.
Lemma atom_compares p ts a : names_only (vars_of ts) (lp_args a) /\ match p with PU _ _ => lp_infix a = false | PB _ => True end -> compares_only (compared (Atom p ts)) a.
Proof. intros [N I] X. destruct p; [exact N|]. rewrite I in X. discriminate. Qed.
Lemma tautology_compares ws : compares_only ws lp_tautology.
Proof. intros _ x [<-|[<-|[]]] V; discriminate. Qed.
Lemma post_safe ineq : forall f U, spelled_formula f -> locally_compared U f -> post R (process_formula ineq f) (Forall (compares_only (compared f))).
Proof.
  refine (formula_ind_simple _ _ _ _ _ _).
  - intros U _ _. apply post_ret. constructor.
  - intros U _ _. apply post_fail.
  - intros p ts U S _. cbn [process_formula]. eapply post_bnd; [apply post_atom_names; exact S|]. intros a W. apply post_ret. constructor; [exact (atom_compares p ts a W)|constructor].
  - intros c fs HF U S L. assert (S' := S). cbn [spelled_formula locally_compared] in S', L. apply sp_fold in S'. apply fold_and in L. assert (FS : forall g, In g fs -> post R (process_formula ineq g) (Forall (compares_only (compared g)))) by (rewrite Forall_forall in *; eauto).
    assert (MS : post R (mapS (process_formula ineq) fs) (Forall2 (fun g b => Forall (compares_only (compared g)) b) fs)) by (apply (post_mapS R (process_formula ineq) (fun g b => Forall (compares_only (compared g)) b)); exact FS).
    destruct c; cbn [process_formula].
    + eapply post_bnd; [exact MS|]. intros l H. apply post_ret. cbn [compared]. apply Forall_forall. intros a Ha. apply in_concat in Ha as (b & Hb & Ha). destruct (Forall2_In_r _ _ _ _ H Hb) as (g & Hg & Fb). rewrite Forall_forall in Fb.
      apply (compares_incl (compared g)); [|auto]. intros v Hv. apply in_flat_map. eauto.
    + eapply post_bnd; [apply post_lift; intros vs E; exact E|]. intros vs Ev. assert (Hvs := free_variables_spelled _ vs S Ev). eapply post_bnd; [apply post_lift; intros xs E; exact (process_names vs xs Hvs E)|]. intros xs W.
      eapply post_bnd; [apply post_aux|]. intros aux (A & B & C). eapply post_bnd; [apply post_typed|]. intros types [T1 T2]. eapply post_bnd; [exact MS|]. intros sub Hsub.
      eapply post_bnd; [apply post_each; intros body Hb; apply post_add_rule|].
      * destruct (Forall2_In_r _ _ _ _ Hsub Hb) as (g & Hg & Fb). apply (safe_intro (vars_of vs)); [rewrite B; exact W| |intros x Hx; apply occurs_app_r; auto]. apply Forall_app. split; [apply (compares_all (compared g)); [exact (free_compared fs g vs Ev Hg)|exact Fb]|now apply compares_plain].
      * intros _ _. apply post_ret. constructor; [|constructor]. intros X. congruence.
    + destruct (negb ineq); [apply post_ret; constructor; [apply tautology_compares|constructor]|]. destruct fs as [|g [|g' fs]]; try apply post_fail; [destruct g as [| |p ts| |]; try apply post_fail|destruct g; apply post_fail].
      inversion S' as [|? ? Sg _]; subst. eapply post_bnd; [apply post_atom_names; exact Sg|]. intros a W. eapply post_bnd; [apply post_lift; intros b E; exact E|]. intros b E. apply post_ret. constructor; [|constructor].
      apply atom_compares in W. unfold negate_lp_atom in E. destruct (symbol_complements (lp_sym a)); destruct (lp_infix a) eqn:I; try discriminate; injection E as <-; [|apply tautology_compares].
      intros _ x Hx V. cbn [lp_args] in Hx. cbn [compared flat_map]. rewrite app_nil_r. exact (W I x Hx V).
  - intros q vs g IH U [Sv Sg] L. destruct q; cbn [process_formula]; [|apply post_fail]. destruct L as [Lg Li]. eapply post_bnd; [apply post_aux|]. intros aux (A & B & C).
    eapply post_bnd; [apply post_typed|]. intros types [T1 T2]. eapply post_bnd; [exact (IH U Sg Li)|]. intros body Hb. eapply post_bnd; [apply post_add_rule; apply (safe_intro (vars_of vs))|].
    + rewrite B. intros x [].
    + apply Forall_app. split; [exact (compares_all _ _ _ Lg Hb)|now apply compares_plain].
    + intros x Hx. apply occurs_app_r. auto.
    + intros _ _. apply post_ret. constructor; [|constructor]. intros X. congruence.
Qed.
End Safe.

Section Problem.
Variables (parse : bool -> string -> option Z) (ops : list lop).
Hypothesis Hn : forallb native ops = true.
Let l := lrun parse ops.
Variable p : problem.
Hypothesis HS : spelled l p.
Hypothesis HB : bound_problem p.
Notation R := safe_rule.
Let D := lang_domains l.
Let HDs := HD parse ops Hn p HS.
Lemma HC : forall s cs t, D s = Some cs -> In t cs -> is_var t = false.
Proof. intros s cs t E Ht. destruct (lang_constants_only l s cs t E Ht) as (c & r & ->). reflexivity. Qed.
Lemma vars_terms vs : vars_of (var_terms vs) = vs.
Proof. induction vs as [|[x s] vs IH]; [reflexivity|]. unfold var_terms, vars_of in *. cbn [map flat_map app fst snd]. f_equal. exact IH. Qed.
Definition part (W : list var) (r : option (lpatom * list lpatom)) : Prop := match r with Some (h, b) => names_only W (lp_args h) /\ Forall (compares_only W) b | None => True end.
Lemma post_effect_safe ineq W e : spelled_effect e -> (forall c a, e = EAdd c a -> bound_effect [] W e) -> post R (process_effect D ineq e) (part W).
Proof.
  destruct e as [c a|c a|i c x y|c vs es|c a|c]; cbn [process_effect]; intros S B; try apply post_fail; [|apply post_ret; exact Logic.I].
  destruct a as [| |q ts| |]; try apply post_fail. destruct S as (Sc & Sa & _). destruct (B _ _ eq_refl) as (B1 & B2 & B3). eapply post_bnd; [apply post_atom_names; exact Sa|]. intros h [N _].
  eapply post_bnd; [apply post_lift; intros f E; exact (conj (remove_spelled D HDs _ _ _ Sc E) (local_remove D HC [] _ _ B1 E))|]. intros f (Sf & Lf & If). eapply post_bnd; [apply (post_safe ineq f []); assumption|]. intros b Wb. apply post_ret. split.
  - intros x Hx V. exact (named_incl _ _ _ B3 (N x Hx V)).
  - apply (compares_all (compared f)); [|exact Wb]. intros v Hv. auto.
Qed.
Lemma post_rule_safe W pre r : Forall (compares_only W) pre -> (forall x, named_by W x -> occurs_in pre x) -> part W r -> post R (add_effect_rule pre r) (fun _ => True).
Proof.
  intros P O H. destruct r as [[h b]|]; cbn [add_effect_rule]; [|apply post_ret; exact Logic.I]. destruct H as [N C]. apply post_add_rule. apply (safe_intro W); [exact N|apply Forall_app; auto|]. intros x Hx. apply occurs_app_l. auto.
Qed.
Lemma pre_safe ineq a : In a (p_actions p) -> post R (let* phi := lift (remove_quantifiers D MForall (a_pre a)) in process_formula ineq phi) (Forall (compares_only (param_vars a))).
Proof.
  intros Ha. destruct (sp_actions _ _ HS a Ha) as (_ & _ & Pre & _). destruct (bp_pre _ HB a Ha) as [L I]. eapply post_bnd; [apply post_lift; intros f E; exact (conj (remove_spelled D HDs _ _ _ Pre E) (local_remove D HC [] _ _ L E))|]. intros f (Sf & Lf & If).
  eapply post_weaken; [|apply (post_safe ineq f []); assumption]. intros b Hb. apply (compares_all (compared f)); [|exact Hb]. intros v Hv. auto.
Qed.
Lemma bnd_assoc {A B C} (m : M A) (k : A -> M B) (h : B -> M C) Q : post R (bnd (bnd m k) h) Q -> post R (bnd m (fun a => bnd (k a) h)) Q.
Proof. intros H st c st' I F E. apply (H st c st' I F). unfold bnd in *. destruct (m st) as [[a st1]|]; [exact E|discriminate]. Qed.
Lemma action_safe ineq a : In a (p_actions p) -> post R (process_action D ineq a) (fun _ => True).
Proof.
  intros Ha. assert (P := params_spelled parse ops p HS a Ha). destruct (sp_actions _ _ HS a Ha) as (N & _ & _ & Eff). unfold process_action. set (W := param_vars a).
  eapply post_bnd; [apply post_lift; intros xs E; exact (conj (process_names _ xs P E) (fun x => process_covers _ xs x E))|]. intros xs [W1 W2]. fold W in W1, W2. rewrite vars_terms in W1, W2.
  eapply post_bnd; [apply post_lp_atom, action_prefix|]. intros atom Eatom. assert (IA : lp_infix atom = false /\ lp_args atom = map sanitize xs) by (rewrite Eatom; split; reflexivity). clear Eatom. destruct IA as [IA AA].
  eapply post_bnd; [apply post_typed|]. intros types [T1 T2]. fold W in T2. rewrite vars_terms in T2. apply bnd_assoc. eapply post_bnd; [apply pre_safe; exact Ha|]. intros body B. fold W in B.
  eapply post_bnd; [apply post_add_rule; apply (safe_intro W); [rewrite AA; exact W1|apply Forall_app; split; [now apply compares_plain|exact B]|intros x Hx; apply occurs_app_l; auto]|]. intros _ _.
  eapply post_bnd; [|intros _ _; apply post_ret; exact Logic.I]. apply post_each. intros e He. rewrite Forall_forall in Eff. assert (BE := bp_effs _ HB a e Ha He).
  eapply post_bnd; [apply post_lift; intros es E; exact (conj (expand_effect_spelled D HDs e es (Eff e He) E) (bound_expand D HC W e es BE E))|]. intros es [Ses Bes]. apply post_each. intros e' He'. rewrite Forall_forall in Ses.
  eapply post_bnd; [apply (post_effect_safe ineq W); [auto|intros c x E; exact (Bes e' c x He' E)]|]. intros r Hr. apply (post_rule_safe W); [|intros x Hx; exists atom; split; [left; reflexivity|]; split; [exact IA|rewrite AA; auto]|exact Hr].
  constructor; [intros X; congruence|constructor].
Qed.
Lemma action_variables_safe ineq a : In a (p_actions p) -> post R (process_action_variables D ineq a) (fun _ => True).
Proof.
  intros Ha. destruct (sp_actions _ _ HS a Ha) as (N & _ & _ & Eff). unfold process_action_variables. set (W := param_vars a).
  eapply post_bnd; [apply post_typed|]. intros types [T1 T2]. fold W in T2. rewrite vars_terms in T2. apply bnd_assoc. eapply post_bnd; [apply pre_safe; exact Ha|]. intros body B. fold W in B.
  eapply post_bnd; [|intros _ _; apply post_ret; exact Logic.I]. apply post_each. intros e He. rewrite Forall_forall in Eff. assert (BE := bp_effs _ HB a e Ha He).
  eapply post_bnd; [apply (post_effect_safe ineq W); [auto|intros c x _; exact BE]|]. intros r Hr. apply (post_rule_safe W); [apply Forall_app; split; [now apply compares_plain|exact B]|intros x Hx; apply occurs_app_l; auto|exact Hr].
Qed.
Lemma goal_safe ineq : post R (process_goal D ineq (p_goal p)) (fun _ => True).
Proof.
  destruct (bp_goal _ HB) as [L I]. unfold process_goal. eapply post_bnd; [apply post_lift; intros f E; exact (conj (remove_spelled D HDs _ _ _ (sp_goal _ _ HS) E) (local_remove D HC [] _ _ L E))|]. intros f (Sf & Lf & If). rewrite I in If.
  eapply post_bnd; [apply (post_safe ineq f []); assumption|]. intros body B. eapply post_bnd; [apply post_lp_atom, no_hyphen_empty|]. intros h ->. apply post_add_rule. apply (safe_intro []); [intros x []|exact (compares_all _ _ _ If B)|intros x (v & [] & _)].
Qed.
Lemma fact_safe h : names_only [] (lp_args h) -> R {| r_head := h; r_body := [] |}.
Proof. intros H. apply (safe_intro []); [exact H|constructor|intros x (v & [] & _)]. Qed.
Lemma functions_safe cost m : post R (init_functions cost m) (fun _ => True).
Proof. unfold init_functions. eapply post_bnd; [|intros _ _; apply post_ret; exact Logic.I]. apply post_each. intros ke _. eapply post_weaken; [|apply (post_each R)]; [auto|]. intros x _. destruct (_ || _)%bool; [apply post_ret; exact Logic.I|apply post_fail]. Qed.
Lemma create_safe_post ga ineq : post R (create_rules l ga ineq p) (fun _ => True).
Proof.
  unfold create_rules. eapply post_bnd; [apply (post_each R)|].
  - intros c Hc. unfold lang_constants in Hc. apply in_map_iff in Hc as ((k & (sym & s)) & <- & Hc). cbn [fst snd]. assert (Sc := const_spelled parse ops Hn p HS _ _ _ Hc). destruct Sc as [Sc _]. cbn [lp_type_atom].
    eapply post_bnd; [eapply post_bnd; [apply post_lift; intros y E; exact (uncapitalize_name _ _ Sc E)|]; intros y ->; apply post_lp_atom, type_prefix|]. intros a ->. apply post_add_rule, fact_safe. cbn [lp_args map]. intros x [<-|[]] V. rewrite (fixed_plain _ (constant_fixed sym Sc)) in V. discriminate.
  - intros _ _. eapply post_bnd; [apply (post_each R)|].
    + intros [s r] Hs. cbn [fst snd]. unfold sort_rule. destruct (s_kind r); [|apply post_ret; exact Logic.I]. destruct (sget (l_parent l) s) as [[q|]|] eqn:E; [|apply post_ret; exact Logic.I|apply post_fail]. eapply post_bnd; [apply post_lift; intros; exact Logic.I|]. intros [|t d] _; [apply post_ret; exact Logic.I|].
      eapply post_bnd; [apply post_lp_atom, type_prefix|]. intros h ->. eapply post_bnd; [apply post_lp_atom, type_prefix|]. intros b ->. apply post_add_rule. intros x V H. eexists. split; [left; reflexivity|]. split; [reflexivity|]. cbn [r_head r_body lp_args map] in *. destruct H as [H|(a & [<-|[]] & H)]; exact H.
    + intros _ _. eapply post_bnd; [apply (post_each R)|].
      * intros [[b names] pts] Hk. eapply post_weaken; [|apply (post_each R)]; [auto|]. intros pt Hp. cbn [fst snd] in *. unfold init_atom. destruct b; [apply post_fail|]. destruct names as [|n ss]; [apply post_fail|]. destruct (sp_init _ _ HS n ss pts pt Hk Hp) as [A B].
        eapply post_bnd; [apply (post_atom_names (PU n ss)); split; [exact A|exact B]|]. intros h [N _]. apply post_add_rule, fact_safe. intros x Hx V. destruct (N x Hx V) as (v & Hv & _). apply vars_of_iff in Hv. assert (X := bp_init _ HB n ss pts pt _ Hk Hp Hv). discriminate.
      * intros _ _. eapply post_bnd; [apply functions_safe|]. intros _ _. eapply post_bnd; [apply (post_each R)|].
        -- intros a Ha. eapply post_bnd; [apply post_lift; intros; exact Logic.I|]. intros b _. destruct b; [|apply post_ret; exact Logic.I]. destruct ga; [apply action_safe|apply action_variables_safe]; exact Ha.
        -- intros _ _. apply goal_safe.
Qed.
Lemma create_safe ga ineq P t : create_reachability_lp l ga ineq p = Ok (P, t) -> Forall safe (map clause_of P).
Proof.
  intros Hc. assert (W := create_writable parse ops Hn p HS ga ineq P t Hc). unfold create_reachability_lp in Hc. destruct (create_rules l ga ineq p _) as [[u F]|] eqn:E; cbn [bind snd] in Hc; [|discriminate]. injection Hc as <- <-.
  destruct (create_safe_post ga ineq {| c_tr := trans0; c_aux := 0; c_rules := [] |} u F inv_ok0 (Forall_nil _) E) as (_ & G & _). rewrite Forall_forall in *. intros c Hin. apply in_map_iff in Hin as (r & <- & Hr). apply safe_clause; auto.
Qed.
End Problem.
