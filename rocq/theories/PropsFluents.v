(** C60: the fluent and static terms of a problem, src/tarski/grounding/naive_grounding.py *)
From Coq Require Import Permutation.
From Verif Require Import ListUtil Base Syntax SemLemmas Build ModelState ModelProofs SortIdsProofs Index PropsIndex Eval Subst SubstProofs QElim QElimProofs Effects ProgressSpec StateLemmas ProgressProofs PropsProgress Represent RelaxSpec PropsRelax
  Grounding GroundingSpec PropsGrounding Fluents FluentsSpec PropsFol2 FluentsProofs FluentsProofs2.
#[local] Open Scope string_scope.

(** ** C60. The analysis returns exactly the fluent terms, and as static exactly the mentioned terms that are not fluent, each of them once. *)
Theorem C60_classes n acts cs fluents statics : process_symbols n acts cs = Ok (fluents, statics) ->
  (forall r, In r fluents <-> fluent acts cs r) /\ (forall r, In r statics <-> mentioned acts cs r /\ ~ fluent acts cs r) /\ NoDup fluents /\ NoDup statics.
Proof. intros H. exact (loop_sound n acts cs _ _ _ _ fluents statics (initial_state acts cs) H). Qed.
(** The loop ends: two passes more than there are constraints are enough. *)
Theorem C60_passes n acts cs : analysable acts -> 2 + List.length cs <= n -> exists fluents statics, process_symbols n acts cs = Ok (fluents, statics).
Proof.
  intros An Hn. destruct n as [|n]; [lia|]. unfold process_symbols. cbn [ps_loop]. assert (P := pass_spec acts cs ([], [])). destruct (gs_problem acts cs ([], [])) as [s'|x] eqn:Hp; [|tauto]. cbn [bind]. cbn zeta.
  fold (statics_of None s'). destruct (loop_next _ _ _ _ _ _ _ (initial_state acts cs) Hp) as (_ & _ & L & _). destruct (Nat.eqb _ 0 && Nat.eqb _ 0); [eauto|]. apply loop_ends; [auto|exact L|]. assert (X := open_le (fst s') cs). lia.
Qed.
(** The number of passes allowed does not matter once it is enough. *)
Lemma loop_more n : forall k acts cs s own o_f o_s R, ps_loop n acts cs s own o_f o_s = Ok R -> n <= k -> ps_loop k acts cs s own o_f o_s = Ok R.
Proof.
  induction n as [|n IH]; intros k acts cs s own o_f o_s R H Hk; [discriminate|]. destruct k as [|k]; [lia|]. cbn [ps_loop] in *. destruct (gs_problem acts cs s) as [s'|x]; [|discriminate]. cbn [bind] in *. cbn zeta in *.
  destruct (Nat.eqb _ o_f && Nat.eqb _ o_s); [auto|]. apply IH; [auto|lia].
Qed.
Theorem C60_more_passes n k acts cs R : process_symbols n acts cs = Ok R -> n <= k -> process_symbols k acts cs = Ok R.
Proof. intros H Hk. eapply loop_more; eauto. Qed.
(** Effects of other classes are rejected, and nothing else is. *)
Theorem C60_rejects n acts cs : 1 <= n -> ~ analysable acts -> process_symbols n acts cs = Err RuntimeError.
Proof.
  intros Hn N. destruct n as [|n]; [lia|]. unfold process_symbols. cbn [ps_loop]. assert (P := pass_spec acts cs ([], [])). destruct (gs_problem acts cs ([], [])) as [s'|x]; [tauto|]. destruct P as [-> _]. reflexivity.
Qed.
(** The order in which actions and constraints were declared is irrelevant. *)
Lemma fluent_ext acts acts' cs cs' : (forall a, In a acts -> In a acts') -> (forall c, In c cs -> In c cs') -> forall r, fluent acts cs r -> fluent acts' cs' r.
Proof. intros Ha Hc r H. induction H as [a e r A1 A2 A3|c r A1 A2 A3|c k fs b b' r r' A1 A2 A3 A4 A5 A6 IH]; [eapply fluent_effect; eauto|eapply fluent_next; eauto|]. eapply fluent_linked; [apply Hc, A1|exact A2|exact A3|exact A4|exact A5|exact IH]. Qed.
Lemma mentioned_ext acts acts' cs cs' : (forall a, In a acts -> In a acts') -> (forall c, In c cs -> In c cs') -> forall r, mentioned acts cs r -> mentioned acts' cs' r.
Proof. intros Ha Hc r [a r' A1 A2|a e r' A1 A2 A3|c r' A1 A2]; [eapply me_pre|eapply me_cond|eapply me_constraint]; eauto. Qed.
Theorem C60_order n n' acts acts' cs cs' F S F' S' : Permutation acts acts' -> Permutation cs cs' -> process_symbols n acts cs = Ok (F, S) -> process_symbols n' acts' cs' = Ok (F', S') -> same_set F F' /\ same_set S S'.
Proof.
  intros Pa Pc H H'. destruct (C60_classes _ _ _ _ _ H) as (A & B & _), (C60_classes _ _ _ _ _ H') as (A' & B' & _).
  assert (I1 : forall a, In a acts -> In a acts') by (intros a; apply Permutation_in; auto). assert (I2 : forall a, In a acts' -> In a acts) by (intros a; apply Permutation_in; now apply Permutation_sym).
  assert (J1 : forall a, In a cs -> In a cs') by (intros a; apply Permutation_in; auto). assert (J2 : forall a, In a cs' -> In a cs) by (intros a; apply Permutation_in; now apply Permutation_sym).
  assert (E : forall r, fluent acts cs r <-> fluent acts' cs' r) by (intros r; split; apply fluent_ext; auto).
  assert (M : forall r, mentioned acts cs r <-> mentioned acts' cs' r) by (intros r; split; apply mentioned_ext; auto).
  split; intros r; [now rewrite A, A', E|]. now rewrite B, B', E, M.
Qed.
(** No term is in both classes, no built-in expression is fluent, and a term that is neither is not read outside the scope of a "next" nor changed by an effect. *)
Theorem C60_separate n acts cs fluents statics : process_symbols n acts cs = Ok (fluents, statics) ->
  (forall r, In r fluents -> In r statics -> False) /\ (forall r, In r fluents -> ~ ref_builtin r) /\
  (forall a e r, In a acts -> In e (a_effs a) -> effect_target e r -> In r fluents) /\ (forall r, mentioned acts cs r -> In r fluents \/ In r statics).
Proof.
  intros H. destruct (C60_classes _ _ _ _ _ H) as (A & B & _). split; [|split; [|split]].
  - intros r H1 H2. apply B in H2. apply A in H1. tauto.
  - intros r H1. eapply fluent_user, A, H1.
  - intros a e r Ha He Ht. apply A. eapply fluent_effect; eauto.
  - intros r Hm. destruct (rmem r fluents) eqn:E; [left; now apply rmem_In|]. right. apply rmem_not in E. apply B. split; [auto|]. intros K. apply E, A, K.
Qed.

(** * What can change *)
Definition keeps_at (W : sym -> list term -> Prop) (m m' : model) : Prop :=
  proper m' /\ (forall p pt, ~ W (SymP p) pt -> m_holds m' p pt = m_holds m p pt) /\ (forall f pt, ~ W (SymF f) pt -> m_value m' f pt = m_value m f pt).
Definition writes_at (e : effect) (x : sym) (pt : list term) : Prop :=
  match e with EAdd _ a | EDel _ a => exists p, a = Atom p pt /\ x = SymP p | EFun _ _ lhs _ => exists f, lhs = App f pt /\ x = SymF f | _ => False end.
Lemma keeps_at_refl W m : proper m -> keeps_at W m m. Proof. intros H. split; [auto|]. split; auto. Qed.
Lemma keeps_at_trans W a b c : keeps_at W a b -> keeps_at W b c -> keeps_at W a c.
Proof. intros (A1 & A2 & A3) (B1 & B2 & B3). split; [auto|]. split; intros; [rewrite B2, A2|rewrite B3, A3]; auto. Qed.
Lemma keeps_at_weaken (W W' : sym -> list term -> Prop) a b : (forall s pt, W s pt -> W' s pt) -> keeps_at W a b -> keeps_at W' a b.
Proof. intros H (A1 & A2 & A3). split; [auto|]. split; intros; [apply A2|apply A3]; auto. Qed.
Lemma run_with_keeps_at W f es : (forall e m m', In e es -> proper m -> f m e = Ok m' -> keeps_at W m m') -> forall m m', proper m -> run_with f es m = Ok m' -> keeps_at W m m'.
Proof.
  induction es as [|e es IH]; intros H m m' Hp Hr; cbn [run_with] in Hr; [injection Hr as <-; now apply keeps_at_refl|].
  destruct (f m e) as [m1|] eqn:E; [|discriminate]. cbn [bind] in Hr. assert (K := H e m m1 (or_introl eq_refl) Hp E). eapply keeps_at_trans; [exact K|]. apply IH; [intros; apply (H e0); auto; right; auto|apply K|exact Hr].
Qed.
Lemma direct_keeps D sub e m m' : direct_effect e = true -> proper m -> apply_effect D sub m e = Ok m' -> keeps_at (writes_at e) m m'.
Proof.
  intros Hd Hp H. unfold apply_effect in H. destruct e as [c [| |[|n ss] ts| |]|c [| |[|n ss] ts| |]|i c [| |[|n d k] ts|] r|c vs es|c l|c]; try discriminate; cbn [edepth apply_effect_n econd] in H;
    (destruct (eval_f m c) as [b|]; [|discriminate]); cbn [bind] in H; (destruct (negb b); [injection H as <-; now apply keeps_at_refl|]).
  - destruct (add_spec _ _ _ _ _ H Hp) as (A & B & C). split; [auto|]. split; [|auto]. intros q pt Hq. rewrite B. destruct (same_atom _ q ts pt) eqn:E; [|auto]. apply same_atom_eq in E as [<- <-]. exfalso. apply Hq. cbn. eauto.
  - injection H as <-. destruct (discard_spec m (PU n ss) ts Hp) as (A & B & C). split; [auto|]. split; [|auto]. intros q pt Hq. rewrite B. destruct (same_atom _ q ts pt) eqn:E; [|auto]. apply same_atom_eq in E as [<- <-]. exfalso. apply Hq. cbn. eauto.
  - destruct (evaluate_t m r) as [v|]; [|discriminate]. cbn [bind] in H. destruct (set_spec _ _ _ _ _ H) as (f & a & E0 & A & B & C). split; [auto|]. split; [auto|]. intros g pt Hg. rewrite C. destruct (same_point f g a pt) eqn:E; [|auto]. apply same_point_eq in E as [<- <-]. exfalso. apply Hg. cbn. eauto.
Qed.
Lemma typed_binds D s : typed_parameters D s -> parameter_binding s.
Proof. intros [H1 H2]. split; [auto|]. intros k v H. destruct (H2 k v H) as (x & r & cs & -> & _). eauto. Qed.
Lemma subst_writes D s e e' x pt : typed_parameters D s -> direct_effect e = true -> subst_effect s e = Ok e' -> direct_effect e' = true /\
  (writes_at e' x pt -> exists r ts, effect_target e r /\ In (x, ts) (ref_expr r) /\ pt = map (subst_term s) ts).
Proof.
  intros Ht Hd H. assert (Hb := typed_binds D s Ht). assert (Hf : forall f, visit_f s f = f) by (intros f; unfold visit_f; destruct Hb as [-> _]; reflexivity).
  destruct e as [c [| |[|n ss] ts| |]|c [| |[|n ss] ts| |]|i c [| |[|n d k] ts|] r|c vs es|c l|c]; try discriminate; cbn [subst_effect] in H; apply (f_equal (fun r => match r with Ok a => a | Err _ => e' end)) in H; cbv beta match in H; rewrite <- H; cbn [subst_formula]; rewrite ?Hf, ?binding_app by auto; (split; [reflexivity|]);
    cbn [writes_at]; intros (p & E & ->); injection E as <- <-.
  - exists (RP (PU n ss) ts), ts. split; [repeat constructor|]. split; [left; auto|auto].
  - exists (RP (PU n ss) ts), ts. split; [repeat constructor|]. split; [left; auto|auto].
  - exists (RT (App (FU n d k) ts)), ts. split; [repeat constructor|]. split; [left; auto|auto].
Qed.
(** Along every execution of a problem without universal effects, an atom or a term whose value changes is an instance of a fluent term: the parameters of some
    action of the plan replaced by the objects they are bound to. *)
Theorem C60_changes D sub n acts cs fluents statics m plan m' : process_symbols n acts cs = Ok (fluents, statics) -> (forall a e, In a acts -> In e (a_effs a) -> direct_effect e = true) ->
  is_state sub m -> execution D sub acts m plan m' -> Forall (fun step => typed_parameters D (snd step)) plan ->
  (forall p pt, m_holds m' p pt <> m_holds m p pt -> exists ts step, In (RP p ts) fluents /\ In step plan /\ pt = map (subst_term (snd step)) ts) /\
  (forall f pt, m_value m' f pt <> m_value m f pt -> exists ts step, In (RT (App f ts)) fluents /\ In step plan /\ pt = map (subst_term (snd step)) ts).
Proof.
  intros H Hd Hm Hex Ht. destruct (C60_classes _ _ _ _ _ H) as (A & _). assert (Hp := state_proper sub m Hm). clear H Hm.
  assert (K : keeps_at (fun x pt => exists r ts step, In r fluents /\ In (x, ts) (ref_expr r) /\ In step plan /\ pt = map (subst_term (snd step)) ts) m m').
  { induction Hex as [m|m a s pre effs m1 plan m2 Ha Hg Hap Hpr Hex IH]; [now apply keeps_at_refl|]. inversion Ht as [|? ? Hb F']; subst. cbn [snd] in Hb.
    match goal with |- keeps_at ?W _ _ => assert (K : keeps_at W m m1) end.
    { unfold progress, run_effects in Hpr. revert Hpr. apply run_with_keeps_at; [|auto]. intros e m3 m4 He Hp3 E.
      assert (He' : In e effs) by (apply in_app_or in He as [He|He]; apply filter_In in He; tauto). clear He.
      unfold ground_schema in Hg. destruct (forallb _ (a_params a)); [|discriminate]. destruct (mapM (subst_effect s) (a_effs a)) as [l|] eqn:El; [|discriminate]. cbn [bind] in Hg. destruct (flatten _) as [p|]; [|discriminate]. cbn [bind] in Hg. injection Hg as _ <-.
      apply mapM_ok_Forall2 in El. destruct (Forall2_In_r _ _ _ _ El He') as (e0 & He0 & Es). assert (X := fun x pt => subst_writes D s e0 e x pt Hb (Hd a e0 Ha He0) Es).
      assert (K := direct_keeps D sub e m3 m4 (proj1 (X (SymP (PB PEq)) [])) Hp3 E). revert K. apply keeps_at_weaken. intros x pt W. destruct (X x pt) as [_ Y]. destruct (Y W) as (r & ts & T1 & T2 & T3).
      exists r, ts, (a_name a, s). split; [apply A; eapply fluent_effect; eauto|]. split; [auto|]. split; [left; auto|auto]. }
    eapply keeps_at_trans; [exact K|]. eapply keeps_at_weaken; [|apply IH; [auto|apply K]]. intros x pt (r & ts & step & R1 & R2 & R3 & R4). exists r, ts, step. split; [auto|]. split; [auto|]. split; [right; auto|auto]. }
  destruct K as (_ & K1 & K2). split.
  - intros p pt N. destruct (existsb (fun r => match r with RP q ts => (if psym_eq_dec q p then true else false) && existsb (fun step => points_eqb pt (map (subst_term (snd step)) ts)) plan | _ => false end) fluents) eqn:Ex.
    + apply existsb_exists in Ex as ([t|q ts] & Hr & E); [discriminate|]. apply andb_true_iff in E as [E1 E2]. destruct (psym_eq_dec q p) as [->|]; [|discriminate]. apply existsb_exists in E2 as (step & Hs & E2). apply points_eqb_eq in E2. exists ts, step. auto.
    + exfalso. apply N, K1. intros (r & ts & step & R1 & R2 & R3 & R4). assert (T : existsb (fun r => match r with RP q ts => (if psym_eq_dec q p then true else false) && existsb (fun step => points_eqb pt (map (subst_term (snd step)) ts)) plan | _ => false end) fluents = true); [|congruence].
      apply existsb_exists. exists r. split; [auto|]. destruct r as [[| | |]|q us]; cbn in R2; try tauto; destruct R2 as [R2|[]]; try discriminate. injection R2 as <- <-. destruct (psym_eq_dec q q); [|congruence]. cbn [andb]. apply existsb_exists. exists step. split; [auto|now apply points_eqb_eq].
  - intros f pt N. destruct (existsb (fun r => match r with RT (App g ts) => (if fsym_eq_dec g f then true else false) && existsb (fun step => points_eqb pt (map (subst_term (snd step)) ts)) plan | _ => false end) fluents) eqn:Ex.
    + apply existsb_exists in Ex as ([[| |g ts|]|q ts] & Hr & E); try discriminate. apply andb_true_iff in E as [E1 E2]. destruct (fsym_eq_dec g f) as [->|]; [|discriminate]. apply existsb_exists in E2 as (step & Hs & E2). apply points_eqb_eq in E2. exists ts, step. auto.
    + exfalso. apply N, K2. intros (r & ts & step & R1 & R2 & R3 & R4). assert (T : existsb (fun r => match r with RT (App g ts) => (if fsym_eq_dec g f then true else false) && existsb (fun step => points_eqb pt (map (subst_term (snd step)) ts)) plan | _ => false end) fluents = true); [|congruence].
      apply existsb_exists. exists r. split; [auto|]. destruct r as [[| |g us|]|q us]; cbn in R2; try tauto; destruct R2 as [R2|[]]; try discriminate. injection R2 as <- <-. destruct (fsym_eq_dec g g); [|congruence]. cbn [andb]. apply existsb_exists. exists step. split; [auto|now apply points_eqb_eq].
Qed.
Lemma instantiations_flat D ts ds : instantiations D ts = Ok ds -> Forall (fun t => (exists c r, t = Cst c r) \/ exists x r, t = Var x r) ts.
Proof.
  revert ds. induction ts as [|t ts IH]; intros ds H; [constructor|]. cbn [instantiations] in H. destruct t as [x r|c r|f us|c a b]; cbn [bind] in H; try discriminate.
  - destruct (D r); [|discriminate]. cbn [bind] in H. destruct (instantiations D ts) as [d|]; [|discriminate]. constructor; [eauto|eapply IH; eauto].
  - destruct (instantiations D ts) as [d|]; [|discriminate]. constructor; [eauto|eapply IH; eauto].
Qed.
Lemma all_flat D terms : forall idx idx', all_state_variables_from D terms idx = Ok idx' -> forall s ts, In (s, ts) terms -> Forall (fun t => (exists c r, t = Cst c r) \/ exists x r, t = Var x r) ts.
Proof.
  induction terms as [|[s0 ts0] l IH]; intros idx idx' H s ts Hin; [destruct Hin|]. cbn [all_state_variables_from] in H. destruct (instantiations D ts0) as [ds|] eqn:E; [|discriminate]. cbn [bind] in H.
  destruct Hin as [Q|Hin]; [injection Q as <- <-; eapply instantiations_flat; eauto|eapply IH; eauto].
Qed.
Lemma typed_instance D s ts : typed_parameters D s -> Forall (fun t => (exists c r, t = Cst c r) \/ exists x r, t = Var x r) ts -> objects (map (subst_term s) ts) -> instance D ts (map (subst_term s) ts).
Proof.
  intros Ht F. assert (Hb := typed_binds D s Ht). induction F as [|t ts Hf F IH]; intros O; cbn [map] in *; [constructor|]. inversion O as [|? ? O1 O2]; subst. constructor; [|apply IH; auto].
  assert (E : subst_term s t = match get_t (sub_t s) t with None => t | Some u => u end) by (destruct Hf as [(c & r & ->)|(x & r & ->)]; reflexivity). rewrite E in *.
  destruct Hf as [(c & r & ->)|(x & r & ->)].
  - left. exists c, r. split; [auto|]. destruct (get_t (sub_t s) (Cst c r)) eqn:G; [|auto]. apply binding_get in G as (? & ? & ?); [discriminate|auto].
  - right. destruct (get_t (sub_t s) (Var x r)) as [v|] eqn:G; [|destruct O1 as (? & ? & ?); discriminate]. destruct Ht as [_ Ht].
    assert (Hin : In (Var x r, v) (sub_t s)). { clear - G. induction (sub_t s) as [|[k w] l IH]; cbn [get_t] in G; [discriminate|]. destruct (term_eqb k (Var x r)) eqn:Ek; [apply term_eqb_eq in Ek; subst k; injection G as ->; left; auto|right; auto]. }
    destruct (Ht _ _ Hin) as (x' & r' & cs & E' & E1 & E2). injection E' as <- <-. exists x, r, cs. auto.
Qed.
(** Hence the index of state variables built from the fluent terms has a state variable for everything that can change. *)
Theorem C60_state_variables D sub n acts cs fluents statics idx m plan m' : process_symbols n acts cs = Ok (fluents, statics) -> (forall a e, In a acts -> In e (a_effs a) -> direct_effect e = true) ->
  create_all_possible_state_variables D (ref_exprs fluents) = Ok idx -> is_state sub m -> execution D sub acts m plan m' -> Forall (fun step => typed_parameters D (snd step)) plan ->
  (forall p pt, objects pt -> m_holds m' p pt <> m_holds m p pt -> exists v, In v (si_iter idx) /\ sym_name (sv_sym v) = sym_name (SymP p) /\ sv_inst v = pt) /\
  (forall f pt, objects pt -> m_value m' f pt <> m_value m f pt -> exists v, In v (si_iter idx) /\ sym_name (sv_sym v) = sym_name (SymF f) /\ sv_inst v = pt).
Proof.
  intros H Hd Hc Hm Hex Ht. destruct (C60_changes D sub n acts cs fluents statics m plan m' H Hd Hm Hex Ht) as [C1 C2].
  assert (X := C39_all_state_variables D (ref_exprs fluents)). rewrite Hc in X. destruct X as (_ & X & _). unfold create_all_possible_state_variables in Hc. assert (Fl := all_flat D _ _ _ Hc). rewrite Forall_forall in Ht.
  split; intros p pt O N; [destruct (C1 p pt N) as (ts & step & R1 & R2 & ->); assert (I : In (SymP p, ts) (ref_exprs fluents)) by (apply in_flat_map; exists (RP p ts); split; [auto|left; auto])
                          |destruct (C2 p pt N) as (ts & step & R1 & R2 & ->); assert (I : In (SymF p, ts) (ref_exprs fluents)) by (apply in_flat_map; exists (RT (App p ts)); split; [auto|left; auto])];
    (apply (X _ ts); [exact I|]; apply typed_instance; [apply Ht; auto|eapply Fl; eauto|auto]).
Qed.

(** * Examples *)
Definition xo := Var "x" "obj".
Definition fG (t : term) := App (FU "g" ["obj"] "obj") [t].
Definition fH (t : term) := App (FU "h" ["obj"] "obj") [t].
Definition give : action := {| a_name := "give"; a_params := [xo]; a_pre := Comp And [Atom pP [xo]; Atom pQ [o1]]; a_effs := [EDel (Atom (PU "s" ["obj"]) [xo]) (Atom pP [xo]); EFun false Top (App fX []) xo] |}.
(** x = h(a) or t(a); next (u(a)): the first constraint makes h(a) and t(a) fluent because x is, and not the arithmetic; s(x), q(a) remain static. *)
Definition kon : list cform := [KQuant QAll [] (KComp (TBool Or) [KAtom (PB PEq) [App fX []; fH o1]; KAtom (PU "t" ["obj"]) [o1]]); KNext (KAtom (PU "u" ["obj"]) [o1])].
Example C60_nonvacuous : exists F S idx m1, process_symbols 4 [give] kon = Ok (F, S) /\ process_symbols 1 [give] kon = Err OutOfFuel /\ analysable [give] /\
  F = [RP pP [xo]; RT (App fX []); RT (fH o1); RP (PU "t" ["obj"]) [o1]; RP (PU "u" ["obj"]) [o1]] /\
  S = [RP pQ [o1]; RP (PU "s" ["obj"]) [xo]; RP (PB PEq) [App fX []; fH o1]] /\
  (forall a e, In a [give] -> In e (a_effs a) -> direct_effect e = true) /\ create_all_possible_state_variables DX (ref_exprs F) = Ok idx /\ si_len idx = 6 /\
  let s0 := mrun String.eqb [OAdd pP [o2]; OAdd pQ [o1]; OAdd (PU "s" ["obj"]) [o2]; OSet (App fX []) o1] empty_model in
  is_state String.eqb s0 /\ execution DX String.eqb [give] s0 [("give", bind_x o2)] m1 /\ typed_parameters DX (bind_x o2) /\ m_holds s0 pP [o2] = true /\ m_holds m1 pP [o2] = false /\ m_value s0 fX [] = Ok o1 /\ m_value m1 fX [] = Ok o2.
Proof.
  do 4 eexists. split; [vm_compute; reflexivity|]. split; [vm_compute; reflexivity|]. split; [intros a e c [<-|[]] [<-|[<-|[]]]; discriminate|]. split; [reflexivity|]. split; [reflexivity|].
  split; [intros a e [<-|[]] [<-|[<-|[]]]; reflexivity|]. split; [vm_compute; reflexivity|]. split; [reflexivity|]. cbn zeta. split; [eexists; reflexivity|].
  split. { eapply (ex_step _ _ _ _ give); [left; reflexivity|vm_compute; reflexivity|vm_compute; reflexivity|vm_compute; reflexivity|constructor]. }
  split. { split; [reflexivity|]. intros k v [E|[]]. injection E as <- <-. exists "x", "obj", [o1; o2]. split; [reflexivity|]. split; [reflexivity|right; left; reflexivity]. }
  split; [reflexivity|]. split; [reflexivity|]. split; reflexivity.
Qed.
Example C60_nonvacuous_rejected : ~ analysable [{| a_name := "n"; a_params := []; a_pre := Top; a_effs := [EOther Top] |}].
Proof. intros K. eapply K; [left; reflexivity|left; reflexivity|reflexivity]. Qed.
(** Fluency travels backwards through the list of constraints, one constraint per pass: four passes are needed here. *)
Definition chain : list cform := [KComp (TBool And) [KAtom (PU "a" []) []; KAtom (PU "b" []) []]; KComp (TBool And) [KAtom (PU "b" []) []; KAtom (PU "c" []) []]; KNext (KAtom (PU "c" []) [])].
Example C60_nonvacuous_chain : process_symbols 3 [] chain = Err OutOfFuel /\ exists F, process_symbols 4 [] chain = Ok (F, []) /\ In (RP (PU "a" []) []) F.
Proof. split; [vm_compute; reflexivity|]. eexists. split; [vm_compute; reflexivity|]. cbn. tauto. Qed.

(** * Limits of the analysis *)
(** Effects inside a universal effect are ignored: what they change is reported as static. *)
Definition wipe : action := {| a_name := "wipe"; a_params := []; a_pre := Atom pP [o1]; a_effs := [EUni Top [xo] [EDel Top (Atom pP [xo])]] |}.
Theorem C60_universal_refuted : exists S m1, process_symbols 2 [wipe] [] = Ok ([], S) /\ In (RP pP [o1]) S /\ is_state String.eqb sX /\
  execution DX String.eqb [wipe] sX [("wipe", {| sub_t := []; sub_f := [] |})] m1 /\ m_holds sX pP [o1] = true /\ m_holds m1 pP [o1] = false.
Proof.
  do 2 eexists. split; [vm_compute; reflexivity|]. split; [left; reflexivity|]. split; [exact sX_state|].
  split. { eapply (ex_step _ _ _ _ wipe); [left; reflexivity|vm_compute; reflexivity|vm_compute; reflexivity|vm_compute; reflexivity|constructor]. } split; reflexivity.
Qed.
(** Terms are compared syntactically: p(a) is static although an action deletes p(x) for any x. *)
Definition drop : action := {| a_name := "drop"; a_params := [xo]; a_pre := Atom pP [o1]; a_effs := [EDel Top (Atom pP [xo])] |}.
Theorem C60_static_instance_refuted : exists S m1, process_symbols 2 [drop] [] = Ok ([RP pP [xo]], S) /\ In (RP pP [o1]) S /\ is_state String.eqb sX /\
  execution DX String.eqb [drop] sX [("drop", bind_x o1)] m1 /\ m_holds sX pP [o1] = true /\ m_holds m1 pP [o1] = false.
Proof.
  do 2 eexists. split; [vm_compute; reflexivity|]. split; [left; reflexivity|]. split; [exact sX_state|].
  split. { eapply (ex_step _ _ _ _ drop); [left; reflexivity|vm_compute; reflexivity|vm_compute; reflexivity|vm_compute; reflexivity|constructor]. } split; reflexivity.
Qed.
(** A comparison is reported as static although it compares a fluent term; a constraint that is a single equation does not make its other side fluent; and terms inside an
    if-then-else are not seen. *)
Definition setx : action := {| a_name := "setx"; a_params := [xo]; a_pre := Atom (PB PEq) [App fX []; o1]; a_effs := [EFun false Top (App fX []) xo] |}.
Theorem C60_comparison_refuted : exists F S, process_symbols 3 [setx] [KAtom (PB PEq) [App fX []; App fY []]] = Ok (F, S) /\ In (RT (App fX [])) F /\ In (RP (PB PEq) [App fX []; o1]) S /\ In (RT (App fY [])) S.
Proof. do 2 eexists. split; [vm_compute; reflexivity|]. cbn. tauto. Qed.
Theorem C60_conditional_refuted : exists F S, process_symbols 3 [] [KNext (KAtom pP [Ite Top (App fX []) o1])] = Ok (F, S) /\ F = [RP pP [Ite Top (App fX []) o1]] /\ ~ In (RT (App fX [])) F /\ ~ In (RT (App fX [])) S.
Proof. do 2 eexists. split; [vm_compute; reflexivity|]. split; [reflexivity|]. split; cbn; intuition discriminate. Qed.
