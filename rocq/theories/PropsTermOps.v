(** C58: expressions written with Python operators over terms *)
From Verif Require Import Base Syntax Semantics SemLemmas ModelState ModelProofs Lang LangSpec LangProofs LangProofs2 LangProofs3 Eval EvalSpec EvalProofs Theories TheoriesSpec.
Local Open Scope string_scope.

Section Facts.
Variable parse : bool -> string -> option Z.
Variable fuel : nat.
Variable st : tlang.
Notation l := (t_lang st).

Lemma literal_value c s t : literal parse st c s = Ok t -> no_numeral parse c -> t = Cst c s.
Proof.
  unfold literal. destruct (sget (l_sorts l) s) as [r|]; [|discriminate]. destruct (s_kind r) as [|real lb ub].
  - destruct (cn_mem c (s_dom r)); [|discriminate]. intros H _. now injection H.
  - unfold cast, encode. destruct c as [x|z]; intros H N.
    + rewrite N in H. discriminate.
    + destruct (_ && _); [|discriminate]. cbn [bind] in H. destruct (_ && _); [discriminate|]. now injection H.
Qed.
Lemma dispatch_fun_inv o x y t : dispatch_fun parse fuel st o x y = Ok t ->
  exists b u v, op_fun o = Some b /\ cast_operands parse st x y = Ok (u, v) /\ t = App (FB b) [u; v] /\
    str_mem (bfun_name b) (t_handlers st) = true /\ str_mem (bfun_name b) (t_symbols st) = true /\ check_sort fuel st u "Real" = Ok tt /\ check_sort fuel st v "Real" = Ok tt.
Proof.
  unfold dispatch_fun. destruct (op_fun o) as [b|]; [|discriminate]. destruct (str_mem (bfun_name b) (t_handlers st)) eqn:H1; [|discriminate].
  destruct (cast_operands parse st x y) as [[u v]|]; [|discriminate]. cbn [bind fst snd]. destruct (str_mem (bfun_name b) (t_symbols st)) eqn:H2; [|discriminate].
  destruct (check_sort fuel st u "Real") as [[]|] eqn:H3; [|discriminate]. cbn [bind]. destruct (check_sort fuel st v "Real") as [[]|] eqn:H4; [|discriminate].
  cbn [bind]. intros H. injection H as <-. exists b, u, v. repeat split; auto.
Qed.
Lemma dispatch_pred_inv b x y f : dispatch_pred parse fuel st b x y = Ok f ->
  exists u v, cast_operands parse st x y = Ok (u, v) /\ f = Atom (PB b) [u; v] /\
    str_mem (bpred_name b) (t_handlers st) = true /\ str_mem (bpred_name b) (t_symbols st) = true /\ check_sort fuel st u (pred_sort b) = Ok tt /\ check_sort fuel st v (pred_sort b) = Ok tt.
Proof.
  unfold dispatch_pred. destruct (str_mem (bpred_name b) (t_handlers st)) eqn:H1; [|discriminate].
  destruct (cast_operands parse st x y) as [[u v]|]; [|discriminate]. cbn [bind fst snd]. destruct (str_mem (bpred_name b) (t_symbols st)) eqn:H2; [|discriminate].
  destruct (check_sort fuel st u (pred_sort b)) as [[]|] eqn:H3; [|discriminate]. cbn [bind]. destruct (check_sort fuel st v (pred_sort b)) as [[]|] eqn:H4; [|discriminate].
  cbn [bind]. intros H. injection H as <-. exists u, v. repeat split; auto.
Qed.
(** The outcome of [py_eval] on a binary expression *)
Lemma py_eval_bin o a b r : py_eval parse fuel st (PBin o a b) = Ok r -> exists x y, py_eval parse fuel st a = Ok x /\ py_eval parse fuel st b = Ok y /\
  ((exists c d e, x = PyVal c /\ y = PyVal d /\ py_arith o c d = Ok e /\ r = PyVal e) \/
   (exists t, dispatch_fun parse fuel st o x y = Ok t /\ r = PyTerm t /\ (forall c, x = PyVal c -> has_reflected o = true /\ exists u, y = PyTerm u))).
Proof.
  cbn [py_eval]. destruct (py_eval parse fuel st a) as [x|]; [|discriminate]. destruct (py_eval parse fuel st b) as [y|]; [|discriminate]. cbn [bind]. intros H. exists x, y. repeat split; auto.
  destruct x as [c|t], y as [d|u]; cbn [py_binary] in H.
  - left. destruct (py_arith o c d) as [e|] eqn:E; [|discriminate]. injection H as <-. exists c, d, e. auto.
  - right. destruct (has_reflected o) eqn:R; [|destruct c, o; discriminate]. destruct (dispatch_fun _ _ _ _ _ _) as [t|]; [|discriminate]. injection H as <-. exists t. repeat split; eauto.
  - right. destruct (dispatch_fun _ _ _ _ _ _) as [t'|]; [|discriminate]. injection H as <-. exists t'. repeat split; auto; discriminate.
  - right. destruct (dispatch_fun _ _ _ _ _ _) as [t'|]; [|discriminate]. injection H as <-. exists t'. repeat split; auto; discriminate.
Qed.
Lemma py_arith_of o c d e : py_arith o c d = Ok e <-> exists x y z, c = CInt x /\ d = CInt y /\ arith_of o x y = Some z /\ e = CInt z.
Proof.
  split.
  - destruct o, c as [|x], d as [|y]; cbn [py_arith]; try discriminate; intros H; injection H as <-; exists x, y; eexists; repeat split; reflexivity.
  - intros (x & y & z & -> & -> & H & ->). destruct o; cbn in *; try discriminate; injection H as <-; reflexivity.
Qed.
(** A value that is no term does not depend on the terms. *)
Lemma py_eval_val v ok e c : (forall z, ok z = true) -> py_eval parse fuel st e = Ok (PyVal c) -> pyvalue ok v e = Some c.
Proof.
  intros Hok. revert c. induction e as [c0|t|o a IHa b IHb]; intros c H; [cbn in H; injection H as <-; reflexivity|discriminate|].
  apply py_eval_bin in H. destruct H as (x & y & Ha & Hb & [(c1 & c2 & e & -> & -> & E & H)|(t & _ & H & _)]); [|discriminate]. injection H as ->.
  apply py_arith_of in E. destruct E as (x & y & z & -> & -> & E & ->). cbn [pyvalue]. now rewrite (IHa _ Ha), (IHb _ Hb), E, Hok.
Qed.
Lemma py_eval_numeral e c : Forall (no_numeral parse) (literals e) -> py_eval parse fuel st e = Ok (PyVal c) -> no_numeral parse c.
Proof.
  destruct e as [c0|t|o a b]; cbn [literals].
  - intros H E. cbn [py_eval] in E. injection E as <-. now inversion H.
  - intros _ E. discriminate E.
  - intros _ H. apply py_eval_bin in H. destruct H as (x & y & _ & _ & [(c1 & c2 & e & _ & _ & E & H)|(t & _ & H & _)]); [|discriminate]. injection H as ->.
    apply py_arith_of in E. destruct E as (? & ? & ? & _ & _ & _ & ->). exact I.
Qed.
(** The two operands of a dispatched operator, as terms *)
Lemma operands a b x y u v : Forall (no_numeral parse) (literals a) -> Forall (no_numeral parse) (literals b) ->
  py_eval parse fuel st a = Ok x -> py_eval parse fuel st b = Ok y -> cast_operands parse st x y = Ok (u, v) ->
  (x = PyTerm u \/ exists c s, x = PyVal c /\ u = Cst c s) /\ (y = PyTerm v \/ exists c s, y = PyVal c /\ v = Cst c s).
Proof.
  intros Na Nb Ha Hb H. destruct x as [c|t], y as [d|w]; cbn [cast_operands] in H; try discriminate.
  - destruct (literal parse st c _) as [t|] eqn:E; [|discriminate]. injection H as <- <-. apply literal_value in E; [|exact (py_eval_numeral a c Na Ha)]. subst t. split; [right; exists c; eexists; split; reflexivity|now left].
  - destruct (literal parse st d _) as [w|] eqn:E; [|discriminate]. injection H as <- <-. apply literal_value in E; [|exact (py_eval_numeral b d Nb Hb)]. subst w. split; [now left|right; exists d; eexists; split; reflexivity].
  - injection H as <- <-. split; now left.
Qed.
End Facts.

Section Meaning.
Variable parse : bool -> string -> option Z.
Variable fuel : nat.
Variable st : tlang.
Lemma meaning M val (HM : arithmetical M val) (en : env M) v e : Forall (no_numeral parse) (literals e) -> (forall u, In u (leaves e) -> v u = val (tsem M u en)) ->
  forall t c, py_eval parse fuel st e = Ok (PyTerm t) -> pyvalue (fun _ => true) v e = Some c -> val (tsem M t en) = Some c.
Proof.
  induction e as [c0|t0|o a IHa b IHb]; intros N L t c H V; [discriminate|cbn in H; injection H as <-; cbn in V; rewrite <- L; [exact V|now left]|].
  cbn [literals] in N. apply Forall_app in N as [Na Nb].
  apply py_eval_bin in H. destruct H as (x & y & Ha & Hb & [(c1 & c2 & e & _ & _ & _ & H)|(t' & D & H & _)]); [discriminate|]. injection H as <-.
  apply dispatch_fun_inv in D. destruct D as (f & u & w & F & C & -> & _). destruct (operands parse fuel st a b x y u w Na Nb Ha Hb C) as [X Y].
  cbn [pyvalue] in V. destruct (pyvalue _ v a) as [[|p]|] eqn:Va; try discriminate. destruct (pyvalue _ v b) as [[|q]|] eqn:Vb; try discriminate.
  assert (Vu : val (tsem M u en) = Some (CInt p)).
  { destruct X as [->|(c' & s & -> & ->)]; [apply (IHa Na (fun u Hu => L u (in_or_app _ _ _ (or_introl Hu))) _ _ Ha eq_refl)|].
    rewrite (py_eval_val parse fuel st v (fun _ => true) a c' (fun _ => eq_refl) Ha) in Va. injection Va as ->. cbn [tsem]. apply (ar_cst _ _ HM). }
  assert (Vw : val (tsem M w en) = Some (CInt q)).
  { destruct Y as [->|(c' & s & -> & ->)]; [apply (IHb Nb (fun u Hu => L u (in_or_app _ _ _ (or_intror Hu))) _ _ Hb eq_refl)|].
    rewrite (py_eval_val parse fuel st v (fun _ => true) b c' (fun _ => eq_refl) Hb) in Vb. injection Vb as ->. cbn [tsem]. apply (ar_cst _ _ HM). }
  cbn [tsem map]. destruct o; cbn in F, V; try discriminate; injection F as <-; injection V as <-; [now apply (ar_add _ _ HM)|now apply (ar_sub _ _ HM)|now apply (ar_mul _ _ HM)].
Qed.
End Meaning.

(** An expression of integers, terms, + - and * that Python evaluates to a term gives a term that in every arithmetical structure has the value Python would compute from the values of its terms. *)
Theorem C58_terms : forall parse fuel st e t M val (en : env M) v c, arithmetical M val -> Forall (no_numeral parse) (literals e) ->
  (forall u, In u (leaves e) -> v u = val (tsem M u en)) ->
  py_eval parse fuel st e = Ok (PyTerm t) -> pyvalue (fun _ => true) v e = Some c -> val (tsem M t en) = Some c.
Proof. intros. eapply meaning; eauto. Qed.
Print Assumptions C58_terms.
Lemma name_cmp_mirror b x y : name_cmp (mirror b) y x = name_cmp b x y.
Proof.
  destruct b; cbn [mirror name_cmp]; try (destruct (cname_eq_dec x y), (cname_eq_dec y x); congruence);
    destruct x as [a|a], y as [c|c]; try reflexivity; rewrite ?(Z.compare_antisym a c), ?(String.compare_antisym c a); try destruct (Z.compare a c); try destruct (String.compare a c); reflexivity.
Qed.
(** The same of comparisons: the formula is true exactly when the comparison of the two values is, also when the term is on the right of the operator. *)
Theorem C58_comparisons : forall parse fuel st b x y M val (en : env M) v c d r, arithmetical M val -> Forall (no_numeral parse) (literals x ++ literals y) ->
  (forall u, In u (leaves x ++ leaves y) -> v u = val (tsem M u en)) ->
  pyvalue (fun _ => true) v x = Some c -> pyvalue (fun _ => true) v y = Some d -> name_cmp b c d = Some r ->
  (forall f, py_compare parse fuel st b x y = Ok (PyForm f) -> fsem M f en = r) /\ (forall r', py_compare parse fuel st b x y = Ok (PyBool r') -> r' = r).
Proof.
  intros parse fuel st b x y M val en v c d r HM N L Vx Vy R. apply Forall_app in N as [Nx Ny]. unfold py_compare.
  assert (VT : forall t, py_eval parse fuel st x = Ok (PyTerm t) -> val (tsem M t en) = Some c).
  { intros t H. eapply (meaning parse fuel st M val HM en v x); eauto. intros u Hu. apply L, in_or_app. now left. }
  assert (VU : forall t, py_eval parse fuel st y = Ok (PyTerm t) -> val (tsem M t en) = Some d).
  { intros t H. eapply (meaning parse fuel st M val HM en v y); eauto. intros u Hu. apply L, in_or_app. now right. }
  destruct (py_eval parse fuel st x) as [p|] eqn:Ex; [|split; discriminate]. destruct (py_eval parse fuel st y) as [q|] eqn:Ey; [|split; discriminate]. cbn [bind].
  assert (PV : forall c', p = PyVal c' -> c' = c). { intros c' ->. rewrite (py_eval_val parse fuel st v _ _ _ (fun _ => eq_refl) Ex) in Vx. now injection Vx. }
  assert (QV : forall c', q = PyVal c' -> c' = d). { intros c' ->. rewrite (py_eval_val parse fuel st v _ _ _ (fun _ => eq_refl) Ey) in Vy. now injection Vy. }
  destruct p as [c'|t].
  - specialize (PV _ eq_refl). subst c'. destruct q as [d'|u].
    + specialize (QV _ eq_refl). subst d'. split; [intros f H; destruct (py_lit_compare b c d); discriminate|]. intros r' H.
      assert (E : py_lit_compare b c d = compare_names b c d).
      { unfold py_lit_compare, compare_names, cname_eqb. destruct b; try reflexivity. destruct (cname_eq_dec c d); reflexivity. }
      rewrite E in H. destruct (compare_names b c d) as [r''|] eqn:E2; [|discriminate]. injection H as <-. apply name_cmp_compare in E2. congruence.
    + split; [|intros r' H; destruct (dispatch_pred _ _ _ _ _ _); discriminate]. intros f H. destruct (dispatch_pred _ _ _ (mirror b) _ _) as [g|] eqn:D; [|discriminate]. injection H as <-.
      apply dispatch_pred_inv in D. destruct D as (u1 & u2 & C & -> & _). destruct (operands parse fuel st y x _ _ u1 u2 Ny Nx Ey Ex C) as [[E1|(? & ? & E1 & _)] [E2|(c2 & s2 & E2 & ->)]]; try discriminate.
      injection E1 as <-. injection E2 as <-. cbn [fsem map tsem]. eapply (ar_cmp _ _ HM); [apply VU; reflexivity|apply (ar_cst _ _ HM)|]. now rewrite name_cmp_mirror.
  - split; [|intros r' H; destruct (dispatch_pred _ _ _ _ _ _); discriminate]. intros f H. destruct (dispatch_pred _ _ _ b _ _) as [g|] eqn:D; [|discriminate]. injection H as <-.
    apply dispatch_pred_inv in D. destruct D as (u1 & u2 & C & -> & _). destruct (operands parse fuel st x y _ _ u1 u2 Nx Ny Ex Ey C) as [[E1|(? & ? & E1 & _)] Y]; try discriminate.
    injection E1 as <-. cbn [fsem map]. eapply (ar_cmp _ _ HM); [apply VT; reflexivity| |exact R].
    destruct Y as [->|(c2 & s2 & -> & ->)]; [now apply VU|]. rewrite <- (QV _ eq_refl). cbn [tsem]. apply (ar_cst _ _ HM).
Qed.
Print Assumptions C58_comparisons.

(** * The evaluator *)
Definition machine (z : Z) : bool := Z.leb (Z.abs z) (2 ^ 31 - 1).
Lemma pyvalue_weaken ok v e c : pyvalue ok v e = Some c -> pyvalue (fun _ => true) v e = Some c.
Proof.
  revert c. induction e as [c0|t|o a IHa b IHb]; intros c; cbn [pyvalue]; auto. destruct (pyvalue ok v a) as [[|x]|]; try discriminate. destruct (pyvalue ok v b) as [[|y]|]; try discriminate.
  rewrite (IHa _ eq_refl), (IHb _ eq_refl). destruct (arith_of o x y) as [z|]; [|discriminate]. destruct (ok z); [auto|discriminate].
Qed.
Section Evaluate.
Variable parse : bool -> string -> option Z.
Variable fuel : nat.
Variable st : tlang.
Lemma evaluates m v e : Forall (no_numeral parse) (literals e) -> (forall u c, In u (leaves e) -> v u = Some c -> exists s, eval_term m u = Ok (Cst c s)) ->
  forall t c, py_eval parse fuel st e = Ok (PyTerm t) -> pyvalue machine v e = Some c -> exists s, eval_term m t = Ok (Cst c s).
Proof.
  induction e as [c0|t0|o a IHa b IHb]; intros N L t c H V; [discriminate|cbn in H; injection H as <-; cbn in V; apply L; [now left|exact V]|].
  cbn [literals] in N. apply Forall_app in N as [Na Nb].
  apply py_eval_bin in H. destruct H as (x & y & Ha & Hb & [(c1 & c2 & e & _ & _ & _ & H)|(t' & D & H & _)]); [discriminate|]. injection H as <-.
  apply dispatch_fun_inv in D. destruct D as (f & u & w & F & C & -> & _). destruct (operands parse fuel st a b x y u w Na Nb Ha Hb C) as [X Y].
  cbn [pyvalue] in V. destruct (pyvalue _ v a) as [[|p]|] eqn:Va; try discriminate. destruct (pyvalue _ v b) as [[|q]|] eqn:Vb; try discriminate.
  assert (Vu : exists s, eval_term m u = Ok (Cst (CInt p) s)).
  { destruct X as [->|(c' & s & -> & ->)]; [apply (IHa Na (fun u c Hu => L u c (in_or_app _ _ _ (or_introl Hu))) _ _ Ha eq_refl)|].
    apply pyvalue_weaken in Va. rewrite (py_eval_val parse fuel st v (fun _ => true) a c' (fun _ => eq_refl) Ha) in Va. injection Va as ->. now exists s. }
  assert (Vw : exists s, eval_term m w = Ok (Cst (CInt q) s)).
  { destruct Y as [->|(c' & s & -> & ->)]; [apply (IHb Nb (fun u c Hu => L u c (in_or_app _ _ _ (or_intror Hu))) _ _ Hb eq_refl)|].
    apply pyvalue_weaken in Vb. rewrite (py_eval_val parse fuel st v (fun _ => true) b c' (fun _ => eq_refl) Hb) in Vb. injection Vb as ->. now exists s. }
  destruct Vu as [s Vu], Vw as [s' Vw]. cbn [eval_term]. rewrite Vu, Vw. destruct (arith_of o p q) as [z|] eqn:A; [|discriminate]. destruct (machine z) eqn:K; [|discriminate]. injection V as <-.
  exists int_sort. apply arith_value_arith. exists z. split; [|reflexivity]. unfold arith_value. unfold machine in K.
  destruct o; cbn in F, A; try discriminate; injection F as <-; injection A as <-; now rewrite K.
Qed.
End Evaluate.
(** The evaluator computes the value that Python would compute, if no intermediate result is beyond the bounds of Integer. *)
Theorem C58_evaluator : forall parse fuel st e t m v c, Forall (no_numeral parse) (literals e) ->
  (forall u d, In u (leaves e) -> v u = Some d -> exists s, eval_term m u = Ok (Cst d s)) ->
  py_eval parse fuel st e = Ok (PyTerm t) -> pyvalue machine v e = Some c -> exists s, eval_term m t = Ok (Cst c s).
Proof. intros. eapply evaluates; eauto. Qed.
Print Assumptions C58_evaluator.
Theorem C58_evaluator_comparisons : forall parse fuel st b x y f m v c d r, Forall (no_numeral parse) (literals x ++ literals y) ->
  (forall u d, In u (leaves x ++ leaves y) -> v u = Some d -> exists s, eval_term m u = Ok (Cst d s)) ->
  py_compare parse fuel st b x y = Ok (PyForm f) -> pyvalue machine v x = Some c -> pyvalue machine v y = Some d -> name_cmp b c d = Some r -> eval_f m f = Ok r.
Proof.
  intros parse fuel st b x y f m v c d r N L H Vx Vy R. apply Forall_app in N as [Nx Ny]. unfold py_compare in H.
  assert (VT : forall t, py_eval parse fuel st x = Ok (PyTerm t) -> exists s, eval_term m t = Ok (Cst c s)).
  { intros t E. eapply (evaluates parse fuel st m v x); eauto. intros u d' Hu. apply L, in_or_app. now left. }
  assert (VU : forall t, py_eval parse fuel st y = Ok (PyTerm t) -> exists s, eval_term m t = Ok (Cst d s)).
  { intros t E. eapply (evaluates parse fuel st m v y); eauto. intros u d' Hu. apply L, in_or_app. now right. }
  assert (ET : forall t k, eval_term m t = Ok k -> evaluate_t m t = Ok k) by (intros [] k E; [discriminate|exact E..]).
  assert (CMP : forall g u1 u2 c1 c2 r', (exists s, eval_term m u1 = Ok (Cst c1 s)) -> (exists s, eval_term m u2 = Ok (Cst c2 s)) -> name_cmp g c1 c2 = Some r' -> eval_f m (Atom (PB g) [u1; u2]) = Ok r').
  { intros g u1 u2 c1 c2 r' [s1 E1] [s2 E2] G. rewrite eval_batom. cbn [mapM]. rewrite (ET _ _ E1), (ET _ _ E2). cbn [compare_values]. now apply name_cmp_compare. }
  destruct (py_eval parse fuel st x) as [p|] eqn:Ex; [|discriminate]. destruct (py_eval parse fuel st y) as [q|] eqn:Ey; [|discriminate]. cbn [bind] in H.
  assert (PV : forall c', p = PyVal c' -> c' = c). { intros c' ->. apply pyvalue_weaken in Vx. rewrite (py_eval_val parse fuel st v _ _ _ (fun _ => eq_refl) Ex) in Vx. now injection Vx. }
  assert (QV : forall c', q = PyVal c' -> c' = d). { intros c' ->. apply pyvalue_weaken in Vy. rewrite (py_eval_val parse fuel st v _ _ _ (fun _ => eq_refl) Ey) in Vy. now injection Vy. }
  destruct p as [c'|t].
  - specialize (PV _ eq_refl). subst c'. destruct q as [d'|u]; [destruct (py_lit_compare b c d'); discriminate|].
    destruct (dispatch_pred _ _ _ (mirror b) _ _) as [g|] eqn:D; [|discriminate]. injection H as <-.
    apply dispatch_pred_inv in D. destruct D as (u1 & u2 & C & -> & _). destruct (operands parse fuel st y x _ _ u1 u2 Ny Nx Ey Ex C) as [[E1|(? & ? & E1 & _)] [E2|(c2 & s2 & E2 & ->)]]; try discriminate.
    injection E1 as <-. injection E2 as <-. eapply CMP; [now apply VU|exists s2; reflexivity|]. now rewrite name_cmp_mirror.
  - destruct (dispatch_pred _ _ _ b _ _) as [g|] eqn:D; [|discriminate]. injection H as <-.
    apply dispatch_pred_inv in D. destruct D as (u1 & u2 & C & -> & _). destruct (operands parse fuel st x y _ _ u1 u2 Nx Ny Ex Ey C) as [[E1|(? & ? & E1 & _)] Y]; try discriminate.
    injection E1 as <-. eapply CMP; [now apply VT| |exact R].
    destruct Y as [->|(c2 & s2 & -> & ->)]; [now apply VU|]. rewrite <- (QV _ eq_refl). exists s2. reflexivity.
Qed.
Print Assumptions C58_evaluator_comparisons.

(** * When expressions can be built *)
Section Exact.
Variable parse : bool -> string -> option Z.
Variable fuel : nat.
Variable st : tlang.
Notation l := (t_lang st).
Hypothesis I : inv_tree l.
Definition matches (ty : ptype) (r : pval) : Prop := match ty, r with IsValue c, PyVal d => c = d | HasSort s, PyTerm t => sort_of st t = s | _, _ => False end.
Lemma check_sort_spec t s : is_sort l s -> (check_sort fuel st t s = Ok tt <-> le l (sort_of st t) s).
Proof.
  intros Hs. unfold check_sort. destruct (is_subtype fuel l (sort_of st t) s) as [l' r] eqn:E. destruct (subtype_sound fuel l _ _ l' r I E) as (_ & X & _). cbn [snd]. split.
  - destruct r as [b|]; [|discriminate]. cbn [bind]. destruct b; [|discriminate]. intros _. now apply (X true eq_refl).
  - intros H. assert (R : r = Ok true).
    { assert (S1 : is_sort l (sort_of st t)). { destruct H as [->|H]; [exact Hs|]. now apply (anc_sort l _ _ I H). }
      unfold is_subtype, retrieve in E. apply has_sort_spec in S1. pose proof (proj2 (has_sort_spec l s) Hs) as S2. rewrite S1, S2 in E.
      destruct (String.eqb_spec (sort_of st t) s) as [Q|N]; [now injection E|]. destruct H as [H|H]; [congruence|]. apply (anc_get_set l _ _ I) in H.
      assert (M : str_mem s (get_set (l_anc l) (sort_of st t)) = true). { unfold str_mem. apply existsb_exists. exists s. split; [exact H|apply String.eqb_refl]. } rewrite M in E. now injection E. }
    now rewrite R.
Qed.
Lemma literal_spec c s : no_numeral parse c -> ((exists t, literal parse st c s = Ok t) <-> admits parse st s c).
Proof.
  intros N. unfold literal, admits, sort_contains, is_real. destruct (sget (l_sorts l) s) as [r|]; [|split; [intros [t H]; discriminate|intros [H _]; discriminate]].
  destruct (s_kind r) as [|real lb ub].
  - destruct (cn_mem c (s_dom r)); split; [intros _; split; [reflexivity|intros K; discriminate K]|intros _; eexists; reflexivity|intros [t H]; discriminate|intros [H _]; discriminate].
  - destruct c as [x|z]; unfold cast, encode.
    + rewrite !N. cbn [bind]. split; [intros [t H]; discriminate H|intros [H _]; discriminate H].
    + destruct (Z.leb lb z && Z.leb z ub); cbn [bind]; [|split; [intros [t H]; discriminate|intros [H _]; discriminate]].
      destruct real; cbn [andb]; [|split; [intros _; split; [reflexivity|intros K; discriminate K]|intros _; eexists; reflexivity]].
      destruct (Z.ltb_spec (2 ^ 53) (Z.abs z)); split.
      * intros [t K]; discriminate.
      * intros [_ K]. specialize (K eq_refl). lia.
      * intros _. split; [reflexivity|]. intros _. lia.
      * intros _. eexists; reflexivity.
Qed.
Hypothesis HR : is_sort l "Real".
Hypothesis HU : forall x, In x (symbols_of TArithmetic) -> usable st x.
Lemma mem_of x l0 : In x l0 -> str_mem x l0 = true.
Proof. intros H. unfold str_mem. apply existsb_exists. exists x. split; [exact H|apply String.eqb_refl]. Qed.
Lemma op_usable o b : op_fun o = Some b -> str_mem (bfun_name b) (t_handlers st) = true /\ str_mem (bfun_name b) (t_symbols st) = true.
Proof.
  intros H. assert (U : usable st (bfun_name b)). { apply HU. destruct o; cbn in H; try discriminate; injection H as <-; cbn; tauto. }
  destruct U as [U1 U2]. split; now apply mem_of.
Qed.
Lemma dispatch_ok o x y : o <> OpNone -> ((exists t, dispatch_fun parse fuel st o x y = Ok t /\ sort_of st t = "Real") <->
  exists u v, cast_operands parse st x y = Ok (u, v) /\ le l (sort_of st u) "Real" /\ le l (sort_of st v) "Real").
Proof.
  intros Ho. split.
  - intros (t & D & _). apply dispatch_fun_inv in D. destruct D as (b & u & v & F & C & -> & _ & _ & K1 & K2). exists u, v. split; [exact C|]. split; now apply check_sort_spec.
  - intros (u & v & C & K1 & K2). assert (E : exists b, op_fun o = Some b) by (destruct o; try (eexists; reflexivity); congruence). destruct E as [b F]. destruct (op_usable o b F) as [H1 H2].
    exists (App (FB b) [u; v]). split; [|reflexivity]. unfold dispatch_fun. rewrite F, H1, C. cbn [bind fst snd]. rewrite H2.
    apply (check_sort_spec u "Real" HR) in K1. apply (check_sort_spec v "Real" HR) in K2. rewrite K1, K2. reflexivity.
Qed.
Lemma reflected o : has_reflected o = true <-> In o [OpAdd; OpSub; OpMul; OpDiv].
Proof. destruct o; cbn; split; intros H; auto; try discriminate; try tauto; repeat (destruct H as [H|H]; [discriminate|]); contradiction. Qed.
Lemma literal_sort c s t : literal parse st c s = Ok t -> sort_of st t = s.
Proof.
  unfold literal. destruct (sget (l_sorts l) s) as [r|]; [|discriminate]. destruct (s_kind r) as [|real lb ub]; [destruct (cn_mem c (s_dom r)); [|discriminate]; intros H; now injection H as <-|].
  destruct (cast parse real lb ub c) as [[|z]|]; try discriminate. cbn [bind]. destruct (_ && _); [discriminate|]. intros H; now injection H as <-.
Qed.
Lemma build_sound e : Forall (no_numeral parse) (literals e) -> forall r, py_eval parse fuel st e = Ok r -> exists ty, builds parse st e ty /\ matches ty r.
Proof.
  induction e as [c0|t0|o a IHa b IHb]; intros N r H.
  - injection H as <-. exists (IsValue c0). split; [constructor|reflexivity].
  - injection H as <-. exists (HasSort (sort_of st t0)). split; [constructor|reflexivity].
  - cbn [literals] in N. apply Forall_app in N as [Na Nb]. apply py_eval_bin in H. destruct H as (x & y & Ha & Hb & H).
    destruct (IHa Na _ Ha) as (ta & Ba & Ma). destruct (IHb Nb _ Hb) as (tb & Bb & Mb).
    assert (NA : forall c, x = PyVal c -> no_numeral parse c). { intros c ->. exact (py_eval_numeral parse fuel st a c Na Ha). }
    assert (NB : forall c, y = PyVal c -> no_numeral parse c). { intros c ->. exact (py_eval_numeral parse fuel st b c Nb Hb). }
    destruct H as [(c1 & c2 & e & -> & -> & E & ->)|(t & D & -> & Rf)].
    + apply py_arith_of in E. destruct E as (p & q & z & -> & -> & E & ->). destruct ta; [|contradiction]. destruct tb; [|contradiction]. cbn in Ma, Mb. subst. exists (IsValue (CInt z)). split; [eapply b_numbers; eauto|reflexivity].
    + exists (HasSort "Real"). assert (On : o <> OpNone) by (intros ->; discriminate D).
      assert (S : sort_of st t = "Real") by (apply dispatch_fun_inv in D; destruct D as (? & ? & ? & _ & _ & -> & _); reflexivity).
      split; [|exact S]. destruct (proj1 (dispatch_ok o x y On) (ex_intro _ t (conj D S))) as (u & v & C & K1 & K2).
      destruct x as [c|p].
      * destruct (Rf c eq_refl) as [Rf' [w ->]]. cbn [cast_operands] in C. destruct (literal parse st c (sort_of st w)) as [u'|] eqn:Lc; [|discriminate]. injection C as <- <-.
        destruct ta; [|contradiction]. destruct tb; [contradiction|]. cbn in Ma, Mb. subst. eapply b_left; eauto; [now apply reflected|]. apply literal_spec; [now apply NA|eauto].
      * destruct y as [c|w]; cbn [cast_operands] in C.
        -- destruct (literal parse st c (sort_of st p)) as [u'|] eqn:Lc; [|discriminate]. injection C as <- <-. destruct ta; [contradiction|]. destruct tb; [|contradiction]. cbn in Ma, Mb. subst.
           eapply b_right; eauto. apply literal_spec; [now apply NB|eauto].
        -- injection C as <- <-. destruct ta; [contradiction|]. destruct tb; [contradiction|]. cbn in Ma, Mb. subst. eapply b_terms; eauto.
Qed.
Lemma build_complete e ty : Forall (no_numeral parse) (literals e) -> builds parse st e ty -> exists r, py_eval parse fuel st e = Ok r /\ matches ty r.
Proof.
  intros N B. induction B as [c|t|o a b x y z Ba IHa Bb IHb E|o a b s t On Ba IHa Bb IHb Ks Kt|o a b s c On Ba IHa Bb IHb Ks Ad|o a b c t On Ba IHa Bb IHb Kt Ad];
    [eexists; split; reflexivity|eexists; split; reflexivity|cbn [literals] in N; apply Forall_app in N as [Na Nb]; destruct (IHa Na) as (ra & Ea & Ma); destruct (IHb Nb) as (rb & Eb & Mb);
     destruct ra as [ca|ua]; try contradiction; destruct rb as [cb|ub]; try contradiction; cbn in Ma, Mb; subst; cbn [py_eval]; rewrite Ea, Eb; cbn [bind py_binary] ..].
  - assert (P : py_arith o (CInt x) (CInt y) = Ok (CInt z)) by (apply py_arith_of; exists x, y, z; auto). rewrite P. eexists; split; reflexivity.
  - destruct (proj2 (dispatch_ok o (PyTerm ua) (PyTerm ub) On)) as (t & D & S); [exists ua, ub; auto|]. rewrite D. eexists; split; [reflexivity|exact S].
  - destruct (proj2 (literal_spec cb (sort_of st ua) (py_eval_numeral parse fuel st b cb Nb Eb)) Ad) as [v Lv].
    destruct (proj2 (dispatch_ok o (PyTerm ua) (PyVal cb) On)) as (t & D & S); [exists ua, v; cbn [cast_operands]; rewrite Lv, (literal_sort _ _ _ Lv); auto|]. rewrite D. eexists; split; [reflexivity|exact S].
  - assert (On' : o <> OpNone) by (intros ->; cbn in On; repeat (destruct On as [On|On]; [discriminate|]); contradiction). apply reflected in On. rewrite On.
    destruct (proj2 (literal_spec ca (sort_of st ub) (py_eval_numeral parse fuel st a ca Na Ea)) Ad) as [v Lv].
    destruct (proj2 (dispatch_ok o (PyVal ca) (PyTerm ub) On')) as (t & D & S); [exists v, ub; cbn [cast_operands]; rewrite Lv, (literal_sort _ _ _ Lv); auto|]. rewrite D. eexists; split; [reflexivity|exact S].
Qed.
End Exact.
