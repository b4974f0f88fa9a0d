(** C58: which expressions can be written in a language *)
From Verif Require Import Base Syntax Semantics SemLemmas ListUtil ModelState ModelProofs Lang LangSpec LangProofs LangProofs2 LangProofs3 PropsLang Eval EvalSpec EvalProofs Theories TheoriesSpec
  TheoriesProofs TheoriesProofs2 TheoriesProofs3 PropsTheories PropsTermOps.
Local Open Scope string_scope.

Lemma le_object l s : inv_tree l -> (le l s "object" <-> is_sort l s).
Proof.
  intros I. split.
  - intros [->|H]; [now apply object_sort|now apply (anc_sort l _ _ I H)].
  - destruct (it_rank l I) as (rank & R1 & _). remember (rank s) as k eqn:Ek. revert s Ek. induction k as [k IH] using lt_wf_ind. intros s -> Hs.
    destruct (String.eqb_spec s "object") as [->|N]; [now left|]. right.
    destruct (parent_of l s) as [p|] eqn:P.
    + destruct (IH (rank p) (R1 s p P) p eq_refl (it_parent l I s p P)) as [->|A]; [now apply anc_parent|now apply (anc_up l s p)].
    + destruct (it_root l I s Hs); congruence.
Qed.
Section Reachable.
Variable parse : bool -> string -> option Z.
Variable fuel : nat.
Variable ops : list top.
Hypothesis Hn : forallb tnative ops = true.
Notation st := (trun parse ops).
Notation l := (t_lang st).
Lemma usable_loaded t x : In t (t_theories st) -> In x (symbols_of t) -> usable st x.
Proof. intros H K. apply (C59_symbols parse ops Hn). eauto. Qed.
Lemma usable_theory t x : In x (t_symbols st) -> In x (symbols_of t) -> In t (t_theories st).
Proof. intros H K. pose proof (trun_inv parse ops Hn) as T. apply (ti_sym st T) in H as (t' & H1 & H2). now rewrite (symbols_disjoint t t' x K H2). Qed.
Lemma real_sort : In TArithmetic (t_theories st) -> is_sort l "Real".
Proof. intros H. apply (proj2 (C59_symbols parse ops Hn) TArithmetic H). now left. Qed.
Lemma pred_check b t : In TArithmetic (t_theories st) -> (check_sort fuel st t (pred_sort b) = Ok tt <-> comparable st b (sort_of st t)).
Proof.
  intros H. assert (I := trun_tree parse ops Hn). destruct b; cbn [pred_sort comparable]; try (apply check_sort_spec; [exact I|now apply real_sort]); rewrite check_sort_spec by (try exact I; now apply object_sort); now apply le_object.
Qed.
End Reachable.

(** With the theory of arithmetic, the expressions that evaluate are those that [builds] gives a value or a sort. *)
Theorem C58_builds : forall parse fuel ops e, forallb tnative ops = true -> let st := trun parse ops in
  In TArithmetic (t_theories st) -> Forall (no_numeral parse) (literals e) ->
  (forall s, (exists t, py_eval parse fuel st e = Ok (PyTerm t) /\ sort_of st t = s) <-> builds parse st e (HasSort s)) /\
  (forall c, py_eval parse fuel st e = Ok (PyVal c) <-> builds parse st e (IsValue c)).
Proof.
  intros parse fuel ops e Hn st H N. assert (I := trun_tree parse ops Hn). assert (HR := real_sort parse ops Hn H). assert (HU := fun x => usable_loaded parse ops Hn TArithmetic x H). split.
  - intros s. split.
    + intros (t & E & S). destruct (build_sound parse fuel st I HR HU e N _ E) as ([c|s'] & B & M); [contradiction|]. cbn in M. congruence.
    + intros B. destruct (build_complete parse fuel st I HR HU e _ N B) as ([c|t] & E & M); [contradiction|]. exists t. split; [exact E|exact M].
  - intros c. split.
    + intros E. destruct (build_sound parse fuel st I HR HU e N _ E) as ([c'|s'] & B & M); [|contradiction]. cbn in M. congruence.
    + intros B. destruct (build_complete parse fuel st I HR HU e _ N B) as ([c'|t] & E & M); [|contradiction]. cbn in M. congruence.
Qed.
Print Assumptions C58_builds.
Theorem C58_compares : forall parse fuel ops b x y, forallb tnative ops = true -> let st := trun parse ops in
  In TArithmetic (t_theories st) -> In TEquality (t_theories st) -> Forall (no_numeral parse) (literals x ++ literals y) ->
  (exists f, py_compare parse fuel st b x y = Ok (PyForm f)) <-> compares parse st b x y.
Proof.
  intros parse fuel ops b x y Hn st H HE N. apply Forall_app in N as [Nx Ny]. assert (I := trun_tree parse ops Hn).
  destruct (C58_builds parse fuel ops x Hn H Nx) as [Bx Vx]. destruct (C58_builds parse fuel ops y Hn H Ny) as [By Vy]. fold st in Bx, Vx, By, Vy.
  assert (US : forall b, str_mem (bpred_name b) (t_handlers st) = true /\ str_mem (bpred_name b) (t_symbols st) = true).
  { intros b0. assert (U : usable st (bpred_name b0)) by (destruct b0; first [apply (usable_loaded parse ops Hn TEquality); [exact HE|cbn; tauto]|apply (usable_loaded parse ops Hn TArithmetic); [exact H|cbn; tauto]]).
    destruct U as [U1 U2]. split; now apply mem_of. }
  assert (DP : forall b p q, (exists f, dispatch_pred parse fuel st b p q = Ok f) <-> exists u v, cast_operands parse st p q = Ok (u, v) /\ comparable st b (sort_of st u) /\ comparable st b (sort_of st v)).
  { intros b0 p q. split.
    - intros [f D]. apply dispatch_pred_inv in D. destruct D as (u & v & C & _ & _ & _ & K1 & K2). exists u, v. split; [exact C|]. split; now apply (pred_check parse fuel ops Hn).
    - intros (u & v & C & K1 & K2). apply (pred_check parse fuel ops Hn) in K1; [|exact H]. apply (pred_check parse fuel ops Hn) in K2; [|exact H]. fold st in K1, K2. destruct (US b0) as [U1 U2].
      unfold dispatch_pred. rewrite U1, C. cbn [bind fst snd]. rewrite U2, K1, K2. eexists; reflexivity. }
  assert (MC : forall s, comparable st (mirror b) s <-> comparable st b s) by (intros s; destruct b; reflexivity).
  assert (CR : forall b p c, no_numeral parse c -> ((exists f, dispatch_pred parse fuel st b (PyTerm p) (PyVal c) = Ok f) <-> comparable st b (sort_of st p) /\ admits parse st (sort_of st p) c)).
  { intros b0 p c Nc. rewrite DP. cbn [cast_operands]. split.
    - intros (u & v & C & K1 & K2). destruct (literal parse st c (sort_of st p)) as [w|] eqn:L; [|discriminate]. injection C as <- <-. split; [exact K1|]. apply literal_spec; eauto.
    - intros [K1 A]. apply literal_spec in A as [w L]; [|exact Nc]. exists p, w. rewrite L, (literal_sort parse st _ _ _ L). auto. }
  unfold py_compare. split.
  - intros [f E]. destruct (py_eval parse fuel st x) as [p|] eqn:Ex; [|discriminate]. destruct (py_eval parse fuel st y) as [q|] eqn:Ey; [|discriminate]. cbn [bind] in E. destruct p as [c|u], q as [d|v].
    + destruct (py_lit_compare b c d); discriminate.
    + destruct (dispatch_pred parse fuel st (mirror b) (PyTerm v) (PyVal c)) as [g|] eqn:D; [|discriminate].
      destruct (proj1 (CR (mirror b) v c (py_eval_numeral parse fuel st x c Nx Ex)) (ex_intro _ g D)) as [K A]. apply MC in K. apply (c_left parse st b x y c (sort_of st v)); [now apply Vx|apply By; eauto|exact K|exact A].
    + destruct (dispatch_pred parse fuel st b (PyTerm u) (PyVal d)) as [g|] eqn:D; [|discriminate].
      destruct (proj1 (CR b u d (py_eval_numeral parse fuel st y d Ny Ey)) (ex_intro _ g D)) as [K A]. apply (c_right parse st b x y (sort_of st u) d); [apply Bx; eauto|now apply Vy|exact K|exact A].
    + destruct (dispatch_pred parse fuel st b (PyTerm u) (PyTerm v)) as [g|] eqn:D; [|discriminate]. destruct (proj1 (DP b _ _) (ex_intro _ g D)) as (u' & v' & C & K1 & K2). injection C as <- <-.
      apply (c_terms parse st b x y (sort_of st u) (sort_of st v)); [apply Bx; eauto|apply By; eauto|exact K1|exact K2].
  - intros K0. inversion K0 as [x' y' s t B1 B2 K1 K2 Qx Qy|x' y' s c B1 B2 K A Qx Qy|x' y' c t B1 B2 K A Qx Qy]; subst x' y'.
    + apply Bx in B1 as (u & -> & <-). apply By in B2 as (v & -> & <-). cbn [bind]. destruct (proj2 (DP b (PyTerm u) (PyTerm v))) as [g D]; [exists u, v; auto|]. rewrite D. eexists; reflexivity.
    + apply Bx in B1 as (u & -> & <-). apply Vy in B2 as Ey. rewrite Ey. cbn [bind]. destruct (proj2 (CR b u c (py_eval_numeral parse fuel st _ c Ny Ey))) as [g D]; [auto|]. rewrite D. eexists; reflexivity.
    + apply By in B2 as (v & -> & <-). apply Vx in B1 as Ex. rewrite Ex. cbn [bind]. destruct (proj2 (CR (mirror b) v c (py_eval_numeral parse fuel st _ c Nx Ex))) as [g D]; [rewrite MC; auto|]. rewrite D. eexists; reflexivity.
Qed.
Print Assumptions C58_compares.
(** Without the theory, no operator applies to terms. *)
Theorem C58_theory_needed : forall parse fuel ops, forallb tnative ops = true -> let st := trun parse ops in
  (forall e t, ~ In TArithmetic (t_theories st) -> py_eval parse fuel st e = Ok (PyTerm t) -> e = PLeaf t) /\
  (forall b x y f, ~ In (match b with PEq | PNe => TEquality | _ => TArithmetic end) (t_theories st) -> py_compare parse fuel st b x y <> Ok (PyForm f)).
Proof.
  intros parse fuel ops Hn st. split.
  - intros e t N E. destruct e as [c|u|o a b]; [discriminate|injection E as ->; reflexivity|]. exfalso. apply py_eval_bin in E. destruct E as (p & q & _ & _ & [(c & d & r & _ & _ & _ & E)|(u & D & E & _)]); [discriminate|].
    apply dispatch_fun_inv in D. destruct D as (bf & v & w & F & _ & _ & _ & S & _). apply existsb_in_str in S. apply N. apply (usable_theory parse ops Hn TArithmetic _ S). destruct o; cbn in F; try discriminate; injection F as <-; cbn; tauto.
  - intros b x y f N E. assert (DP : forall b p q g, dispatch_pred parse fuel st b p q = Ok g -> In (match b with PEq | PNe => TEquality | _ => TArithmetic end) (t_theories st)).
    { intros b0 p q g D. apply dispatch_pred_inv in D. destruct D as (u & v & _ & _ & _ & S & _). apply existsb_in_str in S. eapply (usable_theory parse ops Hn); [exact S|]. destruct b0; cbn; tauto. }
    unfold py_compare in E. destruct (py_eval parse fuel st x) as [p|]; [|discriminate]. destruct (py_eval parse fuel st y) as [q|]; [|discriminate]. cbn [bind] in E. apply N. destruct p as [c|u].
    + destruct q as [d|v]; [destruct (py_lit_compare b c d); discriminate|]. destruct (dispatch_pred parse fuel st (mirror b) (PyTerm v) (PyVal c)) eqn:D; [|discriminate]. apply DP in D. destruct b; exact D.
    + destruct (dispatch_pred parse fuel st b (PyTerm u) q) eqn:D; [|discriminate]. exact (DP _ _ _ _ D).
Qed.
Print Assumptions C58_theory_needed.
(** Structures of integers and names are arithmetical. *)
Definition MZ : structure :=
  {| carrier := cname; dom := fun _ => []; cint := fun c _ => c;
     fint := fun f vs => match f, vs with FB BAdd, [CInt x; CInt y] => CInt (x + y) | FB BSub, [CInt x; CInt y] => CInt (x - y) | FB BMul, [CInt x; CInt y] => CInt (x * y) | FU _ _ _, [CInt x] => CInt (x + 5) | _, _ => CInt 0 end;
     pint := fun p vs => match p, vs with PB b, [x; y] => match name_cmp b x y with Some r => r | None => false end | _, _ => false end |}.
Lemma MZ_arithmetical : arithmetical MZ (fun c => Some c).
Proof.
  constructor; cbn.
  - reflexivity.
  - intros x y a b Hx Hy. injection Hx as ->. injection Hy as ->. reflexivity.
  - intros x y a b Hx Hy. injection Hx as ->. injection Hy as ->. reflexivity.
  - intros x y a b Hx Hy. injection Hx as ->. injection Hy as ->. reflexivity.
  - intros b x y c d r Hx Hy H. injection Hx as ->. injection Hy as ->. now rewrite H.
Qed.
Definition opsA : list top := [TLoad TEquality; TLoad TArithmetic; TOp (OSort "block" None); TOp (OConst (CStr "b1") "block"); TOp (OInterval "small" "Integer" 0 10); TOp (OFun "size" ["block"; "small"])].
Definition stA : tlang := Eval vm_compute in trun no_parse opsA.
(** 2 * (size(b1) - x) + 3 and 20 >= 4 + size(b1), where x is of the sort small *)
Definition size_b1 : term := App (FU "size" ["block"] "small") [Cst (CStr "b1") "block"].
Definition expA : pexp := PBin OpAdd (PBin OpMul (PLit (CInt 2)) (PBin OpSub (PLeaf size_b1) (PLeaf (Var "x" "small")))) (PLit (CInt 3)).
Definition expB : pexp := PBin OpAdd (PLit (CInt 4)) (PLeaf size_b1).
Definition bin (b : bfun) (x y : term) : term := App (FB b) [x; y].
Definition envA : env MZ := fun _ => CInt 1.
Definition valA (t : term) : option cname := Some (tsem MZ t envA).
Theorem C58_nonvacuous :
  forallb tnative opsA = true /\ In TArithmetic (t_theories (trun no_parse opsA)) /\ In TEquality (t_theories (trun no_parse opsA)) /\ Forall (no_numeral no_parse) (literals expA ++ literals expB) /\
  py_eval no_parse 9 (trun no_parse opsA) expA =
    Ok (PyTerm (bin BAdd (bin BMul (Cst (CInt 2) "Real") (bin BSub size_b1 (Var "x" "small"))) (Cst (CInt 3) "Real"))) /\
  builds no_parse (trun no_parse opsA) expA (HasSort "Real") /\
  py_compare no_parse 9 (trun no_parse opsA) PGe (PLit (CInt 20)) expB = Ok (PyForm (Atom (PB PLe) [bin BAdd (Cst (CInt 4) "small") size_b1; Cst (CInt 20) "Real"])) /\
  compares no_parse (trun no_parse opsA) PGe (PLit (CInt 20)) expB.
Proof.
  assert (E : trun no_parse opsA = stA) by (vm_compute; reflexivity).
  assert (H : forallb tnative opsA = true) by reflexivity.
  assert (A : In TArithmetic (t_theories (trun no_parse opsA))) by (rewrite E; vm_compute; tauto). assert (B : In TEquality (t_theories (trun no_parse opsA))) by (rewrite E; vm_compute; tauto).
  assert (N : Forall (no_numeral no_parse) (literals expA ++ literals expB)) by (repeat constructor).
  assert (P : py_eval no_parse 9 (trun no_parse opsA) expA = Ok (PyTerm (bin BAdd (bin BMul (Cst (CInt 2) "Real") (bin BSub size_b1 (Var "x" "small"))) (Cst (CInt 3) "Real")))) by (rewrite E; vm_compute; reflexivity).
  assert (Q : py_compare no_parse 9 (trun no_parse opsA) PGe (PLit (CInt 20)) expB = Ok (PyForm (Atom (PB PLe) [bin BAdd (Cst (CInt 4) "small") size_b1; Cst (CInt 20) "Real"]))) by (rewrite E; vm_compute; reflexivity).
  split; [exact H|]. split; [exact A|]. split; [exact B|]. split; [exact N|]. split; [exact P|]. split; [|split; [exact Q|]].
  - apply (C58_builds no_parse 9 opsA expA H A); [|eexists; split; [exact P|reflexivity]]. apply Forall_app in N. apply N.
  - apply (C58_compares no_parse 9 opsA PGe (PLit (CInt 20)) expB H A B); [|eexists; exact Q]. repeat constructor.
Qed.
Print Assumptions C58_nonvacuous.
(** In the structure above, where size(b1) is 0 and x is 1, the expression is worth 1. *)
Theorem C58_nonvacuous_value : exists st M val (en : env M) v e t c, arithmetical M val /\ Forall (no_numeral no_parse) (literals e) /\ (forall u, In u (leaves e) -> v u = val (tsem M u en)) /\
  py_eval no_parse 9 st e = Ok (PyTerm t) /\ pyvalue (fun _ => true) v e = Some c /\ c = CInt 1.
Proof.
  exists stA, MZ, (fun c => Some c), envA, valA, expA. eexists. exists (CInt 1). split; [exact MZ_arithmetical|]. split; [repeat constructor|]. split; [intros u _; reflexivity|]. split; [vm_compute; reflexivity|]. split; [vm_compute; reflexivity|reflexivity].
Qed.
Print Assumptions C58_nonvacuous_value.
(** A number next to a term is converted to the sort of the term, not to a common sort: if x is in [0, 10], then x + 20 raises, and so does x < 20, although x + 4 and x < 4 do not. A number may stand on the
    left of + - * / but not of ** and %. A string that reads as a number becomes one. *)
Theorem C58_literals_refuted : let x := PLeaf (Var "x" "small") in
  py_eval no_parse 9 (trun no_parse opsA) (PBin OpAdd x (PLit (CInt 20))) = Err ValueError /\ py_compare no_parse 9 (trun no_parse opsA) PLt x (PLit (CInt 20)) = Err ValueError /\
  is_ok (py_eval no_parse 9 (trun no_parse opsA) (PBin OpAdd x (PLit (CInt 4)))) = true /\ is_ok (py_compare no_parse 9 (trun no_parse opsA) PLt x (PLit (CInt 4))) = true /\
  py_eval no_parse 9 (trun no_parse opsA) (PBin OpPow (PLit (CInt 3)) x) = Err TypeError /\ is_ok (py_eval no_parse 9 (trun no_parse opsA) (PBin OpPow x (PLit (CInt 3)))) = true /\
  py_compare no_parse 9 (trun no_parse opsA) PEq x (PLit (CStr "7")) = Ok (PyForm (Atom (PB PEq) [Var "x" "small"; Cst (CInt 7) "small"])).
Proof.
  assert (E : trun no_parse opsA = stA) by (vm_compute; reflexivity). rewrite E. cbv zeta. repeat (split; [vm_compute; reflexivity|]). vm_compute; reflexivity.
Qed.
Print Assumptions C58_literals_refuted.
