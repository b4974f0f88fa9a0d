(** The counters generator: src/tarski/benchmarks/counters.py *)
From Verif Require Import Base Syntax Build ModelState ModelText Eval Subst QElim Effects FreeVars Represent SasText Lang Theories.
#[local] Open Scope string_scope.

(** A declaration or a theory load that must succeed *)
Definition tdo (parse : bool -> string -> option Z) (st : tlang) (o : top) : res tlang := let (st', r) := tstep parse st o in let! _ := r in Ok st'.
(** counters.py:25: f"c{k}" for k in range(1, ncounters + 1) *)
Definition counter_name (k : nat) : string := "c" ++ num k.
Definition counter_names (ncounters : nat) : list string := map counter_name (seq 1 ncounters).
(** counters.py:12-26 [generate_fstrips_counters_language]. fstrips/fstrips.py:285-294 adds the operators << and >> to the language, which are used directly below. *)
Definition generate_fstrips_counters_language (parse : bool -> string -> option Z) (ncounters : nat) (upper_bound : Z) : res tlang :=
  let! st := language parse [TEquality; TArithmetic] in
  foldM (tdo parse)
    ([TOp (OSort "counter" None); TOp (OInterval "val" "Integer" 0 upper_bound); TOp (OFun "value" ["counter"; "val"]); TOp (OFun "max_int" ["val"])] ++
     map (fun c => TOp (OConst (CStr c) "counter")) (counter_names ncounters))%list st.
(** counters.py:31: the bound used when none is given *)
Definition default_bound (ncounters : nat) : Z := (Z.of_nat ncounters * 2)%Z.

(** The terms value(c) and max_int(). Their arguments have the declared sorts by construction, so the checks of terms.py:162-180 pass. *)
Definition fvalue : fsym := FU "value" ["counter"] "val".
Definition fmax : fsym := FU "max_int" [] "val".
Definition value (t : term) : term := App fvalue [t].
Definition max_int : term := App fmax [].
Definition counter (c : string) : term := Cst (CStr c) "counter".
Definition vc : term := Var "c" "counter".
Definition form (t : truth) : res formula := match t with PyForm f => Ok f | PyBool _ => Err NotModelled end.
Definition pterm (v : pval) : res term := match v with PyTerm t => Ok t | PyVal _ => Err NotModelled end.
(** The subtype relation of the language, as Model.set uses it: model.py:30 *)
Definition lsub (fuel : nat) (l : lang) (a b : sort) : bool := match snd (is_subtype fuel l a b) with Ok r => r | Err _ => false end.
Definition symbol_text (c : cname) : string := match c with CStr s => s | CInt _ => "" end.

(** counters.py:29-54 [generate_fstrips_counters_problem]. [problem.init.set(t, n)] converts the integer to the codomain of the function: model.py:21-24. fstrips/fstrips.py:68-84: the
    left-hand sides of the effects are compound terms. *)
Definition generate_fstrips_counters_problem (parse : bool -> string -> option Z) (fuel : nat) (ncounters : nat) (upper_bound : Z) : res (tlang * problem) :=
  let! st := generate_fstrips_counters_language parse ncounters upper_bound in
  let! dom := sort_domain (t_lang st) "counter" in
  let counters := map counter (sorted (map symbol_text dom)) in
  let! ineqs := mapM (fun cc => let! t := py_compare parse fuel st PLt (PLeaf (value (fst cc))) (PLeaf (value (snd cc))) in form t) (combine counters (tl counters)) in
  let! goal := land ineqs true in
  let! t := py_compare parse fuel st PLt (PLeaf (value vc)) (PLeaf max_int) in let! pre1 := form t in
  let! v := py_eval parse fuel st (PBin OpAdd (PLeaf (value vc)) (PLit (CInt 1))) in let! rhs1 := pterm v in
  let! t := py_compare parse fuel st PGt (PLeaf (value vc)) (PLit (CInt 0)) in let! pre2 := form t in
  let! v := py_eval parse fuel st (PBin OpSub (PLeaf (value vc)) (PLit (CInt 1))) in let! rhs2 := pterm v in
  let acts := [{| a_name := "increment"; a_params := [vc]; a_pre := pre1; a_effs := [Effects.EFun false Top (value vc) rhs1] |};
               {| a_name := "decrement"; a_params := [vc]; a_pre := pre2; a_effs := [Effects.EFun false Top (value vc) rhs2] |}] in
  let! u := literal parse st (CInt upper_bound) "val" in
  let! m := m_set (lsub fuel (t_lang st)) empty_model max_int u in
  let! m := foldM (fun m c => let! z := literal parse st (CInt 0) "val" in m_set (lsub fuel (t_lang st)) m (value c) z) counters m in
  Ok (st, {| p_actions := acts; p_init := m; p_goal := goal |}).
