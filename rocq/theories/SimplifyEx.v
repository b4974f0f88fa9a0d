(** Simplification of existential quantification: src/tarski/fstrips/manipulation/simplify.py:212-281 *)
From Verif Require Import Base Syntax Build Subst FreeVars.

Section SimplifyEx.
(** The iteration order of a Python set of references to variables *)
Variable order : list term -> list term.

(** simplify.py:247-270: scan the conjuncts; the equality to be used, with its index, and the indices of the atoms z = z seen before it. [i] is the index of the head of [cs]. *)
Fixpoint scan (exvars : list term) (i : nat) (cs : list formula) : res (option (nat * (term * term)) * list nat) :=
  match cs with
  | [] => Ok (None, [])
  | Atom (PB PEq) ts :: cs' =>
      match ts with
      | [t1; t2] =>
          let t1_quantified := mem_t t1 exvars in
          let t2_quantified := mem_t t2 exvars in
          if negb t1_quantified && negb t2_quantified then scan exvars (S i) cs'
          else if term_eqb t1 t2 then let! (r, toremove) := scan exvars (S i) cs' in Ok (r, i :: toremove)
          else if t1_quantified && t2_quantified then Ok (Some (i, (t2, t1)), [])
          else if t1_quantified then Ok (Some (i, (t1, t2)), [])
          else Ok (Some (i, (t2, t1)), [])
      | _ => Err ValueError   (* line 249: unpacking *)
      end
  | _ :: cs' => scan exvars (S i) cs'
  end.
(** The comprehension [c for i, c in enumerate(l) if keep(i)] *)
Fixpoint enum_filter (keep : nat -> bool) (i : nat) (l : list formula) : list formula :=
  match l with [] => [] | c :: l' => if keep i then c :: enum_filter keep (S i) l' else enum_filter keep (S i) l' end.
(** simplify.py:244-281 [_attempt_single_ex_var_substitution]: whether something was replaced, the variables left in the set (updated in place by Python), the conjuncts.
    Line 280 enumerates the conjuncts *after* the removals of line 273, with the index found before them. *)
Definition attempt (exvars : list term) (conjuncts : list formula) : res (bool * list term * list formula) :=
  let! (r, toremove) := scan exvars 0 conjuncts in
  let conjuncts := enum_filter (fun i => negb (existsb (Nat.eqb i) toremove)) 0 conjuncts in
  match r with
  | None => Ok (false, exvars, conjuncts)
  | Some (replaced, (key, value)) =>
      let! exvars := remove_t key exvars in
      let s := {| sub_t := [(key, value)]; sub_f := [] |} in
      Ok (true, exvars, map (subst_formula s) (enum_filter (fun i => negb (Nat.eqb i replaced)) 0 conjuncts))
  end.
(** simplify.py:233-235; every round but the last removes a variable, so [fuel] = 1 + the number of variables is enough (proved) *)
Fixpoint substitute_loop (fuel : nat) (exvars : list term) (conjuncts : list formula) : res (list term * list formula) :=
  match fuel with
  | 0 => Err OutOfFuel
  | S fuel => let! (go_on, exvars, conjuncts) := attempt exvars conjuncts in
              if go_on then substitute_loop fuel exvars conjuncts else Ok (exvars, conjuncts)
  end.
(** simplify.py:225-241: the visitor of quantified formulas *)
Definition visit_quantified (q : quant) (vs : list term) (g : formula) : res formula :=
  match q with
  | QAll => Ok (Quant QAll vs g)
  | QEx =>
      let exvars := fold_left (fun l v => add_t v l) vs [] in
      let! flat := flatten g in
      let! (exvars, conjuncts) := substitute_loop (S (List.length exvars)) exvars (unwrap_conjunction_or_atom flat) in
      let! substituted := land conjuncts true in
      match exvars with [] => Ok substituted | _ => exists_ (map ATerm (order exvars) ++ [AForm substituted]) end
  end.
(** simplify.py:212-223 with the walker of syntax/walker.py:60-86: children first, then the visitor; only quantified formulas have a visitor.
    Simplification: Python updates the nodes of its argument (of a deep copy when inplace=False); the model returns the new tree. *)
Fixpoint sx_term (t : term) : res term :=
  match t with
  | Var _ _ | Cst _ _ => Ok t
  | App f ts => let! ts' := mapM sx_term ts in Ok (App f ts')
  | Ite c a b => let! c' := simplify_existential c in let! a' := sx_term a in let! b' := sx_term b in Ok (Ite c' a' b')
  end
with simplify_existential (f : formula) : res formula :=
  match f with
  | Top | Bot => Ok f
  | Atom p ts => let! ts' := mapM sx_term ts in Ok (Atom p ts')
  | Comp c fs => let! fs' := mapM simplify_existential fs in Ok (Comp c fs')
  | Quant q vs g => let! g' := simplify_existential g in let! vs' := mapM sx_term vs in visit_quantified q vs' g'
  end.
End SimplifyEx.
