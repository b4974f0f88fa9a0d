(** Prenex form: src/tarski/syntax/transform/prenex.py *)
From Verif Require Import Base Syntax Subst Nnf.
#[local] Open Scope string_scope.

Definition same_var (t u : term) : bool :=
  match t, u with Var x s, Var y r => String.eqb x y && String.eqb s r | _, _ => false end.
(** prenex.py:23: a dict comprehension keyed by (symbol, sort name): later duplicates are dropped *)
Fixpoint dedup (seen vs : list term) : list term :=
  match vs with [] => [] | v :: vs' => if existsb (same_var v) seen then dedup seen vs' else v :: dedup (v :: seen) vs' end.

(** prenex.py:20-37 [_merge_quantified_subformulas] with renaming=True (the only way it is called, :94): a variable of the right side
    that is already bound on the left must be renamed, and [subst\[y\] = y2] uses an unhashable Variable as a key: TypeError.
    The connective of the merged formula is always Or. *)
Definition merge (q : quant) (vl : list term) (fl : formula) (vr : list term) (fr : formula) : res formula :=
  if existsb (fun y => existsb (same_var y) vl) vr then Err TypeError
  else Ok (Quant q (dedup [] (vl ++ vr)%list) (Comp Or [fl; fr])).

(** prenex.py:47-56: outer variables that clash with an inner one are primed, in the variable list and in the outer formula *)
Definition prime (inner : list term) (v : term) : term :=
  match v with Var x s => if existsb (same_var v) inner then Var (x ++ "'") s else v | _ => v end.
Definition prime_subst (inner out : list term) : subst :=
  {| sub_t := flat_map (fun v => if existsb (same_var v) inner then [(v, prime inner v)] else []) out; sub_f := [] |}.
(** prenex.py:39-59 [_nest_quantifiers]; [left]: the outer (existential) formula is the left one *)
Definition nest (left : bool) (out_vars inner_vars : list term) (conn : connective) (lhs rhs : formula) : formula :=
  let s := prime_subst inner_vars out_vars in
  let lhs' := if left then subst_formula s lhs else lhs in
  let rhs' := if left then rhs else subst_formula s rhs in
  Quant QEx (map (prime inner_vars) out_vars) (Quant QAll inner_vars (Comp conn [lhs'; rhs'])).

(** prenex.py:61-155 [_convert]. Members of a conjunction or disjunction beyond the second are ignored (:86); when neither of
    the first two becomes quantified the formula is returned as it is (:89-90). [fuel] bounds the recursion (the call of line 150 is
    on the quantifier that has just been swapped in). *)
Definition merge_mixed (q : quant) (vs : list term) (lhs : formula) (c : connective) (rhs : formula) : formula :=
  Quant q vs (Comp c [lhs; rhs]).                                       (* prenex.py:168-170 *)
Fixpoint convert (fuel : nat) (f : formula) : res formula :=
  match fuel with
  | O => Err OutOfFuel
  | S fuel' =>
      match f with
      | Comp Not fs => match fs with (Quant _ _ _ | Comp _ _) :: _ => Err TransformationError | _ => Ok f end
      | Comp c fs =>
          match fs with
          | f1 :: f2 :: _ =>
              let! lhs := convert fuel' f1 in
              let! rhs := convert fuel' f2 in
              match lhs, rhs with
              | Quant ql vl fl, Quant qr vr fr =>
                  match ql, qr with
                  | QEx, QEx | QAll, QAll => merge ql vl fl vr fr
                  | QAll, QEx => Ok (nest false vr vl c fl fr)
                  | QEx, QAll => Ok (nest true vl vr c fl fr)
                  end
              | _, Quant qr vr fr => Ok (merge_mixed qr vr lhs c fr)
              | Quant ql vl fl, _ => Ok (merge_mixed ql vl fl c rhs)
              | _, _ => Ok f
              end
          | _ => Err IndexError
          end
      | Quant q vs g =>
          let! g' := convert fuel' g in
          match g' with
          | Quant q2 vs2 h =>
              match q, q2 with
              | QEx, QEx | QAll, QAll => Ok (Quant q (vs ++ vs2)%list h)   (* :141-146 absorb *)
              | QAll, QEx =>                                            (* :147-152 push up the existential *)
                  let! inner := convert fuel' (Quant QAll vs h) in Ok (Quant QEx vs2 inner)
              | QEx, QAll => Ok (Quant QEx vs g')
              end
          | _ => Ok (Quant q vs g')
          end
      | _ => Ok f
      end
  end.
(** Any larger fuel gives the same result when the result is not [OutOfFuel] (see [PrenexProofs]). *)
Fixpoint size (f : formula) : nat :=
  match f with Comp _ fs => S (list_sum (map size fs)) | Quant _ _ g => S (size g) | _ => 1 end.
(** prenex.py:173-175 *)
Definition to_prenex (fuel : nat) (f : formula) : res formula := let! g := to_negation_normal_form f in convert fuel g.
