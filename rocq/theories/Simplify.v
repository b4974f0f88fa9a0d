(** Simplification of expressions, actions and problems by evaluating static symbols: class [Simplify] of
    src/tarski/fstrips/manipulation/simplify.py:37-209, with fstrips/ops.py:16-28, 41-60 and fstrips/walker.py:81-164.
    Simplifications of the whole file: expressions are trees, i.e. no Python object occurs twice inside an expression or in two of them (the code
    rewrites nodes in place); values instead of objects, so what an exception leaves behind is not described. *)
From Verif Require Import Base Syntax ModelState Eval Subst QElim Effects Represent Grounding.
#[local] Open Scope string_scope.

(** What [simplify_expression] returns for a formula: a Python bool or a formula *)
Inductive outcome : Set := OBool (b : bool) | OForm (f : formula).
(** simplify.py:31-34 [bool_to_expr] *)
Definition bool_to_expr (r : outcome) : formula := match r with OBool true => Top | OBool false => Bot | OForm f => f end.

Section Simplify.
(** simplify.py:54-59: the model and the static symbols, each possibly None *)
Variables (mo : option model) (statics : option (list sym)).
(** simplify.py:200-201 [symbol_can_be_statically_evaluated] *)
Definition evaluable_symbol (s : sym) : bool := sym_builtin s || match statics with Some l => sym_mem s l | None => false end.

(** simplify.py:114-171 [simplify_expression] on terms; :203-209 [node_can_be_statically_evaluated]. An IfThenElse is no CompoundTerm (terms.py:249): line 171. *)
Fixpoint simplify_term (t : term) : res term :=
  match t with
  | Var _ _ | Cst _ _ => Ok t
  | App f ts =>
      let! ts' := mapM simplify_term ts in
      match mo with
      | Some m => if evaluable_symbol (SymF f) && forallb is_cst ts' then evaluate_t m (App f ts') else Ok (App f ts')
      | None => Ok (App f ts')
      end
  | Ite _ _ _ => Err RuntimeError
  end.
(** The loop of lines 145-154: simplify the subformulas from left to right, drop the neutral ones; [None]: an absorbing one was met. *)
Definition simplify_members (simp : formula -> res outcome) (isand : bool) : list formula -> res (option (list formula)) :=
  fix go fs := match fs with
  | [] => Ok (Some [])
  | g :: gs => let! r := simp g in
               match r with
               | OForm g' => let! l := go gs in Ok (option_map (cons g') l)
               | OBool b => if Bool.eqb b isand then go gs else Ok None
               end
  end.
(** simplify.py:114-171 on formulas *)
Fixpoint simplify_expression (f : formula) : res outcome :=
  match f with
  | Bot => Ok (OBool false)
  | Top => Ok (OBool true)
  | Atom p ts =>
      let! ts' := mapM simplify_term ts in
      match mo with
      | Some m => if evaluable_symbol (SymP p) && forallb is_cst ts' then let! b := eval_f m (Atom p ts') in Ok (OBool b) else Ok (OForm (Atom p ts'))
      | None => Ok (OForm (Atom p ts'))
      end
  | Comp Not fs =>
      match fs with
      | [] => Err IndexError
      | g :: _ => let! r := simplify_expression g in
                  match r with
                  | OBool b => Ok (OBool (negb b))
                  | OForm (Comp Not hs) => match hs with [] => Err IndexError | h :: _ => Ok (OForm h) end
                  | OForm g' => Ok (OForm (Comp Not [g']))
                  end
      end
  | Comp c fs =>
      let isand := match c with And => true | _ => false end in
      let! l := simplify_members simplify_expression isand fs in
      Ok match l with
         | None => OBool (negb isand)
         | Some [] => OBool isand
         | Some [g] => OForm g
         | Some gs => OForm (Comp c gs)
         end
  | Quant q vs g =>
      let! r := simplify_expression g in
      Ok match r with OBool b => OBool b | OForm g' => OForm (Quant q vs g') end
  end.

Definition filter_some {A} (l : list (option A)) : list A := flat_map (fun x => match x with Some a => [a] | None => [] end) l.
(** simplify.py:173-198 [simplify_effect]. A bool in the place of an effect's atom is written as Tautology or Contradiction: like them, it has no attribute
    [predicate]. *)
Fixpoint simplify_effect (e : effect) : res (option effect) :=
  match e with
  | EAdd c a => let! c' := simplify_expression c in
                match bool_to_expr c' with
                | Bot => Ok None
                | c'' => let! a' := simplify_expression a in Ok (Some (EAdd c'' (bool_to_expr a')))
                end
  | EDel c a => let! c' := simplify_expression c in
                match bool_to_expr c' with
                | Bot => Ok None
                | c'' => let! a' := simplify_expression a in Ok (Some (EDel c'' (bool_to_expr a')))
                end
  | EFun i c l r => let! c' := simplify_expression c in
                match bool_to_expr c' with
                | Bot => Ok None
                | c'' => let! l' := simplify_term l in let! r' := simplify_term r in Ok (Some (EFun i c'' l' r'))
                end
  | EUni c vs es => let! es' := mapM simplify_effect es in Ok (Some (EUni c vs (filter_some es')))
  | ELit _ _ | EOther _ => Err RuntimeError
  end.
(** simplify.py:98-112 [simplify_action]: the new precondition and effects; None when the action is to be dropped. The precondition is compared with False and
    with the *class* Contradiction. *)
Definition simplify_action (a : action) : res (option (outcome * list effect)) :=
  let! pre := simplify_expression (a_pre a) in
  match pre with
  | OBool false => Ok None
  | _ => let! es := mapM simplify_effect (a_effs a) in
         match filter_some es with [] => Ok None | es' => Ok (Some (pre, es')) end
  end.
End Simplify.

(** fstrips/walker.py:125-158 [visit_expression] with the visitor of fstrips/ops.py:41-60: the symbols of compound terms and atoms *)
Fixpoint symbols_t (t : term) : list sym :=
  match t with Var _ _ | Cst _ _ => [] | App f ts => (flat_map symbols_t ts ++ [SymF f])%list | Ite c a b => (symbols_f c ++ symbols_t a ++ symbols_t b)%list end
with symbols_f (f : formula) : list sym :=
  match f with Top | Bot => [] | Atom p ts => (flat_map symbols_t ts ++ [SymP p])%list | Comp _ fs => flat_map symbols_f fs | Quant _ vs g => (symbols_f g ++ flat_map symbols_t vs)%list end.
(** fstrips/walker.py:103-123 [visit_effect]: the condition of a universal effect is not visited *)
Fixpoint symbols_e (e : effect) : res (list sym) :=
  match e with
  | EAdd c a | EDel c a => Ok (symbols_f c ++ symbols_f a)%list
  | EFun _ c l r => Ok (symbols_f c ++ symbols_t l ++ symbols_t r)%list
  | EUni _ _ es => let! l := mapM symbols_e es in Ok (List.concat l)
  | ELit _ _ | EOther _ => Err RuntimeError
  end.
(** fstrips/walker.py:84-101 [visit_problem], [visit_action] and fstrips/ops.py:16-28 [collect_all_symbols] on what [simplify] produces; line 156 of the walker
    rejects a Python bool in the place of a formula. *)
Definition formula_of (r : outcome) : res formula := match r with OForm f => Ok f | OBool _ => Err RuntimeError end.
Definition symbols_a (a : action) : res (list sym) := let! l := mapM symbols_e (a_effs a) in Ok (symbols_f (a_pre a) ++ List.concat l)%list.
Definition collect_all_symbols (acts : list action) (goal : formula) : res (list sym) :=
  let! l := mapM symbols_a acts in Ok (filter (fun s => negb (sym_builtin s)) (symbols_f goal ++ List.concat l)%list).

(** simplify.py:76-83, the loop over the actions *)
Fixpoint simplify_actions (D : domains) (mo : option model) (statics : option (list sym)) (acts : list action) : res (list (action * outcome)) :=
  match acts with
  | [] => Ok []
  | a :: l =>
      let! n := number_of_groundings D (map snd (param_vars a)) in
      let! here := if Nat.eqb n 0 then Ok [] else
                   let! r := simplify_action mo statics a in
                   Ok match r with
                      | None => []
                      | Some (pre, es) => [({| a_name := a_name a; a_params := a_params a; a_pre := bool_to_expr pre; a_effs := es |}, pre)]
                      end in
      let! rest := simplify_actions D mo statics l in Ok (here ++ rest)%list
  end.
(** simplify.py:60-96 [simplify] of an object built by [Simplify(problem, mo)] (:54-59). The result is the new problem and the symbols left in the language, which is shared
    with the given problem even when inplace=False (fol.py:39-42); the removal does not depend on the flag remove_unused_symbols, whose only use (:62-68) is
    to raise when inplace=False. Lines 89-94: language.remove_symbol (fol.py:305-313, names in a language are unique) and [Model.remove_symbol]. The problem's derived
    predicates, constraints and metric are not part of the model; the code does not look at them either. *)
Definition simplify (D : domains) (declared : list sym) (mo : option model) (p : problem) : res (list sym * problem) :=
  let! fs := approximate_symbol_fluency false declared (p_actions p) in
  let statics := Some (snd fs) in
  let! goal := simplify_expression mo statics (p_goal p) in
  let! acts := simplify_actions D mo statics (p_actions p) in
  let! goal' := formula_of goal in
  let! _ := mapM (fun x => formula_of (snd x)) acts in
  let acts' := map fst acts in
  let! used := collect_all_symbols acts' goal' in
  let unused := filter (fun s => negb (sym_mem s used)) (get_symbols false declared) in
  Ok (filter (fun s => negb (sym_mem s unused)) declared,
      {| p_actions := acts'; p_init := fold_left (fun m s => remove_signature m (sym_sig s)) unused (p_init p); p_goal := goal' |}).
