(** Representation checks and reformulations: src/tarski/fstrips/representation.py *)
From Verif Require Import Base Syntax Build ModelState Eval Subst QElim FreeVars Effects.
#[local] Open Scope string_scope.

(** representation.py:111-113 [is_atomic_effect]: every effect class except UniversalEffect is a SingleEffect (fstrips.py:21-260). *)
Definition is_atomic_effect (e : effect) : bool := match e with EUni _ _ _ => false | _ => is_top (econd e) end.
(** representation.py:116-118 [is_propositional_effect] *)
Definition is_propositional_effect (e : effect) : bool := match e with EAdd _ _ | EDel _ _ => true | _ => false end.
Definition effect_atom (e : effect) : formula := match e with EAdd _ a | EDel _ a => a | _ => Top end.
Definition is_add (e : effect) : bool := match e with EAdd _ _ => true | _ => false end.

(** representation.py:133-145 [compute_effect_set_conflicts]: the dictionary [polarities] and the set [conflicts], both keyed by atoms (formulas.py:340-348) *)
Definition fmem (x : formula) (l : list formula) : bool := existsb (formula_eqb x) l.
Definition fadd (x : formula) (l : list formula) : list formula := if fmem x l then l else (l ++ [x])%list.
Fixpoint conflicts_loop (effs : list effect) (polarities : list (formula * bool)) (conflicts : list formula) : res (list formula) :=
  match effs with
  | [] => Ok conflicts
  | e :: effs' =>
      if negb (is_atomic_effect e) || negb (is_propositional_effect e) then Err RepresentationError else
      let pol := is_add e in
      let conflicts' := match dget formula_eqb polarities (effect_atom e) with
                        | Some prev => if Bool.eqb prev pol then conflicts else fadd (effect_atom e) conflicts
                        | None => conflicts
                        end in
      conflicts_loop effs' (dset formula_eqb polarities (effect_atom e) pol) conflicts'
  end.
Definition compute_effect_set_conflicts (effs : list effect) : res (list formula) := conflicts_loop effs [] [].
(** representation.py:121-130 [is_strips_effect_set] *)
Definition is_strips_effect_set (effs : list effect) : bool :=
  match compute_effect_set_conflicts effs with Ok c => Nat.eqb (List.length c) 0 | Err _ => false end.

(** representation.py:158-168 [is_literal] *)
Definition is_literal (f : formula) : bool := match f with Atom _ _ => true | Comp Not (Atom _ _ :: _) => true | _ => false end.
(** representation.py:215-220 [is_conjunction_of_literals] *)
Definition is_conjunction_of_literals (phi : formula) : res bool :=
  let! f := flatten phi in Ok (match f with Atom _ _ => true | Comp _ fs => forallb is_literal fs | _ => false end).
(** representation.py:223-230 [is_conjunction_of_positive_atoms] *)
Definition is_conjunction_of_positive_atoms (phi : formula) : res bool :=
  let! f := flatten phi in Ok (match f with Atom _ _ => true | Comp _ fs => forallb is_atom fs | _ => false end).
(** representation.py:233-255, [collect_literals_from_conjunction] and the function it calls; the set is a list without repetitions. *)
Definition lit_eqb (x y : formula * bool) : bool := formula_eqb (fst x) (fst y) && Bool.eqb (snd x) (snd y).
Definition lit_add (x : formula * bool) (l : list (formula * bool)) := if existsb (lit_eqb x) l then l else (l ++ [x])%list.
Fixpoint collect_literals_aux (f : formula) (lits : list (formula * bool)) : option (list (formula * bool)) :=
  let go := fix go (fs : list formula) (lits : list (formula * bool)) : option (list (formula * bool)) :=
    match fs with [] => Some lits | g :: gs => match collect_literals_aux g lits with Some l => go gs l | None => None end end in
  match f with
  | Atom _ _ => Some (lit_add (f, true) lits)
  | Comp Not (Atom p ts :: _) => Some (lit_add (Atom p ts, false) lits)
  | Comp And fs => go fs lits
  | _ => None
  end.
Definition collect_literals_from_conjunction (f : formula) : option (list (formula * bool)) := collect_literals_aux f [].

(** Actions and problems: fstrips/action.py:4-13, fstrips/problem.py. Only what the modelled code reads. *)
Record action := { a_name : string; a_params : list term; a_pre : formula; a_effs : list effect }.
Record problem := { p_actions : list action; p_init : model; p_goal : formula }.
(** representation.py:83-89 and 92-99 *)
Definition is_strips_operator (a : action) : res bool :=
  let! b := is_conjunction_of_positive_atoms (a_pre a) in if b then Ok (is_strips_effect_set (a_effs a)) else Ok false.
Fixpoint all_res {A} (f : A -> res bool) (l : list A) : res bool :=
  match l with [] => Ok true | x :: l' => let! b := f x in if b then all_res f l' else Ok false end.
Definition is_strips_problem (p : problem) : res bool :=
  let! b := is_conjunction_of_positive_atoms (p_goal p) in if b then all_res is_strips_operator (p_actions p) else Ok false.

(** representation.py:183-190 [contains_delete_subeffects]; [any] stops at the first True *)
Fixpoint contains_delete_subeffects (e : effect) : res bool :=
  match e with
  | EDel _ _ => Ok true
  | EAdd _ _ => Ok false
  | EUni _ _ es => (fix any (es : list effect) : res bool :=
                      match es with [] => Ok false | x :: xs => let! b := contains_delete_subeffects x in if b then Ok true else any xs end) es
  | _ => Err RuntimeError
  end.
(** representation.py:175-180 [is_delete_free] *)
Fixpoint any_res {A} (f : A -> res bool) (l : list A) : res bool :=
  match l with [] => Ok false | x :: l' => let! b := f x in if b then Ok true else any_res f l' end.
Definition is_delete_free (p : problem) : res bool :=
  let! b := any_res (fun a => any_res contains_delete_subeffects (a_effs a)) (p_actions p) in Ok (negb b).
(** representation.py:200-212 [remove_delete_effects]. Universal effects are updated in place; [compute_delete_free_relaxation] works on a deep copy. *)
Fixpoint relax_effect (e : effect) : res (list effect) :=
  match e with
  | EDel _ _ => Ok []
  | EAdd _ _ => Ok [e]
  | EUni c vs es =>
      let! es' := (fix rem (es : list effect) : res (list effect) :=
                     match es with [] => Ok [] | x :: xs => let! l := relax_effect x in let! r := rem xs in Ok (l ++ r)%list end) es in
      Ok [EUni c vs es']
  | _ => Err RuntimeError
  end.
Definition remove_delete_effects : list effect -> res (list effect) :=
  fix rem (es : list effect) : res (list effect) :=
    match es with [] => Ok [] | x :: xs => let! l := relax_effect x in let! r := rem xs in Ok (l ++ r)%list end.
(** representation.py:193-197 [compute_delete_free_relaxation] *)
Definition relax_action (a : action) : res action :=
  let! es := remove_delete_effects (a_effs a) in Ok {| a_name := a_name a; a_params := a_params a; a_pre := a_pre a; a_effs := es |}.
Definition compute_delete_free_relaxation (p : problem) : res problem :=
  let! acts := mapM relax_action (p_actions p) in Ok {| p_actions := acts; p_init := p_init p; p_goal := p_goal p |}.

(** representation.py:342-362 [_collect_effect_free_variables]: the conditions of effects are not looked at. [free] is a set of references. *)
Definition union_t (l new : list term) : list term := fold_left (fun acc t => add_t t acc) new l.
(** ops.py:53-57 [free_variables] on a term *)
Definition free_variables_t (t : term) : list term := snd (fv_term t ([], [])).
Fixpoint effect_free_variables (e : effect) (free : list term) : res (list term) :=
  match e with
  | EAdd _ a | EDel _ a => let! l := free_variables a in Ok (union_t free l)
  | ELit _ a => let! l := free_variables a in Ok (union_t free l)
  | EFun _ _ lhs rhs => Ok (union_t (union_t free (free_variables_t lhs)) (free_variables_t rhs))
  | EUni _ vs es =>
      let! sub := (fix go (es : list effect) (acc : list term) : res (list term) :=
                     match es with [] => Ok acc | x :: xs => let! acc' := effect_free_variables x acc in go xs acc' end) es [] in
      Ok (union_t free (filter (fun t => negb (mem_t t vs)) sub))
  | EOther _ => Err RuntimeError
  end.
(** representation.py:287-295 [collect_effect_free_parameters]. The result is a Python set: the order of the parameters in it is unspecified, the model keeps
    the order of the parameters (see the theorems, which allow any order). *)
Definition collect_effect_free_parameters (a : action) : res (list term) :=
  let! free := foldM (fun acc e => effect_free_variables e acc) (a_effs a) [] in
  Ok (filter (fun x => negb (mem_t x free)) (a_params a)).
(** representation.py:298-321 [project_away_effect_free_variables]; [free] in any order *)
Definition project_away_with (a : action) (free : list term) : res action :=
  let! pre := exists_ (map ATerm free ++ [AForm (a_pre a)])%list in
  Ok {| a_name := a_name a; a_params := filter (fun x => negb (mem_t x free)) (a_params a); a_pre := pre; a_effs := a_effs a |}.
Definition project_away_effect_free_variables (a : action) : res action :=
  let! free := collect_effect_free_parameters a in project_away_with a free.

(** syntax/transform/action_grounding.py:6-24 [ground_schema_into_plain_operator]; fstrips/action.py:59-63: the precondition is flattened. *)
Definition ground_schema (a : action) (s : subst) : res (formula * list effect) :=
  if forallb (fun x => match get_t (sub_t s) x with Some (Cst _ _) => true | _ => false end) (a_params a) then
    let! effs := mapM (subst_effect s) (a_effs a) in
    let! pre := flatten (subst_formula s (a_pre a)) in Ok (pre, effs)
  else Err RuntimeError.

(** * Compiling negated preconditions away: representation.py:433-548 *)
(** State: the dictionary [negpreds] and the names registered in the language (lang.predicate raises DuplicateDefinition, fol.py). *)
Record negstate := { negpreds : list (psym * psym); names : list string }.
Definition psym_eqb (p q : psym) : bool := if psym_eq_dec p q then true else false.
Definition neg_name (n : string) : string := "_not_" ++ n.
(** representation.py:523-539 [_compile_possibly_negated_literal]. Simplification: the sorts of the new atom's arguments are those already checked for the original. *)
Definition compile_literal (f : formula) (st : negstate) : res (formula * negstate) :=
  match f with
  | Comp Not (Atom p ts :: _) =>
      match p with
      | PB _ => Ok (f, st)
      | PU n ss =>
          match dget psym_eqb (negpreds st) p with
          | Some q => Ok (Atom q ts, st)
          | None =>
              if existsb (String.eqb (neg_name n)) (names st) then Err DuplicateDefinition else
              let q := PU (neg_name n) ss in
              Ok (Atom q ts, {| negpreds := dset psym_eqb (negpreds st) p q; names := neg_name n :: names st |})
          end
      end
  | Comp Not _ => Err AttributeError
  | _ => Ok (f, st)
  end.
(** representation.py:498-520 [compile_away_formula_negated_literals] *)
Fixpoint compile_literals (fs : list formula) (st : negstate) : res (list formula * negstate) :=
  match fs with
  | [] => Ok ([], st)
  | g :: gs => if is_literal g then
                 let! r := compile_literal g st in let! rs := compile_literals gs (snd r) in Ok (fst r :: fst rs, snd rs)
               else Err RepresentationError
  end.
Definition compile_formula (phi : formula) (st : negstate) : res (formula * negstate) :=
  let! f := flatten phi in
  match f with
  | Atom _ _ => Ok (f, st)
  | Comp Not _ => compile_literal f st
  | Comp _ fs => let! r := compile_literals fs st in let! g := land (fst r) true in Ok (g, snd r)
  | _ => Err RepresentationError
  end.
(** representation.py:483-495 [compile_action_negated_preconditions_away] *)
Definition set_cond (e : effect) (c : formula) : effect :=
  match e with EAdd _ a => EAdd c a | EDel _ a => EDel c a | EFun i _ l r => EFun i c l r | EUni _ vs es => EUni c vs es | ELit _ l => ELit c l | EOther _ => EOther c end.
Fixpoint compile_conditions (effs : list effect) (st : negstate) : res (list effect * negstate) :=
  match effs with
  | [] => Ok ([], st)
  | e :: es =>
      match e with
      | EUni _ _ _ => Err RepresentationError
      | _ => if is_top (econd e) then let! rs := compile_conditions es st in Ok (e :: fst rs, snd rs)
             else let! r := compile_formula (econd e) st in let! rs := compile_conditions es (snd r) in Ok (set_cond e (fst r) :: fst rs, snd rs)
      end
  end.
Definition compile_action (a : action) (st : negstate) : res (action * negstate) :=
  let! p := compile_formula (a_pre a) st in
  let! es := compile_conditions (a_effs a) (snd p) in
  Ok ({| a_name := a_name a; a_params := a_params a; a_pre := fst p; a_effs := fst es |}, snd es).
Fixpoint compile_actions (l : list action) (st : negstate) : res (list action * negstate) :=
  match l with
  | [] => Ok ([], st)
  | a :: l' => let! r := compile_action a st in let! rs := compile_actions l' (snd r) in Ok (fst r :: fst rs, snd rs)
  end.
(** representation.py:462-480 [update_action_effects_with_negated_counterparts] *)
Definition counterpart (negs : list (psym * psym)) (e : effect) : res (list effect) :=
  match e with
  | EAdd c (Atom p ts) => Ok (match dget psym_eqb negs p with Some q => [EDel c (Atom q ts)] | None => [] end)
  | EDel c (Atom p ts) => Ok (match dget psym_eqb negs p with Some q => [EAdd c (Atom q ts)] | None => [] end)
  | EAdd _ _ | EDel _ _ => Err AttributeError
  | _ => Err RepresentationError
  end.
Definition update_action (negs : list (psym * psym)) (a : action) : res action :=
  let! new := mapM (counterpart negs) (a_effs a) in
  Ok {| a_name := a_name a; a_params := a_params a; a_pre := a_pre a; a_effs := (a_effs a ++ List.concat new)%list |}.
(** representation.py:542-548 [compute_complementary_atoms]; sorts.py:240-244 [compute_signature_bindings] *)
Definition signature_bindings (D : domains) (ss : list sort) : res (list (list term)) :=
  let! ds := mapM (fun s => match D s with Some cs => Ok cs | None => Err TarskiError end) ss in Ok (product ds).
Definition psorts (p : psym) : list sort := match p with PU _ ss => ss | PB _ => [] end.
Definition complementary_atoms (D : domains) (m : model) (p : psym) : res (list (list term)) :=
  let! bs := signature_bindings D (psorts p) in Ok (filter (fun pt => negb (m_holds m p pt)) bs).
(** representation.py:454-459 *)
Fixpoint add_points (sub : sort -> sort -> bool) (q : psym) (pts : list (list term)) (m : model) : res model :=
  match pts with [] => Ok m | pt :: pts' => let! m' := m_add sub m q pt in add_points sub q pts' m' end.
Fixpoint add_complements (D : domains) (sub : sort -> sort -> bool) (negs : list (psym * psym)) (m : model) : res model :=
  match negs with
  | [] => Ok m
  | (p, q) :: negs' => let! pts := complementary_atoms D m p in let! m' := add_points sub q pts m in add_complements D sub negs' m'
  end.
(** representation.py:433-459 [compile_negated_preconditions_away]; [lang_names]: the names of the language's symbols *)
Definition compile_negated_preconditions_away (D : domains) (sub : sort -> sort -> bool) (lang_names : list string) (p : problem) : res (problem * list (psym * psym)) :=
  let! acts := compile_actions (p_actions p) {| negpreds := []; names := lang_names |} in
  let! g := compile_formula (p_goal p) (snd acts) in
  let negs := negpreds (snd g) in
  let! acts' := mapM (update_action negs) (fst acts) in
  let! m := add_complements D sub negs (p_init p) in
  Ok ({| p_actions := acts'; p_init := m; p_goal := fst g |}, negs).
