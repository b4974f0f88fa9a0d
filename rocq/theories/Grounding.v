(** Naive grounding and symbol fluency: src/tarski/grounding/naive_grounding.py, grounding/common.py, grounding/ops.py, fstrips/ops.py,
    syntax/util.py:4-20. [signature_bindings] (sorts.py:240-244) is in Represent.v *)
From Verif Require Import Base Syntax ModelState Index Subst QElim Effects Represent.
#[local] Open Scope string_scope.

(** Predicate and function objects side by side (they share sets and dictionaries; both hash and compare by signature, predicate.py:43-47,
    function.py:44-48). [sig_eqb] is the comparison of the tuples (name, sort names...); the flag of [signature] marks built-ins, whose names a user cannot define. *)
Inductive sym : Set := SymP (p : psym) | SymF (f : fsym).
Definition sym_sig (s : sym) : signature := match s with SymP p => psig p | SymF f => fsig f end.
Definition sym_eqb (a b : sym) : bool := sig_eqb (sym_sig a) (sym_sig b).
Definition sym_builtin (s : sym) : bool := match s with SymP (PB _) | SymF (FB _) => true | _ => false end.
Definition sym_name (s : sym) : string := match s with SymP (PU n _) | SymF (FU n _ _) => n | SymP (PB b) => bpred_name b | SymF (FB b) => bfun_name b end.
(** predicate.py:36-38 and the attribute [domain] of functions (function.py:8-20). Built-in symbols: not modelled (their domains are arithmetic sorts). *)
Definition sym_domain (s : sym) : res (list sort) := match s with SymP (PU _ ss) => Ok ss | SymF (FU _ d _) => Ok d | _ => Err NotModelled end.

Section Naive.
Variable D : domains.
(** sorts.py:76-77 and :159-164: [Sort.domain]. [None] is an interval that is built-in or too large to enumerate. *)
Definition sort_domain (s : sort) : res (list term) := match D s with Some cs => Ok cs | None => Err TarskiError end.
(** fstrips/ops.py:105-107 [compute_number_potential_groundings] *)
Definition number_of_groundings (ss : list sort) : res nat := let! doms := mapM sort_domain ss in Ok (fold_left Nat.mul (map (@List.length term) doms) 1).

(** naive_grounding.py:131-138 [ground_actions]. [problem.actions] is an ordered dict from names to actions. [action.parameters] is a VariableBinding:
    iteration yields its dictionary's values (formulas.py:398-399), hence one variable per name. *)
Definition param_vars (a : action) : list var := vb_vars (vb_make (vars_of (a_params a))).
Definition ground_actions (acts : list action) : res (list (string * list (list term))) :=
  mapM (fun a => let! bs := signature_bindings D (map snd (param_vars a)) in Ok (a_name a, bs)) acts.

(** common.py:5-39 StateVariableLite; __eq__ at :28-29. The check of :19-20 never fails on what is enumerated below. *)
Definition svar := (sym * list term)%type.
Definition svar_eqb (a b : svar) : bool := sym_eqb (fst a) (fst b) && points_eqb (snd a) (snd b).
(** Add the state variables of one symbol to the index: the inner loops naive_grounding.py:155-156 and :175-176 *)
Definition add_all (s : sym) (bs : list (list term)) (idx : sidx svar) : res (sidx svar) := si_make svar_eqb idx (map (fun b => (s, b)) bs).
(** naive_grounding.py:146-158 [ground_symbols_exhaustively]; the iteration order of the set [symbols] is the order of the list *)
Fixpoint ground_symbols_from (symbols : list sym) (idx : sidx svar) : res (sidx svar) :=
  match symbols with
  | [] => Ok idx
  | s :: l => let! ss := sym_domain s in let! bs := signature_bindings D ss in let! idx' := add_all s bs idx in ground_symbols_from l idx'
  end.
Definition ground_symbols_exhaustively (symbols : list sym) : res (sidx svar) := ground_symbols_from symbols si_empty.

(** naive_grounding.py:161-178 [ground_partially_grounded_terms_exhaustively]; a term is a symbol with its subterms (CompoundTerm or Atom).
    IndexError (line 173) when there are fewer subterms than positions: excluded by the arity checks of terms and atoms. *)
Fixpoint fix_constants (doms : list (list term)) (ts : list term) : res (list (list term)) :=
  match doms, ts with
  | [], _ => Ok []
  | d :: doms', t :: ts' => let! r := fix_constants doms' ts' in Ok ((match t with Cst _ _ => [t] | _ => d end) :: r)
  | _ :: _, [] => Err IndexError
  end.
Fixpoint ground_partial_from (terms : list (sym * list term)) (idx : sidx svar) : res (sidx svar) :=
  match terms with
  | [] => Ok idx
  | (s, ts) :: l => let! ss := sym_domain s in let! doms := mapM sort_domain ss in let! doms' := fix_constants doms ts in
                    let! idx' := add_all s (product doms') idx in ground_partial_from l idx'
  end.
Definition ground_partially_grounded_terms (terms : list (sym * list term)) : res (sidx svar) := ground_partial_from terms si_empty.

(** naive_grounding.py:58-78 [create_all_possible_state_variables] on atoms and compound terms given as (symbol, subterms). The exceptions of duplicate
    additions are suppressed. [D s = None] for a built-in sort (UnableToGroundError, line 71); a large non-built-in interval raises TarskiError instead, a
    difference this function does not model. *)
Fixpoint instantiations (ts : list term) : res (list (list term)) :=
  match ts with
  | [] => Ok []
  | t :: l => let! d := match t with Cst _ _ => Ok [t] | Var _ s => match D s with Some cs => Ok cs | None => Err UnableToGroundError end | _ => Err UnableToGroundError end in
              let! r := instantiations l in Ok (d :: r)
  end.
(** naive_grounding.py:81-106 StateVariable: term and instantiation; __eq__ at :95-96 compares the *name* of the head symbol and the instantiation *)
Record statevar := { sv_sym : sym; sv_args : list term; sv_inst : list term }.
Definition statevar_eqb (a b : statevar) : bool := String.eqb (sym_name (sv_sym a)) (sym_name (sv_sym b)) && points_eqb (sv_inst a) (sv_inst b).
Fixpoint all_state_variables_from (terms : list (sym * list term)) (idx : sidx statevar) : res (sidx statevar) :=
  match terms with
  | [] => Ok idx
  | (s, ts) :: l => let! ds := instantiations ts in
                    all_state_variables_from l (fold_left (fun i b => snd (si_add statevar_eqb i {| sv_sym := s; sv_args := ts; sv_inst := b |})) (product ds) idx)
  end.
Definition create_all_possible_state_variables (terms : list (sym * list term)) : res (sidx statevar) := all_state_variables_from terms si_empty.
(** naive_grounding.py:103-106 [StateVariable.ground]: the substitution maps the subterms of the term to the instantiation *)
Definition sv_ground (v : statevar) : res (list term) := let! s := create_substitution (sv_args v) (sv_inst v) in Ok (map (subst_term s) (sv_args v)).
End Naive.

(** fstrips/ops.py:31-38, 63-87 [collect_affected_symbols] with fstrips/walker.py:103-123 [visit_effect]: the condition of a universal effect is not visited, other
    conditions and right-hand sides are, without effect on the result. A set is modelled as a list read up to membership. The left-hand side of a functional effect is a
    compound term (fstrips.py:67-72). Side effect not modelled: visited argument tuples are replaced by lists (walker.py:144, see C45 for the same mutation). *)
Fixpoint affected (e : effect) : res (list sym) :=
  match e with
  | EAdd _ (Atom p _) | EDel _ (Atom p _) => Ok [SymP p]
  | EAdd _ _ | EDel _ _ => Err AttributeError
  | EFun _ _ (App f _) _ => Ok [SymF f]
  | EFun _ _ _ _ => Err NotModelled
  | EUni _ _ es => let! l := mapM affected es in Ok (List.concat l)
  | ELit _ _ | EOther _ => Err RuntimeError
  end.
Definition collect_affected_symbols (acts : list action) : res (list sym) :=
  let! l := mapM (fun a => let! l := mapM affected (a_effs a) in Ok (List.concat l)) acts in Ok (List.concat l).
(** syntax/util.py:4-20 [get_symbols] with type_="all", include_total_cost=False, on the list of the language's predicates and functions *)
Definition get_symbols (include_builtin : bool) (declared : list sym) : list sym :=
  filter (fun s => negb (String.eqb (sym_name s) "total-cost")) (if include_builtin then declared else filter (fun s => negb (sym_builtin s)) declared).
Definition sym_mem (s : sym) (l : list sym) : bool := existsb (sym_eqb s) l.
(** grounding/ops.py:5-25 [approximate_symbol_fluency] *)
Definition approximate_symbol_fluency (include_builtin : bool) (declared : list sym) (acts : list action) : res (list sym * list sym) :=
  let! fluents := collect_affected_symbols acts in
  Ok (fluents, filter (fun s => negb (sym_mem s fluents)) (get_symbols include_builtin declared)).
