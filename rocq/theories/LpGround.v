(** Grounding with the reachability program: src/tarski/reachability/clingo_wrapper.py, src/tarski/grounding/lp_grounding.py, src/tarski/syntax/transform/action_grounding.py.
    Simplifications of the whole file: strings are ASCII and lines end in "\n" only; a Python set is a list without repetitions. *)
From Coq Require Import Ascii.
From Verif Require Import Base Syntax ModelState ModelText Index Lang Subst QElim Effects Represent Grounding Asp.
#[local] Open Scope string_scope.

(** * Reading the answer of the solver *)
Definition newline : ascii := ascii_of_nat 10.
(** Python's str.rstrip with a set of characters *)
Fixpoint rstrip (drop : ascii -> bool) (s : string) : string :=
  match s with
  | EmptyString => EmptyString
  | String c s' => match rstrip drop s' with EmptyString => if drop c then EmptyString else String c EmptyString | r => String c r end
  end.
(** Python's str.split with a separator of one character: never empty *)
Fixpoint split_at (sep : ascii) (s : string) : list string :=
  match s with
  | EmptyString => [EmptyString]
  | String c s' => if Ascii.eqb c sep then EmptyString :: split_at sep s' else match split_at sep s' with w :: ws => String c w :: ws | [] => [String c EmptyString] end
  end.
(** Iteration over an open file: the lines with their final newline *)
Fixpoint file_lines (s : string) : list string :=
  match s with
  | EmptyString => []
  | String c s' => if Ascii.eqb c newline then String c EmptyString :: file_lines s' else match file_lines s' with w :: ws => String c w :: ws | [] => [String c EmptyString] end
  end.
(** The dictionary of sets of tuples of clingo_wrapper.py:74 *)
Definition gmodel := list (string * list (list string)).
Definition words_eqb (a b : list string) : bool := if list_eq_dec string_dec a b then true else false.
Definition tuples (m : gmodel) (symbol : string) : list (list string) := match sget m symbol with Some ts => ts | None => [] end.
Definition add_tuple (m : gmodel) (symbol : string) (args : list string) : gmodel :=
  let ts := tuples m symbol in dset String.eqb m symbol (if existsb (words_eqb args) ts then ts else (ts ++ [args])%list).
(** clingo_wrapper.py:75-88: one line *)
Definition ends_line (c : ascii) : bool := Ascii.eqb c " " || Ascii.eqb c newline || Ascii.eqb c ".".
Definition parse_line (t : trans) (m : gmodel) (line : string) : res gmodel :=
  match split_at "(" (rstrip (Ascii.eqb ")") (rstrip ends_line line)) with
  | [symbol] => Ok (add_tuple m (back t symbol) [])
  | [symbol; arguments] => Ok (add_tuple m (back t symbol) (map (back t) (split_at "," arguments)))
  | _ => Err RuntimeError
  end.
Fixpoint parse_lines (t : trans) (m : gmodel) (lines : list string) : res gmodel :=
  match lines with [] => Ok m | line :: lines' => let! m' := parse_line t m line in parse_lines t m' lines' end.
(** clingo_wrapper.py:61-64 and 72-90: [parse_model] of a file *)
Definition parse_model (t : trans) (text : string) : res gmodel := parse_lines t [] (file_lines text).

(** * The grounding strategy *)
Section Strategy.
(** [run_clingo] (clingo_wrapper.py:29-58) with the rules of the program: what the solver prints, or the exception for a failing solver *)
Variable gringo : list rule -> res string.
(** lp_grounding.py:23-29; [fluent_symbols] is a set *)
Record strategy := { g_lang : lang; g_problem : problem; g_actions : bool; g_ineq : bool; g_model : option gmodel; g_fluents : list sym }.
Fixpoint sym_set (l : list sym) : list sym := match l with [] => [] | s :: l' => if sym_mem s l' then sym_set l' else s :: sym_set l' end.
Definition new_strategy (l : lang) (p : problem) (actions ineq : bool) : res strategy :=
  let! fl := collect_affected_symbols (p_actions p) in
  Ok {| g_lang := l; g_problem := p; g_actions := actions; g_ineq := ineq; g_model := None; g_fluents := sym_set fl |}.
(** lp_grounding.py:72-84 [_solve_lp]. The attribute [model] is set before the test of :82, which also adds an empty entry for the goal to the dictionary if there is none (not
    modelled: no caller can tell). *)
Definition solve_lp (g : strategy) : res gmodel * strategy :=
  match g_model g with
  | Some m => (Ok m, g)
  | None =>
      match (let! r := create_reachability_lp (g_lang g) (g_actions g) (g_ineq g) (g_problem g) in
             let! text := gringo (fst r) in parse_model (snd r) text) with
      | Err e => (Err e, g)
      | Ok m =>
          let g' := {| g_lang := g_lang g; g_problem := g_problem g; g_actions := g_actions g; g_ineq := g_ineq g; g_model := Some m; g_fluents := g_fluents g |} in
          (if Nat.eqb (List.length (tuples m "goal")) 1 then Ok m else Err ReachabilityLPUnsolvable, g')
      end
  end.
(** lp_grounding.py:51-65 [ground_actions]; [problem.actions] is a dictionary from names to actions *)
Definition lp_ground_actions (g : strategy) : res (list (string * list (list string))) * strategy :=
  if negb (g_actions g) then (Err RuntimeError, g) else
  let (r, g') := solve_lp g in
  (let! m := r in Ok (map (fun a => (a_name a, tuples m ("action_" ++ a_name a))) (p_actions (g_problem g))), g').
(** lang.get of a name (fol.py:415-437) where a Constant is needed (common.py:18-20) *)
Definition constant_called (l : lang) (name : string) : res (option term) :=
  let! e := lget l (CStr name) in
  match e with
  | EConst _ _ => match dget cname_eqb (l_consts l) (CStr name) with Some (sym, srt) => Ok (Some (Cst sym srt)) | None => Err UndefinedElement end
  | _ => Ok None
  end.
Definition state_variable (l : lang) (s : sym) (binding : list string) : res svar :=
  let! cs := mapM (constant_called l) binding in
  match mapM (fun c : option term => match c with Some t => Ok t | None => Err TarskiError end) cs with Ok ts => Ok (s, ts) | Err e => Err e end.
Fixpoint add_state_variables (l : lang) (s : sym) (bindings : list (list string)) (idx : sidx svar) : res (sidx svar) :=
  match bindings with
  | [] => Ok idx
  | b :: bs => let! v := state_variable l s b in let! idx' := si_make svar_eqb idx [v] in add_state_variables l s bs idx'
  end.
(** lp_grounding.py:31-49 [ground_state_variables] *)
Fixpoint state_variables_of (l : lang) (m : gmodel) (symbols : list sym) (idx : sidx svar) : res (sidx svar) :=
  match symbols with
  | [] => Ok idx
  | s :: l' => let! idx' := add_state_variables l s (tuples m ("atom_" ++ sym_name s)) idx in state_variables_of l m l' idx'
  end.
Definition lp_ground_state_variables (g : strategy) : res (sidx svar) * strategy :=
  let (r, g') := solve_lp g in (let! m := r in state_variables_of (g_lang g) m (g_fluents g) si_empty, g').
(** lp_grounding.py:67-70 [iterate_over_schema_groundings] *)
Definition iterate_over_schema_groundings (g : strategy) (schema_name : string) : res (list (list string)) * strategy :=
  let (r, g') := solve_lp g in (let! m := r in Ok (tuples m schema_name), g').

(** * Ground operators *)
(** fol.py:261-264 [get_constant] *)
Definition get_constant (l : lang) (name : string) : res term :=
  match dget cname_eqb (l_consts l) (CStr name) with Some (sym, srt) => Ok (Cst sym srt) | None => Err UndefinedElement end.
(** action_grounding.py:18-19: the names of the operators; a name that is an integer cannot be joined *)
Fixpoint join (sep : string) (l : list string) : string := match l with [] => "" | [x] => x | x :: l' => x ++ sep ++ join sep l' end.
Definition operator_name (a : action) (s : subst) : res string :=
  let! names := mapM (fun v : var => match get_t (sub_t s) (Var (fst v) (snd v)) with Some (Cst (CStr n) _) => Ok n | Some (Cst (CInt _) _) => Err TypeError | _ => Err RuntimeError end) (param_vars a) in
  Ok (a_name a ++ "(" ++ join ", " names ++ ")").
Record operator := { o_name : string; o_pre : formula; o_effs : list effect }.
(** action_grounding.py:6-24 [ground_schema_into_plain_operator]: the checks of :12-17 are those of [ground_schema] *)
Definition ground_operator (a : action) (s : subst) : res operator :=
  if forallb (fun v : var => match get_t (sub_t s) (Var (fst v) (snd v)) with Some (Cst _ _) => true | _ => false end) (param_vars a) then
    let! name := operator_name a s in
    let! g := ground_schema {| a_name := a_name a; a_params := map (fun v : var => Var (fst v) (snd v)) (param_vars a); a_pre := a_pre a; a_effs := a_effs a |} s in
    Ok {| o_name := name; o_pre := fst g; o_effs := snd g |}
  else Err RuntimeError.
(** action_grounding.py:54-60 [ground_schema_into_plain_operator_from_grounding]; [action.parameters[k]] is the k-th variable given to the VariableBinding (formulas.py:364-365) *)
Definition operator_from_grounding (l : lang) (a : action) (grounding : list string) : res operator :=
  let! binding := mapM (get_constant l) grounding in
  let! s := create_substitution (map (fun v : var => Var (fst v) (snd v)) (vb_values (vb_make (vars_of (a_params a))))) binding in
  ground_operator a s.
(** lp_grounding.py:92-94 and 97-107: [ground_problem_schemas_into_plain_operators]; [problem.get_action] finds the action of that name *)
Fixpoint operators_of (l : lang) (acts : list action) (groundings : list (string * list (list string))) : res (list operator) :=
  match groundings with
  | [] => Ok []
  | (name, gs) :: rest =>
      match find (fun a => String.eqb (a_name a) name) acts with
      | None => Err UndefinedElement
      | Some a => let! os := mapM (operator_from_grounding l a) gs in let! os' := operators_of l acts rest in Ok (os ++ os')%list
      end
  end.
Definition ground_into_operators (l : lang) (p : problem) (ineq : bool) : res (list operator) :=
  let! g := new_strategy l p true ineq in
  let! gs := fst (lp_ground_actions g) in
  operators_of l (p_actions p) gs.
End Strategy.
