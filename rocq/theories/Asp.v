(** Reachability logic programs: src/tarski/reachability/asp.py. Simplifications of the whole file: strings are ASCII; a rule is kept as data instead of text
    (asp.py:311-324 and 418-424 print it); [include_action_costs] is False, as in [create_reachability_lp] (:32-38); the problem has no derived predicates (:109). *)
From Coq Require Import Ascii.
From Verif Require Import Base Syntax ModelState ModelText Lang Subst QElim FreeVars Effects Represent Grounding.
#[local] Open Scope string_scope.

(** * Names *)
(** asp.py:427-429 [sanitize]: name.replace("-", "__") *)
Fixpoint sanitize (s : string) : string :=
  match s with EmptyString => EmptyString | String c s' => if Ascii.eqb c "-" then "__" ++ sanitize s' else String c (sanitize s') end.
(** Character tests and mappings of Python's str *)
Definition is_upper (c : ascii) : bool := let n := nat_of_ascii c in Nat.leb 65 n && Nat.leb n 90.
Definition is_lower (c : ascii) : bool := let n := nat_of_ascii c in Nat.leb 97 n && Nat.leb n 122.
Definition is_alpha (c : ascii) : bool := is_upper c || is_lower c.
Definition to_upper (c : ascii) : ascii := if is_lower c then ascii_of_nat (nat_of_ascii c - 32) else c.
Definition to_lower (c : ascii) : ascii := if is_upper c then ascii_of_nat (nat_of_ascii c + 32) else c.
Fixpoint lower (s : string) : string := match s with EmptyString => EmptyString | String c s' => String (to_lower c) (lower s') end.
(** asp.py:351-353 [_capitalize]: str.capitalize also turns the other letters to lower case *)
Definition capitalize (s : string) : string := match s with EmptyString => EmptyString | String c s' => String (to_upper c) (lower s') end.
(** asp.py:345-348 [make_variable_name] *)
Definition make_variable_name (name : string) : res string :=
  match name with
  | EmptyString => Err IndexError
  | String c s' => Ok (capitalize (if is_alpha c then name else s'))
  end.
(** asp.py:356-358 [_uncapitalize] of a constant's symbol; an int cannot be indexed *)
Definition uncapitalize (c : cname) : res string :=
  match c with CInt _ => Err TypeError | CStr EmptyString => Err IndexError | CStr (String a s') => Ok (String (to_lower a) s') end.

(** asp.py:365-368: the two dictionaries *)
Record trans := { tr_d : list (string * string); tr_inv : list (string * string) }.
Definition trans0 : trans := {| tr_d := []; tr_inv := [] |}.
(** asp.py:370-388, [normalize] and [_insert] *)
Definition with_prefix (prefix name : string) : string := match prefix with EmptyString => name | _ => prefix ++ "_" ++ name end.
Definition normalize (t : trans) (name prefix : string) : res (string * trans) :=
  let prefixed := with_prefix prefix name in
  match sget (tr_d t) prefixed with
  | Some translated => Ok (translated, t)
  | None =>
      let translated := with_prefix prefix (sanitize name) in
      match sget (tr_inv t) prefixed, sget (tr_inv t) translated with
      | None, None =>
          if String.eqb translated prefixed then Ok (translated, t)
          else Ok (translated, {| tr_d := dset String.eqb (tr_d t) prefixed translated; tr_inv := dset String.eqb (tr_inv t) translated prefixed |})
      | _, _ => Err RuntimeError
      end
  end.
(** asp.py:390-392 [back] *)
Definition back (t : trans) (name : string) : string := match sget (tr_inv t) name with Some n => n | None => name end.

(** * Programs *)
(** asp.py:311-316 [LPAtom] *)
Record lpatom := { lp_sym : string; lp_args : list string; lp_infix : bool }.
(** asp.py:395-401 [LogicProgram.rule]; a fact is a rule with an empty body (printed "head." instead of "head :- .") *)
Record rule := { r_head : lpatom; r_body : list lpatom }.

(** The state of a [ReachabilityLPCompiler]: asp.py:51-57 *)
Record cstate := { c_tr : trans; c_aux : nat; c_rules : list rule }.
Definition M (A : Type) := cstate -> res (A * cstate).
Definition ret {A} (a : A) : M A := fun st => Ok (a, st).
Definition fail {A} (e : exn) : M A := fun _ => Err e.
Definition lift {A} (r : res A) : M A := fun st => match r with Ok a => Ok (a, st) | Err e => Err e end.
Definition bnd {A B} (m : M A) (k : A -> M B) : M B := fun st => match m st with Ok (a, st') => k a st' | Err e => Err e end.
Notation "'let*' x ':=' e 'in' k" := (bnd e (fun x => k)) (at level 200, x pattern, e at level 100, k at level 200).
Definition mapS {A B} (f : A -> M B) : list A -> M (list B) :=
  fix go l := match l with [] => ret [] | x :: l' => let* y := f x in let* ys := go l' in ret (y :: ys) end.
Definition add_rule (h : lpatom) (b : list lpatom) : M unit :=
  fun st => Ok (tt, {| c_tr := c_tr st; c_aux := c_aux st; c_rules := (c_rules st ++ [{| r_head := h; r_body := b |}])%list |}).
Definition norm (name prefix : string) : M string :=
  fun st => match normalize (c_tr st) name prefix with Ok (s, t) => Ok (s, {| c_tr := t; c_aux := c_aux st; c_rules := c_rules st |}) | Err e => Err e end.

(** asp.py:279-286 [lp_atom] on a name *)
Definition lp_atom (symbol : string) (args : list string) (prefix : string) : M lpatom :=
  let* s := norm symbol prefix in
  let* l := mapS (fun a => norm a "") args in
  ret {| lp_sym := s; lp_args := l; lp_infix := false |}.
(** asp.py:279-286 on a built-in predicate symbol, with the assertion of :316 *)
Definition lp_builtin (b : bpred) (args : list string) : M lpatom :=
  let* s := norm (bpred_name b) "" in
  let* l := mapS (fun a => norm a "") args in
  if Nat.eqb (List.length l) 2 then ret {| lp_sym := s; lp_args := l; lp_infix := true |} else fail AssertionError.
(** asp.py:59-62 [gen_aux_atom] *)
Definition gen_aux_atom (args : list string) : M lpatom :=
  fun st => lp_atom ("__f" ++ name_text (CInt (Z.of_nat (S (c_aux st))))) args "" {| c_tr := c_tr st; c_aux := S (c_aux st); c_rules := c_rules st |}.
(** asp.py:230-239 [process_term] *)
Definition process_term (t : term) : res string :=
  match t with Var x _ => make_variable_name x | Cst c _ => Ok (name_text c) | _ => Err RuntimeError end.
(** asp.py:262-263 [tarski_atom_to_lp_atom]: the arguments are processed before the call of lp_atom *)
Definition tarski_atom_to_lp_atom (p : psym) (ts : list term) : M lpatom :=
  let* args := lift (mapM process_term ts) in
  match p with PU n _ => lp_atom n args "atom" | PB b => lp_builtin b args end.
(** asp.py:271-277 [lp_type_atom_from_term] *)
Definition lp_type_atom (t : term) : M lpatom :=
  match t with
  | Var x s => let* n := lift (make_variable_name x) in lp_atom s [n] "type"
  | Cst c s => let* n := lift (uncapitalize c) in lp_atom s [n] "type"
  | _ => fail RuntimeError
  end.
(** asp.py:341-342 *)
Definition lp_tautology : lpatom := {| lp_sym := "="; lp_args := ["1"; "1"]; lp_infix := true |}.
(** asp.py:328-337 [negate_lp_atom] with syntax/builtins.py:4 *)
Definition symbol_complements (s : string) : option string :=
  sget [("=", "!="); ("!=", "="); ("<", ">="); ("<=", ">"); (">", "<="); (">=", "<")] s.
Definition negate_lp_atom (a : lpatom) : res lpatom :=
  match symbol_complements (lp_sym a) with
  | Some s => if lp_infix a then Ok {| lp_sym := s; lp_args := lp_args a; lp_infix := true |} else Err AssertionError
  | None => if lp_infix a then Err AssertionError else Ok lp_tautology
  end.

Section Compile.
Variables (D : domains) (ineq : bool).

(** asp.py:171-227 [process_formula] *)
Fixpoint process_formula (f : formula) : M (list lpatom) :=
  match f with
  | Top => ret []
  | Bot => fail RuntimeError
  | Atom p ts => let* a := tarski_atom_to_lp_atom p ts in ret [a]
  | Comp And fs => let* l := mapS process_formula fs in ret (List.concat l)
  | Comp Or fs =>
      let* vs := lift (free_variables f) in
      let* names := lift (mapM process_term vs) in
      let* aux := gen_aux_atom names in
      let* types := mapS lp_type_atom vs in
      let* sub := mapS process_formula fs in
      let* _ := mapS (fun body => add_rule aux (body ++ types)%list) sub in
      ret [aux]
  | Comp Not fs =>
      if negb ineq then ret [lp_tautology] else
      match fs with
      | [Atom p ts] => let* a := tarski_atom_to_lp_atom p ts in let* b := lift (negate_lp_atom a) in ret [b]
      | [_] => fail RuntimeError
      | _ => fail AssertionError
      end
  | Quant QEx vs g =>
      let* aux := gen_aux_atom [] in
      let* types := mapS lp_type_atom vs in
      let* body := process_formula g in
      let* _ := add_rule aux (body ++ types)%list in
      ret [aux]
  | Quant QAll _ _ => fail RuntimeError
  end.

(** asp.py:241-260 [process_effect]; [None] for the head of a delete effect. A non-atom in an add effect has no attribute predicate. *)
Definition process_effect (e : effect) : M (option (lpatom * list lpatom)) :=
  match e with
  | EAdd c (Atom p ts) =>
      let* head := tarski_atom_to_lp_atom p ts in
      let* condition := lift (remove_quantifiers D MForall c) in
      let* body := process_formula condition in
      ret (Some (head, body))
  | EAdd _ _ => fail AttributeError
  | EDel _ _ => ret None
  | EUni _ _ _ => fail AssertionError
  | EFun _ _ _ _ | ELit _ _ | EOther _ => fail RuntimeError
  end.
Definition add_effect_rule (pre : list lpatom) (r : option (lpatom * list lpatom)) : M unit :=
  match r with Some (head, body) => add_rule head (pre ++ body)%list | None => ret tt end.

Definition var_terms (vs : list var) : list term := map (fun v => Var (fst v) (snd v)) vs.
(** asp.py:121-141 [process_action] with [create_action_atoms] (:160-166); the parameters are a VariableBinding *)
Definition process_action (a : action) : M unit :=
  let params := var_terms (param_vars a) in
  let* names := lift (mapM process_term params) in
  let* atom := lp_atom (a_name a) names "action" in
  let* types := mapS lp_type_atom params in
  let* phi := lift (remove_quantifiers D MForall (a_pre a)) in
  let* body := process_formula phi in
  let* _ := add_rule atom (types ++ body)%list in
  let* _ := mapS (fun e =>
    let* es := lift (expand_effect D e) in
    mapS (fun e' => let* r := process_effect e' in add_effect_rule [atom] r) es) (a_effs a) in
  ret tt.
(** asp.py:297-308 [VariableOnlyReachabilityLPCompiler.process_action] *)
Definition process_action_variables (a : action) : M unit :=
  let* types := mapS lp_type_atom (var_terms (param_vars a)) in
  let* phi := lift (remove_quantifiers D MForall (a_pre a)) in
  let* body := process_formula phi in
  let* _ := mapS (fun e => let* r := process_effect e in add_effect_rule (types ++ body)%list r) (a_effs a) in
  ret tt.
(** asp.py:115-119 [process_goal] *)
Definition process_goal (goal : formula) : M unit :=
  let* phi := lift (remove_quantifiers D MForall goal) in
  let* body := process_formula phi in
  let* head := lp_atom "goal" [] "" in
  add_rule head body.
End Compile.

(** What a language offers to the compiler. fol.py:266-267 [constants]; sorts.py:76-77, 159-164 [domain]; fol.py:84-85 [sorts]; sorts.py:174-177 [parent] *)
Definition lang_constants (l : lang) : list term := map (fun kv => Cst (fst (snd kv)) (snd (snd kv))) (l_consts l).
Definition lang_domain (l : lang) (s : string) : res (list term) :=
  match sget (l_sorts l) s with
  | None => Err UndefinedElement
  | Some r => match s_kind r with
              | KPlain => mapM (fun c => match dget cname_eqb (l_consts l) c with Some (sym, srt) => Ok (Cst sym srt) | None => Err UndefinedElement end) (s_dom r)
              | KInterval _ lb ub => if s_builtin r || Z.ltb 9999 (ub - lb) then Err TarskiError else Ok (map (fun z => Cst (CInt z) s) (zrange lb ub))
              end
  end.
Definition lang_domains (l : lang) : domains := fun s => match lang_domain l s with Ok cs => Some cs | Err _ => None end.

(** asp.py:76-83: the rule of one sort *)
Definition sort_rule (l : lang) (s : string) (r : sortrec) : M unit :=
  match s_kind r with
  | KInterval _ _ _ => ret tt
  | KPlain =>
      match sget (l_parent l) s with
      | None => fail AssertionError
      | Some None => ret tt
      | Some (Some p) =>
          let* d := lift (lang_domain l s) in
          match d with
          | [] => ret tt
          | _ => let* h := lp_atom p ["X"] "type" in let* b := lp_atom s ["X"] "type" in add_rule h [b]
          end
      end
  end.
(** fstrips/representation.py:371-398 [identify_cost_related_functions]: the user functions (without total-cost, syntax/util.py:17-18) whose names occur in no formula or
    effect of the problem. The nodes visited are those of [collect_all_function_names] (see Nodes.v); a universal effect's condition and members are visited. *)
Definition fun_name (f : fsym) : string := match f with FU n _ _ => n | FB b => bfun_name b end.
Fixpoint fun_names_t (t : term) : list string :=
  match t with Var _ _ | Cst _ _ => [] | App f ts => (flat_map fun_names_t ts ++ [fun_name f])%list | Ite c a b => (fun_names_f c ++ fun_names_t a ++ fun_names_t b)%list end
with fun_names_f (f : formula) : list string :=
  match f with Top | Bot => [] | Atom _ ts => flat_map fun_names_t ts | Comp _ fs => flat_map fun_names_f fs | Quant _ vs g => (fun_names_f g ++ flat_map fun_names_t vs)%list end.
Fixpoint fun_names_e (e : effect) : list string :=
  (fun_names_f (econd e) ++
   match e with
   | EAdd _ a | EDel _ a | ELit _ a => fun_names_f a
   | EFun _ _ l r => fun_names_t l ++ fun_names_t r
   | EUni _ _ es => flat_map fun_names_e es
   | EOther _ => []
   end)%list.
Definition identify_cost_related_functions (l : lang) (p : problem) : list string :=
  let used := (fun_names_f (p_goal p) ++ flat_map (fun a => fun_names_f (a_pre a) ++ flat_map fun_names_e (a_effs a)) (p_actions p))%list in
  filter (fun n => negb (existsb (String.eqb n) used) && negb (String.eqb n "total-cost")) (map fst (l_funs l)).

(** asp.py:85-100 with model.py:165-180 [as_atoms]: first the atoms, symbol by symbol, then the functions. Simplification: the language still knows the symbols. *)
Definition init_atom (s : signature) (pt : list term) : M unit :=
  match s with
  | (false, n :: ss) => let* h := tarski_atom_to_lp_atom (PU n ss) pt in add_rule h []
  | _ => fail NotModelled
  end.
Definition init_functions (cost : list string) (m : model) : M unit :=
  let* _ := mapS (fun ke => mapS (fun _ => let n := sig_name (fst ke) in
     if String.eqb n "total-cost" || existsb (String.eqb n) cost then ret tt else fail RuntimeError) (snd ke)) (funs m) in ret tt.
(** asp.py:102-106: [all] stops at the first parameter without values *)
Fixpoint nonempty_domains (l : lang) (vs : list var) : res bool :=
  match vs with
  | [] => Ok true
  | v :: vs' => let! d := lang_domain l (snd v) in match d with [] => Ok false | _ => nonempty_domains l vs' end
  end.

(** asp.py:64-112 [create] and :32-38 [create_reachability_lp] *)
Definition create_rules (l : lang) (ground_actions ineq : bool) (p : problem) : M unit :=
  let D := lang_domains l in
  let cost := identify_cost_related_functions l p in
  let* _ := mapS (fun c => let* a := lp_type_atom c in add_rule a []) (lang_constants l) in
  let* _ := mapS (fun sr => sort_rule l (fst sr) (snd sr)) (l_sorts l) in
  let* _ := mapS (fun ke => mapS (init_atom (fst ke)) (snd ke)) (preds (p_init p)) in
  let* _ := init_functions cost (p_init p) in
  let* _ := mapS (fun a => let* b := lift (nonempty_domains l (param_vars a)) in
                           if b then if ground_actions then process_action D ineq a else process_action_variables D ineq a else ret tt) (p_actions p) in
  process_goal D ineq (p_goal p).
Definition create_reachability_lp (l : lang) (ground_actions ineq : bool) (p : problem) : res (list rule * trans) :=
  let! r := create_rules l ground_actions ineq p {| c_tr := trans0; c_aux := 0; c_rules := [] |} in
  Ok (c_rules (snd r), c_tr (snd r)).
