(** Compilation of action schemas into constraint satisfaction problems: src/tarski/analysis/csp_schema.py; and the constraint hypergraph of a schema: src/tarski/analysis/csp.py:14-37, 99-116 *)
From Verif Require Import Base Syntax ModelState ModelText Index Eval Lang SortIds Build Nnf Prenex NegBuiltin Subst QElim Effects Represent Grounding Simplify.
Local Open Scope string_scope.

(** * csp.py *)
(** csp.py:99-116 [_collect_hyperedges]. [x.symbol[1:]] drops the first character; an edge is the sorted tuple of the elements of a set. WrongFormalismError is a
    TarskiError (csp.py:12). *)
Definition drop_first (s : string) : string := match s with EmptyString => EmptyString | String _ r => r end.
Definition is_simple (t : term) : bool := match t with Var _ _ | Cst _ _ => true | _ => false end.
Definition atom_edge (ts : list term) : list string := sorted (nodup string_dec (flat_map (fun t => match t with Var x _ => [drop_first x] | _ => [] end) ts)).
Definition add_edge (e : list string) (edges : list (list string)) : list (list string) := if in_dec (list_eq_dec string_dec) e edges then edges else (edges ++ [e])%list.
Fixpoint collect_hyperedges (phi : formula) (edges : list (list string)) : res (list (list string)) :=
  match phi with
  | Atom _ ts => if forallb is_simple ts then Ok (match atom_edge ts with [] => edges | e => add_edge e edges end) else Err AssertionError
  | Comp And fs => (fix go fs edges := match fs with [] => Ok edges | f :: r => let! edges' := collect_hyperedges f edges in go r edges' end) fs edges
  | Comp Not fs => match fs with f :: _ => collect_hyperedges f edges | [] => Err IndexError end
  | _ => Err TarskiError
  end.
(** csp.py:18-24 [compute_schema_constraint_hypergraph] *)
Definition compute_schema_constraint_hypergraph (a : action) : res (list (list string)) := collect_hyperedges (a_pre a) [].
(** itertools.combinations(_, 2) *)
Fixpoint combinations (l : list string) : list (string * string) := match l with [] => [] | x :: r => (map (fun y => (x, y)) r ++ combinations r)%list end.
Definition pair_dec (a b : string * string) : {a = b} + {a <> b}. Proof. decide equality; apply string_dec. Defined.
(** csp.py:34-37 [compute_primal_graph_from_hypergraph], :27-31 [compute_schema_primal_graph] *)
Definition compute_primal_graph_from_hypergraph (hypergraph : list (list string)) : list (string * string) := nodup pair_dec (flat_map combinations hypergraph).
Definition compute_schema_primal_graph (a : action) : res (list (string * string)) := let! h := compute_schema_constraint_hypergraph a in Ok (compute_primal_graph_from_hypergraph h).

(** * csp_schema.py *)
(** csp_schema.py:62-101: the constraints. A variable is the name of a CSP variable, or None. The attribute [reification] is always None. *)
Inductive constraint : Set :=
| CTable (expr : term + formula) (variables : list (option string)) (negative : bool)
| CState (expr : formula) (value : bool)
| CRel (lhs rhs : option string) (rel : string).
(** csp_schema.py:48-54: name, kind ("param", "var", "const") and bounds of the variables (the type of variable is always int), and the constraints. [name_to_vardata] has the same
    entries as [vardata]. *)
Record csp := { c_vars : list (string * string * (nat * Z)); c_cons : list constraint; c_relevant : list term; c_index : list string }.
Definition no_csp : csp := {| c_vars := []; c_cons := []; c_relevant := []; c_index := [] |}.
Definition add_constraint (k : csp) (c : constraint) : csp := {| c_vars := c_vars k; c_cons := (c_cons k ++ [c])%list; c_relevant := c_relevant k; c_index := c_index k |}.

Section Compiler.
(** csp_schema.py:105-110: the state variables, and the result (bounds, ids) of compute_sort_id_assignment *)
Variables (svs : list svar) (bounds : list (string * (nat * nat))) (ids : list (cobj * nat)).
Definition add_variable (k : csp) (name kind : string) (b : nat * Z) : csp :=
  if existsb (fun v => String.eqb (fst (fst v)) name) (c_vars k) then k else {| c_vars := (c_vars k ++ [(name, kind, b)])%list; c_cons := c_cons k; c_relevant := c_relevant k; c_index := c_index k |}.
(** csp_schema.py:222-244 [variable] on variables and constants; the text of a variable is its symbol (terms.py) *)
Definition variable (k : csp) (t : term) (kind : string) : res (csp * string) :=
  match t with
  | Var x s => match sget bounds s with Some (lo, hi) => Ok (add_variable k x kind (lo, (Z.of_nat hi - 1)%Z), x) | None => Err KeyError end
  | Cst c s => match dget cobj_eqb ids (c, s) with Some i => Ok (add_variable k (name_text c) kind (i, Z.of_nat i), name_text c) | None => Err KeyError end
  | _ => Err NotModelled
  end.
Definition svar_mem (v : svar) : bool := existsb (svar_eqb v) svs.
(** A loop over subterms that threads the object [csp] *)
Definition compile_list (f : term -> csp -> res (csp * option string)) := fix go (ts : list term) (k : csp) {struct ts} : res (csp * list (option string)) :=
  match ts with [] => Ok (k, []) | t :: r => let! kx := f t k in let! kr := go r (fst kx) in Ok (fst kr, snd kx :: snd kr) end.
(** csp_schema.py:161-220 [compile_expression] on terms. A compound term over constants is not an atom: it has no attribute [predicate] (common.py:34). Line 187 unpacks two
    operands. An IfThenElse is an unexpected expression (CSPSchemaCompilationError is a TarskiError). *)
Fixpoint compile_term (t : term) (k : csp) : res (csp * option string) :=
  match t with
  | Var _ _ => let! kx := variable k t "var" in Ok (fst kx, Some (snd kx))
  | Cst _ _ => let! kx := variable k t "const" in Ok (fst kx, Some (snd kx))
  | App f ts =>
      if forallb is_cst ts then Err AttributeError
      else match f with
           | FB b => match ts with
                     | [u; v] => let! kx := compile_term u k in let! ky := compile_term v (fst kx) in Ok (add_constraint (fst ky) (CRel (snd kx) (snd ky) (bfun_name b)), None)
                     | _ => Err ValueError
                     end
           | FU _ _ _ => let! k1 := compile_list compile_term ts k in let! k2 := compile_list compile_term ts (fst k1) in Ok (add_constraint (fst k2) (CTable (inl t) (snd k2) false), None)
           end
  | Ite _ _ _ => Err TarskiError
  end.
(** On formulas; [negate] is the parameter of that name, [reify] is always False. *)
Definition compile_atom (p : psym) (ts : list term) (negate : bool) (k : csp) : res csp :=
  if forallb is_cst ts && svar_mem (SymP p, ts) then Ok (add_constraint k (CState (Atom p ts) (negb negate)))
  else match p with
       | PB b => match ts with
                 | [u; v] => let! kx := compile_term u k in let! ky := compile_term v (fst kx) in Ok (add_constraint (fst ky) (CRel (snd kx) (snd ky) (bpred_name (if negate then complement b else b))))
                 | _ => Err ValueError
                 end
       | PU _ _ => let! k1 := compile_list compile_term ts k in let! k2 := compile_list compile_term ts (fst k1) in Ok (add_constraint (fst k2) (CTable (inr (Atom p ts)) (snd k2) negate))
       end.
Fixpoint compile_formula (f : formula) (k : csp) : res csp :=
  match f with
  | Top => Ok k
  | Bot => Err AssertionError
  | Atom p ts => compile_atom p ts false k
  | Comp Not fs => match fs with Atom p ts :: _ => compile_atom p ts true k | _ :: _ => Err AssertionError | [] => Err IndexError end
  | Comp _ fs => (fix go fs k := match fs with [] => Ok k | f :: r => let! k' := compile_formula f k in go r k' end) fs k
  | Quant QEx vs _ => match vs with [] => Ok k | _ => Err AssertionError end
  | Quant QAll _ _ => Err AssertionError
  end.
(** csp_schema.py:136-140: the quantifiers anywhere in the formula *)
Fixpoint universal (f : formula) : bool :=
  match f with Comp _ fs => existsb universal fs | Quant QAll _ _ => true | Quant QEx _ g => universal g | _ => false end.
(** csp_schema.py:150-159: the CSP of a schema with the simplified precondition [pre]. [action.parameters] yields one variable per name. *)
Fixpoint parameters (vs : list var) (k : csp) : res (csp * list string) :=
  match vs with [] => Ok (k, []) | v :: r => let! kx := variable k (Var (fst v) (snd v)) "param" in let! kr := parameters r (fst kx) in Ok (fst kr, snd kx :: snd kr) end.
Definition build_csp (a : action) (pre : formula) : res csp :=
  let! kp := parameters (param_vars a) no_csp in
  let! k := compile_formula pre (fst kp) in
  let! free := collect_effect_free_parameters a in
  Ok {| c_vars := c_vars k; c_cons := c_cons k; c_index := snd kp;
        c_relevant := filter (fun x => negb (existsb (term_eqb x) free)) (map (fun v => Var (fst v) (snd v)) (param_vars a)) |}.
(** csp_schema.py:129-159 [compile_schema_csp]; [statics] and [init] as in Simplify.v. Universal quantifiers inside the condition of an if-then-else term are not looked for in the model
    (such a term is rejected later). [None]: the precondition is false. *)
Definition compile_schema_csp (init : model) (statics : list sym) (a : action) : res (option csp) :=
  let! f := flatten (a_pre a) in
  let! pre := to_prenex (size f) f in
  if universal pre then Err TarskiError else
  let! lits := is_conjunction_of_literals pre in
  if negb lits then Err TarskiError else
  let! r := simplify_expression (Some init) (Some statics) pre in
  match r with
  | OBool false => Ok None
  | OBool true => let! k := build_csp a Top in Ok (Some k)
  | OForm g => let! k := build_csp a g in Ok (Some k)
  end.
(** csp_schema.py:112-127 [process_problem] without a directory: the names of the actions whose precondition is found to be false *)
Fixpoint inapplicable (init : model) (statics : list sym) (acts : list action) : res (list string) :=
  match acts with
  | [] => Ok []
  | a :: r => let! k := compile_schema_csp init statics a in let! l := inapplicable init statics r in Ok (match k with None => a_name a :: l | Some _ => l end)
  end.
Definition process_problem (declared : list sym) (p : problem) : res (list string) :=
  let! fs := approximate_symbol_fluency false declared (p_actions p) in inapplicable (p_init p) (snd fs) (p_actions p).
End Compiler.
