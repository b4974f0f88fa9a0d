(** Specification vocabulary for reachability programs: what a logic program derives, and the reachable states of a planning problem. Only the data types of
    the model and the way names are written (name_text, make_variable_name, sanitize) are used; not the compiler. *)
From Coq Require Import Ascii.
From Verif Require Import Base Syntax Semantics SubstSpec ModelState ModelText EvalSpec Lang LangSpec Subst QElim Effects Represent Grounding Asp AspNamesSpec.
#[local] Open Scope string_scope.

(** * Logic programs *)
(** Identifiers that gringo reads as variables: any number of underscores, then a capital letter (a lone underscore is the anonymous variable). *)
Fixpoint variable_like (s : string) : bool :=
  match s with EmptyString => true | String c s' => if Ascii.eqb c "_" then variable_like s' else is_upper c end.
Definition instantiate (theta : string -> string) (x : string) : string := if variable_like x then theta x else x.
Definition compares (symbol : string) (args : list string) : Prop :=
  exists a b, args = [a; b] /\ (symbol = "=" /\ a = b \/ symbol = "!=" /\ a <> b).
(** The least model of a program without negation: an instance of a rule whose body is derived gives its head. (In programs that gringo accepts every variable of a rule
    occurs in a derived body atom, so the values of [theta] are constants of the program.) *)
Inductive derives (P : list rule) : string -> list string -> Prop :=
| derives_rule r theta : In r P -> lp_infix (r_head r) = false ->
    (forall a, In a (r_body r) -> lp_infix a = false -> derives P (lp_sym a) (map (instantiate theta) (lp_args a))) ->
    (forall a, In a (r_body r) -> lp_infix a = true -> compares (lp_sym a) (map (instantiate theta) (lp_args a))) ->
    derives P (lp_sym (r_head r)) (map (instantiate theta) (lp_args (r_head r))).
(** What the user gets to see: derived atoms with the names translated back *)
Definition reported (P : list rule) (t : trans) (symbol : string) (args : list string) : Prop :=
  exists s l, derives P s l /\ back t s = symbol /\ map (back t) l = args.

(** * Planning: states, applicability, successors *)
(** A state: the atoms that are true, and the values of the functions (about which nothing is assumed) *)
Record state := { true_atoms : psym -> list term -> bool; fun_values : fsym -> list term -> term }.
(** The structure of a state: the objects of the problem are its elements, = and the other comparisons are about the names. *)
Definition structure_of (D : domains) (S : state) : structure :=
  {| carrier := term; dom := fun s => match D s with Some cs => cs | None => [] end; cint := Cst; fint := fun_values S;
     pint := fun p pt => match p with
                         | PU _ _ => true_atoms S p pt
                         | PB b => match pt with [Cst x _; Cst y _] => match name_cmp b x y with Some v => v | None => false end | _ => false end
                         end |}.
Definition assignment := var -> term.
Definition true_in (D : domains) (S : state) (f : formula) (e : assignment) : Prop := fsem (structure_of D S) f e = true.
Definition value (D : domains) (S : state) (t : term) (e : assignment) : term := tsem (structure_of D S) t e.
(** [e'] gives values of their sorts to the variables [vs] and is otherwise like [e]. *)
Definition reassigns (D : domains) (vs : list var) (e e' : assignment) : Prop :=
  (forall v, In v vs -> exists cs, D (snd v) = Some cs /\ In (e' v) cs) /\ (forall v, ~ In v vs -> e' v = e v).
Inductive adds (D : domains) (S : state) : assignment -> effect -> string -> list sort -> list term -> Prop :=
| adds_atom e c n ss ts : true_in D S c e -> adds D S e (EAdd c (Atom (PU n ss) ts)) n ss (map (fun t => value D S t e) ts)
| adds_universal e c vs es e' eff n ss pt : true_in D S c e -> reassigns D (vars_of vs) e e' -> In eff es -> adds D S e' eff n ss pt -> adds D S e (EUni c vs es) n ss pt.
Inductive deletes (D : domains) (S : state) : assignment -> effect -> string -> list sort -> list term -> Prop :=
| deletes_atom e c n ss ts : true_in D S c e -> deletes D S e (EDel c (Atom (PU n ss) ts)) n ss (map (fun t => value D S t e) ts)
| deletes_universal e c vs es e' eff n ss pt : true_in D S c e -> reassigns D (vars_of vs) e e' -> In eff es -> deletes D S e' eff n ss pt -> deletes D S e (EUni c vs es) n ss pt.
(** The parameters have values of their sorts and the precondition is true. *)
Definition applicable (D : domains) (S : state) (a : action) (e : assignment) : Prop :=
  (forall v, In v (param_vars a) -> exists cs, D (snd v) = Some cs /\ In (e v) cs) /\ true_in D S (a_pre a) e.
Definition successor_of (D : domains) (S : state) (a : action) (e : assignment) (S' : state) : Prop :=
  forall n ss pt, true_atoms S' (PU n ss) pt = true <->
    (exists eff, In eff (a_effs a) /\ adds D S e eff n ss pt) \/ (true_atoms S (PU n ss) pt = true /\ ~ exists eff, In eff (a_effs a) /\ deletes D S e eff n ss pt).
Inductive reachable (D : domains) (p : problem) : state -> Prop :=
| reachable_init S : (forall n ss pt, true_atoms S (PU n ss) pt = m_holds (p_init p) (PU n ss) pt) -> reachable D p S
| reachable_step S a e S' : reachable D p S -> In a (p_actions p) -> applicable D S a e -> successor_of D S a e S' -> reachable D p S'.

(** * Problems that the theorems are about *)
(** The constants [C] can be told from variables and from each other. *)
Definition well_named (C : cname -> Prop) : Prop :=
  (forall c, C c -> unambiguous (name_text c) /\ variable_like (sanitize (name_text c)) = false) /\
  (forall c c', C c -> C c' -> name_text c = name_text c' -> c = c').
(** The variables are of uninterpreted sorts, are written like variables, and differently. *)
Definition written (v : var) (x : string) : Prop := exists y, make_variable_name (fst v) = Ok y /\ x = sanitize y.
Definition well_written (l : lang) (V : list var) : Prop :=
  (forall v, In v V -> is_plain l (snd v) /\ exists x, written v x /\ variable_like x = true) /\
  (forall v w x, In v V -> In w V -> written v x -> written w x -> v = w).
(** Constants of the formula are in [C]; comparisons are = and !=. *)
Fixpoint plain_atoms (C : cname -> Prop) (f : formula) : Prop :=
  match f with
  | Top | Bot => True
  | Atom p ts => (forall c s, In (Cst c s) ts -> C c) /\ match p with PB b => b = PEq \/ b = PNe | PU _ _ => True end
  | Comp _ fs => fold_right (fun g P => plain_atoms C g /\ P) True fs
  | Quant _ _ g => plain_atoms C g
  end.
(** A formula with free variables among [W] in which no variable is bound twice on a path, or rebinds one of [U] *)
Definition plain_formula (C : cname -> Prop) (U W : list var) (f : formula) : Prop :=
  wf f = true /\ no_shadowing f = true /\ plain_atoms C f /\ (forall v, free_in v f = true -> In v W) /\ (forall v, In v U -> ~ In v (binders f)).
(** Effects over the variables [W], of which [U] are universally quantified in an outer effect *)
Fixpoint plain_effect (C : cname -> Prop) (U W : list var) (e : effect) : Prop :=
  match e with
  | EAdd c a => plain_formula C U W c /\ plain_formula C U W a
  | EUni c vs es => fold_right (fun e P => plain_effect C (vars_of vs ++ U)%list (vars_of vs ++ W)%list e /\ P) True es
  | _ => True
  end.
Fixpoint effect_variables (e : effect) : list var :=
  match e with EAdd c _ => binders c | EUni _ vs es => (vars_of vs ++ flat_map effect_variables es)%list | _ => [] end.
Definition action_variables (a : action) : list var := (param_vars a ++ binders (a_pre a) ++ flat_map effect_variables (a_effs a))%list.
Record suitable (C : cname -> Prop) (l : lang) (p : problem) : Prop := {
  su_named : well_named C;
  su_declared : forall c s, const_of l c s -> C c;
  (** sorts with constants have no interval above them *)
  su_sorts : forall c s t, const_of l c s -> is_plain l s -> anc l s t -> is_plain l t;
  su_init : forall n ss pt, m_holds (p_init p) (PU n ss) pt = true -> Forall (fun t => exists c s, t = Cst c s /\ C c) pt;
  su_written : forall a, In a (p_actions p) -> well_written l (action_variables a);
  su_pre : forall a, In a (p_actions p) -> plain_formula C [] (param_vars a) (a_pre a);
  su_effs : forall a e, In a (p_actions p) -> In e (a_effs a) -> plain_effect C [] (param_vars a) e;
  su_goal : plain_formula C [] [] (p_goal p) /\ well_written l (binders (p_goal p)) }.
