(** Conditions, expressions, effects and actions of a PDDL file: src/tarski/io/pddl/parser.py:407-440, 522-1215 and src/tarski/io/pddl/instance.py:223-245, 262-346.
    The model starts from the trees of the grammar: the lexer and the tables of the parser generator, which decide which rule applies to which tokens, are not modelled. *)
From Verif Require Import Base Syntax Build ModelState FreeVars SubstProofs Lang Theories RddlRead PddlInstance.
#[local] Open Scope string_scope.

(** parser.py:719-746 [p_term] *)
Inductive ptm : Set := PId (n : string) | PVar (x : string) | PApp (f : string) (ts : list ptm).
(** parser.py:769-849 [p_f_exp], [p_f_head]. Numbers with a point are given as in RddlRead. *)
Inductive pfe : Set :=
| FNat (z : Z) | FReal (c : cname) | FVar (x : string) | FId (n : string) | FApp (f : string) (ts : list ptm)
| FMinus (a b : pfe) | FDiv (a b : pfe) | FPlus (a b : pfe) (r : list pfe) | FTimes (a b : pfe) (r : list pfe) | FNeg (a : pfe).
(** parser.py:634-717 [p_GD], [p_literal_of_term], [p_atomic_formula_of_term], :865-880 [p_f_comp] *)
Inductive gd : Set :=
| GAtom (p : string) (ts : list ptm) | GNotAtom (p : string) (ts : list ptm) | GEq (a b : ptm) | GNotEq (a b : ptm)
| GAnd (gs : list gd) | GOr (gs : list gd) | GNot (g : gd) | GImply (g h : gd)
| GEx (vs : list vtoken) (g : gd) | GAll (vs : list vtoken) (g : gd) | GComp (b : bpred) (x y : pfe).
(** parser.py:890-986 [p_effect], [p_c_effect], [p_p_effect]. The heads of assignments are a function with arguments, or a name ([p_f_head]). *)
Inductive phead : Set := HId (n : string) | HApp (f : string) (ts : list ptm).
Inductive peff : Set :=
| EAtom (p : string) (ts : list ptm) | ENot (p : string) (ts : list ptm) | EEq (a b : ptm) | ENotEq (a b : ptm)
| EAssign (h : phead) (e : pfe) | EAssignTerm (f : string) (ts : list ptm) (t : ptm) | EUndefined (f : string) (ts : list ptm)
| EScaleUp (h : phead) (e : pfe) | EScaleDown (h : phead) (e : pfe) | EIncrease (h : phead) (e : pfe) | EDecrease (h : phead) (e : pfe)
| EForall (es : list peff) | EWhen (g : gd) (es : list peff).

(** [AssignmentEffectData] (instance.py:22): the left side is what the reader made of it, the right side is a term or a Python number. *)
Definition assignment := (item * pval)%type.

Section Read.
Variable parse : bool -> string -> option Z.
Variable fuel : nat.
Variable i : pinst.
(** The theories of the language (instance.py:78) *)
Definition with_theories : tlang :=
  let syms := (equality_predicates ++ "@" :: arithmetic_predicates ++ arithmetic_binary ++ arithmetic_unary)%list in
  {| t_lang := pi_lang i; t_theories := [TEquality; TArithmetic]; t_handlers := syms; t_symbols := syms |}.
Notation st := with_theories.
Notation l := (pi_lang i).
(** [self.var_dict]: the variables in scope (parser.py:54, 65) *)
Definition scope := list (string * var).
Definition item_of (e : elem) : item := of_elem e.
(** [except tsk.LanguageError as e: raise SemanticError] *)
Definition semantic {A} (r : res A) : res A :=
  match r with Err (LanguageError | ArityMismatch | SortMismatch | LanguageMismatch | UndefinedElement) => Err SemanticError | _ => r end.
(** function.py:55-58, terms.py:167-185. The language has no predicates besides the built-in ones, which have no names. An argument that is a function or a type, not a term, is not in the domain of any type
    (sorts.py:43-52); for a type the exception is ValueError. *)
Definition call_function (e : elem) (its : list item) : res term :=
  match e with
  | EFun f ss => if Nat.eqb (List.length its) (List.length (removelast ss)) then let! ts := check_arguments fuel st SortMismatch its (removelast ss) in Ok (App (FU f (removelast ss) (last ss "")) ts) else Err ArityMismatch
  | EPred _ _ => Err NotModelled
  | _ => Err TypeError
  end.
(** parser.py:719-746 [p_term]: the arguments are read first. *)
Fixpoint read_term (d : scope) (t : ptm) : res item :=
  match t with
  | PId n => let! e := semantic (lget l (CStr n)) in Ok (item_of e)
  | PVar x => match sget d x with Some v => Ok (ITerm (Var (fst v) (snd v))) | None => Err SemanticError end
  | PApp f ts => let! its := mapM (read_term d) ts in let! e := semantic (lget l (CStr f)) in let! u := call_function e its in Ok (ITerm u)
  end.
(** parser.py:748-756 [p_function_term], :829-849 [p_f_head] *)
Definition read_head (d : scope) (h : phead) : res term :=
  match h with
  | HId n => semantic (let! e := lget l (CStr n) in call_function e [])
  | HApp f ts => let! its := mapM (read_term d) ts in semantic (let! e := lget l (CStr f) in call_function e its)
  end.
Definition operate (o : aop) (t u : term) : res term := dispatch_fun parse fuel st o (PyTerm t) (PyTerm u).
(** parser.py:769-827 [p_f_exp]; instance.py:231-245. Terms have no unary minus: [-p\[3\]] raises TypeError. *)
Fixpoint read_exp (d : scope) (e : pfe) : res term :=
  match e with
  | FNat z => literal parse st (CInt z) "Integer"
  | FReal c => real_constant parse st c
  | FVar x => match sget d x with Some v => Ok (Var (fst v) (snd v)) | None => Err SemanticError end
  | FId n => read_head d (HId n)
  | FApp f ts => read_head d (HApp f ts)
  | FMinus a b => let! t := read_exp d a in let! u := read_exp d b in operate OpSub t u
  | FDiv a b => let! t := read_exp d a in let! u := read_exp d b in operate OpDiv t u
  | FPlus a b r => let! t := read_exp d a in let! u := read_exp d b in let! us := mapM (read_exp d) r in foldM (operate OpAdd) (u :: us) t
  | FTimes a b r => let! t := read_exp d a in let! u := read_exp d b in let! us := mapM (read_exp d) r in foldM (operate OpMul) (u :: us) t
  | FNeg a => let! _ := read_exp d a in Err TypeError
  end.
(** parser.py:700-709: the name of the predicate is looked up outside of any [try]. *)
Definition read_atom (d : scope) (p : string) (ts : list ptm) : res term :=
  let! its := mapM (read_term d) ts in let! e := lget l (CStr p) in call_function e its.
(** parser.py:683-697: [lhs == 1], [lhs == 0] *)
Definition is_value (t : term) (z : Z) : res formula := dispatch_pred parse fuel st PEq (PyTerm t) (PyVal (CInt z)).
(** [lhs == rhs] for what [p_term] returns. Comparisons of functions or types are not modelled. *)
Definition equal_items (a b : item) : res formula := match a, b with ITerm t, ITerm u => dispatch_pred parse fuel st PEq (PyTerm t) (PyTerm u) | _, _ => Err NotModelled end.
(** parser.py:407-440 [p_quantifier_scope], :544-551 [p_action_parameters], :388-391: the variables enter the scope; one that is there already is replaced. *)
Definition enter (d : scope) (vs : list var) : scope := fold_left (fun d v => dset String.eqb d (fst v) v) vs d.
(** [del self.var_dict\[entry\['var'\]\]] (parser.py:528-529, 663-664, 671-672, 1005-1006, 1248-1249) *)
Definition leave (d : scope) (vs : list var) : res scope :=
  foldM (fun d v => match sget d (fst v) with Some _ => Ok (ddel String.eqb d (fst v)) | None => Err KeyError end) vs d.
Definition terms_of (vs : list var) : list term := map (fun v => Var (fst v) (snd v)) vs.
(** formulas.py:142-150 *)
Definition make_quantified (q : quant) (vs : list var) (f : formula) : res formula := match vs with [] => Err LanguageError | _ => Ok (Quant q (terms_of vs) f) end.
(** A list of things read from left to right *)
Definition read_list {A B} (r : scope -> A -> res (B * scope)) : scope -> list A -> res (list B * scope) :=
  fix go d xs := match xs with [] => Ok ([], d) | x :: xs' => let! yd := r d x in let! rd := go (snd yd) xs' in Ok (fst yd :: fst rd, snd rd) end.
(** parser.py:634-677 [p_GD]; the scope is changed by the quantifiers. *)
Fixpoint read_gd (d : scope) (g : gd) : res (formula * scope) :=
  let quantified q vs g := let! xs := normalize i [] vs in let! fd := read_gd (enter d xs) g in let! h := make_quantified q xs (fst fd) in let! d' := leave (snd fd) xs in Ok (h, d') in
  match g with
  | GAtom p ts => let! t := read_atom d p ts in let! f := is_value t 1 in Ok (f, d)
  | GNotAtom p ts => let! t := read_atom d p ts in let! f := is_value t 0 in Ok (f, d)
  | GEq a b => let! x := read_term d a in let! y := read_term d b in let! f := equal_items x y in Ok (f, d)
  | GNotEq a b => let! x := read_term d a in let! y := read_term d b in let! f := equal_items x y in let! h := neg f in Ok (h, d)
  | GAnd gs => let! fd := read_list read_gd d gs in let! h := land (fst fd) false in Ok (h, snd fd)
  | GOr gs => let! fd := read_list read_gd d gs in let! h := lor (fst fd) false in Ok (h, snd fd)
  | GNot g => let! fd := read_gd d g in let! h := neg (fst fd) in Ok (h, snd fd)
  | GImply g1 g2 => let! fd := read_gd d g1 in let! fe := read_gd (snd fd) g2 in let! n := neg (fst fd) in let! h := lor [n; fst fe] false in Ok (h, snd fe)
  | GEx vs g => quantified QEx vs g
  | GAll vs g => quantified QAll vs g
  | GComp b x y => let! t := read_exp d x in let! u := read_exp d y in let! f := dispatch_pred parse fuel st b (PyTerm t) (PyTerm u) in Ok (f, d)
  end.
(** parser.py:914-971 [p_c_effect], [p_p_effect]. Scaling down multiplies, as scaling up does (lines 955-958). *)
Definition scaled (o : aop) (d : scope) (h : phead) (e : pfe) : res assignment := let! t := read_head d h in let! u := read_exp d e in let! v := operate o t u in Ok (ITerm t, PyTerm v).
Definition read_effect (d : scope) (e : peff) : res assignment :=
  match e with
  | EAtom p ts => let! t := read_atom d p ts in Ok (ITerm t, PyVal (CInt 1))
  | ENot p ts => let! t := read_atom d p ts in Ok (ITerm t, PyVal (CInt 0))
  | EEq a b => let! x := read_term d a in let! y := read_term d b in match y with ITerm u => Ok (x, PyTerm u) | IElem _ => Err NotModelled end
  | ENotEq a b => let! _ := read_term d a in let! _ := read_term d b in Err SemanticError
  | EAssign h e => let! t := read_head d h in let! u := read_exp d e in Ok (ITerm t, PyTerm u)
  | EAssignTerm f ts t => let! u := read_head d (HApp f ts) in let! y := read_term d t in match y with ITerm v => Ok (ITerm u, PyTerm v) | IElem _ => Err NotModelled end
  | EUndefined f ts => let! _ := read_head d (HApp f ts) in Err TarskiError      (* UnsupportedFeature *)
  | EScaleUp h e | EScaleDown h e => scaled OpMul d h e
  | EIncrease h e => scaled OpAdd d h e
  | EDecrease h e => scaled OpSub d h e
  | EForall _ | EWhen _ _ => Err TarskiError                                      (* UnsupportedFeature, or an error of the parts *)
  end.

(** instance.py:25-27 *)
Record paction := { pa_name : string; pa_parameters : list var; pa_pre : option formula; pa_post : option (list assignment) }.
(** parser.py:516-529 [p_action_def], :544-592; instance.py:318-346. A condition or an effect [()] is [None]. *)
Definition read_action (d : scope) (n : string) (params : list vtoken) (pre : option gd) (eff : option (list peff)) : res (paction * scope) :=
  let! xs := normalize i [] params in
  let d1 := enter d xs in
  let! fd := match pre with None => Ok (None, d1) | Some g => let! fd := read_gd d1 g in Ok (Some (fst fd), snd fd) end in
  let! es := match eff with None => Ok None | Some es => let! r := mapM (read_effect (snd fd)) es in Ok (Some r) end in
  let! d2 := leave (snd fd) xs in
  Ok ({| pa_name := n; pa_parameters := xs; pa_pre := fst fd; pa_post := es |}, d2).

(** ** Durative actions *)
(** parser.py:1042-1104 [p_da_GD], [p_timed_GD]. [TAnd]: the list of a conjunction. A condition about the end or start, or all of the action. *)
Inductive when : Set := AtStart | AtEnd | OverAll.
Inductive dgd : Set := DCond (w : when) (g : gd) | DAll.                          (* DAll: universally quantified conditions, preferences *)
(** parser.py:1144-1170, 1188-1202: an effect at the start or at the end, whose effect is a list with one element ([p_cond_effect]; a conjunction of effects raises IndexError, see [p_list_of_p_effect]) *)
Inductive deff : Set := DEff (at_end : bool) (e : peff) | DEffs (at_end : bool) (es : list peff) | DOther.  (* DOther: quantified, conditional, continuous effects, and [f_assign_da] *)
(** parser.py:1106-1141: a constraint [(= ?duration e)], or none *)
Inductive ddur : Set := DurIs (e : pfe) | DurNone | DurOther.
Record pdurative := { pd_name : string; pd_parameters : list var; pd_duration : option term; pd_start_pre : list formula; pd_end_pre : list formula; pd_overall : list formula; pd_start_post : list assignment; pd_end_post : list assignment }.
Definition read_dgd (d : scope) (c : dgd) : res ((when * formula) * scope) := match c with DCond w g => let! fd := read_gd d g in Ok ((w, fst fd), snd fd) | DAll => Err TarskiError end.
Definition read_deff (d : scope) (c : deff) : res (bool * assignment) :=
  match c with DEff w e => let! a := read_effect d e in Ok (w, a) | DEffs _ es => let! _ := mapM (read_effect d) es in Err IndexError | DOther => Err TarskiError end.
(** instance.py:273-289: [phi_ref not in at_start_formulas], by syntactic equality (symrefs.py:27-28) *)
Definition add_ref (fs : list formula) (f : formula) : list formula := if existsb (formula_eqb f) fs then fs else (fs ++ [f])%list.
Definition when_eqb (a b : when) : bool := match a, b with AtStart, AtStart | AtEnd, AtEnd | OverAll, OverAll => true | _, _ => false end.
Definition refs_at (w : when) (cs : list (when * formula)) : list formula := fold_left (fun fs c => if when_eqb (fst c) w then add_ref fs (snd c) else fs) cs [].
(** instance.py:296-311 and parser.py:995-1031. A condition or effect that is not a conjunction becomes a list (lines 1016-1018); [None], the empty condition or effect, cannot be iterated; conjunctions inside
    conjunctions become lists inside lists, on which [entry\['type'\]] raises TypeError: they are not in [dgd]. *)
Definition read_durative (d : scope) (n : string) (params : list vtoken) (dur : ddur) (pre : option (list dgd)) (eff : option (list deff)) : res (pdurative * scope) :=
  let! xs := normalize i [] params in
  let d1 := enter d xs in
  let! t := match dur with DurIs e => let! t := read_exp d1 e in Ok (Some t) | DurNone => Ok None | DurOther => Err TarskiError end in
  let! cd := match pre with None => Ok ([], d1) | Some cs => read_list read_dgd d1 cs end in
  let! es := match eff with None => Ok [] | Some es => mapM (read_deff (snd cd)) es end in
  match pre, eff with
  | Some _, Some _ =>
      let! d2 := leave (snd cd) xs in
      Ok ({| pd_name := n; pd_parameters := xs; pd_duration := t;
             pd_start_pre := refs_at AtStart (fst cd); pd_end_pre := refs_at AtEnd (fst cd); pd_overall := refs_at OverAll (fst cd);
             pd_start_post := map snd (filter (fun e => negb (fst e)) es); pd_end_post := map snd (filter fst es) |}, d2)
  | _, _ => Err TypeError
  end.

(** parser.py:1297-1375: initial facts. A negated atom has no value ([p_literal_of_name] sets none), so [p\[1\]\['lhs'\]] raises TypeError; in [IEqId] the name is that of an object. *)
Inductive pinit : Set := IAtom (p : string) (ts : list ptm) | INot (p : string) (ts : list ptm) | IEqNum (t : ptm) (c : cname) | IEqId (t : ptm) (n : string) | IEqTerm (t u : ptm) | INotEq (t u : ptm) | ITimed.
Definition read_init (d : scope) (e : pinit) : res assignment :=
  match e with
  | IAtom p ts => let! its := mapM (read_term d) ts in let! x := semantic (lget l (CStr p)) in let! t := call_function x its in Ok (ITerm t, PyVal (CInt 1))
  | INot p ts => let! its := mapM (read_term d) ts in let! x := semantic (lget l (CStr p)) in let! _ := call_function x its in Err TypeError
  | IEqNum t c => let! x := read_term d t in Ok (x, PyVal c)
  | IEqId t n => let! x := read_term d t in let! e := semantic (lget l (CStr n)) in match item_of e with ITerm u => Ok (x, PyTerm u) | IElem _ => Err NotModelled end
  | IEqTerm t u => let! x := read_term d t in let! y := read_term d u in match y with ITerm v => Ok (x, PyTerm v) | IElem _ => Err NotModelled end
  | INotEq t u => let! _ := read_term d t in let! _ := read_term d u in Err SemanticError
  | ITimed => Err TarskiError
  end.
End Read.
