(** Theories of a language and the operators they give to terms: src/tarski/theories.py, src/tarski/fol.py:394-413, src/tarski/syntax/terms.py:44-108, src/tarski/syntax/ops.py:12-37,
    src/tarski/syntax/factory.py *)
From Verif Require Import Base Syntax ModelState ModelText Lang.
#[local] Open Scope string_scope.

(** theories.py:15-22 *)
Inductive theory : Set := TBoolean | TEquality | TArithmetic | TSpecial | TRandom.
Definition theory_dec (a b : theory) : {a = b} + {a <> b}. Proof. decide equality. Defined.
Definition th_mem (t : theory) (l : list theory) : bool := if in_dec theory_dec t l then true else false.

(** A language with its theories. The built-in symbols are keys of the containers of predicates and functions that are different from every string (members of an Enum): they
    are kept apart here ([t_symbols]), and so is the dictionary of operators ([t_handlers]). Each is named by the value of the member. *)
Record tlang := { t_lang : lang; t_theories : list theory; t_handlers : list string; t_symbols : list string }.
Definition tlang0 : tlang := {| t_lang := lang0; t_theories := []; t_handlers := []; t_symbols := [] |}.

(** syntax/builtins.py:79-124 *)
Definition equality_predicates := ["="; "!="].
Definition arithmetic_predicates := ["<"; "<="; ">"; ">="].
Definition arithmetic_binary := ["+"; "-"; "*"; "/"; "**"; "%"].
Definition arithmetic_unary := ["sqrt"].
Definition special_binary := ["min"; "max"].
Definition special_unary := ["abs"; "sin"; "cos"; "tan"; "atan"; "asin"; "exp"; "log"; "erf"; "erfc"; "sgn"].
Definition random_binary := ["normal"; "gamma"].

Section Load.
Variable parse : bool -> string -> option Z.
Definition lift (st : tlang) (lr : lang * res unit) : tlang * res unit := ({| t_lang := fst lr; t_theories := t_theories st; t_handlers := t_handlers st; t_symbols := t_symbols st |}, snd lr).
Definition andthen (x : tlang * res unit) (k : tlang -> tlang * res unit) : tlang * res unit := match snd x with Ok _ => k (fst x) | Err e => (fst x, Err e) end.
(** A call of register_operator_handler (or its unary form) followed by lang.predicate or lang.function with arguments of sort [s] and, for functions, values of sort [s]: theories.py:78-82, 91-94, 96-99,
    101-104 and so on. The accessor of the sort (fol.py:104-117) is evaluated before the call. *)
Definition register (s : string) (st : tlang) (sym : string) : tlang * res unit :=
  let st1 := {| t_lang := t_lang st; t_theories := t_theories st; t_handlers := (t_handlers st ++ [sym])%list; t_symbols := t_symbols st |} in
  if has_sort (t_lang st) s then
    if str_mem sym (t_symbols st) then (st1, Err DuplicateDefinition)
    else ({| t_lang := t_lang st; t_theories := t_theories st; t_handlers := t_handlers st1; t_symbols := (t_symbols st ++ [sym])%list |}, Ok tt)
  else (st1, Err UndefinedElement).
Fixpoint register_all (s : string) (st : tlang) (syms : list string) : tlang * res unit :=
  match syms with [] => (st, Ok tt) | x :: r => andthen (register s st x) (fun st' => register_all s st' r) end.
(** theories.py:70-71, sorts.py:206-214 [build_the_bools] *)
Definition load_bool (st : tlang) : tlang * res unit :=
  andthen (lift st (lstep parse (t_lang st) (OSort "Boolean" None))) (fun st1 =>
  andthen (lift st1 (lstep parse (t_lang st1) (OConst (CStr "True") "Boolean"))) (fun st2 =>
  lift st2 (lstep parse (t_lang st2) (OConst (CStr "False") "Boolean")))).
(** theories.py:74-82 *)
Definition load_equality (st : tlang) : tlang * res unit := if has_sort (t_lang st) "object" then register_all "object" st equality_predicates else (st, Err UndefinedElement).
(** theories.py:85-110 *)
Definition load_arithmetic (st : tlang) : tlang * res unit :=
  andthen (lift st (lstep parse (t_lang st) (OFun "ite" ["object"; "object"; "object"]))) (fun st1 =>
  register_all "Real" st1 ("@" :: arithmetic_predicates ++ arithmetic_binary ++ arithmetic_unary)%list).
(** theories.py:113-132 *)
Definition load_special (st : tlang) : tlang * res unit := register_all "Real" st (special_binary ++ special_unary)%list.
Definition load_random (st : tlang) : tlang * res unit := register_all "Real" st random_binary.
Definition requires_arithmetic_sorts (t : theory) : bool := match t with TArithmetic | TSpecial | TRandom => true | _ => false end.
(** theories.py:43-64 [load_theory]. Names that are no theory are not modelled. *)
Definition load_theory (st : tlang) (t : theory) : tlang * res unit :=
  if th_mem t (t_theories st) then (st, Err DuplicateDefinition)
  else
    andthen (if requires_arithmetic_sorts t && negb (has_sort (t_lang st) "Integer") then lift st (lstep parse (t_lang st) OArith) else (st, Ok tt)) (fun st1 =>
    andthen (match t with TBoolean => load_bool | TEquality => load_equality | TArithmetic => load_arithmetic | TSpecial => load_special | TRandom => load_random end st1) (fun st2 =>
    ({| t_lang := t_lang st2; t_theories := (t_theories st2 ++ [t])%list; t_handlers := t_handlers st2; t_symbols := t_symbols st2 |}, Ok tt))).
(** Histories: declarations and loading of theories, in any order; a call that raises leaves what it has done so far. *)
Inductive top := TOp (o : lop) | TLoad (t : theory).
Definition tstep (st : tlang) (o : top) : tlang * res unit := match o with TOp o => lift st (lstep parse (t_lang st) o) | TLoad t => load_theory st t end.
Definition trun (ops : list top) : tlang := fold_left (fun st o => fst (tstep st o)) ops tlang0.
(** theories.py:29-40 [language]: the first exception ends the construction. *)
Fixpoint load_all (st : tlang) (ts : list theory) : tlang * res unit := match ts with [] => (st, Ok tt) | t :: r => andthen (load_theory st t) (fun st' => load_all st' r) end.
Definition language (ts : list theory) : res tlang := let (st, r) := load_all tlang0 ts in let! _ := r in Ok st.
End Load.

(** * Operators *)
(** The binary operators of Python that terms define (terms.py:44-108). [OpNone]: those no theory provides, that is [//], divmod, [<<], [>>], [&], [^] and [|]. *)
Inductive aop : Set := OpAdd | OpSub | OpMul | OpDiv | OpPow | OpMod | OpMatmul | OpNone.
Definition op_fun (o : aop) : option bfun :=
  match o with OpAdd => Some BAdd | OpSub => Some BSub | OpMul => Some BMul | OpDiv => Some BDiv | OpPow => Some (BOther "**") | OpMod => Some (BOther "%") | OpMatmul => Some (BOther "@") | OpNone => None end.
(** The operators with a reflected method, used when the left operand is a Python number or string: terms.py:81-91 *)
Definition has_reflected (o : aop) : bool := match o with OpAdd | OpSub | OpMul | OpDiv => true | _ => false end.

(** Python expressions over literals (integers and strings) and terms. *)
Inductive pexp : Set := PLit (c : cname) | PLeaf (t : term) | PBin (o : aop) (a b : pexp).
(** Values: Python objects that are no terms, or terms. *)
Inductive pval : Set := PyVal (c : cname) | PyTerm (t : term).

Section Operators.
Variable parse : bool -> string -> option Z.
Variable fuel : nat.
Variable st : tlang.
Notation l := (t_lang st).
(** [t.sort]: terms.py:155, 187-189, 262-275, 327-329; the codomain of the built-in functions is Real *)
Fixpoint sort_of (t : term) : sort :=
  match t with
  | Var _ s | Cst _ s => s
  | App (FU _ _ c) _ => c
  | App (FB _) _ => "Real"
  | Ite _ a b => if match sget (l_parent l) (sort_of a) with Some (Some p) => String.eqb p (sort_of b) | _ => false end then sort_of b else sort_of a
  end.
(** [Constant(s.cast(c), s)]: sorts.py:46-56, 108-119; terms.py:308-318. The constant is already in the domain of the sort and of its ancestors, so extending the domains changes
    nothing. Simplification: an integer beyond 2^53 may be rounded when it becomes a float; this is outside the model. *)
Definition literal (c : cname) (s : sort) : res term :=
  match sget (l_sorts l) s with
  | None => Err NotModelled                     (* a term always has a sort *)
  | Some r =>
      match s_kind r with
      | KPlain => if cn_mem c (s_dom r) then Ok (Cst c s) else Err ValueError
      | KInterval real lb ub =>
          let! y := cast parse real lb ub c in
          match y with CInt z => if real && Z.ltb (2 ^ 53) (Z.abs z) then Err NotModelled else Ok (Cst y s) | CStr _ => Err NotModelled end
      end
  end.
(** ops.py:12-37 [cast_to_closest_common_numeric_ancestor] when one of the operands is a term; arrays are not modelled *)
Definition cast_operands (x y : pval) : res (term * term) :=
  match x, y with
  | PyTerm t, PyTerm u => Ok (t, u)
  | PyTerm t, PyVal c => let! u := literal c (sort_of t) in Ok (t, u)
  | PyVal c, PyTerm u => let! t := literal c (sort_of u) in Ok (t, u)
  | PyVal _, PyVal _ => Err NotModelled
  end.
(** terms.py:175-177, formulas.py:332-333. The answer of is_subtype does not depend on its memory (C17). *)
Definition check_sort (t : term) (s : sort) : res unit := let! b := snd (is_subtype fuel l (sort_of t) s) in if b then Ok tt else Err SortMismatch.
(** fol.py:407-413 [dispatch_operator], theories.py:135-142 [create_casting_handler], factory.py:29-38 [create_arithmetic_term]. All terms are of the language (factory.py:7-11). *)
Definition dispatch_fun (o : aop) (x y : pval) : res term :=
  match op_fun o with
  | None => Err LanguageError
  | Some b =>
      if str_mem (bfun_name b) (t_handlers st) then
        let! tu := cast_operands x y in
        if str_mem (bfun_name b) (t_symbols st) then
          let! _ := check_sort (fst tu) "Real" in let! _ := check_sort (snd tu) "Real" in Ok (App (FB b) [fst tu; snd tu])
        else Err UndefinedElement
      else Err LanguageError
  end.
(** The sort of the arguments of a built-in predicate: theories.py:76-82, 96-99 *)
Definition pred_sort (b : bpred) : sort := match b with PEq | PNe => "object" | _ => "Real" end.
(** factory.py:14-26 [create_atom] *)
Definition dispatch_pred (b : bpred) (x y : pval) : res formula :=
  if str_mem (bpred_name b) (t_handlers st) then
    let! tu := cast_operands x y in
    if str_mem (bpred_name b) (t_symbols st) then
      let! _ := check_sort (fst tu) (pred_sort b) in let! _ := check_sort (snd tu) (pred_sort b) in Ok (Atom (PB b) [fst tu; snd tu])
    else Err UndefinedElement
  else Err LanguageError.
(** Python's own operators on two literals; only + - * on integers are modelled *)
Definition py_arith (o : aop) (x y : cname) : res cname :=
  match o, x, y with
  | OpAdd, CInt a, CInt b => Ok (CInt (a + b)) | OpSub, CInt a, CInt b => Ok (CInt (a - b)) | OpMul, CInt a, CInt b => Ok (CInt (a * b))
  | _, _, _ => Err NotModelled
  end.
(** Evaluation of [a o b] by Python: the method of the left operand if it is a term, else the reflected method of the right one. A string on the left of [%] is a format: not modelled. *)
Definition py_binary (o : aop) (x y : pval) : res pval :=
  match x, y with
  | PyVal c, PyVal d => let! r := py_arith o c d in Ok (PyVal r)
  | PyTerm _, _ => let! t := dispatch_fun o x y in Ok (PyTerm t)
  | PyVal c, PyTerm _ =>
      if has_reflected o then let! t := dispatch_fun o x y in Ok (PyTerm t)
      else match c, o with CStr _, OpMod => Err NotModelled | _, _ => Err TypeError end
  end.
Fixpoint py_eval (e : pexp) : res pval :=
  match e with
  | PLit c => Ok (PyVal c)
  | PLeaf t => Ok (PyTerm t)
  | PBin o a b => let! x := py_eval a in let! y := py_eval b in py_binary o x y
  end.
(** Comparisons: between two literals, a Python Boolean; with a literal on the left, the mirrored operator of the term on the right. *)
Definition mirror (b : bpred) : bpred := match b with PEq => PEq | PNe => PNe | PLt => PGt | PLe => PGe | PGt => PLt | PGe => PLe end.
Inductive truth : Set := PyBool (b : bool) | PyForm (f : formula).
Definition py_lit_compare (b : bpred) (x y : cname) : res bool :=
  match b with
  | PEq => Ok (cname_eqb x y)
  | PNe => Ok (negb (cname_eqb x y))
  | _ => match x, y with
         | CInt a, CInt c => Ok (match b with PLt => Z.ltb a c | PLe => Z.leb a c | PGt => Z.ltb c a | _ => Z.leb c a end)
         | CStr a, CStr c => Ok (match b with PLt => String.ltb a c | PLe => String.leb a c | PGt => String.ltb c a | _ => String.leb c a end)
         | _, _ => Err TypeError
         end
  end.
Definition py_compare (b : bpred) (a c : pexp) : res truth :=
  let! x := py_eval a in let! y := py_eval c in
  match x, y with
  | PyVal u, PyVal v => let! r := py_lit_compare b u v in Ok (PyBool r)
  | PyTerm _, _ => let! f := dispatch_pred b x y in Ok (PyForm f)
  | PyVal _, PyTerm _ => let! f := dispatch_pred (mirror b) y x in Ok (PyForm f)
  end.
End Operators.
