(** Reading expressions of RDDL: src/tarski/io/rddl.py:51-207 ([translate_expression]) *)
From Coq Require Import Ascii.
From Verif Require Import Base Syntax Build QElim Arith ModelState Lang Theories.
#[local] Open Scope string_scope.

(** The syntax trees of the parser pyrddl, as [translate_expression] sees them through their [etype] and [args]. A float is given by the text that Python prints for it,
    or by an integer if it has that value. Trees whose type is "number" are not made by the parser and not modelled. [NOther]: any other type, such as "switch". *)
Inductive rlit : Set := LInt (z : Z) | LFloat (c : cname) | LBool (b : bool).
Inductive rarg : Set := GName (w : string) | GNum (c : cname).
Inductive rast : Set :=
| NLit (v : rlit)
| NPvar (n : string) (args : option (list rarg))
| NTyped (x ty : string)
| NIf (es : list rast)
| NRel (op : string) (es : list rast)
| NAgg (op : string) (es : list rast)
| NArith (op : string) (es : list rast)
| NFunc (op : string) (es : list rast)             (* "func" and "randomvar" *)
| NBool (op : string) (es : list rast)
| NOther (etype : string).

(** [symbol.replace("'", "")] and ["'" in symbol] *)
Fixpoint unquote (x : string) : string := match x with "" => "" | String c r => if Ascii.eqb c "'" then unquote r else String c (unquote r) end.
Fixpoint has_quote (x : string) : bool := match x with "" => false | String c r => Ascii.eqb c "'" || has_quote r end.
(** rddl.py:53 *)
Definition relational (op : string) : option bpred := if String.eqb op "==" then Some PEq else if String.eqb op "<=" then Some PLe else if String.eqb op ">=" then Some PGe else None.
(** rddl.py:55-60 *)
Definition arithmetical_op (op : string) : option aop :=
  if String.eqb op "-" then Some OpSub else if String.eqb op "+" then Some OpAdd else if String.eqb op "*" then Some OpMul else if String.eqb op "/" then Some OpDiv else None.
(** rddl.py:62-70, with the number of arguments of the functions (theories.py:102-104, 113-132) *)
Definition functional (op : string) : option (bfun * nat) :=
  if String.eqb op "abs" then Some (BOther "abs", 1) else if String.eqb op "Normal" then Some (BOther "normal", 2) else if String.eqb op "sqrt" then Some (BOther "sqrt", 1)
  else if String.eqb op "pow" then Some (BOther "**", 2) else if String.eqb op "exp" then Some (BOther "exp", 1) else if String.eqb op "max" then Some (BOther "max", 2)
  else if String.eqb op "Gamma" then Some (BOther "gamma", 2) else None.

Section Read.
Variable parse : bool -> string -> option Z.
Variable fuel : nat.
Variable st : tlang.
Variable D : domains.       (* the elements of the sorts that are not built in *)
Notation l := (t_lang st).

(** [Constant(v, lang.Real)] (rddl.py:187, 200, 203) for an integer or a float; floats that are no integers are supposed to be within the bounds of Real *)
Definition real_constant (c : cname) : res term := match c with CInt _ => literal parse st c "Real" | CStr w => Ok (Cst (CStr w) "Real") end.
(** [Constant(0, s)] (rddl.py:180, 182). For a sort that is not an interval the call adds 0 to its domain: not modelled. *)
Definition zero_of (s : sort) : res term :=
  match sget (l_sorts l) s with Some r => match s_kind r with KPlain => Err NotModelled | _ => literal parse st (CInt 0) s end | None => Err NotModelled end.
Definition parent_sort (s : sort) : option sort := match sget (l_parent l) s with Some (Some p) => Some p | _ => None end.
Definition numeric_sort (s : sort) : bool := match snd (is_subtype fuel l s "Real") with Ok b => b | Err _ => false end.
(** terms.py:257-277, 304-305 [ite]. The condition is not checked: a term is accepted as a condition, which is not modelled. *)
Definition make_ite (c a b : arg) : res arg :=
  match a, b with
  | ATerm t, ATerm u =>
      let! _ := lget l (CStr "ite") in
      if String.eqb (sort_of st t) (sort_of st u) || match parent_sort (sort_of st t) with Some p => String.eqb p (sort_of st u) | None => false end
         || match parent_sort (sort_of st u) with Some p => String.eqb p (sort_of st t) | None => false end
      then match c with AForm f => Ok (ATerm (Ite f t u)) | ATerm _ => Err NotModelled end
      else Err LanguageError                       (* SyntacticError *)
  | _, _ => Err AttributeError
  end.
(** rddl.py:92-108 and 123-138: an argument is a variable, whose sort is the one of the position; a number, on which [arg[0]] raises; or the name of an element *)
Inductive item : Set := ITerm (t : term) | IElem (e : elem).
Definition of_elem (e : elem) : item := match e with EConst c s => ITerm (Cst c s) | _ => IElem e end.
Definition argument_sorts (e : elem) : option (list sort) := match e with EPred _ ss => Some ss | EFun _ ss => Some (removelast ss) | _ => None end.
Definition read_argument (e : elem) (k : nat) (a : rarg) : res item :=
  match a with
  | GNum _ => Err TypeError
  | GName "" => Err IndexError
  | GName (String c w) =>
      if Ascii.eqb c "?" then
        match argument_sorts e with
        | Some ss => match nth_error ss k with Some s => Ok (ITerm (Var (String c w) s)) | None => Err IndexError end
        | None => Err AssertionError
        end
      else let! x := lget l (CStr (String c w)) in Ok (of_elem x)
  end.
Fixpoint read_arguments (e : elem) (k : nat) (l : list rarg) : res (list item) :=
  match l with [] => Ok [] | a :: r => let! x := read_argument e k a in let! xs := read_arguments e (S k) r in Ok (x :: xs) end.
(** formulas.py:312-333, terms.py:170-185; calls of constants and sorts raise TypeError. An element of the language that is no term, as an argument of a function: not modelled. *)
Fixpoint check_arguments (bad : exn) (its : list item) (ss : list sort) : res (list term) :=
  match its, ss with
  | ITerm t :: r, s :: ss' => let! _ := check_sort fuel st t s in let! ts := check_arguments bad r ss' in Ok (t :: ts)
  | IElem _ :: _, _ :: _ => Err bad
  | _, _ => Ok []
  end.
Definition call_element (e : elem) (its : list item) : res arg :=
  match e with
  | EPred p ss => if Nat.eqb (List.length its) (List.length ss) then let! ts := check_arguments LanguageError its ss in Ok (AForm (Atom (PU p ss) ts)) else Err ArityMismatch
  | EFun f ss => if Nat.eqb (List.length its) (List.length (removelast ss)) then let! ts := check_arguments NotModelled its (removelast ss) in Ok (ATerm (App (FU f (removelast ss) (last ss "")) ts)) else Err ArityMismatch
  | _ => Err TypeError
  end.
(** [tt.X(atom)] (temporal/ltl.py:45-46), represented as an atom of a symbol of its own, whose name is that of the fluent with a prime *)
Definition next_state (x : arg) : arg := match x with AForm (Atom (PU p ss) ts) => AForm (Atom (PU (p ++ "'") ss) ts) | _ => x end.
(** rddl.py:111-144 *)
Definition read_pvar (n : string) (args : option (list rarg)) : res arg :=
  let! e := lget l (CStr (unquote n)) in
  let! its := match args with None => Ok [] | Some gs => read_arguments e 0 gs end in
  if has_quote n then match e with EPred _ _ => let! x := call_element e its in Ok (next_state x) | _ => Err LanguageError end
  else call_element e its.
(** [lang.dispatch_operator] on the translations of the operands (fol.py:406-413, ops.py:12-37): a formula is converted to a number, which raises TypeError when the sort of the other operand is an
    interval; otherwise not modelled *)
Definition is_interval_sort (s : sort) : bool := match sget (l_sorts l) s with Some r => match s_kind r with KPlain => false | _ => true end | None => false end.
Definition operate_terms (o : aop) (x y : arg) : res arg :=
  match x, y with
  | ATerm t, ATerm u => let! r := dispatch_fun parse fuel st o (PyTerm t) (PyTerm u) in Ok (ATerm r)
  | ATerm t, AForm _ | AForm _, ATerm t => if is_interval_sort (sort_of st t) then Err TypeError else Err NotModelled
  | AForm _, AForm _ => Err TypeError
  end.
(** rddl.py:173-189 *)
Definition read_arith (o : aop) (xs : list arg) : res arg :=
  match o, xs with
  | OpMul, [AForm f; ATerm u] => let! z := zero_of (sort_of st u) in make_ite (AForm f) (ATerm u) (ATerm z)
  | OpMul, [AForm _; AForm _] => Err AttributeError
  | OpMul, [ATerm t; AForm f] => let! z := zero_of (sort_of st t) in make_ite (AForm f) (ATerm t) (ATerm z)
  | OpMul, [] | OpMul, [_] => Err IndexError
  | OpSub, [x] => let! m := real_constant (CInt (-1)) in operate_terms OpMul (ATerm m) x
  | _, [x; y] => operate_terms o x y
  | _, _ => Err TypeError
  end.
(** rddl.py:152-155, builtins.py:60-64 *)
Definition read_rel (b : bpred) (xs : list arg) : res arg :=
  match xs with
  | ATerm t :: ATerm u :: _ =>
      if str_mem (bpred_name b) (t_symbols st) then
        let! _ := check_sort fuel st t (pred_sort b) in let! _ := check_sort fuel st u (pred_sort b) in Ok (AForm (Atom (PB b) [t; u]))
      else Err UndefinedElement
  | ATerm t :: AForm _ :: _ => if str_mem (bpred_name b) (t_symbols st) then let! _ := check_sort fuel st t (pred_sort b) in Err LanguageError else Err UndefinedElement
  | AForm _ :: _ :: _ => if str_mem (bpred_name b) (t_symbols st) then Err LanguageError else Err UndefinedElement
  | _ => Err IndexError
  end.
(** rddl.py:190-193, terms.py:167-185 *)
Fixpoint numeric_arguments (xs : list arg) : res (list term) :=
  match xs with
  | [] => Ok []
  | ATerm t :: r => let! _ := check_sort fuel st t "Real" in let! ts := numeric_arguments r in Ok (t :: ts)
  | AForm _ :: _ => Err TypeError
  end.
Definition read_func (b : bfun) (n : nat) (xs : list arg) : res arg :=
  if str_mem (bfun_name b) (t_symbols st) then
    if Nat.eqb (List.length xs) n then let! ts := numeric_arguments xs in Ok (ATerm (App (FB b) ts)) else Err ArityMismatch
  else Err UndefinedElement.
(** rddl.py:51, 194-197: the connectives of formulas.py:190-214 raise LanguageError on terms, except that the conjunction or disjunction of one thing is that thing *)
Fixpoint formulas (xs : list arg) : res (list formula) := match xs with [] => Ok [] | AForm f :: r => let! fs := formulas r in Ok (f :: fs) | ATerm _ :: _ => Err LanguageError end.
Definition read_bool (op : string) (xs : list arg) : res arg :=
  match xs with
  | [x] => if String.eqb op "^" || String.eqb op "|" then Ok x
           else if String.eqb op "~" then let! fs := formulas xs in match fs with [f] => let! g := neg f in Ok (AForm g) | _ => Err TypeError end
           else Err TypeError
  | _ =>
      if String.eqb op "^" then let! fs := formulas xs in let! g := land fs false in Ok (AForm g)
      else if String.eqb op "|" then let! fs := formulas xs in let! g := lor fs false in Ok (AForm g)
      else if String.eqb op "=>" then match xs with [_; _] => let! fs := formulas xs in match fs with [f; g] => let! h := implies f g in Ok (AForm h) | _ => Err TypeError end | _ => Err TypeError end
      else Err TypeError
  end.
Definition logical (op : string) : bool := String.eqb op "=>" || String.eqb op "^" || String.eqb op "|" || String.eqb op "~".
(** rddl.py:157-168, arithmetic/__init__.py:57-122 *)
Definition read_total (o : bfun) (v x : arg) : res arg :=
  let! t := match x with
            | ATerm t => Ok t
            | AForm f => let! one := literal parse st (CInt 1) "Integer" in let! zero := literal parse st (CInt 0) "Integer" in
                         let! i := make_ite (AForm f) (ATerm one) (ATerm zero) in match i with ATerm t => Ok t | AForm _ => Err NotModelled end
            end in
  match v with
  | ATerm (Var y s) => let! r := aggregate parent_sort numeric_sort o D [(y, s)] t in Ok (ATerm r)
  | _ => Err LanguageError                         (* SyntacticError *)
  end.

(** rddl.py:73-207 [translate_expression] *)
Fixpoint translate (e : rast) : res arg :=
  match e with
  | NLit (LInt z) => let! t := real_constant (CInt z) in Ok (ATerm t)
  | NLit (LFloat c) => let! t := real_constant c in Ok (ATerm t)
  | NLit (LBool _) => Err RuntimeError
  | NPvar n args => read_pvar n args
  | NTyped x ty => let! s := lget l (CStr ty) in match s with ESort s => Ok (ATerm (Var x s)) | _ => Err NotModelled end
  | NIf es => let! xs := mapM translate es in match xs with [c; a; b] => make_ite c a b | _ => Err TypeError end
  | NRel op es => match relational op with Some b => let! xs := mapM translate es in read_rel b xs | None => Err KeyError end
  | NAgg op es =>
      match (if String.eqb op "sum" then Some (Some BAdd) else if String.eqb op "prod" then Some (Some BMul) else if String.eqb op "forall" then Some None else None) with
      | None => Err RuntimeError
      | Some k =>
          match es with
          | v :: b :: _ => let! y := translate v in let! x := translate b in
                           match k with Some o => read_total o y x | None => let! f := forall_ [y; x] in Ok (AForm f) end
          | _ => Err IndexError
          end
      end
  | NArith op es => match arithmetical_op op with Some o => let! xs := mapM translate es in read_arith o xs | None => Err KeyError end
  | NFunc op es => match functional op with Some (b, n) => let! xs := mapM translate es in read_func b n xs | None => Err KeyError end
  | NBool op es => if logical op then let! xs := mapM translate es in read_bool op xs else Err KeyError
  | NOther _ => Err RuntimeError
  end.
End Read.
