(** Writing expressions in RDDL: src/tarski/io/rddl.py (class Writer) *)
From Coq Require Import Ascii.
From Verif Require Import Base Syntax ModelText PddlText.
#[local] Open Scope string_scope.

(** The values that [Writer.rewrite] takes: terms (terms.py), among them the aggregates of syntax/arithmetic/__init__.py:14-57 ([sumterm], [prodterm]:
    terms.py:211-246 AggregateCompoundTerm; [mul] tells a product from a sum), and formulas (formulas.py). The bound variables of quantifiers and aggregates are
    Variable objects: a name and a sort. A float constant is a [CStr] with the text that Python prints for it. *)
Inductive xexpr : Set :=
| XVar (x : string) (s : sort)
| XCst (c : cname) (s : sort)
| XApp (f : fsym) (ts : list xexpr)
| XIte (c a b : xexpr)
| XTop
| XBot
| XAtom (p : psym) (ts : list xexpr)
| XComp (c : connective) (fs : list xexpr)
| XQuant (q : quant) (vs : list var) (f : xexpr)
| XAgg (mul : bool) (vs : list var) (t : xexpr).

(** rddl.py:371-389 [symbol_map] *)
Definition infix_fun (b : bfun) : option string :=
  match b with
  | BAdd => Some "+" | BSub => Some "-" | BMul => Some "*" | BDiv => Some "/"
  | BOther n => if String.eqb n "**" then Some "**" else if String.eqb n "%" then Some "%" else None
  end.
Definition infix_pred (b : bpred) : string := match b with PEq => "==" | PNe => "~=" | PLt => "<" | PLe => "<=" | PGt => ">" | PGe => ">=" end.
Definition connective_symbol (c : connective) : string := match c with And => "^" | Or => "|" | Not => "~" end.
Definition quant_symbol (q : quant) : string := match q with QEx => "exists" | QAll => "forall" end.
(** rddl.py:391-413 [function_map] *)
Definition function_table : list (string * string) :=
  [("min", "min"); ("max", "max"); ("abs", "abs"); ("sin", "sin"); ("cos", "cos"); ("tan", "tan"); ("atan", "atan"); ("asin", "asin"); ("exp", "exp"); ("log", "log");
   ("erf", "erf"); ("erfc", "erfc"); ("sgn", "sgn"); ("sqrt", "sqrt"); ("normal", "Normal"); ("gamma", "Gamma"); ("kron", "KronDelta"); ("dirac", "DiracDelta");
   ("bernoulli", "Bernoulli"); ("discrete", "Discrete"); ("poisson", "Poisson")].
Fixpoint assoc (n : string) (l : list (string * string)) : option string :=
  match l with [] => None | (k, v) :: l' => if String.eqb k n then Some v else assoc n l' end.
Definition function_name (b : bfun) : option string := match b with BOther n => assoc n function_table | _ => None end.
(** builtins.py:113-115 [get_random_binary_functions] *)
Definition random_binary (b : bfun) : bool := match b with BOther n => String.eqb n "normal" || String.eqb n "gamma" | _ => false end.

(** [symbol.replace("?", "")] *)
Fixpoint strip (x : string) : string :=
  match x with EmptyString => EmptyString | String c r => if Ascii.eqb c "?" then strip r else String c (strip r) end.
(** rddl.py:647, 652: the variables of quantifiers and aggregates *)
Definition binder (v : var) : string := "?" ++ fst v ++ " : " ++ snd v.
Definition binders (vs : list var) : string := join "," (map binder vs).
(** the texts of the arguments between parentheses, or nothing (rddl.py:605-618, 623-626) *)
Definition arguments (l r : string) (ts : list string) : string := match ts with [] => "" | _ => l ++ join "," ts ++ r end.
(** [f"({re_st[0]} {symbol} {re_st[1]})"] *)
Definition infix_text (op : string) (ts : list string) : res string := match ts with a :: b :: _ => Ok ("(" ++ a ++ " " ++ op ++ " " ++ b ++ ")") | _ => Err IndexError end.

(** rddl.py:597-658 [rewrite]. [signature[0]] of a user symbol is its name; of a built-in symbol, the value of the enumeration. A negation is written with the
    [repr] of a one-element Python list (:643); simplification: the text between its quotes contains no quotes or backslashes. *)
Fixpoint rewrite (e : xexpr) : res string :=
  match e with
  | XVar x _ => Ok ("?" ++ strip x)
  | XCst c _ => Ok (name_text c)
  | XApp f ts =>
      let! st := mapM rewrite ts in
      match f with
      | FB b => match infix_fun b with
                | Some op => infix_text op st
                | None => match function_name b with
                          | Some n => Ok (n ++ (if random_binary b then arguments "(" ")" st else arguments "[" "]" st))
                          | None => Ok (bfun_text b ++ arguments "(" ")" st)
                          end
                end
      | FU n _ _ => Ok (n ++ arguments "(" ")" st)
      end
  | XAtom p ts =>
      let! st := mapM rewrite ts in
      match p with PB b => infix_text (infix_pred b) st | PU n _ => Ok (n ++ arguments "(" ")" st) end
  | XIte c a b =>
      let! tc := rewrite c in let! ta := rewrite a in let! tb := rewrite b in
      Ok ("if (" ++ tc ++ ") then (" ++ ta ++ ") else (" ++ tb ++ ")")
  | XTop => Ok "true"
  | XBot => Ok "false"
  | XComp c fs =>
      let! sf := mapM rewrite fs in
      match sf with
      | [s] => Ok (connective_symbol c ++ "['" ++ s ++ "']")
      | _ => infix_text (connective_symbol c) sf
      end
  | XQuant q vs f => let! s := rewrite f in Ok (quant_symbol q ++ "_{" ++ binders vs ++ "} (" ++ s ++ ")")
  | XAgg mul vs t => let! s := rewrite t in Ok ((if mul then "prod" else "sum") ++ "_{" ++ binders vs ++ "} (" ++ s ++ ")")
  end.

Definition tab : string := String (ascii_of_nat 9) EmptyString.
(** rddl.py:660-680 [get_fluent], for a fluent given by its name and arguments *)
Definition fluent_argument (t : xexpr) : res string := match t with XVar x _ => Ok ("?" ++ strip x) | XCst c _ => Ok (name_text c) | _ => Err NotModelled end.
Definition get_fluent (f : string * list xexpr) (next_state : bool) : res string :=
  let! st := mapM fluent_argument (snd f) in Ok (fst f ++ (if next_state then "'" else "") ++ arguments "(" ")" st).
(** rddl.py:520-524 [get_cpfs] *)
Definition cpf_line (d : (string * list xexpr) * xexpr) : res string :=
  let! l := get_fluent (fst d) true in let! r := rewrite (snd d) in Ok (tab ++ l ++ " = " ++ r ++ ";").
Definition get_cpfs (cpfs : list ((string * list xexpr) * xexpr)) : res string := let! ls := mapM cpf_line cpfs in Ok (join newline ls).
(** rddl.py:526-527, 598-599 [get_reward]: [None] is written as 0.0 *)
Definition get_reward (r : option xexpr) : res string := match r with None => Ok "0.0" | Some e => rewrite e end.
(** rddl.py:362-368; :529-541 [get_preconditions], [get_state_invariants] *)
Inductive ctype : Set := ACTION | STATE | INVARIANT.
Definition ctype_eqb (a b : ctype) : bool := match a, b with ACTION, ACTION | STATE, STATE | INVARIANT, INVARIANT => true | _, _ => false end.
Definition constraint_line (e : xexpr) : res string := let! s := rewrite e in Ok (tab ++ s ++ ";").
Definition constraints_of (k : ctype) (cs : list (xexpr * ctype)) : res string :=
  let! ls := mapM constraint_line (map fst (filter (fun c => ctype_eqb (snd c) k) cs)) in Ok (join newline ls).
Definition get_preconditions := constraints_of ACTION.
Definition get_state_invariants := constraints_of STATE.
