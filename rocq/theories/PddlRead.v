(** Reading expressions in the PDDL/FSTRIPS syntax: the grammar utils/parsers/grammars/fstrips.g4 and the visitor
    src/tarski/io/_fstrips/reader.py *)
From Coq Require Import Ascii DecimalString.
From Verif Require Import Base Syntax Build Index Asp Effects.
Local Open Scope string_scope.

(** ** Lexer. White space and brackets separate words, and each word has to be one token of the grammar. Simplifications: a word that ANTLR would
    split into several tokens ("a?b", "int[0..9]"), a comment, and a number with a fractional part are errors here; the token "(total-time)" is
    not distinguished. Where several rules match the same word, the first one in the grammar wins: the literals of parser rules come first, then
    the keywords (in any letter case), then NAME. *)
Definition is_space (c : ascii) : bool := let n := nat_of_ascii c in Nat.eqb n 32 || Nat.eqb n 9 || Nat.eqb n 10 || Nat.eqb n 13.
Definition is_paren (c : ascii) : bool := Ascii.eqb c "(" || Ascii.eqb c ")".
Definition flush (w : string) : list string := match w with EmptyString => [] | _ => [w] end.
Fixpoint words (s cur : string) : list string :=
  match s with
  | EmptyString => flush cur
  | String c r => if is_space c then (flush cur ++ words r "")%list
                  else if is_paren c then (flush cur ++ String c "" :: words r "")%list
                  else words r (cur ++ String c "")
  end.
(** fstrips.g4:493-508 (K_AND ... K_DECREASE): case-insensitive *)
Definition keywords : list string :=
  ["and"; "not"; "or"; "imply"; "exists"; "forall"; "when"; ":init"; ":precondition"; ":effect"; "define"; ":action"; "increase"; "decrease"].
(** fstrips.g4:467-487 REQUIRE_KEY; ":constraints" is a literal of a parser rule as well, which comes first *)
Definition require_keys : list string :=
  [":strips"; ":typing"; ":negative-preconditions"; ":disjunctive-preconditions"; ":equality"; ":existential-preconditions"; ":universal-preconditions"; ":quantified-preconditions";
   ":conditional-effects"; ":object-fluents"; ":numeric-fluents"; ":fluents"; ":adl"; ":durative-actions"; ":derived-predicates"; ":timed-initial-literals"; ":preferences"; ":action-costs"].
(** the quoted literals of the parser rules, K_SCALEUP, K_SCALEDOWN and the type tokens (fstrips.g4:509-515), and the REQUIRE_KEYs *)
Definition literals : list string := (require_keys ++
  ["domain"; ":requirements"; ":types"; "-"; "either"; ":functions"; ":constants"; ":predicates"; ":parameters"; ":constraint"; ":condition"; ":event"; "#t"; ":derived";
   "assign"; "*"; "+"; "/"; "^"; "max"; "min"; "sin"; "cos"; "sqrt"; "tan"; "acos"; "asin"; "atan"; "exp"; "abs"; ">"; "<"; "="; ">="; "<="; "problem"; ":domain"; ":objects";
   ":bounds"; "["; ".."; "]"; ":goal"; ":constraints"; "preference"; ":metric"; "minimize"; "maximize"; "is-violated"; ":terminal"; ":stage"; "at-end"; "always"; "sometime"; "within";
   "at-most-once"; "sometime-after"; "sometime-before"; "always-within"; "hold-during"; "hold-after"; "scale-up"; "scale-down"; "int"; "float"; "object"; "number"])%list.
Definition is_digit (c : ascii) : bool := let n := nat_of_ascii c in Nat.leb 48 n && Nat.leb n 57.
(** fstrips.g4:521-527, ANY_CHAR *)
Definition any_char (c : ascii) : bool := is_alpha c || is_digit c || Ascii.eqb c "_" || Ascii.eqb c "-".
Fixpoint all_chars (p : ascii -> bool) (s : string) : bool := match s with EmptyString => true | String c r => p c && all_chars p r end.
(** fstrips.g4:517 NAME *)
Definition is_name (w : string) : bool := match w with String c r => is_alpha c && all_chars any_char r | EmptyString => false end.
Definition mem (w : string) (l : list string) : bool := existsb (String.eqb w) l.

Inductive token := TLp | TRp | TKey (k : string) | TName (w : string) | TExt (w : string) | TVar (w : string) | TNum (z : Z).
Definition token_of (w : string) : res token :=
  if String.eqb w "(" then Ok TLp else if String.eqb w ")" then Ok TRp
  else if mem w literals then Ok (TKey w)
  else if mem (lower w) keywords then Ok (TKey (lower w))
  else if is_name w then Ok (TName w)
  else match NilZero.int_of_string w with                        (* fstrips.g4:532 NUMBER *)
       | Some d => Ok (TNum (Z.of_int d))
       | None => match w with
                 | String c r => if is_name r then if Ascii.eqb c "?" then Ok (TVar w) else if Ascii.eqb c "@" then Ok (TExt w) else Err SyntaxError    (* :530, :518 *)
                                 else Err SyntaxError
                 | EmptyString => Err SyntaxError
                 end
       end.
Definition lex (s : string) : res (list token) := mapM token_of (words s "").

(** ** Bracket structure. Every alternative of the rules goalDesc, atomicTermFormula, functionTerm, effect, single_effect and atomic_effect
    (fstrips.g4:227-327) is one bracketed list, and the remaining terms are single tokens, so the phrases of a text are found by matching brackets. *)
Inductive sexp := A (t : token) | L (l : list sexp).
Fixpoint brackets (ts : list token) (stack : list (list sexp)) : option (list sexp) :=
  match ts with
  | [] => match stack with [acc] => Some (rev acc) | _ => None end
  | TLp :: ts' => brackets ts' ([] :: stack)
  | TRp :: ts' => match stack with acc :: acc2 :: st => brackets ts' ((L (rev acc) :: acc2) :: st) | _ => None end
  | t :: ts' => match stack with acc :: st => brackets ts' ((A t :: acc) :: st) | [] => None end
  end.
Definition phrase (s : string) : res sexp :=
  let! ts := lex s in match brackets ts [[]] with Some [x] => Ok x | _ => Err SyntaxError end.

(** ** The language as the reader sees it *)
Record plang := {
  pl_const : string -> option sort;                 (* fol.py:261-264 [get_constant]: the sort of a string-named constant *)
  pl_pred : string -> option (list sort);           (* fol.py:300-303 [get_predicate] *)
  pl_fun : string -> option (list sort * sort);     (* fol.py:327-330 [get_function] *)
  pl_sort : string -> bool;                         (* fol.py:153-154 [has_sort] *)
  pl_sub : sort -> sort -> bool;                    (* fol.py:351-354 [is_subtype] *)
  pl_num : sort -> Z -> bool;                       (* the cast of an int to the sort succeeds (sorts.py:46-55, 98-110) *)
  pl_cmp : bpred -> bool;                           (* there is a handler for the comparison operator (theories.py:77-83, 97-100) *)
  pl_arith : bfun -> bool                           (* and for the arithmetic operator (theories.py:102-105, 113-117) *)
}.

Section Reader.
Context (l : plang).

(** A visited term is a Term or a Python number (reader.py:221-223). *)
Inductive tval := VTerm (t : term) | VNum (z : Z).
(** The [sort] attribute: terms.py:145, 192, 328; the codomain of built-in operators is Real (theories.py:104). *)
Definition sort_of (t : term) : sort :=
  match t with Var _ s | Cst _ s => s | App (FU _ _ c) _ => c | App (FB _) _ => "Real" | Ite _ _ _ => "object" end.
(** ops.py:13-38 [cast_to_closest_common_numeric_ancestor] (matrices are not modelled). An int cast to the sort Real is a float in Python and
    remains an integer here. *)
Definition cast_number (s : sort) (z : Z) : res term := if pl_num l s z then Ok (Cst (CInt z) s) else Err ValueError.
Definition cast_operands (a b : tval) : res (term * term) :=
  match a, b with
  | VTerm x, VTerm y => Ok (x, y)
  | VTerm x, VNum n => let! y := cast_number (sort_of x) n in Ok (x, y)
  | VNum n, VTerm y => let! x := cast_number (sort_of y) n in Ok (x, y)
  | VNum n, VNum m => if pl_sort l "Integer" then let! x := cast_number "Integer" n in let! y := cast_number "Integer" m in Ok (x, y) else Err UndefinedElement
  end.
Definition check_sorts (ts : list term) (ss : list sort) : res unit :=
  if Nat.eqb (List.length ts) (List.length ss)
  then if forallb (fun ts => pl_sub l (sort_of (fst ts)) (snd ts)) (combine ts ss) then Ok tt else Err SortMismatch
  else Err ArityMismatch.
(** formulas.py:302-333, Atom's constructor *)
Definition make_atom (p : psym) (ss : list sort) (ts : list term) : res formula := let! _ := check_sorts ts ss in Ok (Atom p ts).
(** terms.py:167-185, CompoundTerm's constructor (all arguments being terms) *)
Definition make_app (f : fsym) (ss : list sort) (ts : list term) : res term := let! _ := check_sorts ts ss in Ok (App f ts).

(** builtins.py:126-131: the enumeration member with the given value; ValueError if there is none *)
Definition bfun_of (k : string) : option bfun :=
  if String.eqb k "+" then Some BAdd else if String.eqb k "-" then Some BSub else if String.eqb k "*" then Some BMul
  else if String.eqb k "/" then Some BDiv else if String.eqb k "max" then Some (BOther "max") else if String.eqb k "min" then Some (BOther "min") else None.
Definition bpred_of (k : string) : option bpred :=
  if String.eqb k "=" then Some PEq else if String.eqb k "<" then Some PLt else if String.eqb k "<=" then Some PLe
  else if String.eqb k ">" then Some PGt else if String.eqb k ">=" then Some PGe else None.
(** theories.py:77-83: (in)equality is declared over object, the other comparisons over Real (:97-100) *)
Definition cmp_sorts (b : bpred) : list sort := match b with PEq | PNe => ["object"; "object"] | _ => ["Real"; "Real"] end.
(** reader.py:306-310 [visitBuiltinBinaryAtom], fol.py:406-413 [dispatch_operator], theories.py:135-143, factory.py:14-27 *)
Definition make_comparison (b : bpred) (x y : tval) : res formula :=
  if pl_cmp l b then let! xy := cast_operands x y in make_atom (PB b) (cmp_sorts b) [fst xy; snd xy] else Err LanguageError.
(** reader.py:245-249 [visitBinaryArithmeticFunctionTerm] *)
Definition make_arith (b : bfun) (x y : tval) : res term :=
  if pl_arith l b then let! xy := cast_operands x y in make_app (FB b) ["Real"; "Real"] [fst xy; snd xy] else Err LanguageError.
(** reader.py:239-243: numbers become constants of the sorts of the function (sorts.py:57-65, 112-118 [to_constant]) *)
Fixpoint to_constants (vs : list tval) (ss : list sort) : res (list term) :=
  match vs, ss with
  | [], [] => Ok []
  | VTerm t :: vs', _ :: ss' => let! r := to_constants vs' ss' in Ok (t :: r)
  | VNum z :: vs', s :: ss' => let! t := cast_number s z in let! r := to_constants vs' ss' in Ok (t :: r)
  | _, _ => Err AssertionError                                                                 (* reader.py:239 *)
  end.
Definition as_term (v : tval) : res term := match v with VTerm t => Ok t | VNum _ => Err LanguageError end.     (* formulas.py:326-327 *)

(** The variables in scope: reader.py:225-233, 471-493. *)
Definition lookup_variable (b : option vbind) (x : string) : res term :=
  match b with None => Err SyntaxError | Some vb => let! v := vb_get vb x in Ok (Var (fst v) (snd v)) end.
Fixpoint add_all (vb : vbind) (vs : list var) : res vbind :=
  match vs with [] => Ok vb | v :: vs' => match vb_add vb v with (Some e, _) => Err e | (None, vb') => add_all vb' vs' end end.
Definition push_variables (b : option vbind) (vs : list var) : res (option vbind) :=
  match b with None => Ok (Some (vb_make vs)) | Some vb => let! vb' := add_all vb vs in Ok (Some vb') end.

(** fstrips.g4:242-254, reader.py:217-249: terms. '#t', unary operators and EXTNAMEs are not modelled. *)
Fixpoint read_term (b : option vbind) (s : sexp) : res tval :=
  match s with
  | A (TName n) => match pl_const l (lower n) with Some r => Ok (VTerm (Cst (CStr (lower n)) r)) | None => Err UndefinedElement end
  | A (TNum z) => Ok (VNum z)
  | A (TVar x) => let! t := lookup_variable b (lower x) in Ok (VTerm t)
  | L (A (TName f) :: args) =>
      match pl_fun l (lower f) with
      | Some (ss, c) => let! vs := mapM (read_term b) args in let! ts := to_constants vs ss in let! t := make_app (FU (lower f) ss c) ss ts in Ok (VTerm t)
      | None => Err UndefinedElement
      end
  | L [A (TKey k); x; y] =>
      match bfun_of k with
      | Some op => let! vx := read_term b x in let! vy := read_term b y in let! t := make_arith op vx vy in Ok (VTerm t)
      | None => if String.eqb k "^" then Err ValueError else Err SyntaxError
      end
  | _ => Err SyntaxError
  end.

(** fstrips.g4:124-141, reader.py:107-108, 136-149: variable lists *)
Definition type_name (t : token) : res sort :=
  match t with
  | TName n => Ok (lower n)
  | TKey k => if mem k ["int"; "float"; "object"; "number"] then Ok k else Err SyntaxError
  | _ => Err SyntaxError
  end.
Definition make_variables (xs : list string) (s : sort) : res (list var) :=
  if pl_sort l s then Ok (map (fun x => (lower x, s)) xs) else match xs with [] => Ok [] | _ => Err UndefinedElement end.
Fixpoint var_list (pending : list string) (ss : list sexp) : res (list var) :=
  match ss with
  | [] => make_variables pending "object"
  | A (TVar x) :: r => var_list (pending ++ [x]) r
  | A (TKey k) :: A t :: r => if String.eqb k "-" then
        match pending with
        | [] => Err SyntaxError
        | _ => let! s := type_name t in let! vs := make_variables pending s in let! rest := var_list [] r in Ok (vs ++ rest)%list
        end else Err SyntaxError
  | _ => Err SyntaxError
  end.

(** fstrips.g4:227-240, reader.py:208-216, 260-310: formulas *)
Definition read_atom (b : option vbind) (p : string) (args : list sexp) : res formula :=
  match pl_pred l (lower p) with
  | Some ss => let! vs := mapM (read_term b) args in let! ts := mapM as_term vs in make_atom (PU (lower p) ss) ss ts
  | None => Err UndefinedElement
  end.
Fixpoint read_goal (b : option vbind) (s : sexp) : res formula :=
  match s with
  | L (A (TName p) :: args) => read_atom b p args
  | L (A (TKey k) :: args) =>
      if String.eqb k "and" then let! fs := mapM (read_goal b) args in match fs with [] => Ok Top | [f] => Ok f | _ => compound And fs end
      else if String.eqb k "or" then let! fs := mapM (read_goal b) args in compound Or fs
      else if String.eqb k "not" then match args with [x] => let! f := read_goal b x in neg f | _ => Err SyntaxError end
      else if String.eqb k "imply" then match args with [x; y] => let! f := read_goal b x in let! g := read_goal b y in implies f g | _ => Err SyntaxError end
      else if String.eqb k "exists" || String.eqb k "forall" then
        match args with
        | [L vars; x] => let! vs := var_list [] vars in let! b' := push_variables b vs in let! f := read_goal b' x in
                         quantified (if String.eqb k "exists" then QEx else QAll) (map (fun v => ATerm (Var (fst v) (snd v))) vs ++ [AForm f])%list
        | _ => Err SyntaxError
        end
      else match bpred_of k with
           | Some p => match args with
                       | [x; y] => let! vx := read_term b x in let! vy := read_term b y in make_comparison p vx vy
                       | _ => Err SyntaxError
                       end
           | None => Err SyntaxError
           end
  | _ => Err SyntaxError
  end.
Definition parse_goal (b : option vbind) (text : string) : res formula := let! s := phrase text in read_goal b s.

(** fstrips.g4:310-328, reader.py:315-356, 442-448: effects. Reading an atomic effect gives an unconditional effect, to which a condition is added. *)
Definition with_condition (c : formula) (e : effect) : effect :=
  match e with
  | EAdd _ a => EAdd c a | EDel _ a => EDel c a | EFun i _ x y => EFun i c x y
  | EUni _ vs es => EUni c vs es | ELit _ f => ELit c f | EOther _ => EOther c
  end.
Definition is_compound (t : term) : bool := match t with App _ _ => true | _ => false end.
(** fstrips/fstrips.py:60-85, FunctionalEffect's constructor *)
Definition make_assignment (lhs rhs : tval) : res effect :=
  match lhs with
  | VTerm t => if is_compound t then match rhs with
                                     | VTerm u => Ok (EFun false Top t u)
                                     | VNum z => match cast_number (sort_of t) z with Ok u => Ok (EFun false Top t u) | Err _ => Err RepresentationError end
                                     end else Err RepresentationError
  | VNum _ => Err RepresentationError
  end.
Definition is_list (s : sexp) : bool := match s with L _ => true | A _ => false end.
Definition assign_op (k : string) : option bfun :=
  if String.eqb k "increase" then Some BAdd else if String.eqb k "decrease" then Some BSub
  else if String.eqb k "scale-up" then Some BMul else if String.eqb k "scale-down" then Some BDiv else None.
Definition read_atomic_effect (b : option vbind) (s : sexp) : res effect :=
  match s with
  | L (A (TName p) :: args) => let! a := read_atom b p args in Ok (EAdd Top a)
  | L [A (TKey k); x] =>
      if String.eqb k "not" then match x with L (A (TName p) :: args) => let! a := read_atom b p args in Ok (EDel Top a) | _ => Err SyntaxError end
      else Err SyntaxError
  | L [A (TKey k); x; y] =>
      if is_list x then
        if String.eqb k "assign" then let! vx := read_term b x in let! vy := read_term b y in make_assignment vx vy
        else match assign_op k with
             | Some op => let! vx := read_term b x in let! vy := read_term b y in let! r := make_arith op vx vy in make_assignment vx (VTerm r)
             | None => Err SyntaxError
             end
      else Err SyntaxError
  | _ => Err SyntaxError
  end.
(** rule [effect]: a conjunction of single effects, or one; [single] reads a single effect *)
Definition effect_rule (single : sexp -> res (list effect)) (s : sexp) : res (list effect) :=
  match s with
  | L (A (TKey k) :: args) =>
      if String.eqb k "and" then let! ls := mapM single args in Ok (List.concat ls) else single s
  | _ => single s
  end.
Fixpoint read_single_effect (b : option vbind) (s : sexp) : res (list effect) :=
  match s with
  | L [A (TKey k); x; y] =>
      if String.eqb k "forall" then
        match x with
        | L vars => let! vs := var_list [] vars in let! b' := push_variables b vs in let! es := effect_rule (read_single_effect b') y in
                    Ok [EUni Top (map (fun v => Var (fst v) (snd v)) vs) es]
        | A _ => Err SyntaxError
        end
      else if String.eqb k "when" then
        match y with
        | L (A (TKey k') :: args) =>
            if String.eqb k' "and" then let! c := read_goal b x in let! es := mapM (read_atomic_effect b) args in Ok (map (with_condition c) es)
            else let! e := read_atomic_effect b y in let! c := read_goal b x in Ok [with_condition c e]
        | _ => let! e := read_atomic_effect b y in let! c := read_goal b x in Ok [with_condition c e]
        end
      else let! e := read_atomic_effect b s in Ok [e]
  | _ => let! e := read_atomic_effect b s in Ok [e]
  end.
Definition read_effect (b : option vbind) : sexp -> res (list effect) := effect_rule (read_single_effect b).
Definition parse_effect (b : option vbind) (text : string) : res (list effect) := let! s := phrase text in read_effect b s.
End Reader.
