(** Independent specification of the RDDL expression language: how a text is read, and what the expression means. Nothing here comes from the writer. *)
From Coq Require Import Ascii.
From Verif Require Import Base Syntax Semantics ModelText Rddl.
#[local] Open Scope string_scope.
#[local] Open Scope list_scope.

(** ** Words and punctuation *)
Inductive token : Set := Word (w : string) | LP | RP | LB | RB | LC | RC | Comma | Semi.
(** Spaces, tabs and line ends separate words; brackets, commas and semicolons are tokens of their own. *)
Definition blank (c : ascii) : bool := (Ascii.eqb c " " || Ascii.eqb c (ascii_of_nat 9) || Ascii.eqb c (ascii_of_nat 10))%char.
Definition punctuation (c : ascii) : option token :=
  (if Ascii.eqb c "(" then Some LP else if Ascii.eqb c ")" then Some RP else if Ascii.eqb c "[" then Some LB else if Ascii.eqb c "]" then Some RB
   else if Ascii.eqb c "{" then Some LC else if Ascii.eqb c "}" then Some RC else if Ascii.eqb c "," then Some Comma else if Ascii.eqb c ";" then Some Semi else None)%char.
Definition flush (w : string) : list token := match w with "" => [] | _ => [Word w] end.
Fixpoint lex (w : string) (s : string) : list token :=
  match s with
  | "" => flush w
  | String c r => if blank c then flush w ++ lex "" r
                  else match punctuation c with Some t => flush w ++ t :: lex "" r | None => lex (w ++ String c "")%string r end
  end.
(** Names and numbers are made of letters, digits, hyphens, underscores and dots; some are reserved. *)
Definition name_char (c : ascii) : bool :=
  let n := nat_of_ascii c in
  (Nat.leb 97 n && Nat.leb n 122) || (Nat.leb 65 n && Nat.leb n 90) || (Nat.leb 48 n && Nat.leb n 57) || Nat.eqb n 45 || Nat.eqb n 95 || Nat.eqb n 46.
Fixpoint name_chars (w : string) : bool := match w with "" => true | String c r => name_char c && name_chars r end.
Definition operators : list string := ["=="; "~="; "<"; "<="; ">"; ">="; "^"; "|"; "=>"; "<=>"; "+"; "-"; "*"; "/"].
Definition quantifier_words : list string := ["forall_"; "exists_"; "sum_"; "prod_"].
Definition reserved : list string := ["if"; "then"; "else"; "true"; "false"] ++ quantifier_words ++ operators.
Definition mem (w : string) (l : list string) : bool := existsb (String.eqb w) l.
Definition name_ok (w : string) : bool := negb (String.eqb w "") && name_chars w && negb (mem w reserved).
(** The variable of the word ?x *)
Definition variable_of (w : string) : option string :=
  match w with String c x => if Ascii.eqb c "?" && negb (String.eqb x "") && name_chars x then Some x else None | "" => None end.
(** The fluent of the word x' *)
Fixpoint unprime (w : string) : option string :=
  match w with
  | "" => None
  | String c "" => if Ascii.eqb c "'" then Some "" else None
  | String c r => option_map (String c) (unprime r)
  end.

(** ** Expressions *)
Inductive rexp : Set :=
| RVar (x : string)                               (* ?x *)
| RName (n : string) (args : list rexp)           (* n, n(e1, ..., ek): objects, numbers, fluents and random variables *)
| RNext (n : string) (args : list rexp)           (* n', n'(e1, ..., ek): fluents of the next state *)
| RFun (n : string) (args : list rexp)            (* n[e1, ..., ek] *)
| RBin (op : string) (a b : rexp)
| RNot (a : rexp)
| RIf (c a b : rexp)
| RQuant (q : string) (vs : list (string * string)) (b : rexp)   (* forall_{?x : s, ...} b; also exists, sum and prod *)
| RTrue
| RFalse.

(** How an expression starts. *)
Inductive start : Set :=
| SIf (ts : list token) | SQuant (q : string) (ts : list token) | SNot (ts : list token) | SOpen (close : token) (ts : list token)
| SCall (close : token) (n : string) (ts : list token) | SWord (w : string) (ts : list token) | SBad.
Definition start_of (ts : list token) : start :=
  match ts with
  | LP :: r => SOpen RP r
  | LB :: r => SOpen RB r
  | Word w :: r =>
      if String.eqb w "if" then match r with LP :: r' => SIf r' | _ => SBad end
      else if mem w quantifier_words then match r with LC :: r' => SQuant w r' | _ => SBad end
      else if String.eqb w "~" then SNot r
      else match r with LP :: r' => SCall RP w r' | LB :: r' => SCall RB w r' | _ => SWord w r end
  | _ => SBad
  end.
Definition word (w : string) : option rexp :=
  if String.eqb w "true" then Some RTrue else if String.eqb w "false" then Some RFalse
  else match variable_of w with Some x => Some (RVar x) | None =>
       if name_ok w then Some (RName w []) else match unprime w with Some n => if name_ok n then Some (RNext n []) else None | None => None end end.
Definition call (close : token) (w : string) (args : list rexp) : option rexp :=
  match close with
  | RB => if name_ok w then Some (RFun w args) else None
  | _ => if name_ok w then Some (RName w args) else match unprime w with Some n => if name_ok n then Some (RNext n args) else None | None => None end
  end.
Definition token_eqb (a b : token) : bool :=
  match a, b with
  | Word v, Word w => String.eqb v w
  | LP, LP | RP, RP | LB, LB | RB, RB | LC, LC | RC, RC | Comma, Comma | Semi, Semi => true
  | _, _ => false
  end.
(** [expect t] consumes one given token. *)
Definition expect (t : token) {A} (r : option (A * list token)) : option (A * list token) :=
  match r with Some (a, u :: ts) => if token_eqb t u then Some (a, ts) else None | _ => None end.
Fixpoint binders_of (ts : list token) : option (list (string * string) * list token) :=
  match ts with
  | Word v :: Word c :: Word s :: t :: r =>
      match variable_of v with
      | Some x => if String.eqb c ":" && name_ok s then
                    match t with
                    | RC => Some ([(x, s)], r)
                    | Comma => match binders_of r with Some (vs, r') => Some ((x, s) :: vs, r') | None => None end
                    | _ => None
                    end
                  else None
      | None => None
      end
  | _ => None
  end.
(** e1, ..., ek followed by the closing bracket; [f] reads one expression. *)
Definition arguments_of (f : list token -> option (rexp * list token)) (close : token) : nat -> list token -> option (list rexp * list token) :=
  fix go (n : nat) (ts : list token) :=
    match n with
    | O => None
    | S n' => match f ts with
              | Some (e, t :: r) => if token_eqb t close then Some ([e], r)
                                    else match t with Comma => match go n' r with Some (es, r') => Some (e :: es, r') | None => None end | _ => None end
              | _ => None
              end
    end.
(** Reads one expression. A conditional, a quantifier and an aggregate extend as far to the right as possible; [~] applies to the next operand only. Operators are read
    between two operands; a chain such as a + b * c, whose reading depends on precedences, is not read ([top]: an operator may follow the first operand). The number bounds
    the depth of the recursion. *)
Fixpoint expression (n : nat) (top : bool) (ts : list token) : option (rexp * list token) :=
  match n with
  | O => None
  | S n' =>
      let tail (r : option (rexp * list token)) :=
        match r with
        | Some (a, Word w :: t) =>
            if top && mem w operators then match expression n' false t with Some (b, t') => Some (RBin w a b, t') | None => None end else r
        | _ => r
        end in
      match start_of ts with
      | SIf t => match expect (Word "then") (expect RP (expression n' true t)) with
                 | Some (c, t1) => match expect (Word "else") (expression n' true t1) with
                                   | Some (a, t2) => match expression n' true t2 with Some (b, t3) => Some (RIf c a b, t3) | None => None end
                                   | None => None
                                   end
                 | None => None
                 end
      | SQuant q t => match binders_of t with
                      | Some (vs, t1) => match expression n' true t1 with Some (b, t2) => Some (RQuant q vs b, t2) | None => None end
                      | None => None
                      end
      | SNot t => tail (match expression n' false t with Some (a, t1) => Some (RNot a, t1) | None => None end)
      | SOpen close t => tail (expect close (expression n' true t))
      | SCall close w t => tail (match arguments_of (expression n' true) close n' t with
                                 | Some (es, t1) => match call close w es with Some e => Some (e, t1) | None => None end
                                 | None => None
                                 end)
      | SWord w t => tail (match word w with Some e => Some (e, t) | None => None end)
      | SBad => None
      end
  end.
Definition read_expression (ts : list token) : option (rexp * list token) := expression (List.length ts) true ts.
(** The expression written in a text. *)
Definition reads (s : string) : option rexp := match read_expression (lex "" s) with Some (e, []) => Some e | _ => None end.
(** A list of constraints, each followed by a semicolon; a list of definitions of next-state fluents [n'(e1, ..., ek) = e;]. *)
Fixpoint constraints (n : nat) (ts : list token) : option (list rexp) :=
  match ts, n with
  | [], _ => Some []
  | _, O => None
  | _, S n' => match expect Semi (read_expression ts) with Some (e, r) => option_map (cons e) (constraints n' r) | None => None end
  end.
Definition reads_constraints (s : string) : option (list rexp) := let ts := lex "" s in constraints (List.length ts) ts.
Fixpoint definitions (n : nat) (ts : list token) : option (list (string * list rexp * rexp)) :=
  match ts, n with
  | [], _ => Some []
  | _, O => None
  | _, S n' => match expect (Word "=") (read_expression ts) with
               | Some (RNext f args, r) => match expect Semi (read_expression r) with Some (e, r') => option_map (cons (f, args, e)) (definitions n' r') | None => None end
               | _ => None
               end
  end.
Definition reads_definitions (s : string) : option (list (string * list rexp * rexp)) := let ts := lex "" s in definitions (List.length ts) ts.

(** ** Meaning *)
Section Meaning.
  Variable M : structure.
  (** the value of a sum (false) or product (true) of a list of values *)
  Variable total : bool -> list (carrier M) -> carrier M.
  Inductive val : Type := VE (a : carrier M) | VB (b : bool).
  (** What the names of the text stand for, in the current and in the next state. *)
  Variable dict : bool -> string -> list (carrier M) -> option val.

  Definition elements : list (option val) -> option (list (carrier M)) :=
    fix go l := match l with [] => Some [] | Some (VE a) :: r => option_map (cons a) (go r) | _ => None end.
  Definition booleans : list (option val) -> option (list bool) :=
    fix go l := match l with [] => Some [] | Some (VB a) :: r => option_map (cons a) (go r) | _ => None end.
  Definition compare_as (b : bpred) (x y : carrier M) := Some (VB (pint M (PB b) [x; y])).
  Definition compute_as (b : bfun) (l : list (carrier M)) := Some (VE (fint M (FB b) l)).
  Definition operate (op : string) (a b : option val) : option val :=
    match a, b with
    | Some (VE x), Some (VE y) =>
        if String.eqb op "==" then compare_as PEq x y else if String.eqb op "~=" then compare_as PNe x y else if String.eqb op "<" then compare_as PLt x y
        else if String.eqb op "<=" then compare_as PLe x y else if String.eqb op ">" then compare_as PGt x y else if String.eqb op ">=" then compare_as PGe x y
        else if String.eqb op "+" then compute_as BAdd [x; y] else if String.eqb op "-" then compute_as BSub [x; y]
        else if String.eqb op "*" then compute_as BMul [x; y] else if String.eqb op "/" then compute_as BDiv [x; y] else None
    | Some (VB x), Some (VB y) =>
        if String.eqb op "^" then Some (VB (x && y)) else if String.eqb op "|" then Some (VB (x || y))
        else if String.eqb op "=>" then Some (VB (implb x y)) else if String.eqb op "<=>" then Some (VB (Bool.eqb x y)) else None
    | _, _ => None
    end.
  (** The built-in functions and random variables of RDDL *)
  Definition rddl_functions : list (string * bfun) :=
    map (fun n => (n, BOther n)) ["min"; "max"; "abs"; "sin"; "cos"; "tan"; "atan"; "asin"; "exp"; "log"; "erf"; "erfc"; "sgn"; "sqrt"].
  Definition rddl_random : list (string * bfun) :=
    [("Normal", BOther "normal"); ("Gamma", BOther "gamma"); ("KronDelta", BOther "kron"); ("DiracDelta", BOther "dirac"); ("Bernoulli", BOther "bernoulli");
     ("Discrete", BOther "discrete"); ("Poisson", BOther "poisson")].
  Fixpoint lookup (n : string) (l : list (string * bfun)) : option bfun := match l with [] => None | (k, b) :: l' => if String.eqb k n then Some b else lookup n l' end.
  Definition bind_name {V : Type} (e : string -> V) (x : string) (v : V) : string -> V := fun y => if String.eqb x y then v else e y.
  (** The list of the values of [k] when the variables range over their types, from left to right *)
  Fixpoint ranging {A : Type} (vs : list (string * string)) (k : (string -> carrier M) -> A) (e : string -> carrier M) : list A :=
    match vs with [] => [k e] | (x, s) :: vs' => flat_map (fun d => ranging vs' k (bind_name e x d)) (dom M s) end.
  Definition quantify (q : string) (l : list (option val)) : option val :=
    if String.eqb q "forall_" then option_map (fun bs => VB (forallb (fun b => b) bs)) (booleans l)
    else if String.eqb q "exists_" then option_map (fun bs => VB (existsb (fun b => b) bs)) (booleans l)
    else if String.eqb q "sum_" then option_map (fun es => VE (total false es)) (elements l)
    else if String.eqb q "prod_" then option_map (fun es => VE (total true es)) (elements l) else None.
  Definition conditional (c a b : option val) : option val :=
    match c, a, b with Some (VB x), Some (VE _), Some (VE _) => if x then a else b | _, _, _ => None end.
  Fixpoint rsem (r : rexp) (e : string -> carrier M) {struct r} : option val :=
    let args := map (fun a => rsem a e) in
    match r with
    | RVar x => Some (VE (e x))
    | RName n ts => match elements (args ts) with
                    | Some l => match lookup n rddl_random with Some b => compute_as b l | None => dict false n l end
                    | None => None
                    end
    | RNext n ts => match elements (args ts) with Some l => dict true n l | None => None end
    | RFun n ts => match elements (args ts), lookup n rddl_functions with Some l, Some b => compute_as b l | _, _ => None end
    | RBin op a b => operate op (rsem a e) (rsem b e)
    | RNot a => match rsem a e with Some (VB x) => Some (VB (negb x)) | _ => None end
    | RIf c a b => conditional (rsem c e) (rsem a e) (rsem b e)
    | RQuant q vs b => quantify q (ranging vs (fun e' => rsem b e') e)
    | RTrue => Some (VB true)
    | RFalse => Some (VB false)
    end.

  (** The meaning of an expression of Tarski: textbook semantics, as in Semantics.v, with aggregates; [None] for an expression that is not well formed. *)
  Fixpoint xranging {A : Type} (vs : list var) (k : env M -> A) (e : env M) : list A :=
    match vs with [] => [k e] | v :: vs' => flat_map (fun d => xranging vs' k (upd e v d)) (dom M (snd v)) end.
  Fixpoint xsem (x : xexpr) (e : env M) {struct x} : option val :=
    let args := map (fun a => xsem a e) in
    match x with
    | XVar y s => Some (VE (e (y, s)))
    | XCst c s => Some (VE (cint M c s))
    | XApp f ts => option_map (fun l => VE (fint M f l)) (elements (args ts))
    | XIte c a b => conditional (xsem c e) (xsem a e) (xsem b e)
    | XTop => Some (VB true)
    | XBot => Some (VB false)
    | XAtom p ts => option_map (fun l => VB (pint M p l)) (elements (args ts))
    | XComp And fs => option_map (fun l => VB (forallb (fun b => b) l)) (booleans (args fs))
    | XComp Or fs => option_map (fun l => VB (existsb (fun b => b) l)) (booleans (args fs))
    | XComp Not fs => match args fs with [Some (VB b)] => Some (VB (negb b)) | _ => None end
    | XQuant QAll vs f => option_map (fun l => VB (forallb (fun b => b) l)) (booleans (xranging vs (fun e' => xsem f e') e))
    | XQuant QEx vs f => option_map (fun l => VB (existsb (fun b => b) l)) (booleans (xranging vs (fun e' => xsem f e') e))
    | XAgg mul vs t => option_map (fun l => VE (total mul l)) (elements (xranging vs (fun e' => xsem t e') e))
    end.
End Meaning.
Arguments VE {M} a.
Arguments VB {M} b.

(** Terms and formulas (Syntax.v) as expressions, and their meaning (Semantics.v). *)
Fixpoint of_term (t : term) : xexpr :=
  match t with Var x s => XVar x s | Cst c s => XCst c s | App f ts => XApp f (map of_term ts) | Ite c a b => XIte (of_formula c) (of_term a) (of_term b) end
with of_formula (f : formula) : xexpr :=
  match f with
  | Top => XTop | Bot => XBot
  | Atom p ts => XAtom p (map of_term ts)
  | Comp c fs => XComp c (map of_formula fs)
  | Quant q vs g => XQuant q (vars_of vs) (of_formula g)
  end.

(** ** The expressions that the writer can write *)
Fixpoint parts (e : xexpr) : list xexpr :=
  e :: match e with
       | XApp _ ts | XAtom _ ts | XComp _ ts => flat_map parts ts
       | XIte c a b => parts c ++ parts a ++ parts b
       | XQuant _ _ f | XAgg _ _ f => parts f
       | _ => []
       end.
(** the variables that occur in an expression, free or bound *)
Definition own_variables (e : xexpr) : list var := match e with XVar x s => [(x, s)] | XQuant _ vs _ | XAgg _ vs _ => vs | _ => [] end.
Definition variables (e : xexpr) : list var := flat_map own_variables (parts e).
(** conditionals, quantifiers and aggregates *)
Definition prefix_form (e : xexpr) : bool := match e with XIte _ _ _ | XQuant _ _ _ | XAgg _ _ _ => true | _ => false end.
Definition operands_ok (ts : list xexpr) : Prop := exists a b, ts = [a; b] /\ prefix_form a = false.
Definition binders_ok (vs : list var) : Prop := vs <> [] /\ forall x s, In (x, s) vs -> strip x = x /\ x <> "" /\ name_chars x = true /\ name_ok s = true.
Definition user_name (n : string) : Prop := name_ok n = true /\ lookup n rddl_random = None.
Definition writable_here (e : xexpr) : Prop :=
  match e with
  | XVar x _ => strip x <> "" /\ name_chars (strip x) = true
  | XCst c _ => user_name (name_text c)
  | XApp (FB b) ts => match infix_fun b with
                      | Some op => In op operators /\ operands_ok ts
                      | None => ts <> [] /\ exists n, b = BOther n /\ In n (map fst rddl_functions ++ ["normal"; "gamma"])
                      end
  | XApp (FU n _ _) ts => user_name n
  | XAtom (PB _) ts => operands_ok ts
  | XAtom (PU n _) ts => user_name n
  | XComp c fs => c <> Not /\ operands_ok fs
  | XQuant _ vs _ | XAgg _ vs _ => binders_ok vs
  | _ => True
  end.
Definition writable (e : xexpr) : Prop := Forall writable_here (parts e).
(** No two variables are written the same way. *)
Definition variables_apart (e : xexpr) : Prop := forall v w, In v (variables e) -> In w (variables e) -> strip (fst v) = strip (fst w) -> v = w.
(** The names of the text stand for the symbols of the expression. *)
Definition dictionary_of (M : structure) (dict : bool -> string -> list (carrier M) -> option (val M)) (e : xexpr) : Prop :=
  (forall c s, In (XCst c s) (parts e) -> dict false (name_text c) [] = Some (VE (cint M c s))) /\
  (forall n ds r ts l, In (XApp (FU n ds r) ts) (parts e) -> List.length l = List.length ts -> dict false n l = Some (VE (fint M (FU n ds r) l))) /\
  (forall n ss ts l, In (XAtom (PU n ss) ts) (parts e) -> List.length l = List.length ts -> dict false n l = Some (VB (pint M (PU n ss) l))).
(** The text [s] says the same as the expression [e]. *)
Definition same_meaning (r : rexp) (e : xexpr) : Prop :=
  forall M total dict (rho : env M) (eta : string -> carrier M),
    dictionary_of M dict e -> (forall x s, In (x, s) (variables e) -> eta (strip x) = rho (x, s)) -> rsem M total dict r eta = xsem M total e rho.
