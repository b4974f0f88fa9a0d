(** The ground evaluator: src/tarski/evaluators/simple.py *)
From Verif Require Import Base Syntax ModelState.
#[local] Open Scope string_scope.

(** Bounds of the built-in Integer sort: syntax/sorts.py:222 ([inclusion]: both ends). *)
Definition int_max : Z := 2147483647.
Definition int_sort : sort := "Integer".

(** [Constant(value, Integer)] (simple.py:211, terms.py:308-318, sorts.py Interval.cast): ValueError outside the bounds. *)
Definition mk_integer (z : Z) : res term :=
  if (Z.leb (- int_max) z && Z.leb z int_max)%bool then Ok (Cst (CInt z) int_sort) else Err ValueError.

(** simple.py:190-211 [_arithmetic_evaluator_2] on two constants with int names. Simplifications: operators other than + - * and operands that are not
    ints (strings, floats, matrices) are outside the model ([NotModelled]). *)
Definition arith (b : bfun) (x y : term) : res term :=
  match x, y with
  | Cst (CInt a) _, Cst (CInt c) _ =>
      match b with
      | BAdd => mk_integer (a + c)
      | BSub => mk_integer (a - c)
      | BMul => mk_integer (a * c)
      | _ => Err NotModelled
      end
  | _, _ => Err NotModelled
  end.

(** simple.py:118-129 [evaluate_builtin_predicate]: the names ([.symbol]) of the two values are compared with Python's operators; comparing an int with a
    str by order raises TypeError. *)
Definition compare_names (b : bpred) (x y : cname) : res bool :=
  match b with
  | PEq => Ok (if cname_eq_dec x y then true else false)
  | PNe => Ok (if cname_eq_dec x y then false else true)
  | _ =>
      match x, y with
      | CInt a, CInt c =>
          Ok (match b with PLt => Z.ltb a c | PLe => Z.leb a c | PGt => Z.ltb c a | _ => Z.leb c a end)
      | CStr a, CStr c =>
          Ok (match b with PLt => String.ltb a c | PLe => String.leb a c | PGt => String.ltb c a | _ => String.leb c a end)
      | _, _ => Err TypeError
      end
  end.
Definition compare_values (b : bpred) (x y : term) : res bool :=
  match x, y with
  | Cst a _, Cst c _ => compare_names b a c
  | _, _ => Err AttributeError   (* unreachable: values are constants *)
  end.

(** [eval_term] is [evaluate_term] (simple.py:77-115); a chosen if-then-else branch that is again an if-then-else falls through
    to the assertion of line 96. [evaluate] on a Variable looks it up in an empty dict (:48-49): Terms are unhashable,
    TypeError. [eval_f] is [evaluate] on formulas; [all]/[any] stop at the first deciding member (:57-61). *)
Fixpoint eval_term (m : model) (t : term) {struct t} : res term :=
  let args := fix args (ts : list term) : res (list term) :=
    match ts with
    | [] => Ok []
    | u :: us => match (match u with Var _ _ => Err TypeError | _ => eval_term m u end) with
                 | Err e => Err e
                 | Ok v => match args us with Err e => Err e | Ok vs => Ok (v :: vs) end
                 end
    end in
  match t with
  | Var _ _ => Err AssertionError
  | Cst c s => Ok (Cst c s)
  | App (FB b) ts =>
      match ts with
      | [x; y] => match eval_term m x with
                  | Err e => Err e
                  | Ok v => match eval_term m y with Err e => Err e | Ok w => arith b v w end
                  end
      | _ => Err NotModelled    (* unary built-ins *)
      end
  | App f ts =>
      match args ts with
      | Err e => Err e
      | Ok vs => match m_value m f vs with Ok v => Ok v | Err KeyError => Err UndefinedTerm | Err e => Err e end
      end
  | Ite c a b =>
      match eval_f m c with
      | Err e => Err e
      | Ok true => match a with Ite _ _ _ => Err AssertionError | _ => eval_term m a end
      | Ok false => match b with Ite _ _ _ => Err AssertionError | _ => eval_term m b end
      end
  end
with eval_f (m : model) (f : formula) {struct f} : res bool :=
  let args := fix args (ts : list term) : res (list term) :=
    match ts with
    | [] => Ok []
    | u :: us => match (match u with Var _ _ => Err TypeError | _ => eval_term m u end) with
                 | Err e => Err e
                 | Ok v => match args us with Err e => Err e | Ok vs => Ok (v :: vs) end
                 end
    end in
  let all := fix all (fs : list formula) : res bool :=
    match fs with
    | [] => Ok true
    | g :: gs => match eval_f m g with Err e => Err e | Ok true => all gs | Ok false => Ok false end
    end in
  let any := fix any (fs : list formula) : res bool :=
    match fs with
    | [] => Ok false
    | g :: gs => match eval_f m g with Err e => Err e | Ok true => Ok true | Ok false => any gs end
    end in
  match f with
  | Top => Ok true
  | Bot => Ok false
  | Atom (PB b) ts =>
      match ts with
      | [x; y] => match args ts with Err e => Err e | Ok [v; w] => compare_values b v w | Ok _ => Err IndexError end
      | _ => Err IndexError
      end
  | Atom p ts => match args ts with Err e => Err e | Ok vs => Ok (m_holds m p vs) end
  | Comp Not fs => match fs with g :: _ => match eval_f m g with Err e => Err e | Ok b => Ok (negb b) end | [] => Err IndexError end
  | Comp And fs => all fs
  | Comp Or fs => any fs
  | Quant _ _ _ => Err NotImplementedError
  end.
(** [evaluate] on terms (simple.py:47-52). *)
Definition evaluate_t (m : model) (t : term) : res term := match t with Var _ _ => Err TypeError | _ => eval_term m t end.
