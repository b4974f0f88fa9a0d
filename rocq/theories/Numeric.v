(** Numeric terms, built by hand or with the special functions, and their values: src/tarski/evaluators/simple.py:77-115, 146-211, src/tarski/funcsym/__init__.py, src/tarski/syntax/arithmetic/special.py,
    src/tarski/syntax/arithmetic/__init__.py:125-132 (pow, sqrt), src/tarski/syntax/ops.py:40-50 *)
From Verif Require Import Base.

(** The built-in numeric sorts: sorts.py:213-228. Intervals of the user are not modelled here. *)
Inductive nsort : Set := SReal | SInt | SNat.
(** The binary and unary functions of simple.py:150-174. [UFun]: sin, cos, tan, atan, asin, exp, log, erf, erfc, sqrt by name. The random functions are not modelled. *)
Inductive binop : Set := Plus | Minus | Times | Over | Power | Mod | Min | Max.
Inductive unop : Set := Abs | Sgn | UFun (name : string).

(** An implementation of floating-point numbers: nothing is assumed about it. A function that can raise an exception (ZeroDivisionError, OverflowError) returns a [res];
    the power of two floats can be a complex number ([None]). *)
Record floats := {
  float : Type; f_of_int : Z -> float; f_integer : float -> option Z; f_within : float -> bool;
  f_add : float -> float -> float; f_sub : float -> float -> float; f_mul : float -> float -> float; f_div : float -> float -> res float; f_mod : float -> float -> res float;
  f_pow : float -> float -> res (option float); f_min : float -> float -> float; f_max : float -> float -> float; f_abs : float -> float; f_sgn : float -> float; f_fun : string -> float -> float }.

Section Numbers.
Variable K : floats.
Notation F := (float K).
(** The numbers that are names of constants *)
Inductive num := NI (z : Z) | NF (x : F).
Record const := { c_sort : nsort; c_num : num }.
(** What Python or numpy computes: an int, a float (numpy's float64 is one), an int64 of numpy, which is no int, or a complex number *)
Inductive pynum := PInt (z : Z) | PFloat (x : F) | PNumpyInt (z : Z) | PComplex.
Definition as_float (n : num) : F := match n with NI z => f_of_int K z | NF x => x end.

(** sorts.py:105-117 [cast], :192-203 and the bounds of :213-228, in [Constant(n, s)] (terms.py:310-318) *)
Definition constant (s : nsort) (n : num) : res const :=
  match s with
  | SReal => if f_within K (as_float n) then Ok {| c_sort := SReal; c_num := NF (as_float n) |} else Err ValueError
  | _ => match (match n with NI z => Some z | NF x => f_integer K x end) with
         | Some z => let ok := match s with SNat => (Z.leb 0 z && Z.leb z (2 ^ 32 - 1))%bool | _ => (Z.leb (- (2 ^ 31 - 1)) z && Z.leb z (2 ^ 31 - 1))%bool end in
                     if ok then Ok {| c_sort := s; c_num := NI z |} else Err ValueError
         | None => Err ValueError
         end
  end.
(** ops.py:40-45: numpy's integers and complex numbers have no sort, and [Constant(value, None)] asks None to be extended: AttributeError. *)
Definition to_constant (v : pynum) : res const :=
  match v with PInt z => constant SInt (NI z) | PFloat x => constant SReal (NF x) | PNumpyInt _ | PComplex => Err AttributeError end.

(** Python's operators and the functions of funcsym/__init__.py. [np.min((x, y))] makes an array of ints if both are, and of floats otherwise. *)
Definition apply2 (o : binop) (a b : num) : res pynum :=
  match o, a, b with
  | Plus, NI x, NI y => Ok (PInt (x + y))
  | Minus, NI x, NI y => Ok (PInt (x - y))
  | Times, NI x, NI y => Ok (PInt (x * y))
  | Mod, NI x, NI y => if Z.eqb y 0 then Err RuntimeError (* ZeroDivisionError *) else Ok (PInt (x mod y))
  | Power, NI x, NI y => if Z.leb 0 y then Ok (PInt (x ^ y)) else let! r := f_pow K (f_of_int K x) (f_of_int K y) in Ok (match r with Some v => PFloat v | None => PComplex end)
  | Min, NI x, NI y => Ok (PNumpyInt (Z.min x y))
  | Max, NI x, NI y => Ok (PNumpyInt (Z.max x y))
  | Plus, _, _ => Ok (PFloat (f_add K (as_float a) (as_float b)))
  | Minus, _, _ => Ok (PFloat (f_sub K (as_float a) (as_float b)))
  | Times, _, _ => Ok (PFloat (f_mul K (as_float a) (as_float b)))
  | Over, _, _ => let! x := f_div K (as_float a) (as_float b) in Ok (PFloat x)
  | Mod, _, _ => let! x := f_mod K (as_float a) (as_float b) in Ok (PFloat x)
  | Power, _, _ => let! r := f_pow K (as_float a) (as_float b) in Ok (match r with Some v => PFloat v | None => PComplex end)
  | Min, _, _ => Ok (PFloat (f_min K (as_float a) (as_float b)))
  | Max, _, _ => Ok (PFloat (f_max K (as_float a) (as_float b)))
  end.
Definition apply1 (u : unop) (a : num) : pynum :=
  match u, a with
  | Abs, NI z => PNumpyInt (Z.abs z)
  | Sgn, NI z => PNumpyInt (Z.sgn z)
  | Abs, NF x => PFloat (f_abs K x)
  | Sgn, NF x => PFloat (f_sgn K x)
  | UFun n, _ => PFloat (f_fun K n (as_float a))
  end.

(** Terms: constants, numbers that CompoundTerm has stored as they are (terms.py:179-183), ground terms over functions of the user with their codomain, and terms over the built-in functions. *)
Inductive nterm := TConst (c : const) | TRaw (x : F) | TFun (f : string) (s : nsort) | TBin (o : binop) (a b : nterm) | TUn (u : unop) (a : nterm).
(** [t.sort]; the codomain of every built-in function is Real (theories.py:88-122). *)
Definition term_sort (t : nterm) : nsort := match t with TConst c => c_sort c | TFun _ s => s | _ => SReal end.

(** simple.py:77-115, 177-211. [I]: the values the model gives to the terms of the user (Model.value); KeyError becomes UndefinedTerm. *)
Section Evaluate.
Variable I : string -> option const.
Fixpoint evaluate (t : nterm) : res const :=
  match t with
  | TConst c => Ok c
  | TRaw x => constant SReal (NF x)
  | TFun f _ => match I f with Some c => Ok c | None => Err UndefinedTerm end
  | TUn u a => let! c := evaluate a in to_constant (apply1 u (c_num c))
  | TBin o a b => let! c := evaluate a in let! d := evaluate b in let! v := apply2 o (c_num c) (c_num d) in to_constant v
  end.
End Evaluate.

(** special.py:4-24 [min], [max]; [loaded]: the language has the theory of special functions. Two Python numbers call the function again and again: RecursionError is a RuntimeError. *)
Inductive operand := ONum (n : num) | OTerm (t : nterm).
Definition argument (x : operand) : res nterm := match x with OTerm t => Ok t | ONum n => let! c := constant SReal n in Ok (TRaw (as_float (c_num c))) end.
Definition special2 (loaded : bool) (o : binop) (x y : operand) : res nterm :=
  match x, y with
  | ONum _, ONum _ => Err RuntimeError
  | _, _ => if loaded then let! a := argument x in let! b := argument y in Ok (TBin o a b) else Err UndefinedElement
  end.
(** special.py:26-78 and arithmetic/__init__.py:130-132: [x.language] of a number raises AttributeError. *)
Definition special1 (loaded : bool) (u : unop) (x : operand) : res nterm :=
  match x with ONum _ => Err AttributeError | OTerm t => if loaded then Ok (TUn u t) else Err UndefinedElement end.
(** arithmetic/__init__.py:125-127 *)
Definition make_pow (loaded : bool) (x y : operand) : res nterm :=
  match x with ONum _ => Err AttributeError | OTerm t => if loaded then let! b := argument y in Ok (TBin Power t b) else Err UndefinedElement end.
End Numbers.
Arguments NI {K}. Arguments NF {K}.
Arguments c_sort {K}. Arguments c_num {K}.
Arguments TConst {K}. Arguments TRaw {K}. Arguments TFun {K}. Arguments TBin {K}. Arguments TUn {K}.
Arguments ONum {K}. Arguments OTerm {K}.
