(** Specification for numeric terms: what they mean. *)
From Verif Require Import Base Numeric.

Section Spec.
Variable K : floats.
Variable I : string -> option (const K).
Notation F := (float K).
(** * Exact arithmetic on the integers: no bounds, no sorts *)
Definition integer_op (o : binop) (x y : Z) : option Z :=
  match o with
  | Plus => Some (x + y)%Z | Minus => Some (x - y)%Z | Times => Some (x * y)%Z | Mod => if Z.eqb y 0 then None else Some (x mod y)%Z
  | Power => if Z.leb 0 y then Some (x ^ y)%Z else None | Min => Some (Z.min x y) | Max => Some (Z.max x y) | Over => None
  end.
Definition integer_fun (u : unop) (x : Z) : option Z := match u with Abs => Some (Z.abs x) | Sgn => Some (Z.sgn x) | UFun _ => None end.
Fixpoint integer_value (t : nterm K) : option Z :=
  match t with
  | TConst c => match c_num c with NI z => Some z | NF _ => None end
  | TRaw _ => None
  | TFun f _ => match I f with Some c => match c_num c with NI z => Some z | NF _ => None end | None => None end
  | TBin o a b => match integer_value a, integer_value b with Some x, Some y => integer_op o x y | _, _ => None end
  | TUn u a => match integer_value a with Some x => integer_fun u x | None => None end
  end.
(** * Arithmetic on floating-point numbers; an integer next to a float counts as a float. The powers of floats are real numbers where they are defined. *)
Definition float_op (o : binop) (x y : F) : option F :=
  match o with
  | Plus => Some (f_add K x y) | Minus => Some (f_sub K x y) | Times => Some (f_mul K x y) | Min => Some (f_min K x y) | Max => Some (f_max K x y)
  | Over => match f_div K x y with Ok z => Some z | Err _ => None end
  | Mod => match f_mod K x y with Ok z => Some z | Err _ => None end
  | Power => match f_pow K x y with Ok z => z | Err _ => None end
  end.
Definition float_fun (u : unop) (x : F) : F := match u with Abs => f_abs K x | Sgn => f_sgn K x | UFun n => f_fun K n x end.
Definition real_of (n : num K) : F := match n with NI z => f_of_int K z | NF x => x end.

(** A number that can be the name of a constant of sort Integer, or Real *)
Definition representable (n : num K) : Prop := match n with NI z => (Z.abs z <= 2 ^ 31 - 1)%Z | NF x => f_within K x = true end.
(** The operators that give an integer when their arguments are integers *)
Definition keeps_integers (o : binop) (y : Z) : Prop := match o with Plus | Minus | Times | Mod => True | Power => (0 <= y)%Z | _ => False end.
(** The number a term stands for when all intermediate results are representable. There is no rule for min, max, abs and sgn of integers. *)
Inductive stands_for : nterm K -> num K -> Prop :=
| sf_const c : stands_for (TConst c) (c_num c)
| sf_raw x : representable (NF x) -> stands_for (TRaw x) (NF x)
| sf_fun f s c : I f = Some c -> stands_for (TFun f s) (c_num c)
| sf_integers o a b x y z : stands_for a (NI x) -> stands_for b (NI y) -> keeps_integers o y -> integer_op o x y = Some z -> representable (NI z) -> stands_for (TBin o a b) (NI z)
| sf_floats o a b m n z : stands_for a m -> stands_for b n -> (exists x, m = NF x) \/ (exists y, n = NF y) -> float_op o (real_of m) (real_of n) = Some z -> representable (NF z) ->
    stands_for (TBin o a b) (NF z)
| sf_quotient o a b x y z : stands_for a (NI x) -> stands_for b (NI y) -> o = Over \/ (o = Power /\ (y < 0)%Z) -> float_op o (f_of_int K x) (f_of_int K y) = Some z -> representable (NF z) ->
    stands_for (TBin o a b) (NF z)
| sf_unary u a x : stands_for a (NF x) -> representable (NF (float_fun u x)) -> stands_for (TUn u a) (NF (float_fun u x))
| sf_function name a x : stands_for a (NI x) -> representable (NF (f_fun K name (f_of_int K x))) -> stands_for (TUn (UFun name) a) (NF (f_fun K name (f_of_int K x))).

(** The sorts below a sort *)
Definition below (s r : nsort) : Prop := match s, r with _, SReal => True | SInt, SInt | SNat, SInt | SNat, SNat => True | _, _ => False end.
(** Constants as the language makes them: an int between the bounds of its sort, or a float *)
Definition proper (c : const K) : Prop :=
  match c_sort c, c_num c with SReal, NF _ => True | SInt, NI z => (Z.abs z <= 2 ^ 31 - 1)%Z | SNat, NI z => (0 <= z <= 2 ^ 32 - 1)%Z | _, _ => False end.
(** The models' values are constants of the codomain *)
Fixpoint well_sorted (t : nterm K) : Prop :=
  match t with
  | TConst c => proper c
  | TRaw _ => True
  | TFun f s => forall c, I f = Some c -> proper c /\ below (c_sort c) s
  | TBin _ a b => well_sorted a /\ well_sorted b
  | TUn _ a => well_sorted a
  end.
(** Terms over + - * % ** whose leaves are integers *)
Fixpoint integral (t : nterm K) : Prop :=
  match t with
  | TConst c => exists z, c_num c = NI z
  | TRaw _ => False
  | TFun f _ => exists c z, I f = Some c /\ c_num c = NI z
  | TBin o a b => In o [Plus; Minus; Times; Mod; Power] /\ integral a /\ integral b
  | TUn _ _ => False
  end.
(** All results on the way are integers between the bounds of Integer *)
Fixpoint stays_small (t : nterm K) : Prop :=
  match t with TBin _ a b => stays_small a /\ stays_small b /\ exists z, integer_value t = Some z /\ representable (NI z) | TUn _ _ => False | _ => True end.
End Spec.
