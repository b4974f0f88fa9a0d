(** Specification for operators on terms and for theories. *)
From Verif Require Import Base Syntax Semantics ModelState Lang LangSpec EvalSpec Theories.
#[local] Open Scope string_scope.

(** * What an expression means to Python *)
(** The value of [x o y] for integers, for the three operators whose result on integers is an integer *)
Definition arith_of (o : aop) (x y : Z) : option Z := match o with OpAdd => Some (x + y)%Z | OpSub => Some (x - y)%Z | OpMul => Some (x * y)%Z | _ => None end.
(** The value of an expression when its terms have the values [v]. Every result of an operator must be [ok]. *)
Fixpoint pyvalue (ok : Z -> bool) (v : term -> option cname) (e : pexp) : option cname :=
  match e with
  | PLit c => Some c
  | PLeaf t => v t
  | PBin o a b => match pyvalue ok v a, pyvalue ok v b with
                  | Some (CInt x), Some (CInt y) => match arith_of o x y with Some z => if ok z then Some (CInt z) else None | None => None end
                  | _, _ => None
                  end
  end.
Fixpoint leaves (e : pexp) : list term := match e with PLit _ => [] | PLeaf t => [t] | PBin _ a b => (leaves a ++ leaves b)%list end.
Fixpoint literals (e : pexp) : list cname := match e with PLit c => [c] | PLeaf _ => [] | PBin _ a b => (literals a ++ literals b)%list end.
(** A string that Python would convert to a number *)
Definition no_numeral (parse : bool -> string -> option Z) (c : cname) : Prop := match c with CStr s => forall r, parse r s = None | CInt _ => True end.

(** Structures where numerals, sums, differences, products and comparisons are those of the integers; [val] gives the number or name an element stands for. *)
Record arithmetical (M : structure) (val : carrier M -> option cname) : Prop := {
  ar_cst : forall c s, val (cint M c s) = Some c;
  ar_add : forall x y a b, val x = Some (CInt a) -> val y = Some (CInt b) -> val (fint M (FB BAdd) [x; y]) = Some (CInt (a + b));
  ar_sub : forall x y a b, val x = Some (CInt a) -> val y = Some (CInt b) -> val (fint M (FB BSub) [x; y]) = Some (CInt (a - b));
  ar_mul : forall x y a b, val x = Some (CInt a) -> val y = Some (CInt b) -> val (fint M (FB BMul) [x; y]) = Some (CInt (a * b));
  ar_cmp : forall b x y c d r, val x = Some c -> val y = Some d -> name_cmp b c d = Some r -> pint M (PB b) [x; y] = r
}.

(** * When an expression can be built *)
Inductive ptype : Set := IsValue (c : cname) | HasSort (s : sort).
Section Build.
Variable parse : bool -> string -> option Z.
Variable st : tlang.
Notation l := (t_lang st).
(** [s.contains(c)]; integers that a float may not represent are excluded for sorts of floats *)
Definition admits (s : sort) (c : cname) : Prop :=
  sort_contains parse l s c = Ok true /\ (is_real l s = true -> match c with CInt z => (Z.abs z <= 2 ^ 53)%Z | CStr _ => True end).
Definition numeric (s : sort) : Prop := le l s "Real".
Inductive builds : pexp -> ptype -> Prop :=
| b_lit c : builds (PLit c) (IsValue c)
| b_leaf t : builds (PLeaf t) (HasSort (sort_of st t))
| b_numbers o a b x y z : builds a (IsValue (CInt x)) -> builds b (IsValue (CInt y)) -> arith_of o x y = Some z -> builds (PBin o a b) (IsValue (CInt z))
| b_terms o a b s t : o <> OpNone -> builds a (HasSort s) -> builds b (HasSort t) -> numeric s -> numeric t -> builds (PBin o a b) (HasSort "Real")
| b_right o a b s c : o <> OpNone -> builds a (HasSort s) -> builds b (IsValue c) -> numeric s -> admits s c -> builds (PBin o a b) (HasSort "Real")
| b_left o a b c t : In o [OpAdd; OpSub; OpMul; OpDiv] -> builds a (IsValue c) -> builds b (HasSort t) -> numeric t -> admits t c -> builds (PBin o a b) (HasSort "Real").
(** Comparisons of which one side at least is a term: equations between any sorts, the others between numeric ones *)
Definition comparable (b : bpred) (s : sort) : Prop := match b with PEq | PNe => is_sort l s | _ => numeric s end.
Inductive compares (b : bpred) : pexp -> pexp -> Prop :=
| c_terms x y s t : builds x (HasSort s) -> builds y (HasSort t) -> comparable b s -> comparable b t -> compares b x y
| c_right x y s c : builds x (HasSort s) -> builds y (IsValue c) -> comparable b s -> admits s c -> compares b x y
| c_left x y c t : builds x (IsValue c) -> builds y (HasSort t) -> comparable b t -> admits t c -> compares b x y.
End Build.

(** * Theories *)
(** The symbols of a theory: what one can call or write between terms once it is loaded *)
Definition symbols_of (t : theory) : list string :=
  match t with
  | TBoolean => []
  | TEquality => ["="; "!="]
  | TArithmetic => ["@"; "<"; "<="; ">"; ">="; "+"; "-"; "*"; "/"; "**"; "%"; "sqrt"]
  | TSpecial => ["min"; "max"; "abs"; "sin"; "cos"; "tan"; "atan"; "asin"; "exp"; "log"; "erf"; "erfc"; "sgn"]
  | TRandom => ["normal"; "gamma"]
  end.
(** The named elements that loading a theory declares, unless there are arithmetic sorts already *)
Definition arithmetic_sorts := [(CStr "Real", ESort "Real"); (CStr "Integer", ESort "Integer"); (CStr "Natural", ESort "Natural")].
Definition own_names (t : theory) : list (cname * elem) :=
  match t with
  | TBoolean => [(CStr "Boolean", ESort "Boolean"); (CStr "True", EConst (CStr "True") "Boolean"); (CStr "False", EConst (CStr "False") "Boolean")]
  | TArithmetic => [(CStr "ite", EFun "ite" ["object"; "object"; "object"])]
  | _ => []
  end.
Definition numerical (t : theory) : Prop := In t [TArithmetic; TSpecial; TRandom].
Definition unused (l : lang) (n : cname) : Prop := lget l n = Err UndefinedElement.
(** The names that a theory needs are free, or (for the sorts) the language has Integer and Real. *)
Definition loadable (l : lang) (t : theory) : Prop :=
  (forall n e, In (n, e) (own_names t) -> unused l n) /\
  (numerical t -> (is_sort l "Integer" /\ is_sort l "Real") \/ (~ is_sort l "Integer" /\ forall n e, In (n, e) arithmetic_sorts -> unused l n)).
(** A symbol can be used: there is a handler for the operator, and the predicate or function. *)
Definition usable (st : tlang) (x : string) : Prop := In x (t_handlers st) /\ In x (t_symbols st).
Definition tnative (o : top) : bool := match o with TOp o => native o | TLoad _ => true end.
(** What loading [t] declares in a language [l] *)
Definition declared (l : lang) (t : theory) (n : cname) (e : elem) : Prop := In (n, e) (own_names t) \/ (numerical t /\ ~ is_sort l "Integer" /\ In (n, e) arithmetic_sorts).
(** The parents of the sorts of the theories *)
Definition sort_parents := [("Boolean", "object"); ("Real", "object"); ("Integer", "Real"); ("Natural", "Integer")].
