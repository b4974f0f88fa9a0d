(** Matrices: src/tarski/syntax/algebra/matrix.py, src/tarski/syntax/arithmetic/__init__.py:135-160 (transpose), src/tarski/evaluators/simple.py:81-87, 132-143, 190-211, src/tarski/fol.py:269-276 *)
From Verif Require Import Base.

(** The sorts Real and Integer (sorts.py:213-225); Natural and user-defined intervals are not modelled. *)
Inductive nsort : Set := SReal | SInt.
Definition nsort_eqb (a b : nsort) : bool := match a, b with SReal, SReal | SInt, SInt => true | _, _ => false end.
(** The operators of the theory of arithmetic that are modelled here: + - * / and @ *)
Inductive mop : Set := OpPlus | OpMinus | OpTimes | OpOver | OpMat.
Definition int_bound : Z := 2147483647.

(** An implementation of floating-point numbers: nothing is assumed about them. [f_within]: between the bounds of Real. [f_integer]: the integer that a float is equal to. *)
Record floats := {
  float : Type; f_add : float -> float -> float; f_sub : float -> float -> float; f_mul : float -> float -> float; f_div : float -> float -> res float;
  f_within : float -> bool; f_of_int : Z -> float; f_integer : float -> option Z }.

Section Numbers.
Variable K : floats.
Notation F := (float K).
(** Python's numbers, and constants: the name of a constant of sort Real is a float, that of one of sort Integer an int (sorts.py:105-117, 192-199, terms.py:310-320). *)
Inductive num := NI (z : Z) | NF (x : F).
Inductive const := CR (x : F) | CI (z : Z).
Definition const_sort (c : const) : nsort := match c with CR _ => SReal | CI _ => SInt end.
Definition symbol (c : const) : num := match c with CR x => NF x | CI z => NI z end.
(** sorts.py:105-117 [Interval.cast], :192-199, in [Constant(x, s)] *)
Definition constant (s : nsort) (n : num) : res const :=
  match s with
  | SReal => let x := match n with NI z => f_of_int K z | NF x => x end in if f_within K x then Ok (CR x) else Err ValueError
  | SInt => match (match n with NI z => Some z | NF x => f_integer K x end) with
            | Some z => if (Z.leb (- int_bound) z && Z.leb z int_bound)%bool then Ok (CI z) else Err ValueError
            | None => Err ValueError
            end
  end.
(** Python's operators on numbers; the quotient of two ints is a float. *)
Definition as_float (n : num) : F := match n with NI z => f_of_int K z | NF x => x end.
Definition number_op (o : mop) (a b : num) : res num :=
  match o, a, b with
  | OpPlus, NI x, NI y => Ok (NI (x + y))
  | OpMinus, NI x, NI y => Ok (NI (x - y))
  | OpTimes, NI x, NI y => Ok (NI (x * y))
  | OpPlus, _, _ => Ok (NF (f_add K (as_float a) (as_float b)))
  | OpMinus, _, _ => Ok (NF (f_sub K (as_float a) (as_float b)))
  | OpTimes, _, _ => Ok (NF (f_mul K (as_float a) (as_float b)))
  | OpOver, _, _ => let! x := f_div K (as_float a) (as_float b) in Ok (NF x)
  | OpMat, _, _ => Err AttributeError                 (* [lhs.shape] of a number, simple.py:133 *)
  end.
(** ops.py:44-49 [infer_numeric_sort] *)
Definition infer_sort (n : num) : nsort := match n with NI _ => SInt | NF _ => SReal end.

(** Scalar terms: constants, ground terms over functions of the user with their codomain, and terms over operators, whose sort is Real (theories.py:104-107). *)
Inductive sterm := SC (c : const) | SF (f : string) (s : nsort) | SOp (o : mop) (x y : sterm).
Definition term_sort (t : sterm) : nsort := match t with SC c => const_sort c | SF _ s => s | SOp _ _ _ => SReal end.
(** A Matrix: the numpy array with its shape, and the sort *)
Record mat := { m_rows : nat; m_cols : nat; m_sort : nsort; m_array : list (list sterm) }.
Inductive mexp := MC (c : const) | MF (f : string) (s : nsort) | MM (m : mat) | MOp (o : mop) (a b : mexp).

(** What a numpy array given to [Matrix] contains: terms or numbers *)
Inductive entry := ET (t : sterm) | EN (n : num).
(** matrix.py:16-27. SyntacticError is a LanguageError (errors.py). *)
Definition check_entry (s : nsort) (e : entry) : res sterm :=
  match e with ET t => if nsort_eqb (term_sort t) s then Ok t else Err LanguageError | EN n => let! c := constant s n in let! c := constant s (symbol c) in Ok (SC c) end.
Definition check_matrix (n k : nat) (s : nsort) (rows : list (list entry)) : res mat :=
  let! r := mapM (mapM (check_entry s)) rows in Ok {| m_rows := n; m_cols := k; m_sort := s; m_array := r |}.
(** matrix.py:11-15: [np.array] of a list of lists. The array has two dimensions iff there is a row and all rows have the same length; otherwise [N, M = shape] raises ValueError. Entries that are lists themselves are not modelled. *)
Definition matrix (rows : list (list entry)) (s : nsort) : res mat :=
  match rows with
  | [] => Err ValueError
  | r :: _ => if forallb (fun r' => Nat.eqb (List.length r') (List.length r)) rows then check_matrix (List.length rows) (List.length r) s rows else Err ValueError
  end.
(** fol.py:269-272 *)
Definition vector (es : list entry) (s : nsort) : res mat := check_matrix (List.length es) 1 s (map (fun e => [e]) es).
(** matrix.py:44-46; an index out of range raises IndexError. *)
Definition getitem (m : mat) (i j : nat) : res sterm :=
  match nth_error (m_array m) i with Some r => match nth_error r j with Some t => Ok t | None => Err IndexError end | None => Err IndexError end.

(** numpy's transposition *)
Definition column (rows : list (list sterm)) (j : nat) : list sterm := flat_map (fun r => match nth_error r j with Some t => [t] | None => [] end) rows.
Definition transposed (m : mat) : mat := {| m_rows := m_cols m; m_cols := m_rows m; m_sort := m_sort m; m_array := map (column (m_array m)) (seq 0 (m_cols m)) |}.
(** arithmetic/__init__.py:135-160. [Matrix(\[m\], s)] has one dimension: ValueError. The transposed matrix is a view of the same array and an operator term is changed in place; the model has the results only. @ is not among
    the operators of [get_arithmetic_binary_functions]. *)
Fixpoint transpose (e : mexp) : res mexp :=
  match e with
  | MM m => Ok (MM (transposed m))
  | MOp OpPlus a b => let! a := transpose a in let! b := transpose b in Ok (MOp OpPlus a b)
  | MOp OpMinus a b => let! a := transpose a in let! b := transpose b in Ok (MOp OpMinus a b)
  | MOp OpTimes a b => let! b := transpose b in let! a := transpose a in Ok (MOp OpTimes b a)
  | MOp _ _ _ => Err LanguageError
  | MF _ _ => Err LanguageError
  | MC _ => Err ValueError
  end.

Section Evaluate.
(** the value of a ground term over functions of the user: Model.value (model.py) *)
Variable fluents : string -> res const.
(** simple.py:190-211 on two constants *)
Definition arithmetic (o : mop) (a b : const) : res const := let! n := number_op o (symbol a) (symbol b) in constant (infer_sort n) n.
Fixpoint eval_scalar (t : sterm) : res const :=
  match t with SC c => Ok c | SF f _ => fluents f | SOp o x y => let! a := eval_scalar x in let! b := eval_scalar y in arithmetic o a b end.
(** simple.py:81-87 *)
Definition eval_matrix (m : mat) : res mat :=
  let! rows := mapM (mapM (fun t => let! c := eval_scalar t in Ok (ET (SC c)))) (m_array m) in matrix rows (m_sort m).
(** ops.py:13-41 with simple.py:132-143 and Python's [sum]: [0 + t] casts 0 to the sort of [t]. *)
Definition plus_terms (acc : entry) (t : sterm) : res entry :=
  match acc with EN n => let! c := constant (term_sort t) n in Ok (ET (SOp OpPlus (SC c) t)) | ET u => Ok (ET (SOp OpPlus u t)) end.
Definition sum_terms (ts : list sterm) : res entry := fold_left (fun acc t => let! a := acc in plus_terms a t) ts (Ok (EN (NI 0))).
Fixpoint zip_with (f : sterm -> sterm -> sterm) (xs ys : list sterm) : list sterm := match xs, ys with x :: xs', y :: ys' => f x y :: zip_with f xs' ys' | _, _ => [] end.
(** [zip( *rows )]: nothing for no rows *)
Definition columns (m : mat) : list (list sterm) := match m_array m with [] => [] | _ => map (column (m_array m)) (seq 0 (m_cols m)) end.
Definition multiply (a b : mat) : res (list (list entry)) :=
  if Nat.eqb (m_cols a) (m_rows b) then mapM (fun r => mapM (fun c => sum_terms (zip_with (SOp OpTimes) r c)) (columns b)) (m_array a) else Err TypeError.
(** Operators between a matrix and a number, which numpy applies to each entry: [entry o number] and [number o entry] (ops.py:23-35) *)
Definition with_number (o : mop) (n : num) (t : sterm) : res entry := let! c := constant (term_sort t) n in Ok (ET (SOp o t (SC c))).
Definition number_with (o : mop) (n : num) (t : sterm) : res entry := let! c := constant (term_sort t) n in Ok (ET (SOp o (SC c) t)).
Definition elementwise (f : sterm -> res entry) (m : mat) : res mat := let! rows := mapM (mapM f) (m_array m) in check_matrix (m_rows m) (m_cols m) (m_sort m) rows.

Inductive mval := VS (c : const) | VM (m : mat).
(** simple.py:77-115, 190-211. Two matrices with an operator other than @: the operator gives a term, [Matrix] of which has no dimension: ValueError. *)
Fixpoint evaluate (e : mexp) : res mval :=
  match e with
  | MC c => Ok (VS c)
  | MF f _ => let! c := fluents f in Ok (VS c)
  | MM m => let! v := eval_matrix m in Ok (VM v)
  | MOp o x y =>
      let! a := evaluate x in let! b := evaluate y in
      match a, b with
      | VS c, VS d => let! v := arithmetic o c d in Ok (VS v)
      | VM m, VM n =>
          match o with
          | OpMat => let! rows := multiply m n in let! p := matrix rows (m_sort m) in let! v := eval_matrix p in Ok (VM v)
          | _ => Err ValueError
          end
      | VM m, VS c => match o with OpMat => Err AttributeError | _ => let! p := elementwise (with_number o (symbol c)) m in let! v := eval_matrix p in Ok (VM v) end
      | VS c, VM m => match o with OpMat => Err AttributeError | _ => let! p := elementwise (number_with o (symbol c)) m in let! v := eval_matrix p in Ok (VM v) end
      end
  end.
End Evaluate.
End Numbers.
Arguments NI {K}. Arguments NF {K}. Arguments CR {K}. Arguments CI {K}. Arguments SC {K}. Arguments SF {K}. Arguments SOp {K}. Arguments ET {K}. Arguments EN {K}.
Arguments MC {K}. Arguments MF {K}. Arguments MM {K}. Arguments MOp {K}. Arguments VS {K}. Arguments VM {K}.
Arguments m_rows {K}. Arguments m_cols {K}. Arguments m_sort {K}. Arguments m_array {K}.
