(** Temporal actions with resources: src/tarski/ndl/temporal.py *)
From Coq Require Import QArith.
From Verif Require Import Base Syntax ModelState Lang Theories.
#[local] Open Scope list_scope.

(** Times are exact rationals (the docstring, temporal.py:142-146); in Python they are floats or integers. Python's max(a, b) is b only when b > a. *)
Definition py_max (a b : Q) : Q := if Qlt_le_dec a b then b else a.

(** temporal.py:26-54. The class of what is given as [r] and [n] is tested when the object is built. NDLSyntaxError is an Exception of its own; [SyntaxError] stands for it. *)
Inductive resource := Lock (ts td : Q) (r : term) | Level (ts td : Q) (r n : term).
Definition is_application (t : term) : bool := match t with App _ _ => true | _ => false end.     (* isinstance(t, CompoundTerm): terms.py:140; IfThenElse is a Term, terms.py:254 *)
Definition is_constant (t : term) : bool := match t with Cst _ _ => true | _ => false end.
Definition make_lock (ts td : Q) (r : term) : res resource := if is_application r then Ok (Lock ts td r) else Err SyntaxError.
Definition make_level (st : tlang) (ts td : Q) (r n : term) : res resource :=
  if is_application r then if is_constant n then if String.eqb (Theories.sort_of st n) (Theories.sort_of st r) then Ok (Level ts td r n) else Err SyntaxError
                           else Err SyntaxError else Err SyntaxError.
Definition duration (r : resource) : Q := match r with Lock _ td _ | Level _ td _ _ => td end.

(** temporal.py:57-117. [EAssign]: the left side can be a term or a formula; [value] is a Python object or a term. [EElse]: universal and conditional effects, and anything else. *)
Inductive effect := ESetLit (lit : formula) (value : bool) | EAssign (lhs : term + formula) (value : pval) | EElse.
(** What a requirement wraps: an object with an attribute [eff] (TimedEffect) or not *)
Inductive requirement := RTimed (delay : Q) (r : resource) | RWrong (delay : Q) | RBare.
(** What can be given as a timed effect: a TimedEffect or something else *)
Inductive given := GTimed (delay : Q) (e : effect) | GBare.

(** The keys of [effect_times]: temporal.py:208, 210. The second kind is a tuple; a reference and a tuple are never equal. References are compared as syntax (symrefs.py:24). *)
Inductive key := KEquation (f : formula) | KLiteral (f : formula) (v : bool).
Definition key_eqb (a b : key) : bool :=
  match a, b with KEquation f, KEquation g => formula_eqb f g | KLiteral f v, KLiteral g w => formula_eqb f g && Bool.eqb v w | _, _ => false end.

Record input := { i_precondition : formula; i_postcondition : option formula; i_requirements : list requirement; i_timed : list given; i_untimed : list effect }.
Record action := { a_precondition : formula; a_postcondition : option formula; a_locks : list requirement; a_levels : list requirement;
                   a_timed : list (Q * effect); a_untimed : list (Q * effect); a_times : list (key * Q); a_max : Q }.

(** temporal.py:163-164, 172-175 *)
Definition condition_class (f : formula) : bool := match f with Comp _ _ | Atom _ _ | Top => true | _ => false end.

(** temporal.py:184-192; [lv] are the levels, [lk] the locks found so far *)
Fixpoint requirements (rs : list requirement) (lk lv : list requirement) (m : Q) : res (list requirement * list requirement * Q) :=
  match rs with
  | [] => Ok (lk, lv, m)
  | RTimed d (Lock ts td r) :: k => requirements k (lk ++ [RTimed d (Lock ts td r)]) lv (py_max m td)
  | RTimed d (Level ts td r n) :: k => requirements k lk (lv ++ [RTimed d (Level ts td r n)]) (py_max m td)
  | RWrong _ :: _ => Err SyntaxError
  | RBare :: _ => Err AttributeError
  end.

Section Operators.
Variable parse : bool -> string -> option Z.
Variable fuel : nat.
Variable st : tlang.
(** temporal.py:206-212. A formula is compared with [==] as syntax, so that the key is asked of a Boolean: symref raises RuntimeError. *)
Definition key_of (e : effect) : res key :=
  match e with
  | EAssign (inl t) v => let! f := dispatch_pred parse fuel st PEq (PyTerm t) v in Ok (KEquation f)
  | EAssign (inr _) _ => Err RuntimeError
  | ESetLit f v => Ok (KLiteral f v)
  | EElse => Err NotImplementedError
  end.
(** temporal.py:201-212 *)
Fixpoint timed (gs : list given) (es : list (Q * effect)) (ks : list (key * Q)) (m : Q) : res (list (Q * effect) * list (key * Q) * Q) :=
  match gs with
  | [] => Ok (es, ks, m)
  | GBare :: _ => Err SyntaxError
  | GTimed d e :: k => let! x := key_of e in timed k (es ++ [(d, e)]) (dset key_eqb ks x d) (py_max m d)
  end.
(** temporal.py:152-214; the name, the parameters, the duration and the grounding constraints are stored as they are given *)
Definition build (i : input) : res action :=
  if condition_class (i_precondition i) then
    if match i_postcondition i with None => true | Some f => condition_class f end then
      let! x := requirements (i_requirements i) [] [] 0%Q in
      match x with
      | (lk, lv, m) => let! y := timed (i_timed i) [] [] m in
        match y with
        | (es, ks, m') => Ok {| a_precondition := i_precondition i; a_postcondition := i_postcondition i; a_locks := lk; a_levels := lv; a_timed := es;
                                a_untimed := map (fun e => (0%Q, e)) (i_untimed i); a_times := ks; a_max := m' |}
        end
      end
    else Err SyntaxError
  else Err SyntaxError.
End Operators.

(** temporal.py:216-217 *)
Definition get_effect_time (a : action) (k : key) : res Q := match dget key_eqb (a_times a) k with Some d => Ok d | None => Err KeyError end.
