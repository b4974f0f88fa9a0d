(** Shared vocabulary of the model: Python exceptions as values. *)
From Coq Require Export List String ZArith Bool Arith Lia.
Export ListNotations.
#[global] Open Scope list_scope.

(** The exception classes that the modelled code can raise. Each constructor names the Python class
    (src/tarski/errors.py, src/tarski/syntax/transform/errors.py, src/tarski/grounding/errors.py and Python built-ins). *)
Inductive exn : Set :=
| TransformationError     (* syntax/transform/errors.py:10 *)
| UnableToGroundError     (* grounding/errors.py *)
| ReachabilityLPUnsolvable (* grounding/errors.py *)
| LanguageError           (* errors.py *)
| ArityMismatch | SortMismatch | LanguageMismatch
| UndefinedTerm           (* errors.py, raised by evaluators/simple.py:115 *)
| DuplicateDefinition     (* errors.py; the Duplicate* family *)
| UndefinedElement        (* errors.py; the Undefined* family *)
| UndefinedVariable | DuplicateVariable
| SemanticError
| RepresentationError     (* fstrips/representation.py:32 *)
| TarskiError             (* errors.py, the root class *)
| NotImplementedError | KeyError | TypeError | ValueError | RuntimeError | AssertionError | AttributeError
| IndexError | SyntaxError
| NotAFormula             (* a non-Formula object (e.g. a class) is returned where a Formula is expected *)
| NotModelled             (* model artefact: the Python code does something outside the modelled fragment *)
| OutOfFuel.              (* model artefact: never returned by the Python code *)

(** Result of a Python call: a value or an exception. *)
Inductive res (A : Type) : Type := Ok (a : A) | Err (e : exn).
Arguments Ok {A} a.
Arguments Err {A} e.

Definition bind {A B} (x : res A) (k : A -> res B) : res B :=
  match x with Ok a => k a | Err e => Err e end.
Notation "'let!' x ':=' e 'in' k" := (bind e (fun x => k)) (at level 200, x pattern, e at level 100, k at level 200).

(** Evaluate a list of calls from left to right; the first exception aborts. *)
Definition mapM {A B} (f : A -> res B) : list A -> res (list B) :=
  fix mapM (l : list A) : res (list B) :=
  match l with
  | [] => Ok []
  | x :: l' => match f x with
               | Err e => Err e
               | Ok y => match mapM l' with Err e => Err e | Ok ys => Ok (y :: ys) end
               end
  end.

Definition is_ok {A} (r : res A) : bool := match r with Ok _ => true | Err _ => false end.

(** Python's [itertools.product]: lexicographic, last component fastest; one empty tuple for no iterables. *)
Fixpoint product {A} (ls : list (list A)) : list (list A) :=
  match ls with
  | [] => [[]]
  | l :: ls' => flat_map (fun x => map (cons x) (product ls')) l
  end.
