(** Derived predicates and metrics of a PDDL file: src/tarski/io/pddl/parser.py:374-387, 1246-1269, 1392-1432 and src/tarski/io/pddl/instance.py:26-46, 74, 348-371.
    As in PddlExpr the model starts from the trees of the grammar. *)
From Verif Require Import Base Syntax ModelState Lang PddlInstance PddlExpr.
#[local] Open Scope string_scope.
#[local] Open Scope list_scope.

(** The keys of [instance.predicates] (instance.py:65, 213), after the declarations [ds] *)
Definition predicate_keys (ds : list decl) : list string := flat_map (fun d => match d with DPred n _ => [n] | _ => [] end) ds.

(** instance.py:26 [DerivedPredicateData]; the head is the function object, given by its name and its domain. *)
Record pderived := { de_head : string; de_domain : list string; de_parameters : list var; de_body : formula }.

Section Derived.
Variable parse : bool -> string -> option Z.
Variable fuel : nat.
Variable ds : list decl.
Variable i : pinst.
(** parser.py:1252-1258: [self.instance.predicates] is a dictionary, whose [get] returns [None] for a name that is not declared, so that [head_pred.domain] raises AttributeError and the
    SemanticError of line 1257 is never raised. The value of a key is the function that the language has under that name (instance.py:213). *)
Definition head_predicate (n : string) : res (list string) :=
  if str_mem n (predicate_keys ds) then match lget (pi_lang i) (CStr n) with Ok (EFun _ ss) => Ok (removelast ss) | _ => Err NotModelled end else Err AttributeError.
(** parser.py:1258-1263: the loop runs over the domain of the predicate, so that variables after the last one of the domain are not looked at; sorts are compared by name (sorts.py:32-33). *)
Fixpoint check_head (dom : list string) (xs : list var) : res unit :=
  match dom, xs with
  | [], _ => Ok tt
  | _ :: _, [] => Err IndexError
  | s :: dom', x :: xs' => if String.eqb s (snd x) then check_head dom' xs' else Err SemanticError
  end.
(** parser.py:374-387 [p_atomic_formula_skeleton_vars], then the condition, then :1246-1269 [p_derived_def]; instance.py:348-359 *)
Definition read_derived (d : scope) (n : string) (args : list vtoken) (g : gd) : res (pderived * scope) :=
  let! xs := normalize i [] args in
  let! fd := read_gd parse fuel i (enter d xs) g in
  let! dom := head_predicate n in
  let! _ := check_head dom xs in
  let! d' := leave (snd fd) xs in
  Ok ({| de_head := n; de_domain := dom; de_parameters := xs; de_body := fst fd |}, d').
(** The derived predicates of a file, in the order of the text ([instance.derived], instance.py:144-150) *)
Definition derived_def := (string * list vtoken * gd)%type.
Definition read_derived_all (ps : list derived_def) : res (list pderived * scope) :=
  read_list (fun d (p : derived_def) => read_derived d (fst (fst p)) (snd (fst p)) (snd p)) [] ps.
End Derived.

(** ** Metrics *)
(** parser.py:1406-1416: the productions of [metric_f_exp], in the order of the grammar *)
Inductive mexp : Set :=
| MBinary (op : string) (a b : mexp) | MMulti (op : string) (a : mexp) (r : list mexp) | MMinus (a : mexp) | MReal (c : string) | MApp (f : string) (ns : list string) | MName (n : string)
| MTime | MCost | MViolated (n : string).
(** instance.py:30-46; the expression of an objective is always [None] *)
Inductive omode : Set := Minimize | Maximize.
Inductive otype : Set := Unspecified | TotalCost | TotalTime.
Definition objective := (omode * otype)%type.
(** parser.py:1406-1423 [p_metric_f_exp], :1425-1432: parts are read first. For the productions with one symbol [p\[2\]] raises IndexError. The operators are [+ - * /]. An identifier
    can be total-time or total-cost: the lexer looks for keywords before it makes the letters lower case (lexer.py:209-212), so that Total-Cost is an identifier with the value total-cost. *)
Definition keyword (v : string) : otype := if String.eqb v "total-time" then TotalTime else if String.eqb v "total-cost" then TotalCost else Unspecified.
Fixpoint read_mexp (m : mexp) : res otype :=
  match m with
  | MBinary op a b => let! _ := read_mexp a in let! _ := read_mexp b in Ok (keyword op)
  | MMulti op a r => let! _ := read_mexp a in let! _ := mapM read_mexp r in Ok (keyword op)
  | MMinus a => let! _ := read_mexp a in Ok (keyword "-")
  | MReal _ | MName _ => Err IndexError
  | MApp f _ => Ok (keyword f)
  | MTime => Ok (keyword "total-time")
  | MCost => Ok (keyword "total-cost")
  | MViolated _ => Ok (keyword "is-violated")
  end.
(** parser.py:1392-1404 [p_metric_spec], [p_optimization]: the mode is decided by the text of the keyword; instance.py:361-371. [None]: the file has no metric (instance.py:74). *)
Definition optimization (v : string) : omode := if String.eqb v "minimize" then Minimize else Maximize.
Definition read_metric (m : option (string * mexp)) : res objective :=
  match m with
  | None => Ok (Minimize, Unspecified)
  | Some (o, e) => let! t := read_mexp e in Ok (optimization o, t)
  end.
