(** Formula constructors and flattening. *)
From Verif Require Import Base Syntax.

(** formulas.py:98-112, [CompoundFormula.__init__] and [_check_well_formed]: arity check.
    Simplification: the isinstance(f, Formula) check always succeeds, arguments are formulas by typing. *)
Definition compound (c : connective) (fs : list formula) : res formula :=
  if comp_arity_ok c (List.length fs) then Ok (Comp c fs) else Err LanguageError.

(** formulas.py:174-179 [_to_binary_tree]: phi := (a[n-2] c a[n-1]); then for the remaining arguments from right to left
    phi := (arg c phi). *)
Definition to_binary_tree (args : list formula) (c : connective) : res formula :=
  match rev args with
  | a_last :: a_prev :: rest_rev =>
      fold_left (fun acc arg => let! phi := acc in compound c [arg; phi]) rest_rev (compound c [a_prev; a_last])
  | _ => Err AssertionError
  end.

(** formulas.py:182-187 [_create_compound] *)
Definition create_compound (args : list formula) (c : connective) (flat : bool) : res formula :=
  match args with
  | [a] => Ok a
  | _ => if flat then compound c args else to_binary_tree args c
  end.

(** formulas.py:190-196 [land] *)
Definition land (args : list formula) (flat : bool) : res formula :=
  match args with [] => Ok Top | _ => create_compound args And flat end.
(** formulas.py:199-205 [lor] *)
Definition lor (args : list formula) (flat : bool) : res formula :=
  match args with [] => Ok Bot | _ => create_compound args Or flat end.
(** formulas.py:208-209 [neg] *)
Definition neg (phi : formula) : res formula := compound Not [phi].
(** formulas.py:212-214 [implies] *)
Definition implies (phi psi : formula) : res formula := let! n := neg phi in lor [n; psi] false.
(** formulas.py:217-219 [equiv] *)
Definition equiv (phi psi : formula) : res formula :=
  let! a := implies phi psi in let! b := implies psi phi in land [a; b] false.

(** formulas.py:240-257 [quantified]. An argument is a term or a formula; the last one must be a formula and the others
    variables. *)
Inductive arg := ATerm (t : term) | AForm (f : formula).
Definition arg_var (a : arg) : res term :=
  match a with ATerm (Var x s) => Ok (Var x s) | _ => Err LanguageError end.
Definition quantified (q : quant) (args : list arg) : res formula :=
  match rev args with
  | AForm f :: (v :: vs) as r => let! xs := mapM arg_var (rev (v :: vs)) in Ok (Quant q xs f)
  | _ => Err LanguageError
  end.
(** formulas.py:222-237, [forall] and [exists] *)
Definition forall_ := quantified QAll.
Definition exists_ := quantified QEx.

(** formulas.py:260-296, [is_and] and the following *)
Definition is_and (f : formula) := match f with Comp And _ => true | _ => false end.
Definition is_or (f : formula) := match f with Comp Or _ => true | _ => false end.
Definition is_neg (f : formula) := match f with Comp Not _ => true | _ => false end.
Definition is_atom (f : formula) := match f with Atom _ _ => true | _ => false end.
Definition is_eq_atom (f : formula) := match f with Atom (PB PEq) _ => true | _ => false end.
Definition is_ne_atom (f : formula) := match f with Atom (PB PNe) _ => true | _ => false end.
(** formulas.py:290-296 [unwrap_conjunction_or_atom] *)
Definition unwrap_conjunction_or_atom (f : formula) : list formula :=
  match f with Atom _ _ => [f] | Comp And fs => fs | _ => [] end.

Definition conn_eqb (c d : connective) : bool :=
  match c, d with And, And | Or, Or | Not, Not => true | _, _ => false end.

(** syntax/ops.py:74-80 [_flatten] *)
Fixpoint flatten_aux (c : connective) (f : formula) : list formula :=
  match f with
  | Comp d fs => if conn_eqb d c then flat_map (flatten_aux c) fs else [f]
  | _ => [f]
  end.
(** syntax/ops.py:65-71 [flatten] *)
Definition flatten (f : formula) : res formula :=
  match f with
  | Comp And _ => compound And (flatten_aux And f)
  | Comp Or _ => compound Or (flatten_aux Or f)
  | _ => Ok f
  end.
