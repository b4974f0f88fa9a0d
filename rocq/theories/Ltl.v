(** Temporal formulas: src/tarski/syntax/temporal/ltl.py, and what the rest of src/tarski/syntax does with them. *)
From Verif Require Import Base Syntax Subst FreeVars Nnf Build.

(** ltl.py:7-8 [TemporalConnective] *)
Inductive top : Set := OX | OF | OG | OU | OR.
(** Formulas: formulas.py:69-164 and ltl.py:14-42 ([TTemp]: a TemporalCompoundFormula with a temporal connective, which is what the functions X, F, G, U, R make; the class also
    accepts Connective.Not, And and Or, but no function uses it so). The conditions of if-then-else terms inside atoms are first-order formulas (simplification). *)
Inductive tform : Set :=
| TTop | TBot
| TAtom (p : psym) (ts : list term)
| TComp (c : connective) (fs : list tform)
| TTemp (o : top) (fs : list tform)
| TQuant (q : quant) (vs : list term) (f : tform).

(** What is passed to the functions: a formula, a term, or something else (a tuple, say). *)
Inductive targ : Set := GF (f : tform) | GT (t : term) | GOther.
Definition targ_form (a : targ) : res tform := match a with GF f => Ok f | _ => Err LanguageError end.

(** ltl.py:23-28 *)
Definition is_unary (o : top) : bool := match o with OX | OF | OG => true | OU | OR => false end.
(** ltl.py:18-32 [_check_well_formed], through CompoundFormula.__init__ (formulas.py:98-102) *)
Definition temporal (o : top) (args : list targ) : res tform :=
  let! fs := mapM targ_form args in
  if (if is_unary o then Nat.eqb (List.length fs) 1 else Nat.leb 2 (List.length fs)) then Ok (TTemp o fs) else Err LanguageError.
(** ltl.py:44-62 *)
Definition X (a : targ) : res tform := temporal OX [a].
Definition F (a : targ) : res tform := temporal OF [a].
Definition G (a : targ) : res tform := temporal OG [a].
Definition U (args : list targ) : res tform := temporal OU args.
Definition R (args : list targ) : res tform := temporal OR args.

(** formulas.py:98-112 [CompoundFormula], on any arguments *)
Definition tcompound (c : connective) (args : list targ) : res tform :=
  let! fs := mapM targ_form args in
  if comp_arity_ok c (List.length fs) then Ok (TComp c fs) else Err LanguageError.
(** formulas.py:174-179 [_to_binary_tree] *)
Definition tbinary (args : list targ) (c : connective) : res tform :=
  match rev args with
  | z :: y :: rest => fold_left (fun acc a => let! phi := acc in tcompound c [a; GF phi]) rest (tcompound c [y; z])
  | _ => Err AssertionError
  end.
(** formulas.py:182-205 [_create_compound], [land], [lor]; a single argument is returned as it is, whatever it is *)
Definition tcreate (args : list targ) (c : connective) (flat : bool) : res targ :=
  match args with
  | [a] => Ok a
  | _ => let! f := if flat then tcompound c args else tbinary args c in Ok (GF f)
  end.
Definition tland (args : list targ) (flat : bool) : res targ := match args with [] => Ok (GF TTop) | _ => tcreate args And flat end.
Definition tlor (args : list targ) (flat : bool) : res targ := match args with [] => Ok (GF TBot) | _ => tcreate args Or flat end.
(** formulas.py:208-219 [neg], [implies], [equiv] *)
Definition tneg (a : targ) : res tform := tcompound Not [a].
Definition timplies (a b : targ) : res targ := let! n := tneg a in tlor [GF n; b] false.
Definition tequiv (a b : targ) : res targ := let! x := timplies a b in let! y := timplies b a in tland [x; y] false.
(** formulas.py:240-257 [quantified] *)
Definition targ_var (a : targ) : res term := match a with GT (Var x s) => Ok (Var x s) | _ => Err LanguageError end.
Definition tquantified (q : quant) (args : list targ) : res tform :=
  match rev args with
  | GF f :: v :: vs => let! xs := mapM targ_var (rev (v :: vs)) in Ok (TQuant q xs f)
  | _ => Err LanguageError
  end.
(** ltl.py:64-66 [W]: [lor(U(args), G(args[0]))], where [args] is the tuple of the arguments, passed to [U] as its only argument *)
Definition W (args : list targ) : res targ :=
  let! u := U [GOther] in
  let! g := match args with [] => Err IndexError | a :: _ => G a end in
  tlor [GF u; GF g] false.

(** substitutions.py:23-32 [substitute_expression], walker.py:60-86, for dictionaries whose keys are terms (simplification): TemporalCompoundFormula is a CompoundFormula, so
    its subformulas are visited, and the object keeps its class and connective. *)
Fixpoint tsubst (s : subst) (f : tform) : tform :=
  match f with
  | TTop | TBot => f
  | TAtom p ts => TAtom p (map (subst_term s) ts)
  | TComp c fs => TComp c (map (tsubst s) fs)
  | TTemp o fs => TTemp o (map (tsubst s) fs)
  | TQuant q vs g => TQuant q (map (subst_term s) vs) (tsubst s g)
  end.

(** visitors.py:59-81 [CollectFreeVariables.visit], ops.py:53-57 *)
Fixpoint tfv (f : tform) (st : fvstate) : res fvstate :=
  match f with
  | TAtom _ ts => Ok (fold_left (fun s u => fv_term u s) ts st)
  | TComp _ fs => foldM (fun s g => tfv g s) fs st
  | TTemp _ fs => foldM (fun s g => tfv g s) fs st
  | TQuant _ vs g =>
      let st1 := (fold_left (fun q v => add_t v q) vs (fst st), snd st) in
      let! st2 := tfv g st1 in
      let! q := foldM (fun q v => remove_t v q) vs (fst st2) in
      Ok (q, snd st2)
  | TTop | TBot => Ok st
  end.
Definition tfree_variables (f : tform) : res (list term) := let! st := tfv f ([], []) in Ok (snd st).

(** syntax/ops.py:65-80 [flatten], [_flatten] *)
Fixpoint tflatten_aux (c : connective) (f : tform) : list tform :=
  match f with
  | TComp d fs => if conn_eqb d c then flat_map (tflatten_aux c) fs else [f]
  | _ => [f]
  end.
Definition tflatten (f : tform) : res tform :=
  match f with
  | TComp And _ => tcompound And (map GF (tflatten_aux And f))
  | TComp Or _ => tcompound Or (map GF (tflatten_aux Or f))
  | _ => Ok f
  end.

(** nnf.py:28-53 [NNFTransformation._convert]: no branch takes a temporal connective, and UnexpectedElementType, a LanguageError, is raised. As in NNF.v, [Err NotAFormula]
    stands for a result that contains a class object, so an error of the model tells only that no formula is returned. *)
Fixpoint tnnf (negated : bool) (f : tform) : res tform :=
  match f with
  | TTop => if negated then Err NotAFormula else Ok TTop
  | TBot => if negated then Err NotAFormula else Ok TBot
  | TAtom p ts => if negated then Ok (TComp Not [TAtom p ts]) else Ok (TAtom p ts)
  | TQuant q vs g => let! g' := tnnf negated g in Ok (TQuant (if negated then negate_quantifier q else q) vs g')
  | TComp Not fs => match fs with [g] => tnnf (negb negated) g | _ => Err AssertionError end
  | TComp c fs => let! fs' := mapM (tnnf negated) fs in Ok (TComp (if negated then negate_connective c else c) fs')
  | TTemp _ _ => Err LanguageError
  end.
