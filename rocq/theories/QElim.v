(** Quantifier elimination: src/tarski/syntax/transform/quantifier_elimination.py *)
From Verif Require Import Base Syntax Build Subst.

(** What the algorithm reads of the language: for each sort, [None] when it is a built-in sort, else the list of its
    constants ([Sort.domain], syntax/sorts.py:76-77 and [Interval.domain] :159-164). *)
Definition domains := sort -> option (list term).

(** grounding/naive/instantiation.py:5-23 [enumerate_groundings]; returns (instantiations); cardinality is the product of their
    lengths; the second returned component is the *unfiltered* list of symbols. *)
Fixpoint enumerate_groundings (D : domains) (symbols : list term) : res (list (list term)) :=
  match symbols with
  | [] => Ok []
  | Cst _ _ :: l => enumerate_groundings D l
  | Var _ s :: l => match D s with
                    | None => Err UnableToGroundError
                    | Some cs => let! r := enumerate_groundings D l in Ok (cs :: r)
                    end
  | _ :: _ => Err UnableToGroundError
  end.
Definition cardinality (inst : list (list term)) : nat := fold_left (fun n l => n * List.length l) inst 1.

(** quantifier_elimination.py:15-19 *)
Inductive qmode := MExists | MForall | MAll.
(** :35-39 *)
Definition eliminated (m : qmode) (q : quant) : bool :=
  match q, m with QAll, (MAll | MForall) | QEx, (MAll | MExists) => true | _, _ => false end.

(** :62-73 [_expand] with creator land / lor (:51, :54) *)
Definition expand (D : domains) (q : quant) (vs : list term) (g : formula) : res formula :=
  let! inst := enumerate_groundings D vs in
  if Nat.eqb (cardinality inst) 0 then Err TransformationError else
  let! conjuncts := mapM (fun values => let! s := create_substitution vs values in Ok (subst_formula s g)) (product inst) in
  match q with QAll => land conjuncts false | QEx => lor conjuncts false end.

(** Nesting depth of quantifiers: the recursion bound. *)
Fixpoint qdepth (f : formula) : nat :=
  match f with
  | Comp _ fs => fold_right (fun g n => Nat.max (qdepth g) n) 0 fs
  | Quant _ _ g => S (qdepth g)
  | _ => 0
  end.

(** :41-60 [_convert] / [_recurse]; [n] bounds the number of nested expansions (model artefact: Python recurses on the expanded
    formula; the bound is proved sufficient). *)
Fixpoint qe (D : domains) (m : qmode) (n : nat) : formula -> res formula :=
  fix conv (f : formula) : res formula :=
    match f with
    | Top | Bot | Atom _ _ => Ok f
    | Comp c fs => let! fs' := mapM conv fs in Ok (Comp c fs')
    | Quant q vs g =>
        if eliminated m q then
          match n with
          | O => Err OutOfFuel
          | S n' => let! h := expand D q vs g in qe D m n' h
          end
        else let! g' := conv g in Ok (Quant q vs g')
    end.

(** :86-88 *)
Definition remove_quantifiers (D : domains) (m : qmode) (f : formula) : res formula := qe D m (qdepth f) f.
