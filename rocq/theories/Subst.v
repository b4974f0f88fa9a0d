(** Syntactic substitution through the generic syntax walker:
    src/tarski/syntax/transform/substitutions.py and src/tarski/syntax/walker.py *)
From Verif Require Import Base Syntax.

(** A Python dict from TermReferences to expressions (substitutions.py:13-20), split by the kind of the key: [sub_t] holds
    the entries whose key is a term, [sub_f] those whose key is a formula. An entry nearer the head is newer and wins.
    Simplification: a term key is mapped to a term and a formula key to a formula. *)
Record subst := { sub_t : list (term * term); sub_f : list (formula * formula) }.

(** [dict.get(symref(node))] (symrefs.py: TermReference equality is syntactic equality). *)
Fixpoint get_t (l : list (term * term)) (t : term) : option term :=
  match l with [] => None | (k, v) :: l' => if term_eqb k t then Some v else get_t l' t end.
Fixpoint get_f (l : list (formula * formula)) (f : formula) : option formula :=
  match l with [] => None | (k, v) :: l' => if formula_eqb k f then Some v else get_f l' f end.

(** substitutions.py:17-20 [ExpressionSubstitutionWalker.visit] *)
Definition visit_t (s : subst) (t : term) : term := match get_t (sub_t s) t with None => t | Some x => x end.
Definition visit_f (s : subst) (f : formula) : formula := match get_f (sub_f s) f with None => f | Some x => x end.

(** walker.py:60-86 [visit_expression] with the visitor above: children first (including the condition of an if-then-else and
    the bound variables of a quantified formula), then the rewritten node itself is looked up.
    The entry point substitutions.py:23-32 [substitute_expression] deep-copies its argument unless inplace=True; the model
    returns the new tree. [accept] (walker.py:88-89) removes suppressed nodes; the visitor never suppresses. *)
Fixpoint subst_term (s : subst) (t : term) : term :=
  visit_t s
    match t with
    | Var _ _ | Cst _ _ => t
    | App f ts => App f (map (subst_term s) ts)
    | Ite c a b => Ite (subst_formula s c) (subst_term s a) (subst_term s b)
    end
with subst_formula (s : subst) (f : formula) : formula :=
  visit_f s
    match f with
    | Top | Bot => f
    | Atom p ts => Atom p (map (subst_term s) ts)
    | Comp c fs => Comp c (map (subst_formula s) fs)
    | Quant q vs g => Quant q (map (subst_term s) vs) (subst_formula s g)
    end.

(** substitutions.py:34-35 [create_substitution]: {symref(symbols[k]): v for k, v in enumerate(values)}; IndexError when there
    are more values than symbols; surplus symbols are ignored; a later duplicate key overrides. *)
Fixpoint create_pairs (symbols values : list term) : res (list (term * term)) :=
  match values, symbols with
  | [], _ => Ok []
  | v :: values', k :: symbols' => let! l := create_pairs symbols' values' in Ok ((k, v) :: l)
  | _ :: _, [] => Err IndexError
  end.
Definition create_substitution (symbols values : list term) : res subst :=
  let! l := create_pairs symbols values in Ok {| sub_t := rev l; sub_f := [] |}.
