(** References to expressions as dictionary keys: src/tarski/syntax/symrefs.py, and the [is_syntactically_equal] / [hash]
    methods of terms.py and formulas.py. This file uses its own syntax tree because three Python details matter here that the rest
    of the model abstracts: names may be floats, subformulas are stored in a tuple or in a list, and the hash of a constant is computed
    from the text of its name. *)
From Coq Require Import DecimalString DecimalZ.
From Verif Require Import Base Syntax.
#[local] Open Scope string_scope.

(** Names of constants: str, int, or a float with an integral value of magnitude below 10^16 (printed with a trailing ".0").
    Simplification: no other floats. *)
Inductive hname : Set := NStr (s : string) | NInt (z : Z) | NFloat (z : Z).
(** Symbols are their signatures: (name, sort names) (predicate.py:43-47, function.py likewise). *)
Definition hsig := list string.
Inductive hterm : Set :=
| HVar (x : string) (s : sort)
| HCst (n : hname) (s : sort)
| HApp (f : hsig) (ts : list hterm)
| HIte (c : hformula) (t e : hterm)
with hformula : Set :=
| HTop | HBot
| HAtom (p : hsig) (ts : list hterm)
| HComp (c : connective) (tuple : bool) (fs : list hformula)   (* true: stored in a tuple; false: in a list *)
| HQuant (q : quant) (vs : list hterm) (f : hformula).

(** Python [==] on names: numbers compare by value whatever their type. *)
Definition hname_eqb (a b : hname) : bool :=
  match a, b with
  | NStr s, NStr r => String.eqb s r
  | NStr _, _ | _, NStr _ => false
  | (NInt x | NFloat x), (NInt y | NFloat y) => Z.eqb x y
  end.
Definition hname_text (a : hname) : string :=
  match a with
  | NStr s => s
  | NInt z => NilZero.string_of_int (Z.to_int z)
  | NFloat z => NilZero.string_of_int (Z.to_int z) ++ ".0"
  end.
Definition sig_eqb_h (a b : hsig) : bool := if list_eq_dec string_dec a b then true else false.

(** terms.py:157-158, 344-345, 203-208, 295-301; formulas.py:75-76, 88-89, 340-345, 124-129, 158-164. Comparing a tuple with
    a list with [==] is False in Python; terms are compared with [termlists_are_equal] (util.py:23-25), which ignores the
    container. *)
Fixpoint hterm_eqb (t u : hterm) {struct t} : bool :=
  let terms := fix terms (ts us : list hterm) : bool :=
    match ts, us with [], [] => true | a :: ts', b :: us' => hterm_eqb a b && terms ts' us' | _, _ => false end in
  match t, u with
  | HVar x s, HVar y r => String.eqb x y && String.eqb s r
  | HCst c s, HCst d r => hname_eqb c d && String.eqb s r
  | HApp f ts, HApp g us => sig_eqb_h f g && terms ts us
  | HIte c a b, HIte d a' b' => hformula_eqb c d && (hterm_eqb a a' && hterm_eqb b b')
  | _, _ => false
  end
with hformula_eqb (f g : hformula) {struct f} : bool :=
  let terms := fix terms (ts us : list hterm) : bool :=
    match ts, us with [], [] => true | a :: ts', b :: us' => hterm_eqb a b && terms ts' us' | _, _ => false end in
  let formulas := fix formulas (fs gs : list hformula) : bool :=
    match fs, gs with [], [] => true | a :: fs', b :: gs' => hformula_eqb a b && formulas fs' gs' | _, _ => false end in
  match f, g with
  | HTop, HTop => true
  | HBot, HBot => true
  | HAtom p ts, HAtom q us => sig_eqb_h p q && terms ts us
  | HComp c k fs, HComp d l gs => (if connective_eq_dec c d then true else false) && Bool.eqb k l && formulas fs gs
  | HQuant q vs a, HQuant r us b => (if quant_eq_dec q r then true else false) && terms vs us && hformula_eqb a b
  | _, _ => false
  end.

(** The object handed to Python's built-in [hash]: nested tuples of strings and class / enum objects. Equal keys have equal hashes;
    nothing is assumed about different keys. terms.py:154-155, 341-342, 200-201, 292-293; formulas.py:78-79, 91-92, 347-348,
    131-138, 166-167. *)
Inductive hkey : Set := KStr (s : string) | KClass (s : string) | KConn (c : connective) | KQuant (q : quant) | KTuple (l : list hkey).
Fixpoint hash_t (t : hterm) : hkey :=
  match t with
  | HVar x s => KTuple [KStr x; KStr s]
  | HCst n s => KTuple [KStr (hname_text n); KStr s]
  | HApp f ts => KTuple [KStr (match f with n :: _ => n | [] => "" end); KTuple (map hash_t ts)]
  | HIte c a b => KTuple [KStr "ite"; hash_f c; KTuple [hash_t a; hash_t b]]
  end
with hash_f (f : hformula) : hkey :=
  match f with
  | HTop => KClass "Tautology"
  | HBot => KClass "Contradiction"
  | HAtom p ts => KTuple [KClass "Atom"; KTuple (map KStr p); KTuple (map hash_t ts)]
  | HComp c _ fs => KTuple (KClass "CompoundFormula" :: KConn c :: map hash_f fs)
  | HQuant q vs g => KTuple [KClass "QuantifiedFormula"; KQuant q; KTuple (map hash_t vs); hash_f g]
  end.

(** symrefs.py:5-31: a reference to a term or a formula *)
Inductive href := RTerm (t : hterm) | RFormula (f : hformula).
Definition ref_eqb (a b : href) : bool :=
  match a, b with RTerm t, RTerm u => hterm_eqb t u | RFormula f, RFormula g => hformula_eqb f g | _, _ => false end.
Definition ref_hash (a : href) : hkey := match a with RTerm t => hash_t t | RFormula f => hash_f f end.

(** The in-place walk of walker.py:55-89 with a [visit] that returns its node (for instance [NodeCollectionWalker], ops.py:92-103,
    run by [collect_unique_nodes] and [all_variables]): every container of children is replaced by a list. *)
Fixpoint walk_t (t : hterm) : hterm :=
  match t with
  | HVar x s => HVar x s
  | HCst n s => HCst n s
  | HApp f ts => HApp f (map walk_t ts)
  | HIte c a b => HIte (walk_f c) (walk_t a) (walk_t b)
  end
with walk_f (f : hformula) : hformula :=
  match f with
  | HTop => HTop
  | HBot => HBot
  | HAtom p ts => HAtom p (map walk_t ts)
  | HComp c _ fs => HComp c false (map walk_f fs)
  | HQuant q vs g => HQuant q (map walk_t vs) (walk_f g)
  end.
