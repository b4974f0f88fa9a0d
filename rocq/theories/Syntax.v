(** Abstract syntax of first-order terms and formulas.
    Models the class hierarchies of src/tarski/syntax/terms.py and src/tarski/syntax/formulas.py. *)
From Verif Require Import Base.

(** Sorts are compared and hashed by name only (syntax/sorts.py:7-33), so a sort is its name. *)
Definition sort := string.

(** Names of constants: any Python str or int (terms.py:308-345). Simplification: no floats. *)
Inductive cname : Set := CStr (s : string) | CInt (z : Z).

(** syntax/builtins.py:7-13 *)
Inductive bpred : Set := PEq | PNe | PLt | PLe | PGt | PGe.
(** syntax/builtins.py:22-50; the operators that have their own treatment in the modelled code are
    distinguished, the others are carried by name. *)
Inductive bfun : Set := BAdd | BSub | BMul | BDiv | BOther (name : string).

(** Predicate symbols: built-in, or user symbols identified by their signature (name, sorts)
    (syntax/predicate.py:__eq__ compares signatures). *)
Inductive psym : Set := PB (b : bpred) | PU (name : string) (sorts : list sort).
(** Function symbols (syntax/function.py): signature = name, argument sorts, codomain. *)
Inductive fsym : Set := FB (b : bfun) | FU (name : string) (dom : list sort) (cod : sort).

(** formulas.py:11-14 *)
Inductive connective : Set := And | Or | Not.
(** formulas.py:20-24 *)
Inductive quant : Set := QEx | QAll.

(** terms.py:135 Variable, :308 Constant, :161 CompoundTerm, :249 IfThenElse (AggregateCompoundTerm and matrices are
    not modelled); formulas.py:69 Tautology, :82 Contradiction, :299 Atom, :95 CompoundFormula (any connective, any
    number of subformulas), :141 QuantifiedFormula. The bound "variables" of a QuantifiedFormula are a list of terms because
    the syntax walker may rewrite them into arbitrary terms (walker.py:82). *)
Inductive term : Set :=
| Var (x : string) (s : sort)
| Cst (c : cname) (s : sort)
| App (f : fsym) (ts : list term)
| Ite (c : formula) (t e : term)
with formula : Set :=
| Top
| Bot
| Atom (p : psym) (ts : list term)
| Comp (c : connective) (fs : list formula)
| Quant (q : quant) (vs : list term) (f : formula).

(** Induction principle for the nested mutual type. *)
Section Induction.
  Variables (P : term -> Prop) (Q : formula -> Prop).
  Hypothesis HVar : forall x s, P (Var x s).
  Hypothesis HCst : forall c s, P (Cst c s).
  Hypothesis HApp : forall f ts, Forall P ts -> P (App f ts).
  Hypothesis HIte : forall c t e, Q c -> P t -> P e -> P (Ite c t e).
  Hypothesis HTop : Q Top.
  Hypothesis HBot : Q Bot.
  Hypothesis HAtom : forall p ts, Forall P ts -> Q (Atom p ts).
  Hypothesis HComp : forall c fs, Forall Q fs -> Q (Comp c fs).
  Hypothesis HQuant : forall q vs f, Forall P vs -> Q f -> Q (Quant q vs f).

  Fixpoint term_ind_nested (t : term) : P t :=
    let terms := fix terms (ts : list term) : Forall P ts :=
      match ts with [] => Forall_nil P | u :: us => Forall_cons u (term_ind_nested u) (terms us) end in
    match t with
    | Var x s => HVar x s
    | Cst c s => HCst c s
    | App f ts => HApp f ts (terms ts)
    | Ite c a b => HIte c a b (formula_ind_nested c) (term_ind_nested a) (term_ind_nested b)
    end
  with formula_ind_nested (f : formula) : Q f :=
    let terms := fix terms (ts : list term) : Forall P ts :=
      match ts with [] => Forall_nil P | u :: us => Forall_cons u (term_ind_nested u) (terms us) end in
    let formulas := fix formulas (fs : list formula) : Forall Q fs :=
      match fs with [] => Forall_nil Q | g :: gs => Forall_cons g (formula_ind_nested g) (formulas gs) end in
    match f with
    | Top => HTop
    | Bot => HBot
    | Atom p ts => HAtom p ts (terms ts)
    | Comp c fs => HComp c fs (formulas fs)
    | Quant q vs g => HQuant q vs g (terms vs) (formula_ind_nested g)
    end.

  Lemma syntax_ind : (forall t, P t) /\ (forall f, Q f).
  Proof. split; [exact term_ind_nested | exact formula_ind_nested]. Qed.
End Induction.

(** Induction over formulas only (nothing assumed about the terms inside). *)
Lemma formula_ind_simple (Q : formula -> Prop) :
  Q Top -> Q Bot -> (forall p ts, Q (Atom p ts)) ->
  (forall c fs, Forall Q fs -> Q (Comp c fs)) ->
  (forall q vs f, Q f -> Q (Quant q vs f)) ->
  forall f, Q f.
Proof.
  intros HT HB HA HC HQ f.
  apply (formula_ind_nested (fun _ => True) Q); auto.
Qed.

(** Decidable equality of the finite vocabularies. *)
Definition bpred_eq_dec (a b : bpred) : {a = b} + {a <> b}. Proof. decide equality. Defined.
Definition bfun_eq_dec (a b : bfun) : {a = b} + {a <> b}. Proof. decide equality; apply string_dec. Defined.
Definition cname_eq_dec (a b : cname) : {a = b} + {a <> b}.
Proof. decide equality; [apply string_dec | apply Z.eq_dec]. Defined.
Definition psym_eq_dec (a b : psym) : {a = b} + {a <> b}.
Proof. decide equality; [apply bpred_eq_dec | apply (list_eq_dec string_dec) | apply string_dec]. Defined.
Definition fsym_eq_dec (a b : fsym) : {a = b} + {a <> b}.
Proof. decide equality; [apply bfun_eq_dec | apply string_dec | apply (list_eq_dec string_dec) | apply string_dec]. Defined.
Definition connective_eq_dec (a b : connective) : {a = b} + {a <> b}. Proof. decide equality. Defined.
Definition quant_eq_dec (a b : quant) : {a = b} + {a <> b}. Proof. decide equality. Defined.

(** [is_syntactically_equal] on terms (terms.py:157-158, 203-208, 295-301, 344-345) and [==] on formulas
    (formulas.py:75-76, 88-89, 124-129, 158-164, 340-345); [termlists_are_equal] is syntax/util.py:23-25.
    Simplification: Python also distinguishes tuples from lists when it compares [CompoundFormula.subformulas];
    the model compares contents only. *)
Fixpoint term_eqb (t u : term) {struct t} : bool :=
  let terms := fix terms (ts us : list term) : bool :=
    match ts, us with [], [] => true | a :: ts', b :: us' => term_eqb a b && terms ts' us' | _, _ => false end in
  match t, u with
  | Var x s, Var y r => String.eqb x y && String.eqb s r
  | Cst c s, Cst d r => (if cname_eq_dec c d then true else false) && String.eqb s r
  | App f ts, App g us => (if fsym_eq_dec f g then true else false) && terms ts us
  | Ite c a b, Ite d a' b' => formula_eqb c d && (term_eqb a a' && term_eqb b b')
  | _, _ => false
  end
with formula_eqb (f g : formula) {struct f} : bool :=
  let terms := fix terms (ts us : list term) : bool :=
    match ts, us with [], [] => true | a :: ts', b :: us' => term_eqb a b && terms ts' us' | _, _ => false end in
  let formulas := fix formulas (fs gs : list formula) : bool :=
    match fs, gs with [], [] => true | a :: fs', b :: gs' => formula_eqb a b && formulas fs' gs' | _, _ => false end in
  match f, g with
  | Top, Top => true
  | Bot, Bot => true
  | Atom p ts, Atom q us => (if psym_eq_dec p q then true else false) && terms ts us
  | Comp c fs, Comp d gs => (if connective_eq_dec c d then true else false) && formulas fs gs
  | Quant q vs a, Quant r us b => (if quant_eq_dec q r then true else false) && terms vs us && formula_eqb a b
  | _, _ => false
  end.

(** Well-formedness enforced by the constructors: [CompoundFormula._check_well_formed] (formulas.py:104-112),
    [QuantifiedFormula._check_well_formed] (formulas.py:148-150) and the Variable check of [quantified] (formulas.py:254-255). *)
Definition is_var (t : term) : bool := match t with Var _ _ => true | _ => false end.
Definition comp_arity_ok (c : connective) (n : nat) : bool :=
  match c with Not => Nat.eqb n 1 | _ => Nat.leb 2 n end.

Fixpoint wf_term (t : term) : bool :=
  match t with
  | Var _ _ | Cst _ _ => true
  | App _ ts => forallb wf_term ts
  | Ite c a b => wf c && wf_term a && wf_term b
  end
with wf (f : formula) : bool :=
  match f with
  | Top | Bot => true
  | Atom _ ts => forallb wf_term ts
  | Comp c fs => comp_arity_ok c (List.length fs) && forallb wf fs
  | Quant _ vs g => Nat.leb 1 (List.length vs) && forallb is_var vs && wf g
  end.

(** Logical variables are identified by (symbol, sort name) (terms.py:154-158). *)
Definition var := (string * sort)%type.
Definition var_eqb (x y : var) : bool := String.eqb (fst x) (fst y) && String.eqb (snd x) (snd y).
Definition vars_of (vs : list term) : list var :=
  flat_map (fun t => match t with Var x s => [(x, s)] | _ => [] end) vs.
