(** Specification of the fluent/static analysis of terms. Not used by the model: inductive definitions of where a term occurs and which terms are fluent. *)
From Verif Require Import Base Syntax Subst QElim Effects Represent Fluents.

(** Built-in symbols (equality, comparisons, arithmetic) are never state variables. *)
Definition ref_builtin (r : tref) : Prop :=
  match r with RT (App (FB _) _) => True | RP (PB _) _ => True | _ => False end.

(** [r] is what an assignment to [t] changes: [t] itself, or the terms inside it when it is built-in arithmetic. *)
Inductive term_target : term -> tref -> Prop :=
| tt_here n d c ts : term_target (App (FU n d c) ts) (RT (App (FU n d c) ts))
| tt_arith b ts t r : In t ts -> term_target t r -> term_target (App (FB b) ts) r.
(** [r] is an atom of the formula of an effect, or a term inside one of its built-in atoms. *)
Inductive formula_target : formula -> tref -> Prop :=
| ft_here n ss ts : formula_target (Atom (PU n ss) ts) (RP (PU n ss) ts)
| ft_builtin b ts t r : In t ts -> term_target t r -> formula_target (Atom (PB b) ts) r
| ft_comp k fs f r : In f fs -> formula_target f r -> formula_target (Comp k fs) r
| ft_quant q vs f r : formula_target f r -> formula_target (Quant q vs f) r.
(** The targets of an effect; effects inside a universal effect are not looked at. *)
Inductive effect_target : effect -> tref -> Prop :=
| et_add c a r : formula_target a r -> effect_target (EAdd c a) r
| et_del c a r : formula_target a r -> effect_target (EDel c a) r
| et_lit c l r : formula_target l r -> effect_target (ELit c l) r
| et_fun i c lhs rhs r : term_target lhs r -> effect_target (EFun i c lhs rhs) r.

(** [r] occurs in the term [t] (outside if-then-else). *)
Inductive occurs_t : term -> tref -> Prop :=
| ot_here f ts : occurs_t (App f ts) (RT (App f ts))
| ot_arg f ts t r : In t ts -> occurs_t t r -> occurs_t (App f ts) r.
(** [occurs c b r]: the atom or term [r] occurs in the constraint [c], in the scope of a "next" operator if [b]. *)
Inductive occurs : cform -> bool -> tref -> Prop :=
| oc_atom p ts : occurs (KAtom p ts) false (RP p ts)
| oc_arg p ts t r : In t ts -> occurs_t t r -> occurs (KAtom p ts) false r
| oc_comp k fs f b r : In f fs -> occurs f b r -> occurs (KComp k fs) b r
| oc_quant q vs f b r : occurs f b r -> occurs (KQuant q vs f) b r
| oc_next f b r : occurs f b r -> occurs (KNext f) true r.
Inductive subformula : cform -> cform -> Prop :=
| sf_self f : subformula f f
| sf_comp g k fs f : In f fs -> subformula g f -> subformula g (KComp k fs)
| sf_quant g q vs f : subformula g f -> subformula g (KQuant q vs f)
| sf_next g f : subformula g f -> subformula g (KNext f).

(** The fluent terms: those changed by an effect of an action, those a constraint speaks about in the next state, and those combined with a fluent term by a
    connective of a constraint. *)
Inductive fluent (acts : list action) (cs : list cform) : tref -> Prop :=
| fluent_effect a e r : In a acts -> In e (a_effs a) -> effect_target e r -> fluent acts cs r
| fluent_next c r : In c cs -> occurs c true r -> ~ ref_builtin r -> fluent acts cs r
| fluent_linked c k fs b b' r r' : In c cs -> subformula (KComp k fs) c -> occurs (KComp k fs) b r -> occurs (KComp k fs) b' r' -> ~ ref_builtin r' ->
    fluent acts cs r -> fluent acts cs r'.

(** [r] is an atom of the formula. *)
Inductive atom_of : formula -> tref -> Prop :=
| ao_here p ts : atom_of (Atom p ts) (RP p ts)
| ao_comp k fs f r : In f fs -> atom_of f r -> atom_of (Comp k fs) r
| ao_quant q vs f r : atom_of f r -> atom_of (Quant q vs f) r.
(** What is read in the current state: the atoms of preconditions and of conditions of effects, and what constraints speak about outside "next". *)
Inductive mentioned (acts : list action) (cs : list cform) : tref -> Prop :=
| me_pre a r : In a acts -> atom_of (a_pre a) r -> mentioned acts cs r
| me_cond a e r : In a acts -> In e (a_effs a) -> atom_of (econd e) r -> mentioned acts cs r
| me_constraint c r : In c cs -> occurs c false r -> mentioned acts cs r.

(** No effect of a class that the analysis does not know *)
Definition analysable (acts : list action) : Prop := forall a e c, In a acts -> In e (a_effs a) -> e <> EOther c.
(** The two sets have the same elements. *)
Definition same_set (l l' : list tref) : Prop := forall r, In r l <-> In r l'.

(** * Executions *)
(** An effect on one atom or one term of a declared symbol: no universal effect *)
Definition direct_effect (e : effect) : bool :=
  match e with EAdd _ (Atom (PU _ _) _) | EDel _ (Atom (PU _ _) _) | EFun _ _ (App (FU _ _ _) _) _ => true | _ => false end.
(** A binding of the parameters of an action to objects of their sorts *)
Definition typed_parameters (D : domains) (s : subst) : Prop :=
  sub_f s = [] /\ forall k v, In (k, v) (sub_t s) -> exists x r cs, k = Var x r /\ D r = Some cs /\ In v cs.
(** A tuple of objects *)
Definition objects (pt : list term) : Prop := Forall (fun t => exists c r, t = Cst c r) pt.
