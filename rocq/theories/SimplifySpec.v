(** Specification vocabulary for problem simplification. Not used by the model. *)
From Verif Require Import Base Syntax Semantics ModelState Eval Subst QElim Effects ProgressSpec Represent RelaxSpec Grounding GroundingSpec.

(** The sorts of the quantified variables of a formula, and: each of them has an element in the structure. *)
Fixpoint bound_sorts (f : formula) : list sort :=
  match f with Comp _ fs => flat_map bound_sorts fs | Quant _ vs g => map snd (vars_of vs) ++ bound_sorts g | _ => [] end.
Definition inhabited_sorts (M : structure) (f : formula) : Prop := forall s, In s (bound_sorts f) -> dom M s <> [].

(** Variables or constants *)
Definition simple_term (t : term) : bool := match t with Var _ _ | Cst _ _ => true | _ => false end.
(** Delete effects apply a user-defined predicate to variables and constants; universal effects have no condition of their own. *)
Fixpoint regular_effect (e : effect) : bool :=
  match e with
  | EDel _ (Atom (PU _ _) ts) => forallb simple_term ts
  | EDel _ _ => false
  | EUni c _ es => (match c with Top => true | _ => false end) && forallb regular_effect es
  | _ => true
  end.
(** A plan step binds the parameters of its action to constants of their sorts, and binds nothing but variables, to constants. *)
Definition constant_binding (s : subst) : Prop := sub_f s = [] /\ forall k v, In (k, v) (sub_t s) -> (exists x r, k = Var x r) /\ exists c r, v = Cst c r.
Definition legal_step (D : domains) (acts : list action) (step : string * subst) : Prop :=
  constant_binding (snd step) /\
  forall a x s, In a acts -> a_name a = fst step -> In (Var x s) (a_params a) -> exists cs c, D s = Some cs /\ In c cs /\ get_t (sub_t (snd step)) (Var x s) = Some c.
(** The functions have the same values and the same atoms are true, as far as the symbols [S] are concerned. *)
Definition same_on (S : sym -> Prop) (m m' : model) : Prop :=
  (forall p pt, S (SymP p) -> m_holds m p pt = m_holds m' p pt) /\ (forall f pt, S (SymF f) -> m_value m f pt = m_value m' f pt).
(** No exception: in every state that a plan of [p] reaches, the applicability of every action instance can be decided, and the applicable ones have a successor. *)
Definition runs_without_errors (D : domains) (sub : sort -> sort -> bool) (p : problem) : Prop :=
  forall plan m, execution D sub (p_actions p) (p_init p) plan m -> Forall (legal_step D (p_actions p)) plan ->
  forall a s, In a (p_actions p) -> legal_step D (p_actions p) (a_name a, s) ->
  exists pre effs b, ground_schema a s = Ok (pre, effs) /\ is_applicable m pre = Ok b /\ (b = true -> exists m', progress D sub m effs = Ok m').
(** [l'] is [l] with some elements left out. *)
Inductive sublist {A} : list A -> list A -> Prop :=
| sub_nil : sublist [] []
| sub_keep x l' l : sublist l' l -> sublist (x :: l') (x :: l)
| sub_drop x l' l : sublist l' l -> sublist l' (x :: l).
(** Nothing left to simplify: no truth constant, no double negation, no conjunction or disjunction of fewer than two formulas, no atom of an evaluable symbol over constants. *)
Definition is_negation (f : formula) : bool := match f with Comp Not _ => true | _ => false end.
Fixpoint reduced (ev : psym -> bool) (f : formula) : bool :=
  match f with
  | Top | Bot => false
  | Atom p ts => negb (ev p && forallb (fun t => match t with Cst _ _ => true | _ => false end) ts)
  | Comp Not fs => match fs with [g] => negb (is_negation g) && reduced ev g | _ => false end
  | Comp _ fs => Nat.leb 2 (List.length fs) && forallb (reduced ev) fs
  | Quant _ _ g => reduced ev g
  end.
