(** Specification vocabulary for the constraint satisfaction problem of an action schema. Not used by the model. *)
From Verif Require Import Base Syntax ModelState ModelText Eval Subst QElim Effects Represent Lang LangSpec SortIds CspSchema.
Local Open Scope string_scope.

(** * Solutions *)
(** Meaning of a relation between two integers *)
Definition compares (rel : string) (u v : Z) : Prop :=
  (rel = "=" /\ u = v) \/ (rel = "!=" /\ u <> v) \/ (rel = "<" /\ (u < v)%Z) \/ (rel = "<=" /\ (u <= v)%Z) \/ (rel = ">" /\ (u > v)%Z) \/ (rel = ">=" /\ (u >= v)%Z).
Section Solution.
Variables (ids : list (cobj * nat)) (m : model).
(** The constant [t] has the number [v]. *)
Definition numbered_as (t : term) (v : Z) : Prop := exists c s i, t = Cst c s /\ In ((c, s), i) ids /\ v = Z.of_nat i.
(** The extension of a predicate in the state [m], as a table of numbers *)
Definition in_table (p : psym) (vs : list Z) : Prop := exists pt, m_holds m p pt = true /\ Forall2 numbered_as pt vs.
Definition satisfied (sigma : string -> Z) (c : constraint) : Prop :=
  match c with
  | CTable (inr (Atom p _)) xs negative => exists names, xs = map Some names /\ (in_table p (map sigma names) <-> negative = false)
  | CState atom value => eval_f m atom = Ok value
  | CRel (Some x) (Some y) rel => compares rel (sigma x) (sigma y)
  | _ => False
  end.
(** Every variable within its bounds, every constraint satisfied *)
Definition solution (k : csp) (sigma : string -> Z) : Prop :=
  (forall x kind lo hi, In (x, kind, (lo, hi)) (c_vars k) -> (Z.of_nat lo <= sigma x <= hi)%Z) /\ Forall (satisfied sigma) (c_cons k).
End Solution.
(** The solution gives the parameters the numbers of the constants to which [s] binds them. *)
Definition encodes (ids : list (cobj * nat)) (a : action) (s : subst) (sigma : string -> Z) : Prop :=
  forall x r, In (Var x r) (a_params a) -> exists t, get_t (sub_t s) (Var x r) = Some t /\ numbered_as ids t (sigma x).

(** * The actions considered *)
(** Literals over user-defined predicates, equalities and inequalities, whose arguments satisfy [T]; and conjunctions of them *)
Fixpoint csp_condition (T : term -> Prop) (f : formula) : Prop :=
  match f with
  | Atom (PU _ _) ts => Forall T ts
  | Atom (PB PEq) [t; u] | Atom (PB PNe) [t; u] => T t /\ T u
  | Comp Not [g] => match g with Atom _ _ => csp_condition T g | _ => False end
  | Comp And fs => (fix all (l : list formula) : Prop := match l with [] => True | g :: r => csp_condition T g /\ all r end) fs
  | _ => False
  end.
(** A parameter, or a constant of an uninterpreted sort *)
Definition action_term (l : lang) (params : list term) (t : term) : Prop :=
  match t with Var _ _ => In t params | Cst c s => is_plain l s /\ const_of l c s | _ => False end.
Record csp_action (l : lang) (a : action) : Prop := {
  ca_params : forall t, In t (a_params a) -> exists x r, t = Var x r /\ is_plain l r;
  ca_names : forall i j x r q, nth_error (a_params a) i = Some (Var x r) -> nth_error (a_params a) j = Some (Var x q) -> i = j;
  ca_wf : wf (a_pre a) = true;
  ca_pre : csp_condition (action_term l (a_params a)) (a_pre a);
  (** names in the CSP: no parameter is called like a constant, no two constants have the same text *)
  ca_clash : forall x r c s, In (Var x r) (a_params a) -> is_plain l s -> const_of l c s -> x <> name_text c;
  ca_texts : forall c s c' s', is_plain l s -> const_of l c s -> is_plain l s' -> const_of l c' s' -> name_text c = name_text c' -> c = c'
}.
(** The languages to which the numbering of constants applies (C20) *)
Record numberable (l : lang) : Prop := {
  nb_parents : forall s p, parent_of l s = Some p -> is_plain l s -> is_plain l p;
  nb_names : forall s c c', is_plain l s -> const_of l c s -> const_of l c' s -> is_cstr c = is_cstr c'
}.
