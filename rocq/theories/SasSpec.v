(** Specification vocabulary for the grounding of SAS schemas. Not used by the model. *)
From Verif Require Import Base Syntax Semantics FolSpec SubstSpec Subst ModelState EvalSpec NaiveGroundSpec Sas.

(** [l] is the list of values of the variable. *)
Definition has_domain (table : option (string -> option (list term))) (d : dref) (l : list term) : Prop :=
  (table = None /\ d = DList l) \/ exists T n, table = Some T /\ d = DName n /\ T n = Some l.
(** [b] gives each variable of the schema, in order, one of its values. *)
Definition assigns (table : option (string -> option (list term))) (vars : list (term * dref)) (b : list (var * term)) : Prop :=
  Forall2 (fun xd vt => fst xd = Var (fst (fst vt)) (snd (fst vt)) /\ exists l, has_domain table (snd xd) l /\ In (snd vt) l) vars b.
(** The constraints are true of the values, in every structure that agrees with the given model. *)
Definition satisfied (m : model) (cs : list formula) (b : list (var * term)) : Prop := forall M (e : env M), agrees M m -> forall c, In c cs -> fsem M c (env_subst b e) = true.
Definition same_transition (b : list (var * term)) (t t' : term * term * term) : Prop :=
  same_application b (fst (fst t)) (fst (fst t')) /\ same_value b (snd (fst t)) (snd (fst t')) /\ same_value b (snd t) (snd t').
(** [g] is the instance of the schema for the values. *)
Definition instance_of (a : sschema) (b : list (var * term)) (g : saction) : Prop :=
  sa_name g = sc_name a /\ sa_args g = map snd b /\ Forall2 (same_transition b) (sc_transitions a) (sa_transitions g).
(** Schemas: the variables are different, their values are constants, no constraint or transition rebinds one, and transitions are of function terms. *)
Record good_body (vars : list term) (a : sschema) : Prop := {
  gb_constraints : Forall (fun c => wf c = true /\ unbound vars c) (sc_constraints a);
  gb_transitions : Forall (fun t => (exists f ts, fst (fst t) = App f ts) /\ unbound_t vars (fst (fst t)) /\ unbound_t vars (snd (fst t)) /\ unbound_t vars (snd t)) (sc_transitions a)
}.
Record good_schema (table : option (string -> option (list term))) (a : sschema) : Prop := {
  gs_distinct : NoDup (map fst (sc_vars a));
  gs_vars : Forall (fun xd => (exists x s, fst xd = Var x s) /\ exists l, has_domain table (snd xd) l /\ Forall is_constant l) (sc_vars a);
  gs_body : good_body (map fst (sc_vars a)) a
}.
(** Constraints whose evaluation cannot fail: combinations of predicates, equations and inequations over the variables of the schema and constants *)
Definition simple_argument (vars : list term) (t : term) : Prop := is_constant t \/ (exists x s, t = Var x s) /\ In t vars.
Inductive simple_constraint (vars : list term) : formula -> Prop :=
| sim_top : simple_constraint vars Top
| sim_bot : simple_constraint vars Bot
| sim_pred n ss ts : Forall (simple_argument vars) ts -> simple_constraint vars (Atom (PU n ss) ts)
| sim_eq b t u : b = PEq \/ b = PNe -> simple_argument vars t -> simple_argument vars u -> simple_constraint vars (Atom (PB b) [t; u])
| sim_not f : simple_constraint vars f -> simple_constraint vars (Comp Not [f])
| sim_comp c fs : c = And \/ c = Or -> Forall (simple_constraint vars) fs -> simple_constraint vars (Comp c fs).

(** * Temporal actions *)
(** The events use variables with constants for values; a variable that occurs in several events has the same values in each. *)
Record good_temporal (events : list sschema) : Prop := {
  gt_vars : forall e x d, In e events -> In (x, d) (sc_vars e) -> (exists y s, x = Var y s) /\ exists l, d = DList l /\ Forall is_constant l;
  gt_same : forall e e' x d d', In e events -> In e' events -> In (x, d) (sc_vars e) -> In (x, d') (sc_vars e') -> d = d';
  gt_body : Forall (good_body (flat_map (fun e => map fst (sc_vars e)) events)) events
}.
(** A value for each variable of the events *)
Definition temporal_binding (events : list sschema) (b : list (var * term)) : Prop :=
  NoDup (map fst b) /\ (forall x s, In (x, s) (map fst b) <-> exists e d, In e events /\ In (Var x s, d) (sc_vars e)) /\
  (forall x s t e l, In ((x, s), t) b -> In e events -> In (Var x s, DList l) (sc_vars e) -> In t l).
(** [g] is the instance of the temporal action for the values; [str] gives the texts of constants. *)
Definition temporal_instance {T : Type} (str : term -> string) (a : taction T sschema) (b : list (var * term)) (g : taction T saction) : Prop :=
  ta_name g = (ta_name a ++ "(" ++ String.concat "," (map str (map snd b)) ++ ")")%string /\ ta_deltas g = ta_deltas a /\ Forall2 (fun e e' => instance_of e b e') (ta_events a) (ta_events g).
