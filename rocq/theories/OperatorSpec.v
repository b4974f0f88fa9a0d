(** Specification vocabulary for ground operators: plans of a lifted problem, and plans of a list of ground operators, both as lists of names. *)
From Verif Require Import Base Syntax Semantics SubstSpec ModelState ModelText Subst QElim Effects Represent Grounding Asp AspSpec LpGround.
#[local] Open Scope string_scope.

(** "go(a, b)" *)
Fixpoint listed (l : list string) : string := match l with [] => "" | [x] => x | x :: l' => x ++ ", " ++ listed l' end.
Definition instance_name (a : action) (e : assignment) : string := a_name a ++ "(" ++ listed (map (fun v => text (e v)) (param_vars a)) ++ ")".
(** Plans of the problem, by the names of the instances *)
Inductive lifted_plan (D : domains) (p : problem) : state -> list string -> state -> Prop :=
| lifted_nil S : lifted_plan D p S [] S
| lifted_step S a e S1 names S2 : In a (p_actions p) -> applicable D S a e -> successor_of D S a e S1 -> lifted_plan D p S1 names S2 -> lifted_plan D p S (instance_name a e :: names) S2.
(** Plans of a list of operators. An operator has no parameters; its formulas are evaluated with an assignment [e] because they could have free variables. *)
Definition operator_successor (D : domains) (e : assignment) (S : state) (o : operator) (S' : state) : Prop :=
  forall n ss pt, true_atoms S' (PU n ss) pt = true <->
    (exists eff, In eff (o_effs o) /\ adds D S e eff n ss pt) \/ (true_atoms S (PU n ss) pt = true /\ ~ exists eff, In eff (o_effs o) /\ deletes D S e eff n ss pt).
Inductive operator_plan (D : domains) (os : list operator) (e : assignment) : state -> list string -> state -> Prop :=
| operator_nil S : operator_plan D os e S [] S
| operator_step S o S1 names S2 : In o os -> true_in D S (o_pre o) e -> operator_successor D e S o S1 -> operator_plan D os e S1 names S2 -> operator_plan D os e S (o_name o :: names) S2.
(** The operator [o] is the instance of [a] under [e]: same name, same truth value of the precondition, same atoms added and deleted, in all states, whatever is assigned to variables. *)
Definition is_instance (D : domains) (o : operator) (a : action) (e : assignment) : Prop :=
  o_name o = instance_name a e /\ forall S e0, (true_in D S (o_pre o) e0 <-> true_in D S (a_pre a) e) /\
    forall n ss pt, ((exists eff, In eff (o_effs o) /\ adds D S e0 eff n ss pt) <-> (exists eff, In eff (a_effs a) /\ adds D S e eff n ss pt)) /\
                    ((exists eff, In eff (o_effs o) /\ deletes D S e0 eff n ss pt) <-> (exists eff, In eff (a_effs a) /\ deletes D S e eff n ss pt)).
(** Expressions with free variables among [V] that do not bind any of [P] *)
Definition expression_over (P V : list var) (f : formula) : Prop := (forall v, free_in v f = true -> In v V) /\ (forall v, In v P -> ~ In v (binders f)).
Fixpoint effect_over (P V : list var) (e : effect) : Prop :=
  match e with
  | EAdd c a | EDel c a => expression_over P V c /\ expression_over P V a
  | EFun _ _ _ _ | ELit _ _ => True
  | EUni c vs es => expression_over P V c /\ forallb is_var vs = true /\ (forall v, In v (vars_of vs) -> ~ In v P) /\ fold_right (fun e Q => effect_over P (vars_of vs ++ V)%list e /\ Q) True es
  | EOther _ => False
  end.
(** Actions: parameters are variables with different names and are bound nowhere inside; there are no other free variables. *)
Definition groundable (a : action) : Prop :=
  (exists vs, a_params a = map (fun v => Var (fst v) (snd v)) vs /\ NoDup (map fst vs)) /\
  wf (a_pre a) = true /\ expression_over (param_vars a) (param_vars a) (a_pre a) /\ Forall (effect_over (param_vars a) (param_vars a)) (a_effs a).
