(** The enumerating grounders of constraints, sensors, reactions and differential constraints: src/tarski/grounding/naive/{constraints,sensors,reactions,diff_constraints}.py *)
From Verif Require Import Base Syntax Semantics Subst QElim NegBuiltin Nnf Cnf Effects Index Represent.
#[local] Open Scope string_scope.

(** syntax/ops.py:58-60 [all_variables]: the variables that occur, bound ones and those of if-then-else conditions included, each once (C45 proves this of the node collection). The order
    is that of a Python set: the grounder below takes it as a parameter. *)
Fixpoint occurring_t (t : term) : list var :=
  match t with Var x s => [(x, s)] | Cst _ _ => [] | App _ ts => flat_map occurring_t ts | Ite c a b => (occurring c ++ occurring_t a ++ occurring_t b)%list end
with occurring (f : formula) : list var :=
  match f with Top | Bot => [] | Atom _ ts => flat_map occurring_t ts | Comp _ fs => flat_map occurring fs | Quant _ vs g => (occurring g ++ flat_map occurring_t vs)%list end.
Definition var_dec (a b : var) : {a = b} + {a <> b}. Proof. decide equality; apply string_dec. Defined.
Definition all_variables (f : formula) : list term := map (fun v => Var (fst v) (snd v)) (nodup var_dec (occurring f)).

(** * constraints.py *)
(** constraints.py:36-45: the ground constraint made of an instance *)
Definition ground_constraint (g : formula) : res formula :=
  let! s0 := absorb g in
  match s0 with
  | Quant QEx vs h => let! h' := to_conjunctive_normal_form h in Ok (Quant QEx vs h')
  | Quant QAll _ _ => Err AssertionError
  | _ => to_conjunctive_normal_form s0
  end.
Section Grounder.
Variables (D : domains) (order : list term -> list term) (eqb : formula -> formula -> bool).
(** [ground_constraints.add] (util.py:24-28). [eqb] is Python's comparison of formulas, which also sees whether subformulas are held in a list or a tuple (C13). *)
Definition index_add (index : list formula) (g : formula) : res (list formula) := if existsb (fun h => eqb h g) index then Err DuplicateDefinition else Ok (index ++ [g])%list.
(** constraints.py:33-45, the loop over the values *)
Fixpoint ground_instances (c : formula) (vars : list term) (values : list (list term)) (index : list formula) : res (list formula) :=
  match values with
  | [] => Ok index
  | v :: r => let! s := create_substitution vars v in let! g := ground_constraint (subst_formula s c) in let! index' := index_add index g in ground_instances c vars r index'
  end.
(** constraints.py:28-46 [calculate_constraints]; the result is the index and [constraints_generated] *)
Fixpoint calculate_constraints (schemas : list formula) (st : list formula * nat) : res (list formula * nat) :=
  match schemas with
  | [] => Ok st
  | c :: r =>
      let! c' := remove_quantifiers D MForall c in
      let vars := order (all_variables c') in
      let! inst := enumerate_groundings D vars in
      let! index := ground_instances c' vars (product inst) (fst st) in
      calculate_constraints r (index, snd st + cardinality inst)
  end.

(** * sensors.py, reactions.py, diff_constraints.py *)
Record sensor := { se_name : string; se_params : list term; se_cond : formula; se_obs : formula }.
Record reaction := { re_name : string; re_params : list term; re_cond : formula; re_eff : effect }.
Record ode := { od_name : string; od_params : list term; od_cond : formula; od_variate : term; od_rate : term }.
(** fstrips/contingent/sensor.py:6-26: the constructor checks that the observation is a literal (ObservationExpressivenessMismatch is a TarskiError). *)
Definition make_sensor (n : string) (ps : list term) (c o : formula) : res sensor := if is_literal o then Ok {| se_name := n; se_params := ps; se_cond := c; se_obs := o |} else Err TarskiError.
(** fstrips/hybrid/differential_constraints.py:8-23 *)
Definition make_ode (n : string) (ps : list term) (c : formula) (v r : term) : res ode :=
  match v with App _ _ => Ok {| od_name := n; od_params := ps; od_cond := c; od_variate := v; od_rate := r |} | _ => Err TarskiError end.
(** The loop shared by the three: sensors.py:23-32, reactions.py:24-39, diff_constraints.py:22-35. The objects added are compared by identity: [add] never fails. The count is that
    of the enumeration. *)
Definition ground_schema_list {A B : Type} (params : A -> list term) (instance : subst -> A -> res B) : list A -> list B * nat -> res (list B * nat) := fix go schemas st :=
  match schemas with
  | [] => Ok st
  | a :: r =>
      let! inst := enumerate_groundings D (params a) in
      let! gs := mapM (fun values => let! s := create_substitution (params a) values in instance s a) (product inst) in
      go r ((fst st ++ gs)%list, snd st + cardinality inst)
  end.
Definition calculate_sensors (ss : list sensor) : res (list sensor * nat) :=
  ground_schema_list se_params (fun s a => make_sensor (se_name a) [] (subst_formula s (se_cond a)) (subst_formula s (se_obs a))) ss ([], 0).
Definition calculate_differential_constraints (os : list ode) : res (list ode * nat) :=
  ground_schema_list od_params (fun s a => make_ode (od_name a) [] (subst_formula s (od_cond a)) (subst_term s (od_variate a)) (subst_term s (od_rate a))) os ([], 0).
(** reactions.py:25-30: a reaction without parameters is copied; otherwise the loop above would do the same. *)
Definition calculate_reactions : list reaction -> list reaction * nat -> res (list reaction * nat) := fix go schemas st :=
  match schemas with
  | [] => Ok st
  | a :: r =>
      match re_params a with
      | [] => go r ((fst st ++ [{| re_name := re_name a; re_params := []; re_cond := re_cond a; re_eff := re_eff a |}])%list, snd st + 1)
      | _ =>
          let! inst := enumerate_groundings D (re_params a) in
          let! gs := mapM (fun values => let! s := create_substitution (re_params a) values in
                                         let! e := subst_effect s (re_eff a) in Ok {| re_name := re_name a; re_params := []; re_cond := subst_formula s (re_cond a); re_eff := e |}) (product inst) in
          go r ((fst st ++ gs)%list, snd st + cardinality inst)
      end
  end.
End Grounder.
