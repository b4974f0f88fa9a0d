(** Independent specification: derived predicates and metrics of PDDL *)
From Verif Require Import Base Syntax Semantics ModelState PddlInstance PddlInstanceSpec PddlExpr PddlExprSpec PddlDerived.
#[local] Open Scope string_scope.
#[local] Open Scope list_scope.

(** The section of the predicates declares [n] for arguments of the given types. *)
Definition declares (ds : list decl) (n : string) (tys : list string) : Prop := exists args, In (DPred n args) ds /\ tys = map snd (typed_variables args).
(** The body is a condition over the variables of the head. *)
Definition body_ok (es : list tentry) (ds : list decl) (args : list vtoken) (g : gd) : Prop :=
  variables_ok es args /\ NoDup (map fst (typed_variables args)) /\ gd_ok es ds (typed_variables args) g /\ no_rebinding (map fst (typed_variables args)) g.
(** What PDDL asks of the head: a declared predicate with the same types. *)
Definition head_ok (ds : list decl) (n : string) (args : list vtoken) : Prop := declares ds n (map snd (typed_variables args)).
(** What the reader asks: there may be more variables. *)
Definition head_starts (ds : list decl) (n : string) (args : list vtoken) : Prop := exists tys more, declares ds n tys /\ map snd (typed_variables args) = tys ++ more.

(** The arguments for which a definition derives its head in a world: objects of the types of the variables for which the condition is true. *)
Definition derives (W : world) (preds : list string) (args : list vtoken) (g : gd) (vs : list W) : Prop :=
  exists e : names W, vs = map (fun x => e (fst x)) (typed_variables args) /\ (forall x s, In (x, s) (typed_variables args) -> In (e x) (w_dom W s)) /\ gd_value W preds e g = true.
(** The same for what was read *)
Definition derives_read (W : world) (x : pderived) (vs : list W) : Prop :=
  exists en : env (structure_of W), vs = map en (de_parameters x) /\ (forall v, In v (de_parameters x) -> In (en v) (w_dom W (snd v))) /\ fsem (structure_of W) (de_body x) en = true.

(** Metrics: a number or a name without parentheses in the expression *)
Inductive bare : mexp -> Prop :=
| b_real c : bare (MReal c)
| b_name n : bare (MName n)
| b_left o a b : bare a -> bare (MBinary o a b)
| b_right o a b : bare b -> bare (MBinary o a b)
| b_first o a r : bare a -> bare (MMulti o a r)
| b_rest o a r m : In m r -> bare m -> bare (MMulti o a r)
| b_minus a : bare a -> bare (MMinus a).
(** Operators are operators. *)
Definition operators_ok (m : mexp) : Prop := match m with MBinary o _ _ | MMulti o _ _ => In o ["+"; "-"; "*"; "/"] | _ => True end.
(** The objectives that PDDL gives names: the total cost and the total time, also when written with capitals *)
Definition is_cost (m : mexp) : Prop := m = MCost \/ exists ns, m = MApp "total-cost" ns.
Definition is_time (m : mexp) : Prop := m = MTime \/ exists ns, m = MApp "total-time" ns.
