(** Specification vocabulary for action costs. Not used by the model. *)
From Verif Require Import Base Syntax ModelState Eval Subst QElim Effects ProgressSpec Represent RelaxSpec Grounding GroundingSpec SimplifySpec Costs.
#[local] Open Scope string_scope.

(** What an instance of an action costs in a state: the value of its cost expression, 0 when it has none. *)
Definition costs_in (m : model) (cost : option term) (s : subst) (z : Z) : Prop :=
  match cost with None => z = 0%Z | Some t => exists r, evaluate_t m (subst_term s t) = Ok (Cst (CInt z) r) end.
(** [paid acts m plan k m']: running [plan] from [m] leads to [m'] and the costs of its steps, each taken in the state the step is applied to, sum up to [k]. *)
Inductive paid (D : domains) (sub : sort -> sort -> bool) (acts : list costed) : model -> list (string * subst) -> Z -> model -> Prop :=
| paid_nil m : paid D sub acts m [] 0%Z m
| paid_step m c s pre effs z m1 plan k m2 : In c acts -> ground_schema (c_act c) s = Ok (pre, effs) -> is_applicable m pre = Ok true -> costs_in m (c_cost c) s z ->
    progress D sub m effs = Ok m1 -> paid D sub acts m1 plan k m2 -> paid D sub acts m ((a_name (c_act c), s) :: plan) (z + k)%Z m2.

(** The function total-cost, without arguments, with values of sort [cod] *)
Definition total_cost (cod : sort) : fsym := FU "total-cost" [] cod.
(** The effect written (increase (total-cost) t) *)
Definition increase (cod : sort) (e : effect) (t : term) : Prop := exists i, e = EFun i Top (App (total_cost cod) []) (App (FB BAdd) [App (total_cost cod) []; t]).
Definition occurs_t (x : sym) (t : term) : Prop := match x with SymP p => In p (t_preds t) | SymF f => In f (t_funs t) end.
Definition occurs_f (x : sym) (g : formula) : Prop := match x with SymP p => In p (f_preds g) | SymF f => In f (f_funs g) end.
(** A symbol is read by an effect: in its condition, in the expression that is assigned, or in a part of a universal effect. *)
Definition reads (e : effect) (x : sym) : Prop :=
  exists e', sub_effect e' e /\ (occurs_f x (econd e') \/ match e' with EFun _ _ _ r => occurs_t x r | _ => False end).
Definition changes (e : effect) (x : sym) : Prop := exists e', sub_effect e' e /\ writes e' x.
(** The action uses total-cost as PDDL prescribes: only to increase it, by an expression without total-cost and without symbols the same action changes. *)
Definition proper_costs (cod : sort) (a : action) : Prop :=
  (forall g, In g (f_funs (a_pre a)) -> forall d c, g <> FU "total-cost" d c) /\
  forall e, In e (a_effs a) -> plain_effect e = true /\
    ((exists t, increase cod e t /\ forall x, occurs_t x t -> x <> SymF (total_cost cod) /\ forall e', In e' (a_effs a) -> ~ changes e' x) \/
     (forall d c, ~ reads e (SymF (FU "total-cost" d c)) /\ ~ changes e (SymF (FU "total-cost" d c)))).
(** All symbols but total-cost *)
Definition not_cost (cod : sort) (x : sym) : Prop := x <> SymF (total_cost cod).
