(** Collection of sub-expressions: src/tarski/syntax/ops.py [collect_unique_nodes] and what is built on it. Uses the syntax tree of
    HashEq.v, because the walk replaces containers in place and nodes are kept in a Python set of references. *)
From Verif Require Import Base Syntax HashEq.
#[local] Open Scope string_scope.

Fixpoint hkey_eq_dec (a b : hkey) {struct a} : {a = b} + {a <> b}.
Proof.
  decide equality; try apply string_dec; try apply connective_eq_dec; try apply quant_eq_dec. apply (list_eq_dec hkey_eq_dec).
Defined.

(** Python's [set.add]: an element is already there when one with the same hash and [==] is. Simplification: different hash keys do not
    collide. *)
Definition same_key (a b : href) : bool := (if hkey_eq_dec (ref_hash a) (ref_hash b) then true else false) && ref_eqb a b.
Definition set_add (x : href) (s : list href) : list href := if existsb (fun y => same_key y x) s then s else (s ++ [x])%list.

(** The successive arguments of [visit] during walker.py:60-86 [visit_expression]: children first (for a quantified formula the body
    and then the variables), each with its containers already replaced by lists ([walk_t], [walk_f]). *)
Fixpoint visits_t (t : hterm) : list href :=
  match t with
  | HVar _ _ | HCst _ _ => [RTerm t]
  | HApp f ts => (flat_map visits_t ts ++ [RTerm (walk_t t)])%list
  | HIte c a b => (visits_f c ++ (visits_t a ++ visits_t b) ++ [RTerm (walk_t t)])%list
  end
with visits_f (f : hformula) : list href :=
  match f with
  | HTop | HBot => [RFormula f]
  | HAtom _ ts => (flat_map visits_t ts ++ [RFormula (walk_f f)])%list
  | HComp _ _ fs => (flat_map visits_f fs ++ [RFormula (walk_f f)])%list
  | HQuant _ vs g => (visits_f g ++ flat_map visits_t vs ++ [RFormula (walk_f f)])%list
  end.
Definition visits (e : href) : list href := match e with RTerm t => visits_t t | RFormula f => visits_f f end.

(** ops.py:83-103 [collect_unique_nodes] with [NodeCollectionWalker]. Returns the nodes and the expression as left behind. The order
    of the nodes (that of a Python set) is not part of the model's claims. *)
Definition walk (e : href) : href := match e with RTerm t => RTerm (walk_t t) | RFormula f => RFormula (walk_f f) end.
Definition collect_unique_nodes (p : href -> bool) (e : href) : list href * href :=
  (fold_left (fun s x => if p x then set_add x s else s) (visits e) [], walk e).

Definition is_variable (n : href) : bool := match n with RTerm (HVar _ _) => true | _ => false end.
Definition is_compound_term (n : href) : bool := match n with RTerm (HApp _ _) => true | _ => false end.
Definition is_quantified (n : href) : bool := match n with RFormula (HQuant _ _ _) => true | _ => false end.
(** ops.py:60-62 *)
Definition all_variables (e : href) : list href := fst (collect_unique_nodes is_variable e).
(** fstrips/representation.py:171-172 *)
Definition is_ground (e : href) : bool := Nat.eqb (List.length (all_variables e)) 0.
(** fstrips/representation.py:275-279 *)
Definition is_function_free (e : href) : bool := Nat.eqb (List.length (fst (collect_unique_nodes is_compound_term e))) 0.
(** fstrips/representation.py:282-284 *)
Definition is_quantifier_free (e : href) : bool := Nat.eqb (List.length (fst (collect_unique_nodes is_quantified e))) 0.
(** fstrips/representation.py:365-368 [collect_all_function_names]: the names added to [output]; a signature starts with the name. *)
Definition collect_all_function_names (e : href) (output : list string) : list string :=
  fold_left (fun out n => match n with
                          | RTerm (HApp (name :: _) _) => if in_dec string_dec name out then out else (out ++ [name])%list
                          | _ => out end) (fst (collect_unique_nodes is_compound_term e)) output.
(** fstrips/representation.py:551-557 [has_state_variable_shape] *)
Definition is_const_h (t : hterm) : bool := match t with HCst _ _ => true | _ => false end.
Definition has_state_variable_shape (e : href) : bool :=
  match e with RTerm (HApp _ ts) | RFormula (HAtom _ ts) => forallb is_const_h ts | _ => false end.
