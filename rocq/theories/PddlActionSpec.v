(** Which actions can be written in the PDDL syntax so that they can be read again, and when two actions mean the same. *)
From Verif Require Import Base Syntax Semantics Effects Represent Costs PddlText PddlRead PddlSpec.
Local Open Scope string_scope.

Section ReadableAction.
Variable l : plang.
(** Variables that can be declared where those of [B] are in scope *)
Definition declarable (B : list var) (vs : list term) : bool :=
  forallb (fun v => match v with Var x s => legal_variable x && legal_type s && pl_sort l s | _ => false end) vs &&
  distinct_names (map fst (map printed_var vs)) && forallb (fun v => match bound_to B (fst (printed_var v)) with None => true | Some _ => false end) vs.
Definition formula_ok (B : list var) (c : formula) : bool := wf c && readable l B c.
Definition user_atom (a : formula) : bool := match a with Atom (PU _ _) _ => true | _ => false end.
(** An effect that the grammar has: atoms are over symbols of the language, what is increased is a number, a value that is assigned can be a numeral of the sort
    of the left-hand side, and universal effects have no condition. *)
Fixpoint readable_e (B : list var) (e : effect) : bool :=
  match e with
  | EAdd c a | EDel c a => formula_ok B c && user_atom a && formula_ok B a
  | EFun inc c lhs rhs =>
      formula_ok B c && match lhs with App _ _ => true | _ => false end && readable_t l B lhs && readable_t l B rhs &&
      (if inc then pl_arith l BAdd && operands l "Real" lhs rhs else match numeral rhs with Some z => pl_num l (sort_of lhs) z | None => true end)
  | EUni c vs es => match c with Top => true | _ => false end && declarable B vs && forallb (readable_e (map printed_var vs ++ B)) es
  | ELit _ _ | EOther _ => false
  end.
(** An effect that changes total-cost *)
Definition on_total_cost (e : effect) : bool := match e with EFun _ _ (App (FU n _ _) _) _ => String.eqb n "total-cost" | _ => false end.
(** The cost of an action: a number that can be added to total-cost, a function without arguments *)
Definition readable_cost (B : list var) (cost : option term) : bool :=
  match cost with
  | None => true
  | Some t => match pl_fun l "total-cost" with
              | Some ([], s) => pl_arith l BAdd && operands l "Real" (App (FU "total-cost" [] s) []) t && readable_t l B t
              | _ => false
              end
  end.
Definition readable_action (c : costed) : bool :=
  let a := c_act c in let B := map printed_var (a_params a) in
  legal_name (a_name a) && declarable [] (a_params a) && formula_ok B (a_pre a) && forallb (readable_e B) (a_effs a) &&
  negb (existsb on_total_cost (a_effs a)) && readable_cost B (c_cost c).
End ReadableAction.

(** ** Meaning *)
(** The variable names occurring in an effect and in an action *)
Fixpoint names_e (e : effect) : list string :=
  match e with
  | EAdd c a | EDel c a | ELit c a => names_f c ++ names_f a
  | EFun _ c lhs rhs => names_f c ++ names_t lhs ++ names_t rhs
  | EUni c vs es => names_f c ++ flat_map names_t vs ++ flat_map names_e es
  | EOther c => names_f c
  end.
Definition names_action (c : costed) : list string :=
  flat_map names_t (a_params (c_act c)) ++ names_f (a_pre (c_act c)) ++ flat_map names_e (a_effs (c_act c)) ++ match c_cost c with Some t => names_t t | None => [] end.
(** No variable occurs both with and without the question mark. *)
Definition one_spelling_in (N : list string) : Prop := forall x y, In x N -> In y N -> print_variable_name x = print_variable_name y -> x = y.

Section SameMeaning.
Variable N : list string.
(** [e'] gives the variables as they are printed the values that [e] gives those of [N]. *)
Definition renamed {M} (e e' : env M) : Prop := forall x s, In x N -> e' (print_variable_name x, s) = e (x, s).
Definition same_truth (f g : formula) : Prop := forall M (e e' : env M), standard M -> renamed e e' -> fsem M g e' = fsem M f e.
Definition same_value (t u : term) : Prop := forall M (e e' : env M), standard M -> renamed e e' -> tsem M u e' = tsem M t e.
(** The second effect has the same kind, under a condition that is true in the same situations, on the same symbol with the same arguments and values;
    to increase [t] by [r] is to assign [t + r] to [t]. *)
Inductive same_effect : effect -> effect -> Prop :=
| same_add c c' p ts ts' : same_truth c c' -> Forall2 same_value ts ts' -> same_effect (EAdd c (Atom p ts)) (EAdd c' (Atom p ts'))
| same_del c c' p ts ts' : same_truth c c' -> Forall2 same_value ts ts' -> same_effect (EDel c (Atom p ts)) (EDel c' (Atom p ts'))
| same_assign c c' f ts ts' r r' : same_truth c c' -> Forall2 same_value ts ts' -> same_value r r' -> same_effect (EFun false c (App f ts) r) (EFun false c' (App f ts') r')
| same_increase c c' f ts ts' r r' : same_truth c c' -> Forall2 same_value ts ts' -> same_value r r' ->
    same_effect (EFun true c (App f ts) r) (EFun false c' (App f ts') (App (FB BAdd) [App f ts'; r']))
| same_all vs es es' : Forall2 same_effect es es' -> same_effect (EUni Top vs es) (EUni Top (map (fun v => Var (fst (printed_var v)) (snd (printed_var v))) vs) es').
End SameMeaning.
(** The same name, the same parameters with question marks, and a precondition, effects and a cost that mean the same *)
Definition same_action (c c' : costed) : Prop :=
  let a := c_act c in let a' := c_act c' in let N := names_action c in
  a_name a' = a_name a /\ a_params a' = map (fun v => Var (fst (printed_var v)) (snd (printed_var v))) (a_params a) /\
  same_truth N (a_pre a) (a_pre a') /\ Forall2 (same_effect N) (a_effs a) (a_effs a') /\
  match c_cost c, c_cost c' with Some t, Some t' => same_value N t t' | None, None => True | _, _ => False end.

(** ** Nothing to rewrite: variables have question marks, nothing is increased, and the only numerals are values assigned or the cost. *)
Definition verbatim_value (s : sort) (t : term) : bool := verbatim_t t || match t with Cst (CInt _) r => String.eqb r s | _ => false end.
Fixpoint verbatim_e (e : effect) : bool :=
  match e with
  | EAdd c a | EDel c a => verbatim c && verbatim a
  | EFun inc c lhs rhs => negb inc && verbatim c && verbatim_t lhs && verbatim_value (sort_of lhs) rhs
  | EUni c vs es => verbatim c && forallb verbatim_t vs && forallb verbatim_e es
  | ELit _ _ | EOther _ => false
  end.
Definition verbatim_action (l : plang) (c : costed) : bool :=
  forallb verbatim_t (a_params (c_act c)) && verbatim (a_pre (c_act c)) && forallb verbatim_e (a_effs (c_act c)) &&
  match c_cost c, pl_fun l "total-cost" with Some t, Some (_, s) => verbatim_value s t | Some _, None => false | None, _ => true end.
