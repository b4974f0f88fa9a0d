(** What a visit of an expression, effect or problem is: independent of the order in which the code recurses. *)
From Verif Require Import Base Syntax Semantics Effects Represent Walker.
From Coq Require Import Sorting.Sorted.

(** The direct parts of a node, in order: arguments; the condition and branches of a conditional term; the body and then the variables of a quantified formula; the condition, and then the
    atom or the two sides of an effect; the effects under a universal effect (not its condition). *)
Definition parts (n : node) : list node :=
  match n with
  | NT (Var _ _ | Cst _ _) | NF (Top | Bot) => []
  | NT (App _ ts) | NF (Atom _ ts) => map NT ts
  | NT (Ite c a b) => [NF c; NT a; NT b]
  | NF (Comp _ fs) => map NF fs
  | NF (Quant _ vs g) => NF g :: map NT vs
  | NE (EAdd c a | EDel c a) => [NF c; NF a]
  | NE (EFun _ c l r) => [NF c; NT l; NT r]
  | NE (EUni _ _ es) => map NE es
  | NE (ELit _ _ | EOther _) => []
  end.
(** A place in a node: which part, which part of that part, and so on. *)
Fixpoint at_place (n : node) (p : list nat) : option node :=
  match p with [] => Some n | i :: p' => match nth_error (parts n) i with Some m => at_place m p' | None => None end end.
(** A place in one of several nodes *)
Definition at_place_of (ns : list node) (p : list nat) : option node :=
  match p with [] => None | i :: p' => match nth_error ns i with Some m => at_place m p' | None => None end end.
(** Parts come before the whole, and from left to right. *)
Definition comes_before (p q : list nat) : Prop :=
  (exists r, r <> [] /\ p = (q ++ r)%list) \/ (exists c i j r r', i < j /\ p = (c ++ i :: r)%list /\ q = (c ++ j :: r')%list).
(** Is the place in what an effect changes or assigns (its atom, or one of its two sides), not in a condition? *)
Fixpoint in_effect (n : node) (p : list nat) : bool :=
  match p with
  | [] => false
  | i :: p' => match n with
               | NE (EAdd _ _ | EDel _ _ | EFun _ _ _ _) => Nat.leb 1 i
               | _ => match nth_error (parts n) i with Some m => in_effect m p' | None => false end
               end
  end.
Definition in_effect_of (ns : list node) (p : list nat) : bool := match p with [] => false | i :: p' => match nth_error ns i with Some m => in_effect m p' | None => false end end.
(** All places of [ns], in order *)
Definition all_places (ns : list node) (ps : list (list nat)) : Prop := StronglySorted comes_before ps /\ forall p, In p ps <-> at_place_of ns p <> None.
(** What of a problem is visited *)
Definition visited (p : problem) : list node := NF (p_goal p) :: flat_map (fun a => NF (a_pre a) :: map NE (a_effs a)) (p_actions p).
(** Effects of the kinds that can be walked *)
Fixpoint analysable (e : effect) : bool := match e with EAdd _ _ | EDel _ _ | EFun _ _ _ _ => true | EUni _ _ es => forallb analysable es | ELit _ _ | EOther _ => false end.
Definition analysable_node (n : node) : bool := match n with NE e => analysable e | _ => true end.
(** A walker that keeps every node and writes down what it visits, and whether it is told that it is in an effect *)
Definition told (c : option context) : bool := match c with Some InEffect => true | _ => false end.
Definition recorder (c : option context) (n : node) (s : list (bool * node)) : res (reply * list (bool * node)) := Ok (Keep n, (s ++ [(told c, n)])%list).
(** The effects that are not universal, inside and outside universal ones, in order *)
Fixpoint leaves (e : effect) : list effect := match e with EUni _ _ es => flat_map leaves es | _ => [e] end.
Definition universal (e : effect) : bool := match e with EUni _ _ _ => true | _ => false end.

(** Same meaning: terms with the same value, equivalent formulas; an effect is kept. A variable stays the variable it is, since it may be the variable of a quantifier. *)
Definition same_value (t u : term) : Prop := forall M e, tsem M t e = tsem M u e.
Definition same (n m : node) : Prop :=
  match n, m with
  | NT t, NT u => same_value t u /\ (is_var t = true -> u = t)
  | NF f, NF g => equivalent f g
  | NE e, NE e' => e' = e
  | _, _ => False
  end.
Inductive same_effect : effect -> effect -> Prop :=
| se_add c a c' a' : equivalent c c' -> equivalent a a' -> same_effect (EAdd c a) (EAdd c' a')
| se_del c a c' a' : equivalent c c' -> equivalent a a' -> same_effect (EDel c a) (EDel c' a')
| se_fun i c l r c' l' r' : equivalent c c' -> same_value l l' -> same_value r r' -> same_effect (EFun i c l r) (EFun i c' l' r')
| se_uni c vs es es' : Forall2 same_effect es es' -> same_effect (EUni c vs es) (EUni c vs es').
Definition same_action (a b : action) : Prop := a_name b = a_name a /\ a_params b = a_params a /\ equivalent (a_pre a) (a_pre b) /\ Forall2 same_effect (a_effs a) (a_effs b).
(** Well-formed expressions in an effect *)
Fixpoint wf_effect (e : effect) : bool :=
  match e with EAdd c a | EDel c a => wf c && wf a | EFun _ c l r => wf c && wf_term l && wf_term r | EUni _ _ es => forallb wf_effect es | ELit _ _ | EOther _ => false end.
(** Terms without conditional terms *)
Fixpoint plain (t : term) : bool := match t with Var _ _ | Cst _ _ => true | App _ ts => forallb plain ts | Ite _ _ _ => false end.
Definition plain_atom (f : formula) : bool := match f with Atom _ ts => forallb plain ts | _ => false end.
Definition is_atom (f : formula) : bool := match f with Atom _ _ => true | _ => false end.
