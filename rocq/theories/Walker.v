(** Visitors that rewrite a problem in place: src/tarski/fstrips/walker.py [ProblemWalker] and src/tarski/syntax/walker.py [FOLWalker] (the same code on expressions), with the two
    walkers of src/tarski/fstrips/ops.py. A walker is a class whose [visit] methods the user writes: [h] stands for them, whatever they do. *)
From Verif Require Import Base Syntax Effects Represent Grounding.

(** What [visit] is called with *)
Inductive node : Set := NT (t : term) | NF (f : formula) | NE (e : effect).
(** walker.py:34-41 [WalkerContext] *)
Inductive context : Set := InEffect | InFormula.
(** walker.py:25-31 [WalkerAction.Supress], or the node that takes the place of the visited one *)
Inductive reply : Set := Keep (n : node) | Suppress.

Section Walk.
(** What the user's methods remember between visits *)
Variable S : Type.
(** [self.visit]: it may read [self.context], and raise. *)
Variable h : option context -> node -> S -> res (reply * S).
(** [self]: walker.py:56-58 *)
Definition state := (option context * S)%type.
Definition visit (n : node) (s : state) : res (reply * state) := let! r := h (fst s) n (snd s) in Ok (fst r, (fst s, snd r)).
(** The elements of a list are visited from left to right. *)
Definition walk_list {A} (go : A -> state -> res (reply * state)) : list A -> state -> res (list reply * state) :=
  fix walk_list l s := match l with [] => Ok ([], s) | x :: l' => let! r := go x s in let! rs := walk_list l' (snd r) in Ok (fst r :: fst rs, snd rs) end.
(** walker.py:166-168 [accept]. Replies of a kind that does not fit the list are not modelled. *)
Fixpoint accept_terms (l : list reply) : res (list term) :=
  match l with [] => Ok [] | Suppress :: l' => accept_terms l' | Keep (NT t) :: l' => let! r := accept_terms l' in Ok (t :: r) | _ => Err NotModelled end.
Fixpoint accept_formulas (l : list reply) : res (list formula) :=
  match l with [] => Ok [] | Suppress :: l' => accept_formulas l' | Keep (NF f) :: l' => let! r := accept_formulas l' in Ok (f :: r) | _ => Err NotModelled end.
Fixpoint accept_effects (l : list reply) : res (list effect) :=
  match l with [] => Ok [] | Suppress :: l' => accept_effects l' | Keep (NE e) :: l' => let! r := accept_effects l' in Ok (e :: r) | _ => Err NotModelled end.
(** Where there is no list, what [visit] returned is stored without [accept]: [Supress] then ends up in the tree, which is not modelled. *)
Definition a_term (r : reply) : res term := match r with Keep (NT t) => Ok t | _ => Err NotModelled end.
Definition a_formula (r : reply) : res formula := match r with Keep (NF f) => Ok f | _ => Err NotModelled end.

(** walker.py:125-158 [visit_expression], syntax/walker.py:60-86. Aggregates (terms.py:211) raise RuntimeError; they are not in [term]. An [IfThenElse] with a suppressed branch is not
    modelled. *)
Fixpoint visit_t (t : term) (s : state) : res (reply * state) :=
  match t with
  | Var _ _ | Cst _ _ => visit (NT t) s
  | App f ts => let! r := walk_list visit_t ts s in let! us := accept_terms (fst r) in visit (NT (App f us)) (snd r)
  | Ite c a b =>
      let! rc := visit_f c s in let! c' := a_formula (fst rc) in
      let! ra := visit_t a (snd rc) in let! rb := visit_t b (snd ra) in
      let! us := accept_terms [fst ra; fst rb] in
      match us with [a'; b'] => visit (NT (Ite c' a' b')) (snd rb) | _ => Err NotModelled end
  end
with visit_f (f : formula) (s : state) : res (reply * state) :=
  match f with
  | Top | Bot => visit (NF f) s
  | Atom p ts => let! r := walk_list visit_t ts s in let! us := accept_terms (fst r) in visit (NF (Atom p us)) (snd r)
  | Comp c fs => let! r := walk_list visit_f fs s in let! gs := accept_formulas (fst r) in visit (NF (Comp c gs)) (snd r)
  | Quant q vs g =>
      let! rg := visit_f g s in let! g' := a_formula (fst rg) in
      let! r := walk_list visit_t vs (snd rg) in let! us := accept_terms (fst r) in visit (NF (Quant q us g')) (snd r)
  end.
(** walker.py:160-164 [visit_effect_atom] *)
Definition visit_effect_formula (f : formula) (s : state) : res (formula * state) :=
  let! r := visit_f f (Some InEffect, snd s) in let! g := a_formula (fst r) in Ok (g, (Some InFormula, snd (snd r))).
Definition visit_effect_term (t : term) (s : state) : res (term * state) :=
  let! r := visit_t t (Some InEffect, snd s) in let! u := a_term (fst r) in Ok (u, (Some InFormula, snd (snd r))).
(** walker.py:103-123 [visit_effect]. The condition and the variables of a universal effect are not visited. *)
Fixpoint visit_effect (e : effect) (s : state) : res (reply * state) :=
  match e with
  | EAdd c a => let! rc := visit_f c s in let! c' := a_formula (fst rc) in let! ra := visit_effect_formula a (snd rc) in visit (NE (EAdd c' (fst ra))) (snd ra)
  | EDel c a => let! rc := visit_f c s in let! c' := a_formula (fst rc) in let! ra := visit_effect_formula a (snd rc) in visit (NE (EDel c' (fst ra))) (snd ra)
  | EFun i c l r =>
      let! rc := visit_f c s in let! c' := a_formula (fst rc) in
      let! rl := visit_effect_term l (snd rc) in let! rr := visit_effect_term r (snd rl) in visit (NE (EFun i c' (fst rl) (fst rr))) (snd rr)
  | EUni c vs es => let! r := walk_list visit_effect es s in let! es' := accept_effects (fst r) in visit (NE (EUni c vs es')) (snd r)
  | ELit _ _ | EOther _ => Err RuntimeError
  end.
(** walker.py:95-101 [visit_action]; [visit] is not called with the action. *)
Definition visit_action (a : action) (s : state) : res (action * state) :=
  let! rp := visit_f (a_pre a) s in let! p := a_formula (fst rp) in
  let! r := walk_list visit_effect (a_effs a) (snd rp) in let! es := accept_effects (fst r) in
  Ok ({| a_name := a_name a; a_params := a_params a; a_pre := p; a_effs := es |}, snd r).
Fixpoint visit_actions (l : list action) (s : state) : res (list action * state) :=
  match l with [] => Ok ([], s) | a :: l' => let! r := visit_action a s in let! rs := visit_actions l' (snd r) in Ok (fst r :: fst rs, snd rs) end.
(** walker.py:84-93 [visit_problem]: the initial state, constraints, derived predicates, metric and action costs are left alone. *)
Definition visit_problem (p : problem) (s : state) : res (problem * state) :=
  let! rg := visit_f (p_goal p) s in let! g := a_formula (fst rg) in
  let! ra := visit_actions (p_actions p) (snd rg) in
  Ok ({| p_actions := fst ra; p_init := p_init p; p_goal := g |}, snd ra).
(** walker.py:69-82 [run] on an expression or effect ([run] on an action goes to [visit_effect], which knows no actions and raises RuntimeError: lines 77-78, 120-121). A copy ([inplace=False]) is a deep copy, so that nothing that is visited is shared with the argument. *)
Definition run (n : node) (s : state) : res (reply * state) := match n with NT t => visit_t t s | NF f => visit_f f s | NE e => visit_effect e s end.
Definition new_walker (s : S) : state := (None, s).
End Walk.
Arguments visit {S}. Arguments visit_t {S}. Arguments visit_f {S}. Arguments visit_effect {S}. Arguments visit_effect_formula {S}. Arguments visit_effect_term {S}.
Arguments visit_action {S}. Arguments visit_actions {S}. Arguments visit_problem {S}. Arguments run {S}. Arguments walk_list {S} {A}. Arguments new_walker {S}.

(** walker.py:56-67 with the [visit] that the class comment asks for: nodes for which the user wrote no method go to [default_handler]. WalkerError is a TarskiError. *)
Definition dispatch {S} (raise_on_undefined : bool) (methods : node -> option (option context -> S -> res (reply * S))) (c : option context) (n : node) (s : S) : res (reply * S) :=
  match methods n with Some f => f c s | None => if raise_on_undefined then Err TarskiError else Ok (Keep n, s) end.

(** fstrips/ops.py:41-60 [AllSymbolWalker], :16-28 [collect_all_symbols]. Sets are lists that are read up to membership. *)
Definition all_symbols (n : node) : option (option context -> list sym -> res (reply * list sym)) :=
  match n with
  | NT (App f _) => Some (fun _ s => Ok (Keep n, (s ++ [SymF f])%list))
  | NF (Atom p _) => Some (fun _ s => Ok (Keep n, (s ++ [SymP p])%list))
  | _ => None
  end.
Definition walked_symbols (include_builtin : bool) (p : problem) : res (list sym) :=
  let! r := visit_problem (dispatch false all_symbols) p (new_walker []) in
  Ok (if include_builtin then snd (snd r) else filter (fun s => negb (sym_builtin s)) (snd (snd r))).
(** fstrips/ops.py:63-102 [AffectedSymbolWalker], :31-38 [collect_affected_symbols]. The methods for choice and linear effects and derived predicates are never reached: [visit_effect]
    rejects the former, and the latter are not visited. *)
Definition affected_symbols (n : node) : option (option context -> list sym -> res (reply * list sym)) :=
  match n with
  | NE (EAdd _ a | EDel _ a) => Some (fun _ s => match a with Atom p _ => Ok (Keep n, (s ++ [SymP p])%list) | _ => Err AttributeError end)
  | NE (EFun _ _ l _) => Some (fun _ s => match l with App f _ => Ok (Keep n, (s ++ [SymF f])%list) | _ => Err NotModelled end)
  | _ => None
  end.
Fixpoint run_all {S} (h : option context -> node -> S -> res (reply * S)) (ns : list node) (s : state S) : res (state S) :=
  match ns with [] => Ok s | n :: ns' => let! r := run h n s in run_all h ns' (snd r) end.
Definition walked_affected (acts : list action) : res (list sym) :=
  let! s := run_all (dispatch false affected_symbols) (flat_map (fun a => map NE (a_effs a)) acts) (new_walker []) in Ok (snd s).
