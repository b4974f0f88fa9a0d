(** Independent specification: the type hierarchy of a PDDL domain *)
From Verif Require Import Base Syntax ModelState Lang PddlInstance.
#[local] Open Scope string_scope.
#[local] Open Scope list_scope.

(** The pairs (subtype, supertype) of a types section, and the types it mentions *)
Definition pairs_of (es : list tentry) : list (string * string) := flat_map (fun e => match e with TName _ => [] | TSuper p subs => map (fun s => (s, primitive_type p)) subs end) es.
Definition types_of (es : list tentry) : list string := flat_map (fun e => match e with TName n => [n] | TSuper p subs => primitive_type p :: subs end) es.
(** Reachable in one or more steps *)
Inductive above (E : list (string * string)) : string -> string -> Prop :=
| above_one s t : In (s, t) E -> above E s t
| above_step s t u : In (s, t) E -> above E t u -> above E s u.
(** A type is a subtype of itself, of object, and of the types above it. *)
Definition below (es : list tentry) (s t : string) : Prop := s = t \/ t = "object" \/ above (pairs_of es) s t.
(** The supertype of a type is the one given last for it, or else object. *)
Definition supertype (es : list tentry) (s p : string) : Prop :=
  (exists before after, pairs_of es = before ++ (s, p) :: after /\ ~ In s (map fst after)) \/ (~ In s (map fst (pairs_of es)) /\ p = "object").
(** The names that types cannot have *)
Definition reserved : list string := ["object"; "Real"; "Integer"; "Natural"; "Bool"; "ite"].
(** The sections that can be read: a type with subtypes was either declared before, and then its subtypes are new, or is new, and then its subtypes are new or declared before. *)
Fixpoint types_ok (known : list string) (es : list tentry) : Prop :=
  match es with
  | [] => True
  | TName n :: r => ~ In n (reserved ++ known) /\ types_ok (known ++ [n]) r
  | TSuper p subs :: r =>
      let s := primitive_type p in
      ((In s known /\ NoDup subs /\ forall x, In x subs -> ~ In x (reserved ++ known)) \/
       (~ In s (reserved ++ known) /\ ~ In s subs /\ forall x, In x subs -> ~ In x reserved)) /\ types_ok (known ++ s :: subs) r
  end.
(** The constants of a section with their types *)
Definition constants_of (es : list tentry) : list (string * string) := flat_map (fun e => match e with TName _ => [] | TSuper p cs => map (fun c => (c, primitive_type p)) cs end) es.
(** A section of constants can be read exactly when every constant has a known type and a new name. *)
Definition constants_ok (tys N : list string) (es : list tentry) : Prop :=
  (forall e, In e es -> exists p cs, e = TSuper p cs /\ In (primitive_type p) tys) /\ NoDup (map fst (constants_of es)) /\ forall c, In c (map fst (constants_of es)) -> ~ In c (reserved ++ tys ++ N).
(** The variables of a list with their types: the type that comes next in the list, or else object *)
Fixpoint next_type (l : list vtoken) : string := match l with [] => "object" | VVar _ :: r => next_type r | VType p :: _ => primitive_type p end.
Fixpoint typed_variables (l : list vtoken) : list (string * string) := match l with [] => [] | VVar n :: r => (n, next_type r) :: typed_variables r | VType _ :: r => typed_variables r end.
(** The types a list of variables mentions *)
Definition mentioned (l : list vtoken) : list string := flat_map (fun v => match v with VVar _ => [] | VType p => [primitive_type p] end) l.
(** The other sections can be read when every symbol has a new name and known types. *)
Definition numeric_sorts : list string := ["Real"; "Integer"; "Natural"; "Bool"].
Fixpoint decls_ok (tys N : list string) (ds : list decl) : Prop :=
  match ds with
  | [] => True
  | DConsts es :: r => constants_ok tys N es /\ decls_ok tys (N ++ map fst (constants_of es)) r
  | DPred n args :: r => ~ In n (reserved ++ tys ++ N) /\ (forall t, In t (mentioned args) -> In t tys) /\ decls_ok tys (N ++ [n]) r
  | DFun n args cod :: r => ~ In n (reserved ++ tys ++ N) /\ (forall t, In t (mentioned args) -> In t tys) /\ (forall p, cod = Some p -> In (primitive_type p) (numeric_sorts ++ tys)) /\ decls_ok tys (N ++ [n]) r
  end.
(** The constants with their types, and the symbols with their signatures *)
Definition all_constants (ds : list decl) : list (string * string) := flat_map (fun d => match d with DConsts es => constants_of es | _ => [] end) ds.
Definition signatures (ds : list decl) : list (string * list string) :=
  flat_map (fun d => match d with
                     | DConsts _ => []
                     | DPred n args => [(n, map snd (typed_variables args) ++ ["Bool"])]
                     | DFun n args cod => [(n, map snd (typed_variables args) ++ [match cod with Some p => primitive_type p | None => "Integer" end])]
                     end) ds.
