(** Independent specification of what the reader makes of an RDDL instance. *)
From Coq Require Import Ascii.
From Verif Require Import Base Syntax ModelState Lang LangSpec Theories RddlRead RddlInit.
#[local] Open Scope string_scope.
#[local] Open Scope list_scope.

(** ** The language *)
(** The names and the parents of the sorts that every language of the reader has *)
Definition predefined : list (string * elem) :=
  [("object", ESort "object"); ("Real", ESort "Real"); ("Integer", ESort "Integer"); ("Natural", ESort "Natural"); ("ite", EFun "ite" ["object"; "object"; "object"])].
Definition predefined_parents : list (string * string) := [("Real", "object"); ("Integer", "Real"); ("Natural", "Integer")].
(** A type of a text: a sort of the language, or one of the names of RDDL for numbers unless a type has that name *)
Definition type_names (r : rmodel) : list string := map fst (rm_types r).
Definition sort_names (r : rmodel) : list string := ["object"; "Real"; "Integer"; "Natural"] ++ type_names r.
Definition sort_called (r : rmodel) (s : string) : option string :=
  if in_dec string_dec s (sort_names r) then Some s else if String.eqb s "real" then Some "Real" else if String.eqb s "int" then Some "Integer" else None.
(** The element that a variable of the text declares *)
Fixpoint sorts_called (r : rmodel) (ss : list string) : option (list string) :=
  match ss with [] => Some [] | s :: ss' => match sort_called r s, sorts_called r ss' with Some t, Some ts => Some (t :: ts) | _, _ => None end end.
Definition variable_sorts (r : rmodel) (v : pvariable) : option (list string) := sorts_called r (if is_boolean (pv_range v) then parameters_of v else parameters_of v ++ [pv_range v]).
Definition symbol_name (v : pvariable) : string := base_name (pv_name v).
Definition symbol_of (v : pvariable) (ss : list string) : elem := if is_boolean (pv_range v) then EPred (symbol_name v) ss else EFun (symbol_name v) ss.
(** What the names of the text denote *)
Definition names_declared (r : rmodel) (n : string) (e : elem) : Prop :=
  In (n, e) predefined
  \/ (In n (type_names r) /\ e = ESort n)
  \/ (exists t, In (t, n) (objects_of r) /\ e = EConst (CStr n) t)
  \/ (exists v ss, In v (variables_of r) /\ n = symbol_name v /\ variable_sorts r v = Some ss /\ e = symbol_of v ss).
(** The types are declared as subtypes of object, all names differ, objects belong to declared types, and variables have declared types *)
Record well_formed (r : rmodel) : Prop := {
  wf_parents : forall t p, In (t, p) (rm_types r) -> p = Some "object";
  wf_names : NoDup (map fst predefined ++ type_names r ++ map snd (objects_of r) ++ map symbol_name (variables_of r));
  wf_objects : forall t o, In (t, o) (objects_of r) -> In t ("object" :: type_names r);
  wf_variables : forall v, In v (variables_of r) -> variable_sorts r v <> None }.
(** Texts in which the built-in words are not used for other purposes: numbers are not objects, and no object or variable is called real or int *)
Record ordinary (r : rmodel) : Prop := {
  od_objects : forall t o, In (t, o) (objects_of r) -> ~ In t ["Real"; "Integer"; "Natural"];
  od_names : forall n, In n ["real"; "int"] -> ~ In n (map snd (objects_of r) ++ map symbol_name (variables_of r)) }.

(** ** The initial state *)
(** The entry is about the element [e] at the objects [ts]. *)
Definition about (l : lang) (x : entry) (e : elem) (ts : list term) : Prop :=
  lget l (CStr (unquote (fst (fst x)))) = Ok e /\
  Forall2 (fun g t => exists w c s, g = GName w /\ lget l (CStr w) = Ok (EConst c s) /\ t = Cst c s) (match snd (fst x) with Some gs => gs | None => [] end) ts.
(** The value of an entry as an element of a sort *)
Definition value_as (parse : bool -> string -> option Z) (l : lang) (v : ivalue) (s : sort) (t : term) : Prop :=
  exists r, In (s, r) (l_sorts l) /\
  match s_kind r, v with
  | KPlain, IName w => In (CStr w) (s_dom r) /\ t = Cst (CStr w) s
  | KPlain, IInt z => In (CInt z) (s_dom r) /\ t = Cst (CInt z) s
  | KPlain, IBool b => In (CInt (if b then 1 else 0)) (s_dom r) /\ t = Cst (CInt (if b then 1 else 0)) s
  | KInterval _ lb ub, IInt z => (lb <= z <= ub)%Z /\ t = Cst (CInt z) s
  | KInterval _ lb ub, IBool b => (lb <= (if b then 1 else 0) <= ub)%Z /\ t = Cst (CInt (if b then 1 else 0)) s
  | KInterval real lb ub, IName w => exists z, parse real w = Some z /\ (lb <= z <= ub)%Z /\ t = Cst (CInt z) s
  | KInterval real _ _, IFloat w => real = true /\ t = Cst (CStr w) s
  | _, _ => False
  end.
(** Integers whose conversion to a float is exact *)
Definition exact_value (parse : bool -> string -> option Z) (v : ivalue) : Prop :=
  match v with IInt z => (Z.abs z <= 2 ^ 53)%Z | IName w => forall b z, parse b w = Some z -> (Z.abs z <= 2 ^ 53)%Z | _ => True end.
(** No argument is a variable: the names are not empty and do not start with a question mark *)
Definition object_argument (g : rarg) : Prop := match g with GName "" => False | GName (String c _) => c <> "?"%char | GNum _ => True end.
Definition entry_ok (parse : bool -> string -> option Z) (l : lang) (x : entry) : Prop :=
  exists e ts, about l x e ts /\
  match e with
  | EPred p ss => Forall2 (fun t s => match t with Cst _ s' => le l s' s | _ => False end) ts ss
  | EFun f ss => Forall2 (fun t s => match t with Cst _ s' => le l s' s | _ => False end) ts (removelast ss) /\ exists t, value_as parse l (snd x) (last ss "") t
  | _ => False
  end.
(** The value given last to an element at some objects *)
Definition given (l : lang) (es : list entry) (e : elem) (ts : list term) (v : ivalue) : Prop :=
  exists before x after, es = before ++ x :: after /\ about l x e ts /\ snd x = v /\ forall y, In y after -> ~ about l y e ts.
(** The initial value of a fluent in RDDL: the one given for it, or else the default of its declaration *)
Definition initial_value (l : lang) (r : rmodel) (v : pvariable) (e : elem) (ts : list term) (x : ivalue) : Prop :=
  given l (entries_of r) e ts x \/ ((forall y, In y (entries_of r) -> ~ about l y e ts) /\ pv_default v = Some x).
(** No two entries about the same element at the same objects have different values. *)
Definition consistent (l : lang) (es : list entry) : Prop := forall x y e ts, In x es -> In y es -> about l x e ts -> about l y e ts -> snd x = snd y.
