(** What the external parser delivers for an RDDL document, and when a task survives being written and read *)
From Coq Require Import Ascii.
From Verif Require Import Base Syntax ModelState ModelText Lang LangSpec RddlRead RddlInit RddlInitSpec RddlDoc RddlDocSpec.
#[local] Open Scope string_scope.
#[local] Open Scope list_scope.

(** Which words are numbers, and which numbers they are: a parameter of everything below *)
Definition numbers := string -> option ivalue.
Definition delivered_value (num : numbers) (v : rvalue) : ivalue := match v with Truth b => IBool b | Other w => match num w with Some x => x | None => IName w end end.
Definition delivered_variable (num : numbers) (d : declaration) : pvariable :=
  {| pv_name := d_name d ++ "/" ++ name_text (CInt (Z.of_nat (List.length (d_params d)))); pv_params := match d_params d with [] => None | ps => Some ps end;
     pv_range := d_type d; pv_default := if String.eqb (d_attribute d) "default" then Some (delivered_value num (d_value d)) else None |}.
Definition delivered_entry (num : numbers) (e : string * list string * rvalue) : entry :=
  ((fst (fst e), match snd (fst e) with [] => None | ws => Some (map GName ws) end), delivered_value num (snd e)).
Definition of_kind (k : string) (d : document) : list declaration := filter (fun r => String.eqb (d_kind r) k) (doc_fluents d).
Definition whole (num : numbers) (w : string) : Z := match num w with Some (IInt z) => z | _ => 0 end.
(** The instance that the parser delivers *)
Definition delivered (num : numbers) (d : document) : rmodel :=
  {| rm_types := map (fun sp => (fst sp, Some (snd sp))) (doc_types d); rm_objects := doc_objects d;
     rm_non_fluents := map (delivered_variable num) (of_kind "non-fluent" d); rm_state_fluents := map (delivered_variable num) (of_kind "state-fluent" d);
     rm_interm_fluents := map (delivered_variable num) (of_kind "interm-fluent" d); rm_action_fluents := map (delivered_variable num) (of_kind "action-fluent" d);
     rm_init_state := map (delivered_entry num) (doc_init d); rm_init_non_fluent := map (delivered_entry num) (doc_constants d);
     rm_horizon := whole num (doc_horizon d); rm_discount := doc_discount d; rm_max_nondef := if String.eqb (doc_max d) "pos-inf" then PosInf else AtMost (whole num (doc_max d)) |}.

(** ** Tasks that survive *)
Definition fluents_of (t : task) : list fluent := map fst (t_state t ++ t_interm t ++ t_action t ++ t_non t).
Definition elem_of (f : fluent) : elem := match f with FPred n ss => EPred n ss | FFun n ss c => EFun n (ss ++ [c]) end.
(** an object of the sort [s] *)
Definition object_of (l : lang) (x : term) (s : sort) : Prop := exists w u, x = Cst (CStr w) u /\ const_of l (CStr w) u /\ le l u s.
(** a value of a function with codomain [c]: an object of the type, or a number that the parser reads back *)
Definition value_back (num : numbers) (l : lang) (x : term) (c : sort) : Prop :=
  (user_type l c /\ exists w, x = Cst (CStr w) c /\ const_of l (CStr w) c) \/
  (In c ["Real"; "Integer"] /\ exists z, x = Cst (CInt z) c /\ num (name_text (CInt z)) = Some (IInt z) /\ (Z.abs z <= 2 ^ 53)%Z /\ (c = "Integer" -> (- (2 ^ 31 - 1) <= z <= 2 ^ 31 - 1)%Z)) \/
  (c = "Real" /\ exists w, x = Cst (CStr w) "Real" /\ num w = Some (IFloat w)).
Record survives (parse : bool -> string -> option Z) (num : numbers) (mops : list mop) (t : task) : Prop := {
  sv_numbers : forall w x, num w = Some x -> match x with IInt _ | IFloat _ => True | _ => False end;
  sv_flat : forall s p, user_type (t_lang t) s -> parent_of (t_lang t) s = Some p -> p = "object";
  sv_constants : forall c s, const_of (t_lang t) c s -> user_type (t_lang t) s /\ exists w, c = CStr w /\ num w = None /\ forall b, parse b w = None;
  sv_names : forall n, user_type (t_lang t) n \/ (exists s, const_of (t_lang t) (CStr n) s) \/ In n (map symbol_name (fluents_of t)) -> ~ In n (map fst predefined) /\ ~ In n ["real"; "int"];
  sv_fluents : NoDup (fluents_of t);
  sv_sorts : forall f, In f (fluents_of t) -> Forall (fun s => s = "object" \/ user_type (t_lang t) s) (symbol_sorts f) /\
               match f with FPred _ _ => True | FFun _ _ c => In c ["Real"; "Integer"] \/ (user_type (t_lang t) c /\ ~ In c ["bool"; "boolean"]) end;
  sv_state : forall o, In o mops -> match o with
               | OAdd (PU n ss) pt => is_among (FPred n ss) (t_state t ++ t_action t ++ t_non t) /\ Forall2 (object_of (t_lang t)) pt ss
               | OSet (App (FU n ss c) pt) v => is_among (FFun n ss c) (t_state t ++ t_action t ++ t_non t) /\ Forall2 (object_of (t_lang t)) pt ss /\ value_back num (t_lang t) v c
               | _ => True
               end
}.
(** What was read says the same as the task: the same types, objects, symbols and initial values, and nothing else. *)
Definition same_task (x : reading) (t : task) : Prop :=
  let l := Theories.t_lang (rd_lang x) in
  (forall n e, lget l (CStr n) = Ok e <->
     In (n, e) predefined \/ (user_type (t_lang t) n /\ e = ESort n) \/ (exists s, const_of (t_lang t) (CStr n) s /\ e = EConst (CStr n) s) \/ (exists f, In f (fluents_of t) /\ n = symbol_name f /\ e = elem_of f)) /\
  (forall s, user_type (t_lang t) s -> forall p, parent_of l s = Some p <-> parent_of (t_lang t) s = Some p) /\
  (forall n ss pt, In (FPred n ss) (fluents_of t) -> m_holds (rd_state x) (PU n ss) pt = m_holds (t_x0 t) (PU n ss) pt) /\
  (forall n ss c pt v, In (FFun n ss c) (fluents_of t) -> m_value (rd_state x) (FU n ss c) pt = Ok v <-> m_value (t_x0 t) (FU n ss c) pt = Ok v).
