(** Independent specification of RDDL documents: how a text is divided into sections and entries, and what a document must say about a task. The first part does not mention the writer. *)
From Coq Require Import Ascii.
From Verif Require Import Base Syntax ModelState ModelText Lang LangSpec Rddl RddlSpec RddlDoc.
#[local] Open Scope string_scope.
#[local] Open Scope list_scope.

(** ** Documents *)
Inductive rvalue : Set := Truth (b : bool) | Other (w : string).
Record declaration : Set := { d_name : string; d_params : list string; d_kind : string; d_type : string; d_attribute : string; d_value : rvalue }.
Record document : Set := {
  doc_domain : string; doc_requirements : list string; doc_types : list (string * string); doc_fluents : list declaration;
  doc_cpfs : list (string * list rexp * rexp); doc_reward : rexp; doc_preconditions : list rexp; doc_invariants : list rexp;
  doc_non_fluents : string; doc_non_fluents_domain : string; doc_objects : list (string * list string); doc_constants : list (string * list string * rvalue);
  doc_instance : string; doc_instance_domain : string; doc_instance_non_fluents : string; doc_init : list (string * list string * rvalue);
  doc_max : string; doc_horizon : string; doc_discount : string
}.

(** ** Reading *)
(** The tokens up to the brace that closes [S d] open ones, and what follows it. *)
Fixpoint block (d : nat) (ts : list token) : option (list token * list token) :=
  let keep t r := match r with Some (a, b) => Some (t :: a, b) | None => None end in
  match ts with
  | [] => None
  | RC :: r => match d with O => Some ([], r) | S d' => keep RC (block d' r) end
  | LC :: r => keep LC (block (S d) r)
  | t :: r => keep t (block d r)
  end.
Fixpoint until_semi (ts : list token) : option (list token * list token) :=
  match ts with [] => None | Semi :: r => Some ([], r) | t :: r => match until_semi r with Some (a, b) => Some (t :: a, b) | None => None end end.
(** One piece after the other, up to the end *)
Fixpoint entries {A} (f : list token -> option (A * list token)) (n : nat) (ts : list token) : option (list A) :=
  match ts, n with
  | [], _ => Some []
  | _, O => None
  | _, S n' => match f ts with Some (a, r) => option_map (cons a) (entries f n' r) | None => None end
  end.
Definition all {A} (f : list token -> option (A * list token)) (ts : list token) : option (list A) := entries f (List.length ts) ts.
(** keyword name { ... } *)
Definition section (ts : list token) : option ((string * string * list token) * list token) :=
  match ts with
  | Word k :: Word n :: LC :: r => if name_ok n then match block 0 r with Some (b, r') => Some ((k, n, b), r') | None => None end else None
  | _ => None
  end.
(** key { ... };  key = { ... };  key = ...; *)
Definition field (ts : list token) : option ((string * list token) * list token) :=
  match ts with
  | Word k :: LC :: r => expect Semi (match block 0 r with Some (b, r') => Some ((k, b), r') | None => None end)
  | Word k :: Word e :: LC :: r => if String.eqb e "=" then expect Semi (match block 0 r with Some (b, r') => Some ((k, b), r') | None => None end) else None
  | Word k :: Word e :: r => if String.eqb e "=" then match until_semi r with Some (b, r') => Some ((k, b), r') | None => None end else None
  | _ => None
  end.
(** the only field with a key; a missing section is an empty one *)
Definition the_field (k : string) (fs : list (string * list token)) : option (list token) :=
  match filter (fun f => String.eqb (fst f) k) fs with [f] => Some (snd f) | _ => None end.
Definition a_field (k : string) (fs : list (string * list token)) : option (list token) :=
  match filter (fun f => String.eqb (fst f) k) fs with [] => Some [] | [f] => Some (snd f) | _ => None end.
Definition a_name (ts : list token) : option string := match ts with [Word w] => if name_ok w then Some w else None | _ => None end.
(** w1, ..., wk and a closing token *)
Fixpoint names_until (close : token) (ts : list token) : option (list string * list token) :=
  match ts with
  | Word w :: t :: r => if name_ok w then
                          if token_eqb t close then Some ([w], r)
                          else match t with Comma => match names_until close r with Some (ws, r') => Some (w :: ws, r') | None => None end | _ => None end
                        else None
  | _ => None
  end.
(** n or n(w1, ..., wk) *)
Definition head_of (ts : list token) : option ((string * list string) * list token) :=
  match ts with
  | Word n :: LP :: r => if name_ok n then match names_until RP r with Some (ws, r') => Some ((n, ws), r') | None => None end else None
  | Word n :: r => if name_ok n then Some ((n, []), r) else None
  | _ => None
  end.
Definition value_of (w : string) : option rvalue :=
  if String.eqb w "true" then Some (Truth true) else if String.eqb w "false" then Some (Truth false) else if name_ok w then Some (Other w) else None.
Definition type_entry (ts : list token) : option ((string * string) * list token) :=
  match ts with Word n :: Word c :: Word p :: Semi :: r => if name_ok n && String.eqb c ":" && name_ok p then Some ((n, p), r) else None | _ => None end.
Definition kinds : list (string * string) := [("state-fluent", "default"); ("interm-fluent", "level"); ("action-fluent", "default"); ("non-fluent", "default")].
Definition declaration_entry (ts : list token) : option (declaration * list token) :=
  match head_of ts with
  | Some ((n, ps), Word c :: LC :: Word k :: Comma :: Word ty :: Comma :: Word a :: Word e :: Word v :: RC :: Semi :: r) =>
      if String.eqb c ":" && String.eqb e "=" && name_ok ty && existsb (fun ka => String.eqb (fst ka) k && String.eqb (snd ka) a) kinds then
        option_map (fun x => ({| d_name := n; d_params := ps; d_kind := k; d_type := ty; d_attribute := a; d_value := x |}, r)) (value_of v)
      else None
  | _ => None
  end.
Definition object_entry (ts : list token) : option ((string * list string) * list token) :=
  match ts with
  | Word n :: Word c :: LC :: r =>
      if name_ok n && String.eqb c ":" then
        match (match r with RC :: r' => Some ([], r') | _ => names_until RC r end) with Some (ws, Semi :: r') => Some ((n, ws), r') | _ => None end
      else None
  | _ => None
  end.
Definition value_entry (ts : list token) : option ((string * list string * rvalue) * list token) :=
  match head_of ts with
  | Some ((n, ws), Word e :: Word v :: Semi :: r) => if String.eqb e "=" then option_map (fun x => ((n, ws, x), r)) (value_of v) else None
  | _ => None
  end.
Definition names_list (ts : list token) : option (list string) :=
  match ts with [] => Some [] | _ => match names_until RC (ts ++ [RC]) with Some (ws, []) => Some ws | _ => None end end.
Definition whole_expression (ts : list token) : option rexp := match read_expression ts with Some (e, []) => Some e | _ => None end.
Notation "'from' x <- a ; b" := (match a with Some x => b | None => None end) (at level 200, x name, a at level 100, b at level 200, only parsing).
Definition read_document (s : string) : option document :=
  match all section (lex "" s) with
  | Some [(k1, dn, b1); (k2, nn, b2); (k3, iname, b3)] =>
      if String.eqb k1 "domain" && String.eqb k2 "non-fluents" && String.eqb k3 "instance" then
        from f1 <- all field b1; from f2 <- all field b2; from f3 <- all field b3;
        from rq <- the_field "requirements" f1; from rq <- names_list rq;
        from ty <- the_field "types" f1; from ty <- all type_entry ty;
        from pv <- the_field "pvariables" f1; from pv <- all declaration_entry pv;
        from cp <- the_field "cpfs" f1; from cp <- definitions (List.length cp) cp;
        from rw <- the_field "reward" f1; from rw <- whole_expression rw;
        from pr <- the_field "action-preconditions" f1; from pr <- constraints (List.length pr) pr;
        from iv <- the_field "state-invariants" f1; from iv <- constraints (List.length iv) iv;
        from nd <- the_field "domain" f2; from nd <- a_name nd;
        from ob <- a_field "objects" f2; from ob <- all object_entry ob;
        from nf <- a_field "non-fluents" f2; from nf <- all value_entry nf;
        from d3 <- the_field "domain" f3; from d3 <- a_name d3;
        from n3 <- the_field "non-fluents" f3; from n3 <- a_name n3;
        from si <- the_field "init-state" f3; from si <- all value_entry si;
        from mx <- the_field "max-nondef-actions" f3; from mx <- a_name mx;
        from ho <- the_field "horizon" f3; from ho <- a_name ho;
        from di <- the_field "discount" f3; from di <- a_name di;
        Some {| doc_domain := dn; doc_requirements := rq; doc_types := ty; doc_fluents := pv; doc_cpfs := cp; doc_reward := rw; doc_preconditions := pr; doc_invariants := iv;
                doc_non_fluents := nn; doc_non_fluents_domain := nd; doc_objects := ob; doc_constants := nf;
                doc_instance := iname; doc_instance_domain := d3; doc_instance_non_fluents := n3; doc_init := si; doc_max := mx; doc_horizon := ho; doc_discount := di |}
      else None
  | _ => None
  end.

(** ** What a document must say about a task *)
Definition symbol_name (f : fluent) : string := match f with FPred n _ | FFun n _ _ => n end.
Definition symbol_sorts (f : fluent) : list sort := match f with FPred _ ss | FFun _ ss _ => ss end.
(** The range of a fluent: the Boolean and numeric types have names of their own. *)
Definition range_of (f : fluent) : string :=
  match f with FPred _ _ => "bool" | FFun _ _ c => if String.eqb c "Real" then "real" else if String.eqb c "Integer" then "int" else c end.
Definition declared_fluent (kind attribute : string) (d : fluent * pyvalue) (r : declaration) : Prop :=
  d_name r = symbol_name (fst d) /\ d_params r = symbol_sorts (fst d) /\ d_kind r = kind /\ d_type r = range_of (fst d) /\ d_attribute r = attribute /\
  match snd d with PBool b => d_value r = Truth b | PText s => value_of s = Some (d_value r) end.
(** the types: uninterpreted sorts that are neither built in nor the sort of all objects *)
Definition user_type (l : lang) (s : string) : Prop := s <> "object" /\ exists r, In (s, r) (l_sorts l) /\ s_builtin r = false /\ s_kind r = KPlain.
(** the constants of a type: those declared with it or with one of its subtypes *)
Definition object_in (l : lang) (s : string) (w : string) : Prop := exists c s', w = name_text c /\ is_plain l s' /\ const_of l c s' /\ le l s' s.
(** [f(ws)] has the value [v] in the state [m]. *)
Definition has_value (m : model) (f : fluent) (ws : list string) (v : rvalue) : Prop :=
  match f with
  | FPred n ss => exists pt, ws = map text pt /\ m_holds m (PU n ss) pt = true /\ v = Truth true
  | FFun n ss c => exists pt x, ws = map text pt /\ m_value m (FU n ss c) pt = Ok x /\ v = Other (text x)
  end.
Definition known_symbol (l : lang) (f : fluent) : Prop := match f with FPred n ss => In (n, ss) (l_preds l) | FFun n ss c => In (n, ss ++ [c]) (l_funs l) end.
Definition is_among (f : fluent) (ds : list (fluent * pyvalue)) : Prop := In f (map fst ds).
Definition describes (d : document) (t : task) : Prop :=
  doc_domain d = t_domain t /\ doc_requirements d = t_requirements t /\
  (NoDup (map fst (doc_types d)) /\ forall s p, In (s, p) (doc_types d) <-> user_type (t_lang t) s /\ parent_of (t_lang t) s = Some p) /\
  (exists d1 d2 d3 d4, doc_fluents d = d1 ++ d2 ++ d3 ++ d4 /\
     Forall2 (declared_fluent "state-fluent" "default") (t_state t) d1 /\ Forall2 (declared_fluent "interm-fluent" "level") (t_interm t) d2 /\
     Forall2 (declared_fluent "action-fluent" "default") (t_action t) d3 /\ Forall2 (declared_fluent "non-fluent" "default") (t_non t) d4) /\
  Forall2 (fun r c => fst (fst r) = fst (fst c) /\ Forall2 same_meaning (snd (fst r)) (snd (fst c)) /\ same_meaning (snd r) (snd c)) (doc_cpfs d) (t_cpfs t) /\
  match t_reward t with Some e => same_meaning (doc_reward d) e | None => doc_reward d = RName "0.0" [] end /\
  Forall2 same_meaning (doc_preconditions d) (map fst (filter (fun c => ctype_eqb (snd c) ACTION) (t_constraints t))) /\
  Forall2 same_meaning (doc_invariants d) (map fst (filter (fun c => ctype_eqb (snd c) STATE) (t_constraints t))) /\
  (map fst (doc_objects d) = map fst (doc_types d) /\ forall s ws, In (s, ws) (doc_objects d) -> NoDup ws /\ forall w, In w ws <-> object_in (t_lang t) s w) /\
  (forall n ws v, In (n, ws, v) (doc_constants d) <-> exists f, known_symbol (t_lang t) f /\ symbol_name f = n /\ is_among f (t_non t) /\ has_value (t_x0 t) f ws v) /\
  (forall n ws v, In (n, ws, v) (doc_init d) <->
     exists f, known_symbol (t_lang t) f /\ symbol_name f = n /\ ~ is_among f (t_non t) /\ ~ is_among f (t_interm t) /\ has_value (t_x0 t) f ws v) /\
  doc_instance d = t_instance t /\ doc_non_fluents_domain d = t_domain t /\ doc_instance_domain d = t_domain t /\ doc_instance_non_fluents d = doc_non_fluents d /\
  (exists v, t_max t = Some v /\ doc_max d = py_text v) /\ doc_horizon d = py_text (t_horizon t) /\ doc_discount d = py_text (t_discount t).

(** ** The tasks that can be written *)
Definition fluent_ok (l : lang) (d : fluent * pyvalue) : Prop :=
  known_symbol l (fst d) /\ name_ok (symbol_name (fst d)) = true /\ Forall (fun s => name_ok s = true) (symbol_sorts (fst d)) /\
  match fst d with FPred _ _ => True | FFun _ _ c => name_ok c = true /\ c <> "Object" end /\ exists s, snd d = PText s /\ value_of s <> None.
Definition constant_ok (t : term) : Prop := match t with Cst c _ => name_ok (name_text c) = true | _ => False end.
Definition cpf_ok (d : (string * list xexpr) * xexpr) : Prop :=
  name_ok (fst (fst d)) = true /\ Forall (fun t => match t with XVar _ _ | XCst _ _ => writable t | _ => False end) (snd (fst d)) /\ writable (snd d) /\ variables_apart (snd d).
Record task_ok (parse : bool -> string -> option Z) (sub : sort -> sort -> bool) (lops : list lop) (mops : list mop) (t : task) : Prop := {
  ok_lang : t_lang t = lrun parse lops /\ forallb native lops = true;
  ok_names : name_ok (t_domain t) = true /\ name_ok (t_instance t) = true /\ Forall (fun w => name_ok w = true) (t_requirements t);
  ok_types : forall s p, user_type (t_lang t) s -> parent_of (t_lang t) s = Some p -> name_ok s = true /\ name_ok p = true;
  ok_constants : forall c s, const_of (t_lang t) c s -> is_plain (t_lang t) s -> name_ok (name_text c) = true;
  ok_distinct : forall c s c' s', const_of (t_lang t) c s -> is_plain (t_lang t) s -> const_of (t_lang t) c' s' -> is_plain (t_lang t) s' -> name_text c = name_text c' -> c = c';
  ok_fluents : Forall (fluent_ok (t_lang t)) (t_state t ++ t_interm t ++ t_action t ++ t_non t);
  ok_cpfs : Forall cpf_ok (t_cpfs t);
  ok_constraints : forall e k, In (e, k) (t_constraints t) -> writable e /\ variables_apart e;
  ok_reward : forall e, t_reward t = Some e -> writable e /\ variables_apart e;
  ok_state : t_x0 t = mrun sub mops empty_model;
  ok_symbols : forall o, In o mops -> match o with
                 | OAdd (PU n ss) pt => In (n, ss) (l_preds (t_lang t)) /\ name_ok n = true /\ Forall constant_ok pt
                 | OSet (App (FU n ss c) pt) v => In (n, ss ++ [c]) (l_funs (t_lang t)) /\ name_ok n = true /\ Forall constant_ok pt /\ constant_ok v
                 | _ => True
                 end;
  ok_parameters : (exists v, t_max t = Some v /\ name_ok (py_text v) = true) /\ name_ok (py_text (t_horizon t)) = true /\ name_ok (py_text (t_discount t)) = true
}.
