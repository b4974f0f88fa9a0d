(** The whole document written for an RDDL task: src/tarski/io/rddl.py:416-595, 681-688 (class Writer), src/tarski/rddl/task.py and io/templates/rddl_model.tpl *)
From Coq Require Import Ascii.
From Verif Require Import Base Syntax ModelState ModelText PddlText Lang Rddl.
#[local] Open Scope string_scope.

(** A fluent is declared with an atom or a compound term, of which the writer uses the symbol only (rddl.py:471-494): a predicate with its argument sorts, or a function
    with its argument sorts and its codomain. *)
Inductive fluent : Set := FPred (n : string) (ss : list sort) | FFun (n : string) (ss : list sort) (c : sort).
(** The value given with a declaration: a Python Boolean, or anything else with the text that [str] gives for it. *)
Inductive pyvalue : Set := PBool (b : bool) | PText (s : string).
Definition py_text (v : pyvalue) : string := match v with PBool true => "True" | PBool false => "False" | PText s => s end.
(** rddl/task.py:7-41. The requirements are given with their texts (rddl.py:326-337). [Parameters] (rddl.py:210-219) defines horizon, discount and max_actions only: an attribute
    max_nondef_actions exists if the user has set it ([None]: it does not exist). An unset horizon or discount is [PText "None"]. *)
Record task := {
  t_lang : lang; t_domain : string; t_instance : string; t_requirements : list string;
  t_state : list (fluent * pyvalue); t_interm : list (fluent * pyvalue); t_action : list (fluent * pyvalue); t_non : list (fluent * pyvalue);
  t_cpfs : list ((string * list xexpr) * xexpr); t_constraints : list (xexpr * ctype); t_reward : option xexpr;
  t_x0 : model;
  t_max : option pyvalue; t_horizon : pyvalue; t_discount : pyvalue
}.
(** rddl.py:422-427: the attributes of the writer. need_constraints is never read. *)
Record writer := { w_objects : list string; w_non : list signature; w_interm : list signature }.
Definition new_writer : writer := {| w_objects := []; w_non := []; w_interm := [] |}.

Definition signature_of (f : fluent) : signature := match f with FPred n ss => psig (PU n ss) | FFun n ss c => fsig (FU n ss c) end.
(** rddl.py:454-455 *)
Definition get_requirements (t : task) : string := join ", " (t_requirements t).
(** rddl.py:457-469; sorts.py:174-177. The names of the sorts whose objects are to be declared are returned too. *)
Definition parent_name (l : lang) (s : string) : res string :=
  match sget (l_parent l) s with None => Err AssertionError | Some None => Err AttributeError | Some (Some p) => Ok p end.
Definition written_type (sr : string * sortrec) : bool :=
  negb (s_builtin (snd sr)) && negb (String.eqb (fst sr) "object") && match s_kind (snd sr) with KPlain => true | KInterval _ _ _ => false end.
Definition written_types (l : lang) : list string := map fst (filter written_type (l_sorts l)).
Definition type_line (l : lang) (s : string) : res string := let! p := parent_name l s in Ok (s ++ " : " ++ p ++ ";").
Definition get_types (l : lang) : res string := let! ls := mapM (type_line l) (written_types l) in Ok (join newline ls).
(** rddl.py:301, 471-477 *)
Definition type_name (s : sort) : string := if String.eqb s "Object" then "object" else if String.eqb s "Real" then "real" else if String.eqb s "Integer" then "int" else s.
Definition get_type (f : fluent) : string := match f with FPred _ _ => "bool" | FFun _ _ c => type_name c end.
(** rddl.py:479-494 *)
Definition get_signature (f : fluent) : string := match f with FPred n ss | FFun n ss _ => n ++ arguments "(" ")" ss end.
(** rddl.py:496-518 *)
Definition pvar_line (kind attribute : string) (d : fluent * pyvalue) : string :=
  tab ++ get_signature (fst d) ++ " : {" ++ kind ++ ", " ++ get_type (fst d) ++ ", " ++ attribute ++ " = " ++ py_text (snd d) ++ "};".
Definition get_pvars (t : task) : string :=
  join newline (map (pvar_line "state-fluent" "default") (t_state t) ++ map (pvar_line "interm-fluent" "level") (t_interm t) ++
                map (pvar_line "action-fluent" "default") (t_action t) ++ map (pvar_line "non-fluent" "default") (t_non t))%list.
(** rddl.py:543-555; [Sort.domain] gives Constant objects *)
Definition object_block (l : lang) (s : string) : res string :=
  let! d := sort_domain l s in Ok (tab ++ s ++ " : {" ++ join "," (map name_text d) ++ "};").
Definition get_objects (l : lang) (ss : list string) : res string :=
  match ss with
  | [] => Ok ""
  | _ => let! bs := mapM (object_block l) ss in Ok ("objects {" ++ join newline bs ++ "};")
  end.
(** rddl.py:563-564, 571-572, 587-588, 594-595: the symbol is looked up by name and called on the point; terms.py:195-196 separates the arguments of a compound term with a comma and a
    space, formulas.py:335-336 those of an atom with a comma. Simplification: the symbol that the language has under that name is the one of the signature (it was not removed from
    the language, nor redefined). *)
Definition elem_eqb (e e' : elem) : bool :=
  match e, e' with
  | EPred n ss, EPred n' ss' | EFun n ss, EFun n' ss' => String.eqb n n' && (if list_eq_dec string_dec ss ss' then true else false)
  | _, _ => false
  end.
Definition point_text (l : lang) (isfun : bool) (sg : signature) (pt : list term) : res string :=
  match snd sg with
  | [] => Err IndexError
  | n :: ss =>
      match pt with
      | [] => Ok n
      | _ => let! e := lget l (CStr n) in
             if elem_eqb e (if isfun then EFun n ss else EPred n ss) then Ok (n ++ "(" ++ join (if isfun then ", " else ",") (map text pt) ++ ")") else Err NotModelled
      end
  end.
(** the lines for the signatures that satisfy [keep]: functions first, then predicates *)
Definition value_line (l : lang) (sg : signature) (pv : list term * term) : res string :=
  let! s := point_text l true sg (fst pv) in Ok (tab ++ s ++ " = " ++ text (snd pv) ++ ";").
Definition true_line (l : lang) (sg : signature) (pt : list term) : res string :=
  let! s := point_text l false sg pt in Ok (tab ++ s ++ " = true;").
Definition value_lines (l : lang) (keep : signature -> bool) (m : model) : res (list string) :=
  let! fs := mapM (fun sd => mapM (value_line l (fst sd)) (snd sd)) (filter (fun sd => keep (fst sd)) (funs m)) in
  let! ps := mapM (fun sd => mapM (true_line l (fst sd)) (snd sd)) (filter (fun sd => keep (fst sd)) (preds m)) in
  Ok (List.concat fs ++ List.concat ps)%list.
Definition sig_mem (s : signature) (l : list signature) : bool := existsb (sig_eqb s) l.
(** rddl.py:557-578 *)
Definition get_non_fluent_init (t : task) (w : writer) : res string :=
  let! ls := value_lines (t_lang t) (fun s => sig_mem s (w_non w)) (t_x0 t) in
  match ls with [] => Ok "" | _ => Ok ("non-fluents {" ++ join newline ls ++ "};") end.
(** rddl.py:580-597 *)
Definition get_state_fluent_init (t : task) (w : writer) : res string :=
  let! ls := value_lines (t_lang t) (fun s => negb (sig_mem s (w_non w) || sig_mem s (w_interm w))) (t_x0 t) in Ok (join newline ls).
(** rddl.py:681-682 *)
Definition get_max_nondef_actions (t : task) : res string := match t_max t with None => Err AttributeError | Some v => Ok (py_text v) end.

Definition nl := newline.
(** io/templates/rddl_model.tpl *)
Definition template (domain requirements types pvars cpfs reward pre inv non_fluents objs nfs instance init max horizon discount : string) : string :=
  "domain " ++ domain ++ " {" ++ nl ++ nl ++
  "    requirements = { " ++ requirements ++ " };" ++ nl ++ nl ++
  "    types {" ++ nl ++ types ++ nl ++ "    };" ++ nl ++ nl ++
  "    pvariables {" ++ nl ++ pvars ++ nl ++ "    };" ++ nl ++ nl ++
  "    cpfs {" ++ nl ++ cpfs ++ nl ++ "    };" ++ nl ++ nl ++
  "    reward = " ++ reward ++ ";" ++ nl ++ nl ++
  "    action-preconditions {" ++ nl ++ pre ++ nl ++ "    };" ++ nl ++ nl ++
  "    state-invariants {" ++ nl ++ inv ++ nl ++ "    };" ++ nl ++ nl ++
  "}" ++ nl ++ nl ++
  "non-fluents " ++ non_fluents ++ " {" ++ nl ++
  "    domain = " ++ domain ++ ";" ++ nl ++ nl ++
  "    " ++ objs ++ nl ++ nl ++
  "    " ++ nfs ++ nl ++
  "}" ++ nl ++ nl ++
  "instance " ++ instance ++ " {" ++ nl ++ nl ++
  "    domain = " ++ domain ++ ";" ++ nl ++
  "    non-fluents = " ++ non_fluents ++ ";" ++ nl ++ nl ++
  "    init-state {" ++ nl ++ init ++ nl ++ "    };" ++ nl ++ nl ++
  "    max-nondef-actions = " ++ max ++ ";" ++ nl ++
  "    horizon = " ++ horizon ++ ";" ++ nl ++
  "    discount = " ++ discount ++ ";" ++ nl ++
  "}" ++ nl.
(** rddl.py:429-452 with the template. Python evaluates the arguments in the order in which they are written: [get_types] and [get_pvars] extend the attributes of the writer
    that [get_objects], [get_non_fluent_init] and [get_state_fluent_init] use. When one of them raises, no file is written; the state of the writer is then not modelled. *)
Definition after (t : task) (w : writer) : writer :=
  {| w_objects := (w_objects w ++ written_types (t_lang t))%list; w_non := (w_non w ++ map (fun d => signature_of (fst d)) (t_non t))%list;
     w_interm := (w_interm w ++ map (fun d => signature_of (fst d)) (t_interm t))%list |}.
Definition non_fluents_name (t : task) : string := t_instance t ++ "_non_fluents".
Definition write_model (t : task) (w : writer) : res (string * writer) :=
  let w' := after t w in
  let! types := get_types (t_lang t) in
  let! cpfs := get_cpfs (t_cpfs t) in
  let! reward := get_reward (t_reward t) in
  let! pre := get_preconditions (t_constraints t) in
  let! inv := get_state_invariants (t_constraints t) in
  let! objs := get_objects (t_lang t) (w_objects w') in
  let! nfs := get_non_fluent_init t w' in
  let! init := get_state_fluent_init t w' in
  let! max := get_max_nondef_actions t in
  Ok (template (t_domain t) (get_requirements t) types (get_pvars t) cpfs reward pre inv (non_fluents_name t) objs nfs (t_instance t) init max (py_text (t_horizon t)) (py_text (t_discount t)), w').
