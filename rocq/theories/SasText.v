(** Writers of SAS instances: src/tarski/io/sas/json.py, src/tarski/io/sas/fd.py, src/tarski/io/sas/templates.py *)
From Coq Require Import DecimalString DecimalNat Ascii.
From Verif Require Import Base Syntax ModelState Index ModelText Sas.
#[local] Open Scope string_scope.

Section Writers.
(** [str] of a term (terms.py:148, 195, 335) *)
Variable str : term -> string.
Notation tidx := (sidx term).
(** json.py:81, fd.py:121-122 *)
Definition action_text (a : saction) : string := sa_name a ++ "(" ++ join "," (map str (sa_args a)) ++ ")".

(** * JSON: json.py:15-124. The document is modelled, not its text ([json.dump]). *)
(** Values of the initial state and the goal: integers, or terms. *)
Inductive sval := VInt (z : Z) | VTerm (t : term).
(** Values of the document: indices and names of constants *)
Inductive jval := JInt (z : Z) | JStr (s : string).
Definition index_value (n : nat) : jval := JInt (Z.of_nat n).
Definition name_value (c : cname) : jval := match c with CInt z => JInt z | CStr s => JStr s end.
Record doc := { d_domain : string; d_instance : string; d_types : list (string * list string); d_vars : list (string * string); d_actions : list string;
  d_trans : list (nat * nat * jval * jval); d_init : list (nat * jval); d_goal : list (nat * jval) }.
(** json.py:35-49 *)
Definition index_new (X : tidx) (x : term) : tidx := if si_contains term_eqb X x then X else snd (si_add term_eqb X x).
Definition index_variables (actions : list saction) (initial goal : list (term * sval)) : tidx :=
  fold_left index_new (flat_map (fun a => map (fun t => fst (fst t)) (sa_transitions a)) actions ++ map fst initial ++ map fst goal)%list si_empty.
(** [sort == lang.Integer] (sorts.py:32-33; fol.py:115-117 raises when the language has no such sort) *)
Definition is_integer (arith : bool) (s : string) : res bool := if arith then Ok (String.eqb s "Integer") else Err UndefinedElement.
(** terms.py: [obj.sort]; objects are constants. *)
Definition object_sort (t : term) : res string := match t with Cst _ s => Ok s | Var _ s => Ok s | _ => Err NotModelled end.
(** json.py:53-58 *)
Fixpoint index_objects (arith : bool) (objects : list term) (D : tidx) : res tidx :=
  match objects with
  | [] => Ok D
  | o :: r => let! s := object_sort o in let! i := is_integer arith s in index_objects arith r (if i then D else index_new D o)
  end.
(** [x.symbol.codomain]; built-in functions are not modelled. *)
Definition codomain (x : term) : res string :=
  match x with App (FU _ _ c) _ => Ok c | App (FB _) _ => Err NotModelled | Ite _ _ _ => Err NotModelled | _ => Err AttributeError end.
(** json.py:71-76: computed and then thrown away, but a missing domain is an error ([domains] maps references to lists of numbers). *)
Definition check_var (arith : bool) (domains : list (term * list Z)) (x : term) : res unit :=
  let! c := codomain x in
  if String.eqb c "object" then Ok tt else
  let! i := is_integer arith c in
  if i then match dget term_eqb domains x with Some [] => Err IndexError | Some _ => Ok tt | None => Err KeyError end else Ok tt.
(** terms.py: [v.symbol] of a value. Other than constants: not modelled. *)
Definition value_symbol (t : term) : res cname := match t with Cst c _ => Ok c | _ => Err NotModelled end.
(** json.py:88-95 *)
Definition trans_entry (arith : bool) (X D : tidx) (k : nat) (t : term * term * term) : res (list (nat * nat * jval * jval)) :=
  let '(x, v, w) := t in
  let! c := codomain x in
  if String.eqb c "object" then
    let! i := si_get_index term_eqb X x in let! j := si_get_index term_eqb D v in let! l := si_get_index term_eqb D w in Ok [(k, i, index_value j, index_value l)]
  else
    let! n := is_integer arith c in
    if n then let! i := si_get_index term_eqb X x in let! j := value_symbol v in let! l := value_symbol w in Ok [(k, i, name_value j, name_value l)] else Ok [].
Fixpoint trans_data (arith : bool) (X D : tidx) (k : nat) (actions : list saction) : res (list (nat * nat * jval * jval)) :=
  match actions with
  | [] => Ok []
  | a :: r => let! es := mapM (trans_entry arith X D k) (sa_transitions a) in let! rest := trans_data arith X D (S k) r in Ok (List.concat es ++ rest)%list
  end.
(** json.py:100-111 *)
Definition value_entry (X D : tidx) (xv : term * sval) : res (nat * jval) :=
  let! i := si_get_index term_eqb X (fst xv) in
  match snd xv with VInt z => Ok (i, JInt z) | VTerm v => let! j := si_get_index term_eqb D v in Ok (i, index_value j) end.
Definition json_dump (arith : bool) (lname : string) (actions : list saction) (initial goal : list (term * sval)) (objects : list term) (domains : list (term * list Z)) (name : string) : res doc :=
  let X := index_variables actions initial goal in
  let! D := index_objects arith objects si_empty in
  let! _ := mapM (check_var arith domains) (si_objects X) in
  let! tr := trans_data arith X D 0 actions in
  let! ini := mapM (value_entry X D) initial in
  let! gl := mapM (value_entry X D) goal in
  Ok {| d_domain := lname; d_instance := name; d_types := [("object", map str objects)]; d_vars := map (fun x => (str x, "object")) (si_objects X);
        d_actions := map action_text actions; d_trans := tr; d_init := ini; d_goal := gl |}.

(** * Fast Downward: fd.py *)
Definition nl : string := String (ascii_of_nat 10) "".
Definition lines (l : list string) : string := join nl l.
Definition num (n : nat) : string := NilZero.string_of_uint (Nat.to_uint n).
(** fd.py:27-34 *)
Record fd_writer := { fw_vars : tidx; fw_domains : list (term * tidx); fw_actions : list saction; fw_initial : list (term * term); fw_goal : list (term * term); fw_unit : bool }.
Definition fd_domain (w : fd_writer) (x : term) : res tidx := match dget term_eqb (fw_domains w) x with Some d => Ok d | None => Err KeyError end.
(** fd.py:45-69; templates.py:20-26 *)
Definition variable_text (w : fd_writer) (x : term) : res string :=
  let! d := fd_domain w x in Ok (lines ["begin_variable"; str x; "-1"; num (si_len d); lines (map str (si_objects d)); "end_variable"]).
(** fd.py:130-135, 188-193, 205-210; templates.py:54-55, 70-71, 79-80 *)
Definition pair_text (w : fd_writer) (x v : term) : res string :=
  let! i := si_get_index term_eqb (fw_vars w) x in let! d := fd_domain w x in let! j := si_get_index term_eqb d v in Ok (num i ++ " " ++ num j).
(** fd.py:144-152; templates.py:57-58 *)
Definition effect_text (w : fd_writer) (x v : term) : res string :=
  let! i := si_get_index term_eqb (fw_vars w) x in let! d := fd_domain w x in let! j := si_get_index term_eqb d v in Ok ("0" ++ " " ++ "" ++ " " ++ num i ++ " " ++ num j).
(** fd.py:165-178; templates.py:60-68 *)
Definition operator_text (w : fd_writer) (a : saction) : res string :=
  let! pre := mapM (fun t => pair_text w (fst (fst t)) (snd (fst t))) (sa_transitions a) in
  let! eff := mapM (fun t => effect_text w (fst (fst t)) (snd t)) (sa_transitions a) in
  Ok (lines ["begin_operator"; action_text a; num (List.length (sa_transitions a)); lines pre; num (List.length (sa_transitions a)); lines eff; "1"; "end_operator"]).
(** fd.py:216-240; templates.py:40-43, 73-102. The list of operators is also printed on the standard output (fd.py:178). *)
Definition fd_dump (w : fd_writer) : res string :=
  let! vs := mapM (variable_text w) (si_iter (fw_vars w)) in
  let! ops := (if Nat.eqb (List.length (fw_actions w)) 0 then Err AssertionError else mapM (operator_text w) (fw_actions w)) in
  let! ini := mapM (fun xv => pair_text w (fst xv) (snd xv)) (fw_initial w) in
  let! gl := mapM (fun xv => pair_text w (fst xv) (snd xv)) (fw_goal w) in
  Ok (lines ["begin_version"; "4"; "end_version"; "begin_metric"; (if fw_unit w then "0" else "1"); "end_metric"; num (si_len (fw_vars w)); lines vs; "0" ++ "";
             lines ["begin_axiom_defaults"; "0" ++ ""; "end_axiom_defaults"]; "0" ++ ""; num (List.length (fw_actions w)); lines ops;
             lines ["begin_initial_state"; num (si_len (fw_vars w)); lines ini; "end_initial_state"]; lines ["begin_goal"; lines gl; "end_goal"]; ""]).
End Writers.
