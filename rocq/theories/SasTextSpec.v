(** Specification vocabulary for the writers of SAS instances. Not used by the model. *)
From Coq Require Import Ascii.
From Verif Require Import Base Syntax Index Sas SasText.
#[local] Open Scope string_scope.

(** A SAS instance: state variables with their values, actions, an initial state and a goal *)
Record instance := { i_vars : list (term * list term); i_actions : list saction; i_initial : list (term * term); i_goal : list (term * term); i_unit : bool }.
(** The arguments of the writer *)
Definition writer_of (i : instance) : fd_writer :=
  {| fw_vars := si_run term_eqb (map fst (i_vars i)); fw_domains := map (fun xl => (fst xl, si_run term_eqb (snd xl))) (i_vars i);
     fw_actions := i_actions i; fw_initial := i_initial i; fw_goal := i_goal i; fw_unit := i_unit i |}.
Definition well_formed (i : instance) : Prop := NoDup (map fst (i_vars i)) /\ Forall (fun xl => NoDup (snd xl)) (i_vars i).
(** The variable is one of the instance, the value one of its values. *)
Definition legal (i : instance) (x v : term) : Prop := exists l, In (x, l) (i_vars i) /\ In v l.
(** What the text says: names of variables and values, and operators, initial state and goal in terms of their positions *)
Record view := { v_unit : bool; v_vars : list (string * list string); v_ops : list (string * list (nat * nat) * list (nat * nat)); v_init : list (nat * nat); v_goal : list (nat * nat) }.
Definition points (i : instance) (ij : nat * nat) (xv : term * term) : Prop :=
  exists l, nth_error (i_vars i) (fst ij) = Some (fst xv, l) /\ nth_error l (snd ij) = Some (snd xv).
Definition full_name (str : term -> string) (a : saction) : string := sa_name a ++ "(" ++ String.concat "," (map str (sa_args a)) ++ ")".
Record describes (str : term -> string) (i : instance) (v : view) : Prop := {
  de_unit : v_unit v = i_unit i;
  de_vars : v_vars v = map (fun xl => (str (fst xl), map str (snd xl))) (i_vars i);
  de_ops : Forall2 (fun o a => fst (fst o) = full_name str a /\
      Forall2 (points i) (snd (fst o)) (map (fun t => (fst (fst t), snd (fst t))) (sa_transitions a)) /\
      Forall2 (points i) (snd o) (map (fun t => (fst (fst t), snd t)) (sa_transitions a))) (v_ops v) (i_actions i);
  de_init : Forall2 (points i) (v_init v) (i_initial i);
  de_goal : Forall2 (points i) (v_goal v) (i_goal i)
}.
(** Names without line breaks *)
Definition one_line (s : string) : Prop := ~ In (ascii_of_nat 10) (list_ascii_of_string s).
Definition one_line_names (str : term -> string) (i : instance) : Prop :=
  Forall (fun xl => one_line (str (fst xl)) /\ Forall (fun v => one_line (str v)) (snd xl)) (i_vars i) /\ Forall (fun a => one_line (full_name str a)) (i_actions i).

(** * JSON *)
Record jinstance := { j_actions : list saction; j_initial : list (term * sval); j_goal : list (term * sval); j_objects : list term; j_domains : list (term * list Z) }.
Definition mentioned (j : jinstance) (x : term) : Prop :=
  (exists a v w, In a (j_actions j) /\ In (x, v, w) (sa_transitions a)) \/ (exists v, In (x, v) (j_initial j)) \/ exists v, In (x, v) (j_goal j).
Definition variable_of (c : string) (x : term) : Prop := exists n d ts, x = App (FU n d c) ts.
Record good_json (j : jinstance) : Prop := {
  gj_objects : NoDup (j_objects j) /\ forall o, In o (j_objects j) -> exists c s, o = Cst c s /\ s <> "Integer";
  gj_variables : forall x, mentioned j x -> variable_of "object" x \/ variable_of "Integer" x /\ exists z l, In (x, z :: l) (j_domains j);
  gj_domains : NoDup (map fst (j_domains j));
  gj_transitions : forall a x v w, In a (j_actions j) -> In (x, v, w) (sa_transitions a) ->
    (variable_of "object" x -> In v (j_objects j) /\ In w (j_objects j)) /\ (variable_of "Integer" x -> exists z s z' s', v = Cst (CInt z) s /\ w = Cst (CInt z') s');
  gj_values : forall x v, In (x, VTerm v) (j_initial j) \/ In (x, VTerm v) (j_goal j) -> In v (j_objects j)
}.
(** The value of the document stands for the term: the position of an object, or a number. *)
Definition stands_for (j : jinstance) (x v : term) (q : jval) : Prop :=
  (variable_of "object" x /\ exists k, q = JInt (Z.of_nat k) /\ nth_error (j_objects j) k = Some v) \/ (variable_of "Integer" x /\ exists z s, v = Cst (CInt z) s /\ q = JInt z).
Definition stands_for_value (j : jinstance) (v : sval) (q : jval) : Prop :=
  match v with VInt z => q = JInt z | VTerm t => exists k, q = JInt (Z.of_nat k) /\ nth_error (j_objects j) k = Some t end.
(** The transitions with the number of their action *)
Definition numbered_transitions (acts : list saction) : list (nat * (term * term * term)) :=
  flat_map (fun ka => map (fun t => (fst ka, t)) (sa_transitions (snd ka))) (combine (seq 0 (List.length acts)) acts).
