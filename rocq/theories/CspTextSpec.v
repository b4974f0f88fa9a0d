(** Specification vocabulary for the text of a CSP. Not used by the model. *)
From Coq Require Import Ascii.
From Verif Require Import Base Syntax ModelState Eval Grounding SortIds CspSchema CspSchemaSpec.
#[local] Open Scope string_scope.

(** What a text says: variables with kind and bounds, the parameters that matter for the effects (if not all do), all parameters in order, and the constraints *)
Inductive condition : Set :=
| DTable (symbol : string) (negative : bool) (variables : list string)
| DState (number : nat) (value : bool)
| DRel (lhs rel rhs : string).
Record description := { d_vars : list (string * string * (Z * Z)); d_relevant : list string; d_params : list string; d_cons : list condition }.

(** A name that is written as one word of one line *)
Definition one_word (s : string) : Prop := s <> "" /\ ~ In " "%char (list_ascii_of_string s) /\ ~ In (ascii_of_nat 10) (list_ascii_of_string s).
Definition symbol_of (e : term + formula) (n : string) : Prop :=
  match e with inl (App (FU m _ _) _) => n = m | inr (Atom (PU m _) _) => n = m | _ => False end.
(** the condition says what the constraint says; state variables are given by their numbers *)
Definition condition_of (svs : list svar) (c : constraint) (d : condition) : Prop :=
  match c, d with
  | CTable e xs neg, DTable n neg' ys => symbol_of e n /\ neg' = neg /\ xs = map Some ys
  | CState (Atom p ts) b, DState i b' => b' = b /\ exists v, nth_error svs i = Some v /\ svar_eqb (SymP p, ts) v = true
  | CRel (Some x) (Some y) rel, DRel x' rel' y' => x' = x /\ y' = y /\ rel' = rel
  | _, _ => False
  end.
Record describes_csp (svs : list svar) (k : csp) (d : description) : Prop := {
  dc_vars : d_vars d = map (fun v => (fst (fst v), snd (fst v), (Z.of_nat (fst (snd v)), snd (snd v)))) (c_vars k);
  dc_params : d_params d = c_index k;
  dc_relevant : if Nat.eqb (List.length (c_relevant k)) (List.length (c_index k)) then d_relevant d = [] else Forall2 (fun t x => exists s, t = Var x s) (c_relevant k) (d_relevant d);
  dc_cons : Forall2 (condition_of svs) (c_cons k) (d_cons d)
}.
(** The CSPs whose names can be written, over user-defined symbols and with variables everywhere *)
Definition writable_constraint (c : constraint) : Prop :=
  match c with
  | CTable e xs _ => (exists n, symbol_of e n /\ one_word n) /\ exists ys, xs = map Some ys /\ Forall one_word ys
  | CState e _ => exists p ts, e = Atom p ts
  | CRel x y rel => (exists x', x = Some x' /\ one_word x') /\ (exists y', y = Some y' /\ one_word y') /\ one_word rel
  end.
Record writable_csp (k : csp) : Prop := {
  wc_vars : Forall (fun v => one_word (fst (fst v)) /\ one_word (snd (fst v))) (c_vars k);
  wc_relevant : Forall (fun t => exists x s, t = Var x s /\ one_word x) (c_relevant k);
  wc_params : Forall one_word (c_index k);
  wc_cons : Forall writable_constraint (c_cons k)
}.
(** * The solutions of a description, in a state [m]: tables are looked up by the name of the predicate, state variables by number *)
Section Solutions.
Variables (ids : list (cobj * nat)) (svs : list svar) (m : model).
Definition in_named_table (n : string) (vs : list Z) : Prop := exists ss, in_table ids m (PU n ss) vs.
Definition met (sigma : string -> Z) (d : condition) : Prop :=
  match d with
  | DTable n neg xs => in_named_table n (map sigma xs) <-> neg = false
  | DState i b => exists p ts, nth_error svs i = Some (SymP p, ts) /\ eval_f m (Atom p ts) = Ok b
  | DRel x rel y => compares rel (sigma x) (sigma y)
  end.
Definition solves (d : description) (sigma : string -> Z) : Prop :=
  (forall x kind lo hi, In (x, kind, (lo, hi)) (d_vars d) -> (lo <= sigma x <= hi)%Z) /\ Forall (met sigma) (d_cons d).
End Solutions.
