(** Specification vocabulary for model equality. Not used by the model. *)
From Coq Require Import Ascii.
From Verif Require Import Base Syntax ModelState ModelSpec ModelText.
#[local] Open Scope string_scope.

(** Same true atoms, same function values (including where none is defined). *)
Definition same_extensions (m1 m2 : model) : Prop :=
  (forall p pt, m_holds m1 p pt = m_holds m2 p pt) /\ (forall f pt, m_value m1 f pt = m_value m2 f pt).

(** Names without the characters ( ) , ] and space, and not empty. *)
Definition delimiter (c : ascii) : bool :=
  Ascii.eqb c "("%char || Ascii.eqb c ")"%char || Ascii.eqb c ","%char || Ascii.eqb c " "%char || Ascii.eqb c "]"%char.
Fixpoint no_delimiter (s : string) : bool := match s with EmptyString => true | String c s' => negb (delimiter c) && no_delimiter s' end.
Definition clean (s : string) : bool := negb (String.eqb s "") && no_delimiter s.

(** The terms mentioned by an operation. *)
Definition op_terms (o : mop) : list term :=
  match o with
  | OAdd _ args | ORemove _ args | ODiscard _ args => args
  | OSet (App _ args) v => v :: args
  | _ => []
  end.
(** A vocabulary in which printed names identify symbols and constants: names are clean; two predicates (functions) with the
    same name are the same symbol; two constants with the same printed name are the same constant. *)
Definition term_sort (t : term) : sort := match t with Cst _ s => s | _ => "" end.
Record unambiguous (ops : list mop) : Prop := {
  ua_preds : forall o p, In o ops -> op_pred o = Some p -> match p with PU n _ => clean n = true | PB _ => True end;
  ua_funs : forall o f, In o ops -> op_fun o = Some f -> match f with FU n _ _ => clean n = true | FB _ => True end;
  ua_pred_names : forall o o' n ss ss', In o ops -> In o' ops -> op_pred o = Some (PU n ss) -> op_pred o' = Some (PU n ss') -> ss = ss';
  ua_fun_names : forall o o' n d c d' c', In o ops -> In o' ops -> op_fun o = Some (FU n d c) -> op_fun o' = Some (FU n d' c') -> d = d' /\ c = c';
  ua_terms : forall o t, In o ops -> In t (op_terms o) -> clean (text t) = true /\ clean (term_sort t) = true;
  ua_constants : forall o o' t t', In o ops -> In o' ops -> In t (op_terms o) -> In t' (op_terms o') -> text t = text t' -> t = t'
}.
