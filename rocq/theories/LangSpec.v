(** Specification vocabulary for languages: what a name denotes, and the sort hierarchy as the user sees it through [parent]. *)
From Verif Require Import Base Syntax ModelState Lang.

(** The language element [e] is registered under the name [n]. *)
Definition defined_as (l : lang) (n : cname) (e : elem) : Prop :=
  match e with
  | ESort s => n = CStr s /\ In s (map fst (l_sorts l))
  | EPred p ts => n = CStr p /\ In (p, ts) (l_preds l)
  | EFun f ts => n = CStr f /\ In (f, ts) (l_funs l)
  | EConst c s => n = c /\ exists sym, In (c, (sym, s)) (l_consts l)
  end.
(** sorts.py:174 [parent]: the immediate parent *)
Definition parent_of (l : lang) (s : string) : option string :=
  match sget (l_parent l) s with Some (Some p) => Some p | _ => None end.
(** [t] is a proper ancestor of [s] *)
Inductive anc (l : lang) : string -> string -> Prop :=
| anc_parent s p : parent_of l s = Some p -> anc l s p
| anc_up s p t : parent_of l s = Some p -> anc l p t -> anc l s t.
Definition le (l : lang) (s t : string) : Prop := s = t \/ anc l s t.
Definition is_sort (l : lang) (s : string) : Prop := In s (map fst (l_sorts l)).
(** An uninterpreted (non-interval) sort *)
Definition is_plain (l : lang) (s : string) : Prop := exists r, In (s, r) (l_sorts l) /\ s_kind r = KPlain.
(** The constant named [c] was declared with sort [s]. *)
Definition const_of (l : lang) (c : cname) (s : string) : Prop := exists sym, In (c, (sym, s)) (l_consts l).
(** The name that an operation declares. *)
Definition declares (o : lop) : option cname :=
  match o with
  | OSort n _ | OInterval n _ _ _ | OPred n _ | OFun n _ | OAttachForeign n => Some (CStr n)
  | OConst c _ => Some c
  | _ => None
  end.
Definition native (o : lop) : bool := match o with OAttachForeign _ => false | _ => true end.
Definition atomic (o : lop) : bool := match o with OAttachForeign _ | OArith => false | _ => true end.
