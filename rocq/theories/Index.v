(** Indexing containers: src/tarski/util.py SymbolIndex and src/tarski/syntax/formulas.py VariableBinding *)
From Verif Require Import Base Syntax ModelState.

(** util.py:10-54 SymbolIndex. The elements are identified up to Python's [==] ([eqb]). *)
Section SymbolIndex.
  Context {K : Type} (eqb : K -> K -> bool).
  Record sidx := { si_data : list (K * nat); si_objects : list K }.
  Definition si_empty : sidx := {| si_data := []; si_objects := [] |}.                        (* util.py:13-15 *)
  (** util.py:24-28 [add] *)
  Definition si_add (s : sidx) (x : K) : option exn * sidx :=
    match dget eqb (si_data s) x with
    | Some _ => (Some DuplicateDefinition, s)
    | None => (None, {| si_data := dset eqb (si_data s) x (List.length (si_data s)); si_objects := si_objects s ++ [x] |})
    end.
  (** util.py:13-16: the constructor; the exception of a failing [add] propagates *)
  Fixpoint si_make (s : sidx) (xs : list K) : res sidx :=
    match xs with [] => Ok s | x :: xs' => match si_add s x with (Some e, _) => Err e | (None, s') => si_make s' xs' end end.
  Definition si_get_index (s : sidx) (x : K) : res nat := match dget eqb (si_data s) x with Some i => Ok i | None => Err KeyError end.     (* util.py:18-19 *)
  Definition si_get_object (s : sidx) (i : nat) : res K := match nth_error (si_objects s) i with Some x => Ok x | None => Err IndexError end.  (* util.py:21-22; i >= 0 *)
  Definition si_contains (s : sidx) (x : K) : bool := match dget eqb (si_data s) x with Some _ => true | None => false end.  (* util.py:45-46 *)
  Definition si_len (s : sidx) : nat := List.length (si_data s).                                (* util.py:48-49 *)
  Definition si_iter (s : sidx) : list K := map fst (si_data s).                               (* util.py:38-39 *)
  Definition si_enumerate (s : sidx) : list (nat * K) := map (fun kv => (snd kv, fst kv)) (si_data s).  (* util.py:41-43 *)
  (** A history of calls of [add] by a user who catches the exceptions *)
  Definition si_run (xs : list K) : sidx := fold_left (fun s x => snd (si_add s x)) xs si_empty.
End SymbolIndex.
Arguments sidx : clear implicits.

(** formulas.py:351-404 VariableBinding. Variables are (symbol, sort) pairs. *)
Record vbind := { vb_variables : list (string * var); vb_values : list var; vb_index : list (string * nat) }.
Fixpoint enum_from (n : nat) (vs : list var) (d : list (string * nat)) : list (string * nat) :=
  match vs with [] => d | v :: vs' => enum_from (S n) vs' (dset String.eqb d (fst v) n) end.
(** formulas.py:354-359: no check for duplicates *)
Definition vb_make (vs : list var) : vbind :=
  {| vb_variables := fold_left (fun d v => dset String.eqb d (fst v) v) vs []; vb_values := vs; vb_index := enum_from 0 vs [] |}.
Definition vb_len (b : vbind) : nat := List.length (vb_variables b).                            (* formulas.py:361-362 *)
Definition vb_getitem (b : vbind) (i : nat) : res var := match nth_error (vb_values b) i with Some v => Ok v | None => Err IndexError end.  (* :364-365; i >= 0 *)
(** formulas.py:367-373 *)
Definition vb_add (b : vbind) (v : var) : option exn * vbind :=
  match dget String.eqb (vb_variables b) (fst v) with
  | Some _ => (Some DuplicateVariable, b)
  | None => (None, {| vb_variables := dset String.eqb (vb_variables b) (fst v) v; vb_values := vb_values b ++ [v];
                      vb_index := dset String.eqb (vb_index b) (fst v) (List.length (vb_index b)) |})
  end.
Definition vb_get (b : vbind) (n : string) : res var := match dget String.eqb (vb_variables b) n with Some v => Ok v | None => Err UndefinedVariable end.  (* :375-379 *)
Definition vb_idx (b : vbind) (n : string) : res nat := match dget String.eqb (vb_index b) n with Some i => Ok i | None => Err UndefinedVariable end.     (* :381-385 *)
Definition vb_vars (b : vbind) : list var := map snd (vb_variables b).                           (* :395-396, and :398-399 [__iter__] *)
Definition vb_run (vs adds : list var) : vbind := fold_left (fun b v => snd (vb_add b v)) adds (vb_make vs).
