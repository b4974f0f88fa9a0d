(** What can be written in the PDDL syntax so that it can be read again. *)
From Coq Require Import Ascii.
From Verif Require Import Base Syntax Semantics PddlText PddlRead.
Local Open Scope string_scope.

(** A small letter followed by small letters, digits, underscores and hyphens *)
Definition small (c : ascii) : bool := let n := nat_of_ascii c in Nat.leb 97 n && Nat.leb n 122.
Definition name_char (c : ascii) : bool := small c || (let n := nat_of_ascii c in Nat.leb 48 n && Nat.leb n 57) || Ascii.eqb c "_" || Ascii.eqb c "-".
Definition plain (x : string) : bool := match x with String c r => small c && all_chars name_char r | EmptyString => false end.
(** Such a word that is not reserved in the grammar; the name of a variable may be preceded by a question mark and may be a reserved word;
    the reserved words for types can be used as types. *)
Definition legal_name (x : string) : bool := plain x && negb (mem x keywords || mem x literals).
Definition legal_variable (x : string) : bool := plain (match x with String c r => if Ascii.eqb c "?" then r else x | EmptyString => x end).
Definition legal_type (x : string) : bool := legal_name x || mem x ["int"; "float"; "object"; "number"].

Definition sorts_eqb (a b : list sort) : bool := if list_eq_dec string_dec a b then true else false.
Definition has_sort (o : option sort) (s : sort) : bool := match o with Some r => String.eqb r s | None => false end.
Fixpoint bound_to (B : list var) (x : string) : option sort := match B with [] => None | (y, s) :: B' => if String.eqb x y then Some s else bound_to B' x end.

Section Readable.
Variable l : plang.
Definition numeral (t : term) : option Z := match t with Cst (CInt z) _ => Some z | _ => None end.
(** A term can stand where an element of sort [s] is expected. *)
Definition fits (s : sort) (t : term) : bool := match numeral t with Some z => pl_num l s z | None => pl_sub l (sort_of t) s end.
(** The operands of a built-in operator over [s]: a numeral has to belong to the sort of the other operand. *)
Definition operands (s : sort) (a b : term) : bool :=
  match numeral a, numeral b with
  | None, None => pl_sub l (sort_of a) s && pl_sub l (sort_of b) s
  | Some z, None => pl_num l (sort_of b) z && pl_sub l (sort_of b) s
  | None, Some z => pl_num l (sort_of a) z && pl_sub l (sort_of a) s
  | Some z, Some z' => pl_sort l "Integer" && pl_num l "Integer" z && pl_num l "Integer" z' && pl_sub l "Integer" s
  end.
(** Terms and formulas over the symbols of [l], with legal names and arguments of the right sorts, whose variables are those of [B] (named as they are
    printed) or bound by a quantifier; no quantifier binds a name that is in scope already. *)
Fixpoint readable_t (B : list var) (t : term) : bool :=
  match t with
  | Var x s => legal_variable x && has_sort (bound_to B (print_variable_name x)) s
  | Cst (CStr n) s => legal_name n && has_sort (pl_const l n) s
  | Cst (CInt _) _ => true
  | App (FU n ss c) ts => legal_name n && match pl_fun l n with Some (ss', c') => sorts_eqb ss' ss && String.eqb c' c | None => false end &&
                          Nat.eqb (List.length ts) (List.length ss) && forallb (fun st => fits (fst st) (snd st)) (combine ss ts) && forallb (readable_t B) ts
  | App (FB b) [x; y] => match b with BOther n => mem n ["max"; "min"] | _ => true end && pl_arith l b && operands "Real" x y && readable_t B x && readable_t B y
  | _ => false
  end.
Definition printed_var (v : term) : var := match v with Var x s => (print_variable_name x, s) | _ => ("", "") end.
Fixpoint distinct_names (xs : list string) : bool := match xs with [] => true | x :: r => negb (mem x r) && distinct_names r end.
Fixpoint readable (B : list var) (f : formula) : bool :=
  match f with
  | Top => true
  | Bot => pl_cmp l PEq && operands "object" (Cst (CInt 0) "Integer") (Cst (CInt 1) "Integer")
  | Atom (PU n ss) ts => legal_name n && match pl_pred l n with Some ss' => sorts_eqb ss' ss | None => false end &&
                         Nat.eqb (List.length ts) (List.length ss) && forallb (fun st => pl_sub l (sort_of (snd st)) (fst st)) (combine ss ts) &&
                         forallb (fun t => match numeral t with None => readable_t B t | Some _ => false end) ts
  | Atom (PB b) [x; y] => pl_cmp l (match b with PNe => PEq | _ => b end) && operands (match b with PEq | PNe => "object" | _ => "Real" end) x y && readable_t B x && readable_t B y
  | Atom (PB _) _ => false
  | Comp _ fs => forallb (readable B) fs
  | Quant _ vs g =>
      forallb (fun v => match v with Var x s => legal_variable x && legal_type s && pl_sort l s | _ => false end) vs &&
      distinct_names (map fst (map printed_var vs)) && forallb (fun v => match bound_to B (fst (printed_var v)) with None => true | Some _ => false end) vs &&
      readable (map printed_var vs ++ B) g
  end.
End Readable.

(** The variable names occurring in an expression, also those bound by its quantifiers *)
Fixpoint names_t (t : term) : list string := match t with Var x _ => [x] | Cst _ _ => [] | App _ ts => flat_map names_t ts | Ite c a b => names_f c ++ names_t a ++ names_t b end
with names_f (f : formula) : list string :=
  match f with
  | Top | Bot => [] | Atom _ ts => flat_map names_t ts | Comp _ fs => flat_map names_f fs | Quant _ vs g => flat_map names_t vs ++ names_f g
  end.
(** No variable occurs both with and without the question mark. *)
Definition one_spelling (f : formula) : Prop := forall x y, In x (names_f f) -> In y (names_f f) -> print_variable_name x = print_variable_name y -> x = y.
(** Structures in which a numeral denotes the same number in every sort, 0 and 1 are different, and != is the negation of =. *)
Definition standard (M : structure) : Prop :=
  (forall z s s', cint M (CInt z) s = cint M (CInt z) s') /\ pint M (PB PEq) [cint M (CInt 0) "Integer"; cint M (CInt 1) "Integer"] = false /\
  forall a b, pint M (PB PNe) [a; b] = negb (pint M (PB PEq) [a; b]).
(** A term that print_term cannot print occurs. *)
Fixpoint has_ite_t (t : term) : bool := match t with Ite _ _ _ => true | App _ ts => existsb has_ite_t ts | _ => false end.
Fixpoint has_ite (f : formula) : bool :=
  match f with Top | Bot => false | Atom _ ts => existsb has_ite_t ts | Comp _ fs => existsb has_ite fs | Quant _ _ g => has_ite g end.
(** Expressions in which nothing is rewritten by printing and reading: variables have question marks, and there are no numerals, no [!=] and no contradiction. *)
Fixpoint verbatim_t (t : term) : bool :=
  match t with Var x _ => starts_with_qm x | Cst (CStr _) _ => true | Cst (CInt _) _ => false | App _ ts => forallb verbatim_t ts | Ite _ _ _ => false end.
Fixpoint verbatim (f : formula) : bool :=
  match f with
  | Top => true | Bot => false | Atom p ts => match p with PB PNe => false | _ => true end && forallb verbatim_t ts
  | Comp _ fs => forallb verbatim fs | Quant _ vs g => forallb verbatim_t vs && verbatim g
  end.
(** The variables in scope at the start: none, or those of an action *)
Definition in_scope (b : option Index.vbind) (B : list var) : Prop := (b = None /\ B = []) \/ (b = Some (Index.vb_make B) /\ NoDup (map fst B)).
