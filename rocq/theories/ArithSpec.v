(** Specification vocabulary for arithmetic terms: structures over an arbitrary field. Not used by the model. *)
From Coq Require Import Field_theory.
From Verif Require Import Base Syntax Semantics SubstSpec.
#[local] Open Scope string_scope.

(** A field with a decidable zero, the image of the integers (only 0, 1 and -1 are constrained) and an exponential-like function. *)
Record field := {
  F : Type;
  f0 : F; f1 : F; fadd : F -> F -> F; fmul : F -> F -> F; fsub : F -> F -> F; fopp : F -> F; fdiv : F -> F -> F; finv : F -> F;
  f_laws : field_theory f0 f1 fadd fmul fsub fopp fdiv finv eq;
  f_is0 : F -> bool;
  f_is0_spec : forall a, f_is0 a = true <-> a = f0;
  f_int : Z -> F;
  f_int_0 : f_int 0 = f0; f_int_1 : f_int 1 = f1; f_int_m1 : f_int (-1) = fopp f1;
  f_exp : F -> F;
  f_exp_0 : f_exp f0 = f1
}.
(** The uninterpreted part: named constants, user functions and the other built-in functions, all predicates, and the domains of the sorts. *)
Record rest (K : field) := {
  r_dom : sort -> list (option (F K));
  r_cst : cname -> sort -> option (F K);
  r_fun : fsym -> list (option (F K)) -> option (F K);
  r_pred : psym -> list (option (F K)) -> bool
}.
Arguments r_dom {K}. Arguments r_cst {K}. Arguments r_fun {K}. Arguments r_pred {K}.

(** Binary operations on possibly undefined values: undefined if an operand is. Division by zero is undefined. *)
Definition strict2 {A} (f : A -> A -> option A) (x y : option A) : option A := match x, y with Some a, Some b => f a b | _, _ => None end.
Definition add_ (K : field) := strict2 (fun a b => Some (fadd K a b)).
Definition sub_ (K : field) := strict2 (fun a b => Some (fsub K a b)).
Definition mul_ (K : field) := strict2 (fun a b => Some (fmul K a b)).
Definition div_ (K : field) := strict2 (fun a b => if f_is0 K b then None else Some (fdiv K a b)).
Definition exp_ (K : field) (x : option (F K)) := match x with Some a => Some (f_exp K a) | None => None end.
(** The structure: numerals are the integers of the field, + - * / exp the operations above, [None] is "undefined". *)
Definition arith (K : field) (U : rest K) : structure :=
  {| carrier := option (F K);
     dom := r_dom U;
     cint := fun c s => match c with CInt z => Some (f_int K z) | CStr _ => r_cst U c s end;
     fint := fun f l => match f with
                        | FB BAdd => match l with [x; y] => add_ K x y | _ => None end
                        | FB BSub => match l with [x; y] => sub_ K x y | _ => None end
                        | FB BMul => match l with [x; y] => mul_ K x y | _ => None end
                        | FB BDiv => match l with [x; y] => div_ K x y | _ => None end
                        | FB (BOther n) => if String.eqb n "exp" then match l with [x] => exp_ K x | _ => None end else r_fun U f l
                        | FU _ _ _ => r_fun U f l
                        end;
     pint := r_pred U |}.

(** [u] occurs in [t] as an operand, at any depth, of + - * / exp or of an if-then-else (not inside the arguments of a user function or in a condition). *)
Inductive arith_subterm : term -> term -> Prop :=
| As_refl t : arith_subterm t t
| As_op b ts u t : In t ts -> arith_subterm u t -> arith_subterm u (App (FB b) ts)
| As_then c a b u : arith_subterm u a -> arith_subterm u (Ite c a b)
| As_else c a b u : arith_subterm u b -> arith_subterm u (Ite c a b).
(** The compound terms among them have the arity of their symbol. *)
Definition arity_ok (t : term) : Prop := forall b ts, arith_subterm (App (FB b) ts) t ->
  (b = BAdd \/ b = BSub \/ b = BMul \/ b = BDiv -> List.length ts = 2) /\ (b = BOther "exp" -> List.length ts = 1).
(** The numerals 0 and 1 of sort Real, and the shapes that an arithmetic simplifier must remove. *)
Definition num (z : Z) : term := Cst (CInt z) "Real".
Inductive reducible : term -> Prop :=
| R_add_l t : reducible (App (FB BAdd) [num 0; t])
| R_add_r t : reducible (App (FB BAdd) [t; num 0])
| R_sub_l t : reducible (App (FB BSub) [num 0; t])
| R_sub_r t : reducible (App (FB BSub) [t; num 0])
| R_mul_0l t : reducible (App (FB BMul) [num 0; t])
| R_mul_0r t : reducible (App (FB BMul) [t; num 0])
| R_mul_1l t : reducible (App (FB BMul) [num 1; t])
| R_mul_1r t : reducible (App (FB BMul) [t; num 1])
| R_div_l t : reducible (App (FB BDiv) [num 0; t])
| R_div_r t : reducible (App (FB BDiv) [t; num 1])
| R_div_0 t : reducible (App (FB BDiv) [t; num 0])
| R_exp : reducible (App (FB (BOther "exp")) [num 0]).

(** Sum and product of a list of possibly undefined values. *)
Definition sum_of (K : field) (l : list (option (F K))) : option (F K) := fold_right (add_ K) (Some (f0 K)) l.
Definition prod_of (K : field) (l : list (option (F K))) : option (F K) := fold_right (mul_ K) (Some (f1 K)) l.
(** Assign values to variables from left to right. *)
Fixpoint assign {M} (vs : list var) (values : list (carrier M)) (e : env M) : env M :=
  match vs, values with v :: vs', d :: values' => assign vs' values' (upd e v d) | _, _ => e end.

(** [r] is defined, with the same value, wherever [t] is: in every structure over every field, under every assignment. *)
Definition refines (r t : term) : Prop := forall K (U : rest K) (e : env (arith K U)) (v : F K),
  tsem (arith K U) t e = Some v -> tsem (arith K U) r e = Some v.
(** Whenever [t] is defined its value is zero; [t] is nowhere defined. *)
Definition never_but_zero (t : term) : Prop := forall K (U : rest K) (e : env (arith K U)) v, tsem (arith K U) t e = Some v -> v = f0 K.
Definition undefined_everywhere (t : term) : Prop := forall K (U : rest K) (e : env (arith K U)), tsem (arith K U) t e = None.
(** The products of -1 and a numeral that [simplify] creates out of a difference 0 - t. *)
Definition left_over (u : term) : Prop := exists s z, u = App (FB BMul) [Cst (CInt (-1)) s; num z] /\ (z = 0%Z \/ z = 1%Z).
