(** What matrices mean, independently of lists of lists: tables of numbers with a shape *)
From Verif Require Import Base Matrix.

Section Spec.
Variable K : floats.
Notation F := (float K).
(** [m] has the shape n x k, and as many entries as that *)
Definition shaped (m : mat K) (n k : nat) : Prop :=
  m_rows m = n /\ m_cols m = k /\ List.length (m_array m) = n /\ forall r, In r (m_array m) -> List.length r = k.
(** [m] is an n x k matrix of sort Real with the numbers [a i j] *)
Definition is_table (m : mat K) (n k : nat) (a : nat -> nat -> F) : Prop :=
  shaped m n k /\ m_sort m = SReal /\ forall i j, i < n -> j < k -> getitem K m i j = Ok (SC (CR (a i j))).
(** The sum of the products x_0 y_0 + ... + x_(k-1) y_(k-1), added from left to right starting from zero *)
Fixpoint dot (x y : nat -> F) (k : nat) : F := match k with 0 => f_of_int K 0 | S k => f_add K (dot x y k) (f_mul K (x k) (y k)) end.
(** all numbers on the way are between the bounds of Real *)
Definition dot_within (x y : nat -> F) (k : nat) : Prop :=
  (forall l, l < k -> f_within K (f_mul K (x l) (y l)) = true) /\ (forall l, l <= k -> f_within K (dot x y l) = true).
Definition float_op (o : mop) (x y : F) : res F :=
  match o with OpPlus => Ok (f_add K x y) | OpMinus => Ok (f_sub K x y) | OpTimes => Ok (f_mul K x y) | OpOver => f_div K x y | OpMat => Err TypeError end.
(** the number of a constant, as a float *)
Definition const_float (c : const K) : F := match c with CR x => x | CI z => f_of_int K z end.
End Spec.
