(** Specification for ground-atom extraction. *)
From Verif Require Import Base Syntax Semantics GroundAtoms.

Definition constant (t : term) : Prop := exists c s, t = Cst c s.

(** Conjunctions (nested at will) of ground atoms p(c...) and of functional equalities f(c...) = d, d = f(c...). *)
Inductive ground_conjunction : formula -> Prop :=
| GC_atom n ss ts : Forall constant ts -> ground_conjunction (Atom (PU n ss) ts)
| GC_eq f us d : Forall constant us -> constant d -> ground_conjunction (Atom (PB PEq) [App f us; d])
| GC_eq_sym f us d : Forall constant us -> constant d -> ground_conjunction (Atom (PB PEq) [d; App f us])
| GC_and fs : Forall ground_conjunction fs -> ground_conjunction (Comp And fs).

(** A vocabulary: what a name stands for in the language. A name is a predicate or a function, never both; the name of a constant
    determines its sort. *)
Record vocabulary := {
  v_sym : string -> option (psym + fsym);
  v_const : cname -> sort
}.
Definition constant_in (L : vocabulary) (t : term) : Prop := forall c s, t = Cst c s -> s = v_const L c.
(** All symbols and constants of the formula come from the vocabulary. *)
Inductive over (L : vocabulary) : formula -> Prop :=
| O_atom n ss ts : v_sym L n = Some (inl (PU n ss)) -> Forall (constant_in L) ts -> over L (Atom (PU n ss) ts)
| O_eq a b : side L a -> side L b -> over L (Atom (PB PEq) [a; b])
| O_and fs : Forall (over L) fs -> over L (Comp And fs)
with side (L : vocabulary) : term -> Prop :=
| S_const c s : s = v_const L c -> side L (Cst c s)
| S_app n d c us : v_sym L n = Some (inr (FU n d c)) -> Forall (constant_in L) us -> side L (App (FU n d c) us)
| S_builtin b us : Forall (constant_in L) us -> side L (App (FB b) us).

(** When a tuple is true in a structure: (p, c1...cn) when p holds of the ci; (f, c1...cn, d) when f(c1...cn) is d. *)
Definition value (L : vocabulary) (M : structure) (c : cname) : carrier M := cint M c (v_const L c).
Definition fun_tuple_true (L : vocabulary) (M : structure) (f : fsym) (cs : list cname) : Prop :=
  exists args d, cs = args ++ [d] /\ fint M f (map (value L M) args) = value L M d.
Definition tuple_true (L : vocabulary) (M : structure) (t : tuple) : Prop :=
  match t with
  | (HEnum b, cs) => fun_tuple_true L M (FB b) cs
  | (HName n, cs) =>
      match v_sym L n with
      | Some (inl p) => pint M p (map (value L M) cs) = true
      | Some (inr f) => fun_tuple_true L M f cs
      | None => False
      end
  end.

(** The structure reads "=" as identity. *)
Definition standard_equality (M : structure) : Prop := forall a b, pint M (PB PEq) [a; b] = true <-> a = b.
