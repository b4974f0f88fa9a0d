(** Proofs about the reader of RDDL expressions *)
From Coq Require Import Ascii Field_theory Ring.
From Verif Require Import Base Syntax Build Semantics SemLemmas ListUtil SubstSpec SubstProofs ArithSpec RddlSpec ModelState Lang LangSpec Theories QElim QElimProofs Arith PropsArith RddlRead RddlReadSpec.
#[local] Open Scope string_scope.
#[local] Open Scope list_scope.

Section RastInd.
  Variable P : rast -> Prop.
  Hypothesis HLit : forall v, P (NLit v).
  Hypothesis HPvar : forall n gs, P (NPvar n gs).
  Hypothesis HTyped : forall x ty, P (NTyped x ty).
  Hypothesis HIf : forall es, Forall P es -> P (NIf es).
  Hypothesis HRel : forall op es, Forall P es -> P (NRel op es).
  Hypothesis HAgg : forall op es, Forall P es -> P (NAgg op es).
  Hypothesis HArith : forall op es, Forall P es -> P (NArith op es).
  Hypothesis HFunc : forall op es, Forall P es -> P (NFunc op es).
  Hypothesis HBool : forall op es, Forall P es -> P (NBool op es).
  Hypothesis HOther : forall t, P (NOther t).
  Fixpoint rast_ind_nested (a : rast) : P a :=
    let list := fix list (es : list rast) : Forall P es := match es with [] => Forall_nil P | e :: r => Forall_cons e (rast_ind_nested e) (list r) end in
    match a with
    | NLit v => HLit v | NPvar n gs => HPvar n gs | NTyped x ty => HTyped x ty | NIf es => HIf es (list es) | NRel op es => HRel op es (list es) | NAgg op es => HAgg op es (list es)
    | NArith op es => HArith op es (list es) | NFunc op es => HFunc op es (list es) | NBool op es => HBool op es (list es) | NOther t => HOther t
    end.
End RastInd.

Definition children (a : rast) : list rast := match a with NIf es | NRel _ es | NAgg _ es | NArith _ es | NFunc _ es | NBool _ es => es | _ => [] end.
Lemma nodes_child a e : In e (children a) -> incl (nodes e) (nodes a).
Proof. intros H n Hn. destruct a; try destruct H; right; apply in_flat_map; exists e; auto. Qed.
Lemma uses_child l a e : In e (children a) -> incl (uses l e) (uses l a).
Proof. intros H n Hn. destruct a; try destruct H; cbn [uses children] in *; apply in_flat_map; exists e; auto. Qed.
Lemma nodes_self a : In a (nodes a).
Proof. destruct a; now left. Qed.
Lemma single_child a e : single_variables a -> In e (children a) -> single_variables e.
Proof. intros H He op es Hi. apply (H op es). exact (nodes_child a e He _ Hi). Qed.
Lemma notreq_child a e : not_requantified a -> In e (children a) -> not_requantified e.
Proof. intros H He op x ty b ty' es Hi. apply (H op x ty b ty' es). exact (nodes_child a e He _ Hi). Qed.
Lemma typed_child l a e : well_typed_variables l a -> In e (children a) -> well_typed_variables l e.
Proof. intros H He x s s' H1 H2. apply (H x); now apply (uses_child l a e He). Qed.

Definition arg_binders (x : arg) : list var := match x with ATerm t => binders_t t | AForm f => binders f end.

Section Reader.
Variable parse : bool -> string -> option Z.
Variable fuel : nat.
Variable st : tlang.
Variable D : domains.
Notation l := (t_lang st).
Notation tr := (translate parse fuel st D).
Hypothesis Hs : forall n s, lget l (CStr n) = Ok (ESort s) -> s = n.
Hypothesis HD : forall s cs, D s = Some cs -> Forall (fun u => exists c s', u = Cst c s') cs.

Lemma literal_is c s t : literal parse st (CInt c) s = Ok t -> t = Cst (CInt c) s.
Proof.
  unfold literal. destruct (sget (l_sorts l) s) as [r|]; [|discriminate]. destruct (s_kind r) as [|real lb ub].
  - destruct (cn_mem _ _); [|discriminate]. intros H. now injection H.
  - unfold cast, encode. destruct (_ && _); [|discriminate]. cbn [bind]. destruct (_ && _); [discriminate|]. intros H. now injection H.
Qed.
Lemma real_constant_is c t : real_constant parse st c = Ok t -> t = Cst c "Real".
Proof. destruct c as [w|z]; cbn [real_constant]; [intros H; now injection H|apply literal_is]. Qed.
Lemma make_ite_is c a b x : make_ite st c a b = Ok x -> exists f t u, c = AForm f /\ a = ATerm t /\ b = ATerm u /\ x = ATerm (Ite f t u).
Proof.
  unfold make_ite. destruct a as [t|]; [|discriminate]. destruct b as [u|]; [|discriminate]. destruct (lget l (CStr "ite")); [|discriminate]. cbn [bind].
  destruct (_ || _); [|discriminate]. destruct c as [|f]; [discriminate|]. intros H. injection H as <-. exists f, t, u. auto.
Qed.
Lemma zero_is s t : zero_of parse st s = Ok t -> t = Cst (CInt 0) s.
Proof. unfold zero_of. destruct (sget _ s) as [r|]; [|discriminate]. destruct (s_kind r); [discriminate|]. apply literal_is. Qed.
Lemma operate_is o x y z : operate_terms parse fuel st o x y = Ok z -> exists t u b, x = ATerm t /\ y = ATerm u /\ op_fun o = Some b /\ z = ATerm (App (FB b) [t; u]).
Proof.
  unfold operate_terms. destruct x as [t|], y as [u|]; try (destruct (is_interval_sort _ _); discriminate); [|discriminate].
  unfold dispatch_fun. destruct (op_fun o) as [b|]; [|discriminate]. destruct (str_mem _ (t_handlers st)); [|discriminate]. cbn [cast_operands bind fst snd]. destruct (str_mem _ _); [|discriminate].
  destruct (check_sort fuel st t "Real"); [|discriminate]. cbn [bind]. destruct (check_sort fuel st u "Real"); [|discriminate]. cbn [bind]. intros H. injection H as <-. exists t, u, b. auto.
Qed.
(** Arithmetic: what is built *)
Lemma read_arith_is o xs x : (o = OpAdd \/ o = OpSub \/ o = OpMul \/ o = OpDiv) -> read_arith parse fuel st o xs = Ok x ->
  (o = OpMul /\ exists f u, (xs = [AForm f; ATerm u] \/ xs = [ATerm u; AForm f]) /\ exists s, x = ATerm (Ite f u (Cst (CInt 0) s))) \/
  (o = OpSub /\ exists t, xs = [ATerm t] /\ x = ATerm (App (FB BMul) [Cst (CInt (-1)) "Real"; t])) \/
  (exists t u b, xs = [ATerm t; ATerm u] /\ op_fun o = Some b /\ x = ATerm (App (FB b) [t; u])).
Proof.
  intros Ho H.
  assert (Two : forall y z, operate_terms parse fuel st o y z = Ok x -> exists t u b, [y; z] = [ATerm t; ATerm u] /\ op_fun o = Some b /\ x = ATerm (App (FB b) [t; u])).
  { intros y z E. destruct (operate_is _ _ _ _ E) as (t & u & b & -> & -> & E' & ->). exists t, u, b. auto. }
  destruct xs as [|y [|z [|w xs]]].
  - destruct Ho as [-> |[-> |[-> | ->]]]; discriminate H.
  - destruct Ho as [-> |[-> |[-> | ->]]]; [discriminate H| |destruct y; discriminate H|discriminate H]. right. left. split; [reflexivity|]. cbn [read_arith] in H. destruct (real_constant parse st (CInt (-1))) as [m|] eqn:Em; [|discriminate H]. cbn [bind] in H.
    apply real_constant_is in Em as ->. destruct (operate_is _ _ _ _ H) as (t & u & b & E1 & -> & E' & ->). injection E1 as <-. injection E' as <-. exists u. auto.
  - destruct Ho as [-> |[-> |[-> | ->]]]; cbn [read_arith] in H; try (right; right; exact (Two _ _ H)).
    destruct y as [t|f], z as [u|g]; try discriminate H; [right; right; exact (Two _ _ H)| |].
    + destruct (zero_of parse st (Theories.sort_of st t)) as [z|] eqn:Ez; [|discriminate H]. cbn [bind] in H. apply zero_is in Ez. destruct (make_ite_is _ _ _ _ H) as (f & t' & u & E1 & E2 & E3 & ->).
      injection E1 as <-. injection E2 as <-. injection E3 as <-. left. split; [reflexivity|]. exists g, t. split; [now right|]. exists (Theories.sort_of st t). now rewrite Ez.
    + destruct (zero_of parse st (Theories.sort_of st u)) as [z|] eqn:Ez; [|discriminate H]. cbn [bind] in H. apply zero_is in Ez. destruct (make_ite_is _ _ _ _ H) as (f' & t' & u' & E1 & E2 & E3 & ->).
      injection E1 as <-. injection E2 as <-. injection E3 as <-. left. split; [reflexivity|]. exists f, u. split; [now left|]. exists (Theories.sort_of st u). now rewrite Ez.
  - destruct Ho as [-> |[-> |[-> | ->]]]; cbn [read_arith] in H; try discriminate H. destruct y, z; discriminate H.
Qed.
Lemma read_rel_is b xs x : read_rel fuel st b xs = Ok x -> exists t u r, xs = ATerm t :: ATerm u :: r /\ x = AForm (Atom (PB b) [t; u]).
Proof.
  unfold read_rel. destruct xs as [|y [|z r]]; [discriminate|destruct y; discriminate|]. destruct y as [t|]; [|destruct (str_mem _ _); discriminate]. destruct z as [u|].
  - destruct (str_mem _ _); [|discriminate]. destruct (check_sort fuel st t (pred_sort b)); [|discriminate]. cbn [bind]. destruct (check_sort fuel st u (pred_sort b)); [|discriminate]. cbn [bind].
    intros H. injection H as <-. exists t, u, r. auto.
  - destruct (str_mem _ _); [|discriminate]. destruct (check_sort _ _ _ _); discriminate.
Qed.
Lemma numeric_arguments_is xs ts : numeric_arguments fuel st xs = Ok ts -> xs = map ATerm ts.
Proof.
  revert ts. induction xs as [|[t|f] xs IH]; intros ts H; cbn [numeric_arguments] in H; [injection H as <-; reflexivity| |discriminate H].
  destruct (check_sort fuel st t "Real"); [|discriminate H]. cbn [bind] in H. destruct (numeric_arguments fuel st xs) as [us|]; [|discriminate H]. cbn [bind] in H. injection H as <-. cbn [map]. now rewrite (IH us eq_refl).
Qed.
Lemma read_func_is b n xs x : read_func fuel st b n xs = Ok x -> exists ts, xs = map ATerm ts /\ x = ATerm (App (FB b) ts).
Proof.
  unfold read_func. destruct (str_mem _ _); [|discriminate]. destruct (Nat.eqb _ _); [|discriminate]. destruct (numeric_arguments fuel st xs) as [ts|] eqn:E; [|discriminate]. cbn [bind].
  intros H. injection H as <-. exists ts. split; [now apply numeric_arguments_is|reflexivity].
Qed.
Lemma formulas_is xs fs : formulas xs = Ok fs -> xs = map AForm fs.
Proof.
  revert fs. induction xs as [|[t|f] xs IH]; intros fs H; cbn [formulas] in H; [injection H as <-; reflexivity|discriminate H|].
  destruct (formulas xs) as [us|]; [|discriminate H]. cbn [bind] in H. injection H as <-. cbn [map]. now rewrite (IH us eq_refl).
Qed.
Lemma read_total_is o v x r : read_total parse fuel st D o v x = Ok r -> exists y s t u, v = ATerm (Var y s) /\ aggregate (parent_sort st) (numeric_sort fuel st) o D [(y, s)] t = Ok u /\ r = ATerm u /\
  (x = ATerm t \/ exists f, x = AForm f /\ t = Ite f (Cst (CInt 1) "Integer") (Cst (CInt 0) "Integer")).
Proof.
  unfold read_total. intros H. destruct (match x with ATerm t => _ | AForm f => _ end) as [t|] eqn:E in H; [|discriminate H]. cbn [bind] in H.
  destruct v as [[y s| | |]|]; try discriminate H. destruct (aggregate _ _ o D [(y, s)] t) as [u|] eqn:A; [|discriminate H]. cbn [bind] in H. injection H as <-. exists y, s, t, u. repeat (split; [auto|]).
  destruct x as [t'|f]; [injection E as ->; now left|]. right. exists f. split; [reflexivity|].
  destruct (literal parse st (CInt 1) "Integer") as [one|] eqn:E1; [|discriminate E]. cbn [bind] in E. destruct (literal parse st (CInt 0) "Integer") as [zero|] eqn:E0; [|discriminate E]. cbn [bind] in E.
  apply literal_is in E1. apply literal_is in E0. subst. destruct (make_ite st _ _ _) as [i|] eqn:Ei; [|discriminate E]. cbn [bind] in E. destruct (make_ite_is _ _ _ _ Ei) as (f' & t' & u' & Q1 & Q2 & Q3 & ->).
  injection Q1 as <-. injection Q2 as <-. injection Q3 as <-. injection E as <-. reflexivity.
Qed.
(** The connectives *)
Lemma read_bool_is op xs x : read_bool op xs = Ok x ->
  (exists y, xs = [y] /\ x = y /\ (op = "^" \/ op = "|")) \/
  (exists fs g, xs = map AForm fs /\ x = AForm g /\
     ((op = "^" /\ land fs false = Ok g) \/ (op = "|" /\ lor fs false = Ok g) \/ (op = "~" /\ exists f, fs = [f] /\ neg f = Ok g) \/ (op = "=>" /\ exists f h, fs = [f; h] /\ implies f h = Ok g))).
Proof.
  intros H.
  assert (AO : forall k, (let! fs := formulas xs in let! g := k fs false in Ok (AForm g)) = Ok x -> exists fs g, xs = map AForm fs /\ x = AForm g /\ k fs false = Ok g).
  { intros k E. destruct (formulas xs) as [fs|] eqn:Ef; [|discriminate E]. cbn [bind] in E. destruct (k fs false) as [g|] eqn:Eg; [|discriminate E]. cbn [bind] in E. injection E as <-. exists fs, g. split; [now apply formulas_is|auto]. }
  assert (Many : (forall y, xs <> [y]) -> (if String.eqb op "^" then let! fs := formulas xs in let! g := land fs false in Ok (AForm g)
      else if String.eqb op "|" then let! fs := formulas xs in let! g := lor fs false in Ok (AForm g)
      else if String.eqb op "=>" then match xs with [_; _] => let! fs := formulas xs in match fs with [f; g] => let! h := implies f g in Ok (AForm h) | _ => Err TypeError end | _ => Err TypeError end
      else Err TypeError) = Ok x -> exists fs g, xs = map AForm fs /\ x = AForm g /\
     ((op = "^" /\ land fs false = Ok g) \/ (op = "|" /\ lor fs false = Ok g) \/ (op = "~" /\ exists f, fs = [f] /\ neg f = Ok g) \/ (op = "=>" /\ exists f h, fs = [f; h] /\ implies f h = Ok g))).
  { intros _. destruct (String.eqb_spec op "^") as [->|_]. { intros E. destruct (AO land E) as (fs & g & E1 & E2 & E3). exists fs, g. auto 6. }
    destruct (String.eqb_spec op "|") as [->|_]. { intros E. destruct (AO lor E) as (fs & g & E1 & E2 & E3). exists fs, g. auto 6. }
    destruct (String.eqb_spec op "=>") as [->|_]; [|discriminate]. destruct xs as [|y [|z [|]]]; try discriminate. destruct (formulas [y; z]) as [fs|] eqn:Ef; [|discriminate]. cbn [bind].
    destruct fs as [|f [|h [|]]]; try discriminate. destruct (implies f h) as [g|] eqn:Eg; [|discriminate]. cbn [bind]. intros E. injection E as <-. exists [f; h], g. split; [now apply formulas_is|]. split; [reflexivity|].
    right. right. right. split; [reflexivity|]. exists f, h. auto. }
  destruct xs as [|y [|z xs]].
  - right. apply Many; [discriminate|exact H].
  - cbn [read_bool] in H. destruct (String.eqb op "^" || String.eqb op "|") eqn:E.
    + injection H as <-. left. exists y. repeat split. apply orb_true_iff in E as [E|E]; apply String.eqb_eq in E; auto.
    + destruct (String.eqb_spec op "~") as [->|_]; [|discriminate H]. right. destruct (formulas [y]) as [fs|] eqn:Ef; [|discriminate H]. cbn [bind] in H. destruct fs as [|f [|]]; try discriminate H.
      destruct (neg f) as [g|] eqn:Eg; [|discriminate H]. cbn [bind] in H. injection H as <-. exists [f], g. split; [now apply formulas_is|]. split; [reflexivity|]. right. right. left. split; [reflexivity|]. now exists f.
  - right. apply Many; [discriminate|exact H].
Qed.
End Reader.
