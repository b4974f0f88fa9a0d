(** C73: the values of numeric terms *)
From Verif Require Import Base Numeric NumericSpec.
#[local] Open Scope string_scope.
#[local] Open Scope list_scope.

Lemma bounds z : (Z.leb (- (2 ^ 31 - 1)) z && Z.leb z (2 ^ 31 - 1))%bool = true <-> (Z.abs z <= 2 ^ 31 - 1)%Z.
Proof. rewrite andb_true_iff, !Z.leb_le. lia. Qed.
Section Facts.
Variable K : floats.
Variable I : string -> option (const K).
Notation ev := (evaluate K I).
Notation sf := (stands_for K I).
Lemma to_constant_int z c : to_constant K (PInt K z) = Ok c <-> representable K (NI z) /\ c = {| c_sort := SInt; c_num := NI z |}.
Proof.
  unfold to_constant, constant, representable. destruct (Z.leb (- (2 ^ 31 - 1)) z && Z.leb z (2 ^ 31 - 1))%bool eqn:E.
  - apply bounds in E. split; [intros H; injection H as <-; auto|intros [_ ->]; reflexivity].
  - split; [discriminate|]. intros [H _]. apply bounds in H. congruence.
Qed.
Lemma to_constant_float x c : to_constant K (PFloat K x) = Ok c <-> representable K (NF x) /\ c = {| c_sort := SReal; c_num := NF x |}.
Proof. unfold to_constant, constant, representable. cbn [as_float]. destruct (f_within K x); split; [intros H; injection H as <-; auto|intros [_ ->]; reflexivity|discriminate|intros [H _]; discriminate]. Qed.

Lemma evaluate_sound t : forall c, ev t = Ok c -> sf t (c_num c).
Proof.
  induction t as [c0|x|f s|o a IHa b IHb|u a IHa]; intros c H; cbn [evaluate] in H.
  - injection H as <-. constructor.
  - apply to_constant_float in H as [R ->]. now constructor.
  - destruct (I f) as [d|] eqn:E; [|discriminate]. injection H as <-. now constructor.
  - destruct (ev a) as [ca|]; [|discriminate]. destruct (ev b) as [cb|]; [|discriminate]. cbn [bind] in H. specialize (IHa _ eq_refl). specialize (IHb _ eq_refl).
    destruct (apply2 K o (c_num ca) (c_num cb)) as [v|] eqn:A; [|discriminate]. cbn [bind] in H.
    assert (FL : forall z, v = PFloat K z -> (exists x, c_num ca = NF x) \/ (exists y, c_num cb = NF y) -> float_op K o (real_of K (c_num ca)) (real_of K (c_num cb)) = Some z -> sf (TBin o a b) (c_num c)).
    { intros z -> M Fz. apply to_constant_float in H as [R ->]. cbn [c_num]. eapply sf_floats; eauto. }
    destruct (c_num ca) as [x|x] eqn:Na, (c_num cb) as [y|y] eqn:Nb.
    + destruct o; cbn [apply2] in A.
      1-3: injection A as <-; apply to_constant_int in H as [R ->]; cbn [c_num]; eapply sf_integers; eauto; try exact Logic.I; try reflexivity.
      * destruct (f_div K (as_float K (NI x)) (as_float K (NI y))) as [z|] eqn:D; [|discriminate]. injection A as <-. apply to_constant_float in H as [R ->]. cbn [c_num as_float] in *.
        eapply sf_quotient; eauto. cbn [float_op]. now rewrite D.
      * destruct (Z.leb 0 y) eqn:L.
        -- injection A as <-. apply to_constant_int in H as [R ->]. cbn [c_num]. eapply sf_integers; eauto; [now apply Z.leb_le|]. cbn [integer_op]. now rewrite L.
        -- destruct (f_pow K (f_of_int K x) (f_of_int K y)) as [[z|]|] eqn:D; try discriminate; injection A as <-; [|discriminate]. apply to_constant_float in H as [R ->]. cbn [c_num].
           eapply sf_quotient; eauto; [right; split; [reflexivity|]; now apply Z.leb_gt|]. cbn [float_op]. now rewrite D.
      * destruct (Z.eqb y 0) eqn:Z0; [discriminate|]. injection A as <-. apply to_constant_int in H as [R ->]. cbn [c_num]. eapply sf_integers; eauto; try exact Logic.I. cbn [integer_op]. now rewrite Z0.
      * injection A as <-. discriminate.
      * injection A as <-. discriminate.
    + assert (M : (exists x0 : float K, NI x = NF x0) \/ (exists y0, NF y = @NF K y0)) by (right; eauto).
      destruct o; cbn [apply2 as_float] in A; try (injection A as <-; eapply FL; [reflexivity|exact M|reflexivity]).
      * destruct (f_div K (f_of_int K x) y) as [z|] eqn:D; [|discriminate]. injection A as <-. eapply FL; [reflexivity|exact M|]. cbn [float_op real_of]. now rewrite D.
      * destruct (f_pow K (f_of_int K x) y) as [[z|]|] eqn:D; try discriminate; injection A as <-; [|discriminate]. eapply FL; [reflexivity|exact M|]. cbn [float_op real_of]. now rewrite D.
      * destruct (f_mod K (f_of_int K x) y) as [z|] eqn:D; [|discriminate]. injection A as <-. eapply FL; [reflexivity|exact M|]. cbn [float_op real_of]. now rewrite D.
    + assert (M : (exists x0 : float K, NF x = NF x0) \/ (exists y0, NI y = @NF K y0)) by (left; eauto).
      destruct o; cbn [apply2 as_float] in A; try (injection A as <-; eapply FL; [reflexivity|exact M|reflexivity]).
      * destruct (f_div K x (f_of_int K y)) as [z|] eqn:D; [|discriminate]. injection A as <-. eapply FL; [reflexivity|exact M|]. cbn [float_op real_of]. now rewrite D.
      * destruct (f_pow K x (f_of_int K y)) as [[z|]|] eqn:D; try discriminate; injection A as <-; [|discriminate]. eapply FL; [reflexivity|exact M|]. cbn [float_op real_of]. now rewrite D.
      * destruct (f_mod K x (f_of_int K y)) as [z|] eqn:D; [|discriminate]. injection A as <-. eapply FL; [reflexivity|exact M|]. cbn [float_op real_of]. now rewrite D.
    + assert (M : (exists x0 : float K, NF x = NF x0) \/ (exists y0, NF y = @NF K y0)) by (left; eauto).
      destruct o; cbn [apply2 as_float] in A; try (injection A as <-; eapply FL; [reflexivity|exact M|reflexivity]).
      * destruct (f_div K x y) as [z|] eqn:D; [|discriminate]. injection A as <-. eapply FL; [reflexivity|exact M|]. cbn [float_op real_of]. now rewrite D.
      * destruct (f_pow K x y) as [[z|]|] eqn:D; try discriminate; injection A as <-; [|discriminate]. eapply FL; [reflexivity|exact M|]. cbn [float_op real_of]. now rewrite D.
      * destruct (f_mod K x y) as [z|] eqn:D; [|discriminate]. injection A as <-. eapply FL; [reflexivity|exact M|]. cbn [float_op real_of]. now rewrite D.
  - destruct (ev a) as [ca|]; [|discriminate]. cbn [bind] in H. specialize (IHa _ eq_refl). destruct (c_num ca) as [x|x]; destruct u as [| |n]; cbn [apply1] in H; try discriminate;
      apply to_constant_float in H as [R ->]; cbn [c_num].
    + now apply sf_function.
    + now apply (sf_unary K I Abs).
    + now apply (sf_unary K I Sgn).
    + now apply (sf_unary K I (UFun n)).
Qed.
Lemma evaluate_complete t n : sf t n -> exists c, ev t = Ok c /\ c_num c = n.
Proof.
  induction 1 as [c|x R|f s c E|o a b x y z _ (ca & Ea & Na) _ (cb & Eb & Nb) KI IO R|o a b m n z _ (ca & Ea & Na) _ (cb & Eb & Nb) M FO R|o a b x y z _ (ca & Ea & Na) _ (cb & Eb & Nb) Q FO R|
                  u a x _ (ca & Ea & Na) R|name a x _ (ca & Ea & Na) R]; cbn [evaluate].
  - eauto.
  - exists {| c_sort := SReal; c_num := NF x |}. split; [|reflexivity]. apply (proj2 (to_constant_float x _)). auto.
  - rewrite E. eauto.
  - exists {| c_sort := SInt; c_num := NI z |}. split; [|reflexivity]. rewrite Ea, Eb. cbn [bind]. rewrite Na, Nb.
    destruct o; cbn [keeps_integers] in KI; try contradiction; cbn [integer_op] in IO; cbn [apply2].
    1-3: injection IO as <-; apply to_constant_int; auto.
    + assert (L : Z.leb 0 y = true) by now apply Z.leb_le. rewrite L in *. injection IO as <-. apply to_constant_int; auto.
    + destruct (Z.eqb y 0); [discriminate|]. injection IO as <-. apply to_constant_int; auto.
  - exists {| c_sort := SReal; c_num := NF z |}. split; [|reflexivity]. rewrite Ea, Eb. cbn [bind]. rewrite Na, Nb.
    assert (A : apply2 K o m n = Ok (PFloat K z)); [|rewrite A; apply to_constant_float; auto].
    destruct m as [x|x], n as [y|y]; [destruct M as [[w W]|[w W]]; discriminate| | |]; destruct o; cbn [float_op real_of] in FO; cbn [apply2 as_float];
      try (injection FO as <-; reflexivity);
      match goal with |- context [match ?r with Ok _ => _ | Err _ => _ end] => idtac | |- bind ?r _ = _ => destruct r as [w|]; try discriminate; cbn [bind]; subst; try (injection FO as ->); reflexivity end.
  - exists {| c_sort := SReal; c_num := NF z |}. split; [|reflexivity]. rewrite Ea, Eb. cbn [bind]. rewrite Na, Nb. destruct Q as [-> | [-> L]]; cbn [float_op] in FO; cbn [apply2 as_float].
    + destruct (f_div K (f_of_int K x) (f_of_int K y)); [|discriminate]. injection FO as <-. apply to_constant_float; auto.
    + assert (L' : Z.leb 0 y = false) by now apply Z.leb_gt. rewrite L'. destruct (f_pow K (f_of_int K x) (f_of_int K y)) as [w|]; [|discriminate]. subst w. apply to_constant_float; auto.
  - exists {| c_sort := SReal; c_num := NF (float_fun K u x) |}. split; [|reflexivity]. rewrite Ea. cbn [bind]. rewrite Na. destruct u; apply to_constant_float; auto.
  - exists {| c_sort := SReal; c_num := NF (f_fun K name (f_of_int K x)) |}. split; [|reflexivity]. rewrite Ea. cbn [bind]. rewrite Na. apply to_constant_float; auto.
Qed.
End Facts.

(** The value of a term is the number it stands for, and it has a value exactly when all intermediate results are representable. *)
Theorem C73_value : forall K I t n, (exists c, evaluate K I t = Ok c /\ c_num c = n) <-> stands_for K I t n.
Proof. intros K I t n. split; [intros (c & H & <-); now apply evaluate_sound|apply evaluate_complete]. Qed.
Print Assumptions C73_value.
Lemma to_constant_proper K v c : to_constant K v = Ok c -> proper K c.
Proof.
  destruct v as [z|x|z|]; try discriminate.
  - intros H. apply to_constant_int in H as [R ->]. exact R.
  - intros H. apply to_constant_float in H as [R ->]. exact Logic.I.
Qed.
(** The value is a constant of (a sort below) the sort of the term, between the bounds of its sort. *)
Theorem C73_sort : forall K I t c, well_sorted K I t -> evaluate K I t = Ok c -> proper K c /\ below (c_sort c) (term_sort K t).
Proof.
  intros K I t c W H. destruct t as [c0|x|f s|o a b|u a]; cbn [evaluate term_sort well_sorted] in *.
  - injection H as <-. split; [exact W|]. destruct (c_sort c0); exact Logic.I.
  - apply (to_constant_proper K (PFloat K x)) in H. split; [exact H|]. destruct (c_sort c); exact Logic.I.
  - destruct (I f) as [d|]; [|discriminate]. injection H as <-. now apply W.
  - destruct (evaluate K I a); [|discriminate]. destruct (evaluate K I b); [|discriminate]. cbn [bind] in H. destruct (apply2 K o _ _); [|discriminate]. cbn [bind] in H. apply to_constant_proper in H.
    split; [exact H|]. destruct (c_sort c); exact Logic.I.
  - destruct (evaluate K I a); [|discriminate]. cbn [bind] in H. apply to_constant_proper in H. split; [exact H|]. destruct (c_sort c); exact Logic.I.
Qed.
(** Integers are exact: a term over + - * % ** with integer leaves has the value that mathematics gives it, or none; it has one if all results on the way are integers between the bounds. *)
Theorem C73_integers : forall K I t, integral K I t ->
  (forall c z, evaluate K I t = Ok c -> c_num c = NI z -> integer_value K I t = Some z) /\
  (stays_small K I t -> exists c z, evaluate K I t = Ok c /\ c_num c = NI z /\ integer_value K I t = Some z).
Proof.
  intros K I. assert (A : forall t c z, evaluate K I t = Ok c -> c_num c = NI z -> integer_value K I t = Some z).
  { intros t c z H N. apply evaluate_sound in H. rewrite N in H. clear N c. remember (NI z) as n eqn:E. revert z E.
    induction H as [c|x R|f s c E0|o a b x y z0 Ha IHa Hb IHb KI IO R|o a b m n z0 _ _ _ _ _ _ _|o a b x y z0 _ _ _ _ _ _ _|u a x _ _ R|name a x _ _ R]; intros z E; try discriminate; cbn [integer_value].
    - now rewrite E.
    - rewrite E0, E. reflexivity.
    - injection E as <-. now rewrite (IHa x eq_refl), (IHb y eq_refl). }
  intros t T. split; [apply A|]. induction t as [c0|x|f s|o a IHa b IHb|u a IHa]; cbn [integral stays_small integer_value] in *; intros SM.
  - destruct T as [z Ez]. exists c0, z. rewrite Ez. auto.
  - contradiction.
  - destruct T as (c & z & Ec & Ez). exists c, z. cbn [evaluate]. rewrite Ec, Ez. auto.
  - destruct T as (O & Ta & Tb). destruct SM as (Sa & Sb & z & V & R). destruct (IHa Ta Sa) as (ca & x & Ea & Na & Va). destruct (IHb Tb Sb) as (cb & y & Eb & Nb & Vb). rewrite Va, Vb in *.
    assert (X : stands_for K I (TBin o a b) (NI z)).
    { apply (sf_integers K I o a b x y z); try assumption; try (apply C73_value; eauto). cbn [In] in O. destruct O as [<-|[<-|[<-|[<-|[<-|[]]]]]]; cbn [keeps_integers]; try exact Logic.I.
      cbn [integer_op] in V. destruct (Z.leb 0 y) eqn:L; [now apply Z.leb_le|discriminate]. }
    apply evaluate_complete in X as (c & Ec & Nc). exists c, z. auto.
  - contradiction.
Qed.
Print Assumptions C73_integers.

(** min, max, abs and sgn of integers cannot be evaluated: numpy's integers are no Python ints. *)
Theorem C73_integer_extrema_refuted : forall K I a b c d x y, evaluate K I a = Ok c -> c_num c = NI x -> evaluate K I b = Ok d -> c_num d = NI y ->
  evaluate K I (TBin Min a b) = Err AttributeError /\ evaluate K I (TBin Max a b) = Err AttributeError /\ evaluate K I (TUn Abs a) = Err AttributeError /\ evaluate K I (TUn Sgn a) = Err AttributeError.
Proof. intros K I a b c d x y Ha Na Hb Nb. cbn [evaluate]. rewrite Ha, Hb. cbn [bind]. rewrite Na, Nb. cbn [apply2 apply1 bind to_constant]. auto. Qed.
(** Naturals above 2^31 - 1 cannot be added: the sum must be of sort Integer. *)
Theorem C73_naturals_refuted : forall K I f z, I f = Some {| c_sort := SNat; c_num := NI z |} -> (2 ^ 31 - 1 < z <= 2 ^ 32 - 1)%Z ->
  evaluate K I (TFun f SNat) = Ok {| c_sort := SNat; c_num := NI z |} /\ well_sorted K I (TFun f SNat) /\
  forall o n, In (o, n) [(Plus, 0%Z); (Minus, 0%Z); (Times, 1%Z); (Power, 1%Z)] -> evaluate K I (TBin o (TFun f SNat) (TConst {| c_sort := SInt; c_num := NI n |})) = Err ValueError.
Proof.
  intros K I f z E B. cbn [evaluate well_sorted]. rewrite E. split; [reflexivity|]. split.
  - intros c Ec. injection Ec as <-. split; [unfold proper; cbn [c_sort c_num]; lia|exact Logic.I].
  - assert (Q : (Z.leb (- (2 ^ 31 - 1)) z && Z.leb z (2 ^ 31 - 1))%bool = false) by (destruct (Z.leb (- (2 ^ 31 - 1)) z && Z.leb z (2 ^ 31 - 1))%bool eqn:X; [apply bounds in X; lia|reflexivity]).
    intros o n H. cbn [In] in H. destruct H as [H|[H|[H|[H|[]]]]]; injection H as <- <-; cbn [bind c_num apply2]; rewrite ?Z.add_0_r, ?Z.sub_0_r, ?Z.mul_1_r; cbn [Z.leb Z.compare]; rewrite ?Z.pow_1_r;
      cbn [bind to_constant constant]; rewrite Q; reflexivity.
Qed.

(** * Building terms *)
(** min and max give a term iff one of the arguments is a term, the theory is loaded, and a number is between the bounds of Real. *)
Theorem C73_special : forall K loaded o x y u, special2 K loaded o x y = Ok u <->
  loaded = true /\ exists a b, u = TBin o a b /\
    ((x = OTerm a /\ y = OTerm b) \/
     (x = OTerm a /\ exists n, y = ONum n /\ representable K (NF (real_of K n)) /\ b = TRaw (real_of K n)) \/
     (y = OTerm b /\ exists n, x = ONum n /\ representable K (NF (real_of K n)) /\ a = TRaw (real_of K n))).
Proof.
  intros K loaded o x y u.
  assert (A : forall n a, argument K (ONum n) = Ok a <-> representable K (NF (real_of K n)) /\ a = TRaw (real_of K n)).
  { intros n a. unfold argument, constant, representable. change (as_float K n) with (real_of K n). destruct (f_within K (real_of K n)); cbn [bind c_num as_float]; split.
    - intros H. injection H as <-. auto.
    - intros [_ ->]. reflexivity.
    - discriminate.
    - intros [H _]. discriminate. }
  destruct x as [n|t], y as [m|t'].
  - cbn. split; [discriminate|]. intros (_ & a & b & _ & [[H _]|[[H _]|[H _]]]); discriminate.
  - cbn [special2]. destruct loaded; [|split; [discriminate|intros [H _]; discriminate]]. destruct (argument K (ONum n)) as [a|] eqn:E.
    + cbn [bind argument]. apply A in E as [R ->]. split; [intros H; injection H as <-; split; [reflexivity|]; do 2 eexists; split; [reflexivity|]; right; right; eauto|].
      intros (_ & a & b & -> & [[H _]|[[H _]|(H & n' & H' & _ & ->)]]); try discriminate. injection H as <-. injection H' as <-. reflexivity.
    + split; [discriminate|]. intros (_ & a & b & -> & [[H _]|[[H _]|(H & n' & H' & R & ->)]]); try discriminate. injection H' as <-. assert (X := proj2 (A n _) (conj R eq_refl)). congruence.
  - cbn [special2]. destruct loaded; [|split; [discriminate|intros [H _]; discriminate]]. cbn [argument bind]. fold (argument K (ONum m)). destruct (argument K (ONum m)) as [b|] eqn:E.
    + cbn [bind]. apply A in E as [R ->]. split; [intros H; injection H as <-; split; [reflexivity|]; do 2 eexists; split; [reflexivity|]; right; left; eauto|].
      intros (_ & a & b & -> & [[_ H]|[(H & n' & H' & _ & ->)|[H _]]]); try discriminate. injection H as <-. injection H' as <-. reflexivity.
    + split; [discriminate|]. intros (_ & a & b & -> & [[_ H]|[(H & n' & H' & R & ->)|[H _]]]); try discriminate. injection H' as <-. assert (X := proj2 (A m _) (conj R eq_refl)). congruence.
  - cbn. destruct loaded; [|split; [discriminate|intros [H _]; discriminate]]. split; [intros H; injection H as <-; split; [reflexivity|]; do 2 eexists; split; [reflexivity|]; left; auto|].
    intros (_ & a & b & -> & [[H H']|[(_ & n & H & _)|(_ & n & H & _)]]); try discriminate. injection H as <-. injection H' as <-. reflexivity.
Qed.
Print Assumptions C73_special.
(** Two Python numbers never give an answer (the functions call themselves), and one number has no absolute value, square root or power. *)
Theorem C73_plain_numbers_refuted : forall K loaded o u n m x, special2 K loaded o (ONum n) (ONum m) = Err RuntimeError /\ special1 K loaded u (ONum n) = Err AttributeError /\
  make_pow K loaded (ONum n) x = Err AttributeError.
Proof. intros. auto. Qed.

(** The integers that are constants of the sorts Integer and Natural *)
Theorem C73_constants : forall K z s lo hi, In (s, lo, hi) [(SInt, (- (2 ^ 31 - 1))%Z, (2 ^ 31 - 1)%Z); (SNat, 0%Z, (2 ^ 32 - 1)%Z)] ->
  ((lo <= z <= hi)%Z -> constant K s (NI z) = Ok {| c_sort := s; c_num := NI z |}) /\ (~ (lo <= z <= hi)%Z -> constant K s (NI z) = Err ValueError).
Proof.
  intros K z s lo hi H. assert (G : forall l h (c : const K), ((l <= z <= h)%Z -> (if (Z.leb l z && Z.leb z h)%bool then Ok c else Err ValueError) = Ok c) /\ (~ (l <= z <= h)%Z -> (if (Z.leb l z && Z.leb z h)%bool then Ok c else Err ValueError) = Err ValueError)).
  { intros l h c. split; intros B; destruct (Z.leb l z) eqn:E1, (Z.leb z h) eqn:E2; try reflexivity; cbn [andb]; try apply Z.leb_gt in E1; try apply Z.leb_gt in E2; try apply Z.leb_le in E1; try apply Z.leb_le in E2; try lia. }
  destruct H as [H|[H|[]]]; injection H as <- <- <-; cbn [constant]; apply G.
Qed.

(** A number is a constant of Real iff it is between the bounds, as a float. *)
Theorem C73_reals : forall K n c, constant K SReal n = Ok c <-> representable K (NF (real_of K n)) /\ c = {| c_sort := SReal; c_num := NF (real_of K n) |}.
Proof.
  intros K n c. unfold constant, representable. change (as_float K n) with (real_of K n). destruct (f_within K (real_of K n)); split.
  - intros H. injection H as <-. split; reflexivity.
  - intros [_ ->]. reflexivity.
  - discriminate.
  - intros [H _]. discriminate H.
Qed.
(** Functions of one argument and powers give a term iff the (first) argument is a term, the theory is loaded, and an exponent that is a number is between the bounds of Real. *)
Theorem C73_special_unary : forall K loaded u x t, special1 K loaded u x = Ok t <-> loaded = true /\ exists a, x = OTerm a /\ t = TUn u a.
Proof.
  intros K loaded u x t. destruct x as [n|a]; cbn [special1]; [split; [discriminate|intros (_ & a & H & _); discriminate H]|]. destruct loaded; split.
  - intros H. injection H as <-. split; [reflexivity|]. exists a. split; reflexivity.
  - intros (_ & b & H & ->). injection H as <-. reflexivity.
  - discriminate.
  - intros [H _]. discriminate H.
Qed.
Theorem C73_power : forall K loaded x y t, make_pow K loaded x y = Ok t <-> loaded = true /\ exists a b, x = OTerm a /\ t = TBin Power a b /\
  (y = OTerm b \/ exists n, y = ONum n /\ representable K (NF (real_of K n)) /\ b = TRaw (real_of K n)).
Proof.
  intros K loaded x y t. destruct x as [n|a]; cbn [make_pow]; [split; [discriminate|intros (_ & a & b & H & _); discriminate H]|]. destruct loaded; [|split; [discriminate|intros [H _]; discriminate H]].
  destruct y as [n|b]; cbn [argument].
  - destruct (constant K SReal n) as [c|] eqn:E; cbn [bind].
    + apply C73_reals in E as [R ->]. cbn [c_num as_float]. split.
      * intros H. injection H as <-. split; [reflexivity|]. exists a, (TRaw (real_of K n)). split; [reflexivity|]. split; [reflexivity|]. right. exists n. split; [reflexivity|split; [exact R|reflexivity]].
      * intros (_ & a' & b & H & -> & [Q|(n' & Q & _ & ->)]); [discriminate Q|]. injection H as <-. injection Q as <-. reflexivity.
    + split; [discriminate|]. intros (_ & a' & b & H & -> & [Q|(n' & Q & R & ->)]); [discriminate Q|]. injection Q as <-. assert (X := proj2 (C73_reals K n _) (conj R eq_refl)). congruence.
  - cbn [bind]. split.
    + intros H. injection H as <-. split; [reflexivity|]. exists a, b. split; [reflexivity|]. split; [reflexivity|]. left. reflexivity.
    + intros (_ & a' & b' & H & -> & [Q|(n' & Q & _)]); [|discriminate Q]. injection H as <-. injection Q as <-. reflexivity.
Qed.
Theorem C73_not_loaded : forall K o u a y, special2 K false o (OTerm a) y = Err UndefinedElement /\ special2 K false o y (OTerm a) = Err UndefinedElement /\ special1 K false u (OTerm a) = Err UndefinedElement /\ make_pow K false (OTerm a) y = Err UndefinedElement.
Proof. intros K o u a y. split; [destruct y; reflexivity|]. split; [destruct y; reflexivity|]. split; reflexivity. Qed.
(** UndefinedTerm is raised for a term with a function that has no value (and an operator that is undefined on the floats does not raise it), and for each term whose first function in order has none. *)
Fixpoint leaves {K} (t : nterm K) : list string := match t with TFun f _ => [f] | TBin _ a b => (leaves a ++ leaves b)%list | TUn _ a => leaves a | _ => [] end.
Fixpoint leftmost {K} (t : nterm K) : option string := match t with TFun f _ => Some f | TBin _ a _ | TUn _ a => leftmost a | _ => None end.
Theorem C73_undefined : forall K I t, (forall o x y, apply2 K o x y <> Err UndefinedTerm) ->
  (evaluate K I t = Err UndefinedTerm -> exists f, In f (leaves t) /\ I f = None) /\ (forall f, leftmost t = Some f -> I f = None -> evaluate K I t = Err UndefinedTerm).
Proof.
  intros K I t HA. assert (Q : forall s n, constant K s n <> Err UndefinedTerm). { intros s n. unfold constant. destruct s; [destruct (f_within K _); discriminate| |]; (destruct (match n with NI z => Some z | NF x => f_integer K x end) as [z|]; [|discriminate]; cbv zeta; destruct (_ && _)%bool; discriminate). }
  assert (P : forall v, to_constant K v <> Err UndefinedTerm). { intros [z|x|z|]; cbn [to_constant]; try discriminate; apply Q. }
  split.
  - induction t as [c|x|f s|o a IHa b IHb|u a IHa]; cbn [evaluate leaves]; intros H.
    + discriminate H.
    + destruct (Q _ _ H).
    + destruct (I f) eqn:E; [discriminate H|]. exists f. split; [left; reflexivity|exact E].
    + destruct (evaluate K I a) as [c|e]; cbn [bind] in H; [|injection H as ->; destruct (IHa eq_refl) as (f & F1 & F2); exists f; split; [apply in_app_iff; left; exact F1|exact F2]].
      destruct (evaluate K I b) as [d|e]; cbn [bind] in H; [|injection H as ->; destruct (IHb eq_refl) as (f & F1 & F2); exists f; split; [apply in_app_iff; right; exact F1|exact F2]].
      destruct (apply2 K o (c_num c) (c_num d)) as [v|e] eqn:E; cbn [bind] in H; [destruct (P _ H)|]. injection H as ->. destruct (HA _ _ _ E).
    + destruct (evaluate K I a) as [c|e]; cbn [bind] in H; [destruct (P _ H)|]. injection H as ->. exact (IHa eq_refl).
  - induction t as [c|x|f s|o a IHa b IHb|u a IHa]; cbn [evaluate leftmost]; intros g H N; try discriminate H.
    + injection H as <-. rewrite N. reflexivity.
    + rewrite (IHa g H N). reflexivity.
    + rewrite (IHa g H N). reflexivity.
Qed.

(** * Examples *)
(** Floats of which the model can compute: integers, with bounds *)
Definition toy : floats :=
  {| float := Z; f_of_int := fun z => z; f_integer := Some; f_within := fun z => (Z.leb (-10 ^ 38) z && Z.leb z (10 ^ 38))%bool;
     f_add := Z.add; f_sub := Z.sub; f_mul := Z.mul; f_div := fun x y => if Z.eqb y 0 then Err RuntimeError else Ok (x / y)%Z; f_mod := fun x y => if Z.eqb y 0 then Err RuntimeError else Ok (x mod y)%Z;
     f_pow := fun x y => Ok (Some (x ^ y)%Z); f_min := Z.min; f_max := Z.max; f_abs := Z.abs; f_sgn := Z.sgn; f_fun := fun n x => if String.eqb n "sqrt" then Z.sqrt x else x |}.
Definition toy_model (f : string) : option (const toy) := if String.eqb f "n" then Some {| c_sort := SNat; c_num := NI 5 |} else if String.eqb f "x" then Some {| c_sort := SReal; c_num := @NF toy (-3)%Z |} else None.
Definition int_c (z : Z) : nterm toy := TConst {| c_sort := SInt; c_num := NI z |}.
(** (n + 2) ** 3 % 100 and max(0.0, abs(x) - n) *)
Definition term1 : nterm toy := TBin Mod (TBin Power (TBin Plus (TFun "n" SNat) (int_c 2)) (int_c 3)) (int_c 100).
Definition term2 : nterm toy := TBin Max (@TRaw toy 0%Z) (TBin Minus (TUn Abs (TFun "x" SReal)) (TFun "n" SNat)).
Theorem C73_nonvacuous :
  evaluate toy toy_model term1 = Ok {| c_sort := SInt; c_num := NI 43 |} /\ integral toy toy_model term1 /\ stays_small toy toy_model term1 /\ well_sorted toy toy_model term1 /\
  evaluate toy toy_model term2 = Ok {| c_sort := SReal; c_num := @NF toy 0%Z |} /\ stands_for toy toy_model term2 (@NF toy 0%Z) /\ well_sorted toy toy_model term2 /\
  evaluate toy toy_model (TBin Times (int_c (10 ^ 6)) (int_c (10 ^ 6))) = Err ValueError /\ evaluate toy toy_model (TBin Min (int_c 1) (int_c 2)) = Err AttributeError /\
  special2 toy true Max (@ONum toy (@NF toy 0%Z)) (OTerm (TBin Minus (TUn Abs (TFun "x" SReal)) (TFun "n" SNat))) = Ok term2.
Proof.
  assert (E : evaluate toy toy_model term2 = Ok {| c_sort := SReal; c_num := @NF toy 0%Z |}) by (exact eq_refl).
  assert (W : forall c, toy_model "n" = Some c -> proper toy c /\ below (c_sort c) SNat) by (intros c H; injection H as <-; split; [split; intros Q; discriminate Q|exact Logic.I]).
  split; [exact eq_refl|]. split.
  - cbn [integral term1 int_c c_num]. split; [cbn; tauto|]. split; [|eauto]. split; [cbn; tauto|]. split; [|eauto]. split; [cbn; tauto|]. split; [|eauto].
    exists {| c_sort := SNat; c_num := NI 5 |}, 5%Z. split; reflexivity.
  - split; [|split; [|split; [exact E|split; [apply C73_value; eexists; split; [exact E|reflexivity]|split]]]].
    + cbn [stays_small term1 int_c]. split; [|split; [exact Logic.I|exists 43%Z; split; [exact eq_refl|intros Q; discriminate Q]]].
      split; [|split; [exact Logic.I|exists 343%Z; split; [exact eq_refl|intros Q; discriminate Q]]].
      split; [exact Logic.I|split; [exact Logic.I|exists 7%Z; split; [exact eq_refl|intros Q; discriminate Q]]].
    + cbn [well_sorted term1 int_c]. split; [split; [split; [exact W|]|]|]; intros Q; discriminate Q.
    + cbn [well_sorted term2]. split; [exact Logic.I|]. split; [|exact W]. intros c H. injection H as <-. split; exact Logic.I.
    + split; [exact eq_refl|]. split; [exact eq_refl|]. exact eq_refl.
Qed.
Print Assumptions C73_sort.
