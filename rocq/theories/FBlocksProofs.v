(** Proofs about the functional blocksworld. *)
From Coq Require Import Permutation Lia.
From Verif Require Import ListUtil Base Syntax SemLemmas Build ModelState ModelProofs Eval EvalProofs Subst SubstProofs QElim Effects ProgressSpec StateLemmas FreeVars Represent
  Blocks BlocksProofs2 BlocksProofs3 FBlocks FBlocksSpec.
#[local] Open Scope string_scope.
#[local] Open Scope list_scope.

(** * Grounding and one step *)
Definition move_pre (x y : string) : formula := Comp And [Atom (PB PNe) [fplace x; fplace y]; Atom (PB PNe) [App floc [fplace x]; fplace y]; Atom fclear [fplace x]; Atom fclear [fplace y]].
Definition move_effs (x y : string) : list effect :=
  [Effects.EFun false Top (App floc [fplace x]) (fplace y); EAdd Top (Atom fclear [App floc [fplace x]]); EDel (Atom (PB PNe) [fplace y; fplace "table"]) (Atom fclear [fplace y])].
Lemma move_ground x y : ground_schema fmove_action (bind_move x y) = Ok (move_pre x y, move_effs x y).
Proof. reflexivity. Qed.
Lemma fplace_inj x y : fplace x = fplace y -> x = y. Proof. unfold fplace. intros H. now injection H. Qed.
Lemma fplace_not_none x s : x <> "None" -> fplace x <> none_constant s. Proof. unfold fplace, none_constant. intros N H. injection H. auto. Qed.
Lemma fne m x y : eval_f m (Atom (PB PNe) [fplace x; fplace y]) = Ok true <-> x <> y.
Proof. unfold fplace. rewrite ne_true. split; intros H K; apply H; [congruence|now injection K]. Qed.
Lemma name_ne x y : compare_names PNe (CStr x) (CStr y) = Ok (negb (String.eqb x y)).
Proof. cbn [compare_names]. destruct (String.eqb_spec x y) as [->|N]; [destruct (cname_eq_dec (CStr y) (CStr y))|destruct (cname_eq_dec (CStr x) (CStr y))]; try congruence; reflexivity. Qed.
Lemma name_eq x y : compare_names PEq (CStr x) (CStr y) = Ok (String.eqb x y).
Proof. cbn [compare_names]. destruct (String.eqb_spec x y) as [->|N]; [destruct (cname_eq_dec (CStr y) (CStr y))|destruct (cname_eq_dec (CStr x) (CStr y))]; try congruence; reflexivity. Qed.
Lemma fne_ok m x y : eval_f m (Atom (PB PNe) [fplace x; fplace y]) = Ok (negb (String.eqb x y)).
Proof. unfold fplace. change (compare_names PNe (CStr x) (CStr y) = Ok (negb (String.eqb x y))). apply name_ne. Qed.
Lemma floc_value m x z : m_value m floc [fplace x] = Ok (fplace z) -> eval_term m (App floc [fplace x]) = Ok (fplace z).
Proof. intros V. change (match m_value m floc [fplace x] with Ok v => Ok v | Err KeyError => Err UndefinedTerm | Err e => Err e end = Ok (fplace z)). rewrite V. reflexivity. Qed.
Lemma fcmp_loc m b x y z : m_value m floc [fplace x] = Ok (fplace z) -> eval_f m (Atom (PB b) [App floc [fplace x]; fplace y]) = compare_names b (CStr z) (CStr y).
Proof. intros V. rewrite eval_batom. cbn [mapM evaluate_t]. rewrite (floc_value _ _ _ V). reflexivity. Qed.
Lemma fclear_ok m z : eval_f m (Atom fclear [fplace z]) = Ok (m_holds m fclear [fplace z]).
Proof. reflexivity. Qed.

Lemma applicable_spec n m at_ free x y : says n m at_ free -> In x (block_names n) -> In y (place_names n) ->
  exists b, is_applicable m (move_pre x y) = Ok b /\ (b = true <-> x <> y /\ at_ x <> y /\ free x /\ free y).
Proof.
  intros [A F] Hx Hy. unfold is_applicable, move_pre. rewrite eval_and. cbn [eval_all]. rewrite fne_ok, (fcmp_loc m PNe x y _ (A x Hx)), name_ne, !fclear_ok. assert (Fx := F x (or_intror Hx)). assert (Fy := F y Hy).
  destruct (String.eqb_spec x y) as [E1|E1]; cbn [negb]; [exists false; split; [reflexivity|]; split; [discriminate|tauto]|].
  destruct (String.eqb_spec (at_ x) y) as [E2|E2]; cbn [negb]; [exists false; split; [reflexivity|]; split; [discriminate|tauto]|].
  destruct (m_holds m fclear [fplace x]); [|exists false; split; [reflexivity|]; split; [discriminate|intros (_ & _ & K & _); apply Fx in K; discriminate]].
  destruct (m_holds m fclear [fplace y]); [|exists false; split; [reflexivity|]; split; [discriminate|intros (_ & _ & _ & K); apply Fy in K; discriminate]].
  exists true. split; [reflexivity|]. split; [|reflexivity]. intros _. tauto.
Qed.

Definition moved (at_ : string -> string) (x y : string) : string -> string := fun z => if String.eqb z x then y else at_ z.
Definition covered (free : string -> Prop) (y : string) : string -> Prop := fun z => free z /\ (y = "table" \/ z <> y).
Lemma none_not_place n z : In z (place_names n) -> z <> "None".
Proof. intros [<-|H]; [discriminate|]. intros ->. unfold block_names in H. apply in_map_iff in H as (k & E & _). unfold block_name in E. discriminate E. Qed.

Lemma progress_spec sub n st at_ free x y : places_typed sub -> proper (fs_model st) -> says n (fs_model st) at_ free -> In x (block_names n) -> In y (place_names n) ->
  exists st', fprogress sub st (move_effs x y) = Ok st' /\ proper (fs_model st') /\ says n (fs_model st') (moved at_ x y) (covered free y) /\ fs_none st' = fs_none st ++ [place_sort; "object"].
Proof.
  intros (T1 & T2 & T3) Pm [A F] Hx Hy. assert (Nx : x <> "table"). { intros ->. exact (block_names_table n Hx). }
  assert (Sx : fplace x = Cst (CStr x) block_sort). { unfold fplace. destruct (String.eqb_spec x "table"); [contradiction|reflexivity]. }
  unfold fprogress, move_effs. cbn [filter is_del negb app foldM fapply].
  (* the delete effect *)
  set (m0 := fs_model st) in *. set (m1 := if String.eqb y "table" then m0 else m_discard m0 fclear [fplace y]).
  assert (E1 : apply_effect (fun _ => None) sub m0 (EDel (Atom (PB PNe) [fplace y; fplace "table"]) (Atom fclear [fplace y])) = Ok m1).
  { unfold apply_effect, m1. cbn [edepth apply_effect_n econd]. rewrite fne_ok. cbn [bind]. destruct (String.eqb y "table"); reflexivity. }
  rewrite E1. cbn [bind fs_model fs_none].
  assert (P1 : proper m1 /\ (forall q b, m_holds m1 q b = (String.eqb y "table" || negb (same_atom fclear q [fplace y] b)) && m_holds m0 q b) /\ (forall f b, m_value m1 f b = m_value m0 f b)).
  { unfold m1. destruct (String.eqb y "table"); [split; [exact Pm|split; reflexivity]|]. destruct (discard_spec m0 fclear [fplace y] Pm) as (Q1 & Q2 & Q3). split; [exact Q1|]. split; [|exact Q3]. intros q b. rewrite Q2. reflexivity. }
  destruct P1 as (P1 & H1 & V1).
  (* the assignment *)
  assert (E2 : exists m2, apply_effect (fun _ => None) sub m1 (Effects.EFun false Top (App floc [fplace x]) (fplace y)) = Ok m2 /\ m_set sub m1 (App floc [fplace x]) (fplace y) = Ok m2).
  { assert (G : exists m2, m_set sub m1 (App floc [fplace x]) (fplace y) = Ok m2).
    { unfold floc. cbn [m_set]. rewrite Sx. cbn [forallb is_cst andb]. unfold check_assignment. cbn [List.length app Nat.eqb check_sorts ModelState.sort_of]. rewrite T1. unfold fplace. destruct (String.eqb y "table"); cbn [ModelState.sort_of]; rewrite ?T2, ?T3; cbn [bind]; eauto. }
    destruct G as [m2 G]. exists m2. split; [|exact G]. unfold apply_effect. cbn [edepth apply_effect_n econd eval_f bind negb]. change (evaluate_t m1 (fplace y)) with (Ok (fplace y)). cbn [bind]. exact G. }
  destruct E2 as (m2 & E2 & S2). rewrite E2. cbn [bind fs_model fs_none].
  destruct (set_spec _ _ _ _ _ S2) as (f & a & Et & P2 & H2 & V2). injection Et as <- <-. specialize (P2 P1).
  (* the add effect *)
  cbn [fclear cast_point cast_element floc bind]. 
  assert (E3 : exists m3, m_add sub m2 fclear [none_constant place_sort] = Ok m3).
  { unfold fclear, m_add. unfold check_assignment. cbn [List.length Nat.eqb check_sorts none_constant ModelState.sort_of]. rewrite T3. cbn [bind]. eauto. }
  destruct E3 as (m3 & E3). assert (P3 := add_spec _ _ _ _ _ E3 P2). destruct P3 as (P3 & H3 & V3). unfold fclear in E3. change (eval_f m2 Top) with (Ok (A := bool) true). cbn [bind negb]. rewrite E3. cbn [bind].
  eexists. split; [reflexivity|]. cbn [fs_model fs_none]. split; [exact P3|]. split; [|reflexivity]. split.
  - intros z Hz. rewrite V3, V2. unfold moved. destruct (String.eqb_spec z x) as [->|N].
    + replace (same_point floc floc [fplace x] [fplace x]) with true; [reflexivity|]. symmetry. now apply same_point_eq.
    + replace (same_point floc floc [fplace x] [fplace z]) with false; [rewrite V1; apply A; exact Hz|]. symmetry. apply not_true_is_false. intros K. apply same_point_eq in K as [_ K]. assert (K' : fplace x = fplace z) by congruence. apply N. symmetry. now apply fplace_inj.
  - intros z Hz. rewrite H3. assert (NN : same_atom fclear fclear [none_constant place_sort] [fplace z] = false).
    { apply not_true_is_false. intros K. apply same_atom_eq in K as [_ K]. assert (K' : fplace z = none_constant place_sort) by congruence. revert K'. apply fplace_not_none. exact (none_not_place n z Hz). }
    rewrite NN. cbn [orb]. rewrite H2, H1, andb_true_iff, (F z Hz). unfold covered. rewrite orb_true_iff, String.eqb_eq, negb_true_iff.
    assert (Q : same_atom fclear fclear [fplace y] [fplace z] = false <-> z <> y).
    { split; [intros K ->|]. { rewrite (proj2 (same_atom_eq _ _ _ _)) in K; [discriminate|auto]. } intros K. apply not_true_is_false. intros L. apply same_atom_eq in L as [_ L]. assert (L' : fplace y = fplace z) by congruence. apply K. symmetry. now apply fplace_inj. }
    rewrite Q. tauto.
Qed.
