(** C42: printing in the PDDL/FSTRIPS syntax and reading *)
From Coq Require Import Ascii.
From Verif Require Import Base Syntax Semantics SemLemmas ListUtil Asp ModelText Build Index Effects PropsGrounding PddlText PddlRead PddlSpec PddlProofs PddlProofs2.
Local Open Scope string_scope.

(** ** Meaning of what is read *)
Section Meaning.
Variable l : plang.
Variable M : structure.
Hypothesis St : standard M.
Variable N : list string.
Hypothesis Inj : forall x y, In x N -> In y N -> pv x = pv y -> x = y.
Definition agree (e e' : env M) : Prop := forall x s, In x N -> e' (pv x, s) = e (x, s).
Lemma recast_sem s t e : tsem M (recast s t) e = tsem M t e.
Proof. unfold recast. destruct t as [x r|[n|z] r|f ts|c a b]; try reflexivity. cbn [numeral tsem]. apply St. Qed.
Lemma cast2_sem x y e : map (fun u => tsem M u e) (cast2 x y) = [tsem M x e; tsem M y e].
Proof. destruct (cast2_cases x y) as (s & s' & ->). cbn [map]. now rewrite !recast_sem. Qed.
Lemma recast_all_sem ss us e : List.length us = List.length ss -> map (fun u => tsem M u e) (recast_all ss us) = map (fun u => tsem M u e) us.
Proof. revert us. induction ss as [|s ss IH]; intros [|u us] H; try discriminate; [reflexivity|]. cbn [recast_all map]. rewrite recast_sem, IH; [reflexivity | now injection H]. Qed.
Lemma canon_t_sem B t e e' : agree e e' -> incl (names_t t) N -> readable_t l B t = true -> tsem M (canon_t t) e' = tsem M t e.
Proof.
  intros He. revert t. refine (term_ind_nested (fun t => incl (names_t t) N -> readable_t l B t = true -> tsem M (canon_t t) e' = tsem M t e) (fun _ => True) _ _ _ _ _ _ _ _ _); try (intros; exact I).
  - intros x s Hi _. cbn. apply He, Hi. now left.
  - reflexivity.
  - intros f ts IH Hi H. assert (G : forallb (readable_t l B) ts = true -> map (fun u => tsem M u e') (map canon_t ts) = map (fun u => tsem M u e) ts).
    { intros R. rewrite map_map. apply map_ext_in. intros t Ht. rewrite Forall_forall in IH. apply IH; [exact Ht | |rewrite forallb_forall in R; now apply R].
      intros y Hy. apply Hi. cbn [names_t]. apply in_flat_map. now exists t. }
    destruct f as [o|n ss c]; cbn [readable_t] in H.
    + destruct ts as [|x [|y [|w ts]]]; try discriminate. rewrite !andb_true_iff in H. destruct H as ((_ & H4) & H5).
      cbn [canon_t map tsem] in *. rewrite cast2_sem. f_equal. apply G. cbn [forallb]. now rewrite H4, H5.
    + rewrite !andb_true_iff in H. destruct H as (((_ & H3) & _) & H5). apply Nat.eqb_eq in H3. cbn [canon_t tsem]. rewrite recast_all_sem by now rewrite map_length. now rewrite G.
  - intros c a b _ _ _ _ H. discriminate.
Qed.
Lemma agree_upd e e' x s d : agree e e' -> In x N -> agree (upd e (x, s) d) (upd e' (pv x, s) d).
Proof.
  intros H Hx y r Hy. unfold upd, var_eqb. cbn [fst snd]. destruct (String.eqb (pv x) (pv y)) eqn:E, (String.eqb x y) eqn:E'; cbn [andb]; try (now apply H).
  - destruct (String.eqb s r); [reflexivity | now apply H].
  - apply String.eqb_eq in E. apply Inj in E; try assumption. apply String.eqb_neq in E'. contradiction.
  - apply String.eqb_eq in E'. subst. rewrite String.eqb_refl in E. discriminate.
Qed.
Lemma qsem_agree q vs (k k' : env M -> bool) : forallb is_var vs = true -> incl (flat_map names_t vs) N -> (forall e e', agree e e' -> k' e' = k e) ->
  forall e e', agree e e' -> qsem M q (map canon_t vs) k' e' = qsem M q vs k e.
Proof.
  intros Hv Hi Hk. induction vs as [|v vs IH]; intros e e' He; [now apply Hk|]. cbn [forallb] in Hv. apply andb_true_iff in Hv as [Hv1 Hv2]. destruct v as [x s| | |]; try discriminate.
  assert (Hx : In x N) by (apply Hi; now left). assert (Hi' : incl (flat_map names_t vs) N) by (intros y Hy; apply Hi; now right).
  cbn [map canon_t qsem]. destruct q; [apply existsb_ext_in|apply forallb_ext_in]; intros d _; apply IH; auto using agree_upd.
Qed.
Lemma canon_sem : forall f B e e', agree e e' -> incl (names_f f) N -> wf f = true -> readable l B f = true -> fsem M (canon f) e' = fsem M f e.
Proof.
  destruct St as (_ & St1 & St2).
  refine (formula_ind_simple (fun f => forall B e e', agree e e' -> incl (names_f f) N -> wf f = true -> readable l B f = true -> fsem M (canon f) e' = fsem M f e) _ _ _ _ _).
  - reflexivity.
  - intros B e e' He Hi _ _. cbn. exact St1.
  - intros p ts B e e' He Hi _ H. assert (G : forallb (readable_t l B) ts = true -> map (fun u => tsem M u e') (map canon_t ts) = map (fun u => tsem M u e) ts).
    { intros R. rewrite map_map. apply map_ext_in. intros t Ht. apply (canon_t_sem B); [exact He| |rewrite forallb_forall in R; now apply R]. intros y Hy. apply Hi. cbn [names_f]. apply in_flat_map. now exists t. }
    destruct p as [p|n ss]; cbn [readable] in H.
    + destruct ts as [|x [|y [|z ts]]]; try discriminate. rewrite !andb_true_iff in H. destruct H as ((_ & H3) & H4).
      assert (G' : [tsem M (canon_t x) e'; tsem M (canon_t y) e'] = [tsem M x e; tsem M y e]) by (apply G; cbn; rewrite H3, H4; reflexivity).
      destruct p; cbn [canon map fsem]; rewrite cast2_sem, G'; try reflexivity. symmetry. apply St2.
    + rewrite !andb_true_iff in H. destruct H as (_ & H5). cbn [canon fsem]. rewrite G; [reflexivity|]. apply forallb_forall. intros t Ht. rewrite forallb_forall in H5. specialize (H5 t Ht). destruct (numeral t); [discriminate|exact H5].
  - intros c fs IH B e e' He Hi Hw H. cbn [readable] in H. cbn [wf] in Hw. apply andb_true_iff in Hw as [_ Hw]. rewrite forallb_forall in H, Hw. rewrite Forall_forall in IH.
    assert (G : forall g, In g fs -> fsem M (canon g) e' = fsem M g e). { intros g Hg. apply (IH g Hg B); auto. intros y Hy. apply Hi. cbn [names_f]. apply in_flat_map. now exists g. }
    cbn [canon]. destruct c; cbn [fsem].
    + clear -G. induction fs as [|g fs IHf]; [reflexivity|]. cbn [map forallb]. rewrite G by now left. f_equal. apply IHf. intros h Hh. apply G. now right.
    + clear -G. induction fs as [|g fs IHf]; [reflexivity|]. cbn [map existsb]. rewrite G by now left. f_equal. apply IHf. intros h Hh. apply G. now right.
    + destruct fs as [|g [|h fs]]; try reflexivity. cbn [map]. f_equal. apply G. now left.
  - intros q vs g IH B e e' He Hi Hw H. cbn [readable] in H. rewrite !andb_true_iff in H. destruct H as (_ & H4). cbn [wf] in Hw. rewrite !andb_true_iff in Hw. destruct Hw as ((_ & Hw2) & Hw3).
    cbn [canon fsem]. apply qsem_agree; [exact Hw2 | intros y Hy; apply Hi; cbn [names_f]; apply in_app_iff; now left | | exact He].
    intros e1 e2 H12. apply (IH (map printed_var vs ++ B)%list); auto. intros y Hy. apply Hi. cbn [names_f]. apply in_app_iff. now right.
Qed.
End Meaning.

Lemma in_scope_scope b B : in_scope b B -> scope b B.
Proof. intros [[-> ->]|[-> H]]; [reflexivity | now apply make_scope]. Qed.

(** ** C42 *)
(** The text of a printable formula can be read; what is read prints as the same text, and is true in the same structures: under an assignment of the variables as they are printed. *)
Theorem C42_round_trip : forall l B b f, (forall s, pl_sub l s s = true) -> wf f = true -> readable l B f = true -> in_scope b B ->
  exists text g, print_formula f = Ok text /\ parse_goal l b text = Ok g /\ print_formula g = Ok text /\
    (one_spelling f -> forall M (e e' : env M), standard M -> (forall x s, In x (names_f f) -> e' (print_variable_name x, s) = e (x, s)) -> fsem M g e' = fsem M f e).
Proof.
  intros l B b f Hr Hw H Hs. apply in_scope_scope in Hs. destruct (formula_trip l Hr f b B Hs Hw H) as (s & x & H1 & H2 & H3 & H4).
  exists s, (canon f). split; [exact H1|]. split; [unfold parse_goal; now rewrite (reads_phrase _ _ H2)|]. split; [exact H4|].
  intros O M e e' St He. apply (canon_sem l M St (names_f f) O f B e e'); auto using incl_refl.
Qed.
Print Assumptions C42_round_trip.

Lemma verbatim_t_canon l B t : readable_t l B t = true -> verbatim_t t = true -> canon_t t = t /\ numeral t = None.
Proof.
  revert t. refine (term_ind_nested (fun t => readable_t l B t = true -> verbatim_t t = true -> canon_t t = t /\ numeral t = None) (fun _ => True) _ _ _ _ _ _ _ _ _); try (intros; exact I).
  - intros x s _ H. cbn in H |- *. unfold print_variable_name. now rewrite H.
  - intros [n|z] s _ H; [split; reflexivity | discriminate].
  - intros f ts IH H V. split; [|reflexivity]. cbn [verbatim_t] in V. rewrite forallb_forall in V. rewrite Forall_forall in IH.
    assert (G : forallb (readable_t l B) ts = true -> map canon_t ts = ts /\ forall t, In t ts -> numeral t = None).
    { intros R. rewrite forallb_forall in R. split; [|intros t Ht; apply IH; auto]. rewrite <- (map_id ts) at 2. apply map_ext_in. intros t Ht. apply IH; auto. }
    destruct f as [o|n ss c]; cbn [readable_t] in H.
    + destruct ts as [|x [|y [|w ts]]]; try discriminate. rewrite !andb_true_iff in H. destruct H as ((_ & H4) & H5). destruct G as [G1 G2]; [cbn [forallb]; now rewrite H4, H5|]. cbn [canon_t]. rewrite G1. cbv iota. unfold cast2, recast. rewrite (G2 x), (G2 y) by (cbn; auto). reflexivity.
    + rewrite !andb_true_iff in H. destruct H as (((_ & H3) & _) & H5). apply Nat.eqb_eq in H3. destruct (G H5) as [G1 G2]. cbn [canon_t]. rewrite G1. f_equal.
      clear -H3 G2. revert ts H3 G2. induction ss as [|s ss IH]; intros [|t ts] H3 G2; try discriminate; [reflexivity|]. cbn [recast_all]. unfold recast. rewrite (G2 t) by now left. f_equal. apply IH; [now injection H3|]. intros u Hu. apply G2. now right.
  - intros c a b _ _ _ _ H. discriminate.
Qed.
Lemma verbatim_canon l : forall f B, wf f = true -> readable l B f = true -> verbatim f = true -> canon f = f.
Proof.
  refine (formula_ind_simple (fun f => forall B, wf f = true -> readable l B f = true -> verbatim f = true -> canon f = f) _ _ _ _ _).
  - reflexivity.
  - discriminate.
  - intros p ts B _ H V. cbn [verbatim] in V. apply andb_true_iff in V as [V1 V2]. rewrite forallb_forall in V2.
    assert (G : forallb (readable_t l B) ts = true -> map canon_t ts = ts /\ forall t, In t ts -> numeral t = None).
    { intros R. rewrite forallb_forall in R. split; [|intros t Ht; apply (verbatim_t_canon l B); auto]. rewrite <- (map_id ts) at 2. apply map_ext_in. intros t Ht. apply (verbatim_t_canon l B); auto. }
    destruct p as [p|n ss]; cbn [readable] in H.
    + destruct ts as [|x [|y [|z ts]]]; try discriminate. rewrite !andb_true_iff in H. destruct H as ((_ & H4) & H5). destruct G as [G1 G2]; [cbn [forallb]; now rewrite H4, H5|].
      cbn [canon]. rewrite G1. assert (C : cast2 x y = [x; y]) by (unfold cast2, recast; rewrite (G2 x), (G2 y) by (cbn; auto); reflexivity). destruct p; try discriminate; now rewrite C.
    + rewrite !andb_true_iff in H. destruct H as (_ & H5). cbn [canon]. destruct G as [G1 _]; [|now rewrite G1]. apply forallb_forall. intros t Ht. rewrite forallb_forall in H5. specialize (H5 t Ht). destruct (numeral t); [discriminate|exact H5].
  - intros c fs IH B Hw H V. cbn [readable verbatim wf] in *. apply andb_true_iff in Hw as [_ Hw]. rewrite forallb_forall in H, Hw, V. rewrite Forall_forall in IH. cbn [canon]. f_equal. rewrite <- (map_id fs) at 2. apply map_ext_in. intros g Hg. apply (IH g Hg B); auto.
  - intros q vs g IH B Hw H V. cbn [readable verbatim wf] in *. rewrite !andb_true_iff in H. rewrite !andb_true_iff in Hw. rewrite !andb_true_iff in V. destruct H as (_ & H4). destruct Hw as ((_ & Hw2) & Hw3). destruct V as [V1 V2]. cbn [canon]. f_equal; [|now apply (IH (map printed_var vs ++ B)%list)].
    rewrite <- (map_id vs) at 2. apply map_ext_in. intros v Hv. rewrite forallb_forall in Hw2, V1. specialize (Hw2 v Hv). specialize (V1 v Hv). destruct v; try discriminate. cbn in V1 |- *. unfold print_variable_name. now rewrite V1.
Qed.
(** Nothing changes when the variables are written with question marks and there are no numerals, inequalities and contradictions. *)
Theorem C42_same_formula : forall l B b f, (forall s, pl_sub l s s = true) -> wf f = true -> readable l B f = true -> verbatim f = true -> in_scope b B ->
  exists text, print_formula f = Ok text /\ parse_goal l b text = Ok f.
Proof.
  intros l B b f Hr Hw H V Hs. apply in_scope_scope in Hs. destruct (formula_trip l Hr f b B Hs Hw H) as (s & x & H1 & H2 & H3 & _).
  rewrite (verbatim_canon l f B Hw H V) in H3. exists s. split; [exact H1|]. unfold parse_goal. now rewrite (reads_phrase _ _ H2).
Qed.
Print Assumptions C42_same_formula.
(** Different such formulas never print as the same text. *)
Theorem C42_unambiguous : forall l B f g text, (forall s, pl_sub l s s = true) -> NoDup (map fst B) -> wf f = true -> wf g = true -> readable l B f = true -> readable l B g = true -> verbatim f = true -> verbatim g = true ->
  print_formula f = Ok text -> print_formula g = Ok text -> f = g.
Proof.
  intros l B f g text Hr Hn Wf Wg Rf Rg Vf Vg Pf Pg. assert (Hs : in_scope (Some (vb_make B)) B) by (right; auto).
  destruct (C42_same_formula l B _ f Hr Wf Rf Vf Hs) as (t & T1 & T2). destruct (C42_same_formula l B _ g Hr Wg Rg Vg Hs) as (t' & T1' & T2').
  rewrite Pf in T1. injection T1 as <-. rewrite Pg in T1'. injection T1' as <-. rewrite T2 in T2'. now injection T2'.
Qed.
Print Assumptions C42_unambiguous.

(** ** Printing succeeds on every well-formed formula without an if-then-else term. *)
Lemma mapM_cases {X Y} (f : X -> res Y) (p : X -> bool) (e : exn) xs : (forall x, In x xs -> if p x then f x = Err e else exists y, f x = Ok y) ->
  if existsb p xs then mapM f xs = Err e else exists ys, mapM f xs = Ok ys.
Proof.
  induction xs as [|x xs IH]; intros H; [exists []; reflexivity|]. cbn [existsb]. rewrite mapM_cons. pose proof (H x (or_introl eq_refl)) as Hx. specialize (IH (fun y Hy => H y (or_intror Hy))).
  destruct (p x); cbn [orb]; [now rewrite Hx|]. destruct Hx as (y & ->). cbn [bind]. destruct (existsb p xs); [now rewrite IH | destruct IH as (ys & ->); cbn [bind]; eexists; reflexivity].
Qed.
Lemma print_term_cases t : if has_ite_t t then print_term t = Err RuntimeError else exists s, print_term t = Ok s.
Proof.
  revert t. refine (term_ind_nested (fun t => if has_ite_t t then print_term t = Err RuntimeError else exists s, print_term t = Ok s) (fun _ => True) _ _ _ _ _ _ _ _ _); try (intros; exact I).
  - intros x s. cbn. eexists; reflexivity.
  - intros c s. cbn. eexists; reflexivity.
  - intros f ts IH. rewrite Forall_forall in IH. cbn [has_ite_t]. rewrite print_App. pose proof (mapM_cases print_term has_ite_t RuntimeError ts IH) as G.
    destruct (existsb has_ite_t ts); [now rewrite G | destruct G as (ss & ->); eexists; reflexivity].
  - reflexivity.
Qed.
Theorem C42_printing_errors : forall f, wf f = true -> (print_formula f = Err RuntimeError <-> has_ite f = true) /\ (has_ite f = false -> exists text, print_formula f = Ok text).
Proof.
  assert (G : forall f, wf f = true -> if has_ite f then print_formula f = Err RuntimeError else exists s, print_formula f = Ok s).
  { refine (formula_ind_simple _ _ _ _ _ _).
    - intros _. cbn. eexists; reflexivity.
    - intros _. cbn. eexists; reflexivity.
    - intros p ts _. cbn [has_ite print_formula]. unfold print_atom_of, print_term_list. pose proof (mapM_cases print_term has_ite_t RuntimeError ts (fun t _ => print_term_cases t)) as G.
      destruct (existsb has_ite_t ts); [now rewrite G | destruct G as (ss & ->); cbn [bind]; destruct p as [[]|]; eexists; reflexivity].
    - intros c fs IH Hw. cbn [wf] in Hw. apply andb_true_iff in Hw as [_ Hw]. rewrite forallb_forall in Hw. rewrite Forall_forall in IH. cbn [has_ite]. rewrite print_Comp.
      pose proof (mapM_cases print_formula has_ite RuntimeError fs (fun g Hg => IH g Hg (Hw g Hg))) as G. destruct (existsb has_ite fs); [now rewrite G | destruct G as (ss & ->); eexists; reflexivity].
    - intros q vs g IH Hw. cbn [wf] in Hw. rewrite !andb_true_iff in Hw. destruct Hw as ((_ & Hw2) & Hw3). specialize (IH Hw3). cbn [has_ite]. rewrite print_Quant.
      assert (V : exists v, print_variable_list vs = Ok v).
      { unfold print_variable_list. assert (G : exists sl, mapM print_variable vs = Ok sl); [|destruct G as (sl & ->); eexists; reflexivity]. apply SemLemmas.mapM_total. intros v Hv. rewrite forallb_forall in Hw2. specialize (Hw2 v Hv). destruct v; try discriminate. cbn. eexists; reflexivity. }
      destruct V as (v & ->). cbn [bind]. destruct (has_ite g); [now rewrite IH | destruct IH as (s & ->); cbn [bind]; eexists; reflexivity]. }
  intros f Hw. specialize (G f Hw). destruct (has_ite f); split.
  - tauto.
  - discriminate.
  - destruct G as (s & ->). split; discriminate.
  - intros _. exact G.
Qed.
Print Assumptions C42_printing_errors.

(** ** Examples *)
Definition LX : plang := {|
  pl_const := fun n => if mem n ["a"; "b"; "at-end"] then Some "thing" else None;
  pl_pred := fun n => if mem n ["p"; "at-end"] then Some ["thing"] else if String.eqb n "q" then Some ["Integer"] else if String.eqb n "r" then Some ["thing"; "object"] else None;
  pl_fun := fun n => if String.eqb n "f" then Some (["thing"], "Integer") else if String.eqb n "g" then Some (["Integer"; "thing"], "thing") else None;
  pl_sort := fun s => mem s ["object"; "thing"; "Real"; "Integer"];
  pl_sub := fun a b => String.eqb a b || String.eqb b "object" || (String.eqb a "Integer" && String.eqb b "Real");
  pl_num := fun s z => String.eqb s "Integer" || String.eqb s "Real";
  pl_cmp := fun _ => true; pl_arith := fun _ => true |}.
Lemma LX_refl s : pl_sub LX s s = true. Proof. cbn. now rewrite String.eqb_refl. Qed.
(** The integers, where every symbol of [LX] has some meaning *)
Definition MX : structure := {|
  carrier := Z; dom := fun s => [0%Z; 1%Z]; cint := fun c _ => match c with CInt z => z | CStr _ => 0%Z end;
  fint := fun _ vs => match vs with v :: _ => v | [] => 0%Z end;
  pint := fun p vs => match p, vs with PB PEq, [a; b] => Z.eqb a b | PB PNe, [a; b] => negb (Z.eqb a b) | PB PLt, [a; b] => Z.ltb a b | PU _ _, a :: _ => Z.eqb a 0 | _, _ => false end |}.
Lemma MX_standard : standard MX. Proof. split; [reflexivity|]. split; reflexivity. Qed.
(** forall x: p(?v) or not exists y: x != y and (f x) + 2 < (f (g 3 y)) and not false *)
Definition fX : formula :=
  Quant QAll [Var "x" "thing"] (Comp Or [Atom (PU "p" ["thing"]) [Var "?v" "thing"];
    Comp Not [Quant QEx [Var "?y" "thing"] (Comp And [Atom (PB PNe) [Var "x" "thing"; Var "?y" "thing"];
      Atom (PB PLt) [App (FB BAdd) [App (FU "f" ["thing"] "Integer") [Var "x" "thing"]; Cst (CInt 2) "Integer"];
                     App (FU "f" ["thing"] "Integer") [App (FU "g" ["Integer"; "thing"] "thing") [Cst (CInt (-3)) "Integer"; Var "?y" "thing"]]];
      Comp Not [Bot]])]]).
Definition bX : option vbind := Some (vb_make [("?v", "thing")]).
Example C42_nonvacuous : wf fX = true /\ readable LX [("?v", "thing")] fX = true /\ in_scope bX [("?v", "thing")] /\ one_spelling fX /\ standard MX /\
  print_formula fX = Ok "(forall (?x - thing) (or (p ?v) (not (exists (?y - thing) (and (not (= ?x ?y)) (< (+ (f ?x) 2) (f (g -3 ?y))) (not (= 0 1)))))))".
Proof.
  split; [reflexivity|]. split; [reflexivity|]. split; [right; split; [reflexivity | repeat constructor; intros []]|]. split; [|split; [exact MX_standard | reflexivity]].
  intros x y Hx Hy. cbn in Hx, Hy. repeat (destruct Hx as [<-|Hx]; [repeat (destruct Hy as [<-|Hy]; [intros E; vm_compute in E; congruence|]); destruct Hy|]). destruct Hx.
Qed.
Definition fV : formula := Quant QEx [Var "?y" "thing"] (Comp And [Atom (PU "r" ["thing"; "object"]) [Var "?y" "thing"; Cst (CStr "a") "thing"]; Comp Not [Atom (PB PEq) [Var "?y" "thing"; Cst (CStr "b") "thing"]]]).
Example C42_same_nonvacuous : wf fV = true /\ readable LX [] fV = true /\ verbatim fV = true /\ in_scope None [] /\ parse_goal LX None "(exists (?y - thing) (and (r ?y a) (not (= ?y b))))" = Ok fV.
Proof. repeat split. left. auto. Qed.

(** ** What cannot be read again: each formula is printed, but the text is rejected, in a language that has all its symbols. *)
Definition rejected (l : plang) (f : formula) (e : exn) : Prop := wf f = true /\ exists text, print_formula f = Ok text /\ parse_goal l None text = Err e.
(** A number as the argument of a predicate (it is accepted as the argument of a function) *)
Theorem C42_numeric_argument_refuted : pl_pred LX "q" = Some ["Integer"] /\ rejected LX (Atom (PU "q" ["Integer"]) [Cst (CInt 3) "Integer"]) LanguageError.
Proof. split; [reflexivity|]. split; [reflexivity|]. exists "(q 3)". split; reflexivity. Qed.
(** A variable of a sort with an upper-case name, such as Integer *)
Theorem C42_sort_name_refuted : pl_sort LX "Integer" = true /\ rejected LX (Quant QAll [Var "x" "Integer"] (Atom (PU "q" ["Integer"]) [Var "x" "Integer"])) UndefinedElement.
Proof. split; [reflexivity|]. split; [reflexivity|]. exists "(forall (?x - Integer) (q ?x))". split; reflexivity. Qed.
(** A name that is a word of the grammar *)
Theorem C42_reserved_name_refuted : pl_const LX "at-end" = Some "thing" /\ pl_pred LX "at-end" = Some ["thing"] /\ rejected LX (Atom (PU "at-end" ["thing"]) [Cst (CStr "a") "thing"]) SyntaxError /\
  rejected LX (Atom (PU "p" ["thing"]) [Cst (CStr "at-end") "thing"]) SyntaxError.
Proof. split; [reflexivity|]. split; [reflexivity|]. split; (split; [reflexivity|]); eexists; split; reflexivity. Qed.
(** A symbol with an upper-case letter, even if the language has it *)
Definition LU : plang := {| pl_const := pl_const LX; pl_pred := fun n => if String.eqb n "On" then Some ["thing"] else None; pl_fun := pl_fun LX; pl_sort := pl_sort LX; pl_sub := pl_sub LX; pl_num := pl_num LX; pl_cmp := pl_cmp LX; pl_arith := pl_arith LX |}.
Theorem C42_upper_case_refuted : pl_pred LU "On" = Some ["thing"] /\ rejected LU (Atom (PU "On" ["thing"]) [Cst (CStr "a") "thing"]) UndefinedElement.
Proof. split; [reflexivity|]. split; [reflexivity|]. eexists; split; reflexivity. Qed.
(** A quantifier that binds a name that is bound already *)
Theorem C42_rebinding_refuted : rejected LX (Quant QAll [Var "?x" "thing"] (Comp Or [Atom (PU "p" ["thing"]) [Var "?x" "thing"]; Quant QEx [Var "?x" "thing"] (Atom (PU "p" ["thing"]) [Var "?x" "thing"])])) DuplicateVariable.
Proof. split; [reflexivity|]. eexists; split; reflexivity. Qed.
(** The contradiction, in a language without integers *)
Definition LN : plang := {| pl_const := pl_const LX; pl_pred := pl_pred LX; pl_fun := pl_fun LX; pl_sort := fun s => mem s ["object"; "thing"]; pl_sub := pl_sub LX; pl_num := fun _ _ => false; pl_cmp := pl_cmp LX; pl_arith := fun _ => false |}.
Theorem C42_contradiction_refuted : rejected LN Bot UndefinedElement.
Proof. split; [reflexivity|]. eexists; split; reflexivity. Qed.
(** The power and remainder operators *)
Theorem C42_operator_refuted : rejected LX (Atom (PB PLt) [App (FB (BOther "**")) [Cst (CInt 2) "Integer"; Cst (CInt 3) "Integer"]; Cst (CInt 9) "Integer"]) SyntaxError.
Proof. split; [reflexivity|]. eexists; split; reflexivity. Qed.
(** With two spellings of a variable's name the text can mean something else: x = ?x becomes ?x = ?x. *)
Theorem C42_two_spellings_refuted : exists f text g, wf f = true /\ readable LX [("?x", "thing")] f = true /\ print_formula f = Ok text /\ parse_goal LX (Some (vb_make [("?x", "thing")])) text = Ok g /\
  exists M (e : env M), standard M /\ fsem M f e = false /\ forall e', fsem M g e' = true.
Proof.
  exists (Atom (PB PEq) [Var "x" "thing"; Var "?x" "thing"]), "(= ?x ?x)", (Atom (PB PEq) [Var "?x" "thing"; Var "?x" "thing"]). split; [reflexivity|]. split; [reflexivity|]. split; [reflexivity|]. split; [reflexivity|].
  exists MX, (fun v => if String.eqb (fst v) "x" then 0%Z else 1%Z). split; [exact MX_standard|]. split; [reflexivity|]. intros e'. cbn. apply Z.eqb_refl.
Qed.
Print Assumptions C42_two_spellings_refuted.
