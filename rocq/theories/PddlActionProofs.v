(** What the reader makes of printed effects and actions *)
From Coq Require Import Ascii DecimalString.
From Verif Require Import Base Syntax Semantics SemLemmas ListUtil Asp ModelText ModelState ModelProofs Effects Represent Costs Build Index PropsGrounding PddlText PddlRead PddlSpec PddlProofs PddlProofs2 PropsPddl
  PddlAction PddlActionSpec.
Local Open Scope string_scope.

(** ** White space *)
Ltac key := apply key_reads; [discriminate|reflexivity|reflexivity].
Lemma reads_lead c s xs : is_space c = true -> reads s xs -> reads (String c s) xs.
Proof.
  intros Hc (ws & ts & W & T & B). exists ws, ts. split; [|split; assumption]. intros d r Hd. cbn [String.append words]. rewrite Hc. cbn [flush app]. now apply W.
Qed.
Lemma reads_leads w s xs : all_chars is_space w = true -> reads s xs -> reads (w ++ s) xs.
Proof. induction w as [|c w IH]; cbn [all_chars String.append]; [auto|]. rewrite andb_true_iff. intros [H1 H2] H. apply reads_lead; auto. Qed.
Lemma reads_trail c s xs : is_space c = true -> reads s xs -> reads (s ++ String c "") xs.
Proof.
  intros Hc (ws & ts & W & T & B). exists ws, ts. split; [|split; assumption]. intros d r Hd. rewrite sapp_assoc. cbn [String.append]. rewrite W by (unfold delim; now rewrite Hc).
  f_equal. cbn [words]. now rewrite Hc.
Qed.
Lemma reads_trails w s xs : all_chars is_space w = true -> reads s xs -> reads (s ++ w) xs.
Proof.
  revert s. induction w as [|c w IH]; cbn [all_chars]; intros s; [now rewrite sapp_nil|]. rewrite andb_true_iff. intros [H1 H2] H.
  replace (s ++ String c w) with ((s ++ String c "") ++ w) by (rewrite sapp_assoc; reflexivity). apply IH; [exact H2|]. now apply reads_trail.
Qed.
Lemma reads_gap w a b xs ys : w <> "" -> all_chars is_space w = true -> reads a xs -> reads b ys -> reads (a ++ w ++ b) (xs ++ ys)%list.
Proof.
  destruct w as [|c w]; [congruence|]. cbn [all_chars]. intros _ H Ha Hb. apply andb_true_iff in H as [Hc Hw]. apply (reads_leads w) in Hb; [|exact Hw].
  destruct Ha as (ws & ts & W & T & B), Hb as (ws' & ts' & W' & T' & B'). exists (ws ++ ws')%list, (ts ++ ts')%list. split; [|split].
  - intros d r Hd. rewrite sapp_assoc. cbn [String.append]. rewrite W by (unfold delim; now rewrite Hc). rewrite <- app_assoc. f_equal.
    cbn [words]. rewrite Hc. cbn [flush app]. now apply W'.
  - now apply Forall2_app.
  - intros r acc st. rewrite <- app_assoc, B, B', rev_app_distr, app_assoc. reflexivity.
Qed.
Lemma tabs_space n : all_chars is_space (tabs n) = true.
Proof. induction n as [|n IH]; [reflexivity|]. cbn [tabs]. cbn. exact IH. Qed.
Lemma reads_indent s n xs : reads s xs -> reads (indent s n) xs.
Proof. unfold indent. apply reads_leads, tabs_space. Qed.
Lemma reads_join_gap w ss xs : w <> "" -> all_chars is_space w = true -> Forall2 (fun s x => reads s [x]) ss xs -> reads (join w ss) xs.
Proof.
  intros Hn Hw H. induction H as [|s x ss xs Hx H IH]; [exact reads_nil|].
  destruct ss as [|s' ss]; [inversion H; subst; exact Hx|].
  change (join w (s :: s' :: ss)) with (s ++ w ++ join w (s' :: ss)). apply (reads_gap w _ _ [x]); assumption.
Qed.

(** ** Effects *)
Fixpoint canon_e (e : effect) : effect :=
  match e with
  | EAdd c a => EAdd (canon c) (canon a)
  | EDel c a => EDel (canon c) (canon a)
  | EFun inc c lhs rhs => EFun false (canon c) (canon_t lhs) (if inc then App (FB BAdd) (cast2 (canon_t lhs) (canon_t rhs)) else recast (sort_of lhs) (canon_t rhs))
  | EUni c vs es => EUni Top (map canon_t vs) (map canon_e es)
  | ELit c a => ELit c a
  | EOther c => EOther c
  end.
Fixpoint increases (e : effect) : bool := match e with EFun inc _ _ _ => inc | EUni _ _ es => existsb increases es | _ => false end.
(** The text of an effect without its condition *)
Definition uncond (e : effect) (n : nat) : res string :=
  match e with
  | EFun inc _ l r => let! sl := print_term l in let! sr := print_term r in Ok (indent ((if inc then "(increase " else "(assign ") ++ sl ++ " " ++ sr ++ ")") n)
  | EAdd _ a => let! s := print_atom a in Ok (indent s n)
  | EDel _ a => let! s := print_atom a in Ok (indent ("(not " ++ s ++ ")") n)
  | EUni _ vs es => let! body := match es with
                                 | [] => Ok "(and )"
                                 | [e1] => print_effect e1 0
                                 | _ => let! l := mapM (fun x => print_effect x 1) es in Ok ("(and" ++ newline ++ join newline l ++ ")")
                                 end in
                    let! v := print_variable_list vs in Ok (indent ("(forall (" ++ v ++ ") " ++ body ++ ")") n)
  | ELit _ _ | EOther _ => Err RuntimeError
  end.
Lemma print_effect_eq e n : print_effect e n =
  if PddlText.is_top (econd e) then uncond e n else let! c := print_formula (econd e) in let! s := uncond e 0 in Ok (indent ("(when " ++ c ++ " " ++ s ++ ")") n).
Proof. destruct e; reflexivity. Qed.
(** A phrase that can only be an atomic effect *)
Definition atomic (x : sexp) : bool :=
  match x with L (A (TName _) :: _) => true | L (A (TKey k) :: _) => negb (String.eqb k "and") && negb (String.eqb k "forall") && negb (String.eqb k "when") | _ => false end.
Lemma atomic_single l b x : atomic x = true -> read_single_effect l b x = (let! e := read_atomic_effect l b x in Ok [e]).
Proof.
  destruct x as [t|[|[t|y] r]]; try discriminate. cbn [atomic]. destruct t; try discriminate; [|reflexivity].
  rewrite !andb_true_iff, !negb_true_iff. intros [[H1 H2] H3]. destruct r as [|y [|z [|w r]]]; try reflexivity. cbn [read_single_effect]. rewrite H2, H3. reflexivity.
Qed.
Lemma atomic_rule f x : atomic x = true -> effect_rule f x = f x.
Proof.
  destruct x as [t|[|[t|y] r]]; try discriminate. cbn [atomic]. destruct t; try discriminate; [|reflexivity].
  rewrite !andb_true_iff, !negb_true_iff. intros [[H1 H2] H3]. cbn [effect_rule]. now rewrite H1.
Qed.
Lemma read_when l b xc x : atomic x = true -> read_single_effect l b (L [A (TKey "when"); xc; x]) = (let! e := read_atomic_effect l b x in let! c := read_goal l b xc in Ok [with_condition c e]).
Proof.
  intros H. cbn [read_single_effect]. change (String.eqb "when" "forall") with false. change (String.eqb "when" "when") with true. cbv iota.
  destruct x as [t|[|[t|y] r]]; try discriminate. cbn [atomic] in H. destruct t; try discriminate; [|reflexivity].
  rewrite !andb_true_iff, !negb_true_iff in H. destruct H as [[H1 H2] H3]. now rewrite H1.
Qed.
Lemma canon_top c : wf c = true -> PddlText.is_top (canon c) = PddlText.is_top c.
Proof. destruct c as [| |p ts|c fs|q vs g]; try reflexivity. intros _. cbn [canon]. destruct p as [[]|n ss]; destruct (map canon_t ts) as [|x [|y [|z r]]]; reflexivity. Qed.

Section TripE.
Variable l : plang.
Hypothesis Hrefl : forall s, pl_sub l s s = true.

Definition trip_e (b : option vbind) (e : effect) : Prop :=
  exists s x, (forall n, print_effect e n = Ok (indent s n)) /\ reads s [x] /\ read_single_effect l b x = Ok [canon_e e] /\ effect_rule (read_single_effect l b) x = Ok [canon_e e] /\
              (increases e = false -> forall n, print_effect (canon_e e) n = Ok (indent s n)).
Definition basic (e : effect) : bool := match e with EAdd _ _ | EDel _ _ | EFun _ _ _ _ => true | _ => false end.

Lemma basic_trip b B e : scope b B -> basic e = true -> readable_e l B e = true ->
  exists s x, (forall n, uncond e n = Ok (indent s n)) /\ reads s [x] /\ atomic x = true /\ read_atomic_effect l b x = Ok (with_condition Top (canon_e e)) /\
              (increases e = false -> forall n, uncond (canon_e e) n = Ok (indent s n)).
Proof.
  intros Hs Hb H.
  assert (At : forall a, user_atom a = true -> formula_ok l B a = true -> exists s p args, print_atom a = Ok s /\ reads s [L (A (TName p) :: args)] /\ read_atom l b p args = Ok (canon a) /\ print_atom (canon a) = Ok s).
  { intros a Ha Hr. destruct a as [| |[p|n ss] ts| |]; try discriminate. unfold formula_ok in Hr. apply andb_true_iff in Hr as [Hw Hr]. destruct (formula_trip l Hrefl (Atom (PU n ss) ts) b B Hs Hw Hr) as (s & x & P & R & G & P').
    cbn [readable] in Hr. rewrite !andb_true_iff in Hr. destruct Hr as ((((H1 & H2) & H3) & H4) & H5).
    cbn [canon] in G, P'. cbn [print_formula] in P. cbn [print_formula] in P'. cbn [print_atom canon].
    unfold print_atom_of in P. destruct (print_term_list ts) as [sl|] eqn:Et; cbn [bind] in P; [|discriminate]. injection P as <-.
    assert (F : Forall (trip_t l b) ts). { rewrite forallb_forall in H5. apply Forall_forall. intros t Ht. apply (term_trip l Hrefl _ _ Hs). specialize (H5 t Ht). destruct (numeral t); [discriminate | exact H5]. }
    destruct (trip_list l b ts F) as (sl' & xs & L1 & L2 & L3 & L4). unfold print_term_list in Et. rewrite L1 in Et. cbn [bind] in Et. injection Et as <-.
    assert (R2 : reads ("(" ++ n ++ " " ++ join " " sl' ++ ")") [L (A (TName n) :: xs)]) by (apply reads_form; [now apply name_reads | now apply reads_join]).
    assert (E : x = L (A (TName n) :: xs)). { pose proof (reads_phrase _ _ R) as Q1. pose proof (reads_phrase _ _ R2) as Q2. cbn [String.append] in Q1, Q2. rewrite Q1 in Q2. now injection Q2. }
    subst x. exists ("(" ++ n ++ " " ++ join " " sl' ++ ")"), n, xs. split; [unfold print_atom_of, print_term_list; now rewrite L1|]. split; [exact R2|]. split; [exact G|]. exact P'. }
  destruct e as [c a|c a|inc c lhs rhs|c vs es|c a|c]; try discriminate; cbn [readable_e] in H.
  - rewrite !andb_true_iff in H. destruct H as ((H1 & H2) & H3). destruct (At a H2 H3) as (s & p & args & P & R & G & P'). exists s, (L (A (TName p) :: args)).
    split; [intros n; cbn [uncond]; now rewrite P|]. split; [exact R|]. split; [reflexivity|]. split; [cbn [read_atomic_effect]; now rewrite G|]. intros _ n. cbn [uncond canon_e]. now rewrite P'.
  - rewrite !andb_true_iff in H. destruct H as ((H1 & H2) & H3). destruct (At a H2 H3) as (s & p & args & P & R & G & P'). exists ("(not " ++ s ++ ")"), (L [A (TKey "not"); L (A (TName p) :: args)]).
    split; [intros n; cbn [uncond]; now rewrite P|]. split; [change ("(not " ++ s ++ ")") with ("(" ++ "not" ++ " " ++ s ++ ")"); apply reads_form; [key | exact R]|]. split; [reflexivity|].
    split; [cbn [read_atomic_effect]; change (String.eqb "not" "not") with true; cbv iota; now rewrite G|]. intros _ n. cbn [uncond canon_e]. now rewrite P'.
  - rewrite !andb_true_iff in H. destruct H as ((((H1 & H2) & H3) & H4) & H5).
    destruct (term_trip l Hrefl _ _ Hs _ H3) as (sl & xl & L1 & L2 & L3 & L4 & L5). destruct (term_trip l Hrefl _ _ Hs _ H4) as (sr & xr & R1 & R2 & R3 & R4 & R5).
    set (k := if inc then "increase" else "assign").
    assert (T : (if inc then "(increase " else "(assign ") ++ sl ++ " " ++ sr ++ ")" = "(" ++ k ++ " " ++ (sl ++ " " ++ sr) ++ ")") by (unfold k; destruct inc; cbn; now rewrite !sapp_assoc).
    exists ("(" ++ k ++ " " ++ (sl ++ " " ++ sr) ++ ")"), (L [A (TKey k); xl; xr]).
    split; [intros n; cbn [uncond]; rewrite L1, R1; cbn [bind]; now rewrite T|].
    split; [apply reads_form; [unfold k; destruct inc; key | exact (reads_space _ _ [xl] [xr] L2 R2)]|]. split; [unfold k; destruct inc; reflexivity|].
    destruct lhs as [| |f ts|]; try discriminate. cbn [is_compound] in L3.
    assert (V : val (App f ts) = VTerm (canon_t (App f ts))) by reflexivity.
    split.
    + cbn [read_atomic_effect]. rewrite L3. unfold k. destruct inc.
      * change (String.eqb "increase" "assign") with false. change (assign_op "increase") with (Some BAdd). cbv iota. rewrite L4, R4, V. cbn [bind].
        apply andb_true_iff in H5 as [H5 H6]. destruct (cast_operands_ok l _ _ _ H6) as (u & w & C1 & C2 & C3). rewrite V in C1. unfold make_arith. rewrite H5, C1. cbn [bind fst snd]. unfold make_app.
        assert (C3' : check_sorts l [u; w] ["Real"; "Real"] = Ok tt) by exact C3. rewrite C3'. cbn [bind]. rewrite C2. reflexivity.
      * change (String.eqb "assign" "assign") with true. cbv iota. rewrite L4, R4, V. cbn [bind]. unfold make_assignment. change (is_compound (canon_t (App f ts))) with true. cbv iota.
        cbn [canon_e with_condition]. unfold recast. rewrite numeral_canon. unfold val, cast_number. destruct (numeral rhs) as [z|]; [|reflexivity]. rewrite sort_canon, H5. reflexivity.
    + cbn [increases]. intros -> n. cbn [canon_e uncond]. rewrite L5, print_recast, R5. cbn [bind]. unfold k. cbn. now rewrite !sapp_assoc.
Qed.
Lemma effects_text b es : Forall (trip_e b) es -> exists ss xs, (forall n, mapM (fun e => print_effect e n) es = Ok (map (fun s => indent s n) ss)) /\ Forall2 (fun s x => reads s [x]) ss xs /\
  mapM (read_single_effect l b) xs = Ok (map (fun e => [canon_e e]) es) /\ (existsb increases es = false -> forall n, mapM (fun e => print_effect e n) (map canon_e es) = Ok (map (fun s => indent s n) ss)).
Proof.
  induction 1 as [|e es (s & x & P & R & G & _ & Q) _ (ss & xs & I1 & I2 & I3 & I4)]; [exists [], []; repeat split; constructor|].
  exists (s :: ss), (x :: xs). split; [intros n; rewrite mapM_cons, P, I1; reflexivity|]. split; [now constructor|]. split; [rewrite mapM_cons, G, I3; reflexivity|].
  cbn [existsb map]. rewrite orb_false_iff. intros [N1 N2] n. rewrite mapM_cons, Q, I4 by assumption. reflexivity.
Qed.
Lemma concat_single es : List.concat (map (fun e => [canon_e e]) es) = map canon_e es.
Proof. induction es as [|e es IH]; [reflexivity|]. cbn. now rewrite IH. Qed.
Lemma indented n ss xs : Forall2 (fun s x => reads s [x]) ss xs -> Forall2 (fun s x => reads s [x]) (map (fun s => indent s n) ss) xs.
Proof. induction 1; cbn [map]; constructor; auto using reads_indent. Qed.
Lemma and_reads s xs : reads s xs -> reads ("(and" ++ newline ++ s ++ ")") [L (A (TKey "and") :: xs)].
Proof.
  intros H. change ("(and" ++ newline ++ s ++ ")") with ("(" ++ ("and" ++ (newline ++ (s ++ ")")))).
  replace ("(" ++ ("and" ++ (newline ++ (s ++ ")")))) with ("(" ++ ("and" ++ newline ++ s) ++ ")") by (now rewrite !sapp_assoc).
  apply reads_bracket. apply (reads_gap newline _ _ [A (TKey "and")]); [discriminate|reflexivity|key|exact H].
Qed.

Lemma effect_trip : forall e b B, scope b B -> readable_e l B e = true -> trip_e b e.
Proof.
  assert (Basic : forall e b B, scope b B -> basic e = true -> readable_e l B e = true -> trip_e b e).
  { intros e b B Hs Hb H. destruct (basic_trip b B e Hs Hb H) as (s & x & P & R & At & G & Q).
    assert (C : wf (econd e) = true /\ readable l B (econd e) = true).
    { destruct e; try discriminate; cbn [readable_e] in H; rewrite !andb_true_iff in H; cbn [econd]; unfold formula_ok in H; rewrite ?andb_true_iff in H; tauto. }
    destruct C as [Cw Cr]. assert (Ec : econd (canon_e e) = canon (econd e)) by (destruct e; try discriminate; reflexivity).
    assert (W : with_condition (canon (econd e)) (with_condition Top (canon_e e)) = canon_e e) by (destruct e; try discriminate; reflexivity).
    unfold trip_e. destruct (PddlText.is_top (econd e)) eqn:T.
    - exists s, x. split; [intros n; rewrite print_effect_eq, T; apply P|]. split; [exact R|].
      assert (E : with_condition Top (canon_e e) = canon_e e). { destruct (econd e) eqn:X; try discriminate. destruct e; try discriminate; cbn [econd] in X; subst; reflexivity. }
      rewrite E in G. split; [rewrite atomic_single, G by exact At; reflexivity|]. split; [rewrite atomic_rule, atomic_single, G by exact At; reflexivity|].
      intros N n. rewrite print_effect_eq, Ec, canon_top, T by exact Cw. now apply Q.
    - destruct (formula_trip l Hrefl _ _ _ Hs Cw Cr) as (sc & xc & P1 & R1 & G1 & Q1). exists ("(when " ++ sc ++ " " ++ s ++ ")"), (L [A (TKey "when"); xc; x]).
      split; [intros n; rewrite print_effect_eq, T, P1, P; reflexivity|].
      split; [replace ("(when " ++ sc ++ " " ++ s ++ ")") with ("(" ++ "when" ++ " " ++ (sc ++ " " ++ s) ++ ")") by (cbn; now rewrite !sapp_assoc); apply reads_form; [key | exact (reads_space _ _ [xc] [x] R1 R)]|].
      assert (E : read_single_effect l b (L [A (TKey "when"); xc; x]) = Ok [canon_e e]) by (rewrite read_when, G, G1 by exact At; cbn [bind]; now rewrite W).
      split; [exact E|]. split; [cbn [effect_rule]; change (String.eqb "when" "and") with false; cbv iota; exact E|].
      intros N n. rewrite print_effect_eq, Ec, canon_top, T, Q1, Q by assumption. reflexivity. }
  refine (effect_ind_nested _ _ _ _ _ _ _).
  - intros c a b B Hs H. apply (Basic _ b B Hs); [reflexivity | exact H].
  - intros c a b B Hs H. apply (Basic _ b B Hs); [reflexivity | exact H].
  - intros i c x y b B Hs H. apply (Basic _ b B Hs); [reflexivity | exact H].
  - intros c vs es IH b B Hs H. cbn [readable_e] in H. rewrite !andb_true_iff in H. destruct H as ((H1 & H2) & H3). destruct c; try discriminate.
    unfold declarable in H2. rewrite !andb_true_iff in H2. destruct H2 as ((V & D) & N).
    destruct (vars_trip l vs V) as (sv & xv & V1 & V2 & V3 & V4 & _). apply distinct_NoDup in D.
    destruct (push_scope b B (map printed_var vs) Hs D) as (b' & P1 & P2).
    { intros y Hy. apply in_map_iff in Hy as (v & <- & Hv). apply in_map_iff in Hv as (t & <- & Ht). rewrite forallb_forall in N. specialize (N t Ht). destruct (bound_to B (fst (printed_var t))); [discriminate|reflexivity]. }
    assert (F : Forall (trip_e b') es). { rewrite forallb_forall in H3. rewrite Forall_forall in IH |- *. intros e He. apply (IH e He b' _ P2). auto. }
    assert (Body : exists sb xb, match es with [] => Ok "(and )" | [e1] => print_effect e1 0 | _ => let! l := mapM (fun x => print_effect x 1) es in Ok ("(and" ++ newline ++ join newline l ++ ")") end = Ok sb /\
        reads sb [xb] /\ effect_rule (read_single_effect l b') xb = Ok (map canon_e es) /\
        (existsb increases es = false -> match map canon_e es with [] => Ok "(and )" | [e1] => print_effect e1 0 | _ => let! l := mapM (fun x => print_effect x 1) (map canon_e es) in Ok ("(and" ++ newline ++ join newline l ++ ")") end = Ok sb)).
    { destruct (effects_text b' es F) as (ss & xs & T1 & T2 & T3 & T4). destruct es as [|e1 [|e2 es]].
      - exists "(and )", (L [A (TKey "and")]). split; [reflexivity|]. split; [change "(and )" with ("(" ++ "and" ++ " " ++ "" ++ ")"); apply (reads_form "and" (TKey "and") "" []); [key | exact reads_nil]|]. split; reflexivity.
      - inversion F as [|? ? (s & x & P & R & _ & G & Q) _]; subst. exists s, x. split; [exact (P 0)|]. split; [exact R|]. split; [exact G|]. cbn [existsb map]. rewrite orb_false_r. intros Hi. exact (Q Hi 0).
      - exists ("(and" ++ newline ++ join newline (map (fun s => indent s 1) ss) ++ ")"), (L (A (TKey "and") :: xs)). split; [now rewrite (T1 1)|].
        split; [apply and_reads, reads_join_gap; [discriminate|reflexivity|now apply indented]|].
        split; [cbn [effect_rule]; change (String.eqb "and" "and") with true; cbv iota; rewrite T3; cbn [bind]; now rewrite concat_single|].
        intros Hi. specialize (T4 Hi 1). cbn [map] in T4 |- *. now rewrite T4. }
    destruct Body as (sb & xb & B1 & B2 & B3 & B4).
    exists ("(forall (" ++ sv ++ ") " ++ sb ++ ")"), (L [A (TKey "forall"); L xv; xb]).
    split; [intros n; rewrite print_effect_eq; cbn [econd PddlText.is_top uncond]; rewrite B1, V1; reflexivity|].
    split.
    { replace ("(forall (" ++ sv ++ ") " ++ sb ++ ")") with ("(" ++ "forall" ++ " " ++ (("(" ++ sv ++ ")") ++ " " ++ sb) ++ ")") by (cbn; now rewrite !sapp_assoc).
      apply reads_form; [key|]. apply (reads_space _ _ [L xv]); [now apply reads_bracket | exact B2]. }
    assert (E : read_single_effect l b (L [A (TKey "forall"); L xv; xb]) = Ok [canon_e (EUni Top vs es)]).
    { cbn [read_single_effect]. change (String.eqb "forall" "forall") with true. cbv iota. rewrite V3. cbn [bind]. rewrite P1. cbn [bind]. rewrite B3. cbn [bind canon_e].
      do 3 f_equal. rewrite map_map. apply map_ext_in. intros v Hv. rewrite forallb_forall in V. specialize (V v Hv). destruct v; try discriminate. reflexivity. }
    split; [exact E|]. split; [cbn [effect_rule]; change (String.eqb "forall" "and") with false; cbv iota; exact E|].
    cbn [increases]. intros Hi n. rewrite print_effect_eq. cbn [canon_e econd PddlText.is_top uncond]. specialize (B4 Hi). rewrite B4, V4. reflexivity.
  - intros c a b B Hs H. discriminate.
  - intros c b B Hs H. discriminate.
Qed.
End TripE.
