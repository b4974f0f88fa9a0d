(** What the reader makes of a printed term or formula *)
From Coq Require Import Ascii DecimalString.
From Verif Require Import Base Syntax Semantics SemLemmas ListUtil Asp ModelText ModelState ModelProofs Effects Build Index PropsGrounding PddlText PddlRead PddlSpec PddlProofs.
Local Open Scope string_scope.

Notation pv := print_variable_name.
Definition recast (s : sort) (t : term) : term := match numeral t with Some z => Cst (CInt z) s | None => t end.
Fixpoint recast_all (ss : list sort) (ts : list term) : list term := match ss, ts with s :: ss', t :: ts' => recast s t :: recast_all ss' ts' | _, _ => [] end.
Definition cast2 (x y : term) : list term :=
  match numeral x, numeral y with
  | Some z, Some z' => [Cst (CInt z) "Integer"; Cst (CInt z') "Integer"]
  | _, _ => [recast (sort_of y) x; recast (sort_of x) y]
  end.
Fixpoint canon_t (t : term) : term :=
  match t with
  | Var x s => Var (pv x) s
  | Cst c s => Cst c s
  | App f ts => App f (match f, map canon_t ts with FU _ ss _, us => recast_all ss us | FB _, [x; y] => cast2 x y | FB _, us => us end)
  | Ite c a b => Ite c a b
  end.
Fixpoint canon (f : formula) : formula :=
  match f with
  | Top => Top
  | Bot => Atom (PB PEq) [Cst (CInt 0) "Integer"; Cst (CInt 1) "Integer"]
  | Atom p ts => match p, map canon_t ts with
                 | PB PNe, [x; y] => Comp Not [Atom (PB PEq) (cast2 x y)]
                 | PB _, [x; y] => Atom p (cast2 x y)
                 | _, us => Atom p us
                 end
  | Comp c fs => Comp c (map canon fs)
  | Quant q vs g => Quant q (map canon_t vs) (canon g)
  end.
Definition val (t : term) : tval := match numeral t with Some z => VNum z | None => VTerm (canon_t t) end.
Lemma numeral_canon t : numeral (canon_t t) = numeral t.
Proof. destruct t as [x s|[n|z] s|f ts|c a b]; reflexivity. Qed.
Lemma sort_canon t : sort_of (canon_t t) = sort_of t.
Proof. destruct t as [x s|c s|[b|n ss c] ts|c a b]; reflexivity. Qed.
Lemma print_recast s t : print_term (recast s t) = print_term t.
Proof. unfold recast. destruct t as [x r|[n|z] r|f ts|c a b]; reflexivity. Qed.
Lemma cast2_cases x y : exists s s', cast2 x y = [recast s x; recast s' y].
Proof. unfold cast2. destruct (numeral x) as [z|] eqn:E, (numeral y) as [z'|] eqn:E'; try (now eexists; eexists; reflexivity). exists "Integer", "Integer". unfold recast. now rewrite E, E'. Qed.
Lemma print_App f ts : print_term (App f ts) = (let! l := mapM print_term ts in Ok ("(" ++ fsym_text f ++ " " ++ join " " l ++ ")")).
Proof. reflexivity. Qed.
Lemma print_cast2 x y : mapM print_term (cast2 x y) = mapM print_term [x; y].
Proof. destruct (cast2_cases x y) as (s & s' & ->). rewrite !mapM_cons, !print_recast. reflexivity. Qed.
Lemma print_recast_all ss us : List.length us = List.length ss -> mapM print_term (recast_all ss us) = mapM print_term us.
Proof.
  revert us. induction ss as [|s ss IH]; intros [|u us] H; try discriminate; [reflexivity|]. cbn [recast_all]. rewrite !mapM_cons, print_recast, IH; [reflexivity|]. cbn in H. lia.
Qed.

Section Trip.
Variable l : plang.
Hypothesis Hrefl : forall s, pl_sub l s s = true.

(** The binding [b] has exactly the variables of [B]. *)
Definition scope (b : option vbind) (B : list var) : Prop :=
  match b with None => B = [] | Some vb => forall x, dget String.eqb (vb_variables vb) x = option_map (fun s => (x, s)) (bound_to B x) end.
Definition trip_t (b : option vbind) (t : term) : Prop :=
  exists s x, print_term t = Ok s /\ reads s [x] /\ is_list x = is_compound t /\ read_term l b x = Ok (val t) /\ print_term (canon_t t) = Ok s.

Lemma trip_list b ts : Forall (trip_t b) ts ->
  exists ss xs, mapM print_term ts = Ok ss /\ Forall2 (fun s x => reads s [x]) ss xs /\ mapM (read_term l b) xs = Ok (map val ts) /\ mapM print_term (map canon_t ts) = Ok ss.
Proof.
  induction 1 as [|t ts (s & x & H1 & H2 & _ & H3 & H4) _ (ss & xs & I1 & I2 & I3 & I4)]; [exists [], []; repeat split; constructor|].
  exists (s :: ss), (x :: xs). cbn [map]. rewrite !mapM_cons, H1, I1, H3, I3, H4, I4. cbn [bind]. repeat split; try reflexivity. now constructor.
Qed.
Lemma to_constants_ok ss ts : List.length ts = List.length ss -> forallb (fun st => fits l (fst st) (snd st)) (combine ss ts) = true ->
  to_constants l (map val ts) ss = Ok (recast_all ss (map canon_t ts)) /\
  List.length (recast_all ss (map canon_t ts)) = List.length ss /\ forallb (fun p => pl_sub l (sort_of (fst p)) (snd p)) (combine (recast_all ss (map canon_t ts)) ss) = true.
Proof.
  revert ts. induction ss as [|s ss IH]; intros [|t ts] H F; try discriminate; [repeat split|]. cbn [combine forallb fst snd] in F. apply andb_true_iff in F as [F1 F2].
  destruct (IH ts ltac:(cbn in H; lia) F2) as (I1 & I2 & I3). cbn [map recast_all List.length combine forallb fst snd]. rewrite I2, I3, andb_true_r. unfold val at 1. unfold recast. rewrite numeral_canon.
  unfold fits in F1. destruct (numeral t) as [z|]; cbn [to_constants]; unfold cast_number; rewrite ?F1; cbn [bind]; rewrite I1; cbn [bind]; repeat split; [exact (Hrefl s) | rewrite sort_canon; exact F1].
Qed.
Lemma check_ok ts ss : List.length ts = List.length ss -> forallb (fun p => pl_sub l (sort_of (fst p)) (snd p)) (combine ts ss) = true -> check_sorts l ts ss = Ok tt.
Proof. intros H1 H2. unfold check_sorts. now rewrite H1, Nat.eqb_refl, H2. Qed.
Lemma cast_operands_ok s a b : operands l s a b = true ->
  exists x y, cast_operands l (val a) (val b) = Ok (x, y) /\ [x; y] = cast2 (canon_t a) (canon_t b) /\ check_sorts l [x; y] [s; s] = Ok tt.
Proof.
  unfold operands, val, cast2, recast. rewrite !numeral_canon, !sort_canon. unfold cast_operands, cast_number.
  destruct (numeral a) as [z|] eqn:E, (numeral b) as [z'|] eqn:E'; rewrite !andb_true_iff; intros H.
  - destruct H as (((H1 & H2) & H3) & H4). rewrite H1, H2, H3. cbn [bind]. eexists; eexists; split; [reflexivity|]. split; [reflexivity|]. apply check_ok; [reflexivity|]. cbn. now rewrite H4.
  - destruct H as (H1 & H2). rewrite sort_canon, H1. cbn [bind]. eexists; eexists; split; [reflexivity|]. split; [reflexivity|]. apply check_ok; [reflexivity|]. cbn. rewrite sort_canon. now rewrite H2.
  - destruct H as (H1 & H2). rewrite sort_canon, H1. cbn [bind]. eexists; eexists; split; [reflexivity|]. split; [reflexivity|]. apply check_ok; [reflexivity|]. cbn. rewrite sort_canon. now rewrite H2.
  - destruct H as (H1 & H2). eexists; eexists; split; [reflexivity|]. split; [reflexivity|]. apply check_ok; [reflexivity|]. cbn. rewrite !sort_canon. now rewrite H1, H2.
Qed.
Lemma sorts_eqb_eq a b : sorts_eqb a b = true -> a = b.
Proof. unfold sorts_eqb. destruct (list_eq_dec string_dec a b); [auto|discriminate]. Qed.
Lemma has_sort_eq o s : has_sort o s = true -> o = Some s.
Proof. destruct o as [r|]; cbn; [|discriminate]. intros H. apply String.eqb_eq in H. now subst. Qed.
Lemma legal_lower n : legal_name n = true -> lower n = n.
Proof. unfold legal_name. rewrite andb_true_iff. intros [H _]. now apply plain_lower. Qed.

Lemma term_trip b B : scope b B -> forall t, readable_t l B t = true -> trip_t b t.
Proof.
  intros Hs t. revert t. refine (term_ind_nested (fun t => readable_t l B t = true -> trip_t b t) (fun _ => True) _ _ _ _ _ _ _ _ _); try (intros; exact I).
  - intros x s H. cbn [readable_t] in H. apply andb_true_iff in H as [H1 H2]. apply has_sort_eq in H2.
    exists (pv x), (A (TVar (pv x))). split; [reflexivity|]. split; [now apply variable_reads|]. split; [reflexivity|]. split.
    + cbn [read_term val numeral canon_t]. rewrite variable_lower by exact H1. unfold lookup_variable. destruct b as [vb|]; cbn [scope] in Hs; [|subst B; discriminate].
      unfold vb_get. rewrite Hs, H2. reflexivity.
    + cbn [canon_t print_term]. unfold print_variable_name at 1. destruct (printed_name _ H1) as (p & -> & _). reflexivity.
  - intros [n|z] s H.
    + cbn [readable_t] in H. apply andb_true_iff in H as [H1 H2]. apply has_sort_eq in H2.
      exists n, (A (TName n)). split; [reflexivity|]. split; [now apply name_reads|]. split; [reflexivity|]. split; [|reflexivity].
      cbn [read_term]. rewrite legal_lower, H2 by exact H1. reflexivity.
    + exists (name_text (CInt z)), (A (TNum z)). split; [reflexivity|]. split; [apply numeral_reads|]. repeat split.
  - intros f ts IH H. destruct f as [o|n ss c].
    + cbn [readable_t] in H. destruct ts as [|x [|y [|w ts]]]; try discriminate. rewrite !andb_true_iff in H. destruct H as ((((H1 & H2) & H3) & H4) & H5).
      inversion IH as [|? ? IHx IH1]; subst. inversion IH1 as [|? ? IHy _]; subst. destruct (IHx H4) as (sx & ex & X1 & X2 & _ & X3 & X4). destruct (IHy H5) as (sy & ey & Y1 & Y2 & _ & Y3 & Y4).
      assert (K : exists k, bfun_text o = k /\ reads k [A (TKey k)] /\ bfun_of k = Some o).
      { exists (bfun_text o). split; [reflexivity|]. destruct o as [| | | |nm]; try (split; [apply key_reads; [discriminate|reflexivity|reflexivity] | reflexivity]).
        cbn [mem existsb orb] in H1. rewrite orb_false_r in H1. apply orb_true_iff in H1 as [H1|H1]; apply String.eqb_eq in H1; subst nm; (split; [apply key_reads; [discriminate|reflexivity|reflexivity] | reflexivity]). }
      destruct K as (k & K1 & K2 & K3). destruct (cast_operands_ok _ _ _ H3) as (u & v & C1 & C2 & C3).
      exists ("(" ++ k ++ " " ++ join " " [sx; sy] ++ ")"), (L [A (TKey k); ex; ey]). split; [|split; [|split; [|split]]].
      * rewrite print_App, !mapM_cons, X1, Y1. cbn [bind mapM fsym_text]. now rewrite K1.
      * apply reads_form; [exact K2|]. apply reads_join. repeat constructor; assumption.
      * reflexivity.
      * cbn [read_term]. rewrite K3, X3, Y3. cbn [bind]. unfold make_arith. rewrite H2, C1. cbn [bind fst snd]. unfold make_app. assert (C3' : check_sorts l [u; v] ["Real"; "Real"] = Ok tt) by exact C3. rewrite C3'. cbn [bind val numeral canon_t map]. now rewrite C2.
      * cbn [canon_t map]. rewrite print_App, print_cast2, !mapM_cons, X4, Y4. cbn [bind mapM fsym_text]. now rewrite K1.
    + cbn [readable_t] in H. rewrite !andb_true_iff in H. destruct H as ((((H1 & H2) & H3) & H4) & H5). apply Nat.eqb_eq in H3.
      destruct (pl_fun l n) as [[ss' c']|] eqn:EF; [|discriminate]. apply andb_true_iff in H2 as [H2 H2']. apply sorts_eqb_eq in H2. apply String.eqb_eq in H2'. subst ss' c'.
      assert (F : Forall (trip_t b) ts). { rewrite forallb_forall in H5. rewrite Forall_forall in IH |- *. intros t Ht. apply IH; auto. }
      destruct (trip_list _ _ F) as (sl & xs & L1 & L2 & L3 & L4). destruct (to_constants_ok _ _ H3 H4) as (T1 & T2 & T3).
      exists ("(" ++ n ++ " " ++ join " " sl ++ ")"), (L (A (TName n) :: xs)). split; [|split; [|split; [|split]]].
      * now rewrite print_App, L1.
      * apply reads_form; [now apply name_reads|]. now apply reads_join.
      * reflexivity.
      * cbn [read_term]. rewrite legal_lower, EF, L3 by exact H1. cbn [bind]. rewrite T1. cbn [bind]. unfold make_app. rewrite check_ok by assumption. reflexivity.
      * cbn [canon_t]. rewrite print_App, print_recast_all, L4; [reflexivity|]. now rewrite map_length.
  - intros c x y _ _ _ H. discriminate.
Qed.

(** ** Variable lists *)
Lemma var_list_step x k s r : lower k = k -> type_name s = Ok k -> lower x = x -> pl_sort l k = true ->
  var_list l [] (A (TVar x) :: A (TKey "-") :: A s :: r) = (let! rest := var_list l [] r in Ok ((x, k) :: rest)).
Proof.
  intros Hk Ht Hx Hp. cbn [var_list]. change (String.eqb "-" "-") with true. cbn [app]. rewrite Ht. cbn [bind]. unfold make_variables. rewrite Hp. cbn [map bind]. now rewrite Hx.
Qed.
Lemma type_reads k : legal_type k = true -> exists t, reads k [A t] /\ type_name t = Ok k /\ lower k = k.
Proof.
  unfold legal_type. rewrite orb_true_iff. intros [H|H].
  - exists (TName k). split; [now apply name_reads|]. cbn [type_name]. rewrite legal_lower by exact H. auto.
  - exists (TKey k). cbn [mem existsb] in H. rewrite orb_false_r in H. rewrite !orb_true_iff, !String.eqb_eq in H.
    destruct H as [-> |[-> |[-> | ->]]]; (split; [apply key_reads; [discriminate|reflexivity|reflexivity] | split; reflexivity]).
Qed.
Definition ok_var (v : term) : bool := match v with Var x s => legal_variable x && legal_type s && pl_sort l s | _ => false end.
Lemma vars_trip vs : forallb ok_var vs = true ->
  exists s xs, print_variable_list vs = Ok s /\ reads s xs /\ var_list l [] xs = Ok (map printed_var vs) /\ print_variable_list (map canon_t vs) = Ok s /\ mapM print_variable vs <> Err NotModelled.
Proof.
  assert (G : forallb ok_var vs = true -> exists sl xss, mapM print_variable vs = Ok sl /\ mapM print_variable (map canon_t vs) = Ok sl /\ Forall2 reads sl xss /\ var_list l [] (List.concat xss) = Ok (map printed_var vs)).
  { induction vs as [|v vs IH]; cbn [forallb]; intros H; [exists [], []; repeat split; [constructor | cbn; unfold make_variables; destruct (pl_sort l "object"); reflexivity]|].
    apply andb_true_iff in H as [H1 H2]. destruct (IH H2) as (sl & xss & I1 & I2 & I3 & I4). destruct v as [x k| | |]; try discriminate. cbn [ok_var] in H1. rewrite !andb_true_iff in H1. destruct H1 as ((H1 & H1') & H1'').
    destruct (type_reads _ H1') as (t & T1 & T2 & T3).
    exists ((pv x ++ " - " ++ k) :: sl), ([A (TVar (pv x)); A (TKey "-"); A t] :: xss). cbn [map canon_t]. rewrite !mapM_cons, I1, I2. cbn [print_variable bind]. split; [reflexivity|]. split; [|split].
    - unfold print_variable_name at 1. destruct (printed_name _ H1) as (p & -> & _). reflexivity.
    - constructor; [|exact I3]. change (pv x ++ " - " ++ k) with (pv x ++ " " ++ ("-" ++ " " ++ k)). apply (reads_space _ _ [A (TVar (pv x))]); [now apply variable_reads|].
      apply (reads_space _ _ [A (TKey "-")]); [apply key_reads; [discriminate|reflexivity|reflexivity] | exact T1].
    - cbn [List.concat app]. rewrite (var_list_step _ k) by (try assumption; now apply variable_lower). rewrite I4. reflexivity. }
  intros H. destruct (G H) as (sl & xss & I1 & I2 & I3 & I4). exists (join " " sl), (List.concat xss). unfold print_variable_list. rewrite I1, I2. repeat split; try assumption; [|discriminate].
  clear -I3. induction I3 as [|s x sl xs Hx I3 IH]; [exact reads_nil|]. destruct sl as [|s' sl]; [inversion I3; subst; cbn; now rewrite app_nil_r|].
  change (join " " (s :: s' :: sl)) with (s ++ " " ++ join " " (s' :: sl)). apply reads_space; assumption.
Qed.
Lemma bound_app B B' x : bound_to (B ++ B') x = match bound_to B x with Some s => Some s | None => bound_to B' x end.
Proof. induction B as [|[y s] B IH]; [reflexivity|]. cbn. destruct (String.eqb x y); [reflexivity | exact IH]. Qed.
Lemma seqb a b : String.eqb a b = true <-> a = b. Proof. apply String.eqb_eq. Qed.
Lemma distinct_NoDup xs : distinct_names xs = true <-> NoDup xs.
Proof.
  induction xs as [|x xs IH]; cbn [distinct_names]; [split; [constructor|reflexivity]|]. rewrite andb_true_iff, IH, negb_true_iff. unfold mem. split.
  - intros [H1 H2]. constructor; [|exact H2]. intros Hin. rewrite <- not_true_iff_false in H1. apply H1, existsb_exists. exists x. split; [exact Hin | apply String.eqb_refl].
  - intros H. inversion H as [|? ? H1 H2]; subst. split; [|exact H2]. apply not_true_iff_false. intros Hin. apply existsb_exists in Hin as (y & Hy & E). apply String.eqb_eq in E. subst. contradiction.
Qed.
Lemma bound_In B x s : bound_to B x = Some s -> In (x, s) B.
Proof. induction B as [|[y r] B IH]; cbn; [discriminate|]. destruct (String.eqb x y) eqn:E; intros H; [apply String.eqb_eq in E; injection H as ->; subst; auto | auto]. Qed.
Lemma bound_None B x : bound_to B x = None <-> ~ In x (map fst B).
Proof.
  induction B as [|[y r] B IH]; cbn; [tauto|]. destruct (String.eqb x y) eqn:E; [apply String.eqb_eq in E; subst; split; [discriminate | intros H; exfalso; apply H; auto]|].
  apply String.eqb_neq in E. rewrite IH. split; [intros H [H'|H']; [congruence|auto] | intros H H'; apply H; auto].
Qed.
Lemma make_scope B : NoDup (map fst B) -> scope (Some (vb_make B)) B.
Proof.
  intros Hn x. cbn [vb_make vb_variables].
  assert (G : forall B d, NoDup (map fst B) -> dget String.eqb (fold_left (fun d v => dset String.eqb d (fst v) v) B d) x = match bound_to B x with Some s => Some (x, s) | None => dget String.eqb d x end).
  { clear. induction B as [|[y s] B IH]; intros d H; [reflexivity|]. cbn [fold_left map fst] in *. inversion H as [|? ? H1 H2]; subst. rewrite IH by exact H2. cbn [bound_to].
    destruct (bound_to B x) as [r|] eqn:E; [destruct (String.eqb x y) eqn:Q; [|reflexivity]|].
    - apply String.eqb_eq in Q. subst. apply bound_In in E. exfalso. apply H1. change y with (fst (y, r)). now apply in_map.
    - rewrite (dget_dset String.eqb seqb). rewrite String.eqb_sym. destruct (String.eqb x y) eqn:Q; [apply String.eqb_eq in Q; now subst|reflexivity]. }
  rewrite G by exact Hn. destruct (bound_to B x); reflexivity.
Qed.
Lemma push_scope b B vs : scope b B -> NoDup (map fst vs) -> (forall x, In x (map fst vs) -> bound_to B x = None) -> exists b', push_variables b vs = Ok b' /\ scope b' (vs ++ B).
Proof.
  intros Hs Hn Hb. destruct b as [vb|].
  - cbn [push_variables]. cbn [scope] in Hs.
    assert (G : forall vs vb B, (forall x, dget String.eqb (vb_variables vb) x = option_map (fun s => (x, s)) (bound_to B x)) -> NoDup (map fst vs) -> (forall x, In x (map fst vs) -> bound_to B x = None) ->
       exists vb', add_all vb vs = Ok vb' /\ forall x, dget String.eqb (vb_variables vb') x = option_map (fun s => (x, s)) (bound_to (vs ++ B) x)).
    { clear. induction vs as [|[y s] vs IH]; intros vb B Hs Hn Hb; [exists vb; split; [reflexivity | exact Hs]|].
      cbn [map fst] in Hn, Hb. inversion Hn as [|? ? H1 H2]; subst. cbn [add_all]. unfold vb_add. cbn [fst]. rewrite Hs, (Hb y) by (left; reflexivity). cbn [option_map].
      match goal with |- context [add_all ?v vs] => set (vb1 := v) end.
      destruct (IH vb1 ((y, s) :: B)) as (vb' & E1 & E2); [| exact H2 | |].
      - intros x. cbn [vb1 vb_variables]. rewrite (dget_dset String.eqb seqb), Hs. cbn [bound_to]. rewrite String.eqb_sym. destruct (String.eqb x y) eqn:Q; [apply String.eqb_eq in Q; now subst|reflexivity].
      - intros x Hx. cbn [bound_to]. destruct (String.eqb x y) eqn:Q; [apply String.eqb_eq in Q; now subst|]. apply Hb. now right.
      - exists vb'. split; [exact E1|]. intros x. rewrite E2. cbn [app]. rewrite !bound_app. cbn [bound_to]. destruct (bound_to vs x) as [r|] eqn:E, (String.eqb x y) eqn:Q; rewrite ?bound_app, ?E; try reflexivity.
        apply String.eqb_eq in Q. subst. apply bound_In in E. exfalso. apply H1. change y with (fst (y, r)). now apply in_map. }
    destruct (G vs vb B Hs Hn Hb) as (vb' & E1 & E2). exists (Some vb'). cbn [push_variables]. rewrite E1. split; [reflexivity | exact E2].
  - exists (Some (vb_make vs)). split; [reflexivity|]. cbn [scope] in Hs. subst B. rewrite app_nil_r. now apply make_scope.
Qed.

(** ** Formulas *)
Definition trip_f (b : option vbind) (f : formula) : Prop :=
  exists s x, print_formula f = Ok s /\ reads s [x] /\ read_goal l b x = Ok (canon f) /\ print_formula (canon f) = Ok s.
Lemma trip_flist b fs : Forall (trip_f b) fs ->
  exists ss xs, mapM print_formula fs = Ok ss /\ Forall2 (fun s x => reads s [x]) ss xs /\ mapM (read_goal l b) xs = Ok (map canon fs) /\ mapM print_formula (map canon fs) = Ok ss.
Proof.
  induction 1 as [|t ts (s & x & H1 & H2 & H3 & H4) _ (ss & xs & I1 & I2 & I3 & I4)]; [exists [], []; repeat split; constructor|].
  exists (s :: ss), (x :: xs). cbn [map]. rewrite !mapM_cons, H1, I1, H3, I3, H4, I4. cbn [bind]. repeat split; try reflexivity. now constructor.
Qed.
Lemma print_Comp c fs : print_formula (Comp c fs) = (let! l := mapM print_formula fs in Ok ("(" ++ connective_text c ++ " " ++ join " " l ++ ")")).
Proof. reflexivity. Qed.
Lemma print_Quant q vs g : print_formula (Quant q vs g) = (let! v := print_variable_list vs in let! s := print_formula g in Ok ("(" ++ quant_text q ++ " (" ++ v ++ ") " ++ s ++ ")")).
Proof. reflexivity. Qed.
Ltac key := apply key_reads; [discriminate|reflexivity|reflexivity].
(** A comparison other than != *)
Lemma comparison_trip b B p x y : scope b B -> p <> PNe -> pl_cmp l p = true -> operands l (match p with PEq | PNe => "object" | _ => "Real" end) x y = true -> readable_t l B x = true -> readable_t l B y = true ->
  exists s e, print_formula (Atom (PB p) [x; y]) = Ok s /\ reads s [e] /\ read_goal l b e = Ok (Atom (PB p) (cast2 (canon_t x) (canon_t y))) /\ print_formula (Atom (PB p) (cast2 (canon_t x) (canon_t y))) = Ok s /\
  exists a, s = "(" ++ bpred_text p ++ " " ++ a ++ ")" /\ print_term_list [x; y] = Ok a.
Proof.
  intros Hs Hp Hc Ho Hx Hy. destruct (term_trip _ _ Hs _ Hx) as (sx & ex & X1 & X2 & _ & X3 & X4). destruct (term_trip _ _ Hs _ Hy) as (sy & ey & Y1 & Y2 & _ & Y3 & Y4).
  destruct (cast_operands_ok _ _ _ Ho) as (u & v & C1 & C2 & C3). set (a := join " " [sx; sy]).
  assert (PL : print_term_list [x; y] = Ok a) by (unfold print_term_list; rewrite !mapM_cons, X1, Y1; reflexivity).
  assert (PC : print_term_list (cast2 (canon_t x) (canon_t y)) = Ok a) by (unfold print_term_list; rewrite print_cast2, !mapM_cons, X4, Y4; reflexivity).
  exists ("(" ++ bpred_text p ++ " " ++ a ++ ")"), (L [A (TKey (bpred_text p)); ex; ey]). split; [|split; [|split; [|split]]].
  - cbn [print_formula]. unfold print_atom_of. rewrite PL. cbn [bind]. destruct p; try reflexivity. congruence.
  - apply reads_form; [destruct p; try key; congruence|]. apply reads_join. repeat constructor; assumption.
  - assert (M : make_comparison l p (val x) (val y) = Ok (Atom (PB p) (cast2 (canon_t x) (canon_t y)))).
    { unfold make_comparison. rewrite Hc, C1. cbn [bind fst snd]. unfold make_atom. assert (CS : check_sorts l [u; v] (cmp_sorts p) = Ok tt) by (destruct p; exact C3). rewrite CS. cbn [bind]. now rewrite C2. }
    destruct p; try congruence; cbn [read_goal bpred_text]; rewrite X3, Y3; cbn [bind]; exact M.
  - cbn [print_formula]. unfold print_atom_of. rewrite PC. cbn [bind]. destruct p; try reflexivity. congruence.
  - now exists a.
Qed.
Lemma neg_ok f : neg f = Ok (Comp Not [f]). Proof. reflexivity. Qed.
Lemma formula_trip : forall f b B, scope b B -> wf f = true -> readable l B f = true -> trip_f b f.
Proof.
  refine (formula_ind_simple (fun f => forall b B, scope b B -> wf f = true -> readable l B f = true -> trip_f b f) _ _ _ _ _).
  - intros b B Hs _ _. exists "(and )", (L [A (TKey "and")]). split; [reflexivity|]. split; [|split; reflexivity].
    change "(and )" with ("(" ++ "and" ++ " " ++ "" ++ ")"). apply (reads_form "and" (TKey "and") "" []); [key | exact reads_nil].
  - intros b B Hs _ H. cbn [readable] in H. apply andb_true_iff in H as [H1 H2].
    destruct (comparison_trip b B PEq _ _ Hs ltac:(discriminate) H1 H2 eq_refl eq_refl) as (s & e & E1 & E2 & E3 & E4 & _). cbn in E1. injection E1 as <-.
    exists "(= 0 1)", e. repeat split; assumption.
  - intros p ts b B Hs _ H. destruct p as [p|n ss].
    + destruct ts as [|x [|y [|z ts]]]; cbn [readable] in H; try discriminate. rewrite !andb_true_iff in H. destruct H as (((H1 & H2) & H3) & H4).
      destruct (bpred_eq_dec p PNe) as [->|Hp].
      * destruct (comparison_trip b B PEq x y Hs ltac:(discriminate) H1 H2 H3 H4) as (s & e & E1 & E2 & E3 & E4 & a & E5 & E6).
        exists ("(not " ++ s ++ ")"), (L [A (TKey "not"); e]). split; [|split; [|split]].
        -- cbn [print_formula]. unfold print_atom_of. rewrite E6. cbn [bind]. subst s. cbn [bpred_text]. f_equal. rewrite !sapp_assoc. reflexivity.
        -- change ("(not " ++ s ++ ")") with ("(" ++ "not" ++ " " ++ s ++ ")"). apply reads_form; [key | exact E2].
        -- cbn [read_goal]. change (String.eqb "not" "and") with false. change (String.eqb "not" "or") with false. change (String.eqb "not" "not") with true. cbv iota. rewrite E3. reflexivity.
        -- cbn [canon map]. rewrite print_Comp, mapM_cons, E4. reflexivity.
      * assert (H1' : pl_cmp l p = true) by (destruct p; try exact H1; congruence). assert (H2' : operands l (match p with PEq | PNe => "object" | _ => "Real" end) x y = true) by (destruct p; exact H2).
        destruct (comparison_trip b B p x y Hs Hp H1' H2' H3 H4) as (s & e & E1 & E2 & E3 & E4 & _). exists s, e.
        assert (C : canon (Atom (PB p) [x; y]) = Atom (PB p) (cast2 (canon_t x) (canon_t y))) by (destruct p; try reflexivity; congruence). unfold trip_f. rewrite C. repeat split; assumption.
    + cbn [readable] in H. rewrite !andb_true_iff in H. destruct H as ((((H1 & H2) & H3) & H4) & H5). apply Nat.eqb_eq in H3.
      destruct (pl_pred l n) as [ss'|] eqn:EP; [|discriminate]. apply sorts_eqb_eq in H2. subst ss'.
      assert (F : Forall (trip_t b) ts). { rewrite forallb_forall in H5. apply Forall_forall. intros t Ht. apply (term_trip _ _ Hs). specialize (H5 t Ht). destruct (numeral t); [discriminate | exact H5]. }
      assert (N : map val ts = map VTerm (map canon_t ts)). { rewrite map_map. apply map_ext_in. intros t Ht. rewrite forallb_forall in H5. specialize (H5 t Ht). unfold val. destruct (numeral t); [discriminate | reflexivity]. }
      destruct (trip_list _ _ F) as (sl & xs & L1 & L2 & L3 & L4).
      assert (AT : forall us, mapM as_term (map VTerm us) = Ok us). { induction us as [|u us IH]; [reflexivity|]. cbn [map]. rewrite mapM_cons, IH. reflexivity. }
      exists ("(" ++ n ++ " " ++ join " " sl ++ ")"), (L (A (TName n) :: xs)). split; [|split; [|split]].
      * cbn [print_formula]. unfold print_atom_of, print_term_list. now rewrite L1.
      * apply reads_form; [now apply name_reads|]. now apply reads_join.
      * cbn [read_goal]. unfold read_atom. rewrite legal_lower, EP, L3 by exact H1. cbn [bind]. rewrite N, AT. cbn [bind]. unfold make_atom. rewrite check_ok; [reflexivity | now rewrite map_length|].
        clear -H3 H4. revert ts H3 H4. induction ss as [|s ss IH]; intros [|t ts] H3 H4; try discriminate; [reflexivity|]. cbn [map combine forallb fst snd] in *. rewrite sort_canon. apply andb_true_iff in H4 as [-> H4]. apply IH; [now injection H3 | exact H4].
      * cbn [canon print_formula]. unfold print_atom_of, print_term_list. now rewrite L4.
  - intros c fs IH b B Hs Hw H. cbn [readable] in H. cbn [wf] in Hw. apply andb_true_iff in Hw as [Hw1 Hw2].
    assert (F : Forall (trip_f b) fs). { rewrite forallb_forall in H, Hw2. rewrite Forall_forall in IH |- *. intros g Hg. apply (IH g Hg b B); auto. }
    destruct (trip_flist _ _ F) as (sl & xs & L1 & L2 & L3 & L4).
    exists ("(" ++ connective_text c ++ " " ++ join " " sl ++ ")"), (L (A (TKey (connective_text c)) :: xs)). split; [|split; [|split]].
    + now rewrite print_Comp, L1.
    + apply reads_form; [destruct c; key|]. now apply reads_join.
    + assert (Lc : comp_arity_ok c (List.length (map canon fs)) = true) by (rewrite map_length; exact Hw1).
      destruct c; cbn [read_goal connective_text canon].
      * change (String.eqb "and" "and") with true. cbv iota. rewrite L3. cbn [bind]. destruct (map canon fs) as [|f1 [|f2 r]] eqn:E; try discriminate. unfold compound. now rewrite Lc.
      * change (String.eqb "or" "and") with false. change (String.eqb "or" "or") with true. cbv iota. rewrite L3. cbn [bind]. unfold compound. now rewrite Lc.
      * change (String.eqb "not" "and") with false. change (String.eqb "not" "or") with false. change (String.eqb "not" "not") with true. cbv iota.
        cbn [comp_arity_ok] in Hw1. apply Nat.eqb_eq in Hw1. destruct fs as [|f1 [|f2 fs]]; try discriminate. cbn [map] in L3 |- *.
        destruct xs as [|x1 [|x2 xs]]; try (cbn in L3; discriminate); [|]; rewrite ?mapM_cons in L3.
        -- destruct (read_goal l b x1) as [g|]; cbn in L3; [|discriminate]. injection L3 as ->. reflexivity.
        -- destruct (read_goal l b x1) as [g|]; cbn [bind] in L3; [|discriminate]. destruct (read_goal l b x2) as [g2|]; cbn [bind] in L3; [|discriminate]. destruct (mapM (read_goal l b) xs); cbn [bind] in L3; discriminate.
    + cbn [canon]. now rewrite print_Comp, L4.
  - intros q vs g IH b B Hs Hw H. cbn [readable] in H. rewrite !andb_true_iff in H. destruct H as (((H1 & H2) & H3) & H4). cbn [wf] in Hw. rewrite !andb_true_iff in Hw. destruct Hw as ((Hw1 & Hw2) & Hw3).
    destruct (vars_trip vs H1) as (sv & xv & V1 & V2 & V3 & V4 & _). apply distinct_NoDup in H2.
    destruct (push_scope b B (map printed_var vs) Hs H2) as (b' & P1 & P2).
    { intros x Hx. apply in_map_iff in Hx as (v & <- & Hv). apply in_map_iff in Hv as (t & <- & Ht). rewrite forallb_forall in H3. specialize (H3 t Ht). destruct (bound_to B (fst (printed_var t))); [discriminate|reflexivity]. }
    destruct (IH b' _ P2 Hw3 H4) as (sg & eg & G1 & G2 & G3 & G4).
    exists ("(" ++ quant_text q ++ " (" ++ sv ++ ") " ++ sg ++ ")"), (L [A (TKey (quant_text q)); L xv; eg]). split; [|split; [|split]].
    + now rewrite print_Quant, V1, G1.
    + replace ("(" ++ quant_text q ++ " (" ++ sv ++ ") " ++ sg ++ ")") with ("(" ++ quant_text q ++ " " ++ ("(" ++ sv ++ ")" ++ " " ++ sg) ++ ")") by (cbn; now rewrite !sapp_assoc).
      apply reads_form; [destruct q; key|]. replace ("(" ++ sv ++ ")" ++ " " ++ sg) with (("(" ++ sv ++ ")") ++ " " ++ sg) by (cbn; now rewrite !sapp_assoc).
      apply (reads_space _ _ [L xv]); [now apply reads_bracket | exact G2].
    + assert (Q : quantified q (map (fun v => ATerm (Var (fst v) (snd v))) (map printed_var vs) ++ [AForm (canon g)])%list = Ok (Quant q (map canon_t vs) (canon g))).
      { assert (E : map (fun v => ATerm (Var (fst v) (snd v))) (map printed_var vs) = map ATerm (map canon_t vs)).
        { rewrite !map_map. apply map_ext_in. intros v Hv. rewrite forallb_forall in Hw2. specialize (Hw2 v Hv). destruct v; try discriminate. reflexivity. }
        rewrite E. apply BuildProofs.quantified_iff. exists (map canon_t vs), (canon g). split; [destruct vs; [discriminate|discriminate]|]. split; [|split; reflexivity].
        apply forallb_forall. intros u Hu. apply in_map_iff in Hu as (v & <- & Hv). rewrite forallb_forall in Hw2. specialize (Hw2 v Hv). destruct v; try discriminate. reflexivity. }
      destruct q; cbn [read_goal quant_text].
      * change (String.eqb "exists" "and") with false. change (String.eqb "exists" "or") with false. change (String.eqb "exists" "not") with false. change (String.eqb "exists" "imply") with false. change (String.eqb "exists" "exists" || String.eqb "exists" "forall") with true. cbv iota.
        rewrite V3. cbn [bind]. rewrite P1. cbn [bind]. rewrite G3. cbn [bind]. change (String.eqb "exists" "exists") with true. cbv iota. exact Q.
      * change (String.eqb "forall" "and") with false. change (String.eqb "forall" "or") with false. change (String.eqb "forall" "not") with false. change (String.eqb "forall" "imply") with false. change (String.eqb "forall" "exists" || String.eqb "forall" "forall") with true. cbv iota.
        rewrite V3. cbn [bind]. rewrite P1. cbn [bind]. rewrite G3. cbn [bind]. change (String.eqb "forall" "exists") with false. cbv iota. exact Q.
    + cbn [canon]. now rewrite print_Quant, V4, G4.
Qed.
End Trip.
