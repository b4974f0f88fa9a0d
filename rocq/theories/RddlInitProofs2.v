(** The reader of RDDL instances: the language, continued *)
From Coq Require Import Ascii.
From Verif Require Import Base Syntax Build SemLemmas ListUtil ModelState ModelProofs FreeVars Lang LangSpec LangProofs LangProofs2 LangProofs3 Theories TheoriesSpec TheoriesProofs TheoriesProofs2 TheoriesProofs3 Counters
  RddlRead RddlReadProofs4 RddlInit RddlInitSpec RddlInitProofs.
#[local] Open Scope string_scope.
#[local] Open Scope list_scope.

Lemma NoDup_app_split {A} (a b : list A) : NoDup (a ++ b) -> NoDup a /\ NoDup b /\ (forall x, In x a -> ~ In x b).
Proof. intros H. split; [exact (NoDup_app_l _ _ H)|split; [exact (NoDup_app_r _ _ H)|intros x; exact (NoDup_app_disj _ _ x H)]]. Qed.
Lemma bind_some {A B} (a : res A) (f : A -> res B) b : bind a f = Ok b -> exists x, a = Ok x /\ f x = Ok b.
Proof. destruct a as [x|]; [|discriminate]. exists x. auto. Qed.
Section Language.
Variable parse : bool -> string -> option Z.
Definition type_decl (t : string * option string) : string * elem := (fst t, ESort (fst t)).
Definition object_decl (to : string * string) : string * elem := (snd to, EConst (CStr (snd to)) (fst to)).
Lemma fresh_dec decls n : {fresh decls n} + {~ fresh decls n}.
Proof. unfold fresh. destruct (in_dec string_dec n (map fst (predefined ++ decls))); [right|left]; tauto. Qed.
Lemma fresh_last decls n (e : elem) : NoDup (map fst (predefined ++ decls ++ [(n, e)])) -> fresh decls n.
Proof. intros H. rewrite app_assoc, map_app in H. apply NoDup_app_split in H as (_ & _ & H). intros K. apply (H n K). now left. Qed.
Lemma nodup_first decls ds : NoDup (map fst (predefined ++ decls ++ ds)) -> NoDup (map fst (predefined ++ decls)).
Proof. intros H. rewrite app_assoc, map_app in H. now apply NoDup_app_split in H. Qed.

Lemma types_ok ts : forall st decls tys, built st decls tys -> (forall t p, In (t, p) ts -> p = Some "object") -> NoDup (map fst (predefined ++ decls ++ map type_decl ts)) ->
  exists st', foldM (read_type parse) ts st = Ok st' /\ built st' (decls ++ map type_decl ts) (tys ++ map fst ts).
Proof.
  induction ts as [|[t p] ts IH]; intros st decls tys B P N; [exists st; cbn; rewrite !app_nil_r; auto|]. cbn [foldM map fst].
  assert (F : fresh decls t). { cbn [map] in N. change (type_decl (t, p) :: map type_decl ts) with ([(t, ESort t)] ++ map type_decl ts) in N. rewrite (app_assoc decls) in N. apply nodup_first in N. now apply fresh_last in N. }
  destruct (type_step parse st decls tys t B F) as (st1 & E & B1). unfold read_type. cbn [fst snd]. rewrite (P t p (or_introl eq_refl)), String.eqb_refl, E.
  destruct (IH st1 (decls ++ [(t, ESort t)]) (tys ++ [t]) B1) as (st' & E' & B'); [intros; eapply P; right; eauto|rewrite <- app_assoc; exact N|]. exists st'. split; [exact E'|]. rewrite <- !app_assoc in B'. exact B'.
Qed.
Lemma types_only ts : forall st decls tys st', built st decls tys -> foldM (read_type parse) ts st = Ok st' ->
  (forall t p, In (t, p) ts -> p = Some "object") /\ built st' (decls ++ map type_decl ts) (tys ++ map fst ts).
Proof.
  induction ts as [|[t p] ts IH]; intros st decls tys st' B E; [cbn in *; rewrite !app_nil_r; injection E as <-; split; [contradiction|exact B]|]. cbn [foldM map fst] in *.
  unfold read_type in E at 1. cbn [fst snd] in E. destruct p as [p|]; [|discriminate E]. destruct (String.eqb_spec p "object") as [->|]; [|discriminate E].
  destruct (fresh_dec decls t) as [F|F]; [|rewrite (type_used parse st decls tys t B F) in E; discriminate E].
  destruct (type_step parse st decls tys t B F) as (st1 & E1 & B1). rewrite E1 in E. destruct (IH _ _ _ _ B1 E) as [H1 H2]. rewrite <- !app_assoc in H2. split; [|exact H2]. intros t' p' [Q|Q]; [now injection Q as <- <-|eauto].
Qed.
(** The sorts among the declarations are the types *)
Definition sorts_are (decls : list (string * elem)) (tys : list string) : Prop := forall n s, In (n, ESort s) decls <-> s = n /\ In n tys.
Lemma sort_declared st decls tys t s : built st decls tys -> sorts_are decls tys -> lget (t_lang st) (CStr t) = Ok (ESort s) <-> s = t /\ In t (["object"; "Real"; "Integer"; "Natural"] ++ tys).
Proof.
  intros B S. rewrite (b_names _ _ _ B), in_app_iff, (S t s), in_app_iff. cbn [predefined In]. split.
  - intros [H|[-> H]]; [|auto]. repeat (destruct H as [H|H]; [try discriminate H; injection H as <- <-; tauto|]). destruct H.
  - intros [-> [H|H]]; [|auto]. left. repeat (destruct H as [H|H]; [subst; tauto|]). destruct H.
Qed.
Lemma objects_ok os : forall st decls tys, built st decls tys -> sorts_are decls tys -> (forall t o, In (t, o) os -> In t ("object" :: tys)) -> NoDup (map fst (predefined ++ decls ++ map object_decl os)) ->
  exists st', foldM (read_object parse) os st = Ok st' /\ built st' (decls ++ map object_decl os) tys.
Proof.
  induction os as [|[t o] os IH]; intros st decls tys B S P N; [exists st; cbn; rewrite !app_nil_r; auto|]. cbn [foldM map].
  assert (F : fresh decls o). { cbn [map] in N. change (object_decl (t, o) :: map object_decl os) with ([(o, EConst (CStr o) t)] ++ map object_decl os) in N. rewrite (app_assoc decls) in N. apply nodup_first in N. now apply fresh_last in N. }
  assert (Ht := P t o (or_introl eq_refl)). destruct (object_step parse st decls tys o t B Ht F) as (st1 & E & B1). unfold read_object. cbn [fst snd].
  rewrite (proj2 (sort_declared st decls tys t t B S)); [|split; [reflexivity|destruct Ht as [<- |Ht]; apply in_app_iff; [left; now left|now right]]]. cbn [bind]. rewrite E.
  destruct (IH st1 (decls ++ [(o, EConst (CStr o) t)]) tys B1) as (st' & E' & B'); [|intros; eapply P; right; eauto|rewrite <- app_assoc; exact N|].
  { intros n s. rewrite in_app_iff, (S n s). cbn [In]. split; [intros [H|[H|[]]]; [exact H|discriminate H]|auto]. }
  exists st'. split; [exact E'|]. rewrite <- app_assoc in B'. exact B'.
Qed.
Lemma objects_only os : forall st decls tys st', built st decls tys -> sorts_are decls tys -> (forall t o, In (t, o) os -> ~ In t ["Real"; "Integer"; "Natural"]) -> foldM (read_object parse) os st = Ok st' ->
  (forall t o, In (t, o) os -> In t ("object" :: tys)) /\ built st' (decls ++ map object_decl os) tys.
Proof.
  induction os as [|[t o] os IH]; intros st decls tys st' B S P E; [cbn in *; rewrite !app_nil_r; injection E as <-; split; [contradiction|exact B]|]. cbn [foldM map] in *.
  unfold read_object in E at 1. cbn [fst snd] in E. destruct (lget (t_lang st) (CStr t)) as [e|] eqn:G; [|discriminate E]. cbn [bind] in E. destruct e as [s| | |]; try discriminate E.
  apply (sort_declared st decls tys t s B S) in G as [-> G]. assert (Ht : In t ("object" :: tys)). { assert (Q := P t o (or_introl eq_refl)). apply in_app_iff in G as [G|G]; [|now right]. cbn [In] in *. tauto. }
  destruct (fresh_dec decls o) as [F|F]; [|rewrite (object_used parse st decls tys o t B Ht F) in E; discriminate E].
  destruct (object_step parse st decls tys o t B Ht F) as (st1 & E1 & B1). rewrite E1 in E. destruct (IH st1 (decls ++ [(o, EConst (CStr o) t)]) tys st' B1) as [H1 H2]; [|intros; eapply P; right; eauto|exact E|].
  { intros n s. rewrite in_app_iff, (S n s). cbn [In]. split; [intros [H|[H|[]]]; [exact H|discriminate H]|auto]. }
  rewrite <- app_assoc in H2. split; [|exact H2]. intros t' o' [Q|Q]; [now injection Q as <- <-|eauto].
Qed.

Section Variables.
Variable r : rmodel.
Notation tys := (type_names r).
Definition numbers_free (decls : list (string * elem)) : Prop := forall n, In n ["real"; "int"] -> ~ In n tys -> fresh decls n.
Definition state_ok st decls := built st decls tys /\ sorts_are decls tys /\ numbers_free decls.
Lemma read_sort_some st decls s t : state_ok st decls -> sort_called r s = Some t -> read_sort (t_lang st) s = Ok (ESort t) /\ is_sort (t_lang st) t.
Proof.
  intros (B & S & N) H. pose proof (rd_tree st (b_ready _ _ _ B)) as I. unfold sort_called in H. unfold read_sort.
  assert (Q : forall t, In t (sort_names r) -> lget (t_lang st) (CStr t) = Ok (ESort t)). { intros t' Ht. apply (sort_declared st decls tys t' t' B S). split; [reflexivity|exact Ht]. }
  destruct (in_dec string_dec s (sort_names r)) as [Hs|Hs].
  - injection H as <-. rewrite (Q s Hs). split; [reflexivity|]. now apply (sort_lget _ _ I), Q.
  - assert (Hs' : ~ In s tys) by (intros K; apply Hs; unfold sort_names; apply in_app_iff; auto). destruct (String.eqb_spec s "real") as [->|].
    + injection H as <-. assert (U := built_unused _ _ _ _ B (N "real" (or_introl eq_refl) Hs')). unfold unused in U. rewrite U. change (built_in_type "real") with (Some "Real"). cbv iota beta. assert (K := Q "Real" (or_intror (or_introl eq_refl))). split; [exact K|]. now apply (sort_lget _ _ I).
    + destruct (String.eqb_spec s "int") as [->|]; [|discriminate H]. injection H as <-. assert (U := built_unused _ _ _ _ B (N "int" (or_intror (or_introl eq_refl)) Hs')). unfold unused in U. rewrite U. change (built_in_type "int") with (Some "Integer").
      cbv iota beta. assert (K := Q "Integer" (or_intror (or_intror (or_introl eq_refl)))). split; [exact K|]. now apply (sort_lget _ _ I).
Qed.
Lemma read_sort_none st decls s e : state_ok st decls -> sort_called r s = None -> read_sort (t_lang st) s = Ok e -> is_sort_elem e = false.
Proof.
  intros (B & S & N) H. unfold sort_called in H. unfold read_sort. destruct (in_dec string_dec s (sort_names r)) as [Hs|Hs]; [discriminate H|]. destruct (String.eqb s "real") eqn:E1; [discriminate H|]. destruct (String.eqb s "int") eqn:E2; [discriminate H|].
  destruct (lget (t_lang st) (CStr s)) as [e'|] eqn:G.
  - intros Q. injection Q as <-. destruct e'; try reflexivity. exfalso. apply (sort_declared st decls tys s s0 B S) in G as [_ G]. exact (Hs G).
  - unfold built_in_type. rewrite E1, E2. destruct (String.eqb_spec s "object") as [->|]; [|discriminate]. exfalso. apply Hs. now left.
Qed.
Lemma read_sorts_some st decls ss ts : state_ok st decls -> sorts_called r ss = Some ts -> mapM (read_sort (t_lang st)) ss = Ok (map ESort ts) /\ Forall (is_sort (t_lang st)) ts /\ List.length ts = List.length ss.
Proof.
  intros K. revert ts. induction ss as [|s ss IH]; intros ts H; cbn [sorts_called] in H; [injection H as <-; repeat split; constructor|].
  destruct (sort_called r s) as [t|] eqn:E; [|discriminate H]. destruct (sorts_called r ss) as [ts'|]; [|discriminate H]. injection H as <-. destruct (read_sort_some st decls s t K E) as [A1 A2]. destruct (IH ts' eq_refl) as (B1 & B2 & B3).
  cbn [mapM]. rewrite A1. cbn [bind]. rewrite B1. repeat split; auto. cbn [List.length]. now rewrite B3.
Qed.
Lemma read_sorts_none st decls ss es : state_ok st decls -> sorts_called r ss = None -> mapM (read_sort (t_lang st)) ss = Ok es -> forallb is_sort_elem es = false.
Proof.
  intros K. revert es. induction ss as [|s ss IH]; intros es H E; cbn [sorts_called] in H; [discriminate H|]. cbn [mapM] in E. destruct (read_sort (t_lang st) s) as [e|] eqn:G; [|discriminate E]. cbn [bind] in E.
  destruct (mapM (read_sort (t_lang st)) ss) as [es'|] eqn:M; [|discriminate E]. injection E as <-. cbn [forallb]. destruct (sort_called r s) as [t|] eqn:Es.
  - rewrite (IH es'); [apply andb_false_r| |reflexivity]. destruct (sorts_called r ss); [discriminate H|reflexivity].
  - now rewrite (read_sort_none st decls s e K Es G).
Qed.
Definition variable_decl (v : pvariable) : string * elem := (symbol_name v, symbol_of v (match variable_sorts r v with Some ss => ss | None => [] end)).
Lemma all_sorts ts : forallb is_sort_elem (map ESort ts) = true /\ map elem_sort (map ESort ts) = ts.
Proof. induction ts as [|t ts [A B]]; [split; reflexivity|]. cbn [map forallb elem_sort is_sort_elem andb]. rewrite A, B. split; reflexivity. Qed.
Lemma variable_step st decls v ss : state_ok st decls -> variable_sorts r v = Some ss -> fresh decls (symbol_name v) -> (In (symbol_name v) ["real"; "int"] -> False) ->
  exists st', read_variable parse st v = Ok st' /\ state_ok st' (decls ++ [variable_decl v]).
Proof.
  intros K Hs F No. destruct (read_sorts_some st decls _ ss K Hs) as (E & Fs & Len). pose proof K as (B & S & N). unfold read_variable. rewrite E. cbn [bind]. destruct (all_sorts ss) as [-> ->].
  destruct (symbol_step parse st decls tys (is_boolean (pv_range v)) (symbol_name v) ss B F Fs) as (st' & E' & B').
  { intros Hb ->. rewrite Hb, app_length in Len. cbn in Len. lia. }
  exists st'. split; [exact E'|]. unfold variable_decl. rewrite Hs. unfold symbol_of. split; [exact B'|]. split.
  - intros n s. rewrite in_app_iff, (S n s). cbn [In]. split; [|auto]. intros [H|[H|[]]]; [exact H|]. destruct (is_boolean (pv_range v)); discriminate H.
  - intros n Hn Nt Q. rewrite app_assoc, map_app in Q. apply in_app_iff in Q as [Q|[Q|[]]]; [exact (N n Hn Nt Q)|]. cbn [fst] in Q. subst n. exact (No Hn).
Qed.
Lemma variables_ok vs : forall st decls, state_ok st decls -> (forall v, In v vs -> variable_sorts r v <> None) -> (forall n, In n ["real"; "int"] -> ~ In n (map symbol_name vs)) ->
  NoDup (map fst (predefined ++ decls ++ map variable_decl vs)) -> exists st', foldM (read_variable parse) vs st = Ok st' /\ state_ok st' (decls ++ map variable_decl vs).
Proof.
  induction vs as [|v vs IH]; intros st decls K P No N; [exists st; cbn; rewrite !app_nil_r; auto|]. cbn [foldM map].
  assert (F : fresh decls (symbol_name v)). { cbn [map] in N. change (variable_decl v :: map variable_decl vs) with ([variable_decl v] ++ map variable_decl vs) in N. rewrite (app_assoc decls) in N. apply nodup_first in N. now apply fresh_last in N. }
  destruct (variable_sorts r v) as [ss|] eqn:Es; [|now destruct (P v (or_introl eq_refl))]. destruct (variable_step st decls v ss K Es F) as (st1 & E & K1); [intros H; apply (No _ H); now left|]. rewrite E.
  destruct (IH st1 (decls ++ [variable_decl v]) K1) as (st' & E' & K'); [intros; apply P; now right|intros n Hn Q; apply (No n Hn); now right|rewrite <- app_assoc; exact N|]. exists st'. split; [exact E'|]. rewrite <- app_assoc in K'. exact K'.
Qed.
Lemma variables_only vs : forall st decls st', state_ok st decls -> (forall n, In n ["real"; "int"] -> ~ In n (map symbol_name vs)) -> foldM (read_variable parse) vs st = Ok st' ->
  (forall v, In v vs -> variable_sorts r v <> None) /\ state_ok st' (decls ++ map variable_decl vs).
Proof.
  induction vs as [|v vs IH]; intros st decls st' K No E; [cbn in *; rewrite !app_nil_r; injection E as <-; split; [contradiction|exact K]|]. cbn [foldM map] in *.
  destruct (variable_sorts r v) as [ss|] eqn:Es.
  - destruct (fresh_dec decls (symbol_name v)) as [F|F].
    + destruct (variable_step st decls v ss K Es F) as (st1 & E1 & K1); [intros H; apply (No _ H); now left|]. rewrite E1 in E. destruct (IH _ _ _ K1 ltac:(intros n Hn Q; apply (No n Hn); now right) E) as [H1 H2].
      rewrite <- app_assoc in H2. split; [|exact H2]. intros v' [<- |Hv]; [congruence|auto].
    + exfalso. unfold read_variable in E at 1. destruct (read_sorts_some st decls _ ss K Es) as (M & _). rewrite M in E. cbn [bind] in E. destruct (all_sorts ss) as [A1 A2]. rewrite A1, A2 in E.
      change (base_name (pv_name v)) with (symbol_name v) in E. rewrite (symbol_used parse st decls tys _ _ ss (proj1 K) F) in E. discriminate E.
  - exfalso. unfold read_variable in E at 1. destruct (mapM _ _) as [es|] eqn:M in E; [|discriminate E]. cbn [bind] in E. rewrite (read_sorts_none st decls _ es K Es M) in E.
    destruct (check_name _ _ _) in E; discriminate E.
Qed.
End Variables.

Definition all_decls (r : rmodel) : list (string * elem) := map type_decl (rm_types r) ++ map object_decl (objects_of r) ++ map (variable_decl r) (variables_of r).
Lemma all_names r : map fst (predefined ++ all_decls r) = map fst predefined ++ type_names r ++ map snd (objects_of r) ++ map symbol_name (variables_of r).
Proof. unfold all_decls, type_names. rewrite !map_app, !map_map. reflexivity. Qed.
Lemma types_sorts r : sorts_are (map type_decl (rm_types r)) (type_names r).
Proof.
  intros n s. unfold type_names. rewrite !in_map_iff. split.
  - intros ([t p] & E & H). cbn in E. injection E as -> <-. split; [reflexivity|]. exists (n, p). auto.
  - intros [-> ([t p] & E & H)]. cbn in E. subst t. exists (n, p). auto.
Qed.
Lemma objects_sorts decls tys os : sorts_are decls tys -> sorts_are (decls ++ map object_decl os) tys.
Proof. intros S n s. rewrite in_app_iff, (S n s). split; [|auto]. intros [H|H]; [exact H|]. apply in_map_iff in H as (to & E & _). discriminate E. Qed.
Lemma numbers_start r : ordinary r -> numbers_free r (map type_decl (rm_types r) ++ map object_decl (objects_of r)).
Proof.
  intros O n Hn Nt H. rewrite !map_app, !map_map in H. apply in_app_iff in H as [H|H]; [|apply in_app_iff in H as [H|H]].
  - cbn in Hn, H. destruct Hn as [<- |[<- |[]]]; repeat (destruct H as [H|H]; [discriminate H|]); destruct H.
  - exact (Nt H).
  - apply (od_names r O n Hn). apply in_app_iff. left. exact H.
Qed.
Lemma numbers_vars r : ordinary r -> forall n, In n ["real"; "int"] -> ~ In n (map symbol_name (variables_of r)).
Proof. intros O n Hn H. apply (od_names r O n Hn). apply in_app_iff. now right. Qed.
Theorem language_ok r : ordinary r -> well_formed r -> exists st, read_language parse r = Ok st /\ built st (all_decls r) (type_names r).
Proof.
  intros O [W1 W2 W3 W4]. rewrite <- all_names in W2. unfold all_decls in *. destruct (start_built parse) as (st0 & E0 & B0). unfold read_language. rewrite E0. cbn [bind].
  destruct (types_ok (rm_types r) st0 [] [] B0 W1) as (st1 & E1 & B1). { exact (nodup_first _ _ W2). }
  rewrite E1. cbn [bind]. cbn [app] in B1. destruct (objects_ok (objects_of r) st1 _ _ B1 (types_sorts r) W3) as (st2 & E2 & B2). { rewrite (app_assoc (map type_decl _)) in W2. exact (nodup_first _ _ W2). }
  rewrite E2. cbn [bind]. destruct (variables_ok r (variables_of r) st2 _ (conj B2 (conj (objects_sorts _ _ _ (types_sorts r)) (numbers_start r O))) W4 (numbers_vars r O)) as (st3 & E3 & B3 & _); [rewrite <- app_assoc; exact W2|].
  exists st3. split; [exact E3|]. rewrite <- app_assoc in B3. exact B3.
Qed.
Lemma built_names r st : built st (all_decls r) (type_names r) ->   NoDup (map fst predefined ++ type_names r ++ map snd (objects_of r) ++ map symbol_name (variables_of r)).
Proof. intros H. rewrite <- all_names. exact (b_nodup _ _ _ H). Qed.
Lemma language_mid r st0 st1 st2 st : ordinary r -> built st0 [] [] -> foldM (read_type parse) (rm_types r) st0 = Ok st1 -> foldM (read_object parse) (objects_of r) st1 = Ok st2 -> foldM (read_variable parse) (variables_of r) st2 = Ok st ->
 well_formed r /\ built st (all_decls r) (type_names r).
Proof.
  intros O B0 E1 E2 E.
  destruct (types_only _ _ _ _ _ B0 E1) as [H1 B1]. cbn [app] in B1. destruct (objects_only _ _ _ _ _ B1 (types_sorts r) (od_objects r O) E2) as [H2 B2].
  destruct (variables_only r _ _ _ _ (conj B2 (conj (objects_sorts _ _ _ (types_sorts r)) (numbers_start r O))) (numbers_vars r O) E) as [H3 (B3 & _)]. rewrite <- app_assoc in B3. split; [|exact B3].
  exact (Build_well_formed r H1 (built_names r st B3) H2 H3).
Qed.
Lemma start_only st : language parse [TEquality; TArithmetic; TSpecial; TRandom] = Ok st -> built st [] [].
Proof. destruct (start_built parse) as (st0 & E0 & B0). intros E. rewrite E0 in E. injection E as <-. exact B0. Qed.
#[local] Opaque language.
Theorem language_only r st : ordinary r -> read_language parse r = Ok st -> well_formed r /\ built st (all_decls r) (type_names r).
Proof.
  intros O E. unfold read_language in E. apply bind_some in E as (st0 & E0 & E). apply bind_some in E as (st1 & E1 & E). apply bind_some in E as (st2 & E2 & E). exact (language_mid r st0 st1 st2 st O (start_only st0 E0) E1 E2 E).
Qed.
Lemma declared_iff r n e : (forall v, In v (variables_of r) -> variable_sorts r v <> None) -> In (n, e) (predefined ++ all_decls r) <-> names_declared r n e.
Proof.
  intros W. unfold all_decls, names_declared. rewrite !in_app_iff. apply or_iff_compat_l. apply Morphisms_Prop.or_iff_morphism; [|apply Morphisms_Prop.or_iff_morphism].
  - unfold type_names. rewrite !in_map_iff. split.
    + intros ([t p] & E & H). cbn in E. injection E as -> <-. split; [|reflexivity]. exists (n, p). auto.
    + intros [([t p] & E & H) ->]. cbn in E. subst t. exists (n, p). auto.
  - rewrite in_map_iff. split.
    + intros ([t o] & E & H). cbn in E. injection E as -> <-. eauto.
    + intros (t & H & ->). exists (t, n). auto.
  - rewrite in_map_iff. split.
    + intros (v & E & H). unfold variable_decl in E. injection E as <- <-. destruct (variable_sorts r v) as [ss|] eqn:Q; [|now destruct (W v H)]. exists v, ss. auto.
    + intros (v & ss & H & -> & Q & ->). exists v. unfold variable_decl. rewrite Q. auto.
Qed.
End Language.
