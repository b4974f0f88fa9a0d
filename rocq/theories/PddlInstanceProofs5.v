(** Constants of PDDL domains, queries, lists of typed variables *)
From Verif Require Import Base Syntax SemLemmas ListUtil ModelState ModelProofs FreeVars Lang LangSpec LangProofs LangProofs2 Theories TheoriesSpec TheoriesProofs RddlInitProofs2 RddlInitProofs3 PddlInstance PddlInstanceSpec PddlInstanceProofs PddlInstanceProofs2 PddlInstanceProofs3 PddlInstanceProofs4.
#[local] Open Scope string_scope.
#[local] Open Scope list_scope.

(** Queries keep the hierarchy, whatever the fuel. *)
Lemma query_keeps rank l E tys fuel s t : hier rank l E tys -> hier rank (fst (is_subtype fuel l s t)) E tys /\ exists ind, fst (is_subtype fuel l s t) = set_ind l ind.
Proof.
  intros H. assert (Same : set_ind l (l_ind l) = l) by (destruct l; reflexivity). assert (Id : hier rank l E tys /\ exists ind, l = set_ind l ind) by (split; [exact H|exists (l_ind l); now symmetry]).
  unfold is_subtype. unfold retrieve. destruct (has_sort l s); [|exact Id]. destruct (has_sort l t); [|exact Id]. destruct (String.eqb s t); [exact Id|]. destruct (str_mem t (get_set (l_anc l) s)); [exact Id|]. unfold connected. destruct (str_mem t (get_set (l_ind l) s)); [exact Id|].
  destruct (search fuel l t (rev (get_set (l_anc l) s))) as [[|]|] eqn:Q; [|exact Id|exact Id]. cbn [fst]. split; [|eauto].
  assert (Sound : forall x, In x ("object" :: tys) -> forall t', In t' (get_set (l_anc l) x) -> above E x t'). { intros x Hx t' K. destruct (h_up _ _ _ _ H x Hx) as (a & G & _ & A). unfold get_set in K. rewrite G in K. auto. }
  assert (SS : forall n opn b, (forall x, In x opn -> In x ("object" :: tys)) -> search n l t opn = Ok b -> b = true -> exists x, In x opn /\ (x = t \/ above E x t)).
  { induction n as [|n IH]; intros opn b K R Eb; [discriminate|]. cbn [search] in R. destruct opn as [|x opn]; [congruence|]. destruct (String.eqb_spec x t) as [->|N]; [exists t; split; [now left|now left]|].
    destruct (IH _ b (fun y Hy => match proj1 (push_In _ _ _) Hy with or_introl W => proj1 (proj2 (above_types _ _ _ _ _ _ H (Sound x (K x (or_introl eq_refl)) y W))) | or_intror W => K y (or_intror W) end) R Eb) as (y & Hy & W).
    apply push_In in Hy as [Hy|Hy]; [|exists y; split; [now right|exact W]]. exists x. split; [now left|right]. assert (A := Sound x (K x (or_introl eq_refl)) y Hy). destruct W as [->|W]; [exact A|exact (above_trans _ _ _ _ A W)]. }
  destruct H as [F1 F2 F3 F4 F5 F6 F7 F8 F9 F10 F11 F12 F13 F14]. assert (H := Build_hier _ _ _ _ F1 F2 F3 F4 F5 F6 F7 F8 F9 F10 F11 F12 F13 F14). constructor; auto. intros x t' Hx. unfold get_set, set_ind, set_par. cbn [l_ind]. rewrite sget_dset.
  destruct (String.eqb_spec s x) as [<- |N]; [|intros K; exact (F9 x t' Hx K)]. rewrite union_In. intros [K|[<- |[]]]; [exact (F9 s t' Hx K)|].
  destruct (SS fuel (rev (get_set (l_anc l) s)) true) with (2 := Q) as (y & Hy & W); [|reflexivity|].
  - intros y Hy. apply in_rev in Hy. exact (proj1 (proj2 (above_types _ _ _ _ _ _ H (Sound s Hx y Hy)))).
  - apply in_rev in Hy. assert (A := Sound s Hx y Hy). destruct W as [->|W]; [exact A|exact (above_trans _ _ _ _ A W)].
Qed.

(** ** Constants *)
Lemma hier_same rank l l' E tys : same_but_sorts l l' -> (forall u r, sget (l_sorts l) u = Some r -> exists r', sget (l_sorts l') u = Some r' /\ s_kind r' = s_kind r /\ s_builtin r' = s_builtin r) -> hier rank l E tys -> hier rank l' E tys.
Proof.
  intros (S1 & S2 & S3 & _ & _ & _ & _ & S8) X [F1 F2 F3 F4 F5 F6 F7 F8 F9 F10 F11 F12 F13 F14]. assert (Ln : List.length (l_sorts l') = List.length (l_sorts l)) by (rewrite <- (map_length fst (l_sorts l')), S8, map_length; reflexivity).
  constructor; auto; rewrite ?S1, ?S2, ?S3, ?Ln; auto.
  - intros s. rewrite has_sort_spec. unfold is_sort. rewrite S8. rewrite <- F1, has_sort_spec. reflexivity.
  - intros t Ht. destruct (F2 t Ht) as (r & G & K & B). destruct (X t r G) as (r' & G' & K' & B'). exists r'. split; [exact G'|]. split; congruence.
Qed.
Lemma extend_below rank E tys c : forall k l s, hier rank l E tys -> In s ("object" :: tys) -> rank s < k -> exists l', extend k l s c = Ok l' /\ extended c (fun u => u = s \/ above E s u) l l'.
Proof.
  induction k as [|k IH]; intros l s H Hs L; [lia|]. cbn [extend]. destruct (h_plain _ _ _ _ H s Hs) as (r & Hr & K & B). rewrite Hr, K. set (l1 := set_sorts l _). change (sget (l_anc l1) s) with (sget (l_anc l) s). destruct (h_up _ _ _ _ H s Hs) as (a & Ga & A1 & A2). rewrite Ga.
  destruct (add_dom_props c r) as (AK & AB & AD & AN).
  assert (E1 : extended c (fun u => u = s) l l1).
  { split; [unfold same_but_sorts; cbn; repeat (split; [reflexivity|]); eapply dset_keys_same; eauto|]. intros u ru Hu. unfold l1; cbn [l_sorts set_sorts]. rewrite sget_dset. destruct (String.eqb_spec s u) as [<- |N].
    - exists (add_dom c r). assert (ru = r) by congruence. subst ru. split; [reflexivity|]. split; [exact AK|]. split; [exact AB|]. split; [exact AN|]. intros d. rewrite AD. tauto.
    - exists ru. split; [exact Hu|]. split; [reflexivity|]. split; [reflexivity|]. split; [auto|]. intros d. split; [now left|]. intros [?|[_ ?]]; [auto|congruence]. }
  assert (G : forall xs l0 Rp, (forall x, In x xs -> above E s x) -> extended c Rp l l0 ->
     exists l', fold_left (fun acc p => let! l' := acc in extend k l' p c) xs (Ok l0) = Ok l' /\ extended c (fun u => Rp u \/ exists p, In p xs /\ (u = p \/ above E p u)) l l').
  { induction xs as [|x xs IHx]; intros l0 Rp Hx E0; cbn [fold_left].
    - exists l0. split; [reflexivity|]. destruct E0 as [S0 E0]. split; [exact S0|]. intros u ru Hu. destruct (E0 u ru Hu) as (r' & a1 & a2 & a3 & a4 & a5). exists r'. split; [exact a1|]. split; [exact a2|]. split; [exact a3|]. split; [exact a4|]. intros d. rewrite a5. split; [intros [?|[? ?]]; auto|intros [?|[? [?|(p & [] & _)]]]; auto].
    - assert (H0 : hier rank l0 E tys). { apply (hier_same rank l); [exact (proj1 E0)| |exact H]. intros u r0 Hu. destruct (proj2 E0 u r0 Hu) as (r' & G1 & G2 & G3 & _). eauto. }
      assert (Ax := Hx x (or_introl eq_refl)). destruct (above_types _ _ _ _ _ _ H Ax) as (_ & Tx & Rx). destruct (IH l0 x H0 Tx) as (l2 & El2 & X2); [lia|]. cbn [bind]. rewrite El2.
      destruct (IHx l2 (fun u => Rp u \/ u = x \/ above E x u)) as (l3 & E3 & X3).
      + intros y Hy. apply Hx. now right.
      + eapply extended_trans; [exact E0|exact X2|]. intros u. tauto.
      + exists l3. split; [exact E3|]. destruct X3 as [S3 X3]. split; [exact S3|]. intros u ru Hu. destruct (X3 u ru Hu) as (r' & a1 & a2 & a3 & a4 & a5). exists r'. split; [exact a1|]. split; [exact a2|]. split; [exact a3|]. split; [exact a4|]. intros d. rewrite a5. split.
        { intros [?|[? [[?|?]|(p & ? & ?)]]]; [auto|auto| |]; right; (split; [auto|]); right; [exists x; split; [now left|tauto]|exists p; split; [now right|tauto]]. }
        { intros [?|[? [?|(p & [<- |?] & ?)]]]; [auto|auto| |]; right; (split; [auto|]); [left; right; tauto|right; exists p; tauto]. } }
  destruct (G a l1 (fun u => u = s) A2 E1) as (l' & E' & X'). exists l'. split; [exact E'|]. destruct X' as [S' X']. split; [exact S'|]. intros u ru Hu. destruct (X' u ru Hu) as (r' & a1 & a2 & a3 & a4 & a5). exists r'. split; [exact a1|]. split; [exact a2|]. split; [exact a3|]. split; [exact a4|]. intros d. rewrite a5. split.
  - intros [?|[? [->|(p & Hp & Hr')]]]; [auto|right; split; [auto|now left]|]. right. split; [auto|]. right. apply A2 in Hp. destruct Hr' as [->|Hr']; [exact Hp|exact (above_trans _ _ _ _ Hp Hr')].
  - intros [?|[? [->|P3]]]; [auto|right; split; [auto|now left]|]. right. split; [auto|]. right. apply above_first in P3 as (q & Hq & W). exists q. split; [auto|]. destruct W as [->|W]; auto.
Qed.
Section Constants.
Variable parse : bool -> string -> option Z.
Lemma constant_new rank i E tys N C c s : pinv rank i E tys N C -> In s ("object" :: tys) -> ~ In c (reserved ++ tys ++ N) ->
  exists l', of_step (lstep parse (pi_lang i) (OConst (CStr c) s)) = Ok l' /\ pinv rank (with_lang i l') E tys (N ++ [c]) (C ++ [(CStr c, s)]) /\ forall m, lget l' m = if cname_eqb (CStr c) m then Ok (EConst (CStr c) s) else lget (pi_lang i) m.
Proof.
  intros V Hs Hc. assert (V' := V). destruct V' as [VH VN VC VT VD VV VU]. set (l := pi_lang i) in *. cbn [lstep]. unfold declare_constant. destruct (h_plain _ _ _ _ VH s Hs) as (r & Hr & K & B). rewrite Hr, B.
  assert (U : unused l (CStr c)). { destruct (lget_cases l (CStr c)) as [Q|Q]; [|exact Q]. exfalso. apply Hc, VN, Q. }
  assert (Nc : has_constant l (CStr c) = false). { destruct (has_constant l (CStr c)) eqn:Q; [|reflexivity]. exfalso. apply Hc, VN, VC, Q. }
  rewrite Nc, (check_unused _ _ U), K. destruct (extend_below rank E tys (CStr c) (S (List.length (l_sorts l))) l s VH Hs) as (l1 & E1 & S1 & X1). { pose proof (h_bound _ _ _ _ VH s Hs). lia. }
  rewrite E1. set (l2 := set_index _ _). exists l2. split; [reflexivity|]. assert (H1 : hier rank l1 E tys). { apply (hier_same rank l); [exact S1| |exact VH]. intros u r0 Hu. destruct (X1 u r0 Hu) as (r' & G1 & G2 & G3 & _). eauto. }
  destruct S1 as (_ & _ & _ & _ & _ & S6 & S7 & S8). split; [|intros m; unfold lget; cbn [l2 l_index set_index]; rewrite cidx, S7; destruct (cname_eqb (CStr c) m); reflexivity]. constructor; cbn [with_lang pi_lang pi_types].
  - destruct H1 as [F1 F2 F3 F4 F5 F6 F7 F8 F9 F10 F11 F12 F13 F14]. constructor; auto.
  - intros n. unfold lget. cbn [l2 l_index set_index]. rewrite cidx, S7. change (match dget cname_eqb (l_index l) (CStr n) with Some e => Ok e | None => Err UndefinedElement end) with (lget l (CStr n)). destruct (cname_eqb (CStr c) (CStr n)) eqn:Q.
    + apply cname_eqb_eq in Q. injection Q as <-. split; [intros _; rewrite !in_app_iff; right; right; right; now left|eauto].
    + assert (c <> n). { intros ->. unfold cname_eqb in Q. destruct (cname_eq_dec (CStr n) (CStr n)); congruence. }
      change (match dget cname_eqb (l_index l) (CStr n) with Some e => Ok e | None => Err UndefinedElement end) with (lget l (CStr n)). rewrite VN, !in_app_iff. cbn [In]. intuition congruence.
  - intros d Hd. unfold has_constant in Hd. cbn [l2 l_consts set_index set_consts] in Hd. rewrite (dget_dset cname_eqb cname_eqb_eq) in Hd. unfold lget. cbn [l2 l_index set_index]. rewrite cidx. destruct (cname_eqb (CStr c) d); [eauto|]. rewrite S6 in Hd. destruct (VC d Hd) as [e He]. exists e. rewrite S7. exact He.
  - exact VT.
  - intros t r' Ht G d. cbn [l2 l_sorts set_index set_consts] in G. destruct (h_plain _ _ _ _ VH t Ht) as (r0 & G0 & _). destruct (X1 t r0 G0) as (r1 & G1 & _ & _ & _ & D). assert (r' = r1) as -> by congruence. rewrite D, (VD t r0 Ht G0). split.
    + intros [(x & Hx & W)|[-> W]]; [exists x; split; [apply in_snoc; now left|exact W]|]. exists s. split; [apply in_snoc; now right|]. destruct W as [->|W]; [now left|now right].
    + intros (x & Hx & W). apply in_snoc in Hx as [Hx|Hx]; [left; eauto|]. injection Hx as -> ->. right. split; [reflexivity|]. destruct W as [->|W]; [now left|now right].
  - intros d t Hd. cbn [l2 l_consts set_index set_consts]. rewrite (dget_dset cname_eqb cname_eqb_eq), S6. apply in_snoc in Hd as [Hd|Hd].
    + destruct (cname_eqb (CStr c) d) eqn:Q; [|exact (VV d t Hd)]. apply cname_eqb_eq in Q. subst d. exfalso. unfold has_constant in Nc. now rewrite (VV _ _ Hd) in Nc.
    + injection Hd as -> ->. now rewrite (proj2 (cname_eqb_eq _ _) eq_refl).
  - intros t r' Ht G. cbn [l2 l_sorts set_index set_consts] in G. destruct (h_plain _ _ _ _ VH t Ht) as (r0 & G0 & _). destruct (X1 t r0 G0) as (r1 & G1 & _ & _ & D & _). assert (r' = r1) as -> by congruence. exact (D (VU t r0 Ht G0)).
Qed.
Lemma constant_used rank i E tys N C c s : pinv rank i E tys N C -> In s ("object" :: tys) -> In c (reserved ++ tys ++ N) -> exists e, of_step (lstep parse (pi_lang i) (OConst (CStr c) s)) = Err e.
Proof.
  intros V Hs Hc. apply (v_names _ _ _ _ _ _ V) in Hc as [e Hc]. cbn [lstep]. unfold declare_constant. destruct (h_plain _ _ _ _ (v_hier _ _ _ _ _ _ V) s Hs) as (r & Hr & K & B). rewrite Hr, B, (check_used _ _ _ _ Hc). cbn. eauto.
Qed.
Lemma constants_new rank E tys s cs : forall i N C, pinv rank i E tys N C -> In s ("object" :: tys) -> NoDup cs -> (forall c, In c cs -> ~ In c (reserved ++ tys ++ N)) ->
  exists l', foldM (fun l c => of_step (lstep parse l (OConst (CStr c) s))) cs (pi_lang i) = Ok l' /\ pinv rank (with_lang i l') E tys (N ++ cs) (C ++ map (fun c => (CStr c, s)) cs) /\ forall m e, lget (pi_lang i) m = Ok e -> lget l' m = Ok e.
Proof.
  induction cs as [|c cs IH]; intros i N C V Hs ND K; [exists (pi_lang i); cbn [map]; rewrite !app_nil_r; split; [reflexivity|]; split; [destruct i; exact V|auto]|]. inversion ND as [|? ? N1 N2]; subst.
  destruct (constant_new rank i E tys N C c s V Hs (K c (or_introl eq_refl))) as (l1 & E1 & V1 & G1). cbn [foldM]. rewrite E1. destruct (IH (with_lang i l1) _ _ V1 Hs N2) as (l2 & E2 & V2 & G2).
  - intros d Hd Q. apply in_app_iff in Q as [Q|Q]; [apply (K d (or_intror Hd)), in_app_iff; now left|]. rewrite app_assoc in Q. apply in_snoc in Q as [Q|Q]; [apply (K d (or_intror Hd)), in_app_iff; now right|congruence].
  - exists l2. split; [exact E2|]. cbn [map]. rewrite (snoc_assoc N), (snoc_assoc C). split; [exact V2|]. intros m e Hm. apply G2. change (lget l1 m = Ok e). rewrite G1. destruct (cname_eqb (CStr c) m) eqn:Q; [|exact Hm]. apply cname_eqb_eq in Q. subst m. exfalso. apply (K c (or_introl eq_refl)), (v_names _ _ _ _ _ _ V). eauto.
Qed.
Lemma constants_new_inv rank E tys s cs : forall i N C l', pinv rank i E tys N C -> In s ("object" :: tys) -> foldM (fun l c => of_step (lstep parse l (OConst (CStr c) s))) cs (pi_lang i) = Ok l' -> NoDup cs /\ forall c, In c cs -> ~ In c (reserved ++ tys ++ N).
Proof.
  induction cs as [|c cs IH]; intros i N C l' V Hs R; [split; [constructor|intros c []]|]. cbn [foldM] in R.
  assert (K : ~ In c (reserved ++ tys ++ N)). { intros K. destruct (constant_used rank i E tys N C c s V Hs K) as [e Ee]. rewrite Ee in R. discriminate. }
  destruct (constant_new rank i E tys N C c s V Hs K) as (l1 & E1 & V1 & _). rewrite E1 in R. destruct (IH (with_lang i l1) _ _ l' V1 Hs R) as [N1 N2]. split.
  - constructor; [|exact N1]. intros Q. apply (N2 c Q). rewrite !in_app_iff. right. right. right. now left.
  - intros d [<- |Hd]; [exact K|]. intros Q. apply (N2 d Hd). rewrite !in_app_iff in *. tauto.
Qed.
Lemma names_entry t cs : map fst (map (fun c : string => (c, t : string)) cs) = cs.
Proof. induction cs as [|c cs IH]; cbn; [reflexivity|now rewrite IH]. Qed.
Lemma section_constants rank E tys es : forall i N C, pinv rank i E tys N C -> constants_ok tys N es ->
  exists i', constants_def parse i es = Ok i' /\ pinv rank i' E tys (N ++ map fst (constants_of es)) (C ++ map (fun e => (CStr (fst e), snd e)) (constants_of es)) /\ forall m e, lget (pi_lang i) m = Ok e -> lget (pi_lang i') m = Ok e.
Proof.
  unfold constants_def. induction es as [|e es IH]; intros i N C V (K1 & K2 & K3); [exists i; cbn; rewrite !app_nil_r; split; [reflexivity|split; [exact V|auto]]|]. destruct (K1 e (or_introl eq_refl)) as (p & cs & -> & Kp). cbn [foldM]. rewrite (proj2 (ptypes_mem _ _ _ _ _ _ _ V) (or_intror Kp)).
  cbn [constants_of flat_map] in K2, K3. fold (constants_of es) in K2, K3. rewrite map_app, names_entry in K2, K3. unfold process_constants. destruct (constants_new rank E tys (primitive_type p) cs i N C V) as (l1 & E1 & V1 & G1).
  - now right.
  - now apply NoDup_app_l in K2.
  - intros c Hc. apply K3, in_app_iff. now left.
  - rewrite E1. cbn [bind]. set (i1 := {| pi_lang := l1; pi_types := _; pi_objects := _ |}). assert (V1' : pinv rank i1 E tys (N ++ cs) (C ++ map (fun c => (CStr c, primitive_type p)) cs)) by (destruct V1 as [F1 F2 F3 F4 F5 F6 F7]; constructor; auto).
    destruct (IH i1 _ _ V1') as (i2 & E2 & V2 & G2).
    + split; [intros e He; apply K1; now right|]. split; [now apply NoDup_app_r in K2|]. intros c Hc Q. rewrite !in_app_iff in Q. destruct Q as [Q|[Q|[Q|Q]]]; [| | |exact (NoDup_app_disj _ _ _ K2 Q Hc)]; (apply (K3 c); [apply in_app_iff; now right|rewrite !in_app_iff; tauto]).
    + exists i2. split; [exact E2|]. cbn [constants_of flat_map]. fold (constants_of es). rewrite !map_app, names_entry, map_map. cbn [fst snd]. rewrite !app_assoc in *. split; [exact V2|]. intros m e Hm. apply G2, G1, Hm.
Qed.
Lemma section_constants_inv rank E tys es : ~ In "object" tys -> forall i N C i', pinv rank i E tys N C -> constants_def parse i es = Ok i' -> constants_ok tys N es.
Proof.
  intros No. unfold constants_def. induction es as [|e es IH]; intros i N C i' V R; [split; [intros e []|]; split; [constructor|intros c []]|]. cbn [foldM] in R. destruct e as [p|p cs]; [discriminate|]. destruct (str_mem (primitive_type p) (pi_types i)) eqn:M; [|discriminate].
  apply (ptypes_mem _ _ _ _ _ _ _ V) in M. destruct M as [M|M]; [exfalso; exact (primitive_object p (eq_sym M))|]. unfold process_constants in R. destruct (foldM _ cs (pi_lang i)) as [l1|] eqn:E1; [|discriminate]. cbn [bind] in R.
  destruct (constants_new_inv rank E tys (primitive_type p) cs i N C l1 V (or_intror M) E1) as [D1 D2]. destruct (constants_new rank E tys (primitive_type p) cs i N C V (or_intror M) D1 D2) as (l1' & E1' & V1 & _). assert (l1' = l1) as -> by congruence.
  set (i1 := {| pi_lang := l1; pi_types := _; pi_objects := _ |}) in R. assert (V1' : pinv rank i1 E tys (N ++ cs) (C ++ map (fun c => (CStr c, primitive_type p)) cs)) by (destruct V1 as [F1 F2 F3 F4 F5 F6 F7]; constructor; auto).
  destruct (IH i1 _ _ i' V1' R) as (I1 & I2 & I3). split; [|split].
  - intros e [<- |He]; [eauto|auto].
  - cbn [constants_of flat_map]. fold (constants_of es). rewrite map_app, names_entry. apply NoDup_app_iff_simple; auto. intros c Hc Q. apply (I3 c Q). rewrite !in_app_iff. tauto.
  - cbn [constants_of flat_map]. fold (constants_of es). rewrite map_app, names_entry. intros c Hc. apply in_app_iff in Hc as [Hc|Hc]; [auto|]. intros Q. apply (I3 c Hc). rewrite !in_app_iff in *. tauto.
Qed.
End Constants.
(** ** Lists of typed variables *)
Lemma mapM_pair {A B C} (f : A -> res B) (t : C) (b : B) xs : (forall x, f x = Ok b) -> mapM (fun v : A => let! s := f v in Ok (v, s)) xs = Ok (map (fun v => (v, b)) xs).
Proof. intros H. induction xs as [|x xs IH]; cbn [mapM map]; [reflexivity|]. now rewrite H, IH. Qed.
Lemma normalize_spec rank i E tys N C : pinv rank i E tys N C -> forall l seen,
  (forall t, In t (mentioned l) -> In t tys) -> normalize i seen l = Ok (map (fun v => (v, next_type l)) seen ++ typed_variables l).
Proof.
  intros V. assert (M : forall t, In t ("object" :: tys) -> str_mem t (pi_types i) = true) by (intros t; apply (ptypes_mem _ _ _ _ _ _ _ V)).
  assert (Mp : forall t seen, In t ("object" :: tys) -> mapM (fun v : string => let! s := retrieve (pi_lang i) t in Ok (v, s)) seen = Ok (map (fun v => (v, t)) seen)).
  { intros t seen Ht. rewrite (retrieve_type _ _ _ _ _ _ _ V Ht). induction seen as [|x seen IH]; cbn [mapM map]; [reflexivity|]. cbn [bind] in *. now rewrite IH. }
  induction l as [|[n|p] l IH]; intros seen K; cbn [normalize next_type typed_variables].
  - rewrite (M "object" (or_introl eq_refl)), (Mp "object" seen (or_introl eq_refl)). cbn [bind]. reflexivity.
  - rewrite IH; [|exact K]. rewrite map_app, <- app_assoc. reflexivity.
  - assert (Kp : In (primitive_type p) ("object" :: tys)) by (right; apply K; now left). rewrite (M _ Kp), (Mp _ seen Kp). cbn [bind]. rewrite IH; [|intros t Ht; apply K; now right]. cbn [bind map app]. reflexivity.
Qed.
Lemma normalize_err rank i E tys N C : pinv rank i E tys N C -> forall l seen, (exists t, In t (mentioned l) /\ ~ In t tys) -> normalize i seen l = Err SemanticError.
Proof.
  intros V. induction l as [|[n|p] l IH]; intros seen (t & Ht & Nt); cbn [normalize].
  - destruct Ht.
  - apply IH. eauto.
  - destruct (str_mem (primitive_type p) (pi_types i)) eqn:M; [|reflexivity]. apply (ptypes_mem _ _ _ _ _ _ _ V) in M. rewrite (retrieve_type _ _ _ _ _ _ _ V M). cbn [bind].
    assert (Mp : exists vs, mapM (fun v : string => Ok (v, primitive_type p)) seen = Ok vs). { clear. induction seen as [|x seen [vs IH]]; cbn [mapM]; [eauto|]. rewrite IH. cbn. eauto. }
    destruct Mp as [vs Mp]. change (sort) with string in *. rewrite Mp. cbn [bind]. rewrite IH; [reflexivity|]. destruct Ht as [Ht|Ht]; [|eauto]. subst t. exfalso. destruct M as [M|M]; [exact (primitive_object p (eq_sym M))|contradiction].
Qed.
(** ** Symbols *)
Lemma mapM_ok_all {A B} (f : A -> res B) l : forall l', mapM f l = Ok l' -> forall x, In x l -> exists y, f x = Ok y.
Proof. induction l as [|a l IH]; intros l' H x; [intros []|]. cbn [mapM] in H. destruct (f a) as [y|] eqn:E; [|discriminate]. destruct (mapM f l) as [r|]; [|discriminate]. intros [<- |Hx]; [eauto|exact (IH r eq_refl x Hx)]. Qed.
Section Symbols.
Variable parse : bool -> string -> option Z.
Lemma symbol_new rank i E tys N C n ss : pinv rank i E tys N C -> ~ In n (reserved ++ tys ++ N) -> ss <> [] -> (forall t, In t ss -> In t (sorts0 ++ tys)) -> has_function (pi_lang i) n = false ->
  exists l', of_step (lstep parse (pi_lang i) (OFun n ss)) = Ok l' /\ pinv rank (with_lang i l') E tys (N ++ [n]) C /\ (forall m, lget l' m = if cname_eqb (CStr n) m then Ok (EFun n ss) else lget (pi_lang i) m) /\
    forall m, has_function l' m = true -> has_function (pi_lang i) m = true \/ m = n.
Proof.
  intros V Hn Hne Hss Hf. assert (V' := V). destruct V' as [VH VN VC VT VD VV VU]. set (l := pi_lang i) in *. cbn [lstep]. unfold declare_function.
  assert (U : unused l (CStr n)). { destruct (lget_cases l (CStr n)) as [Q|Q]; [|exact Q]. exfalso. apply Hn, VN, Q. }
  rewrite Hf, (check_unused _ _ U). assert (M : mapM (retrieve l) ss = Ok ss).
  { clear Hne. induction ss as [|t ss IH]; [reflexivity|]. cbn [mapM]. unfold retrieve at 1. rewrite (proj2 (h_sorts _ _ _ _ VH t) (Hss t (or_introl eq_refl))). rewrite IH; [reflexivity|]. intros u Hu. apply Hss. now right. }
  rewrite M. destruct ss as [|t ss']; [contradiction|]. set (ss := t :: ss') in *. set (l2 := set_index _ _). exists l2. split; [reflexivity|].
  assert (G : forall m, lget l2 m = if cname_eqb (CStr n) m then Ok (EFun n ss) else lget l m) by (intros m; unfold lget; cbn [l2 l_index set_index]; rewrite cidx; destruct (cname_eqb (CStr n) m); reflexivity).
  split; [|split; [exact G|]].
  - constructor; cbn [with_lang pi_lang pi_types].
    + destruct VH as [F1 F2 F3 F4 F5 F6 F7 F8 F9 F10 F11 F12 F13 F14]. constructor; auto.
    + intros m. rewrite G. destruct (cname_eqb (CStr n) (CStr m)) eqn:Q.
      * apply cname_eqb_eq in Q. injection Q as <-. split; [intros _; rewrite !in_app_iff; right; right; right; now left|eauto].
      * assert (n <> m). { intros ->. unfold cname_eqb in Q. destruct (cname_eq_dec (CStr m) (CStr m)); congruence. } rewrite VN, !in_app_iff. cbn [In]. intuition congruence.
    + intros c Hc. destruct (VC c Hc) as [e He]. rewrite G. destruct (cname_eqb (CStr n) c); eauto.
    + exact VT.
    + exact VD.
    + exact VV.
    + exact VU.
  - intros m. unfold has_function. cbn [l2 l_funs set_index set_funs]. rewrite sget_dset. destruct (String.eqb_spec n m) as [<- |N']; [now right|now left].
Qed.
Lemma symbol_used rank i E tys N C n ss : pinv rank i E tys N C -> In n (reserved ++ tys ++ N) -> exists e, of_step (lstep parse (pi_lang i) (OFun n ss)) = Err e.
Proof.
  intros V Hn. apply (v_names _ _ _ _ _ _ V) in Hn as [e Hn]. cbn [lstep]. unfold declare_function. rewrite (check_used _ _ _ _ Hn). cbn. eauto.
Qed.
(** Functions are in the index. *)
Definition indexed (i : pinst) : Prop := forall m, has_function (pi_lang i) m = true -> exists e, lget (pi_lang i) (CStr m) = Ok e.
Lemma typed_variables_types l t : In t (map snd (typed_variables l)) -> t = "object" \/ In t (mentioned l).
Proof.
  assert (Nx : forall l, next_type l = "object" \/ In (next_type l) (mentioned l)). { clear. induction l as [|[n|p] l IH]; cbn; auto. }
  induction l as [|[n|p] l IH]; cbn [typed_variables map snd In]; [intros []| |].
  - intros [<- |K]; [exact (Nx l)|exact (IH K)].
  - intros K. destruct (IH K) as [Q|Q]; [now left|right; now right].
Qed.
Definition process_symbol (i : pinst) (n : string) (args : list vtoken) (cod : string) : res pinst :=
  let! vs := normalize i [] args in let! l := of_step (lstep parse (pi_lang i) (OFun n (map snd vs ++ [cod])%list)) in Ok (with_lang i l).
Lemma symbol_reads rank i E tys N C n args cod : pinv rank i E tys N C -> indexed i -> ~ In n (reserved ++ tys ++ N) -> (forall t, In t (mentioned args) -> In t tys) -> In cod (sorts0 ++ tys) ->
  exists i', process_symbol i n args cod = Ok i' /\ pinv rank i' E tys (N ++ [n]) C /\ indexed i' /\ (forall m e, lget (pi_lang i) m = Ok e -> lget (pi_lang i') m = Ok e) /\ lget (pi_lang i') (CStr n) = Ok (EFun n (map snd (typed_variables args) ++ [cod])).
Proof.
  intros V X Hn Hm Hc. unfold process_symbol. rewrite (normalize_spec _ _ _ _ _ _ V args [] Hm). cbn [map app bind].
  destruct (symbol_new rank i E tys N C n (map snd (typed_variables args) ++ [cod]) V Hn) as (l' & El & V' & G & HF).
  - intros Q. now apply app_eq_nil in Q as [_ Q].
  - intros t Ht. apply in_snoc in Ht as [Ht| ->]; [|exact Hc]. apply in_app_iff. destruct (typed_variables_types _ _ Ht) as [->|Q]; [left; now left|right; auto].
  - destruct (has_function (pi_lang i) n) eqn:Q; [|reflexivity]. exfalso. apply Hn, (v_names _ _ _ _ _ _ V), X, Q.
  - match goal with |- context [of_step ?z] => replace (of_step z) with (Ok l' : res lang) by (symmetry; exact El) end. cbn [bind]. exists (with_lang i l'). split; [reflexivity|]. split; [exact V'|]. cbn [with_lang pi_lang]. split; [|split].
    + intros m Hf. cbn [with_lang pi_lang] in *. rewrite G. destruct (cname_eqb (CStr n) (CStr m)) eqn:Q; [eauto|]. destruct (HF m Hf) as [K|K]; [exact (X m K)|]. subst m. rewrite (proj2 (cname_eqb_eq _ _) eq_refl) in Q. discriminate.
    + intros m e He. rewrite G. destruct (cname_eqb (CStr n) m) eqn:Q; [|exact He]. apply cname_eqb_eq in Q. subst m. exfalso. apply Hn, (v_names _ _ _ _ _ _ V). eauto.
    + rewrite G. now rewrite (proj2 (cname_eqb_eq _ _) eq_refl).
Qed.
Lemma symbol_reads_inv rank i E tys N C n args cod i' : pinv rank i E tys N C -> process_symbol i n args cod = Ok i' -> ~ In n (reserved ++ tys ++ N) /\ (forall t, In t (mentioned args) -> In t tys) /\ In cod (sorts0 ++ tys).
Proof.
  intros V R. assert (A : forall t, In t (mentioned args) -> In t tys).
  { intros t Ht. destruct (in_dec string_dec t tys) as [Q|Q]; [exact Q|]. exfalso. unfold process_symbol in R. rewrite (normalize_err _ _ _ _ _ _ V args [] (ex_intro _ t (conj Ht Q))) in R. discriminate. }
  unfold process_symbol in R. rewrite (normalize_spec _ _ _ _ _ _ V args [] A) in R. cbn [map app bind] in R. apply bind_some in R as (l' & R & _). split; [|split; [exact A|]].
  - intros Q. destruct (symbol_used rank i E tys N C n (map snd (typed_variables args) ++ [cod]) V Q) as [e Ee]. match type of R with of_step ?z = _ => assert (W : of_step z = Err e) by exact Ee end. congruence.
  - cbn [lstep] in R. unfold declare_function in R. destruct (check_name _ _ _); [|discriminate]. destruct (mapM _ _) as [ts|] eqn:M; [|discriminate]. clear R. assert (M2 : exists c, retrieve (pi_lang i) cod = Ok c) by (destruct (mapM_ok_all _ _ _ M cod) as [c Hc]; [apply in_snoc; now right|eauto]). destruct M2 as [c2 M2]. clear M. rename M2 into M. unfold retrieve in M. destruct (has_sort (pi_lang i) cod) eqn:Q; [|discriminate]. now apply (h_sorts _ _ _ _ (v_hier _ _ _ _ _ _ V)).
Qed.
Lemma constants_indexed es : forall i i', indexed i -> (forall m e, lget (pi_lang i) m = Ok e -> lget (pi_lang i') m = Ok e) -> constants_def parse i es = Ok i' -> l_funs (pi_lang i') = l_funs (pi_lang i) -> indexed i'.
Proof. intros i i' X G _ F m Hm. unfold has_function in Hm. rewrite F in Hm. destruct (X m Hm) as [e He]. eauto. Qed.
Lemma constant_funs l c s : l_funs (fst (lstep parse l (OConst c s))) = l_funs l.
Proof.
  cbn [lstep]. unfold declare_constant. destruct (sget (l_sorts l) s) as [r|]; [|reflexivity]. destruct (s_builtin r); [destruct (s_kind r); [reflexivity|]; destruct (cast _ _ _ _ _); reflexivity|]. destruct (check_name _ _ _); [|reflexivity]. destruct (s_kind r).
  - destruct (extend (S (List.length (l_sorts l))) l s c) as [l1|] eqn:Q; [|reflexivity]. apply extend_same in Q as (_ & _ & _ & _ & Q & _). exact Q.
  - destruct (cast _ _ _ _ _); reflexivity.
Qed.
Lemma constants_def_funs es : forall i i', constants_def parse i es = Ok i' -> l_funs (pi_lang i') = l_funs (pi_lang i).
Proof.
  unfold constants_def. induction es as [|e es IH]; intros i i' R; cbn [foldM] in R; [now injection R as <-|]. destruct e as [n|p cs]; [discriminate|]. destruct (str_mem _ _); [|discriminate]. destruct (process_constants parse i (primitive_type p) cs) as [i1|] eqn:Q; [|discriminate].
  rewrite (IH i1 i' R). unfold process_constants in Q. apply bind_some in Q as (l1 & Q & W). injection W as <-. cbn [pi_lang]. clear -Q. revert Q. generalize (pi_lang i). induction cs as [|c cs IH]; intros l Q; cbn [foldM] in Q; [now injection Q as <-|].
  destruct (of_step (lstep parse l (OConst (CStr c) (primitive_type p)))) as [l2|] eqn:W; [|discriminate]. rewrite (IH l2 Q). unfold of_step in W. apply bind_some in W as (u & _ & W). injection W as <-. apply constant_funs.
Qed.
Theorem decls_read rank E tys ds : forall i N C, pinv rank i E tys N C -> indexed i -> decls_ok tys N ds ->
  exists i' N', foldM (process_decl parse) ds i = Ok i' /\ pinv rank i' E tys N' (C ++ map (fun e => (CStr (fst e), snd e)) (all_constants ds)) /\ (forall m e, lget (pi_lang i) m = Ok e -> lget (pi_lang i') m = Ok e) /\
    forall n ss, In (n, ss) (signatures ds) -> lget (pi_lang i') (CStr n) = Ok (EFun n ss).
Proof.
  assert (Sym : forall n args cod r i N C, pinv rank i E tys N C -> indexed i -> ~ In n (reserved ++ tys ++ N) -> (forall t, In t (mentioned args) -> In t tys) -> In cod (sorts0 ++ tys) ->
     (forall i1, pinv rank i1 E tys (N ++ [n]) C -> indexed i1 -> exists i' N', foldM (process_decl parse) r i1 = Ok i' /\ pinv rank i' E tys N' (C ++ map (fun e => (CStr (fst e), snd e)) (all_constants r)) /\ (forall m e, lget (pi_lang i1) m = Ok e -> lget (pi_lang i') m = Ok e) /\
       forall n ss, In (n, ss) (signatures r) -> lget (pi_lang i') (CStr n) = Ok (EFun n ss)) ->
     exists i1 i' N', process_symbol i n args cod = Ok i1 /\ foldM (process_decl parse) r i1 = Ok i' /\ pinv rank i' E tys N' (C ++ map (fun e => (CStr (fst e), snd e)) (all_constants r)) /\ (forall m e, lget (pi_lang i) m = Ok e -> lget (pi_lang i') m = Ok e) /\
       forall n' ss, In (n', ss) ((n, map snd (typed_variables args) ++ [cod]) :: signatures r) -> lget (pi_lang i') (CStr n') = Ok (EFun n' ss)).
  { intros n args cod r i N C V X K1 K2 K3 IH. destruct (symbol_reads rank i E tys N C n args cod V X K1 K2 K3) as (i1 & E1 & V1 & X1 & G1 & S1). destruct (IH i1 V1 X1) as (i2 & N2 & E2 & V2 & G2 & S2). exists i1, i2, N2. split; [exact E1|]. split; [exact E2|]. split; [exact V2|]. split; [auto|].
    intros n' ss [Q|Q]; [|auto]. injection Q as <- <-. apply G2, S1. }
  induction ds as [|d ds IH]; intros i N C V X K; [exists i, N; cbn; rewrite app_nil_r; split; [reflexivity|]; split; [exact V|]; split; [auto|intros n ss []]|]. destruct d as [es|n args|n args cod]; cbn [decls_ok] in K.
  - destruct K as [K1 K2]. destruct (section_constants parse rank E tys es i N C V K1) as (i1 & E1 & V1 & G1). cbn [foldM process_decl]. rewrite E1. destruct (IH i1 _ _ V1) as (i2 & N2 & E2 & V2 & G2 & S2).
    + exact (constants_indexed es i i1 X G1 E1 (constants_def_funs es i i1 E1)).
    + exact K2.
    + exists i2, N2. split; [exact E2|]. cbn [all_constants signatures flat_map]. fold (all_constants ds) (signatures ds). rewrite map_app, app_assoc. split; [exact V2|]. split; [auto|exact S2].
  - destruct K as (K1 & K2 & K3). destruct (Sym n args "Bool" ds i N C V X K1 K2) as (i1 & i2 & N2 & E1 & E2 & V2 & G2 & S2).
    + unfold sorts0. cbn [app In]. tauto.
    + intros i1 V1 X1. exact (IH i1 _ _ V1 X1 K3).
    + exists i2, N2. split; [cbn [foldM process_decl]; unfold process_predicate; fold (process_symbol i n args "Bool"); rewrite E1; exact E2|]. split; [exact V2|]. split; [exact G2|exact S2].
  - destruct K as (K1 & K2 & K4 & K3). destruct (Sym n args (match cod with Some p => primitive_type p | None => "Integer" end) ds i N C V X K1 K2) as (i1 & i2 & N2 & E1 & E2 & V2 & G2 & S2).
    + destruct cod as [p|]; [|unfold sorts0; cbn [app In]; tauto]. specialize (K4 p eq_refl). unfold numeric_sorts, sorts0 in *. cbn [app In] in *. tauto.
    + intros i1 V1 X1. exact (IH i1 _ _ V1 X1 K3).
    + exists i2, N2. split; [cbn [foldM process_decl]; unfold process_function; fold (process_symbol i n args (match cod with Some p => primitive_type p | None => "Integer" end)); rewrite E1; exact E2|]. split; [exact V2|]. split; [exact G2|exact S2].
Qed.
Theorem decls_read_inv rank E tys ds : ~ In "object" tys -> forall i N C i', pinv rank i E tys N C -> indexed i -> foldM (process_decl parse) ds i = Ok i' -> decls_ok tys N ds.
Proof.
  intros No. induction ds as [|d ds IH]; intros i N C i' V X R; [exact I|]. cbn [foldM] in R. destruct (process_decl parse i d) as [i1|] eqn:E1; [|discriminate]. destruct d as [es|n args|n args cod]; cbn [process_decl decls_ok] in *.
  - assert (K := section_constants_inv parse rank E tys es No i N C i1 V E1). split; [exact K|]. destruct (section_constants parse rank E tys es i N C V K) as (i1' & E1' & V1 & G1). assert (i1' = i1) as -> by congruence. apply (IH i1 _ _ i' V1); [|exact R]. exact (constants_indexed es i i1 X G1 E1 (constants_def_funs es i i1 E1)).
  - destruct (symbol_reads_inv rank i E tys N C n args "Bool" i1 V E1) as (K1 & K2 & K3). destruct (symbol_reads rank i E tys N C n args "Bool" V X K1 K2 K3) as (i1' & E1' & V1 & X1 & _). assert (i1' = i1) as -> by (unfold process_predicate in E1; unfold process_symbol in E1'; congruence).
    split; [exact K1|]. split; [exact K2|]. exact (IH i1 _ _ i' V1 X1 R).
  - set (cd := match cod with Some p => primitive_type p | None => "Integer" end) in *. destruct (symbol_reads_inv rank i E tys N C n args cd i1 V E1) as (K1 & K2 & K3). destruct (symbol_reads rank i E tys N C n args cd V X K1 K2 K3) as (i1' & E1' & V1 & X1 & _). assert (i1' = i1) as -> by (unfold process_function in E1; unfold process_symbol in E1'; fold cd in E1; congruence).
    split; [exact K1|]. split; [exact K2|]. split; [|exact (IH i1 _ _ i' V1 X1 R)]. intros p ->. cbn in cd. unfold cd in K3. assert (Np := primitive_object p). unfold numeric_sorts, sorts0 in *. cbn [app In] in *. destruct K3 as [K3|K3]; [congruence|tauto].
Qed.
End Symbols.
