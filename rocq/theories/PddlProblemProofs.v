(** Languages that declare the same things *)
From Coq Require Import Permutation.
From Verif Require Import Base Syntax SemLemmas ListUtil ModelState ModelProofs ModelTextProofs Lang LangSpec LangProofs LangProofs2 LangProofs3 Effects Represent Costs PddlText PddlRead PddlAction PddlProblem.
Local Open Scope string_scope.

Lemma dset_fresh {K V} (eqb : K -> K -> bool) (Heq : forall a b, eqb a b = true <-> a = b) (d : list (K * V)) k v : ~ In k (map fst d) -> dset eqb d k v = (d ++ [(k, v)])%list.
Proof.
  induction d as [|[a w] d IH]; cbn [dset map fst app]; intros H; [reflexivity|]. destruct (eqb a k) eqn:E; [apply Heq in E; subst; exfalso; apply H; now left|]. rewrite IH; [reflexivity|]. intros X. apply H. now right.
Qed.
(** ** What histories guarantee about declarations *)
(** The sorts in the order of their declaration: parents come first. *)
Inductive ord (par : string -> option string) : list string -> Prop :=
| ord_object : ord par ["object"]
| ord_snoc ks n p : ord par ks -> ~ In n ks -> In p ks -> par n = Some p -> ord par (ks ++ [n])%list.
Lemma ord_ext par par' ks : ord par ks -> (forall s, In s ks -> par' s = par s) -> ord par' ks.
Proof. induction 1 as [|ks n p H IH Hn Hp E]; intros Q; [constructor|]. apply ord_snoc with p; auto; [|rewrite Q; [exact E|]]; [apply IH; intros; apply Q|]; apply in_app_iff; auto; right; now left. Qed.
Record inv_decl (l : lang) : Prop := {
  id_ord : ord (parent_of l) (map fst (l_sorts l));
  id_preds : forall n ss s, In (n, ss) (l_preds l) -> In s ss -> is_sort l s;
  id_funs : forall n ss s, In (n, ss) (l_funs l) -> In s ss -> is_sort l s;
  id_nonempty : forall n, ~ In (n, []) (l_funs l)
}.
Lemma set_parent_same ow l s p : l_preds (fst (set_parent ow l s p)) = l_preds l /\ l_funs (fst (set_parent ow l s p)) = l_funs l /\ l_sorts (fst (set_parent ow l s p)) = l_sorts l /\ l_consts (fst (set_parent ow l s p)) = l_consts l.
Proof. unfold set_parent. destruct (sget (l_parent l) s) as [[q|]|]; [destruct ow; [|auto]| |]; destruct (closure _ _ p); simpl; auto. Qed.
Lemma new_sort_decl l n r p : inv_tree l -> inv_decl l -> ~ is_sort l n -> dget cname_eqb (l_index l) (CStr n) = None -> is_sort l p -> s_dom r = [] -> (s_kind r = KPlain -> s_builtin r = false) ->
  inv_decl (fst (set_parent false (register_sort l n r) n p)).
Proof.
  intros I D Nn Ni Hp Hd Hb. destruct (new_sort l n r p I Nn Ni Hp Hd Hb) as (l' & E & I' & P' & S' & C').
  destruct (set_parent_same false (register_sort l n r) n p) as (A & B & _). rewrite E in *. cbn [fst] in *. change (l_preds (register_sort l n r)) with (l_preds l) in A. change (l_funs (register_sort l n r)) with (l_funs l) in B.
  assert (Keys : map fst (l_sorts l') = (map fst (l_sorts l) ++ [n])%list) by (rewrite S', (dset_fresh String.eqb seqb) by exact Nn; now rewrite map_app).
  assert (Sup : forall s, is_sort l s -> is_sort l' s) by (intros s Hs; unfold is_sort; rewrite Keys; apply in_app_iff; now left).
  destruct D as [D1 D2 D3 D4]. constructor.
  - rewrite Keys. apply ord_snoc with p; auto.
    + apply (ord_ext (parent_of l)); [exact D1|]. intros s Hs. rewrite P'. destruct (String.eqb n s) eqn:Q; [apply seqb in Q; subst; contradiction|reflexivity].
    + rewrite P', String.eqb_refl. reflexivity.
  - rewrite A. eauto.
  - rewrite B. eauto.
  - rewrite B. exact D4.
Qed.
Lemma attach_decl l n r p : inv_tree l -> inv_decl l -> is_sort l p -> s_dom r = [] -> (s_kind r = KPlain -> s_builtin r = false) -> inv_decl (fst (attach l n r p)).
Proof.
  intros I D Hp Hd Hb. unfold attach. destruct (check_name l (has_sort l n) (CStr n)) as [[]|] eqn:E; [|exact D]. destruct (name_free l n I E) as [N1 N2]. now apply new_sort_decl.
Qed.
Lemma inv_decl_ext l l' : map fst (l_sorts l') = map fst (l_sorts l) -> l_parent l' = l_parent l -> l_preds l' = l_preds l -> l_funs l' = l_funs l -> inv_decl l -> inv_decl l'.
Proof.
  intros S P A B [D1 D2 D3 D4]. constructor; unfold is_sort in *; rewrite ?S, ?A, ?B; auto. apply (ord_ext (parent_of l)); [exact D1|]. intros s _. unfold parent_of. now rewrite P.
Qed.
Lemma ddel_In {V} (d : list (string * V)) k x : In x (ddel String.eqb d k) -> In x d.
Proof. induction d as [|[a w] d IH]; cbn [ddel]; [auto|]. destruct (String.eqb a k); intros H; [now right|]. destruct H as [<-|H]; [now left|right; auto]. Qed.
Lemma retrieve_all l args ts : mapM (retrieve l) args = Ok ts -> ts = args /\ forall s, In s args -> is_sort l s.
Proof.
  revert ts. induction args as [|a args IH]; intros ts H; cbn [mapM] in H; [injection H as <-; split; [reflexivity|intros s []]|].
  unfold retrieve in H at 1. destruct (Lang.has_sort l a) eqn:E; cbn [bind] in H; [|discriminate]. destruct (mapM (retrieve l) args) as [ts'|]; cbn [bind] in H; [|discriminate]. injection H as <-.
  destruct (IH ts' eq_refl) as [-> H]. split; [reflexivity|]. intros s [<-|Hs]; [now apply has_sort_spec|auto].
Qed.
Lemma lstep_decl parse l o : inv_tree l -> native o = true -> inv_decl l -> inv_decl (fst (lstep parse l o)).
Proof.
  intros I Hn D. destruct o as [n p|n p lb ub|c s|n args|n args|n|fuel t st| |n]; cbn [lstep] in *; try discriminate.
  - unfold declare_sort. destruct p as [p|].
    + unfold retrieve. destruct (Lang.has_sort l p) eqn:E; [|exact D]. apply has_sort_spec in E. now apply attach_decl.
    + destruct (Lang.has_sort l "object") eqn:E; [|exact D]. apply has_sort_spec in E. now apply attach_decl.
  - unfold declare_interval. destruct (check_name l (Lang.has_sort l n) (CStr n)) as [[]|] eqn:E; [|exact D].
    unfold retrieve. destruct (Lang.has_sort l p) eqn:Ep; [|exact D]. apply has_sort_spec in Ep. destruct (negb _); [exact D|]. destruct (negb _); [exact D|]. destruct (Z.leb ub lb); [exact D|].
    destruct (name_free l n I E) as [N1 N2]. apply new_sort_decl; auto; discriminate.
  - unfold declare_constant. destruct (sget (l_sorts l) s) as [r|]; [|exact D]. destruct (s_builtin r).
    { destruct (s_kind r); [exact D|]. destruct (cast _ _ _ _ _); exact D. }
    destruct (check_name _ _ c); [|exact D]. destruct (s_kind r).
    + destruct (extend _ l s c) as [l1|] eqn:E; [|exact D]. apply extend_same in E. destruct E as (P & _ & _ & A & B & _ & _ & K). cbn [fst]. apply (inv_decl_ext l); auto.
    + destruct (cast _ _ _ _ _); [|exact D]. cbn [fst]. apply (inv_decl_ext l); auto.
  - unfold declare_predicate. destruct (check_name l _ (CStr n)) eqn:E; [|exact D]. destruct (mapM (retrieve l) args) as [ts|] eqn:M; [|exact D]. apply retrieve_all in M as [-> M]. destruct D as [D1 D2 D3 D4].
    constructor; cbn [fst]; auto. intros n' ss s H Hs. cbn in H. destruct (dset_entries_eq String.eqb seqb _ _ _ _ _ H) as [[-> ->]|H']; [exact (M s Hs)|exact (D2 n' ss s H' Hs)].
  - unfold declare_function. destruct (check_name l _ (CStr n)) eqn:E; [|exact D]. destruct (mapM (retrieve l) args) as [[|t ts]|] eqn:M; try exact D. apply retrieve_all in M as [M0 M]. destruct D as [D1 D2 D3 D4].
    constructor; cbn [fst]; auto; cbn [l_funs set_index set_funs].
    + intros n' ss s H Hs. destruct (dset_entries_eq String.eqb seqb _ _ _ _ _ H) as [[-> ->]|H']; [rewrite M0 in Hs; exact (M s Hs)|exact (D3 n' ss s H' Hs)].
    + intros n' H. destruct (dset_entries_eq String.eqb seqb _ _ _ _ _ H) as [[_ X]|H']; [discriminate|exact (D4 n' H')].
  - unfold remove_symbol. destruct D as [D1 D2 D3 D4]. destruct (has_predicate l n); [|destruct (has_function l n)]; constructor; cbn [fst]; auto; cbn [l_preds l_funs set_index set_preds set_funs]; intros n'.
    + intros ss s H Hs. apply ddel_In in H. exact (D2 n' ss s H Hs).
    + intros ss s H Hs. apply ddel_In in H. exact (D3 n' ss s H Hs).
    + intros H. apply ddel_In in H. exact (D4 n' H).
  - destruct (is_subtype fuel l t st) as [l' r] eqn:E. destruct (subtype_sound fuel l t st l' r I E) as (_ & _ & P & S & _ & _ & A & B & _). cbn [fst]. apply (inv_decl_ext l); auto. now rewrite S.
  - unfold attach_arithmetic in *.
    assert (Ho : is_sort l "object"). { destruct (it_object l I) as (r & H & _). unfold is_sort. now apply (in_map fst) in H. }
    assert (Dec : inv_decl (fst (attach l "Real" (arith_sort true (- real_bound) real_bound) "object"))) by (apply attach_decl; auto; discriminate).
    destruct (attach_inv l "Real" (arith_sort true (- real_bound) real_bound) "object" I Ho) as (A1 & B1 & C1); auto; try discriminate.
    destruct (attach l "Real" _ "object") as [l1 [[]|]]; [|exact Dec]. simpl in A1, C1, Dec.
    assert (Dec2 : inv_decl (fst (attach l1 "Integer" (arith_sort false (- (2 ^ 31 - 1)) (2 ^ 31 - 1)) "Real"))) by (apply attach_decl; auto; try discriminate; apply C1; auto).
    destruct (attach_inv l1 "Integer" (arith_sort false (- (2 ^ 31 - 1)) (2 ^ 31 - 1)) "Real" A1) as (A2 & B2 & C2); auto; try discriminate. { apply C1; auto. }
    destruct (attach l1 "Integer" _ "Real") as [l2 [[]|]]; [|exact Dec2]. simpl in A2, C2, Dec2.
    apply attach_decl; auto; try discriminate. apply C2; auto.
Qed.
Lemma lang0_decl : inv_decl lang0.
Proof. constructor; cbn; [constructor|intros ? ? ? []|intros ? ? ? []|intros ? []]. Qed.
Lemma lrun_decl parse ops : forallb native ops = true -> inv_decl (lrun parse ops).
Proof.
  induction ops as [|o ops IH] using rev_ind; [intros; apply lang0_decl|]. rewrite forallb_app. intros H. apply andb_true_iff in H as [H1 H2].
  rewrite lrun_snoc. apply lstep_decl; auto using lrun_tree. simpl in H2. now rewrite andb_true_r in H2.
Qed.

(** ** Languages with given declarations *)
Definition names_of (S : list string) (P F : list (string * list sort)) (C : list (cname * sort)) : list cname := (map CStr S ++ map CStr (map fst P) ++ map CStr (map fst F) ++ map fst C)%list.
Record holds (par : string -> option string) (l : lang) (S : list string) (P F : list (string * list sort)) (C : list (cname * sort)) : Prop := {
  h_tree : inv_tree l;
  h_sorts : map fst (l_sorts l) = S;
  h_plain : forall s, In s S -> is_plain l s;
  h_parent : forall s, In s S -> parent_of l s = par s;
  h_preds : l_preds l = P;
  h_funs : l_funs l = F;
  h_consts : l_consts l = map (fun c => (fst c, c)) C
}.
Lemma consts_keys C : map fst (map (fun c : cname * sort => (fst c, c)) C) = map fst C.
Proof. rewrite map_map. apply map_ext. auto. Qed.
Lemma h_const par l S P F C c s : holds par l S P F C -> const_of l c s <-> In (c, s) C.
Proof.
  intros H. unfold const_of. rewrite (h_consts _ _ _ _ _ _ H). split.
  - intros [sym X]. apply in_map_iff in X as ([c' s'] & E & X). cbn in E. injection E as <- <- <-. exact X.
  - intros X. exists c. apply in_map_iff. exists (c, s). auto.
Qed.
Lemma h_fresh par l S P F C n : holds par l S P F C -> ~ In n (names_of S P F C) -> dget cname_eqb (l_index l) n = None.
Proof.
  intros H Hn. destruct (dget cname_eqb (l_index l) n) as [e|] eqn:E; [exfalso|reflexivity]. apply (ii_spec l (it_index l (h_tree _ _ _ _ _ _ H))) in E. apply Hn. unfold names_of. rewrite !in_app_iff.
  destruct e as [s|p ts|f ts|c s]; cbn [defined_as] in E.
  - destruct E as [-> E]. left. apply in_map. now rewrite (h_sorts _ _ _ _ _ _ H) in E.
  - destruct E as [-> E]. right. left. apply in_map. rewrite (h_preds _ _ _ _ _ _ H) in E. now apply (in_map fst) in E.
  - destruct E as [-> E]. right. right. left. apply in_map. rewrite (h_funs _ _ _ _ _ _ H) in E. now apply (in_map fst) in E.
  - destruct E as [-> E]. right. right. right. apply (h_const _ _ _ _ _ _ _ _ H) in E. now apply (in_map fst) in E.
Qed.
Lemma lang0_holds par : par "object" = None -> holds par lang0 ["object"] [] [] [].
Proof.
  intros E. constructor; auto using lang0_tree; [|].
  - intros s [<-|[]]. exists plain_rec. split; [now left|reflexivity].
  - intros s [<-|[]]. rewrite E. reflexivity.
Qed.
Section Steps.
Variable parse : bool -> string -> option Z.
Variable par : string -> option string.
Lemma check_free l b n : b = false -> dget cname_eqb (l_index l) n = None -> check_name l b n = Ok tt.
Proof. intros -> H. unfold check_name. now rewrite H. Qed.
Lemma step_sort l S P F C n p : holds par l S P F C -> ~ In (CStr n) (names_of S P F C) -> In p S -> par n = Some p ->
  exists l', declare parse l (OSort n (Some p)) = Ok l' /\ holds par l' (S ++ [n])%list P F C.
Proof.
  intros H Hn Hp Hpar. pose proof (h_fresh _ _ _ _ _ _ _ H Hn) as Hi. destruct H as [I H1 H2 H3 H4 H5 H6].
  assert (NS : ~ is_sort l n). { unfold is_sort. rewrite H1. intros X. apply Hn. unfold names_of. apply in_app_iff. left. now apply in_map. }
  assert (PS : is_sort l p) by (unfold is_sort; now rewrite H1).
  assert (Hb : Lang.has_sort l n = false). { destruct (Lang.has_sort l n) eqn:E; [|reflexivity]. now apply has_sort_spec in E. }
  destruct (new_sort l n plain_rec p I NS Hi PS eq_refl (fun _ => eq_refl)) as (l' & E & I' & P' & S' & C').
  exists l'. split.
  - unfold declare. cbn [lstep]. unfold declare_sort, retrieve. rewrite (proj2 (has_sort_spec l p) PS). unfold attach. rewrite (check_free l _ _ Hb Hi), E. reflexivity.
  - destruct (set_parent_same false (register_sort l n plain_rec) n p) as (A & B & _). rewrite E in A, B. cbn [fst] in A, B. change (l_preds (register_sort l n plain_rec)) with (l_preds l) in A. change (l_funs (register_sort l n plain_rec)) with (l_funs l) in B.
    assert (Ex : l_sorts l' = (l_sorts l ++ [(n, plain_rec)])%list) by (rewrite S'; apply (dset_fresh String.eqb seqb); exact NS).
    constructor; auto.
    + rewrite Ex, map_app, H1. reflexivity.
    + intros s Hs. apply in_app_iff in Hs as [Hs|[<-|[]]].
      * destruct (H2 s Hs) as (r & Hr & Kr). exists r. split; [rewrite Ex; apply in_app_iff; now left|exact Kr].
      * exists plain_rec. split; [rewrite Ex; apply in_app_iff; right; now left|reflexivity].
    + intros s Hs. rewrite P'. destruct (String.eqb n s) eqn:Q; [apply seqb in Q; subst; congruence|]. apply in_app_iff in Hs as [Hs|[<-|[]]]; [auto|]. rewrite String.eqb_refl in Q. discriminate.
    + congruence. + congruence. + congruence.
Qed.
Lemma step_const l S P F C c s : holds par l S P F C -> ~ In c (names_of S P F C) -> In s S ->
  exists l', declare parse l (OConst c s) = Ok l' /\ holds par l' S P F (C ++ [(c, s)])%list.
Proof.
  intros H Hn Hs. pose proof (h_fresh _ _ _ _ _ _ _ H Hn) as Hi. destruct H as [I H1 H2 H3 H4 H5 H6].
  destruct (proj1 (plain_sget l s (it_index l I)) (H2 s Hs)) as (r & Hr & Kr).
  assert (Hb : s_builtin r = false). { apply (sget_In _ _ _ (ii_sorts l (it_index l I))) in Hr. destruct (it_dom l I s r Hr) as (_ & D & _). now destruct (D Kr). }
  assert (Hk : ~ In c (map fst (l_consts l))). { rewrite H6, consts_keys. intros X. apply Hn. unfold names_of. rewrite !in_app_iff. auto. }
  assert (Hc : has_constant l c = false). { unfold has_constant. destruct (dget cname_eqb (l_consts l) c) as [v|] eqn:E; [|reflexivity]. apply (dget_In cname_eqb cname_eqb_eq) in E. apply (in_map fst) in E. contradiction. }
  destruct (it_rank l I) as (rank & R1 & R2). destruct (extend_spec c (Datatypes.S (List.length (l_sorts l))) l s rank R1 (it_anc l I)) as (l1 & E1 & X1); auto.
  { intros a b X. apply anc_sort in X; tauto. } { unfold is_sort. now rewrite H1. } { specialize (R2 s). lia. }
  assert (Hd : exists l', declare_constant parse l c s = (l', Ok tt) /\ l_parent l' = l_parent l /\ map fst (l_sorts l') = map fst (l_sorts l) /\ l_sorts l' = l_sorts l1 /\ l_preds l' = l_preds l /\ l_funs l' = l_funs l /\ l_consts l' = (l_consts l ++ [(c, (c, s))])%list).
  { unfold declare_constant. rewrite Hr, Hb, (check_free l _ _ Hc Hi), Kr, E1. eexists. split; [reflexivity|]. destruct X1 as [(A1 & A2 & A3 & A4 & A5 & A6 & A7 & A8) _]. cbn. repeat split; auto. rewrite A6. apply (dset_fresh cname_eqb cname_eqb_eq). exact Hk. }
  destruct Hd as (l' & Ed & L1 & L2 & L3 & L4 & L5 & L6). exists l'. split; [unfold declare; cbn [lstep]; now rewrite Ed|].
  destruct (constant_inv parse l c s I) as [I' _]. rewrite Ed in I'. cbn [fst] in I'.
  constructor; auto; try congruence.
  - intros x Hx. apply plain_sget; [apply I'|]. rewrite L3. apply (extended_plain c _ l l1 x X1). apply plain_sget; [apply I|auto].
  - intros x Hx. unfold parent_of. rewrite L1. apply (H3 x Hx).
  - rewrite L6, H6, map_app. reflexivity.
Qed.
Lemma retrieve_ok l ss : (forall s, In s ss -> is_sort l s) -> mapM (retrieve l) ss = Ok ss.
Proof. induction ss as [|s ss IH]; intros H; [reflexivity|]. cbn [mapM]. unfold retrieve at 1. rewrite (proj2 (has_sort_spec l s)) by (apply H; now left). cbn [bind]. rewrite IH by (intros; apply H; now right). reflexivity. Qed.
Lemma step_pred l S P F C n ss : holds par l S P F C -> ~ In (CStr n) (names_of S P F C) -> (forall s, In s ss -> In s S) ->
  exists l', declare parse l (OPred n ss) = Ok l' /\ holds par l' S (P ++ [(n, ss)])%list F C.
Proof.
  intros H Hn Hs. pose proof (h_fresh _ _ _ _ _ _ _ H Hn) as Hi. pose proof H as [I H1 H2 H3 H4 H5 H6].
  assert (Hk : ~ In n (map fst (l_preds l))). { rewrite H4. intros X. apply Hn. unfold names_of. rewrite !in_app_iff. right. left. now apply in_map. }
  assert (Hb : has_predicate l n = false). { unfold has_predicate. destruct (sget (l_preds l) n) as [v|] eqn:E; [|reflexivity]. exfalso. apply Hk. apply sget_key. eauto. }
  assert (Hd : exists l', declare_predicate l n ss = (l', Ok tt) /\ l_sorts l' = l_sorts l /\ l_parent l' = l_parent l /\ l_funs l' = l_funs l /\ l_consts l' = l_consts l /\ l_preds l' = (l_preds l ++ [(n, ss)])%list).
  { unfold declare_predicate. rewrite (check_free l _ _ Hb Hi), retrieve_ok; [|intros s Hx; unfold is_sort; rewrite H1; auto]. eexists. split; [reflexivity|]. cbn. repeat split. apply (dset_fresh String.eqb seqb). exact Hk. }
  destruct Hd as (l' & Ed & L1 & L2 & L3 & L4 & L5). exists l'. split; [unfold declare; cbn [lstep]; now rewrite Ed|].
  destruct (lstep_inv parse l (OPred n ss) I eq_refl) as [I' _]. cbn [lstep] in I'. rewrite Ed in I'. cbn [fst] in I'.
  constructor; auto; try congruence.
  - intros x Hx. unfold is_plain. rewrite L1. exact (H2 x Hx).
  - intros x Hx. unfold parent_of. rewrite L2. exact (H3 x Hx).
Qed.
Lemma step_fun l S P F C n ss : holds par l S P F C -> ~ In (CStr n) (names_of S P F C) -> ss <> [] -> (forall s, In s ss -> In s S) ->
  exists l', declare parse l (OFun n ss) = Ok l' /\ holds par l' S P (F ++ [(n, ss)])%list C.
Proof.
  intros H Hn Hne Hs. pose proof (h_fresh _ _ _ _ _ _ _ H Hn) as Hi. pose proof H as [I H1 H2 H3 H4 H5 H6].
  assert (Hk : ~ In n (map fst (l_funs l))). { rewrite H5. intros X. apply Hn. unfold names_of. rewrite !in_app_iff. right. right. left. now apply in_map. }
  assert (Hb : has_function l n = false). { unfold has_function. destruct (sget (l_funs l) n) as [v|] eqn:E; [|reflexivity]. exfalso. apply Hk. apply sget_key. eauto. }
  assert (Hd : exists l', declare_function l n ss = (l', Ok tt) /\ l_sorts l' = l_sorts l /\ l_parent l' = l_parent l /\ l_preds l' = l_preds l /\ l_consts l' = l_consts l /\ l_funs l' = (l_funs l ++ [(n, ss)])%list).
  { unfold declare_function. rewrite (check_free l _ _ Hb Hi), retrieve_ok; [|intros s Hx; unfold is_sort; rewrite H1; auto]. destruct ss as [|s0 ss]; [congruence|]. eexists. split; [reflexivity|]. cbn. repeat split. apply (dset_fresh String.eqb seqb). exact Hk. }
  destruct Hd as (l' & Ed & L1 & L2 & L3 & L4 & L5). exists l'. split; [unfold declare; cbn [lstep]; now rewrite Ed|].
  destruct (lstep_inv parse l (OFun n ss) I eq_refl) as [I' _]. cbn [lstep] in I'. rewrite Ed in I'. cbn [fst] in I'.
  constructor; auto; try congruence.
  - intros x Hx. unfold is_plain. rewrite L1. exact (H2 x Hx).
  - intros x Hx. unfold parent_of. rewrite L2. exact (H3 x Hx).
Qed.
(** A language that is reached by declarations alone *)
Definition reached (l : lang) : Prop := exists ops, forallb native ops = true /\ l = lrun parse ops.
Lemma declare_reached l o l' : reached l -> native o = true -> declare parse l o = Ok l' -> reached l'.
Proof.
  intros (ops & N & ->) Hn H. exists (ops ++ [o])%list. split; [rewrite forallb_app, N; cbn; now rewrite Hn|]. rewrite lrun_snoc. unfold declare in H. destruct (lstep parse (lrun parse ops) o) as [l1 [[]|]]; [|discriminate]. now injection H as <-.
Qed.
(** ** Many declarations *)
Lemma foldM_snoc {X T} (f : T -> X -> res T) s xs x : foldM f s (xs ++ [x])%list = (let! s' := foldM f s xs in f s' x).
Proof. revert s. induction xs as [|y xs IH]; intros s; cbn [app foldM bind]; [destruct (f s x); reflexivity|]. destruct (f s y); cbn [bind]; auto. Qed.
Lemma foldM_app {X T} (f : T -> X -> res T) s xs ys : foldM f s (xs ++ ys)%list = (let! s' := foldM f s xs in foldM f s' ys).
Proof. revert s. induction xs as [|y xs IH]; intros s; cbn [app foldM bind]; [reflexivity|]. destruct (f s y); cbn [bind]; auto. Qed.
Lemma NoDup_snoc_In {X} (a b : list X) x : NoDup (a ++ x :: b) -> ~ In x a.
Proof. intros H X0. apply NoDup_remove_2 in H. apply H. apply in_app_iff. now left. Qed.
Lemma steps_sorts (f : lang -> string -> res lang) : forall S, ord par S -> par "object" = None ->
  (forall l n p, In n (tl S) -> par n = Some p -> is_sort l p -> f l n = declare parse l (OSort n (Some p))) ->
  exists l, foldM f lang0 (tl S) = Ok l /\ holds par l S [] [] [] /\ reached l /\ exists r, S = "object" :: r.
Proof.
  intros S H Ho Hf. induction H as [|ks n p H IH Hn Hp Hpar].
  - exists lang0. split; [reflexivity|]. split; [now apply lang0_holds|]. split; [exists []; auto|now exists []].
  - assert (Hks : exists r, ks = "object" :: r) by (clear -H; induction H as [|ks n p _ [r ->] _ _ _]; [now exists []|now exists (r ++ [n])%list]). destruct Hks as [r ->]. cbn [tl app] in *.
    destruct IH as (l & E & Hl & R & _). { intros l n' p' Hn'. apply Hf. apply in_app_iff. now left. }
    destruct (step_sort l _ _ _ _ n p Hl) as (l' & E' & H'); auto.
    { unfold names_of. cbn. rewrite app_nil_r. intros [X|X]; [injection X as <-; apply Hn; now left|]. apply in_map_iff in X as (y & Q & Hy). injection Q as <-. apply Hn. now right. }
    exists l'. split; [rewrite foldM_snoc, E; cbn [bind]; rewrite (Hf l n p); [exact E'| |exact Hpar|]|].
    { apply in_app_iff. right. now left. } { unfold is_sort. now rewrite (h_sorts _ _ _ _ _ _ Hl). }
    split; [exact H'|]. split; [|now exists (r ++ [n])%list]. apply (declare_reached l (OSort n (Some p))); auto.
Qed.
(** Reading declarations one by one *)
Definition has_sorts (S : list string) (l : lang) : Prop := inv_tree l /\ forall s, In s S -> is_sort l s.
Lemma declare_sorts S l o l' : native o = true -> has_sorts S l -> declare parse l o = Ok l' -> has_sorts S l'.
Proof.
  intros Hn [I H] E. unfold declare in E. destruct (lstep parse l o) as [l1 [[]|]] eqn:Q; [|discriminate]. injection E as <-. split.
  - destruct (lstep_inv parse l o I Hn) as [I' _]. now rewrite Q in I'.
  - intros s Hs. destruct (lstep_parent_stable parse l o s I Hn (H s Hs)) as [_ X]. now rewrite Q in X.
Qed.
Lemma foldM_sim {X Y T} (Inv : T -> Prop) (f : T -> X -> res T) (g : T -> Y -> res T) xs ys :
  Forall2 (fun x y => forall s, Inv s -> f s x = g s y) xs ys -> (forall s y s', In y ys -> Inv s -> g s y = Ok s' -> Inv s') -> forall s, Inv s -> foldM f s xs = foldM g s ys.
Proof.
  induction 1 as [|x y xs ys E _ IH]; intros Hp s Hs; [reflexivity|]. cbn [foldM]. rewrite E by exact Hs. destruct (g s y) as [s'|] eqn:Q; [|reflexivity]. cbn [bind]. apply IH; [|apply (Hp s y); auto; now left].
  intros s0 y0 s1 Hy. apply Hp. now right.
Qed.
Lemma steps_consts S P F : forall cs l C, holds par l S P F C -> reached l -> NoDup (names_of S P F (C ++ cs)) -> (forall c s, In (c, s) cs -> In s S) ->
  exists l', foldM (fun l cs => declare parse l (OConst (fst cs) (snd cs))) l cs = Ok l' /\ holds par l' S P F (C ++ cs) /\ reached l'.
Proof.
  induction cs as [|[c s] cs IH]; intros l C Hl R N Hs; [exists l; rewrite app_nil_r; auto|].
  assert (E : (C ++ (c, s) :: cs)%list = ((C ++ [(c, s)]) ++ cs)%list) by (rewrite <- app_assoc; reflexivity).
  destruct (step_const l S P F C c s Hl) as (l1 & E1 & H1).
  { unfold names_of in *. rewrite map_app, !app_assoc in N. cbn [map fst] in N. apply NoDup_snoc_In in N. rewrite <- !app_assoc in N. exact N. } { apply (Hs c). now left. }
  destruct (IH l1 (C ++ [(c, s)])%list H1) as (l2 & E2 & H2 & R2).
  { apply (declare_reached l (OConst c s)); auto. } { now rewrite <- E. } { intros c' s' X. apply (Hs c'). now right. }
  exists l2. split; [cbn [foldM fst snd]; rewrite E1; exact E2|]. rewrite E. auto.
Qed.
Lemma NoDup_move {X} (a : list X) x b : NoDup (x :: a ++ b) <-> NoDup (a ++ x :: b).
Proof. split; intros H; eapply Permutation_NoDup; try exact H; [|symmetry]; apply Permutation_middle. Qed.
Lemma steps_preds S F C : forall ps l P, holds par l S P F C -> reached l -> NoDup (names_of S (P ++ ps) F C) -> (forall n ss s, In (n, ss) ps -> In s ss -> In s S) ->
  exists l', foldM (fun l d => declare parse l (OPred (fst d) (snd d))) l ps = Ok l' /\ holds par l' S (P ++ ps) F C /\ reached l'.
Proof.
  induction ps as [|[n ss] ps IH]; intros l P Hl R N Hs; [exists l; rewrite app_nil_r; auto|].
  assert (E : (P ++ (n, ss) :: ps)%list = ((P ++ [(n, ss)]) ++ ps)%list) by (rewrite <- app_assoc; reflexivity).
  destruct (step_pred l S P F C n ss Hl) as (l1 & E1 & H1).
  { unfold names_of in *. intros X. rewrite !map_app in N. cbn [map fst] in N. rewrite <- !app_assoc in N. rewrite app_assoc in N. cbn [app] in N. apply NoDup_remove_2 in N. apply N.
    rewrite !in_app_iff in *. tauto. } { intros s Hx. apply (Hs n ss s); [now left|exact Hx]. }
  destruct (IH l1 (P ++ [(n, ss)])%list H1) as (l2 & E2 & H2 & R2).
  { apply (declare_reached l (OPred n ss)); auto. } { now rewrite <- E. } { intros n' ss' s X. apply (Hs n'). now right. }
  exists l2. split; [cbn [foldM fst snd]; rewrite E1; exact E2|]. rewrite E. auto.
Qed.
Lemma steps_funs S P C : forall fs l F, holds par l S P F C -> reached l -> NoDup (names_of S P (F ++ fs) C) -> (forall n ss s, In (n, ss) fs -> In s ss -> In s S) -> (forall n, ~ In (n, []) fs) ->
  exists l', foldM (fun l d => declare parse l (OFun (fst d) (snd d))) l fs = Ok l' /\ holds par l' S P (F ++ fs) C /\ reached l'.
Proof.
  induction fs as [|[n ss] fs IH]; intros l F Hl R N Hs Hne; [exists l; rewrite app_nil_r; auto|].
  assert (E : (F ++ (n, ss) :: fs)%list = ((F ++ [(n, ss)]) ++ fs)%list) by (rewrite <- app_assoc; reflexivity).
  destruct (step_fun l S P F C n ss Hl) as (l1 & E1 & H1).
  { unfold names_of in *. intros X. rewrite !map_app in N. cbn [map fst] in N. rewrite <- !app_assoc in N. rewrite !app_assoc in N. cbn [app] in N. rewrite <- !app_assoc in N. rewrite !app_assoc in N. cbn [app] in N.
    rewrite <- (app_assoc _ (_ :: _)) in N. cbn [app] in N. apply NoDup_remove_2 in N. apply N. rewrite !in_app_iff in *. tauto. } { intros ->. apply (Hne n). now left. } { intros s Hx. apply (Hs n ss s); [now left|exact Hx]. }
  destruct (IH l1 (F ++ [(n, ss)])%list H1) as (l2 & E2 & H2 & R2).
  { apply (declare_reached l (OFun n ss)); auto. } { now rewrite <- E. } { intros n' ss' s X. apply (Hs n'). now right. } { intros n' X. apply (Hne n'). now right. }
  exists l2. split; [cbn [foldM fst snd]; rewrite E1; exact E2|]. rewrite E. auto.
Qed.
End Steps.
