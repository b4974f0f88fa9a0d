(** The language of a PDDL domain: its names, and the order of its types *)
From Verif Require Import Base Syntax SemLemmas ListUtil ModelState ModelProofs FreeVars Lang LangSpec LangProofs LangProofs2 Theories TheoriesSpec RddlInitProofs2 PddlInstance PddlInstanceSpec PddlInstanceProofs PddlInstanceProofs2 PddlInstanceProofs3 PddlInstanceProofs4 PddlInstanceProofs5 PropsPddlInstance PddlExpr PddlExprSpec PddlExprProofs.
#[local] Open Scope string_scope.
#[local] Open Scope list_scope.

Lemma types_reserved es : forall known, (forall n, In n known -> ~ In n reserved) -> types_ok known es -> forall n, In n (types_of es) -> ~ In n reserved.
Proof.
  induction es as [|e es IH]; intros known K T n Hn; [destruct Hn|]. destruct e as [m|p subs]; cbn [types_ok types_of flat_map] in *; fold (types_of es) in Hn.
  - destruct T as [T1 T2]. assert (M : ~ In m reserved) by (intros Q; apply T1; apply in_app_iff; now left). destruct Hn as [<- |Hn]; [exact M|]. apply (IH (known ++ [m])); auto. intros x Hx. apply in_app_iff in Hx as [Hx|[<- |[]]]; auto.
  - destruct T as [T1 T2]. assert (M : forall x, In x (primitive_type p :: subs) -> ~ In x reserved).
    { intros x Hx Q. destruct T1 as [(A & B & C)|(A & B & C)]; destruct Hx as [<- |Hx]; [exact (K _ A Q)|apply (C x Hx); apply in_app_iff; now left|apply A; apply in_app_iff; now left|exact (C x Hx Q)]. }
    apply in_app_iff in Hn as [Hn|Hn]; [exact (M n Hn)|]. apply (IH (known ++ primitive_type p :: subs)); auto. intros x Hx. apply in_app_iff in Hx as [Hx|Hx]; auto.
Qed.
Lemma decls_names tys ds : forall N, decls_ok tys N ds ->
  (forall n, In n (map fst (all_constants ds) ++ map fst (signatures ds)) -> ~ In n (reserved ++ tys ++ N)) /\ NoDup (map fst (all_constants ds)) /\ NoDup (map fst (signatures ds)) /\ forall n, In n (map fst (all_constants ds)) -> ~ In n (map fst (signatures ds)).
Proof.
  assert (Nw : forall N a n, ~ In n (reserved ++ tys ++ N ++ a) -> ~ In n (reserved ++ tys ++ N) /\ ~ In n a). { intros N a n H. split; intros Q; apply H; rewrite !in_app_iff in *; tauto. }
  induction ds as [|d ds IH]; intros N K; [split; [intros n []|]; split; [constructor|]; split; [constructor|]; intros n []|].
  destruct d as [es|n args|n args cod]; cbn [decls_ok] in K; cbn [all_constants signatures flat_map]; fold (all_constants ds) (signatures ds); cbn [app].
  - destruct K as [(K1 & K2 & K3) K]. destruct (IH _ K) as (I1 & I2 & I3 & I4). rewrite !map_app. split; [|split; [|split; [exact I3|]]].
    + intros m Hm. rewrite !in_app_iff in Hm. destruct Hm as [[Hm|Hm]|Hm]; [exact (K3 m Hm)|apply (Nw N (map fst (constants_of es)) m); apply I1; apply in_app_iff; now left|apply (Nw N (map fst (constants_of es)) m); apply I1; apply in_app_iff; now right].
    + apply NoDup_app_iff_simple; [exact K2|exact I2|]. intros m Hm Q. apply (proj2 (Nw N (map fst (constants_of es)) m (I1 m (in_or_app _ _ _ (or_introl Q))))). exact Hm.
    + intros m Hm Q. apply in_app_iff in Hm as [Hm|Hm]; [|exact (I4 m Hm Q)]. apply (proj2 (Nw N (map fst (constants_of es)) m (I1 m (in_or_app _ _ _ (or_intror Q))))). exact Hm.
  - destruct K as (K1 & _ & K). destruct (IH _ K) as (I1 & I2 & I3 & I4). cbn [map fst]. split; [|split; [exact I2|split]].
    + intros m Hm. apply in_app_iff in Hm as [Hm|[<- |Hm]]; [apply (Nw N [n] m); apply I1; apply in_app_iff; now left|exact K1|apply (Nw N [n] m); apply I1; apply in_app_iff; now right].
    + constructor; [|exact I3]. intros Q. apply (proj2 (Nw N [n] n (I1 n (in_or_app _ _ _ (or_intror Q))))). now left.
    + intros m Hm [<- |Q]; [|exact (I4 m Hm Q)]. apply (proj2 (Nw N [n] n (I1 n (in_or_app _ _ _ (or_introl Hm))))). now left.
  - destruct K as (K1 & _ & _ & K). destruct (IH _ K) as (I1 & I2 & I3 & I4). cbn [map fst]. split; [|split; [exact I2|split]].
    + intros m Hm. apply in_app_iff in Hm as [Hm|[<- |Hm]]; [apply (Nw N [n] m); apply I1; apply in_app_iff; now left|exact K1|apply (Nw N [n] m); apply I1; apply in_app_iff; now right].
    + constructor; [|exact I3]. intros Q. apply (proj2 (Nw N [n] n (I1 n (in_or_app _ _ _ (or_intror Q))))). now left.
    + intros m Hm [<- |Q]; [|exact (I4 m Hm Q)]. apply (proj2 (Nw N [n] n (I1 n (in_or_app _ _ _ (or_introl Hm))))). now left.
Qed.
Lemma variables_typed tys vs : (forall t, In t (mentioned vs) -> In t tys) -> forall x s, In (x, s) (typed_variables vs) -> In s ("object" :: tys).
Proof.
  assert (Nx : forall vs, (forall t, In t (mentioned vs) -> In t tys) -> In (next_type vs) ("object" :: tys)). { clear. induction vs as [|[n|p] vs IH]; intros H; cbn [next_type]; [now left|apply IH; intros t Ht; apply H; exact Ht|right; apply H; now left]. }
  induction vs as [|[n|p] vs IH]; intros H x s K; cbn [typed_variables] in K; [destruct K| |].
  - assert (H' : forall t, In t (mentioned vs) -> In t tys) by (intros t Ht; apply H; exact Ht). destruct K as [K|K]; [injection K as _ <-; exact (Nx vs H')|exact (IH H' x s K)].
  - apply (IH (fun t Ht => H t (or_intror Ht)) x s K).
Qed.
Lemma signatures_typed tys ds : forall N, decls_ok tys N ds -> forall n ss, In (n, ss) (signatures ds) -> exists args cod, ss = args ++ [cod] /\ (forall s, In s args -> In s ("object" :: tys)) /\ In cod (numeric_sorts ++ tys).
Proof.
  induction ds as [|d ds IH]; intros N K n ss H; [destruct H|]. destruct d as [es|m args|m args cod]; cbn [decls_ok] in K; cbn [signatures flat_map] in H; fold (signatures ds) in H; cbn [app] in H.
  - destruct K as [_ K]. exact (IH _ K n ss H).
  - destruct K as (_ & K1 & K). destruct H as [H|H]; [|exact (IH _ K n ss H)]. injection H as <- <-. exists (map snd (typed_variables args)), "Bool". split; [reflexivity|]. split; [|apply in_app_iff; left; cbn; tauto]. intros s Hs. apply in_map_iff in Hs as ([x s'] & <- & Hx). exact (variables_typed tys args K1 x s' Hx).
  - destruct K as (_ & K1 & K2 & K). destruct H as [H|H]; [|exact (IH _ K n ss H)]. injection H as <- <-. eexists. eexists. split; [reflexivity|]. split; [intros s Hs; apply in_map_iff in Hs as ([x s'] & <- & Hx); exact (variables_typed tys args K1 x s' Hx)|]. destruct cod as [p|]; [exact (K2 p eq_refl)|]. apply in_app_iff. left. cbn. tauto.
Qed.
Record facts (es : list tentry) (ds : list decl) (i : pinst) : Prop := {
  fa_sym : forall f ss, In (f, ss) (symbols ds) -> lget (pi_lang i) (CStr f) = Ok (EFun f ss);
  fa_const : forall n s, In (n, s) (all_constants ds) -> lget (pi_lang i) (CStr n) = Ok (EConst (CStr n) s);
  fa_elem : forall n e, lget (pi_lang i) (CStr n) = Ok e -> (e = ESort n /\ In n (reserved ++ types_of es)) \/ (exists s, e = EConst (CStr n) s /\ In (n, s) (all_constants ds)) \/ (exists ss, e = EFun n ss /\ In (n, ss) (symbols ds));
  fa_used : forall n, In n (reserved ++ types_of es ++ map fst (signatures ds)) -> exists e, lget (pi_lang i) (CStr n) = Ok e;
  fa_names : forall n, In n (map fst (all_constants ds)) -> ~ In n (reserved ++ types_of es ++ map fst (signatures ds));
  fa_typed : forall f ss, In (f, ss) (symbols ds) -> exists args cod, ss = args ++ [cod] /\ (forall s, In s args -> In s ("object" :: types_of es)) /\ In cod (sorts0 ++ types_of es);
  fa_ctyped : forall n s, In (n, s) (all_constants ds) -> In s (types_of es);
  fa_preds : forall f ss, In (f, ss) (symbols ds) -> String.eqb (last ss "") "Bool" = str_mem f (predicate_names ds);
  fa_new : forall t, In t (types_of es) -> ~ In t sorts0;
  fa_info : info (pi_lang i) (all_constants ds) (signatures ds);
  fa_vars : forall vs, (exists xs, normalize i [] vs = Ok xs) <-> variables_ok es vs;
  fa_plain : forall s r c, In s ("object" :: types_of es) -> sget (l_sorts (pi_lang i)) s = Some r -> s_kind r = KPlain /\ (In c (s_dom r) -> exists n, c = CStr n);
  fa_sorted : forall s, In s (sorts0 ++ types_of es) -> has_sort (pi_lang i) s = true
}.
Lemma read_facts parse es ds i : read_domain parse es ds = Ok i -> facts es ds i.
Proof.
  intros R. assert (F := domain_info parse es ds i R). destruct (read_state parse es ds i R) as (T & D & rank & E & N & V & L & S). assert (TR := types_reserved es [] (fun n H => match H with end) T).
  destruct (decls_names _ _ _ D) as (D1 & D2 & D3 & D4). assert (H := v_hier _ _ _ _ _ _ V).
  assert (Nres : forall n, In n (map fst (all_constants ds) ++ map fst (signatures ds)) -> ~ In n reserved /\ ~ In n (types_of es)). { intros n Hn. specialize (D1 n Hn). rewrite !in_app_iff in D1. tauto. }
  assert (So : forall n, has_sort (pi_lang i) n = true -> In n (sorts0 ++ types_of es)) by (intros n; apply (h_sorts _ _ _ _ H)).
  assert (Ites : ~ In "ite" sorts0) by (intros Q; vm_compute in Q; repeat destruct Q as [Q|Q]; try discriminate Q; destruct Q).
  assert (Ires : In "ite" reserved) by (unfold reserved; cbn; tauto).
  assert (Ite : lget (pi_lang i) (CStr "ite") = Ok (EFun "ite" ["object"; "object"; "object"])).
  { destruct (proj2 (v_names _ _ _ _ _ _ V "ite")) as (e & Le); [apply in_app_iff; now left|]. rewrite Le. f_equal. destruct (in_elem _ _ _ F "ite" e Le) as [[-> Q]|[(s & -> & Q)|(ss & -> & Q)]].
    - apply So in Q. apply in_app_iff in Q as [Q|Q]; [contradiction|]. now destruct (TR _ Q).
    - apply (in_map fst) in Q. destruct (Nres _ (in_or_app _ _ _ (or_introl Q))) as [W _]. contradiction.
    - destruct Q as [Q|Q]; [now injection Q as <-|]. apply (in_map fst) in Q. destruct (Nres _ (in_or_app _ _ _ (or_intror Q))) as [W _]. contradiction. }
  assert (Sy : forall f ss, In (f, ss) (symbols ds) -> lget (pi_lang i) (CStr f) = Ok (EFun f ss)). { intros f ss [Q|Q]; [injection Q as <- <-; exact Ite|exact (S f ss Q)]. }
  assert (El : forall n e, lget (pi_lang i) (CStr n) = Ok e -> (e = ESort n /\ In n (reserved ++ types_of es)) \/ (exists s, e = EConst (CStr n) s /\ In (n, s) (all_constants ds)) \/ (exists ss, e = EFun n ss /\ In (n, ss) (symbols ds))).
  { intros n e Le. destruct (in_elem _ _ _ F n e Le) as [[-> Q]|[Q|Q]]; [left; split; [reflexivity|]|now right; left|now right; right]. apply So in Q. rewrite in_app_iff in *. destruct Q as [Q|Q]; [left; now apply sorts_reserved|now right]. }
  constructor.
  - exact Sy.
  - intros n s Hn. assert (Hn' : In n (map fst (all_constants ds))) by (apply (in_map fst) in Hn; exact Hn). destruct (Nres n (in_or_app _ _ _ (or_introl Hn'))) as [W1 W2].
    assert (G := v_have _ _ _ _ _ _ V (CStr n) s ltac:(apply in_map_iff; exists (n, s); auto)). destruct (v_consts _ _ _ _ _ _ V (CStr n)) as (e & Le); [unfold has_constant; now rewrite G|]. rewrite Le. f_equal. destruct (in_elem _ _ _ F n e Le) as [[-> Q]|[(s' & -> & Q)|(ss & -> & Q)]].
    + exfalso. apply So in Q. apply in_app_iff in Q as [Q|Q]; [apply W1; now apply sorts_reserved|contradiction].
    + f_equal. assert (NoDup_key : forall (K : list (string * string)) a b b', NoDup (map fst K) -> In (a, b) K -> In (a, b') K -> b = b').
      { clear. induction K as [|[k v] K IH]; intros a b b' N H1 H2; [destruct H1|]. cbn [map fst] in N. inversion N as [|? ? N1 N2]; subst. destruct H1 as [H1|H1], H2 as [H2|H2]; [congruence| | |exact (IH a b b' N2 H1 H2)].
        - injection H1 as -> ->. destruct N1. now apply (in_map fst) in H2.
        - injection H2 as -> ->. destruct N1. now apply (in_map fst) in H1. }
      exact (NoDup_key _ _ _ _ D2 Q Hn).
    + exfalso. destruct Q as [Q|Q]; [injection Q as <- _; contradiction|]. apply (in_map fst) in Q. exact (D4 n Hn' Q).
  - exact El.
  - intros n Hn. rewrite !in_app_iff in Hn. destruct Hn as [Hn|[Hn|Hn]]; [apply (v_names _ _ _ _ _ _ V); rewrite !in_app_iff; tauto|apply (v_names _ _ _ _ _ _ V); rewrite !in_app_iff; tauto|]. apply in_map_iff in Hn as ([m ss] & <- & Hn). exists (EFun m ss). now apply S.
  - intros n Hn Q. destruct (Nres n (in_or_app _ _ _ (or_introl Hn))) as [W1 W2]. rewrite !in_app_iff in Q. destruct Q as [Q|[Q|Q]]; [contradiction|contradiction|]. exact (D4 n Hn Q).
  - intros f ss [Q|Q].
    + injection Q as <- <-. exists ["object"; "object"], "object". split; [reflexivity|]. split; [intros s [<- |[<- |[]]]; now left|]. apply in_app_iff. left. now left.
    + destruct (signatures_typed _ _ _ D f ss Q) as (args & cod & -> & A & B). exists args, cod. split; [reflexivity|]. split; [exact A|]. apply in_app_iff in B as [B|B]; apply in_app_iff; [left|now right]. unfold sorts0, numeric_sorts in *. cbn [In] in *. tauto.
  - exact (constants_typed _ ds [] D).
  - intros f ss Hf. apply eq_true_iff_eq. rewrite str_mem_In. unfold predicate_names. rewrite in_map_iff. split.
    + intros B. destruct Hf as [Q|Q]; [injection Q as <- <-; discriminate B|]. exists (f, ss). split; [reflexivity|]. apply filter_In. split; [exact Q|exact B].
    + intros ([f' ss'] & Q & B). cbn [fst] in Q. subst f'. apply filter_In in B as [B1 B2]. cbn [snd] in B2. assert (Q := Sy f ss Hf). rewrite (S f ss' B1) in Q. injection Q as ->. exact B2.
  - intros t Ht Q. apply (TR t Ht). now apply sorts_reserved.
  - exact F.
  - intros vs. destruct (C66_variables parse es ds i vs R) as [A B]. split; [|intros W; eexists; exact (A W)]. intros (xs & X) t Ht. destruct (in_dec string_dec t (types_of es)) as [Q|Q]; [exact Q|]. rewrite B in X by eauto. discriminate X.
  - intros s r c Hs G. destruct (h_plain _ _ _ _ H s Hs) as (r' & G' & K & _). rewrite G in G'. injection G' as <-. split; [exact K|]. intros Hc. apply (v_dom _ _ _ _ _ _ V s r Hs G) in Hc as (u & Hc & _). apply in_map_iff in Hc as ([m u'] & Q & _). injection Q as <- _. eauto.
  - intros s Hs. now apply (h_sorts _ _ _ _ H).
Qed.
(** ** The order *)
Lemma list_sum_ge (f : string -> nat) x xs : In x xs -> f x <= list_sum (map f xs).
Proof. induction xs as [|y xs IH]; intros H; [destruct H|]. destruct H as [-> |H]; cbn [map list_sum fold_right]; [lia|]. specialize (IH H). change (fold_right Init.Nat.add 0 (map f xs)) with (list_sum (map f xs)). lia. Qed.
Lemma number_search l t k : (forall s, In s numeric_sorts -> sget (l_anc l) s = sget (l_anc first_lang) s) -> (get_set (l_anc l) "object" = []) -> (forall s, In s numeric_sorts -> get_set (l_ind l) s = []) ->
  t <> "object" -> ~ In t numeric_sorts -> forall s, In s numeric_sorts -> snd (connected (20 + k) l s t) = Ok false.
Proof.
  intros A O D No Nn s Hs. unfold connected. rewrite (D s Hs). cbn [str_mem existsb].
  assert (AR : get_set (l_anc l) "Real" = ["object"]) by (unfold get_set; rewrite A by (cbn; tauto); reflexivity).
  assert (AI : get_set (l_anc l) "Integer" = ["Real"; "object"]) by (unfold get_set; rewrite A by (cbn; tauto); reflexivity).
  assert (AN : get_set (l_anc l) "Natural" = ["Integer"; "Real"; "object"]) by (unfold get_set; rewrite A by (cbn; tauto); reflexivity).
  assert (AB : get_set (l_anc l) "Bool" = ["Integer"; "Real"; "object"]) by (unfold get_set; rewrite A by (cbn; tauto); reflexivity).
  assert (E0 : String.eqb "object" t = false) by (apply String.eqb_neq; congruence). assert (E1 : String.eqb "Real" t = false) by (apply String.eqb_neq; intros <-; apply Nn; cbn; tauto). assert (E2 : String.eqb "Integer" t = false) by (apply String.eqb_neq; intros <-; apply Nn; cbn; tauto).
  assert (Q : forall m, search (S m) l t [] = Ok false) by reflexivity.
  assert (SO : forall m opn, search (S m) l t ("object" :: opn) = search m l t opn). { intros m opn. cbn [search]. rewrite E0, O. reflexivity. }
  assert (SR : forall m opn, search (S m) l t ("Real" :: opn) = search m l t (push_new ["object"] opn)). { intros m opn. cbn [search]. rewrite E1, AR. reflexivity. }
  assert (SI : forall m opn, search (S m) l t ("Integer" :: opn) = search m l t (push_new ["Real"; "object"] opn)). { intros m opn. cbn [search]. rewrite E2, AI. reflexivity. }
  apply in_numeric in Hs as [-> |[-> |[-> | ->]]]; rewrite ?AR, ?AI, ?AN, ?AB; cbn [rev app Nat.add]; repeat (first [rewrite SO|rewrite SR|rewrite SI|rewrite Q]; cbn [push_new str_mem existsb]; repeat match goal with |- context [String.eqb ?a ?b || _] => let r := eval vm_compute in (String.eqb a b) in change (String.eqb a b) with r; cbn [orb] end); reflexivity.
Qed.
Definition decides (es : list tentry) (i : pinst) (fuel : nat) : Prop :=
  (forall s t, In s (sorts0 ++ types_of es) -> In t ("object" :: types_of es) -> exists b, snd (is_subtype fuel (pi_lang i) s t) = Ok b /\ (b = true <-> conforms es s t)) /\
  forall s, In s (sorts0 ++ types_of es) -> exists b, snd (is_subtype fuel (pi_lang i) s "Real") = Ok b /\ (b = true <-> numeric s).
Theorem order parse es ds i : read_domain parse es ds = Ok i -> exists n0, forall fuel, n0 <= fuel -> decides es i fuel.
Proof.
  intros R. assert (F := domain_info parse es ds i R). assert (FF := read_facts parse es ds i R). destruct (read_state parse es ds i R) as (T & D & rank & E & N & V & L & S). assert (H := v_hier _ _ _ _ _ _ V).
  set (l := pi_lang i) in *. set (w := fun s => weight rank l (rev (get_set (l_anc l) s))). exists (20 + list_sum (map (fun s => Datatypes.S (w s)) ("object" :: types_of es))). intros fuel Hf.
  assert (Hs0 : forall s, In s (sorts0 ++ types_of es) -> In s ("object" :: types_of es) \/ In s numeric_sorts). { intros s Hs. apply in_app_iff in Hs as [Hs|Hs]; [|left; now right]. unfold sorts0 in Hs. destruct Hs as [<- |Hs]; [left; now left|right; exact Hs]. }
  assert (Pl : forall s t, In s ("object" :: types_of es) -> has_sort l t = true -> exists b, snd (is_subtype fuel l s t) = Ok b /\ (b = true <-> s = t \/ above E s t)).
  { intros s t Hs Ht. assert (Wf : w s < fuel). { assert (K := list_sum_ge (fun s => Datatypes.S (w s)) s _ Hs). cbn beta in K. lia. }
    unfold is_subtype, retrieve. assert (Ss : has_sort l s = true) by (apply (fa_sorted _ _ _ FF s); apply in_app_iff; destruct Hs as [<- |Hs]; [left; now left|now right]). rewrite Ss, Ht. destruct (String.eqb_spec s t) as [->|Ne]; [exists true; cbn [snd]; tauto|]. destruct (h_up _ _ _ _ H s Hs) as (a & Ga & A1 & A2).
    assert (Ga' : get_set (l_anc l) s = a) by (unfold get_set; now rewrite Ga). rewrite Ga'. destruct (str_mem t a) eqn:M; [exists true; split; [reflexivity|]; apply str_mem_In in M; split; auto|]. unfold connected. rewrite Ga'. destruct (str_mem t (get_set (l_ind l) s)) eqn:Mi.
    { exists true. split; [reflexivity|]. apply str_mem_In in Mi. split; [|reflexivity]. intros _. right. exact (h_ind _ _ _ _ H s t Hs Mi). }
    unfold w in Wf. rewrite Ga' in Wf. destruct (search_spec rank l E _ H t fuel (rev a)) as (b & Eb & B); [|exact Wf|].
    { intros u Hu. apply in_rev in Hu. exact (proj1 (proj2 (above_types _ _ _ _ _ _ H (A2 u Hu)))). }
    exists b. rewrite Eb. split; [destruct b; reflexivity|]. rewrite B. split.
    - intros (u & Hu & K). apply in_rev in Hu. right. destruct K as [<- |K]; [exact (A2 u Hu)|exact (above_trans _ _ _ _ (A2 u Hu) K)].
    - intros [K|K]; [contradiction|]. apply above_first in K as (v & Hv & K). exists v. split; [apply in_rev; rewrite rev_involutive; auto|exact K]. }
  assert (Oa : get_set (l_anc l) "object" = []). { unfold get_set. destruct (h_up _ _ _ _ H "object" (or_introl eq_refl)) as (a & Ga & A1 & A2). rewrite Ga. destruct a as [|x a]; [reflexivity|]. exfalso. destruct (above_types _ _ _ _ _ _ H (A2 x (or_introl eq_refl))) as (Q & _). apply (h_new _ _ _ _ H _ Q). now left. }
  assert (Nu : forall s t, In s numeric_sorts -> In t ("object" :: types_of es) -> exists b, snd (is_subtype fuel l s t) = Ok b /\ (b = true <-> t = "object")).
  { intros s t Hs Ht. assert (Nt : ~ In t numeric_sorts). { destruct Ht as [<- |Ht]; [intros Q; apply in_numeric in Q as [Q|[Q|[Q|Q]]]; discriminate Q|]. intros Q. apply (fa_new _ _ _ FF t Ht). unfold sorts0. right. exact Q. }
    unfold is_subtype, retrieve. assert (Ss : has_sort l s = true) by (apply (fa_sorted _ _ _ FF); apply in_app_iff; left; right; exact Hs). assert (St : has_sort l t = true) by (apply (fa_sorted _ _ _ FF); apply in_app_iff; destruct Ht as [<- |Ht]; [left; now left|now right]). rewrite Ss, St.
    assert (E1 : String.eqb s t = false) by (apply String.eqb_neq; intros ->; contradiction). rewrite E1. destruct (String.eqb_spec t "object") as [->|No].
    - exists true. split; [|tauto]. assert (Q : str_mem "object" (get_set (l_anc l) s) = true) by (unfold get_set; rewrite (in_anc _ _ _ F s Hs); apply in_numeric in Hs as [-> |[-> |[-> | ->]]]; reflexivity). now rewrite Q.
    - exists false. split; [|split; [discriminate|contradiction]]. assert (Q : str_mem t (get_set (l_anc l) s) = false). { destruct (str_mem t (get_set (l_anc l) s)) eqn:Q; [|reflexivity]. exfalso. apply str_mem_In in Q. unfold get_set in Q. rewrite (in_anc _ _ _ F s Hs) in Q. assert (W : In t ("object" :: numeric_sorts)). { apply in_numeric in Hs as [-> |[-> |[-> | ->]]]; cbn in Q |- *; intuition. } destruct W as [W|W]; [now apply No|contradiction]. }
      rewrite Q. replace fuel with (20 + (fuel - 20)) by lia. exact (number_search l t _ (in_anc _ _ _ F) Oa (in_ind _ _ _ F) No Nt s Hs). }
  split.
  - intros s t Hs Ht. destruct (Hs0 s Hs) as [P|P].
    + destruct (Pl s t P) as (b & Eb & B); [apply (fa_sorted _ _ _ FF); apply in_app_iff; destruct Ht as [<- |Ht]; [left; now left|now right]|]. exists b. split; [exact Eb|]. rewrite B. exact (reads_below rank i E _ N _ _ s t V L P).
    + destruct (Nu s t P Ht) as (b & Eb & B). exists b. split; [exact Eb|]. rewrite B. unfold conforms. split; [tauto|]. intros [K|[K|K]]; [|exact K|].
      * subst t. exfalso. destruct Ht as [Q|Q]; [subst s; apply in_numeric in P as [P|[P|[P|P]]]; discriminate P|]. apply (fa_new _ _ _ FF s Q). right. exact P.
      * exfalso. apply above_first in K as (v & K & _). apply (fa_new _ _ _ FF s); [|right; exact P]. apply (k_dom _ _ _ L). apply (in_map fst) in K. exact K.
  - intros s Hs. destruct (Hs0 s Hs) as [P|P].
    + destruct (Pl s "Real" P) as (b & Eb & B); [apply (fa_sorted _ _ _ FF); apply in_app_iff; left; cbn; tauto|]. exists b. split; [exact Eb|]. rewrite B. unfold numeric. split.
      * intros [->|K]; [cbn; tauto|]. exfalso. destruct (above_types _ _ _ _ _ _ H K) as (_ & [Q|Q] & _); [discriminate Q|]. apply (fa_new _ _ _ FF _ Q). cbn. tauto.
      * intros Q. exfalso. destruct P as [<- |P]; [apply in_numeric in Q as [Q|[Q|[Q|Q]]]; discriminate Q|]. apply (fa_new _ _ _ FF s P). right. exact Q.
    + exists true. split; [|unfold numeric; tauto]. unfold is_subtype, retrieve. assert (Ss : has_sort l s = true) by (apply (fa_sorted _ _ _ FF); exact Hs). assert (Sr : has_sort l "Real" = true) by (apply (fa_sorted _ _ _ FF); apply in_app_iff; left; cbn; tauto). fold l. rewrite Ss, Sr.
      destruct (String.eqb s "Real") eqn:E1; [reflexivity|]. assert (Q : str_mem "Real" (get_set (l_anc l) s) = true) by (unfold get_set; rewrite (in_anc _ _ _ F s P); apply in_numeric in P as [-> |[-> |[-> | ->]]]; [discriminate E1|reflexivity..]). now rewrite Q.
Qed.
