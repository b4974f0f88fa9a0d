(** The type hierarchy of PDDL domains: the sections that can be read, and their meaning *)
From Verif Require Import Base Syntax SemLemmas ListUtil ModelState ModelProofs FreeVars Lang LangSpec LangProofs LangProofs2 Theories TheoriesSpec TheoriesProofs RddlInitProofs2 PddlInstance PddlInstanceSpec PddlInstanceProofs PddlInstanceProofs2 PddlInstanceProofs3.
#[local] Open Scope string_scope.
#[local] Open Scope list_scope.

(** A cycle of parents *)
Lemma closure_loop (P : string -> Prop) l : (forall x, P x -> exists q, sget (l_parent l) x = Some (Some q) /\ P q) -> forall k x, P x -> closure k l x = Err OutOfFuel.
Proof.
  intros H. induction k as [|k IH]; intros x Hx; [reflexivity|]. cbn [closure]. destruct (H x Hx) as (q & G & Hq). rewrite G, (IH q Hq). reflexivity.
Qed.
Lemma set_parent_self l s : (exists q, sget (l_parent l) s = Some (Some q)) -> of_step (set_parent true l s s) = Err OutOfFuel.
Proof.
  intros _. rewrite set_parent_eq; [|now left]. cbv zeta. rewrite (closure_loop (fun x => x = s)); [reflexivity| |reflexivity]. intros x ->. exists s. split; [|reflexivity]. cbn [l_parent set_par]. now rewrite sget_dset, String.eqb_refl.
Qed.
Lemma set_parent_object rank l E tys s : hier rank l E tys -> In s tys -> of_step (set_parent true l "object" s) = Err OutOfFuel.
Proof.
  intros H Hs. rewrite set_parent_eq; [|now left]. cbv zeta. rewrite (closure_loop (fun x => In x ("object" :: tys))); [reflexivity| |now right]. intros x Hx. cbn [l_parent set_par]. rewrite sget_dset.
  destruct (String.eqb_spec "object" x) as [<- |N]; [exists s; split; [reflexivity|now right]|]. destruct Hx as [Hx|Hx]; [contradiction|]. destruct (h_par _ _ _ _ H x Hx) as [G K]. destruct (last_super E x) as [q|] eqn:Q; [|contradiction].
  exists q. split; [exact G|]. apply last_super_In in Q. exact (proj2 (h_edge _ _ _ _ H _ _ Q)).
Qed.
Lemma reserved_types rank l E tys n : hier rank l E tys -> In n reserved -> In n tys -> n = "ite".
Proof. intros H [<- |[<- |[<- |[<- |[<- |[<- |[]]]]]]] K; try reflexivity; exfalso; apply (h_new _ _ _ _ H _ K); unfold sorts0; cbn [In]; tauto. Qed.

(** ** The subtypes of a new type *)
Section Subs.
Variable S : string.
Definition lowest (rank : string -> nat) (tys : list string) : Prop := In S tys /\ forall x, In x tys -> x <> S -> rank S < rank x.
Lemma step_added rank i E tys x : pinv rank i E tys [] [] -> (forall y, In y tys -> ~ In y reserved) -> lowest rank tys -> ~ In x reserved -> x <> S ->
  exists rank' i', process_subtype S true i x = Ok i' /\ pinv rank' i' (E ++ [(x, S)]) (tys ++ [x]) [] [] /\ lowest rank' (tys ++ [x]).
Proof.
  intros V NR [LI LR] Hx Nx. unfold process_subtype. destruct (str_mem x (pi_types i)) eqn:M.
  - apply (ptypes_mem _ _ _ _ _ _ _ V) in M. destruct M as [M|M]; [exfalso; apply Hx; rewrite <- M; now left|]. destruct (reparent_ok rank i E tys [] x S V M (or_intror LI)) as (l' & El & V'); [apply LR; auto|].
    rewrite El. cbn [bind]. exists rank, (with_lang i l'). split; [reflexivity|]. split; [exact V'|]. split; [apply in_snoc; now left|]. intros y Hy. apply in_snoc in Hy as [Hy| ->]; auto.
  - assert (Nm : ~ In x ("object" :: tys)). { rewrite <- (ptypes_mem _ _ _ _ _ _ _ V). congruence. } destruct (sub_new rank i E tys [] x S V) as (rank' & l' & El & V' & R1 & R2).
    + rewrite app_nil_r, in_app_iff. intros [K|K]; [contradiction|]. apply Nm. now right.
    + now right.
    + rewrite El. cbn [bind]. exists rank', (with_type i l' x). split; [reflexivity|]. split; [exact V'|]. split; [apply in_snoc; now left|]. intros y Hy Ny. apply in_snoc in Hy as [Hy| ->]; [|exact R2]. rewrite (R1 S (or_intror LI)), (R1 y (or_intror Hy)). auto.
Qed.
Lemma step_added_err rank i E tys x : pinv rank i E tys [] [] -> (forall y, In y tys -> ~ In y reserved) -> In S tys -> In x reserved \/ x = S -> exists e, process_subtype S true i x = Err e.
Proof.
  intros V NR LI Hx. unfold process_subtype. assert (VH := v_hier _ _ _ _ _ _ V). destruct (str_mem x (pi_types i)) eqn:M.
  - apply (ptypes_mem _ _ _ _ _ _ _ V) in M. destruct M as [<- |M].
    + rewrite (set_parent_object _ _ _ _ _ VH LI). cbn. eauto.
    + destruct Hx as [Hx| ->]; [exfalso; exact (NR x M Hx)|]. rewrite set_parent_self; [cbn; eauto|]. destruct (h_par _ _ _ _ VH S M) as [G K]. destruct (last_super E S) as [q|]; [eauto|contradiction].
  - destruct Hx as [Hx| ->].
    + destruct (declare_used _ _ _ _ _ _ x S V) as [e Ee]; [apply in_app_iff; now left|]. rewrite Ee. cbn. eauto.
    + exfalso. rewrite (proj2 (ptypes_mem _ _ _ _ _ _ _ V)) in M; [discriminate|now right].
Qed.
Lemma snoc_assoc {A} (a : list A) x b : a ++ x :: b = (a ++ [x]) ++ b.
Proof. now rewrite <- app_assoc. Qed.
Lemma subs_added subs : forall rank i E tys, pinv rank i E tys [] [] -> (forall y, In y tys -> ~ In y reserved) -> lowest rank tys -> (forall x, In x subs -> ~ In x reserved /\ x <> S) ->
  exists rank' i', foldM (process_subtype S true) subs i = Ok i' /\ pinv rank' i' (E ++ map (fun s => (s, S)) subs) (tys ++ subs) [] [].
Proof.
  induction subs as [|x subs IH]; intros rank i E tys V NR LO K; [exists rank, i; cbn [map]; rewrite !app_nil_r; auto|]. destruct (K x (or_introl eq_refl)) as [K1 K2].
  destruct (step_added rank i E tys x V NR LO K1 K2) as (rank1 & i1 & E1 & V1 & L1). cbn [foldM]. rewrite E1. destruct (IH rank1 i1 _ _ V1) as (rank2 & i2 & E2 & V2).
  - intros y Hy. apply in_snoc in Hy as [Hy| ->]; auto.
  - exact L1.
  - intros y Hy. apply K. now right.
  - exists rank2, i2. split; [exact E2|]. cbn [map]. rewrite (snoc_assoc E), (snoc_assoc tys). exact V2.
Qed.
Lemma subs_added_inv subs : forall rank i E tys i', pinv rank i E tys [] [] -> (forall y, In y tys -> ~ In y reserved) -> lowest rank tys -> foldM (process_subtype S true) subs i = Ok i' -> forall x, In x subs -> ~ In x reserved /\ x <> S.
Proof.
  induction subs as [|x subs IH]; intros rank i E tys i' V NR LO R; [intros x []|]. cbn [foldM] in R. assert (K : ~ In x reserved /\ x <> S).
  { destruct (in_dec string_dec x reserved) as [I|I]; [|destruct (string_dec x S) as [Q|Q]; [|auto]]; destruct (step_added_err rank i E tys x V NR (proj1 LO)) as [e Ee]; auto; rewrite Ee in R; discriminate. }
  destruct K as [K1 K2]. destruct (step_added rank i E tys x V NR LO K1 K2) as (rank1 & i1 & E1 & V1 & L1). rewrite E1 in R. intros y [<- |Hy]; [auto|]. apply (IH rank1 i1 _ _ i' V1); auto.
  intros z Hz. apply in_snoc in Hz as [Hz| ->]; auto.
Qed.
(** ** The subtypes of a type that was declared before *)
Lemma step_old rank i E tys x : pinv rank i E tys [] [] -> In S ("object" :: tys) -> ~ In x (reserved ++ tys) ->
  exists rank' i', process_subtype S false i x = Ok i' /\ pinv rank' i' (E ++ [(x, S)]) (tys ++ [x]) [] [].
Proof.
  intros V LI Hx. unfold process_subtype. destruct (str_mem x (pi_types i)) eqn:M.
  - exfalso. apply (ptypes_mem _ _ _ _ _ _ _ V) in M. apply Hx. destruct M as [<- |M]; [now left|apply in_app_iff; now right].
  - destruct (sub_new rank i E tys [] x S V) as (rank' & l' & El & V' & _); [now rewrite app_nil_r|exact LI|]. rewrite El. cbn [bind]. eauto.
Qed.
Lemma step_old_err rank i E tys x : pinv rank i E tys [] [] -> In x (reserved ++ tys) -> exists e, process_subtype S false i x = Err e.
Proof.
  intros V Hx. unfold process_subtype. destruct (str_mem x (pi_types i)) eqn:M; [eauto|]. destruct (declare_used _ _ _ _ _ _ x S V) as [e Ee]; [now rewrite app_nil_r|]. rewrite Ee. cbn. eauto.
Qed.
Lemma subs_old subs : forall rank i E tys, pinv rank i E tys [] [] -> In S ("object" :: tys) -> NoDup subs -> (forall x, In x subs -> ~ In x (reserved ++ tys)) ->
  exists rank' i', foldM (process_subtype S false) subs i = Ok i' /\ pinv rank' i' (E ++ map (fun s => (s, S)) subs) (tys ++ subs) [] [].
Proof.
  induction subs as [|x subs IH]; intros rank i E tys V LI ND K; [exists rank, i; cbn [map]; rewrite !app_nil_r; auto|]. inversion ND as [|? ? ND1 ND2]; subst.
  destruct (step_old rank i E tys x V LI (K x (or_introl eq_refl))) as (rank1 & i1 & E1 & V1). cbn [foldM]. rewrite E1. destruct (IH rank1 i1 _ _ V1) as (rank2 & i2 & E2 & V2).
  - destruct LI as [LI|LI]; [now left|right; apply in_snoc; now left].
  - exact ND2.
  - intros y Hy Q. apply in_app_iff in Q as [Q|Q]; [apply (K y (or_intror Hy)), in_app_iff; now left|]. apply in_snoc in Q as [Q| ->]; [apply (K y (or_intror Hy)), in_app_iff; now right|contradiction].
  - exists rank2, i2. split; [exact E2|]. cbn [map]. rewrite (snoc_assoc E), (snoc_assoc tys). exact V2.
Qed.
Lemma subs_old_inv subs : forall rank i E tys i', pinv rank i E tys [] [] -> In S ("object" :: tys) -> foldM (process_subtype S false) subs i = Ok i' -> NoDup subs /\ forall x, In x subs -> ~ In x (reserved ++ tys).
Proof.
  induction subs as [|x subs IH]; intros rank i E tys i' V LI R; [split; [constructor|intros x []]|]. cbn [foldM] in R.
  assert (K : ~ In x (reserved ++ tys)). { intros K. destruct (step_old_err rank i E tys x V K) as [e Ee]. rewrite Ee in R. discriminate. }
  destruct (step_old rank i E tys x V LI K) as (rank1 & i1 & E1 & V1). rewrite E1 in R. destruct (IH rank1 i1 _ _ i' V1) as [N1 N2]; [destruct LI as [LI|LI]; [now left|right; apply in_snoc; now left]|exact R|].
  split; [constructor; [|exact N1]; intros Q; apply (N2 x Q); rewrite !in_app_iff; right; right; now left|]. intros y [<- |Hy]; [exact K|]. intros Q. apply (N2 y Hy). rewrite in_app_iff in *. destruct Q as [Q|Q]; [now left|right; apply in_snoc; now left].
Qed.
End Subs.

(** ** Edges and declared pairs *)
Record link (E P : list (string * string)) (tys : list string) : Prop := {
  k_only : forall s t, In (s, t) E -> In (s, t) P \/ t = "object";
  k_all : forall e, In e P -> In e E;
  k_last : forall s, In s tys -> last_super E s = Some (match last_super P s with Some p => p | None => "object" end);
  k_dom : forall s, In s (map fst P) -> In s tys
}.
Lemma last_super_None E s : ~ In s (map fst E) -> last_super E s = None.
Proof.
  induction E as [|[a b] E IH] using rev_ind; [reflexivity|]. rewrite map_app, last_super_snoc. cbn [map fst]. rewrite in_snoc. intros H. destruct (String.eqb_spec a s) as [->|]; [exfalso; apply H; now right|]. apply IH. tauto.
Qed.
Lemma last_super_Some E s : In s (map fst E) -> last_super E s <> None.
Proof.
  induction E as [|[a b] E IH] using rev_ind; [intros []|]. rewrite map_app, last_super_snoc. cbn [map fst]. rewrite in_snoc. intros H. destruct (String.eqb_spec a s) as [->|]; [discriminate|]. apply IH. destruct H as [H|H]; [exact H|congruence].
Qed.
Lemma link_top E P tys n : link E P tys -> ~ In n tys -> link (E ++ [(n, "object")]) P (tys ++ [n]).
Proof.
  intros [K1 K2 K3 K4] H. constructor.
  - intros s t K. apply in_snoc in K as [K|K]; [auto|]. injection K as -> ->. now right.
  - intros e K. apply in_snoc. left. auto.
  - intros s Hs. rewrite last_super_snoc. destruct (String.eqb_spec n s) as [<- |N]; [|apply in_snoc in Hs as [Hs|Hs]; [auto|congruence]]. rewrite last_super_None; [reflexivity|]. intros Q. apply H, K4, Q.
  - intros s Q. apply in_snoc. left. auto.
Qed.
Lemma link_sub E P tys x p : link E P tys -> link (E ++ [(x, p)]) (P ++ [(x, p)]) (tys ++ [x]).
Proof.
  intros [K1 K2 K3 K4]. constructor.
  - intros s t K. apply in_snoc in K as [K|K]; [destruct (K1 s t K); [left; apply in_snoc; now left|now right]|]. injection K as -> ->. left. apply in_snoc. now right.
  - intros e K. apply in_snoc in K as [K| ->]; apply in_snoc; [left; auto|now right].
  - intros s Hs. rewrite !last_super_snoc. destruct (String.eqb_spec x s) as [<- |N]; [reflexivity|]. apply in_snoc in Hs as [Hs|Hs]; [auto|congruence].
  - intros s Q. rewrite map_app in Q. cbn [map fst] in Q. apply in_snoc in Q as [Q| ->]; apply in_snoc; [left; auto|now right].
Qed.
Lemma link_subs p subs : forall E P tys, link E P tys -> link (E ++ map (fun s => (s, p)) subs) (P ++ map (fun s => (s, p)) subs) (tys ++ subs).
Proof.
  induction subs as [|x subs IH]; intros E P tys L; cbn [map]; [now rewrite !app_nil_r|]. rewrite (snoc_assoc E), (snoc_assoc P), (snoc_assoc tys). apply IH. now apply link_sub.
Qed.
Lemma link_perm E P tys tys' : (forall x, In x tys <-> In x tys') -> link E P tys -> link E P tys'.
Proof. intros Q [K1 K2 K3 K4]. constructor; auto; intros s Hs; [apply K3; now apply Q|apply Q; auto]. Qed.

(** ** The sections *)
Definition reads_as (i : pinst) (es : list tentry) : Prop :=
  exists rank E, pinv rank i E (types_of es) [] [] /\ link E (pairs_of es) (types_of es) /\ forall y, In y (types_of es) -> ~ In y reserved.
Definition entry_ok (known : list string) (e : tentry) : Prop :=
  match e with
  | TName n => ~ In n (reserved ++ known)
  | TSuper p subs => let s := primitive_type p in
      (In s known /\ NoDup subs /\ forall x, In x subs -> ~ In x (reserved ++ known)) \/ (~ In s (reserved ++ known) /\ ~ In s subs /\ forall x, In x subs -> ~ In x reserved)
  end.
Lemma types_ok_cons known e es : types_ok known (e :: es) <-> entry_ok known e /\ types_ok (known ++ types_of [e]) es.
Proof. destruct e as [p|p subs]; cbn [types_ok entry_ok types_of flat_map]; rewrite ?app_nil_r; tauto. Qed.
Lemma types_of_app a b : types_of (a ++ b) = types_of a ++ types_of b. Proof. apply flat_map_app. Qed.
Lemma pairs_of_app a b : pairs_of (a ++ b) = pairs_of a ++ pairs_of b. Proof. apply flat_map_app. Qed.

Lemma entry_reads ds i e : reads_as i ds -> entry_ok (types_of ds) e -> exists i', process_entry i e = Ok i' /\ reads_as i' (ds ++ [e]).
Proof.
  intros (rank & E & V & L & NR) K. unfold reads_as. rewrite types_of_app, pairs_of_app. destruct e as [p|p subs]; cbn [process_entry entry_ok] in *; [|set (s := primitive_type p) in *].
  - unfold process_type. cbn [types_of pairs_of flat_map]. rewrite !app_nil_r. destruct (top_new rank i E (types_of ds) [] p V) as (rank' & l' & El & V' & _); [now rewrite app_nil_r|]. rewrite El. cbn [bind].
    exists (with_type i l' p). split; [reflexivity|]. exists rank', (E ++ [(p, "object")]). split; [exact V'|]. split; [apply link_top; [exact L|]; intros Q; apply K, in_app_iff; now right|].
    intros y Hy. apply in_snoc in Hy as [Hy| ->]; [auto|]. intros Q. apply K, in_app_iff. now left.
  - unfold process_supertype. cbn [types_of pairs_of flat_map]. fold s. rewrite !app_nil_r. destruct K as [(K1 & K2 & K3)|(K1 & K2 & K3)].
    + rewrite (proj2 (ptypes_mem _ _ _ _ _ _ _ V) (or_intror K1)). cbn [negb bind]. destruct (subs_old s subs rank i E (types_of ds) V (or_intror K1) K2 K3) as (rank' & i' & Ei & V').
      assert (Q : forall x, In x (types_of ds ++ subs) <-> In x (types_of ds ++ s :: subs)).
      { intros x. rewrite !in_app_iff. cbn [In]. split; [tauto|]. intros [?|[<- |?]]; auto. }
      exists i'. split; [exact Ei|]. exists rank', (E ++ map (fun x => (x, s)) subs). split; [exact (pinv_perm _ _ _ _ _ _ _ Q V')|]. split; [apply (link_perm _ _ _ _ Q), link_subs, L|].
      intros y Hy. apply Q in Hy. apply in_app_iff in Hy as [Hy|Hy]; [auto|]. intros W. apply (K3 y Hy), in_app_iff. now left.
    + destruct (top_new rank i E (types_of ds) [] s V) as (rank1 & l1 & E1 & V1 & R1); [now rewrite app_nil_r|]. assert (M : str_mem s (pi_types i) = false).
      { apply not_true_iff_false. rewrite (ptypes_mem _ _ _ _ _ _ _ V). intros [Q|Q]; apply K1; [rewrite <- Q; now left|apply in_app_iff; now right]. }
      rewrite M. cbn [negb]. rewrite E1. cbn [bind]. assert (Ns : ~ In s (types_of ds)) by (intros Q; apply K1, in_app_iff; now right). assert (Nr : ~ In s reserved) by (intros Q; apply K1, in_app_iff; now left).
      destruct (subs_added s subs rank1 _ _ _ V1) as (rank2 & i2 & E2 & V2).
      * intros y Hy. apply in_snoc in Hy as [Hy| ->]; auto.
      * split; [apply in_snoc; now right|]. intros x Hx Nx. apply in_snoc in Hx as [Hx|Hx]; [auto|contradiction].
      * intros x Hx. split; [auto|]. intros ->. contradiction.
      * exists i2. split; [exact E2|]. rewrite (snoc_assoc (types_of ds)). exists rank2, ((E ++ [(s, "object")]) ++ map (fun x => (x, s)) subs). split; [exact V2|]. split; [apply link_subs, link_top; [exact L|exact Ns]|].
        intros y Hy. apply in_app_iff in Hy as [Hy|Hy]; [apply in_snoc in Hy as [Hy| ->]|]; auto.
Qed.
Lemma primitive_object p : primitive_type p <> "object".
Proof. unfold primitive_type. destruct (String.eqb_spec p "object"); [discriminate|]. destruct (String.eqb_spec p "number"); [discriminate|exact n]. Qed.
Lemma entry_reads_inv ds i e i' : reads_as i ds -> process_entry i e = Ok i' -> entry_ok (types_of ds) e.
Proof.
  intros (rank & E & V & L & NR) R. destruct e as [p|p subs]; cbn [process_entry entry_ok] in *.
  - intros K. unfold process_type in R. destruct (declare_used rank i E (types_of ds) [] [] p "object" V) as [e Ee]; [now rewrite app_nil_r|]. rewrite Ee in R. discriminate.
  - assert (No := primitive_object p). set (s := primitive_type p) in *. unfold process_supertype in R. destruct (str_mem s (pi_types i)) eqn:M; cbn [negb] in R.
    + left. apply (ptypes_mem _ _ _ _ _ _ _ V) in M. cbn [bind] in R. destruct (subs_old_inv s subs rank i E (types_of ds) i' V M R) as [N1 N2]. destruct M as [M|M]; [congruence|]. auto.
    + right. destruct (in_dec string_dec s (reserved ++ types_of ds)) as [K|K].
      { exfalso. destruct (declare_used rank i E (types_of ds) [] [] s "object" V) as [e Ee]; [now rewrite app_nil_r|]. rewrite Ee in R. discriminate. }
      destruct (top_new rank i E (types_of ds) [] s V) as (rank1 & l1 & E1 & V1 & R1); [now rewrite app_nil_r|]. rewrite E1 in R. cbn [bind] in R.
      assert (Ns : ~ In s (types_of ds)) by (intros Q; apply K, in_app_iff; now right). assert (Nr : ~ In s reserved) by (intros Q; apply K, in_app_iff; now left).
      assert (W := subs_added_inv s subs rank1 _ _ _ i' V1). split; [exact K|]. assert (W' : forall x, In x subs -> ~ In x reserved /\ x <> s).
      { apply W; [|split; [apply in_snoc; now right|]|exact R].
        - intros y Hy. apply in_snoc in Hy as [Hy| ->]; auto.
        - intros x Hx Nx. apply in_snoc in Hx as [Hx|Hx]; [auto|contradiction]. }
      split; [intros Q; now apply (W' s Q)|intros x Hx; apply (W' x Hx)].
Qed.
Theorem section_reads es : forall ds i, reads_as i ds -> types_ok (types_of ds) es -> exists i', types_def i es = Ok i' /\ reads_as i' (ds ++ es).
Proof.
  unfold types_def. induction es as [|e es IH]; intros ds i R K; [exists i; rewrite app_nil_r; auto|]. apply types_ok_cons in K as [K1 K2]. destruct (entry_reads ds i e R K1) as (i1 & E1 & R1). cbn [foldM]. rewrite E1.
  rewrite <- types_of_app in K2. destruct (IH _ _ R1 K2) as (i2 & E2 & R2). exists i2. rewrite <- app_assoc in R2. auto.
Qed.
Theorem section_reads_inv es : forall ds i i', reads_as i ds -> types_def i es = Ok i' -> types_ok (types_of ds) es.
Proof.
  unfold types_def. induction es as [|e es IH]; intros ds i i' R K; [exact I|]. cbn [foldM] in K. destruct (process_entry i e) as [i1|] eqn:E1; [|discriminate]. assert (K1 := entry_reads_inv ds i e i1 R E1).
  destruct (entry_reads ds i e R K1) as (i1' & E1' & R1). assert (i1' = i1) as -> by congruence. apply types_ok_cons. split; [exact K1|]. rewrite <- types_of_app. exact (IH _ _ _ R1 K).
Qed.
(** ** The instance at the start *)
Definition first_lang : lang :=
  {| l_sorts := [("object", plain_rec); ("Real", arith_sort true (- real_bound) real_bound); ("Integer", arith_sort false (- (2 ^ 31 - 1)) (2 ^ 31 - 1)); ("Natural", arith_sort false 0 (2 ^ 32 - 1)); ("Bool", arith_sort false 0 1)];
     l_parent := [("object", None); ("Real", Some "object"); ("Integer", Some "Real"); ("Natural", Some "Integer"); ("Bool", Some "Integer")];
     l_anc := [("object", []); ("Real", ["object"]); ("Integer", ["Real"; "object"]); ("Natural", ["Integer"; "Real"; "object"]); ("Bool", ["Integer"; "Real"; "object"])];
     l_ind := [("object", []); ("Real", []); ("Integer", []); ("Natural", []); ("Bool", [])];
     l_preds := []; l_funs := [("ite", ["object"; "object"; "object"])]; l_consts := [];
     l_index := [(CStr "object", ESort "object"); (CStr "Real", ESort "Real"); (CStr "Integer", ESort "Integer"); (CStr "Natural", ESort "Natural"); (CStr "ite", EFun "ite" ["object"; "object"; "object"]); (CStr "Bool", ESort "Bool")] |}.
Lemma new_eq parse : new_instance parse = Ok {| pi_lang := first_lang; pi_types := ["object"]; pi_objects := [] |}.
Proof. vm_compute. reflexivity. Qed.
Lemma first_reads : reads_as {| pi_lang := first_lang; pi_types := ["object"]; pi_objects := [] |} [].
Proof.
  assert (Sg : forall V (d : list (string * V)) n, NoDup (map fst d) -> (exists v, sget d n = Some v) <-> In n (map fst d)) by (intros; apply sget_key).
  assert (Hs : forall n, has_sort first_lang n = true <-> In n sorts0) by (intros n; rewrite has_sort_spec; unfold is_sort, first_lang, sorts0; cbn [l_sorts map fst]; tauto).
  exists (fun _ => 0), []. split; [|split; [constructor; [intros s t []|intros e []|intros s []|intros s []]|intros y []]]. constructor; cbn [pi_lang pi_types types_of flat_map].
  - constructor.
    + intros s. now rewrite app_nil_r.
    + intros t [<- |[]]. exists plain_rec. split; [reflexivity|split; reflexivity].
    + intros t [].
    + intros s t [].
    + intros s K. rewrite sget_key in K. rewrite app_nil_r. exact K.
    + intros s K. rewrite sget_key in K. rewrite app_nil_r. exact K.
    + intros s [<- |[]]. exists []. split; [reflexivity|]. split; intros t [].
    + intros s [].
    + intros s t [<- |[]] K. destruct K.
    + reflexivity.
    + intros s [].
    + intros s t [].
    + intros s [<- |[]]. cbn. lia.
    + intros s [].
  - intros n. rewrite app_nil_r. unfold lget. change (l_index first_lang) with (map (fun e => (CStr (fst e), snd e)) [("object", ESort "object"); ("Real", ESort "Real"); ("Integer", ESort "Integer"); ("Natural", ESort "Natural"); ("ite", EFun "ite" ["object"; "object"; "object"]); ("Bool", ESort "Bool")]).
    assert (G : forall d : list (string * elem), (exists e, match dget cname_eqb (map (fun e => (CStr (fst e), snd e)) d) (CStr n) with Some e => Ok e | None => Err UndefinedElement end = Ok e) <-> In n (map fst d)).
    { induction d as [|[k v] d IH]; cbn [map fst snd dget In]; [split; [intros [e Q]; discriminate|intros []]|]. destruct (cname_eqb (CStr k) (CStr n)) eqn:Q.
      - apply cname_eqb_eq in Q. injection Q as ->. split; [now left|eauto].
      - rewrite IH. split; [now right|]. intros [->|W]; [|exact W]. unfold cname_eqb in Q. destruct (cname_eq_dec (CStr n) (CStr n)); congruence. }
    rewrite G. unfold reserved. cbn [map fst In app]. tauto.
  - intros c K. cbn in K. discriminate.
  - intros n. reflexivity.
  - intros t r [<- |[]] G d. cbn in G. injection G as <-. cbn. split; [intros []|intros (s & [] & _)].
  - intros c s [].
  - intros t r [<- |[]] G. cbn in G. injection G as <-. constructor.
Qed.
(** ** Below *)
Lemma reads_below rank i E tys N C P s t : pinv rank i E tys N C -> link E P tys -> In s ("object" :: tys) -> (s = t \/ above E s t) <-> (s = t \/ t = "object" \/ above P s t).
Proof.
  intros V L Hs. split; intros [K|K]; auto.
  - right. clear Hs. induction K as [a b K|a b c K K2 IH].
    + destruct (k_only _ _ _ L a b K) as [W|W]; [right; now apply above_one|now left].
    + destruct (k_only _ _ _ L a b K) as [W|W]; [|subst b; exfalso; apply above_first in K2 as (u & K2 & _); exact (object_no_edge _ _ _ _ _ (v_hier _ _ _ _ _ _ V) K2)].
      destruct IH as [IH|IH]; [now left|right; exact (above_step _ _ _ _ W IH)].
  - destruct K as [->|K]; [|right; exact (above_mono _ _ _ _ (k_all _ _ _ L) K)]. destruct Hs as [<- |Hs]; [now left|right; exact (h_top _ _ _ _ (v_hier _ _ _ _ _ _ V) s Hs)].
Qed.
