(** C37: the translation of names for logic programs. *)
From Coq Require Import Ascii.
From Verif Require Import Base Syntax ModelState ModelProofs SemLemmas Lang Asp AspNamesSpec.
#[local] Open Scope string_scope.

Lemma app_nil_s s : s ++ "" = s.
Proof. induction s; cbn; congruence. Qed.
Lemma app_assoc_s a b c : (a ++ b) ++ c = a ++ (b ++ c).
Proof. induction a; cbn; congruence. Qed.
Lemma sanitize_app a b : sanitize (a ++ b) = sanitize a ++ sanitize b.
Proof. induction a as [|c a IH]; [reflexivity|]. cbn [append sanitize]. rewrite IH. destruct (Ascii.eqb c "-"); reflexivity. Qed.
Lemma contains_cons sub c s : contains sub s -> contains sub (String c s).
Proof. intros (a & b & ->). exists (String c a), b. reflexivity. Qed.
Lemma sanitize_id n : ~ contains "-" n -> sanitize n = n.
Proof.
  induction n as [|c n IH]; intros H; [reflexivity|]. cbn [sanitize]. destruct (Ascii.eqb c "-") eqn:E.
  - apply Ascii.eqb_eq in E as ->. exfalso. apply H. exists "", n. reflexivity.
  - rewrite IH; [reflexivity|]. intros X. apply H. now apply contains_cons.
Qed.
Lemma sanitize_hyphen n : contains "-" n -> contains "__" (sanitize n).
Proof. intros (a & b & ->). rewrite !sanitize_app. exists (sanitize a), (sanitize b). reflexivity. Qed.
Lemma sanitize_no_hyphen n : ~ contains "-" (sanitize n).
Proof.
  induction n as [|c n IH]; [intros (a & b & H); destruct a; discriminate|]. cbn [sanitize]. destruct (Ascii.eqb c "-") eqn:E.
  - intros (a & b & H). destruct a as [|x a]; [discriminate|]. cbn in H. injection H as <- H. destruct a as [|x a]; [discriminate|]. cbn in H. injection H as <- H. apply IH. exists a, b. exact H.
  - intros (a & b & H). destruct a as [|x a]; cbn in H; injection H as -> H; [discriminate|]. apply IH. exists a, b. exact H.
Qed.
Lemma contains_dec n : contains "-" n \/ ~ contains "-" n.
Proof.
  induction n as [|c n IH]; [right; intros (a & b & H); destruct a; discriminate|]. destruct (Ascii.eqb c "-") eqn:E; [apply Ascii.eqb_eq in E as ->; left; exists "", n; reflexivity|].
  destruct IH as [H|H]; [left; now apply contains_cons|]. right. intros (a & b & X). destruct a as [|x a]; cbn in X; injection X as -> X; [discriminate|]. apply H. exists a, b. exact X.
Qed.
Lemma with_prefix_full n p : with_prefix p n = full_name (n, p).
Proof. reflexivity. Qed.
Lemma with_prefix_sanitize n p : ~ contains "-" p -> with_prefix p (sanitize n) = sanitize (full_name (n, p)).
Proof.
  intros H. unfold with_prefix, full_name. cbn [fst snd]. destruct p as [|c p]; [reflexivity|]. rewrite !sanitize_app. rewrite (sanitize_id (String c p)) by exact H. reflexivity.
Qed.

(** * The invariant of the two dictionaries *)
Record inv_ok (t : trans) : Prop := {
  io_d : forall k v, sget (tr_d t) k = Some v -> v = sanitize k /\ v <> k /\ sget (tr_inv t) v = Some k;
  io_inv : forall v k, sget (tr_inv t) v = Some k -> sget (tr_d t) k = Some v }.
Definition grows (t t' : trans) : Prop := forall k v, sget (tr_d t) k = Some v -> sget (tr_d t') k = Some v.
Lemma grows_refl t : grows t t. Proof. intros k v H; exact H. Qed.
Lemma grows_trans a b c : grows a b -> grows b c -> grows a c.
Proof. intros H1 H2 k v H. auto. Qed.
(** [n] has been translated *)
Definition known (t : trans) (n : string) : Prop := sanitize n = n \/ sget (tr_d t) n = Some (sanitize n).
Lemma known_grows t t' n : grows t t' -> known t n -> known t' n.
Proof. intros G [H|H]; [left; auto|right; auto]. Qed.
Lemma inv_ok0 : inv_ok trans0.
Proof. constructor; cbn; discriminate. Qed.
Lemma sget_dset (d : list (string * string)) (k v k' : string) : sget (dset String.eqb d k v) k' = if String.eqb k k' then Some v else sget d k'.
Proof. unfold sget. induction d as [|[x y] d IH]; cbn [dset dget]; [reflexivity|].
  destruct (String.eqb x k) eqn:E; cbn [dget]; [apply String.eqb_eq in E as ->; destruct (String.eqb k k'); reflexivity|].
  rewrite IH. destruct (String.eqb x k') eqn:E'; [|reflexivity]. apply String.eqb_eq in E' as ->. destruct (String.eqb k k') eqn:F; [|reflexivity]. apply String.eqb_eq in F as ->. now rewrite String.eqb_refl in E. Qed.
Lemma normalize_spec t n p s t' : inv_ok t -> ~ contains "-" p -> normalize t n p = Ok (s, t') ->
  inv_ok t' /\ grows t t' /\ s = sanitize (full_name (n, p)) /\ known t' (full_name (n, p)).
Proof.
  intros I Hp. unfold normalize. rewrite with_prefix_full, with_prefix_sanitize by auto. set (k := full_name (n, p)). destruct (sget (tr_d t) k) as [v|] eqn:E.
  - intros H. injection H as <- <-. destruct (io_d t I k v E) as (-> & _). split; [exact I|]. split; [apply grows_refl|]. split; [reflexivity|]. right. exact E.
  - destruct (sget (tr_inv t) k) eqn:E1; [discriminate|]. destruct (sget (tr_inv t) (sanitize k)) eqn:E2; [discriminate|]. destruct (String.eqb (sanitize k) k) eqn:E3; intros H; injection H as <- <-.
    + apply String.eqb_eq in E3. split; [exact I|]. split; [apply grows_refl|]. split; [reflexivity|]. left. exact E3.
    + apply String.eqb_neq in E3. split; [|split; [|split; [reflexivity|]]].
      * constructor; cbn [tr_d tr_inv].
        -- intros k' v. rewrite !sget_dset. destruct (String.eqb k k') eqn:F.
           ++ apply String.eqb_eq in F as <-. intros X. injection X as <-. rewrite String.eqb_refl. auto.
           ++ intros X. destruct (io_d t I k' v X) as (A & B & C). repeat split; auto. destruct (String.eqb (sanitize k) v) eqn:G; [|exact C]. apply String.eqb_eq in G. congruence.
        -- intros v k'. rewrite !sget_dset. destruct (String.eqb (sanitize k) v) eqn:F.
           ++ apply String.eqb_eq in F as <-. intros X. injection X as <-. now rewrite String.eqb_refl.
           ++ intros X. assert (Y := io_inv t I v k' X). destruct (String.eqb k k') eqn:G; [|exact Y]. apply String.eqb_eq in G as <-. congruence.
      * intros k' v X. cbn [tr_d]. rewrite sget_dset. destruct (String.eqb k k') eqn:F; [|exact X]. apply String.eqb_eq in F as <-. congruence.
      * right. cbn [tr_d]. rewrite sget_dset, String.eqb_refl. reflexivity.
Qed.
Lemma back_known t n : inv_ok t -> known t n -> unambiguous n -> back t (sanitize n) = n.
Proof.
  intros I K U. unfold back. destruct (contains_dec n) as [H|H].
  - assert (sget (tr_d t) n = Some (sanitize n)) as E. { destruct K as [K|K]; [|auto]. exfalso. apply (sanitize_no_hyphen n). rewrite K. exact H. }
    destruct (io_d t I _ _ E) as (_ & _ & ->). reflexivity.
  - destruct (sget (tr_inv t) (sanitize n)) as [k|] eqn:E; [|now apply sanitize_id]. exfalso. apply (io_inv t I) in E. destruct (io_d t I _ _ E) as (A & B & _).
    destruct U as [U|U]; [contradiction|]. apply U. rewrite (sanitize_id n H) in A, B. rewrite A. apply sanitize_hyphen. destruct (contains_dec k) as [X|X]; [exact X|]. exfalso. apply B. rewrite A. now apply sanitize_id.
Qed.

(** * The theorems *)
Lemma translates_inv calls t rs t' : translates calls t rs t' -> (forall c, In c calls -> ~ contains "-" (snd c)) -> inv_ok t -> inv_ok t' /\ grows t t'.
Proof.
  induction 1 as [t|call calls t r t1 rs t2 E H IH]; intros P I; [split; [auto|apply grows_refl]|]. unfold call_normalize in E. destruct (normalize t (fst call) (snd call)) as [[s t3]|] eqn:N.
  - injection E as _ ->. assert (Pc : ~ contains "-" (snd call)) by (apply P; left; reflexivity). destruct (normalize_spec _ _ _ _ _ I Pc N) as (I1 & G1 & _). destruct (IH (fun c Hc => P c (or_intror Hc)) I1) as [I2 G2]. split; [auto|eapply grows_trans; eauto].
  - injection E as _ ->. exact (IH (fun c Hc => P c (or_intror Hc)) I).
Qed.
Lemma translates_result calls t rs t' : translates calls t rs t' -> (forall c, In c calls -> ~ contains "-" (snd c)) -> inv_ok t ->
  forall i call s, nth_error calls i = Some call -> nth_error rs i = Some (Ok s) -> s = sanitize (full_name call) /\ known t' (full_name call).
Proof.
  induction 1 as [t|call calls t r t1 rs t2 E H IH]; intros P I i c s Hc Hs; [destruct i; discriminate|]. assert (Pc : ~ contains "-" (snd call)) by (apply P; left; reflexivity).
  assert (I1 : inv_ok t1). { unfold call_normalize in E. destruct (normalize t (fst call) (snd call)) as [[s3 t3]|] eqn:N; injection E as _ ->; [|auto]. apply (normalize_spec _ _ _ _ _ I Pc N). }
  destruct i as [|i]; cbn [nth_error] in Hc, Hs; [|exact (IH (fun c Hc => P c (or_intror Hc)) I1 i c s Hc Hs)].
  injection Hc as <-. injection Hs as ->. unfold call_normalize in E. destruct (normalize t (fst call) (snd call)) as [[s3 t3]|] eqn:N; [|discriminate]. injection E as -> ->. destruct call as [n p].
  destruct (normalize_spec _ _ _ _ _ I Pc N) as (_ & _ & -> & K). split; [reflexivity|]. apply (known_grows t1); [|exact K]. apply (translates_inv _ _ _ _ H (fun c Hc => P c (or_intror Hc)) I1).
Qed.

(** Translated names are read back as the names they come from; they contain no hyphen. *)
Theorem C37_back calls rs t i call s : translates calls trans0 rs t -> (forall c, In c calls -> ~ contains "-" (snd c)) -> nth_error calls i = Some call -> nth_error rs i = Some (Ok s) ->
  ~ contains "-" s /\ (unambiguous (full_name call) -> back t s = full_name call).
Proof.
  intros H P Hc Hs. destruct (translates_result _ _ _ _ H P inv_ok0 i call s Hc Hs) as [-> K]. split; [apply sanitize_no_hyphen|]. intros U. apply back_known; auto. apply (translates_inv _ _ _ _ H P inv_ok0).
Qed.
Print Assumptions C37_back.
(** Different names get different translations. *)
Theorem C37_distinct calls rs t i j c c' s : translates calls trans0 rs t -> (forall c, In c calls -> ~ contains "-" (snd c)) -> nth_error calls i = Some c -> nth_error calls j = Some c' ->
  nth_error rs i = Some (Ok s) -> nth_error rs j = Some (Ok s) -> unambiguous (full_name c) -> unambiguous (full_name c') -> full_name c = full_name c'.
Proof.
  intros H P Hi Hj Ri Rj U U'. destruct (C37_back _ _ _ _ _ _ H P Hi Ri) as [_ A]. destruct (C37_back _ _ _ _ _ _ H P Hj Rj) as [_ B]. rewrite <- (A U), <- (B U'). reflexivity.
Qed.
Print Assumptions C37_distinct.
(** The same name always gets the same translation, whatever is translated in between. *)
Theorem C37_stable calls rs t i c s : translates calls trans0 rs t -> (forall c, In c calls -> ~ contains "-" (snd c)) -> nth_error calls i = Some c -> nth_error rs i = Some (Ok s) -> unambiguous (full_name c) ->
  forall c', full_name c' = full_name c -> ~ contains "-" (snd c') -> exists t', normalize t (fst c') (snd c') = Ok (s, t').
Proof.
  intros H P Hi Ri U c' E P'. destruct (translates_result _ _ _ _ H P inv_ok0 _ _ _ Hi Ri) as [-> K]. assert (I : inv_ok t) by apply (translates_inv _ _ _ _ H P inv_ok0). destruct c' as [n p]. cbn [fst snd]. unfold normalize.
  rewrite with_prefix_full, with_prefix_sanitize by exact P'. rewrite E. set (k := full_name c) in *. destruct (sget (tr_d t) k) as [v|] eqn:D; [destruct (io_d t I _ _ D) as (-> & _); eauto|].
  destruct K as [K|K]; [|congruence]. rewrite K. assert (B := back_known t k I (or_introl K) U). unfold back in B. rewrite K in B. destruct (sget (tr_inv t) k) as [k'|] eqn:V.
  - subst k'. apply (io_inv t I) in V. congruence.
  - rewrite String.eqb_refl. eauto.
Qed.
Print Assumptions C37_stable.
(** Two different names with hyphens and the same translation: the second call raises. Also when the ambiguous name comes second. *)
Theorem C37_clash_raises calls rs t i c s c' : translates calls trans0 rs t -> (forall c, In c calls -> ~ contains "-" (snd c)) -> nth_error calls i = Some c -> nth_error rs i = Some (Ok s) ->
  contains "-" (full_name c) -> ~ contains "-" (snd c') -> full_name c' <> full_name c -> sanitize (full_name c') = sanitize (full_name c) -> normalize t (fst c') (snd c') = Err RuntimeError.
Proof.
  intros H P Hi Ri Hy P' N E. destruct (translates_result _ _ _ _ H P inv_ok0 _ _ _ Hi Ri) as [-> K]. assert (I : inv_ok t) by apply (translates_inv _ _ _ _ H P inv_ok0).
  assert (D : sget (tr_d t) (full_name c) = Some (sanitize (full_name c))). { destruct K as [K|K]; [|auto]. exfalso. apply (sanitize_no_hyphen (full_name c)). rewrite K. exact Hy. }
  destruct (io_d t I _ _ D) as (_ & _ & V). destruct c' as [n p]. cbn [fst snd] in *. unfold normalize. rewrite with_prefix_full, with_prefix_sanitize by exact P'. destruct (sget (tr_d t) (full_name (n, p))) as [v|] eqn:D'.
  - exfalso. destruct (io_d t I _ _ D') as (-> & _ & V'). rewrite E in V'. congruence.
  - rewrite E, V. destruct (sget (tr_inv t) (full_name (n, p))); reflexivity.
Qed.
Print Assumptions C37_clash_raises.

(** ** Examples. Constants a-b and c, predicate on-table; the translations are as documented. *)
Theorem C37_nonvacuous : exists t, translates [("a-b", ""); ("on-table", "atom"); ("c", ""); ("a-b", "")] trans0 [Ok "a__b"; Ok "atom_on__table"; Ok "c"; Ok "a__b"] t /\ back t "a__b" = "a-b" /\ back t "atom_on__table" = "atom_on-table" /\ back t "c" = "c" /\
  unambiguous "a-b" /\ unambiguous "c".
Proof.
  eexists. split; [econstructor; [reflexivity|]; econstructor; [reflexivity|]; econstructor; [reflexivity|]; econstructor; [reflexivity|]; constructor|]. split; [reflexivity|]. split; [reflexivity|]. split; [reflexivity|].
  split; [left; exists "a", "b"; reflexivity|]. right. intros (a & b & H). destruct a as [|x [|y a]]; discriminate.
Qed.
(** A name with two underscores that is translated first: no error, two names have one translation, and the first is read back as the second. *)
Theorem C37_order_refuted : exists t, translates [("a__b", ""); ("a-b", "")] trans0 [Ok "a__b"; Ok "a__b"] t /\ back t "a__b" = "a-b".
Proof. eexists. split; [econstructor; [reflexivity|]; econstructor; [reflexivity|]; constructor|reflexivity]. Qed.
(** Names that translate alike without being equal: a-_b and a_-b. The second one is rejected. *)
Theorem C37_clash_example : exists t, translates [("a-_b", ""); ("a_-b", "")] trans0 [Ok "a___b"; Err RuntimeError] t.
Proof. eexists. econstructor; [reflexivity|]. econstructor; [reflexivity|]. constructor. Qed.
