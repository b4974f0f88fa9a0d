(** The type hierarchy of PDDL domains: re-parenting, search, and domains *)
From Verif Require Import Base Syntax SemLemmas ListUtil ModelState ModelProofs FreeVars Lang LangSpec LangProofs LangProofs2 Theories PddlInstance PddlInstanceSpec.
#[local] Open Scope string_scope.
#[local] Open Scope list_scope.

Lemma above_mono E E' s t : (forall e, In e E -> In e E') -> above E s t -> above E' s t.
Proof. intros H A. induction A; [apply above_one; auto|eapply above_step; eauto]. Qed.
Lemma above_trans E s t u : above E s t -> above E t u -> above E s u.
Proof. intros A B. induction A; eapply above_step; eauto. Qed.
Lemma above_first E s t : above E s t -> exists u, In (s, u) E /\ (u = t \/ above E u t).
Proof. intros A. inversion A; subst; eauto. Qed.
Lemma above_left E E' s t : above E s t -> above (E ++ E') s t.
Proof. apply above_mono. intros e H. apply in_app_iff. now left. Qed.
(** The supertype given last *)
Definition last_super (E : list (string * string)) (s : string) : option string := fold_left (fun acc e => if String.eqb (fst e) s then Some (snd e) else acc) E None.
Lemma last_super_snoc E a b s : last_super (E ++ [(a, b)]) s = if String.eqb a s then Some b else last_super E s.
Proof. unfold last_super. rewrite fold_left_app. reflexivity. Qed.
Lemma last_super_In E s p : last_super E s = Some p -> In (s, p) E.
Proof.
  induction E as [|[a b] E IH] using rev_ind; [discriminate|]. rewrite last_super_snoc, in_app_iff. destruct (String.eqb_spec a s) as [->|]; [intros Q; injection Q as <-; right; now left|auto].
Qed.

(** The sorts of every instance *)
Definition sorts0 : list string := ["object"; "Real"; "Integer"; "Natural"; "Bool"].
Record hier (rank : string -> nat) (l : lang) (E : list (string * string)) (tys : list string) : Prop := {
  h_sorts : forall s, has_sort l s = true <-> In s (sorts0 ++ tys);
  h_plain : forall t, In t ("object" :: tys) -> exists r, sget (l_sorts l) t = Some r /\ s_kind r = KPlain /\ s_builtin r = false;
  h_new : forall t, In t tys -> ~ In t sorts0;
  h_edge : forall s t, In (s, t) E -> In s tys /\ In t ("object" :: tys);
  h_keys : forall s, (exists o, sget (l_parent l) s = Some o) -> In s (sorts0 ++ tys);
  h_akeys : forall s, (exists o, sget (l_anc l) s = Some o) -> In s (sorts0 ++ tys);
  h_up : forall s, In s ("object" :: tys) -> exists a, sget (l_anc l) s = Some a /\ (forall t, In (s, t) E -> In t a) /\ (forall t, In t a -> above E s t);
  h_top : forall s, In s tys -> above E s "object";
  h_ind : forall s t, In s ("object" :: tys) -> In t (get_set (l_ind l) s) -> above E s t;
  h_root : sget (l_parent l) "object" = Some None;
  h_par : forall s, In s tys -> sget (l_parent l) s = Some (last_super E s) /\ last_super E s <> None;
  h_rank : forall s t, In (s, t) E -> rank t < rank s;
  h_bound : forall s, In s ("object" :: tys) -> rank s < List.length (l_sorts l);
  h_pos : forall s, In s tys -> 0 < rank s
}.

Lemma object_no_edge rank l E tys t : hier rank l E tys -> ~ In ("object", t) E.
Proof. intros H K. destruct (h_edge _ _ _ _ H _ _ K) as [K' _]. apply (h_new _ _ _ _ H _ K'). now left. Qed.
Lemma above_types rank l E tys s t : hier rank l E tys -> above E s t -> In s tys /\ In t ("object" :: tys) /\ rank t < rank s.
Proof.
  intros H A. induction A as [s t K|s t u K _ (I1 & I2 & I3)].
  - destruct (h_edge _ _ _ _ H _ _ K). split; [auto|split; [auto|exact (h_rank _ _ _ _ H _ _ K)]].
  - destruct (h_edge _ _ _ _ H _ _ K). split; [auto|split; [auto|]]. pose proof (h_rank _ _ _ _ H _ _ K). lia.
Qed.
(** The chain of parents *)
Lemma closure_chain rank E l tys : sget (l_parent l) "object" = Some None -> (forall s, In s tys -> exists p, sget (l_parent l) s = Some (Some p) /\ In (s, p) E /\ In p ("object" :: tys)) -> (forall s t, In (s, t) E -> rank t < rank s) ->
  forall k s, In s ("object" :: tys) -> rank s < k -> exists c, closure k l s = Ok c /\ In s c /\ forall t, In t c -> t = s \/ above E s t.
Proof.
  intros R P K. induction k as [|k IH]; intros s Hs L; [lia|]. cbn [closure]. destruct Hs as [<- |Hs].
  - rewrite R. exists ["object"]. split; [reflexivity|]. split; [now left|]. intros t [<- |[]]. now left.
  - destruct (P s Hs) as (p & Ep & He & Hp). rewrite Ep. destruct (IH p Hp) as (c & Ec & C1 & C2). { pose proof (K _ _ He). lia. } rewrite Ec. cbn [bind]. exists (s :: c). split; [reflexivity|]. split; [now left|].
    intros t [<- |Ht]; [now left|right]. destruct (C2 t Ht) as [->|A]; [now apply above_one|]. eapply above_step; eauto.
Qed.
(** The search of the graph of ancestors terminates and is exact. *)
Section Search.
Variables (rank : string -> nat) (l : lang) (E : list (string * string)) (tys : list string).
Hypothesis H : hier rank l E tys.
Definition width : nat := S (list_max (map (fun e => List.length (snd e)) (l_anc l))).
Definition weight (opn : list string) : nat := list_sum (map (fun s => width ^ rank s) opn).
Lemma dget_length s a : sget (l_anc l) s = Some a -> List.length a < width.
Proof.
  intros G. unfold sget in G. apply (dget_In String.eqb String.eqb_eq) in G. unfold width. apply (in_map (fun e => List.length (snd e))) in G. cbn in G.
  assert (M := proj1 (list_max_le (map (fun e => List.length (snd e)) (l_anc l)) (list_max (map (fun e => List.length (snd e)) (l_anc l)))) (le_n _)). rewrite Forall_forall in M. specialize (M _ G). lia.
Qed.
Lemma push_In xs : forall opn t, In t (push_new xs opn) <-> In t xs \/ In t opn.
Proof.
  induction xs as [|x xs IH]; intros opn t; cbn [push_new In]; [tauto|]. destruct (str_mem x opn) eqn:M; rewrite IH; [|cbn [In]; tauto]. apply str_mem_In in M. split; [tauto|]. intros [[<- |K]|K]; auto.
Qed.
Lemma push_weight xs k : (forall t, In t xs -> rank t < k) -> forall opn, weight (push_new xs opn) <= weight opn + List.length xs * width ^ (k - 1).
Proof.
  induction xs as [|x xs IH]; intros K opn; cbn [push_new List.length]; [lia|]. assert (IH' := IH (fun t Ht => K t (or_intror Ht))). destruct (str_mem x opn); [specialize (IH' opn); lia|]. specialize (IH' (x :: opn)).
  assert (W : width ^ rank x <= width ^ (k - 1)). { apply Nat.pow_le_mono_r; [unfold width; lia|]. specialize (K x (or_introl eq_refl)). lia. }
  unfold weight in IH' at 2. cbn [map list_sum fold_right] in IH'. fold (weight opn) in IH'. unfold weight in *. cbn [map list_sum fold_right] in IH'. change (fold_right Init.Nat.add 0 (map (fun s => width ^ rank s) opn)) with (list_sum (map (fun s => width ^ rank s) opn)) in IH'. lia.
Qed.
Lemma weight_cons t opn : weight (t :: opn) = width ^ rank t + weight opn.
Proof. reflexivity. Qed.
Lemma search_spec goal : forall fuel opn, (forall t, In t opn -> In t ("object" :: tys)) -> weight opn < fuel -> exists b, search fuel l goal opn = Ok b /\ (b = true <-> exists t, In t opn /\ (t = goal \/ above E t goal)).
Proof.
  induction fuel as [|fuel IH]; intros opn I L; [lia|]. cbn [search]. destruct opn as [|t opn]; [exists false; split; [reflexivity|split; [discriminate|intros (t & [] & _)]]|].
  destruct (String.eqb_spec t goal) as [->|N]; [exists true; split; [reflexivity|split; [|reflexivity]; intros _; exists goal; split; [now left|now left]]|].
  destruct (h_up _ _ _ _ H t (I t (or_introl eq_refl))) as (a & Ga & A1 & A2). unfold get_set. rewrite Ga. rewrite weight_cons in L.
  assert (Wp : weight (push_new a opn) < fuel).
  { destruct a as [|x a']; [cbn [push_new]; assert (1 <= width ^ rank t) by (apply Nat.le_succ_l, Nat.neq_0_lt_0, Nat.pow_nonzero; unfold width; lia); lia|].
    assert (Rt : rank x < rank t) by (destruct (above_types _ _ _ _ _ _ H (A2 x (or_introl eq_refl))) as (_ & _ & Q); exact Q).
    pose proof (push_weight (x :: a') (rank t) (fun u Hu => proj2 (proj2 (above_types _ _ _ _ _ _ H (A2 u Hu)))) opn) as P. pose proof (dget_length _ _ Ga) as Q.
    assert (Z : width ^ rank t = width * width ^ (rank t - 1)). { replace (rank t) with (S (rank t - 1)) at 1 by lia. reflexivity. }
    assert (List.length (x :: a') * width ^ (rank t - 1) + width ^ (rank t - 1) <= width * width ^ (rank t - 1)). { rewrite <- (Nat.mul_1_l (width ^ (rank t - 1))) at 2. rewrite <- Nat.mul_add_distr_r. apply Nat.mul_le_mono_r. lia. }
    assert (1 <= width ^ (rank t - 1)) by (apply Nat.le_succ_l, Nat.neq_0_lt_0, Nat.pow_nonzero; unfold width; lia). lia. }
  destruct (IH (push_new a opn)) as (b & Eb & B); [|exact Wp|].
  { intros u Hu. apply push_In in Hu as [Hu|Hu]; [exact (proj1 (proj2 (above_types _ _ _ _ _ _ H (A2 u Hu))))|apply I; now right]. }
  exists b. split; [exact Eb|]. rewrite B. split.
  - intros (u & Hu & K). apply push_In in Hu as [Hu|Hu]; [|exists u; split; [now right|exact K]]. exists t. split; [now left|right]. destruct K as [<- |K]; [exact (A2 u Hu)|exact (above_trans _ _ _ _ (A2 u Hu) K)].
  - intros (u & [<- |Hu] & K); [|exists u; split; [apply push_In; now right|exact K]]. destruct K as [K|K]; [contradiction|]. apply above_first in K as (v & Hv & K). exists v. split; [apply push_In; left; auto|exact K].
Qed.
Theorem subtype_spec fuel s t : In s ("object" :: tys) -> In t ("object" :: tys) -> weight (rev (get_set (l_anc l) s)) < fuel ->
  exists l' b, is_subtype fuel l s t = (l', Ok b) /\ (b = true <-> s = t \/ above E s t) /\ hier rank l' E tys /\ l_anc l' = l_anc l.
Proof.
  intros Hs Ht L. unfold is_subtype, retrieve. assert (Q : forall u, In u ("object" :: tys) -> has_sort l u = true). { intros u Hu. apply (h_sorts _ _ _ _ H). apply in_app_iff. destruct Hu as [<- |Hu]; [left; now left|now right]. }
  rewrite (Q s Hs), (Q t Ht). destruct (String.eqb_spec s t) as [->|N]; [exists l, true; split; [reflexivity|]; split; [tauto|auto]|]. destruct (h_up _ _ _ _ H s Hs) as (a & Ga & A1 & A2). unfold get_set in *. rewrite Ga in *.
  destruct (str_mem t a) eqn:M; [exists l, true; split; [reflexivity|]; split; [apply str_mem_In in M; split; auto|auto]|]. unfold connected, get_set. rewrite Ga.
  destruct (str_mem t (match sget (l_ind l) s with Some i => i | None => [] end)) eqn:Mi.
  { exists l, true. split; [reflexivity|]. split; [|auto]. apply str_mem_In in Mi. split; [|reflexivity]. intros _. right. apply (h_ind _ _ _ _ H s t Hs). unfold get_set. exact Mi. }
  destruct (search_spec t fuel (rev a)) as (b & Eb & B); [|exact L|].
  { intros u Hu. apply in_rev in Hu. exact (proj1 (proj2 (above_types _ _ _ _ _ _ H (A2 u Hu)))). }
  assert (B' : b = true <-> above E s t).
  { rewrite B. split.
    - intros (u & Hu & K). apply in_rev in Hu. destruct K as [<- |K]; [exact (A2 u Hu)|exact (above_trans _ _ _ _ (A2 u Hu) K)].
    - intros K. apply above_first in K as (u & Hu & K). exists u. split; [apply in_rev; rewrite rev_involutive; auto|exact K]. }
  rewrite Eb. destruct b.
  - exists (set_ind l (dset String.eqb (l_ind l) s (union (get_set (l_ind l) s) [t]))), true. unfold get_set. split; [reflexivity|]. split; [split; [intros _; right; apply B'; reflexivity|reflexivity]|]. split; [|reflexivity].
    destruct H as [F1 F2 F3 F4 F5 F6 F7 F8 F9 F10 F11 F12 F13 F14]. constructor; auto. intros u v Hu. unfold get_set, set_ind, set_par. cbn [l_ind]. rewrite sget_dset. destruct (String.eqb_spec s u) as [<- |Nu].
    + rewrite union_In. intros [K|[<- |[]]]; [apply (F9 s v Hs); exact K|now apply B'].
    + intros K. exact (F9 u v Hu K).
  - exists l, false. split; [reflexivity|]. split; [|auto]. split; [discriminate|]. intros [K|K]; [contradiction|]. apply B' in K. discriminate K.
Qed.
End Search.
