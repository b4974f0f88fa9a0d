From Coq Require Import FinFun.
From Verif Require Import Base Syntax Semantics SemLemmas FreeVars SubstSpec SubstProofs.

Lemma mem_t_In t l : mem_t t l = true <-> In t l.
Proof.
  unfold mem_t. rewrite existsb_exists. split.
  - intros (u & Hu & E). apply term_eqb_eq in E. now subst.
  - intros H. exists t. split; [auto|apply term_eqb_refl].
Qed.
Lemma mem_t_false t l : mem_t t l = false <-> ~ In t l.
Proof. rewrite <- mem_t_In. destruct (mem_t t l); split; congruence. Qed.
Lemma add_t_In t l u : In u (add_t t l) <-> u = t \/ In u l.
Proof.
  unfold add_t. destruct (mem_t t l) eqn:E.
  - apply mem_t_In in E. split; [auto|]. intros [->|H]; auto.
  - rewrite in_app_iff. simpl. split; [intros [H|[H|[]]]; auto | intros [H|H]; auto].
Qed.
Lemma add_t_NoDup t l : NoDup l -> NoDup (add_t t l).
Proof.
  intros H. unfold add_t. destruct (mem_t t l) eqn:E; [auto|]. apply mem_t_false in E.
  apply NoDup_Add with (a := t) (l := l); [|auto].
  rewrite <- (app_nil_r l) at 1. apply Add_app.
Qed.
Lemma fold_add_In vs : forall q u, In u (fold_left (fun q v => add_t v q) vs q) <-> In u vs \/ In u q.
Proof.
  induction vs as [|v vs IH]; intros q u; simpl; [tauto|].
  rewrite IH, add_t_In. split; [intros [H|[H|H]]; auto | intros [[H|H]|H]; auto].
Qed.
Lemma fold_add_NoDup vs : forall q, NoDup q -> NoDup (fold_left (fun q v => add_t v q) vs q).
Proof. induction vs as [|v vs IH]; intros q H; simpl; auto using add_t_NoDup. Qed.

Lemma remove_t_spec t l : NoDup l ->
  (In t l -> exists l', remove_t t l = Ok l' /\ NoDup l' /\ forall u, In u l' <-> In u l /\ u <> t) /\
  (~ In t l -> remove_t t l = Err KeyError).
Proof.
  induction 1 as [|a l Ha Hl [IH1 IH2]]; simpl; [split; [tauto|reflexivity]|].
  destruct (term_eqb t a) eqn:E.
  - apply term_eqb_eq in E. subst a. split; [|tauto]. intros _. exists l. split; [reflexivity|]. split; [auto|].
    intros u. split; [intros Hu; split; [auto|congruence] | intros [[Hu|Hu] Hn]; [congruence|auto]].
  - assert (Hne : t <> a) by (intros ->; rewrite term_eqb_refl in E; discriminate).
    split.
    + intros [H|H]; [congruence|]. destruct (IH1 H) as (l' & -> & Hnd & Hin). exists (a :: l'). split; [reflexivity|]. split.
      * constructor; [|auto]. rewrite Hin. tauto.
      * intros u. simpl. rewrite Hin. split; [intros [->|[? ?]]; auto | intros [[->|?] ?]; auto].
    + intros H. rewrite IH2; [reflexivity|]. tauto.
Qed.

Lemma foldM_remove vs : forall q, NoDup q ->
  match foldM (fun q v => remove_t v q) vs q with
  | Ok q' => NoDup q' /\ (forall u, In u q' <-> In u q /\ ~ In u vs) /\ NoDup vs /\ incl vs q
  | Err e => e = KeyError /\ ~ (NoDup vs /\ incl vs q)
  end.
Proof.
  induction vs as [|v vs IH]; intros q Hq; simpl.
  - split; [auto|]. split; [intros u; tauto|]. split; [constructor|]. intros ? [].
  - destruct (remove_t_spec v q Hq) as [H1 H2].
    destruct (mem_t v q) eqn:E; [apply mem_t_In in E | apply mem_t_false in E].
    + destruct (H1 E) as (l' & -> & Hnd & Hin). specialize (IH l' Hnd).
      destruct (foldM (fun q v => remove_t v q) vs l') as [q'|e].
      * destruct IH as (A & B & C & D). split; [auto|]. split; [|split].
        -- intros u. rewrite B, Hin. simpl. split; [intros [[? ?] ?]; split; auto; intros [?|?]; auto |].
           intros [? Hn]. repeat split; auto.
        -- constructor; [|auto]. intros Hv. apply D in Hv. apply Hin in Hv. tauto.
        -- intros u [->|Hu]; auto. apply D in Hu. apply Hin in Hu. tauto.
      * destruct IH as [-> Hn]. split; [reflexivity|]. intros [Hd Hi]. apply Hn. inversion Hd as [|? ? Hv Hvs]; subst. split; [auto|].
        intros u Hu. apply Hin. split; [apply Hi; now right|]. intros ->. auto.
    + rewrite (H2 E). split; [reflexivity|]. intros [_ Hi]. apply E. apply Hi. now left.
Qed.

Lemma distinct_NoDup l : distinct l = true <-> NoDup l.
Proof.
  induction l as [|x l IH]; simpl; [split; [constructor|reflexivity]|].
  rewrite andb_true_iff, negb_true_iff, mem_var_false, IH. split; [intros []; now constructor | intros H; inversion H; auto].
Qed.

Definition tv (x : var) : term := Var (fst x) (snd x).
Lemma vars_of_map vs : forallb is_var vs = true -> map tv (vars_of vs) = vs.
Proof.
  induction vs as [|v vs IH]; simpl; [reflexivity|]. destruct v; try discriminate. simpl. intros H. now rewrite IH.
Qed.
Lemma tv_inj x y : tv x = tv y -> x = y.
Proof. destruct x, y. unfold tv. simpl. congruence. Qed.
Lemma In_tv_vars x vs : forallb is_var vs = true -> (In (tv x) vs <-> In x (vars_of vs)).
Proof.
  intros H. rewrite <- (vars_of_map vs H) at 1. rewrite in_map_iff. split.
  - intros (y & E & Hy). apply tv_inj in E. now subst.
  - intros Hx. eauto.
Qed.
Lemma NoDup_vars vs : forallb is_var vs = true -> (NoDup vs <-> NoDup (vars_of vs)).
Proof.
  intros H. rewrite <- (vars_of_map vs H) at 1. split.
  - apply NoDup_map_inv.
  - intros Hn. apply Injective_map_NoDup; [intros a b; apply tv_inj | auto].
Qed.

(** Terms. [Q] does not change; the free variables grow by those of the term that are not in [Q]. *)
Definition only_vars (l : list term) := forall t, In t l -> is_var t = true.

Lemma fv_term_spec : forall t st, NoDup (snd st) ->
  fst (fv_term t st) = fst st /\ NoDup (snd (fv_term t st)) /\
  (forall u, In u (snd st) -> In u (snd (fv_term t st))) /\
  (forall u, In u (snd (fv_term t st)) -> In u (snd st) \/ exists x, u = tv x /\ free_in_t x t = true /\ ~ In u (fst st)) /\
  (ite_free_t t = true -> forall x, free_in_t x t = true -> ~ In (tv x) (fst st) -> In (tv x) (snd (fv_term t st))).
Proof.
  refine (term_ind_nested _ (fun _ => True) _ _ _ _ I I _ _ _); auto.
  - intros x s [q f] Hn. simpl. destruct (mem_t (Var x s) q) eqn:E; simpl.
    + repeat split; auto. intros _ y Hy Hq. apply var_eqb_eq in Hy. subst y. apply mem_t_In in E. unfold tv in Hq. simpl in *. tauto.
    + apply mem_t_false in E. split; [reflexivity|]. split; [auto using add_t_NoDup|]. split; [|split].
      * intros u Hu. apply add_t_In. auto.
      * intros u Hu. apply add_t_In in Hu as [->|Hu]; auto. right. exists (x, s). split; [reflexivity|]. split; [apply var_eqb_refl|auto].
      * intros _ y Hy Hq. apply var_eqb_eq in Hy. subst y. apply add_t_In. left. reflexivity.
  - intros c s [q f] Hn. simpl. repeat split; auto. discriminate.
  - intros g ts HF. cbn [fv_term].
    induction HF as [|t ts Ht _ IH]; intros st Hn; cbn [fold_left].
    + repeat split; auto. intros _ x H. discriminate.
    + destruct (Ht st Hn) as (A1 & A2 & A3 & A4 & A5). destruct (IH (fv_term t st) A2) as (B1 & B2 & B3 & B4 & B5).
      rewrite A1 in *. split; [auto|]. split; [auto|]. split; [auto|]. split.
      * intros u Hu. apply B4 in Hu as [Hu|(x & Hx & Hf & Hq)].
        -- apply A4 in Hu as [Hu|(x & Hx & Hf & Hq)]; auto. right. exists x. cbn [free_in_t existsb]. rewrite Hf. auto.
        -- right. exists x. cbn [free_in_t existsb] in *. rewrite Hf. rewrite orb_true_r. auto.
      * cbn [ite_free_t forallb]. intros Hi x Hx Hq. apply andb_true_iff in Hi as [Hi1 Hi2].
        cbn [free_in_t existsb] in Hx. apply orb_true_iff in Hx as [Hx|Hx]; auto.
  - intros c a b _ _ _ [q f] Hn. simpl. repeat split; auto. discriminate.
Qed.

Lemma fv_terms_spec : forall ts st, NoDup (snd st) ->
  let st' := fold_left (fun s u => fv_term u s) ts st in
  fst st' = fst st /\ NoDup (snd st') /\
  (forall u, In u (snd st) -> In u (snd st')) /\
  (forall u, In u (snd st') -> In u (snd st) \/ exists x, u = tv x /\ existsb (free_in_t x) ts = true /\ ~ In u (fst st)) /\
  (forallb ite_free_t ts = true -> forall x, existsb (free_in_t x) ts = true -> ~ In (tv x) (fst st) -> In (tv x) (snd st')).
Proof.
  intros ts st Hn. exact (fv_term_spec (App (FB BAdd) ts) st Hn).
Qed.

(** Formulas, with [B] the bound variables in scope. *)
Definition fv_ok (B : list var) (f : formula) (st : fvstate) (r : res fvstate) : Prop :=
  match r with
  | Ok st' => NoDup (fst st') /\ NoDup (snd st') /\ incl (fst st') (fst st) /\
      (no_rebinding B f = false -> exists x, In x B /\ ~ In (tv x) (fst st')) /\
      (no_rebinding B f = true -> incl (fst st) (fst st')) /\
      (no_rebinding B f = true ->
        (forall u, In u (snd st) -> In u (snd st')) /\
        (forall u, In u (snd st') -> In u (snd st) \/ exists x, u = tv x /\ free_in x f = true /\ ~ In u (fst st)) /\
        (ite_free f = true -> forall x, free_in x f = true -> ~ In (tv x) (fst st) -> In (tv x) (snd st')))
  | Err e => e = KeyError /\ no_rebinding B f = false
  end.

Lemma fv_formula_spec : forall f st B, wf f = true -> NoDup (fst st) -> NoDup (snd st) ->
  incl (fst st) (map tv B) -> incl (map tv B) (fst st) ->
  fv_ok B f st (fv_formula f st).
Proof.
  refine (formula_ind_simple _ _ _ _ _ _).
  - intros st B _ Hq Hf _ _. simpl. repeat split; auto using incl_refl; discriminate.
  - intros st B _ Hq Hf _ _. simpl. repeat split; auto using incl_refl; discriminate.
  - intros p ts st B _ Hq Hf _ _. cbn [fv_formula fv_ok]. destruct (fv_terms_spec ts st Hf) as (A1 & A2 & A3 & A4 & A5).
    rewrite A1. repeat split; auto using incl_refl. discriminate.
  - intros c fs HF st B Hw Hq Hf Hi1 Hi2. cbn [wf] in Hw. apply andb_true_iff in Hw as [_ Hw]. cbn [fv_formula].
    assert (G : forall st0, NoDup (fst st0) -> NoDup (snd st0) ->
       (incl (fst st0) (fst st)) ->
       ((exists x, In x B /\ ~ In (tv x) (fst st0)) \/ incl (fst st) (fst st0)) ->
       match foldM (fun s g => fv_formula g s) fs st0 with
       | Ok st' => NoDup (fst st') /\ NoDup (snd st') /\ incl (fst st') (fst st0) /\
           (no_rebinding B (Comp c fs) = false -> exists x, In x B /\ ~ In (tv x) (fst st')) /\
           (incl (fst st) (fst st0) -> no_rebinding B (Comp c fs) = true -> incl (fst st0) (fst st') /\
            (forall u, In u (snd st0) -> In u (snd st')) /\
            (forall u, In u (snd st') -> In u (snd st0) \/ exists x, u = tv x /\ free_in x (Comp c fs) = true /\ ~ In u (fst st0)) /\
            (ite_free (Comp c fs) = true -> forall x, free_in x (Comp c fs) = true -> ~ In (tv x) (fst st0) -> In (tv x) (snd st')))
       | Err e => e = KeyError /\ (incl (fst st) (fst st0) -> no_rebinding B (Comp c fs) = false)
       end).
    { clear Hq Hf. induction HF as [|g fs Hg _ IH]; intros st0 Hq Hf Hsub Hcase; cbn [foldM].
      - cbn [no_rebinding forallb free_in existsb ite_free]. repeat split; auto using incl_refl; try discriminate.
      - cbn [forallb] in Hw. apply andb_true_iff in Hw as [Hw1 Hw2]. specialize (IH Hw2).
        (* the set in [st0] may be smaller than B: apply Hg with the set B0 of variables actually present *)
        set (B0 := filter (fun x => mem_t (tv x) (fst st0)) B).
        assert (HB0 : forall x, In x B0 <-> In x B /\ In (tv x) (fst st0)).
        { intros x. unfold B0. rewrite filter_In, mem_t_In. tauto. }
        assert (I1 : incl (fst st0) (map tv B0)).
        { intros u Hu. pose proof (Hi1 u (Hsub u Hu)) as H1. apply in_map_iff in H1 as (x & <- & Hx).
          apply in_map_iff. exists x. split; [auto|]. apply HB0. auto. }
        assert (I2 : incl (map tv B0) (fst st0)).
        { intros u Hu. apply in_map_iff in Hu as (x & <- & Hx). apply HB0 in Hx. tauto. }
        specialize (Hg st0 B0 Hw1 Hq Hf I1 I2).
        assert (EqB : incl (fst st) (fst st0) -> B0 = B).
        { intros Hs. unfold B0. clear - Hs Hi2. induction B as [|x B IHB]; [reflexivity|]. cbn [filter].
          assert (E : mem_t (tv x) (fst st0) = true) by (apply mem_t_In, Hs, Hi2; now left).
          rewrite E. f_equal. apply IHB. intros u Hu. apply Hi2. now right. }
        destruct (fv_formula g st0) as [st1|e].
        + destruct Hg as (C1 & C2 & C3 & C4 & C5 & C6).
          assert (Hcase1 : (exists x, In x B /\ ~ In (tv x) (fst st1)) \/ incl (fst st) (fst st1)).
          { destruct Hcase as [(x & Hx & Hn)|Hs]; [left; exists x; split; auto|].
            destruct (no_rebinding B0 g) eqn:E.
            - right. intros u Hu. apply C5; auto.
            - left. destruct (C4 eq_refl) as (x & Hx & Hn). exists x. split; [apply HB0 in Hx; tauto|auto]. }
          specialize (IH st1 C1 C2 (fun u Hu => Hsub u (C3 u Hu)) Hcase1).
          destruct (foldM (fun s g => fv_formula g s) fs st1) as [st2|e].
          * destruct IH as (D1 & D2 & D3 & D4 & D5). split; [auto|]. split; [auto|]. split; [intros u Hu; auto|]. split.
            -- intros Hr. cbn [no_rebinding forallb] in Hr. fold (no_rebinding B (Comp c fs)) in *.
               apply andb_false_iff in Hr as [Hr|Hr]; [|apply D4; exact Hr].
               destruct Hcase as [(x & Hx & Hn)|Hs]; [exists x; split; auto|].
               rewrite (EqB Hs) in *. destruct (C4 Hr) as (x & Hx & Hn). exists x. split; auto.
            -- intros Hs Hr. cbn [no_rebinding forallb] in Hr. apply andb_true_iff in Hr as [Hr1 Hr2].
               rewrite (EqB Hs) in *.
               assert (Hs1 : incl (fst st) (fst st1)) by (intros u Hu; apply C5; auto).
               destruct (D5 Hs1 Hr2) as (E1 & E2 & E3 & E4).
               destruct (C6 Hr1) as (F1 & F2 & F3).
               split; [intros u Hu; apply E1, C5; auto|]. split; [auto|]. split.
               ++ intros u Hu. apply E3 in Hu as [Hu|(x & Hx & Hy & Hz)].
                  ** apply F2 in Hu as [Hu|(x & Hx & Hy & Hz)]; auto. right. exists x. cbn [free_in existsb]. rewrite Hy. auto.
                  ** right. exists x. cbn [free_in existsb] in *. rewrite Hy, orb_true_r. split; [auto|]. split; [auto|].
                     intros Hin. apply Hz. apply C5; auto.
               ++ cbn [ite_free forallb free_in existsb]. intros Hi x Hx Hq0. apply andb_true_iff in Hi as [Hi3 Hi4].
                  apply orb_true_iff in Hx as [Hx|Hx].
                  ** apply E2. apply F3; auto.
                  ** apply E4; auto.
          * destruct IH as [-> IH]. split; [reflexivity|]. intros Hs. cbn [no_rebinding forallb].
            destruct (no_rebinding B g) eqn:E; [|reflexivity]. apply IH.
            rewrite (EqB Hs) in *. intros u Hu. apply C5; auto.
        + destruct Hg as [-> Hg]. split; [reflexivity|]. intros Hs. rewrite (EqB Hs) in Hg. cbn [no_rebinding forallb]. rewrite Hg. reflexivity. }
    specialize (G st Hq Hf (incl_refl _) (or_intror (incl_refl _))).
    unfold fv_ok. destruct (foldM (fun s g => fv_formula g s) fs st) as [st'|e].
    + destruct G as (D1 & D2 & D3 & D4 & D5). split; [auto|]. split; [auto|]. split; [auto|]. split; [auto|].
      split; intros Hr; destruct (D5 (incl_refl _) Hr) as (E1 & E2 & E3 & E4); auto.
    + destruct G as [-> G]. split; [reflexivity|]. apply G, incl_refl.
  - intros q vs g IH st B Hw Hq Hf Hi1 Hi2. cbn [wf] in Hw. apply andb_true_iff in Hw as [Hw Hwg]. apply andb_true_iff in Hw as [_ Hv].
    cbn [fv_formula]. set (q1 := fold_left (fun q v => add_t v q) vs (fst st)).
    assert (Hq1 : forall u, In u q1 <-> In u vs \/ In u (fst st)) by (intros u; apply fold_add_In).
    assert (Hn1 : NoDup q1) by (apply fold_add_NoDup; auto).
    assert (J1 : incl q1 (map tv (vars_of vs ++ B))).
    { intros u Hu. rewrite map_app, in_app_iff, (vars_of_map vs Hv). apply Hq1 in Hu as [Hu|Hu]; auto. }
    assert (J2 : incl (map tv (vars_of vs ++ B)) q1).
    { intros u Hu. rewrite map_app, in_app_iff, (vars_of_map vs Hv) in Hu. apply Hq1. destruct Hu as [Hu|Hu]; auto. }
    specialize (IH (q1, snd st) (vars_of vs ++ B) Hwg Hn1 Hf J1 J2).
    destruct (fv_formula g (q1, snd st)) as [st2|e]; cbn [bind].
    2:{ destruct IH as [-> Hr]. cbn [fv_ok no_rebinding]. rewrite Hr, andb_false_r. auto. }
    cbn [fv_ok fst snd] in IH. destruct IH as (C1 & C2 & C3 & C4 & C5 & C6).
    pose proof (foldM_remove vs (fst st2) C1) as HR.
    destruct (foldM (fun q v => remove_t v q) vs (fst st2)) as [q'|e]; cbn [bind fv_ok fst snd].
    + destruct HR as (R1 & R2 & R3 & R4).
      assert (Hqs : incl q' (fst st)).
      { intros u Hu. apply R2 in Hu as [Hu Hn]. apply C3 in Hu. apply Hq1 in Hu as [Hu|Hu]; [contradiction|auto]. }
      split; [auto|]. split; [auto|]. split; [auto|]. split.
      * intros Hr. cbn [no_rebinding] in Hr. apply andb_false_iff in Hr as [Hr|Hr].
        -- apply andb_false_iff in Hr as [Hr|Hr].
           ++ exfalso. apply NoDup_vars in R3; auto. apply distinct_NoDup in R3. congruence.
           ++ assert (E : exists x, In x (vars_of vs) /\ mem_var x B = true).
              { clear - Hr. induction (vars_of vs) as [|x l IHl]; [discriminate|]. cbn [forallb] in Hr.
                apply andb_false_iff in Hr as [Hr|Hr]; [exists x; rewrite negb_false_iff in Hr; split; [now left|auto] |].
                destruct (IHl Hr) as (y & Hy & E). exists y. split; [now right|auto]. }
              destruct E as (x & Hx & E). apply mem_var_In in E. exists x. split; [auto|]. intros Hin.
              apply R2 in Hin as [_ Hn]. apply Hn. apply In_tv_vars; auto.
        -- destruct (C4 Hr) as (x & Hx & Hn). apply in_app_iff in Hx as [Hx|Hx].
           ++ exfalso. apply Hn. apply R4. apply In_tv_vars; auto.
           ++ exists x. split; [auto|]. intros Hin. apply R2 in Hin. tauto.
      * split.
        -- intros Hr. cbn [no_rebinding] in Hr. apply andb_true_iff in Hr as [Hr Hr3]. apply andb_true_iff in Hr as [Hr1 Hr2].
           intros u Hu. apply R2. split; [apply C5; auto; apply Hq1; auto|]. intros Hin.
           pose proof (Hi1 u Hu) as Hb. apply in_map_iff in Hb as (x & <- & Hx). apply In_tv_vars in Hin; auto.
           rewrite forallb_forall in Hr2. specialize (Hr2 x Hin). rewrite negb_true_iff, mem_var_false in Hr2. tauto.
        -- intros Hr. cbn [no_rebinding] in Hr. apply andb_true_iff in Hr as [Hr Hr3]. apply andb_true_iff in Hr as [Hr1 Hr2].
           destruct (C6 Hr3) as (F1 & F2 & F3). split; [auto|]. split.
           ++ intros u Hu. apply F2 in Hu as [Hu|(x & Hx & Hy & Hz)]; auto. right. exists x. split; [auto|].
              rewrite Hq1 in Hz. split; [|tauto]. cbn [free_in]. rewrite Hy, andb_true_r, negb_true_iff. apply mem_var_false.
              intros Hin. apply Hz. left. subst u. apply In_tv_vars; auto.
           ++ intros Hi x Hx Hn. cbn [free_in] in Hx. apply andb_true_iff in Hx as [Hx1 Hx2].
              apply F3; auto. rewrite Hq1. rewrite negb_true_iff, mem_var_false in Hx1.
              intros [H|H]; [|auto]. apply Hx1. apply In_tv_vars; auto.
    + destruct HR as [-> HR]. split; [reflexivity|]. cbn [no_rebinding].
      destruct (distinct (vars_of vs)) eqn:Ed; [|reflexivity]. apply distinct_NoDup in Ed. apply NoDup_vars in Ed; auto.
      destruct (no_rebinding (vars_of vs ++ B) g) eqn:Er; [|now rewrite andb_false_r].
      exfalso. apply HR. split; [auto|]. intros u Hu. apply C5; auto. apply Hq1. auto.
Qed.

Lemma free_variables_spec f : wf f = true ->
  match free_variables f with
  | Ok l => no_rebinding [] f = true /\ NoDup l /\
            (forall t, In t l -> exists x, t = tv x /\ free_in x f = true) /\
            (ite_free f = true -> forall x, free_in x f = true -> In (tv x) l)
  | Err e => e = KeyError /\ no_rebinding [] f = false
  end.
Proof.
  intros Hw. unfold free_variables.
  pose proof (fv_formula_spec f ([], []) [] Hw (NoDup_nil _) (NoDup_nil _) (incl_refl _) (incl_refl _)) as H.
  destruct (fv_formula f ([], [])) as [st|e]; cbn [bind fv_ok] in *; [|exact H].
  destruct H as (A1 & A2 & A3 & A4 & A5 & A6).
  destruct (no_rebinding [] f) eqn:E; [|destruct (A4 eq_refl) as (x & [] & _)].
  destruct (A6 eq_refl) as (B1 & B2 & B3). split; [reflexivity|]. split; [auto|]. split.
  - intros t Ht. destruct (B2 t Ht) as [[]|(x & Hx & Hy & _)]. eauto.
  - intros Hi x Hx. apply B3; auto.
Qed.
