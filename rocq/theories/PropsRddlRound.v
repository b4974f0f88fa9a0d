(** C69: a task that is written and read again *)
From Coq Require Import Ascii.
From Verif Require Import ListUtil Base Syntax FreeVars SemLemmas ModelState ModelText ModelProofs StateLemmas Lang LangSpec LangProofs LangProofs2 LangProofs3 Theories TheoriesProofs RddlSpec RddlProofs RddlRead RddlReadProofs4 RddlInit RddlInitSpec RddlInitProofs RddlInitProofs2 RddlInitProofs3 PropsRddlInit
  Rddl RddlDoc RddlDocSpec RddlDocProofs3 PropsRddlDoc RddlRoundSpec RddlRoundProofs RddlRoundProofs2.
#[local] Open Scope string_scope.
#[local] Open Scope list_scope.
#[local] Opaque language.

Lemma given_iff st es e ts v (l := Theories.t_lang st) : consistent l es -> given l es e ts v <-> exists y, In y es /\ about l y e ts /\ snd y = v.
Proof.
  subst l. intros C. split; [intros (before & y & after & -> & A & V & _); exists y; split; [apply in_app_iff; right; now left|auto]|]. intros (y & Hy & A & V). revert C Hy. induction es as [|z es IH] using rev_ind; [contradiction|]. intros C Hy. apply given_snoc. destruct (about_dec (Theories.t_lang st) z e ts) as [Az|Nz].
  - left. split; [exact Az|]. rewrite <- V. apply (C z y e ts); auto. apply in_app_iff. right. now left.
  - right. split; [exact Nz|]. apply in_app_iff in Hy as [Hy|[<- |[]]]; [|contradiction]. apply IH; [|exact Hy]. intros a b e' us Ha Hb. apply (C a b e' us); apply in_app_iff; auto.
Qed.
Lemma value_unique parse l w s v v' : NoDup (map fst (l_sorts l)) -> value_as parse l w s v -> value_as parse l w s v' -> v = v'.
Proof.
  intros N (r & Hr & A) (r' & Hr' & B). assert (r' = r) as ->. { apply (sget_In _ _ _ N) in Hr. apply (sget_In _ _ _ N) in Hr'. congruence. }
  destruct (s_kind r) as [|real lb ub], w as [z|u|b|u]; try contradiction.
  - destruct A, B. congruence.
  - destruct A, B. congruence.
  - destruct A, B. congruence.
  - destruct A, B. congruence.
  - destruct A, B. congruence.
  - destruct A, B. congruence.
  - destruct A as (z & P & _ & ->), B as (z' & P' & _ & ->). congruence.
Qed.

Lemma elem_inj f g : elem_of f = elem_of g -> f = g.
Proof. destruct f, g; cbn; try discriminate; intros Q; [congruence|]. injection Q as <- Q. apply app_inj_tail in Q as [<- <-]. reflexivity. Qed.
Lemma args_back num n ws v : match snd (fst (delivered_entry num (n, ws, v))) with Some gs => gs | None => [] end = map GName ws.
Proof. destruct ws; reflexivity. Qed.
Section Round.
  Variables (parse : bool -> string -> option Z) (fuel : nat) (num : numbers) (sub : sort -> sort -> bool) (lops : list lop) (mops : list mop) (t : task) (d : document).
  Hypothesis H : task_ok parse sub lops mops t.
  Hypothesis S : survives parse num mops t.
  Hypothesis D : describes d t.
  Notation l := (RddlDoc.t_lang t).
  Notation r := (delivered num d).
  Let I : inv_tree l := proj1 (task_inv _ _ _ _ _ H).
  Let O : ordinary r := ordinary_back parse num sub lops mops t d H S D.

  Lemma entries_r : entries_of r = map (delivered_entry num) (doc_init d ++ doc_constants d).
  Proof. unfold entries_of. cbn [rm_init_state rm_init_non_fluent delivered]. now rewrite map_app. Qed.
  (** the points and values of the state *)
  Definition den (w : string) (x : term) : Prop := exists s, const_of l (CStr w) s /\ x = Cst (CStr w) s.
  Lemma const_unique c s s' : const_of l c s -> const_of l c s' -> s = s'.
  Proof. intros A B. pose proof (it_index _ I) as J. pose proof (proj2 (ii_spec _ J c (EConst c s)) (conj eq_refl A)). pose proof (proj2 (ii_spec _ J c (EConst c s')) (conj eq_refl B)). congruence. Qed.
  Lemma den_unique ws ts ts' : Forall2 den ws ts -> Forall2 den ws ts' -> ts = ts'.
  Proof.
    intros A. revert ts'. induction A as [|w x ws ts (s & C & ->) _ IH]; intros ts' B; inversion B as [|? y ? ? (s' & C' & ->) B']; subst; [reflexivity|]. f_equal; [|now apply IH]. f_equal. eapply const_unique; eauto.
  Qed.
  Lemma den_texts ws ts : Forall2 den ws ts -> ws = map text ts.
  Proof. intros A. induction A as [|w x ws ts (s & C & ->) _ IH]; [reflexivity|]. cbn [map]. now rewrite <- IH. Qed.
  Lemma den_points pt ss : Forall2 (object_of l) pt ss -> Forall2 den (map text pt) pt.
  Proof. intros A. induction A as [|x s pt ss (w & u & -> & C & _) _ IH]; cbn [map]; constructor; auto. exists u. auto. Qed.
  Lemma state_pred n ss pt : m_holds (t_x0 t) (PU n ss) pt = true -> is_among (FPred n ss) (t_state t ++ t_action t ++ t_non t) /\ Forall2 (object_of l) pt ss.
  Proof. rewrite (ok_state _ _ _ _ _ H). intros X. apply holds_from in X. exact (sv_state _ _ _ _ S _ X). Qed.
  Lemma state_fun n ss c pt v : m_value (t_x0 t) (FU n ss c) pt = Ok v -> is_among (FFun n ss c) (t_state t ++ t_action t ++ t_non t) /\ Forall2 (object_of l) pt ss /\ value_back num l v c.
  Proof. rewrite (ok_state _ _ _ _ _ H). intros X. apply value_from in X. exact (sv_state _ _ _ _ S _ X). Qed.
  Lemma valued f ws v : has_value (t_x0 t) f ws v -> is_among f (t_state t ++ t_action t ++ t_non t).
  Proof. destruct f as [n ss|n ss c]; [intros (pt & _ & X & _); exact (proj1 (state_pred _ _ _ X))|intros (pt & x & _ & X & _); exact (proj1 (state_fun _ _ _ _ _ X))]. Qed.
  Lemma among_fluents f : is_among f (t_state t ++ t_action t ++ t_non t) -> In f (fluents_of t) /\ ~ is_among f (t_interm t).
  Proof.
    unfold is_among, fluents_of. pose proof (sv_fluents _ _ _ _ S) as N. unfold fluents_of in N. rewrite !map_app in *. rewrite !in_app_iff. intros X. split; [tauto|]. intros Y. apply NoDup_app_r in N as N2. destruct X as [X|X].
    - apply (NoDup_app_disj _ _ f N X). apply in_app_iff. now left.
    - apply (NoDup_app_disj _ _ f N2 Y). apply in_app_iff. exact X.
  Qed.
  Lemma entry_In n ws v : In (n, ws, v) (doc_init d ++ doc_constants d) <-> exists f, In f (fluents_of t) /\ symbol_name f = n /\ has_value (t_x0 t) f ws v.
  Proof.
    pose proof D as D0. destruct D0 as (_ & _ & _ & _ & _ & _ & _ & _ & _ & Dc & Di & _). rewrite in_app_iff, Dc, Di. split.
    - intros [(f & _ & E & _ & _ & V)|(f & _ & E & _ & V)]; exists f; (split; [exact (proj1 (among_fluents f (valued f ws v V)))|auto]).
    - intros (f & _ & E & V). destruct (among_fluents f (valued f ws v V)) as [A B]. pose proof (proj2 (fluent_name _ _ _ _ _ H f A)) as K.
      assert (De : {is_among f (t_non t)} + {~ is_among f (t_non t)}). { apply in_dec. repeat decide equality. }
      destruct De as [De|De]; [right|left]; exists f; auto.
  Qed.
  (** the arguments and the values in the text are fine *)
  Lemma entries_plain : Forall (fun x : entry => Forall object_argument (match snd (fst x) with Some gs => gs | None => [] end) /\ exact_value parse (snd x)) (entries_of r).
  Proof.
    rewrite entries_r. apply Forall_forall. intros y Y. apply in_map_iff in Y as ([[n ws] v] & <- & Y). apply entry_In in Y as (f & _ & _ & V). rewrite args_back. change (snd (delivered_entry num (n, ws, v))) with (delivered_value num v).
    assert (A : forall pt ss, Forall2 (object_of l) pt ss -> Forall object_argument (map GName (map text pt))).
    { intros pt ss F. induction F as [|x s pt ss (w & u & -> & C & _) _ IH]; cbn [map]; constructor; auto. apply name_argument. change (name_ok (name_text (CStr w)) = true). apply (ok_constants _ _ _ _ _ H _ u C). destruct (sv_constants _ _ _ _ S _ _ C) as ((_ & x & X & _ & K) & _). exists x. auto. }
    destruct f as [m ss|m ss c]; [destruct V as (pt & -> & X & ->)|destruct V as (pt & x & -> & X & ->)].
    - destruct (state_pred _ _ _ X) as [_ F]. split; [now apply (A pt ss)|exact Logic.I].
    - destruct (state_fun _ _ _ _ _ X) as (_ & F & W). split; [now apply (A pt ss)|]. destruct W as [(U & w & -> & C)|[(_ & z & -> & E & Z & _)|(_ & w & -> & E)]].
      + destruct (sv_constants _ _ _ _ S _ _ C) as (_ & w' & Q & Nn & Np). injection Q as <-. change (text (Cst (CStr w) c)) with w. cbn [delivered_value]. rewrite Nn. cbn [exact_value]. intros b z X'. rewrite Np in X'. discriminate X'.
      + change (text (Cst (CInt z) c)) with (name_text (CInt z)). cbn [delivered_value]. rewrite E. exact Z.
      + change (text (Cst (CStr w) "Real")) with w. cbn [delivered_value]. rewrite E. exact Logic.I.
  Qed.
  Section Read.
    Variable st : tlang.
    Hypothesis E : read_language parse r = Ok st.
    Notation l' := (Theories.t_lang st).
    Let Nm : forall n e, lget l' (CStr n) = Ok e <-> task_names t n e.
    Proof. intros n e. rewrite (C65_names parse r O st E). exact (names_back parse num sub lops mops t d H S D n e). Qed.
    Let B := proj2 (language_only parse r st O E).
    Lemma const_name n c s : lget l' (CStr n) = Ok (EConst c s) <-> const_of l (CStr n) s /\ c = CStr n.
    Proof.
      rewrite Nm. split.
      - intros [X|[(_ & X)|[(s' & X & Q)|(f & _ & _ & Q)]]]; try discriminate X; [cbn in X; repeat (destruct X as [X|X]; [discriminate X|]); destruct X|injection Q as -> ->; auto|destruct f; discriminate Q].
      - intros [X ->]. right. right. left. eauto.
    Qed.
    Lemma fluent_elem f e : In f (fluents_of t) -> lget l' (CStr (symbol_name f)) = Ok e -> e = elem_of f.
    Proof. intros F X. assert (Y : lget l' (CStr (symbol_name f)) = Ok (elem_of f)) by (apply Nm; right; right; right; eauto). congruence. Qed.
    Lemma about_back f ws v e ts : In f (fluents_of t) -> about l' (delivered_entry num (symbol_name f, ws, v)) e ts <-> e = elem_of f /\ Forall2 den ws ts.
    Proof.
      intros F. unfold about. rewrite args_back. change (fst (fst (delivered_entry num (symbol_name f, ws, v)))) with (symbol_name f). rewrite name_unquote by (apply ok_chars; exact (proj1 (fluent_name _ _ _ _ _ H f F))).
      assert (Q : forall us ts, Forall2 (fun g t0 => exists w c s, g = GName w /\ lget l' (CStr w) = Ok (EConst c s) /\ t0 = Cst c s) (map GName us) ts <-> Forall2 den us ts).
      { intros us. induction us as [|u us IH]; intros ts'; cbn [map]; [split; intros X; inversion X; constructor|]. split; intros X; inversion X as [|a b c0 e0 Y Z]; subst; constructor; try (now apply IH).
        - destruct Y as (w & c & s & Q & L & ->). injection Q as <-. apply const_name in L as [L ->]. exists s. auto.
        - destruct Y as (s & C & ->). exists u, (CStr u), s. split; [reflexivity|]. split; [apply const_name; auto|reflexivity]. }
      rewrite Q. split; intros [A C]; (split; [|exact C]); [now apply fluent_elem|]. subst e. apply Nm. right. right. right. eauto.
    Qed.
    Lemma about_entry y e ts : In y (entries_of r) -> about l' y e ts -> exists f v, In f (fluents_of t) /\ y = delivered_entry num (symbol_name f, map text ts, v) /\ e = elem_of f /\ has_value (t_x0 t) f (map text ts) v /\ Forall2 den (map text ts) ts.
    Proof.
      rewrite entries_r. intros Y A. apply in_map_iff in Y as ([[n ws] v] & <- & Y). apply entry_In in Y as (f & F & <- & V). apply (about_back f ws v e ts F) in A as [-> Dn]. pose proof (den_texts _ _ Dn) as T. subst ws. exists f, v. auto 8.
    Qed.
    Lemma value_det f ts v v' : Forall2 den (map text ts) ts -> has_value (t_x0 t) f (map text ts) v -> has_value (t_x0 t) f (map text ts) v' -> v = v'.
    Proof.
      intros Dn. destruct f as [n ss|n ss c]; [intros (pt & _ & _ & ->) (pt' & _ & _ & ->); reflexivity|]. intros (pt & x & T & X & ->) (pt' & x' & T' & X' & ->).
      destruct (state_fun _ _ _ _ _ X) as (_ & F & _), (state_fun _ _ _ _ _ X') as (_ & F' & _). apply den_points in F. apply den_points in F'. rewrite <- T in F. rewrite <- T' in F'. assert (pt = pt') as -> by (eapply den_unique; eauto). congruence.
    Qed.
    Lemma back_consistent : consistent l' (entries_of r).
    Proof.
      intros x y e ts X Y A C. destruct (about_entry x e ts X A) as (f & v & _ & -> & Ef & V & Dn). destruct (about_entry y e ts Y C) as (g & w & _ & -> & Eg & W & _). assert (f = g) as -> by (apply elem_inj; congruence). cbn [delivered_entry snd]. f_equal. eapply value_det; eauto.
    Qed.
    Lemma le_back u s : user_type l u -> s = "object" \/ user_type l s -> le l u s -> le l' u s.
    Proof.
      intros U V L. destruct V as [->|V]; [|left; exact (flat_le parse num sub lops mops t H S u s U V L)]. right. apply anc_parent. apply (C65_hierarchy parse r O st E). right. split; [|reflexivity]. now apply (type_names_In parse num sub lops mops t d H D).
    Qed.
    Lemma points_le pt ss : Forall (fun s => s = "object" \/ user_type l s) ss -> Forall2 (object_of l) pt ss -> Forall2 (fun x s => match x with Cst _ s' => le l' s' s | _ => False end) pt ss.
    Proof.
      intros A F. revert A. induction F as [|x s pt ss (w & u & -> & C & L) _ IH]; intros A; constructor; inversion A; subst; auto. apply le_back; auto. exact (proj1 (sv_constants _ _ _ _ S _ _ C)).
    Qed.
    Lemma value_there v c : value_back num l v c -> value_as parse l' (delivered_value num (Other (text v))) c v.
    Proof.
      pose proof (b_ready _ _ _ B) as Rd. pose proof (ii_sorts _ (it_index _ (rd_tree _ Rd))) as N. intros [(U & w & -> & C)|[(Hc & z & -> & Q & Z & Zi)|(-> & w & -> & Q)]].
      - change (text (Cst (CStr w) c)) with w. destruct (sv_constants _ _ _ _ S _ _ C) as (_ & w' & Qw & Nn & _). injection Qw as <-. cbn [delivered_value]. rewrite Nn. destruct (C65_domains parse r O st E) as [Dm _]. destruct (Dm c) as (x & Hx & Kx & _ & Ix); [now apply (type_names_In parse num sub lops mops t d H D)|].
        exists x. split; [exact Hx|]. rewrite Kx. split; [|reflexivity]. apply Ix. exists w. split; [reflexivity|]. now apply (objects_In parse num sub lops mops t d H S D).
      - change (text (Cst (CInt z) c)) with (name_text (CInt z)). cbn [delivered_value]. rewrite Q. cbn in Hc. destruct Hc as [<-|[<-|[]]].
        + destruct (rd_real _ Rd) as (x & X & K). exists x. split; [now apply (sget_In _ _ _ N)|]. rewrite K. split; [|reflexivity]. assert (2 ^ 53 <= real_bound)%Z by (vm_compute; discriminate). lia.
        + destruct (rd_int _ Rd) as (x & X & K). exists x. split; [now apply (sget_In _ _ _ N)|]. rewrite K. split; [now apply Zi|reflexivity].
      - change (text (Cst (CStr w) "Real")) with w. cbn [delivered_value]. rewrite Q. destruct (rd_real _ Rd) as (x & X & K). exists x. split; [now apply (sget_In _ _ _ N)|]. rewrite K. auto.
    Qed.
    Lemma entries_good : Forall (entry_ok parse l') (entries_of r).
    Proof.
      rewrite entries_r. apply Forall_forall. intros y Y. apply in_map_iff in Y as ([[n ws] v] & <- & Y). apply entry_In in Y as (f & F & <- & V). destruct (sv_sorts _ _ _ _ S f F) as [Ss _]. destruct f as [n ss|n ss c]; [destruct V as (pt & -> & X & ->)|destruct V as (pt & x & -> & X & ->)].
      - destruct (state_pred _ _ _ X) as [_ P]. exists (EPred n ss), pt. split; [apply (about_back (FPred n ss)); [exact F|]; split; [reflexivity|eapply den_points; eauto]|]. now apply points_le.
      - destruct (state_fun _ _ _ _ _ X) as (_ & P & W). exists (EFun n (ss ++ [c])), pt. split; [apply (about_back (FFun n ss c)); [exact F|]; split; [reflexivity|eapply den_points; eauto]|]. rewrite removelast_last, last_last. split; [now apply points_le|]. exists x. now apply value_there.
    Qed.
  End Read.
  Lemma back : exists x, translate_rddl_model parse fuel r = Ok x /\ same_task x t /\ rd_horizon x = whole num (doc_horizon d) /\ rd_discount x = doc_discount d /\ (forall k, rd_max x = Some k <-> rm_max_nondef r = AtMost k).
  Proof.
    destruct (proj2 (C65_accepts parse r O fuel entries_plain)) as (x & X). { split; [exact (well_formed_back parse num sub lops mops t d H S D)|]. intros st Es. now apply entries_good. }
    exists x. split; [exact X|]. destruct (C65_state parse r O fuel entries_plain x X) as (E & Hp & Hf & Hh & Hd & Hm). split; [|split; [exact Hh|split; [exact Hd|exact Hm]]].
    split; [intros n e; rewrite (C65_names parse r O _ E); exact (names_back parse num sub lops mops t d H S D n e)|]. split; [|split].
    - intros s U p. rewrite (C65_hierarchy parse r O _ E). split.
      + intros [P|[_ ->]].
        * exfalso. destruct (sv_names _ _ _ _ S s (or_introl U)) as [N _]. apply N. cbn in P |- *. intuition congruence.
        * destruct (user_parent l s I U) as (q & P & _). pose proof (sv_flat _ _ _ _ S s q U P). congruence.
      + intros P. right. split; [now apply (type_names_In parse num sub lops mops t d H D)|exact (sv_flat _ _ _ _ S s p U P)].
    - intros n ss pt F. apply eq_true_iff_eq. rewrite Hp. split.
      + intros (y & Y & V & A). destruct (about_entry _ E y _ _ Y A) as (f & v & _ & -> & Q & W & Dn). assert (f = FPred n ss) as -> by (apply elem_inj; symmetry; exact Q). destruct W as (pt' & T & W & ->). destruct (state_pred _ _ _ W) as [_ P]. apply den_points in P. rewrite <- T in P. assert (pt = pt') as -> by (eapply den_unique; eauto). exact W.
      + intros W. destruct (state_pred _ _ _ W) as [_ P]. exists (delivered_entry num (n, map text pt, Truth true)). split; [|split; [reflexivity|apply (about_back _ E (FPred n ss)); [exact F|]; split; [reflexivity|eapply den_points; eauto]]].
        rewrite entries_r. apply in_map. apply entry_In. exists (FPred n ss). split; [exact F|]. split; [reflexivity|]. exists pt. auto.
    - intros n ss c pt v F. rewrite Hf. split.
      + intros (w & G & V). apply given_iff in G as (y & Y & A & <-); [|now apply back_consistent]. destruct (about_entry _ E y _ _ Y A) as (f & u & _ & -> & Q & W & Dn). assert (f = FFun n ss c) as -> by (apply elem_inj; symmetry; exact Q). destruct W as (pt' & z & T & W & ->).
        destruct (state_fun _ _ _ _ _ W) as (_ & P & Vb). apply den_points in P. rewrite <- T in P. assert (pt = pt') as -> by (eapply den_unique; eauto). cbn [delivered_entry snd] in V. rewrite W. f_equal. eapply value_unique; [|exact (value_there _ E z c Vb)|exact V]. exact (ii_sorts _ (it_index _ (rd_tree _ (b_ready _ _ _ (proj2 (language_only parse r _ O E)))))).
      + intros W. destruct (state_fun _ _ _ _ _ W) as (_ & P & Vb). exists (delivered_value num (Other (text v))). split; [|now apply value_there]. apply given_iff; [now apply back_consistent|]. exists (delivered_entry num (n, map text pt, Other (text v))). split; [|split; [apply (about_back _ E (FFun n ss c)); [exact F|]; split; [reflexivity|eapply den_points; eauto]|reflexivity]].
        rewrite entries_r. apply in_map. apply entry_In. exists (FFun n ss c). split; [exact F|]. split; [reflexivity|]. exists pt, v. auto.
  Qed.
End Round.

(** A task with flat types whose document is read again: the language has the same types, objects and fluents, each fluent has the same initial values, and the parameters are those of the task. *)
Theorem C69_round_trip parse fuel num sub lops mops t : task_ok parse sub lops mops t -> survives parse num mops t ->
  exists s w d x, write_model t new_writer = Ok (s, w) /\ read_document s = Some d /\ translate_rddl_model parse fuel (delivered num d) = Ok x /\ same_task x t /\
    (forall h, num (py_text (t_horizon t)) = Some (IInt h) -> rd_horizon x = h) /\ rd_discount x = py_text (t_discount t) /\
    (forall v k, t_max t = Some v -> py_text v <> "pos-inf" -> num (py_text v) = Some (IInt k) -> rd_max x = Some k) /\ (t_max t = Some (PText "pos-inf") -> rd_max x = None).
Proof.
  intros H S. destruct (C68_document _ _ _ _ _ H) as (s & w & d & E & R & D). destruct (back parse fuel num sub lops mops t d H S D) as (x & X & Sm & Hh & Hd & Hm). exists s, w, d, x. split; [exact E|]. split; [exact R|]. split; [exact X|]. split; [exact Sm|]. clear X.
  destruct D as (_ & _ & _ & _ & _ & _ & _ & _ & _ & _ & _ & _ & _ & _ & _ & (v & Ev & Dm) & Dh & Dd). split; [intros h Q; rewrite Hh, Dh; unfold whole; now rewrite Q|]. split; [now rewrite Hd|]. split.
  - intros v' k Ev' N Q. rewrite Ev in Ev'. injection Ev' as <-. apply Hm. cbn [rm_max_nondef delivered]. rewrite Dm. destruct (String.eqb_spec (py_text v) "pos-inf") as [Y|_]; [contradiction|]. unfold whole. now rewrite Q.
  - intros Q. rewrite Ev in Q. injection Q as ->. destruct (rd_max x) as [k|]; [|reflexivity]. pose proof (proj1 (Hm k) eq_refl) as Y. cbn [rm_max_nondef delivered] in Y. rewrite Dm in Y. discriminate Y.
Qed.
Lemma deep_type parse d num s p : In (s, p) (doc_types d) -> p <> "object" -> forall st, read_language parse (delivered num d) <> Ok st.
Proof.
  intros X N st E. unfold read_language in E. apply bind_some in E as (st0 & _ & E). apply bind_some in E as (st1 & E & _). cbn [rm_types delivered] in E. clear st. revert st0 st1 E. induction (doc_types d) as [|[s' p'] ts IH]; intros st0 st1 E; [contradiction|].
  cbn [map fst snd] in E. cbn [foldM] in E. destruct (read_type parse st0 (s', Some p')) as [s2|] eqn:Q; [|discriminate E]. destruct X as [X|X]; [|eauto]. injection X as -> ->. unfold read_type in Q. cbn [snd] in Q. destruct (String.eqb_spec p "object") as [->|]; [now apply N|discriminate Q].
Qed.
(** A task with a subtype of a user type can be written, but never read again. *)
Theorem C69_subtypes_refuted parse fuel num sub lops mops t u p : task_ok parse sub lops mops t -> user_type (RddlDoc.t_lang t) u -> parent_of (RddlDoc.t_lang t) u = Some p -> p <> "object" ->
  exists s w d, write_model t new_writer = Ok (s, w) /\ read_document s = Some d /\ forall x, translate_rddl_model parse fuel (delivered num d) <> Ok x.
Proof.
  intros H U P N. destruct (C68_document _ _ _ _ _ H) as (s & w & d & E & R & D). exists s, w, d. split; [exact E|]. split; [exact R|]. intros x X. unfold translate_rddl_model in X. apply bind_some in X as (st & Q & _).
  destruct D as (_ & _ & (_ & T) & _). revert Q. apply (deep_type parse d num u p); [apply T; auto|exact N].
Qed.
