(** C39, C40: naive grounding; static symbols *)
From Verif Require Import ListUtil Base Syntax SemLemmas Build ModelState ModelProofs SortIdsProofs Index PropsIndex Eval Subst SubstProofs QElim QElimProofs Effects ProgressSpec StateLemmas ProgressProofs SearchModelProofs NegBuiltinProofs PropsProgress Represent RelaxSpec PropsRelax Grounding GroundingSpec.
#[local] Open Scope string_scope.

(** * Products *)
Lemma NoDup_flat {A B} (f : A -> list B) l : NoDup l -> (forall x, In x l -> NoDup (f x)) -> (forall x y z, In x l -> In y l -> In z (f x) -> In z (f y) -> x = y) -> NoDup (flat_map f l).
Proof.
  induction 1 as [|a l Ha Hl IH]; intros Hn Hd; cbn; [constructor|]. apply NoDup_app_iff_simple.
  - apply Hn. left; auto.
  - apply IH; [intros; apply Hn; right; auto|]. intros x y z Hx Hy. apply Hd; right; auto.
  - intros z Hz Hz'. apply in_flat_map in Hz' as (y & Hy & Hz'). assert (a = y) by (apply (Hd a y z); [left; auto|right; auto|auto|auto]). subst. contradiction.
Qed.
Lemma product_NoDup {A} (ls : list (list A)) : Forall (@NoDup A) ls -> NoDup (product ls).
Proof.
  induction 1 as [|l ls Hl _ IH]; cbn [product]; [constructor; [intros []|constructor]|]. apply NoDup_flat; [auto|..].
  - intros x _. apply FinFun.Injective_map_NoDup; [|auto]. intros a b E. congruence.
  - intros x y z _ _ H1 H2. apply in_map_iff in H1 as (u & <- & _). apply in_map_iff in H2 as (w & E & _). congruence.
Qed.
Lemma product_count {A} (ls : list (list A)) : forall n, fold_left Nat.mul (map (@List.length A) ls) n = n * List.length (product ls).
Proof.
  induction ls as [|l ls IH]; intros n; cbn [map fold_left product]; [cbn; lia|]. rewrite IH. rewrite <- Nat.mul_assoc. f_equal.
  induction l as [|x l IHl]; cbn [flat_map List.length]; [lia|]. rewrite app_length, map_length, <- IHl. lia.
Qed.
Section Doms.
Variable D : domains.
Lemma sort_domains ss : match mapM (sort_domain D) ss with
  | Ok doms => Forall2 (fun s d => D s = Some d) ss doms
  | Err e => e = TarskiError /\ exists s, In s ss /\ D s = None end.
Proof.
  induction ss as [|s ss IH]; [constructor|]. cbn [mapM]. unfold sort_domain at 1. destruct (D s) as [cs|] eqn:E.
  - fold (mapM (sort_domain D)). destruct (mapM (sort_domain D) ss) as [doms|e]; [constructor; auto|]. destruct IH as [-> (r & Hr & Er)]. split; [auto|]. exists r. split; [right|]; auto.
  - split; [auto|]. exists s. split; [left|]; auto.
Qed.
Lemma product_typed ss doms b : Forall2 (fun s d => D s = Some d) ss doms -> In b (product doms) <-> typed_binding D ss b.
Proof.
  intros F. rewrite product_In. unfold typed_binding. revert b. induction F as [|s d ss doms E F IH]; intros b.
  - split; intros H; inversion H; constructor.
  - split; intros H; inversion H as [|x y l l' H1 H2]; subst; constructor; try (apply IH; assumption); [exists d; auto|]. destruct H1 as (cs & E' & Hin). congruence.
Qed.
Lemma doms_nodup ss doms : no_repetition D -> Forall2 (fun s d => D s = Some d) ss doms -> Forall (@NoDup term) doms.
Proof. intros Hn F. induction F; constructor; eauto. Qed.
Lemma doms_enum ss doms : Forall2 (fun s d => D s = Some d) ss doms -> forall s, In s ss -> D s <> None.
Proof. intros F. induction F as [|s d ss doms E F IH]; intros r Hr; [destruct Hr|]. destruct Hr as [<-|Hr]; [congruence|auto]. Qed.
End Doms.

(** ** C39. The bindings enumerated for a signature are exactly the type-consistent tuples, each once; and their number is the one reported. *)
Theorem C39_signature_bindings D ss : no_repetition D ->
  match signature_bindings D ss with
  | Ok bs => (forall s, In s ss -> D s <> None) /\ NoDup bs /\ (forall b, In b bs <-> typed_binding D ss b) /\ number_of_groundings D ss = Ok (List.length bs)
  | Err e => e = TarskiError /\ number_of_groundings D ss = Err TarskiError /\ exists s, In s ss /\ D s = None
  end.
Proof.
  intros Hn. unfold signature_bindings, number_of_groundings. change (fun s => match D s with Some cs => Ok cs | None => Err TarskiError end) with (sort_domain D). assert (X := sort_domains D ss). destruct (mapM (sort_domain D) ss) as [doms|e]; cbn [bind].
  - split; [exact (doms_enum D ss doms X)|]. split; [apply product_NoDup; exact (doms_nodup D ss doms Hn X)|]. split; [intros; apply product_typed; auto|]. rewrite product_count. now rewrite Nat.mul_1_l.
  - destruct X as [-> X]. auto.
Qed.
Lemma mapM_cons {A B} (f : A -> res B) x l : mapM f (x :: l) = (let! y := f x in let! ys := mapM f l in Ok (y :: ys)).
Proof. cbn [mapM bind]. destruct (f x); [|reflexivity]. cbn [bind]. fold (mapM f l). destruct (mapM f l); reflexivity. Qed.
Lemma vb_make_distinct vs : NoDup (map fst vs) -> vb_vars (vb_make vs) = vs.
Proof.
  intros H. unfold vb_vars, vb_make. cbn [vb_variables].
  assert (G : forall vs (d : list (string * var)), NoDup (map fst d ++ map fst vs) -> fold_left (fun d v => dset String.eqb d (fst v) v) vs d = (d ++ map (fun v => (fst v, v)) vs)%list).
  { clear. induction vs as [|v vs IH]; intros d H; cbn [fold_left map]; [now rewrite app_nil_r|].
    rewrite (dset_new String.eqb String.eqb_eq). 2: { cbn [map] in H. apply NoDup_remove_2 in H. intros X. apply H. apply in_or_app. auto. }
    rewrite IH; [now rewrite <- app_assoc|]. rewrite map_app, <- app_assoc. exact H. }
  rewrite G by exact H. cbn [app]. rewrite map_map. apply map_id.
Qed.
(** Every action whose parameters have distinct names is listed with exactly the type-consistent bindings of its parameters, each once. *)
Theorem C39_ground_actions D acts : no_repetition D ->
  (forall a, In a acts -> exists vs, a_params a = map (fun v => Var (fst v) (snd v)) vs /\ NoDup (map fst vs)) ->
  match ground_actions D acts with
  | Ok g => map fst g = map a_name acts /\
            (forall a, In a acts -> forall s, In s (map snd (vars_of (a_params a))) -> D s <> None) /\
            Forall2 (fun a g => fst g = a_name a /\ NoDup (snd g) /\ forall b, In b (snd g) <-> typed_binding D (map snd (vars_of (a_params a))) b) acts g
  | Err e => e = TarskiError /\ exists a s, In a acts /\ In s (map snd (vars_of (a_params a))) /\ D s = None
  end.
Proof.
  intros Hn Hp. unfold ground_actions.
  assert (V : forall vs, vars_of (map (fun v => Var (fst v) (snd v)) vs) = vs) by (induction vs as [|[x s] vs IH]; cbn; [auto|f_equal; auto]).
  assert (P : forall a, In a acts -> param_vars a = vars_of (a_params a)).
  { intros a Ha. destruct (Hp a Ha) as (vs & E & N). unfold param_vars. rewrite E, V. now apply vb_make_distinct. }
  clear Hp V. induction acts as [|a acts IH]; [cbn; split; [auto|split; [intros ? []|constructor]]|].
  rewrite mapM_cons. rewrite (P a) by (left; auto). assert (X := C39_signature_bindings D (map snd (vars_of (a_params a))) Hn). destruct (signature_bindings D _) as [bs|e]; cbn [bind].
  - specialize (IH ltac:(intros; apply P; right; auto)). destruct (mapM _ acts) as [g|e]; cbn [bind].
    + destruct IH as (I1 & I2 & I3). destruct X as (X1 & X2 & X3 & _). cbn [map fst]. split; [now rewrite I1|]. split; [intros b [<-|Hb]; [exact X1|exact (I2 b Hb)]|]. constructor; auto.
    + destruct IH as (-> & b & s & Hb & Hs). split; [auto|]. exists b, s. split; [right; auto|auto].
  - destruct X as (-> & _ & s & Hs). split; [auto|]. exists a, s. split; [left; auto|auto].
Qed.

(** * Indexes keyed up to an equivalence *)
Section Keyed.
Context {K B : Type} (eqb : K -> K -> bool) (key : K -> B) (eqb_key : forall a b, eqb a b = true <-> key a = key b).
Definition keyed (s : sidx K) : Prop := si_data s = combine (si_objects s) (seq 0 (List.length (si_objects s))) /\ NoDup (map key (si_objects s)).
Lemma dget_key_None {V} (d : list (K * V)) k : dget eqb d k = None <-> ~ In (key k) (map key (map fst d)).
Proof.
  induction d as [|[k' v] d IH]; cbn; [tauto|]. destruct (eqb k' k) eqn:E.
  - apply eqb_key in E. split; [discriminate|]. intros H. exfalso. apply H. auto.
  - rewrite IH. split; [|tauto]. intros H [X|X]; [|auto]. apply eqb_key in X. congruence.
Qed.
Lemma dset_key_new {V} (d : list (K * V)) k v : ~ In (key k) (map key (map fst d)) -> dset eqb d k v = (d ++ [(k, v)])%list.
Proof.
  induction d as [|[k' w] d IH]; intros H; cbn; [auto|]. destruct (eqb k' k) eqn:E; [apply eqb_key in E; exfalso; apply H; cbn; auto|]. rewrite IH; [auto|]. intros X. apply H. cbn. auto.
Qed.
Lemma keyed_objs s : keyed s -> map fst (si_data s) = si_objects s.
Proof. intros [-> _]. apply combine_keys. now rewrite seq_length. Qed.
Lemma keyed_add s x : keyed s ->
  (In (key x) (map key (si_objects s)) /\ si_add eqb s x = (Some DuplicateDefinition, s)) \/
  (~ In (key x) (map key (si_objects s)) /\ exists s', si_add eqb s x = (None, s') /\ si_objects s' = (si_objects s ++ [x])%list /\ keyed s').
Proof.
  intros Hk. assert (Eo := keyed_objs s Hk). unfold si_add. assert (X := dget_key_None (si_data s) x). rewrite Eo in X. destruct (dget eqb (si_data s) x) as [i|].
  - left. split; [|auto]. clear - X eqb_key Hk Eo.
    assert (Y : ~ ~ In (key x) (map key (si_objects s))) by (intros Z; apply X in Z; discriminate).
    destruct (existsb (fun y => eqb y x) (si_objects s)) eqn:E.
    + apply existsb_exists in E as (y & Hy & E). apply eqb_key in E. rewrite <- E. now apply in_map.
    + exfalso. apply Y. intros Hin. apply in_map_iff in Hin as (y & E' & Hy). apply eqb_key in E'. assert (T : existsb (fun y => eqb y x) (si_objects s) = true) by (apply existsb_exists; exists y; auto). congruence.
  - right. assert (Hn := proj1 X eq_refl). split; [auto|]. eexists. split; [reflexivity|]. cbn [si_objects]. split; [auto|]. destruct Hk as [Hd Hnd]. split; cbn [si_data si_objects].
    + rewrite dset_key_new by (rewrite Eo; auto). rewrite Hd. rewrite app_length. cbn [List.length]. rewrite Nat.add_1_r, seq_S. rewrite combine_snoc by (now rewrite seq_length). f_equal. f_equal. f_equal. rewrite combine_length, seq_length. lia.
    + rewrite map_app. apply NoDup_app_iff_simple; [auto|constructor; [intros []|constructor]|]. intros y Hy [<-|[]]. contradiction.
Qed.
Lemma keyed_make xs : forall s, keyed s ->
  match si_make eqb s xs with
  | Ok s' => si_objects s' = (si_objects s ++ xs)%list /\ keyed s'
  | Err e => e = DuplicateDefinition /\ ~ NoDup (map key (si_objects s ++ xs)) end.
Proof.
  induction xs as [|x xs IH]; intros s Hk; cbn [si_make]; [now rewrite app_nil_r|]. destruct (keyed_add s x Hk) as [[Hin E]|(Hn & s' & E & Eo & Hk')]; rewrite E.
  - split; [auto|]. rewrite map_app. cbn [map]. intros N. apply NoDup_remove_2 in N. apply N. apply in_or_app. auto.
  - specialize (IH s' Hk'). rewrite Eo, <- app_assoc in IH. exact IH.
Qed.
Lemma keyed_empty : keyed si_empty. Proof. split; [reflexivity|constructor]. Qed.
Lemma keyed_index s : keyed s -> si_iter s = si_objects s /\ forall i x, nth_error (si_objects s) i = Some x -> si_get_object s i = Ok x /\ si_get_index eqb s x = Ok i.
Proof.
  intros Hk. split; [now apply keyed_objs|]. intros i x E. unfold si_get_object, si_get_index. rewrite E. split; [auto|].
  destruct Hk as [-> Hn]. revert Hn i E.
  assert (G : forall l n, NoDup (map key l) -> forall i, nth_error l i = Some x -> dget eqb (combine l (seq n (List.length l))) x = Some (n + i)).
  { clear s. induction l as [|y l IH]; intros n Hn i E; [destruct i; discriminate|]. cbn [List.length seq combine dget]. inversion Hn as [|? ? Hy Hl]; subst. destruct i as [|i]; cbn in E.
    - injection E as ->. assert (R : eqb x x = true) by now apply eqb_key. rewrite R. now rewrite Nat.add_0_r.
    - destruct (eqb y x) eqn:Ey. { apply eqb_key in Ey. exfalso. apply Hy. rewrite Ey. apply in_map. eapply nth_error_In; eauto. }
      rewrite (IH (S n) Hl i E). f_equal. lia. }
  intros Hn i E. now rewrite (G (si_objects s) 0 Hn i E).
Qed.
(** Additions whose exceptions are suppressed *)
Lemma keyed_suppress xs : forall s, keyed s -> let s' := fold_left (fun i x => snd (si_add eqb i x)) xs s in
  keyed s' /\ (forall x, In x (si_objects s) -> In x (si_objects s')) /\ (forall x, In x (si_objects s') -> In x (si_objects s) \/ In x xs) /\ (forall x, In x xs -> In (key x) (map key (si_objects s'))).
Proof.
  induction xs as [|x xs IH]; intros s Hk; cbn [fold_left].
  - cbn. split; [auto|]. split; [auto|]. split; [auto|]. intros ? [].
  - destruct (keyed_add s x Hk) as [[Hin E]|(Hn & s1 & E & Eo & Hk')]; rewrite E; cbn [snd].
    + destruct (IH s Hk) as (I1 & I2 & I3 & I4). split; [auto|]. split; [auto|]. split. { intros y Hy. destruct (I3 y Hy); [left|right; right]; auto. }
      intros y [<-|Hy]; [|auto]. apply in_map_iff in Hin as (z & Ez & Hz). rewrite <- Ez. apply in_map. auto.
    + destruct (IH s1 Hk') as (I1 & I2 & I3 & I4). rewrite Eo in I2, I3. split; [auto|]. split; [intros; apply I2, in_or_app; auto|]. split.
      { intros y Hy. destruct (I3 y Hy) as [Z|Z]; [apply in_app_or in Z as [Z|[<-|[]]]; [left|right; left]|right; right]; auto. }
      intros y [<-|Hy]; [|auto]. apply in_map. apply I2, in_or_app. right; left; auto.
Qed.
End Keyed.

(** * Ground state variables *)
Definition svkey (v : svar) : signature * list term := (sym_sig (fst v), snd v).
Lemma svar_key a b : svar_eqb a b = true <-> svkey a = svkey b.
Proof. unfold svar_eqb, sym_eqb, svkey. rewrite andb_true_iff, sig_eqb_eq, points_eqb_eq. split; [intros [-> ->]; auto|intros [= -> ->]; auto]. Qed.
Lemma sym_domain_spec s : declared_by_user s -> sym_domain s = Ok (arguments s).
Proof. destruct s as [[|]|[|]]; cbn; tauto. Qed.

Lemma symbols_from D symbols : no_repetition D -> Forall declared_by_user symbols -> NoDup (map sym_sig symbols) -> forall idx, keyed svkey idx ->
  (forall v, In v (si_objects idx) -> ~ In (sym_sig (fst v)) (map sym_sig symbols)) ->
  match ground_symbols_from D symbols idx with
  | Ok idx' => keyed svkey idx' /\ (forall s, In s symbols -> forall r, In r (arguments s) -> D r <> None) /\
               (forall s b, In (s, b) (si_objects idx') <-> In (s, b) (si_objects idx) \/ (In s symbols /\ typed_binding D (arguments s) b))
  | Err e => e = TarskiError /\ exists s r, In s symbols /\ In r (arguments s) /\ D r = None end.
Proof.
  intros Hn. induction symbols as [|s l IH]; intros Hu Hd idx Hk Hf; cbn [ground_symbols_from].
  - split; [auto|]. split; [intros ? []|]. intros s b. split; [auto|]. intros [?|[[] _]]; auto.
  - inversion Hu as [|? ? Hs Hl]; subst. inversion Hd as [|? ? Hds Hdl]; subst. rewrite (sym_domain_spec s Hs). cbn [bind].
    assert (X := C39_signature_bindings D (arguments s) Hn). destruct (signature_bindings D (arguments s)) as [bs|e]; cbn [bind].
    + destruct X as (X1 & X2 & X3 & _). unfold add_all. assert (Y := keyed_make svar_eqb svkey svar_key (map (fun b => (s, b)) bs) idx Hk).
      destruct (si_make svar_eqb idx (map (fun b => (s, b)) bs)) as [idx1|e]; cbn [bind].
      * destruct Y as [Yo Yk].
        assert (Z : forall v, In v (si_objects idx1) -> ~ In (sym_sig (fst v)) (map sym_sig l)).
        { intros v Hv. rewrite Yo in Hv. apply in_app_or in Hv as [Hv|Hv]. - intros W. apply (Hf v Hv). right; auto. - apply in_map_iff in Hv as (b & <- & _). exact Hds. }
        specialize (IH Hl Hdl idx1 Yk Z). destruct (ground_symbols_from D l idx1) as [idx'|e].
        -- destruct IH as (I1 & I2 & I3). split; [auto|]. split. { intros s' [<-|Hs'] r Hr; [auto|exact (I2 s' Hs' r Hr)]. }
           intros s' b. rewrite I3, Yo, in_app_iff, in_map_iff. split.
           ++ intros [[?|(b' & E & Hb)]|[? ?]]; [auto| |right; split; [right|]; auto]. inversion E; subst. right. split; [left; auto|apply X3; auto].
           ++ intros [?|[[<-|?] T]]; [auto| |auto]. left; right. exists b. split; [auto|apply X3; auto].
        -- destruct IH as (-> & s' & r & Hs' & R). split; [auto|]. exists s', r. split; [right; auto|auto].
      * destruct Y as [-> Y]. exfalso. apply Y. rewrite map_app. apply NoDup_app_iff_simple; [apply Hk|..].
        -- rewrite map_map. apply FinFun.Injective_map_NoDup; [|auto]. intros a b E. unfold svkey in E. cbn in E. congruence.
        -- intros k Hk1 Hk2. apply in_map_iff in Hk1 as (v & <- & Hv). rewrite map_map in Hk2. apply in_map_iff in Hk2 as (b & E & _). unfold svkey in E. cbn in E. apply (Hf v Hv). left. congruence.
    + destruct X as (-> & _ & r & Hr & Er). split; [auto|]. exists s, r. split; [left; auto|auto].
Qed.
(** The index of state variables holds exactly the type-consistent groundings of the symbols, each at one index. *)
Theorem C39_ground_symbols D symbols : no_repetition D -> Forall declared_by_user symbols -> NoDup (map sym_sig symbols) ->
  match ground_symbols_exhaustively D symbols with
  | Ok idx => (forall s r, In s symbols -> In r (arguments s) -> D r <> None) /\
              (forall s b, In (s, b) (si_iter idx) <-> In s symbols /\ typed_binding D (arguments s) b) /\ NoDup (si_iter idx) /\
              (forall i v, nth_error (si_iter idx) i = Some v -> si_get_object idx i = Ok v /\ si_get_index svar_eqb idx v = Ok i)
  | Err e => e = TarskiError /\ exists s r, In s symbols /\ In r (arguments s) /\ D r = None
  end.
Proof.
  intros Hn Hu Hd. unfold ground_symbols_exhaustively. assert (X := symbols_from D symbols Hn Hu Hd si_empty (keyed_empty svkey) ltac:(intros ? [])).
  destruct (ground_symbols_from D symbols si_empty) as [idx|e]; [|exact X]. destruct X as (X1 & X2 & X3). destruct (keyed_index svar_eqb svkey svar_key idx X1) as [Ei Eg]. rewrite Ei.
  split; [intros s r Hs Hr; exact (X2 s Hs r Hr)|]. split; [intros s b; rewrite X3; cbn; tauto|]. split; [eapply NoDup_map_inv; apply X1|exact Eg].
Qed.

(** * Partially ground terms *)
Lemma fix_constants_spec D ss doms ts : Forall2 (fun s d => D s = Some d) ss doms -> List.length ts = List.length ss ->
  exists doms', fix_constants doms ts = Ok doms' /\ (no_repetition D -> Forall (@NoDup term) doms') /\ forall b, In b (product doms') <-> fits D ss ts b.
Proof.
  intros F. revert ts. induction F as [|s d ss doms E F IH]; intros [|t ts] L; try discriminate; cbn [fix_constants].
  - exists []. split; [auto|]. split; [constructor|]. intros b. cbn. split; [intros [<-|[]]; constructor|intros H; inversion H; auto].
  - destruct (IH ts) as (r & -> & Rn & Rb); [cbn in L; lia|]. cbn [bind]. eexists. split; [reflexivity|]. split.
    + intros Hn. constructor; [|auto]. destruct t; try (eapply Hn; eauto; fail). constructor; [intros []|constructor].
    + intros b. rewrite product_In. split.
      * intros H. inversion H as [|a y l l' H1 H2]; subst. assert (H3 : fits D ss ts l) by (apply Rb, product_In; auto).
        destruct t; try (apply (fits_any D s ss _ ts d a l); [congruence|auto|auto|auto]; fail). destruct H1 as [<-|[]]. constructor; auto.
      * intros H. inversion H as [|? ? ? ? ? ? H1|? ? ? ? cs ? ? H0 H1 H2 H3]; subst; (constructor; [|apply product_In; apply Rb; auto]).
        -- left; auto.
        -- assert (d = cs) by congruence. subst. destruct t; auto. destruct (H0 c s0 eq_refl).
Qed.
Definition sym_dec (a b : sym) : {a = b} + {a <> b}. Proof. decide equality; [apply psym_eq_dec|apply fsym_eq_dec]. Defined.
Lemma key_in_dec (k : signature * list term) l : In k l \/ ~ In k l.
Proof.
  destruct (existsb (fun k' => sig_eqb (fst k') (fst k) && points_eqb (snd k') (snd k)) l) eqn:E.
  - left. apply existsb_exists in E as ([a b] & H & E). apply andb_true_iff in E as [E1 E2]. apply sig_eqb_eq in E1. apply points_eqb_eq in E2. cbn in *. subst. now destruct k.
  - right. intros H. assert (X : existsb (fun k' => sig_eqb (fst k') (fst k) && points_eqb (snd k') (snd k)) l = true); [|congruence].
    apply existsb_exists. exists k. split; [auto|]. apply andb_true_iff. split; [now apply sig_eqb_eq|now apply points_eqb_eq].
Qed.
Lemma overlap_exists (a b : list (signature * list term)) : NoDup a -> NoDup b -> ~ NoDup (a ++ b) -> exists k, In k a /\ In k b.
Proof.
  intros Ha Hb H. destruct (existsb (fun k => existsb (fun k' => sig_eqb (fst k') (fst k) && points_eqb (snd k') (snd k)) b) a) eqn:E.
  - apply existsb_exists in E as (k & Hk & E). apply existsb_exists in E as (k' & Hk' & E). apply andb_true_iff in E as [E1 E2]. apply sig_eqb_eq in E1. apply points_eqb_eq in E2.
    assert (k = k') by (destruct k, k'; cbn in *; congruence). subst. exists k'. auto.
  - exfalso. apply H. apply NoDup_app_iff_simple; [auto|auto|]. intros k H1 H2. assert (T : existsb (fun k => existsb (fun k' => sig_eqb (fst k') (fst k) && points_eqb (snd k') (snd k)) b) a = true); [|congruence].
    apply existsb_exists. exists k. split; [auto|]. apply existsb_exists. exists k. split; [auto|]. apply andb_true_iff. split; [now apply sig_eqb_eq|now apply points_eqb_eq].
Qed.
Definition same_symbols (terms : list (sym * list term)) : Prop := forall s ts s' ts', In (s, ts) terms -> In (s', ts') terms -> sym_sig s = sym_sig s' -> s = s'.
Definition disjoint_terms (D : domains) (x y : sym * list term) : Prop := forall b, fst x = fst y -> fits D (arguments (fst x)) (snd x) b -> fits D (arguments (fst y)) (snd y) b -> False.
Lemma partial_from D terms : no_repetition D -> Forall (fun st => declared_by_user (fst st) /\ List.length (snd st) = List.length (arguments (fst st))) terms ->
  same_symbols terms ->
  forall idx, keyed svkey idx ->
  match ground_partial_from D terms idx with
  | Ok idx' => keyed svkey idx' /\ (forall s ts r, In (s, ts) terms -> In r (arguments s) -> D r <> None) /\
               (forall s b, In (s, b) (si_objects idx') <-> In (s, b) (si_objects idx) \/ exists ts, In (s, ts) terms /\ fits D (arguments s) ts b) /\
               (forall v s ts, In v (si_objects idx) -> In (s, ts) terms -> sym_sig (fst v) = sym_sig s -> fits D (arguments s) ts (snd v) -> False) /\
               ForallOrdPairs (disjoint_terms D) terms
  | Err e => (e = TarskiError /\ exists s ts r, In (s, ts) terms /\ In r (arguments s) /\ D r = None) \/
             (e = DuplicateDefinition /\ ((exists v s ts, In v (si_objects idx) /\ In (s, ts) terms /\ sym_sig (fst v) = sym_sig s /\ fits D (arguments s) ts (snd v)) \/
                exists i j s ts ts' b, i < j /\ nth_error terms i = Some (s, ts) /\ nth_error terms j = Some (s, ts') /\ fits D (arguments s) ts b /\ fits D (arguments s) ts' b)) end.
Proof.
  intros Hn. induction terms as [|[s ts] l IH]; intros Hu Hi idx Hk; cbn [ground_partial_from].
  - split; [auto|]. split; [intros ? ? ? []|]. split; [|split; [intros ? ? ? ? []|constructor]]. intros s b. split; [auto|]. intros [?|(? & [] & _)]; auto.
  - inversion Hu as [|? ? Hs Hl]; subst. cbn [fst snd] in Hs. destruct Hs as [Hs Hlen]. rewrite (sym_domain_spec s Hs). cbn [bind].
    assert (X := sort_domains D (arguments s)). destruct (mapM (sort_domain D) (arguments s)) as [doms|e]; cbn [bind].
    + destruct (fix_constants_spec D (arguments s) doms ts X Hlen) as (doms' & -> & Dn & Db). cbn [bind]. unfold add_all.
      assert (Y := keyed_make svar_eqb svkey svar_key (map (fun b => (s, b)) (product doms')) idx Hk).
      destruct (si_make svar_eqb idx (map (fun b => (s, b)) (product doms'))) as [idx1|e]; cbn [bind].
      * destruct Y as [Yo Yk]. assert (Hi' : same_symbols l) by (intros s1 t1 s2 t2 H1 H2; apply (Hi s1 t1 s2 t2); right; auto).
        assert (IH' := IH Hl Hi' idx1 Yk). clear IH. destruct (ground_partial_from D l idx1) as [idx'|e].
        -- destruct IH' as (I1 & I2 & I3 & I4 & I5). split; [auto|]. split. { intros s' ts' r [E|Hin] Hr; [|eauto]. inversion E; subst. eapply doms_enum; eauto. }
           split; [|split].
           ++ intros s' b. rewrite I3, Yo, in_app_iff, in_map_iff. split.
              ** intros [[?|(b' & E & Hb)]|(ts' & ? & ?)]; [auto| |right; exists ts'; split; [right|]; auto]. inversion E; subst. right. exists ts. split; [left; auto|apply Db; auto].
              ** intros [?|(ts' & [E|?] & T)]; [auto| |right; exists ts'; auto]. inversion E; subst. left; right. exists b. split; [auto|apply Db; auto].
           ++ intros v s' ts' Hv [E|Hin] Es Hf.
              ** inversion E; subst s' ts'. destruct Yk as [_ N]. rewrite Yo, map_app in N. apply (NoDup_app_disj _ _ (svkey v) N); [now apply in_map|].
                 rewrite map_map. apply in_map_iff. exists (snd v). split; [|now apply Db]. unfold svkey. cbn [fst snd]. congruence.
              ** apply (I4 v s' ts'); auto. rewrite Yo. apply in_or_app; auto.
           ++ constructor; [|exact I5]. apply Forall_forall. intros [s' ts'] Hin b E F1 F2. cbn [fst snd] in *. subst s'.
              apply (I4 (s, b) s ts'); auto. rewrite Yo. apply in_or_app. right. apply in_map. now apply Db.
        -- destruct IH' as [(-> & s' & ts' & r & Hin & R)|[-> [(v & s' & ts' & Hv & Hin & Es & Hf)|(i & j & s' & ts1 & ts2 & b & Hij & N1 & N2 & F1 & F2)]]].
           ++ left. split; [auto|]. exists s', ts', r. split; [right; auto|auto].
           ++ right. split; [auto|]. rewrite Yo in Hv. apply in_app_or in Hv as [Hv|Hv].
              ** left. exists v, s', ts'. split; [auto|]. split; [right; auto|auto].
              ** right. apply in_map_iff in Hv as (b & <- & Hb). cbn [fst snd] in *. assert (s = s') by (apply (Hi s ts s' ts'); [left; auto|right; auto|auto]). subst s'.
                 apply In_nth_error in Hin as (j & Hj). exists 0, (S j), s, ts, ts', b. split; [lia|]. split; [auto|]. split; [auto|]. split; [now apply Db|auto].
           ++ right. split; [auto|]. right. exists (S i), (S j), s', ts1, ts2, b. split; [lia|]. auto.
      * destruct Y as [-> Y]. right. split; [auto|]. left. rewrite map_app in Y.
        assert (N2 : NoDup (map svkey (map (fun b => (s, b)) (product doms')))) by (rewrite map_map; apply FinFun.Injective_map_NoDup; [intros a b E; unfold svkey in E; cbn in E; congruence|apply product_NoDup; auto]).
        destruct (overlap_exists _ _ (proj2 Hk) N2 Y) as (k & K1 & K2).
        apply in_map_iff in K1 as (v & <- & Hv). rewrite map_map in K2. apply in_map_iff in K2 as (b & E & Hb). unfold svkey in E. cbn [fst snd] in E. injection E as E1 E2. subst b.
        exists v, s, ts. split; [auto|]. split; [left; auto|]. split; [auto|now apply Db].
    + destruct X as [-> (r & Hr & Er)]. left. split; [auto|]. exists s, ts, r. split; [left; auto|auto].
Qed.
(** The index holds exactly the groundings compatible with the constants already in the terms: a position held by a constant keeps it, any other position ranges over the
    sort declared for the symbol. Two terms with a common grounding make the function raise. *)
Theorem C39_partially_grounded D terms : no_repetition D -> Forall (fun st => declared_by_user (fst st) /\ List.length (snd st) = List.length (arguments (fst st))) terms -> same_symbols terms ->
  match ground_partially_grounded_terms D terms with
  | Ok idx => (forall s ts r, In (s, ts) terms -> In r (arguments s) -> D r <> None) /\ ForallOrdPairs (disjoint_terms D) terms /\
              (forall s b, In (s, b) (si_iter idx) <-> exists ts, In (s, ts) terms /\ fits D (arguments s) ts b) /\ NoDup (si_iter idx) /\
              (forall i v, nth_error (si_iter idx) i = Some v -> si_get_object idx i = Ok v /\ si_get_index svar_eqb idx v = Ok i)
  | Err e => (e = TarskiError /\ exists s ts r, In (s, ts) terms /\ In r (arguments s) /\ D r = None) \/
             (e = DuplicateDefinition /\ exists i j s ts ts' b, i < j /\ nth_error terms i = Some (s, ts) /\ nth_error terms j = Some (s, ts') /\ fits D (arguments s) ts b /\ fits D (arguments s) ts' b)
  end.
Proof.
  intros Hn Hu Hs. unfold ground_partially_grounded_terms. assert (X := partial_from D terms Hn Hu Hs si_empty (keyed_empty svkey)).
  destruct (ground_partial_from D terms si_empty) as [idx|e].
  - destruct X as (X1 & X2 & X3 & _ & X4). destruct (keyed_index svar_eqb svkey svar_key idx X1) as [Ei Eg]. rewrite Ei.
    split; [exact X2|]. split; [exact X4|]. split; [intros s b; rewrite X3; cbn; split; [intros [[]|?]; auto|auto]|]. split; [eapply NoDup_map_inv; apply X1|exact Eg].
  - destruct X as [X|[-> [(v & s & ts & [] & _)|X]]]; [left; exact X|right; split; [auto|exact X]].
Qed.

(** * All possible state variables *)
Definition stkey (v : statevar) : string * list term := (sym_name (sv_sym v), sv_inst v).
Lemma statevar_key a b : statevar_eqb a b = true <-> stkey a = stkey b.
Proof. unfold statevar_eqb, stkey. rewrite andb_true_iff, String.eqb_eq, points_eqb_eq. split; [intros [-> ->]; auto|intros [= -> ->]; auto]. Qed.
Lemma instantiations_spec D ts : match instantiations D ts with
  | Ok ds => forall b, In b (product ds) <-> instance D ts b
  | Err e => e = UnableToGroundError /\ exists t, In t ts /\ ((forall c r, t <> Cst c r) /\ (forall x s, t <> Var x s) \/ exists x s, t = Var x s /\ D s = None) end.
Proof.
  induction ts as [|t ts IH]; cbn [instantiations].
  - intros b. cbn. split; [intros [<-|[]]; constructor|intros H; inversion H; auto].
  - assert (G : forall d, (forall a, In a d <-> (exists c r, t = Cst c r /\ a = t) \/ (exists x s cs, t = Var x s /\ D s = Some cs /\ In a cs)) ->
       match (let! r := instantiations D ts in Ok (d :: r)) with Ok ds => forall b, In b (product ds) <-> instance D (t :: ts) b
       | Err e => e = UnableToGroundError /\ exists u, In u (t :: ts) /\ ((forall c r, u <> Cst c r) /\ (forall x s, u <> Var x s) \/ exists x s, u = Var x s /\ D s = None) end).
    { intros d Hd. destruct (instantiations D ts) as [ds|e]; cbn [bind].
      - intros b. rewrite product_In. split; intros H; inversion H as [|a y l l' H1 H2]; subst; constructor; try (apply Hd; assumption); [apply IH, product_In; auto|apply product_In, IH; auto].
      - destruct IH as (-> & u & Hu & R). split; [auto|]. exists u. split; [right; auto|auto]. }
    destruct t as [x s|c r|f us|c a b]; cbn [bind].
    + destruct (D s) as [cs|] eqn:E; cbn [bind].
      * apply G. intros a. split; [intros H; right; exists x, s, cs; auto|]. intros [(c & r & E1 & _)|(x' & s' & cs' & E1 & E2 & H)]; [discriminate|]. inversion E1; subst. congruence.
      * split; [auto|]. exists (Var x s). split; [left; auto|]. right. exists x, s. auto.
    + apply G. intros a. split; [intros [<-|[]]; left; exists c, r; auto|]. intros [(c' & r' & _ & ->)|(? & ? & ? & E1 & _)]; [left; auto|discriminate].
    + split; [auto|]. exists (App f us). split; [left; auto|]. left. split; congruence.
    + split; [auto|]. exists (Ite c a b). split; [left; auto|]. left. split; congruence.
Qed.
Lemma all_from D terms : forall idx, keyed stkey idx ->
  match all_state_variables_from D terms idx with
  | Ok idx' => keyed stkey idx' /\ (forall v, In v (si_objects idx) -> In v (si_objects idx')) /\
               (forall v, In v (si_objects idx') -> In v (si_objects idx) \/ (In (sv_sym v, sv_args v) terms /\ instance D (sv_args v) (sv_inst v))) /\
               (forall s ts b, In (s, ts) terms -> instance D ts b -> In (sym_name s, b) (map stkey (si_objects idx')))
  | Err e => e = UnableToGroundError /\ exists s ts t, In (s, ts) terms /\ In t ts /\ ((forall c r, t <> Cst c r) /\ (forall x s, t <> Var x s) \/ exists x s, t = Var x s /\ D s = None) end.
Proof.
  induction terms as [|[s ts] l IH]; intros idx Hk; cbn [all_state_variables_from].
  - split; [auto|]. split; [auto|]. split; [auto|]. intros ? ? ? [].
  - assert (X := instantiations_spec D ts). destruct (instantiations D ts) as [ds|e]; cbn [bind].
    + assert (E : fold_left (fun i b => snd (si_add statevar_eqb i {| sv_sym := s; sv_args := ts; sv_inst := b |})) (product ds) idx =
                  fold_left (fun i x => snd (si_add statevar_eqb i x)) (map (fun b => {| sv_sym := s; sv_args := ts; sv_inst := b |}) (product ds)) idx).
      { generalize (product ds) idx. clear. induction l as [|b l IH]; intros idx; [reflexivity|]. cbn [fold_left map]. apply IH. }
      rewrite E. clear E. destruct (keyed_suppress statevar_eqb stkey statevar_key (map (fun b => {| sv_sym := s; sv_args := ts; sv_inst := b |}) (product ds)) idx Hk) as (K1 & K2 & K3 & K4).
      set (idx1 := fold_left _ _ idx) in *. clearbody idx1. specialize (IH idx1 K1). destruct (all_state_variables_from D l idx1) as [idx'|e].
      * destruct IH as (I1 & I2 & I3 & I4). split; [auto|]. split; [auto|]. split.
        -- intros v Hv. destruct (I3 v Hv) as [H|[H1 H2]]; [|right; split; [right|]; auto]. destruct (K3 v H) as [?|H']; [auto|]. apply in_map_iff in H' as (b & <- & Hb). right. cbn. split; [left; auto|now apply X].
        -- intros s' ts' b [E|Hin] Hb; [|eauto]. inversion E; subst s' ts'. assert (Y := K4 {| sv_sym := s; sv_args := ts; sv_inst := b |} (in_map _ _ _ (proj2 (X b) Hb))).
           apply in_map_iff in Y as (v & Ev & Hv). apply in_map_iff. exists v. split; [exact Ev|auto].
      * destruct IH as (-> & s' & ts' & t & Hin & R). split; [auto|]. exists s', ts', t. split; [right; auto|auto].
    + destruct X as (-> & t & Ht & R). split; [auto|]. exists s, ts, t. split; [left; auto|auto].
Qed.
(** Each state variable of the index comes from a given term by instantiating its variables with constants of their sorts, every such instance is in the index (up to the name of
    the symbol and the tuple of constants, which is how state variables are compared), and no two state variables of the index are equal. *)
Theorem C39_all_state_variables D terms :
  match create_all_possible_state_variables D terms with
  | Ok idx => (forall v, In v (si_iter idx) -> In (sv_sym v, sv_args v) terms /\ instance D (sv_args v) (sv_inst v)) /\
              (forall s ts b, In (s, ts) terms -> instance D ts b -> exists v, In v (si_iter idx) /\ sym_name (sv_sym v) = sym_name s /\ sv_inst v = b) /\
              NoDup (map (fun v => (sym_name (sv_sym v), sv_inst v)) (si_iter idx)) /\
              (forall i v, nth_error (si_iter idx) i = Some v -> si_get_object idx i = Ok v /\ si_get_index statevar_eqb idx v = Ok i)
  | Err e => e = UnableToGroundError /\ exists s ts t, In (s, ts) terms /\ In t ts /\ ((forall c r, t <> Cst c r) /\ (forall x s, t <> Var x s) \/ exists x s, t = Var x s /\ D s = None)
  end.
Proof.
  unfold create_all_possible_state_variables. assert (X := all_from D terms si_empty (keyed_empty stkey)). destruct (all_state_variables_from D terms si_empty) as [idx|e]; [|exact X].
  destruct X as (X1 & _ & X3 & X4). destruct (keyed_index statevar_eqb stkey statevar_key idx X1) as [Ei Eg]. rewrite Ei. split; [|split; [|split; [apply X1|exact Eg]]].
  - intros v Hv. destruct (X3 v Hv) as [[]|?]; auto.
  - intros s ts b H1 H2. assert (Y := X4 s ts b H1 H2). apply in_map_iff in Y as (v & E & Hv). unfold stkey in E. injection E as E1 E2. exists v. auto.
Qed.
(** [StateVariable.ground] is the ground atom or term of the state variable when no variable is repeated among the arguments. *)
Lemma ground_gen args inst : forall post, Forall2 (fun t a => (exists c r, t = Cst c r /\ a = t) \/ (exists x s, t = Var x s)) args inst ->
  NoDup (vars_of args) -> (forall c r v, get_t post (Cst c r) = Some v -> v = Cst c r) ->
  exists l, create_pairs args inst = Ok l /\ (forall c r v, get_t (rev l ++ post) (Cst c r) = Some v -> v = Cst c r) /\
  (forall x s, ~ In (x, s) (vars_of args) -> get_t (rev l ++ post) (Var x s) = get_t post (Var x s)) /\
  Forall2 (fun t a => (exists c r, t = Cst c r /\ a = t) \/ (exists x s, t = Var x s /\ get_t (rev l ++ post) t = Some a)) args inst.
Proof.
  intros post F. revert post. induction F as [|t a args inst H F IH]; intros post Hn Hp; cbn [create_pairs].
  - exists []. split; [auto|]. split; [auto|]. split; [auto|constructor].
  - assert (Hn' : NoDup (vars_of args)). { change (vars_of (t :: args)) with ((match t with Var x s => [(x, s)] | _ => [] end) ++ vars_of args)%list in Hn. eapply NoDup_app_r; eauto. }
    destruct (IH ((t, a) :: post) Hn') as (l & E & L1 & L2 & L3).
    { intros c r v Hg. cbn [get_t] in Hg. destruct (term_eqb t (Cst c r)) eqn:Et; [|eauto]. apply term_eqb_eq in Et. subst t. injection Hg as <-. destruct H as [(c' & r' & E & ->)|(x & s & E)]; [auto|discriminate]. }
    rewrite E. cbn [bind]. exists ((t, a) :: l). split; [auto|]. cbn [rev]. rewrite <- app_assoc. cbn [app]. split; [exact L1|]. split.
    + intros x s Hni. rewrite L2. 2: { intros Hin. apply Hni. change (vars_of (t :: args)) with ((match t with Var x s => [(x, s)] | _ => [] end) ++ vars_of args)%list. apply in_or_app. auto. }
      cbn [get_t]. destruct (term_eqb t (Var x s)) eqn:Et; [|auto]. apply term_eqb_eq in Et. subst t. exfalso. apply Hni. left. auto.
    + constructor; [|exact L3]. destruct H as [?|(x & s & ->)]; [left; auto|]. right. exists x, s. split; [auto|]. rewrite L2.
      * cbn [get_t]. assert (R : term_eqb (Var x s) (Var x s) = true) by now apply term_eqb_eq. now rewrite R.
      * cbn in Hn. now inversion Hn.
Qed.
Theorem C39_state_variable_ground D terms idx v : create_all_possible_state_variables D terms = Ok idx -> In v (si_iter idx) ->
  NoDup (vars_of (sv_args v)) -> sv_ground v = Ok (sv_inst v).
Proof.
  intros H Hv Hn. assert (X := C39_all_state_variables D terms). rewrite H in X. destruct X as [X _]. destruct (X v Hv) as [_ Hi].
  assert (F : Forall2 (fun t a => (exists c r, t = Cst c r /\ a = t) \/ (exists x s, t = Var x s)) (sv_args v) (sv_inst v)).
  { clear - Hi. induction Hi as [|t a l l' H _ IH]; constructor; [|auto]. destruct H as [?|(x & s & _ & -> & _)]; [left; auto|right; exists x, s; auto]. }
  destruct (ground_gen (sv_args v) (sv_inst v) [] F Hn) as (l & E & L1 & _ & L3); [discriminate|]. rewrite app_nil_r in L1, L3. unfold sv_ground, create_substitution. rewrite E. cbn [bind]. f_equal.
  clear - L1 L3. set (s := {| sub_t := rev l; sub_f := [] |}). induction L3 as [|t a args inst H _ IH]; [reflexivity|]. cbn [map]. f_equal; [|exact IH].
  destruct H as [(c & r & -> & ->)|(x & r & -> & E)].
  - cbn. unfold visit_t. cbn [sub_t s]. destruct (get_t (rev l) (Cst c r)) eqn:G; [eauto|auto].
  - cbn. unfold visit_t. cbn [sub_t s]. now rewrite E.
Qed.

(** * C40: static symbols *)
Definition written (e : effect) (s : sym) : Prop := exists e', sub_effect e' e /\ writes e' s.
Lemma written_uni c vs es s : written (EUni c vs es) s <-> exists e, In e es /\ written e s.
Proof.
  split.
  - intros (e' & H & W). inversion H as [|? ? ? e ? He Hs]; subst; [destruct W|]. exists e. split; [auto|]. exists e'. auto.
  - intros (e & He & e' & H & W). exists e'. split; [|auto]. econstructor; eauto.
Qed.
Lemma written_single e s : is_single e = true -> written e s <-> writes e s.
Proof. intros H. split; [|intros W; exists e; split; [constructor|auto]]. intros (e' & Hs & W). inversion Hs; subst; [auto|discriminate]. Qed.
Lemma binding_app s f ts : parameter_binding s -> subst_term s (App f ts) = App f (map (subst_term s) ts).
Proof.
  intros [_ H]. cbn [subst_term]. unfold visit_t. destruct (get_t (sub_t s) _) eqn:E; [|auto]. exfalso. revert E H. generalize (map (subst_term s) ts). intros us. induction (sub_t s) as [|[k v] l IH]; cbn [get_t]; [discriminate|].
  destruct (term_eqb k (App f us)) eqn:Ek; intros E H; [|apply IH; auto; intros k' v' Hin; apply (H k' v'); right; auto].
  apply term_eqb_eq in Ek. subst k. destruct (H _ _ (or_introl eq_refl)) as (x & r & ?). discriminate.
Qed.
Lemma binding_get s t u : parameter_binding s -> get_t (sub_t s) t = Some u -> exists x r, t = Var x r.
Proof.
  intros [_ H] E. induction (sub_t s) as [|[k v] l IH]; cbn [get_t] in E; [discriminate|]. destruct (term_eqb k t) eqn:Ek; [|apply IH; auto; intros k' v' Hin; apply (H k' v'); right; auto].
  apply term_eqb_eq in Ek. subst k. eapply H. left. reflexivity.
Qed.
(** Substituting parameters in an effect whose left-hand sides are compound terms does not change the symbols it writes. *)
Lemma binding_written s : parameter_binding s -> forall e e' x, plain_effect e = true -> subst_effect s e = Ok e' -> plain_effect e' = true /\ (written e' x <-> written e x).
Proof.
  intros Hb. assert (Hf : forall f, visit_f s f = f) by (intros f; unfold visit_f; destruct Hb as [-> _]; reflexivity).
  induction e as [c a|c a|i c l r|c vs es IH|c l|c] using effect_ind_nested; intros e' x Hp H; cbn [subst_effect] in H.
  - injection H as <-. destruct a; try discriminate. cbn [subst_formula]. rewrite Hf. split; [reflexivity|]. rewrite !written_single by reflexivity. cbn. split; intros (q & us & E & ->); injection E as <- _; eauto.
  - injection H as <-. destruct a; try discriminate. cbn [subst_formula]. rewrite Hf. split; [reflexivity|]. rewrite !written_single by reflexivity. cbn. split; intros (q & us & E & ->); injection E as <- _; eauto.
  - injection H as <-. destruct l as [| |f ts|]; try discriminate. rewrite binding_app by auto. split; [reflexivity|]. rewrite !written_single by reflexivity. cbn. split; intros (q & us & E & ->); injection E as <- _; eauto.
  - destruct (mapM (subst_effect s) es) as [es'|] eqn:E; [|discriminate]. cbn [bind] in H. injection H as <-. cbn [plain_effect] in Hp. rewrite forallb_forall in Hp. rewrite Forall_forall in IH. apply mapM_ok_Forall2 in E. split.
    + cbn [plain_effect]. apply forallb_forall. intros e' He'. destruct (Forall2_In_r _ _ _ _ E He') as (e & He & Es). exact (proj1 (IH e He e' x (Hp e He) Es)).
    + rewrite !written_uni. split.
      * intros (e' & He' & W). destruct (Forall2_In_r _ _ _ _ E He') as (e & He & Es). exists e. split; [auto|]. apply (IH e He e' x (Hp e He) Es). auto.
      * intros (e & He & W). destruct (Forall2_In_l _ _ _ _ E He) as (e' & He' & Es). exists e'. split; [auto|]. apply (IH e He e' x (Hp e He) Es). auto.
  - discriminate.
  - discriminate.
Qed.
Lemma enumerated_binding D vs ss s : enumerate_substitutions D vs = Ok ss -> In s ss -> parameter_binding s.
Proof.
  unfold enumerate_substitutions. destruct (forallb is_var vs) eqn:Hv; [|discriminate]. destruct (mapM _ vs) as [doms|]; [|discriminate]. cbn [bind]. intros H Hs.
  apply mapM_ok_Forall2 in H. destruct (Forall2_In_r _ _ _ _ H Hs) as (b & _ & E). unfold create_substitution in E. destruct (create_pairs vs b) as [l|] eqn:El; [|discriminate]. cbn [bind] in E. injection E as <-.
  split; [reflexivity|]. cbn [sub_t]. intros k v Hin. rewrite <- in_rev in Hin. rewrite forallb_forall in Hv. clear H Hs. revert b l El Hin. clear - Hv. induction vs as [|w vs IH]; intros [|c b] l El Hin; cbn [create_pairs] in El; try discriminate; try (injection El as <-; destruct Hin; fail).
  destruct (create_pairs vs b) as [l'|] eqn:E'; [|discriminate]. cbn [bind] in El. injection El as <-. destruct Hin as [E|Hin]; [|apply (IH ltac:(intros; apply Hv; right; auto) b l' E' Hin)].
  injection E as -> ->. specialize (Hv k (or_introl eq_refl)). destruct k; try discriminate. eauto.
Qed.
Section Frame.
Variables (D : domains) (sub : sort -> sort -> bool).
Definition keeps (W : sym -> Prop) (m m' : model) : Prop := proper m' /\ (forall p pt, ~ W (SymP p) -> m_holds m' p pt = m_holds m p pt) /\ (forall f pt, ~ W (SymF f) -> m_value m' f pt = m_value m f pt).
Lemma keeps_trans W a b c : keeps W a b -> keeps W b c -> keeps W a c.
Proof. intros (A1 & A2 & A3) (B1 & B2 & B3). split; [auto|]. split; intros; [rewrite B2, A2|rewrite B3, A3]; auto. Qed.
Lemma keeps_weaken (W W' : sym -> Prop) a b : (forall s, W s -> W' s) -> keeps W a b -> keeps W' a b.
Proof. intros H (A1 & A2 & A3). split; [auto|]. split; intros; [apply A2|apply A3]; auto. Qed.
Lemma keeps_refl W m : proper m -> keeps W m m. Proof. intros H. split; [auto|]. split; auto. Qed.
Lemma run_with_keeps W f es : (forall e m m', In e es -> proper m -> f m e = Ok m' -> keeps W m m') -> forall m m', proper m -> run_with f es m = Ok m' -> keeps W m m'.
Proof.
  induction es as [|e es IH]; intros H m m' Hp Hr; cbn [run_with] in Hr; [injection Hr as <-; now apply keeps_refl|].
  destruct (f m e) as [m1|] eqn:E; [|discriminate]. cbn [bind] in Hr. assert (K := H e m m1 (or_introl eq_refl) Hp E). eapply keeps_trans; [exact K|]. apply IH; [intros; apply (H e0); auto; right; auto|apply K|exact Hr].
Qed.
Lemma apply_keeps n : forall m e m', plain_effect e = true -> proper m -> apply_effect_n D sub n m e = Ok m' -> keeps (written e) m m'.
Proof.
  induction n as [n IHn] using lt_wf_ind. intros m e m' Hpl Hp H.
  assert (S : is_single e = true \/ exists c vs es, e = EUni c vs es) by (destruct e; auto; right; eauto).
  destruct S as [S|(c & vs & es & ->)].
  - apply (keeps_weaken (writes e)); [intros; now apply written_single|].
    assert (H' : (let! b := eval_f m (econd e) in if negb b then Ok m else match e with EAdd _ (Atom p ts) => m_add sub m p ts | EDel _ (Atom p ts) => Ok (m_discard m p ts) | EFun _ _ l r => let! v := evaluate_t m r in m_set sub m l v | _ => Err RuntimeError end) = Ok m').
    { destruct n, e as [c [| |p ts| |]|c [| |p ts| |]|i c l r|c vs es|c l|c]; cbn [apply_effect_n econd] in *; try discriminate; try exact H. }
    clear H. destruct (eval_f m (econd e)) as [b|]; [|discriminate]. cbn [bind] in H'. destruct (negb b); [injection H' as <-; now apply keeps_refl|].
    destruct e as [c [| |p ts| |]|c [| |p ts| |]|i c l r|c vs es|c l|c]; try discriminate.
    + destruct (add_spec _ _ _ _ _ H' Hp) as (A & B & C). split; [auto|]. split; [|auto]. intros q pt Hq. rewrite B. destruct (same_atom p q ts pt) eqn:E; [|auto]. apply same_atom_eq in E as [<- <-]. exfalso. apply Hq. cbn. eauto.
    + injection H' as <-. destruct (discard_spec m p ts Hp) as (A & B & C). split; [auto|]. split; [|auto]. intros q pt Hq. rewrite B. destruct (same_atom p q ts pt) eqn:E; [|auto]. apply same_atom_eq in E as [<- <-]. exfalso. apply Hq. cbn. eauto.
    + destruct (evaluate_t m r) as [v|]; [|discriminate]. cbn [bind] in H'. destruct (set_spec _ _ _ _ _ H') as (f & a & -> & A & B & C). split; [auto|]. split; [auto|]. intros g pt Hg. rewrite C. destruct (same_point f g a pt) eqn:E; [|auto]. apply same_point_eq in E as [<- <-]. exfalso. apply Hg. cbn. eauto.
  - destruct n as [|n]; cbn [apply_effect_n econd] in H; (destruct (eval_f m c) as [b|]; [|discriminate]; cbn [bind] in H; destruct (negb b); [injection H as <-; now apply keeps_refl|]); [discriminate|].
    destruct (enumerate_substitutions D vs) as [ss|] eqn:Es; [|discriminate]. cbn [bind] in H. assert (Hss : forall s, In s ss -> parameter_binding s) by (intros; eapply enumerated_binding; eauto). clear Es.
    revert m Hp H. induction ss as [|s ss IHs]; intros m Hp H; [injection H as <-; now apply keeps_refl|].
    destruct (run_with _ es m) as [m1|] eqn:E; [|discriminate]. cbn [bind] in H.
    assert (K : keeps (written (EUni c vs es)) m m1).
    { revert E. apply run_with_keeps; [|auto]. intros e m2 m3 He Hp2 E. destruct (subst_effect s e) as [e'|] eqn:Ese; [|discriminate]. cbn [bind] in E. cbn [plain_effect] in Hpl. rewrite forallb_forall in Hpl.
      destruct (binding_written s (Hss s (or_introl eq_refl)) e e' (SymP (PB PEq)) (Hpl e He) Ese) as [Hpl' _]. assert (K := IHn n ltac:(lia) m2 e' m3 Hpl' Hp2 E). revert K. apply keeps_weaken. intros x W.
      apply written_uni. exists e. split; [auto|]. apply (binding_written s (Hss s (or_introl eq_refl)) e e' x (Hpl e He) Ese). auto. }
    eapply keeps_trans; [exact K|]. apply IHs; [intros; apply Hss; right; auto|apply K|exact H].
Qed.
Lemma execution_keeps acts m plan m' : (forall a e, In a acts -> In e (a_effs a) -> plain_effect e = true) -> execution D sub acts m plan m' -> Forall (fun st => parameter_binding (snd st)) plan -> proper m -> keeps (written_by acts) m m'.
Proof.
  intros Hpl H. induction H as [m|m a s pre effs m1 plan m2 Ha Hg Hap Hpr Hex IH]; intros F Hp; [now apply keeps_refl|]. inversion F as [|? ? Hb F']; subst. cbn [snd] in Hb.
  assert (K : keeps (written_by acts) m m1).
  { unfold progress, run_effects in Hpr. revert Hpr. apply run_with_keeps; [|auto]. intros e m3 m4 He Hp3 E.
    assert (He' : In e effs) by (apply in_app_or in He as [He|He]; apply filter_In in He; tauto). clear He.
    unfold ground_schema in Hg. destruct (forallb _ (a_params a)); [|discriminate]. destruct (mapM (subst_effect s) (a_effs a)) as [l|] eqn:El; [|discriminate]. cbn [bind] in Hg. destruct (flatten _) as [p|]; [|discriminate]. cbn [bind] in Hg. injection Hg as _ <-.
    apply mapM_ok_Forall2 in El. destruct (Forall2_In_r _ _ _ _ El He') as (e0 & He0 & Es). assert (X := fun x => binding_written s Hb e0 e x (Hpl a e0 Ha He0) Es).
    assert (K := apply_keeps (edepth e) m3 e m4 (proj1 (X (SymP (PB PEq)))) Hp3 E). revert K. apply keeps_weaken. intros x W. apply (X x) in W. destruct W as (e' & Hs & W). exists a, e0, e'. auto. }
  eapply keeps_trans; [exact K|]. apply IH; [auto|apply K].
Qed.
End Frame.

Lemma affected_spec : forall e, match affected e with Ok l => plain_effect e = true /\ forall s, In s l <-> written e s | Err _ => plain_effect e = false end.
Proof.
  induction e as [c a|c a|i c l r|c vs es IH|c l|c] using effect_ind_nested; cbn [affected plain_effect].
  - destruct a as [| |p ts| |]; auto. split; [auto|]. intros s. rewrite written_single by reflexivity. cbn. split; [intros [<-|[]]; eauto|intros (q & us & E & ->); injection E as <- _; auto].
  - destruct a as [| |p ts| |]; auto. split; [auto|]. intros s. rewrite written_single by reflexivity. cbn. split; [intros [<-|[]]; eauto|intros (q & us & E & ->); injection E as <- _; auto].
  - destruct l as [| |f ts|]; auto. split; [auto|]. intros s. rewrite written_single by reflexivity. cbn. split; [intros [<-|[]]; eauto|intros (q & us & E & ->); injection E as <- _; auto].
  - assert (G : match mapM affected es with Ok l => forallb plain_effect es = true /\ forall s, In s (List.concat l) <-> exists e, In e es /\ written e s | Err _ => forallb plain_effect es = false end).
    { induction IH as [|e es He _ IHs]; [cbn; split; [auto|]; intros s; split; [tauto|intros (e & [] & _)]|]. rewrite mapM_cons. cbn [forallb]. destruct (affected e) as [le|x]; cbn [bind].
      - destruct He as [-> He]. destruct (mapM affected es) as [l|x]; cbn [bind]; [|rewrite IHs; reflexivity]. destruct IHs as [-> IHs]. split; [auto|]. intros s. cbn [List.concat]. rewrite in_app_iff, He, IHs. split.
        + intros [W|(e' & H & W)]; [exists e|exists e']; cbn; auto.
        + intros (e' & [<-|H] & W); [left|right]; eauto.
      - rewrite He. reflexivity. }
    destruct (mapM affected es) as [l|x]; cbn [bind]; [|exact G]. destruct G as [G1 G2]. split; [auto|]. intros s. now rewrite G2, written_uni.
  - reflexivity.
  - reflexivity.
Qed.
Lemma affected_list es : match mapM affected es with Ok l => forallb plain_effect es = true /\ forall s, In s (List.concat l) <-> exists e, In e es /\ written e s | Err _ => forallb plain_effect es = false end.
Proof.
  induction es as [|e es IHs]; [cbn; split; [auto|]; intros s; split; [tauto|intros (e & [] & _)]|]. assert (He := affected_spec e). rewrite mapM_cons. cbn [forallb]. destruct (affected e) as [le|x]; cbn [bind].
  - destruct He as [-> He]. destruct (mapM affected es) as [l|x]; cbn [bind]; [|rewrite IHs; reflexivity]. destruct IHs as [-> IHs]. split; [auto|]. intros s. cbn [List.concat]. rewrite in_app_iff, He, IHs. split.
    + intros [W|(e' & H & W)]; [exists e|exists e']; cbn; auto.
    + intros (e' & [<-|H] & W); [left|right]; eauto.
  - rewrite He. reflexivity.
Qed.
(** ** C40. The fluent symbols are exactly the symbols written by some effect; the analysis raises exactly when some effect is neither an addition or deletion of an atom, nor an
    assignment, nor a universal effect over such effects. *)
Theorem C40_fluents acts : match collect_affected_symbols acts with
  | Ok fluents => (forall a e, In a acts -> In e (a_effs a) -> plain_effect e = true) /\ forall s, In s fluents <-> written_by acts s
  | Err _ => exists a e, In a acts /\ In e (a_effs a) /\ plain_effect e = false end.
Proof.
  unfold collect_affected_symbols. induction acts as [|a acts IH]; [cbn; split; [intros ? ? []|]; intros s; split; [tauto|intros (a & e & e' & [] & _)]|].
  rewrite mapM_cons. assert (A := affected_list (a_effs a)). destruct (mapM affected (a_effs a)) as [l|x]; cbn [bind].
  - destruct A as [A1 A2]. rewrite forallb_forall in A1. destruct (mapM _ acts) as [r|x]; cbn [bind] in *.
    + destruct IH as [I1 I2]. split; [intros b e [<-|Hb] He; eauto|]. intros s. cbn [List.concat]. rewrite in_app_iff, A2, I2. split.
      * intros [(e & He & e' & W)|(b & e & e' & Hb & R)]; [exists a, e, e'|exists b, e, e']; (split; [cbn; auto|tauto]).
      * intros (b & e & e' & [<-|Hb] & He & Hs & W); [left; exists e; split; [auto|exists e'; auto]|right; exists b, e, e'; auto].
    + destruct IH as (b & e & Hb & R). exists b, e. split; [right|]; auto.
  - assert (G : exists e, In e (a_effs a) /\ plain_effect e = false).
    { clear - A. induction (a_effs a) as [|e es IH]; [discriminate|]. cbn in A. destruct (plain_effect e) eqn:E; [|exists e; cbn; auto]. destruct (IH A) as (e' & H & E'). exists e'. cbn; auto. }
    destruct G as (e & He & E). exists a, e. cbn. auto.
Qed.
(** Static symbols keep their extension along every plan. *)
Theorem C40_statics_never_change D sub builtin declared acts fluents statics m plan m' : approximate_symbol_fluency builtin declared acts = Ok (fluents, statics) -> is_state sub m ->
  execution D sub acts m plan m' -> Forall (fun step => parameter_binding (snd step)) plan ->
  (forall p pt, In (SymP p) statics -> m_holds m' p pt = m_holds m p pt) /\ (forall f pt, In (SymF f) statics -> m_value m' f pt = m_value m f pt).
Proof.
  unfold approximate_symbol_fluency. intros H Hm He Hb. assert (X := C40_fluents acts). destruct (collect_affected_symbols acts) as [fl|]; [|discriminate]. cbn [bind] in H. injection H as <- <-. destruct X as [X1 X2].
  destruct (execution_keeps D sub acts m plan m' X1 He Hb (state_proper sub m Hm)) as (_ & K1 & K2).
  assert (N : forall s, In s (filter (fun s => negb (sym_mem s fl)) (get_symbols builtin declared)) -> ~ written_by acts s).
  { intros s Hs W. apply filter_In in Hs as [_ Hs]. apply X2 in W. assert (T : sym_mem s fl = true) by (apply existsb_exists; exists s; split; [auto|apply sig_refl]). rewrite T in Hs. discriminate. }
  split; intros; [apply K1|apply K2]; auto.
Qed.
(** Every declared symbol that is not built-in and is not called total-cost is either fluent or static, and not both. *)
Theorem C40_partition declared acts fluents statics : NoDup (map sym_sig declared) -> (forall s, written_by acts s -> In s declared) ->
  approximate_symbol_fluency false declared acts = Ok (fluents, statics) ->
  (forall s, In s fluents -> In s statics -> False) /\ (forall s, In s statics -> In s declared /\ ~ written_by acts s) /\
  (forall s, In s declared -> declared_by_user s -> sym_name s <> "total-cost" -> In s fluents \/ In s statics).
Proof.
  intros Hn Hd. unfold approximate_symbol_fluency. assert (X := C40_fluents acts). destruct (collect_affected_symbols acts) as [fl|]; [|discriminate]. cbn [bind]. intros H. injection H as <- <-. destruct X as [_ X].
  assert (M : forall s, sym_mem s fl = true <-> exists s', In s' fl /\ sym_sig s = sym_sig s') by (intros s; unfold sym_mem; rewrite existsb_exists; unfold sym_eqb; split; intros (s' & H1 & H2); exists s'; (split; [auto|now apply sig_eqb_eq])).
  split; [|split].
  - intros s H1 H2. apply filter_In in H2 as [_ H2]. assert (T : sym_mem s fl = true) by (apply M; exists s; auto). rewrite T in H2. discriminate.
  - intros s H. apply filter_In in H as [H1 H2]. unfold get_symbols in H1. apply filter_In in H1 as [H1 _]. apply filter_In in H1 as [H1 _]. split; [auto|]. intros W. apply X in W. assert (T : sym_mem s fl = true) by (apply M; exists s; auto). rewrite T in H2. discriminate.
  - intros s Hs Hu Hc. destruct (sym_mem s fl) eqn:E.
    + left. apply M in E as (s' & H1 & H2). assert (Hs' : In s' declared) by (apply Hd, X; auto). assert (s = s'); [|subst; auto]. clear - Hn Hs Hs' H2. induction declared as [|d l IH]; [destruct Hs|]. cbn in Hn. inversion Hn as [|? ? N1 N2]; subst.
      destruct Hs as [<-|Hs], Hs' as [<-|Hs']; [auto|exfalso; apply N1; rewrite H2; now apply in_map|exfalso; apply N1; rewrite <- H2; now apply in_map|auto].
    + right. apply filter_In. split; [|now rewrite E]. unfold get_symbols. apply filter_In. split; [apply filter_In; split; [auto|]|]; [destruct s as [[|]|[|]]; cbn in *; tauto|]. apply negb_true_iff. now apply String.eqb_neq.
Qed.
(** total-cost is reported in neither class when no action changes it, and so are built-in symbols. *)
Definition f_total_cost := FU "total-cost" [] "object".
Theorem C40_total_cost_refuted : exists declared fluents statics, approximate_symbol_fluency false declared [act_move] = Ok (fluents, statics) /\ In (SymF f_total_cost) declared /\ ~ In (SymF f_total_cost) fluents /\ ~ In (SymF f_total_cost) statics.
Proof. exists [SymP pP; SymP pQ; SymF f_total_cost]. do 2 eexists. split; [reflexivity|]. cbn. intuition discriminate. Qed.
Example C40_example : exists fluents m1, approximate_symbol_fluency false [SymP pP; SymP pQ; SymF fX; SymF f_total_cost; SymP (PB PEq)] [act_move] = Ok (fluents, [SymF fX]) /\ In (SymP pP) fluents /\ In (SymP pQ) fluents /\
  NoDup (map sym_sig [SymP pP; SymP pQ; SymF fX; SymF f_total_cost; SymP (PB PEq)]) /\
  is_state String.eqb sX /\ execution DX String.eqb [act_move] sX [("move", bind_x o1)] m1 /\ Forall (fun step => parameter_binding (snd step)) [("move", bind_x o1)] /\ m_holds m1 pP [o1] = false /\ m_holds sX pP [o1] = true.
Proof.
  do 2 eexists. split; [reflexivity|]. split; [cbn; auto|]. split; [cbn; auto|]. split. { repeat constructor; cbn; intuition discriminate. } split; [exact sX_state|]. split; [|split; [|split]].
  - eapply (ex_step _ _ _ _ act_move); [left; reflexivity|reflexivity|reflexivity|reflexivity|constructor].
  - constructor; [|constructor]. split; [reflexivity|]. cbn. intros k v [E|[]]. injection E as <- <-. eauto.
  - reflexivity.
  - reflexivity.
Qed.
(** Examples for C39. Parameters of sort obj and a sort without enumerable domain. *)
Example C39_example : no_repetition DX /\
  ground_actions DX [act_move] = Ok [("move", [[o1]; [o2]])] /\ number_of_groundings DX ["obj"; "obj"] = Ok 4 /\
  (exists idx, ground_symbols_exhaustively DX [SymP pP; SymF fX] = Ok idx /\ si_iter idx = [(SymP pP, [o1]); (SymP pP, [o2]); (SymF fX, [])] /\ si_get_index svar_eqb idx (SymF fX, []) = Ok 2) /\
  ground_symbols_exhaustively DX [SymP (PU "r" ["Real"])] = Err TarskiError /\
  (exists idx, ground_partially_grounded_terms DX [(SymP (PU "r" ["obj"; "obj"]), [o1; Var "x" "obj"]); (SymP (PU "r" ["obj"; "obj"]), [o2; o2])] = Ok idx /\ si_len idx = 3) /\
  ground_partially_grounded_terms DX [(SymP (PU "r" ["obj"; "obj"]), [o1; Var "x" "obj"]); (SymP (PU "r" ["obj"; "obj"]), [Var "y" "obj"; o2])] = Err DuplicateDefinition.
Proof.
  split. { intros s cs. unfold DX. destruct (String.eqb s "obj"); [|discriminate]. intros [= <-]. repeat constructor; cbn; intuition discriminate. }
  split; [reflexivity|]. split; [reflexivity|]. split; [eexists; split; [reflexivity|split; reflexivity]|]. split; [reflexivity|]. split; [eexists; split; reflexivity|reflexivity].
Qed.
(** A variable that occurs twice is instantiated independently at its two occurrences, so r(a,b) is enumerated for r(x,x), and its [ground] is a different expression. *)
Theorem C39_repeated_variable_refuted : exists idx v, create_all_possible_state_variables DX [(SymP (PU "r" ["obj"; "obj"]), [Var "x" "obj"; Var "x" "obj"])] = Ok idx /\ In v (si_iter idx) /\ sv_inst v = [o1; o2] /\ sv_ground v = Ok [o2; o2].
Proof. eexists. exists {| sv_sym := SymP (PU "r" ["obj"; "obj"]); sv_args := [Var "x" "obj"; Var "x" "obj"]; sv_inst := [o1; o2] |}. split; [reflexivity|]. split; [cbn; auto|]. split; reflexivity. Qed.
(** The partially ground variant ignores the sorts of the variables in the term: they range over the sorts of the symbol. *)
Theorem C39_variable_sort_ignored : exists idx, ground_partially_grounded_terms DX [(SymP pP, [Var "x" "subsort"])] = Ok idx /\ si_iter idx = [(SymP pP, [o1]); (SymP pP, [o2])].
Proof. eexists. split; reflexivity. Qed.
