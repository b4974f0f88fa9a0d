(** The texts of the sections of a problem *)
From Coq Require Import Permutation Ascii DecimalString.
From Verif Require Import Base Syntax SemLemmas ListUtil PropsGrounding Asp ModelState ModelProofs ModelText ModelTextProofs Lang LangSpec LangProofs LangProofs2 LangProofs3 Effects Represent Costs PddlText PddlRead PddlSpec PddlProofs PddlProofs2
  PddlAction PddlActionSpec PddlActionProofs PropsPddlAction PddlProblem PddlProblemSpec PddlProblemProofs PddlProblemProofs2.
Local Open Scope string_scope.

(** ** Comments *)
Definition no_semi (c : ascii) : bool := negb (Ascii.eqb c ";").
Lemma all_chars_app p a b : all_chars p (a ++ b) = all_chars p a && all_chars p b.
Proof. induction a as [|c a IH]; [reflexivity|]. cbn [String.append all_chars]. now rewrite IH, andb_assoc. Qed.
Lemma words_semi : forall s cur, all_chars no_semi (cur ++ s) = false -> exists w, In w (words s cur) /\ all_chars no_semi w = false.
Proof.
  induction s as [|c s IH]; intros cur H.
  - rewrite sapp_nil in H. exists cur. split; [|exact H]. cbn [words]. destruct cur; [discriminate|]. now left.
  - assert (Fl : all_chars no_semi cur = false -> In cur (flush cur)) by (destruct cur; [discriminate|]; intros _; now left).
    rewrite all_chars_app in H. cbn [all_chars] in H. cbn [words]. destruct (is_space c) eqn:E1; [|destruct (is_paren c) eqn:E2].
    + assert (Hc : no_semi c = true) by (revert E1; apply (by_byte is_space no_semi); vm_compute; reflexivity). rewrite Hc in H. cbn [andb] in H. apply andb_false_iff in H as [H|H].
      * exists cur. split; [apply in_app_iff; left; auto|exact H].
      * destruct (IH "" H) as (w & Hw & Q). exists w. split; [apply in_app_iff; now right|exact Q].
    + assert (Hc : no_semi c = true) by (revert E2; apply (by_byte is_paren no_semi); vm_compute; reflexivity). rewrite Hc in H. cbn [andb] in H. apply andb_false_iff in H as [H|H].
      * exists cur. split; [apply in_app_iff; left; auto|exact H].
      * destruct (IH "" H) as (w & Hw & Q). exists w. split; [apply in_app_iff; right; now right|exact Q].
    + apply IH. rewrite sapp_assoc, all_chars_app. cbn [String.append all_chars]. exact H.
Qed.
Lemma digit_semi s d : NilEmpty.uint_of_string s = Some d -> all_chars no_semi s = true.
Proof.
  revert d. induction s as [|a s IH]; intros d H; [reflexivity|]. cbn [NilEmpty.uint_of_string] in H. cbn [all_chars].
  destruct (NilEmpty.uint_of_string s) as [d'|] eqn:E; [|exfalso; cbn in H; congruence]. rewrite (IH d' eq_refl), andb_true_r.
  unfold no_semi. destruct (Ascii.eqb a ";") eqn:Q; [|reflexivity]. apply Ascii.eqb_eq in Q. subst a. discriminate.
Qed.
Lemma int_semi w d : NilZero.int_of_string w = Some d -> all_chars no_semi w = true.
Proof.
  assert (U : forall w d, NilZero.uint_of_string w = Some d -> all_chars no_semi w = true) by (intros [|a s] u; [discriminate|]; apply digit_semi).
  destruct w as [|a s]; [discriminate|]. unfold NilZero.int_of_string. destruct (Ascii.eqb a "-") eqn:Q.
  - intros H. apply Ascii.eqb_eq in Q. subst a. cbn [all_chars]. destruct (NilZero.uint_of_string s) eqn:E; [|discriminate]. now rewrite (U s _ E).
  - intros H. destruct (NilZero.uint_of_string (String a s)) eqn:E; [|discriminate]. exact (U _ _ E).
Qed.
Lemma name_semi w : is_name w = true -> all_chars no_semi w = true.
Proof.
  destruct w as [|c r]; [discriminate|]. cbn [is_name all_chars]. rewrite !andb_true_iff. intros [H1 H2]. split.
  - revert H1. apply (by_byte is_alpha no_semi). vm_compute. reflexivity.
  - revert H2. apply all_chars_imp. apply by_byte. vm_compute. reflexivity.
Qed.
Lemma lower_semi w : all_chars no_semi (lower w) = true -> all_chars no_semi w = true.
Proof.
  induction w as [|c r IH]; [reflexivity|]. cbn [lower all_chars]. rewrite !andb_true_iff. intros [H1 H2]. split; [|auto]. revert H1. apply (by_byte (fun c => no_semi (to_lower c)) no_semi). vm_compute. reflexivity.
Qed.
Lemma token_semi w t : token_of w = Ok t -> all_chars no_semi w = true.
Proof.
  unfold token_of. destruct (String.eqb w "(") eqn:E1; [apply String.eqb_eq in E1; subst; reflexivity|]. destruct (String.eqb w ")") eqn:E2; [apply String.eqb_eq in E2; subst; reflexivity|].
  destruct (mem w literals) eqn:E3.
  { intros _. unfold mem in E3. apply existsb_exists in E3 as (x & Hx & Q). apply String.eqb_eq in Q. subst x. assert (G : forallb (all_chars no_semi) literals = true) by (vm_compute; reflexivity). rewrite forallb_forall in G. auto. }
  destruct (mem (lower w) keywords) eqn:E4.
  { intros _. unfold mem in E4. apply existsb_exists in E4 as (x & Hx & Q). apply String.eqb_eq in Q. subst x. assert (G : forallb (all_chars no_semi) keywords = true) by (vm_compute; reflexivity). rewrite forallb_forall in G. apply lower_semi. auto. }
  destruct (is_name w) eqn:E5; [intros _; now apply name_semi|]. destruct (NilZero.int_of_string w) as [d|] eqn:E6; [intros _; now apply (int_semi w d)|].
  destruct w as [|c r]; [discriminate|]. destruct (is_name r) eqn:E7; [|discriminate]. cbn [all_chars]. rewrite (name_semi r E7), andb_true_r. unfold no_semi.
  destruct (Ascii.eqb c "?") eqn:Q1; [apply Ascii.eqb_eq in Q1; subst; reflexivity|]. destruct (Ascii.eqb c "@") eqn:Q2; [apply Ascii.eqb_eq in Q2; subst; reflexivity|discriminate].
Qed.
Lemma reads_semi s xs : reads s xs -> all_chars no_semi s = true.
Proof.
  intros (ws & ts & W & T & _). destruct (all_chars no_semi s) eqn:E; [reflexivity|]. exfalso. destruct (words_semi s "" E) as (w & Hw & Q).
  assert (X : words s "" = ws) by (rewrite <- words_end, W by reflexivity; now rewrite app_nil_r). rewrite X in Hw. destruct (Forall2_In_l _ _ _ _ T Hw) as (t & _ & Ht). apply token_semi in Ht. congruence.
Qed.
Lemma uncomment_id s : all_chars no_semi s = true -> uncomment false s = s.
Proof. induction s as [|c s IH]; [reflexivity|]. cbn [all_chars uncomment]. unfold no_semi at 1. rewrite andb_true_iff, negb_true_iff. intros [-> H]. now rewrite IH. Qed.
Lemma header_document kind s x : kind = "Domain" \/ kind = "Instance" -> reads s [x] -> document (header kind ++ s) = Ok x.
Proof.
  intros Hk H. assert (E : uncomment false (header kind ++ s) = (newline ++ newline ++ newline ++ newline ++ newline ++ newline) ++ s).
  { transitivity ((newline ++ newline ++ newline ++ newline ++ newline ++ newline) ++ uncomment false s); [destruct Hk as [-> | ->]; reflexivity|]. now rewrite (uncomment_id s (reads_semi _ _ H)). }
  unfold document. rewrite E. apply reads_phrase. apply reads_leads; [reflexivity|exact H].
Qed.

(** ** Pieces of text *)
Definition starts (s : string) : bool := match s with String c _ => delim c | EmptyString => false end.
Lemma reads_cat a b xs ys : starts b = true -> reads a xs -> reads b ys -> reads (a ++ b) (xs ++ ys)%list.
Proof.
  destruct b as [|c0 b]; [discriminate|]. cbn [starts]. intros Hd (ws & ts & W & T & B) (ws' & ts' & W' & T' & B'). exists (ws ++ ws')%list, (ts ++ ts')%list. split; [|split].
  - intros d r Hr. rewrite sapp_assoc. change (String c0 b ++ String d r) with (String c0 (b ++ String d r)). rewrite W by exact Hd. rewrite <- app_assoc. f_equal. apply (W' d r Hr).
  - now apply Forall2_app.
  - intros r acc st. rewrite <- app_assoc, B, B', rev_app_distr, app_assoc. reflexivity.
Qed.
Lemma join_reads w ss xss : w <> "" -> all_chars is_space w = true -> Forall2 reads ss xss -> reads (join w ss) (List.concat xss).
Proof.
  intros Hn Hw H. induction H as [|s x ss xs Hx H IH]; [exact reads_nil|].
  destruct ss as [|s' ss]; [inversion H; subst; cbn [join List.concat]; rewrite app_nil_r; exact Hx|].
  change (join w (s :: s' :: ss)) with (s ++ w ++ join w (s' :: ss)). cbn [List.concat]. apply reads_gap; assumption.
Qed.
Lemma lines_reads ss xss : Forall2 reads ss xss -> reads (lines ss) (List.concat xss).
Proof. apply join_reads; [discriminate|reflexivity]. Qed.
Lemma section_reads key body xs : reads key [A (TKey key)] -> reads body xs -> reads (section key body) [L (A (TKey key) :: xs)].
Proof.
  intros Hk Hb. unfold section.
  assert (E : "    (" ++ key ++ newline ++ tabs 2 ++ body ++ newline ++ "    )" ++ newline = "    " ++ ("(" ++ (key ++ (newline ++ tabs 2) ++ (body ++ (newline ++ "    "))) ++ ")") ++ newline).
  { change "    (" with ("    " ++ "("). change "    )" with ("    " ++ ")"). rewrite !sapp_assoc. reflexivity. }
  rewrite E. apply reads_leads; [reflexivity|]. apply (reads_trails newline); [reflexivity|]. apply reads_bracket. apply (reads_gap (newline ++ tabs 2) key _ [A (TKey key)]); [discriminate|reflexivity|exact Hk|].
  apply reads_trails; [reflexivity|exact Hb].
Qed.
Lemma section_starts key body : starts (section key body) = true. Proof. reflexivity. Qed.
(** ** Sorts *)
Definition sort_ok (s : string) : Prop := s = "object" \/ legal_name s = true /\ s <> "real".
Lemma sort_facts s : sort_ok s -> pddl_type s = s /\ legal_type s = true /\ tarski_type s = s /\ is_numeric_root s = false /\ (s <> "object" -> legal_name s = true).
Proof.
  intros [-> |[H R]]; [repeat split; congruence|]. unfold legal_type. rewrite H. cbn [orb].
  assert (N : forall x, legal_name x = false -> String.eqb s x = false) by (intros x Hx; destruct (String.eqb s x) eqn:E; [apply String.eqb_eq in E; congruence|reflexivity]).
  unfold pddl_type, tarski_type, is_numeric_root. rewrite !N by (vm_compute; reflexivity). assert (E : String.eqb s "real" = false) by (destruct (String.eqb s "real") eqn:E; [apply String.eqb_eq in E; contradiction|reflexivity]). rewrite E, !N by (vm_compute; reflexivity). repeat split.
Qed.
Lemma sort_reads s : sort_ok s -> exists t, reads s [A t] /\ type_name t = Ok s /\ lower s = s.
Proof. intros H. apply type_reads. now apply sort_facts in H. Qed.
(** One typed name *)
Definition typed (np : string * string) (xs : list sexp) : Prop := exists t, xs = [A (TName (fst np)); A (TKey "-"); A t] /\ type_name t = Ok (snd np) /\ lower (fst np) = fst np.
Lemma typed_reads n p : legal_name n = true -> sort_ok p -> exists xs, reads (n ++ " - " ++ p) xs /\ typed (n, p) xs.
Proof.
  intros Hn Hp. destruct (sort_reads p Hp) as (t & T1 & T2 & T3). exists [A (TName n); A (TKey "-"); A t]. split; [|exists t; auto using legal_lower].
  change (n ++ " - " ++ p) with (n ++ " " ++ ("-" ++ " " ++ p)). apply (reads_space _ _ [A (TName n)]); [now apply name_reads|]. apply (reads_space _ _ [A (TKey "-")]); [key|exact T1].
Qed.
Lemma name_list_typed b nps xss : Forall2 typed nps xss -> forall r u t, name_list b [] r = Ok (u, t) -> name_list b [] (List.concat xss ++ r)%list = Ok (u, (nps ++ t)%list).
Proof.
  induction 1 as [|[n p] x nps xss (t0 & -> & Ht & Hl) _ IH]; intros r u t Hr; [exact Hr|]. cbn [List.concat app fst snd]. cbn [name_list app]. rewrite andb_comm. change (String.eqb "-" "object") with false. change (String.eqb "-" "-") with true. cbn [andb].
  cbn [fst snd] in Ht, Hl. rewrite Ht. cbn [bind]. rewrite (IH r u t Hr). cbn [bind map]. now rewrite Hl.
Qed.
Lemma types_trip l (ks : list string) : (forall n, In n ks -> legal_name n = true /\ n <> "real" /\ exists p, parent_of l n = Some p /\ sort_ok p) ->
  exists xs, reads (lines (map (print_type l) ks ++ ["object"])%list) xs /\ read_names true xs = Ok (map (fun n => (n, match parent_of l n with Some p => p | None => "" end)) ks).
Proof.
  intros H. assert (G : exists xss, Forall2 reads (map (print_type l) ks) xss /\ Forall2 typed (map (fun n => (n, match parent_of l n with Some p => p | None => "" end)) ks) xss).
  { induction ks as [|n ks IH]; [exists []; split; constructor|]. destruct IH as (xss & I1 & I2). { intros m Hm. apply H. now right. }
    destruct (H n (or_introl eq_refl)) as (Hn & Hr & p & Hp & Hs). destruct (typed_reads n p Hn Hs) as (x & X1 & X2). exists (x :: xss). cbn [map]. rewrite Hp. split; [|now constructor]. constructor; [|exact I1].
    assert (E : print_type l n = n ++ " - " ++ p); [|now rewrite E].
    unfold print_type. unfold parent_of in Hp. destruct (sget (l_parent l) n) as [[q|]|]; try discriminate. injection Hp as ->.
    assert (Hok : sort_ok n) by (right; auto). destruct (sort_facts n Hok) as (-> & _). destruct (sort_facts p Hs) as (-> & _). reflexivity. }
  destruct G as (xss & G1 & G2). exists (List.concat (xss ++ [[A (TKey "object")]])%list). split.
  - apply lines_reads. apply Forall2_app; [exact G1|]. constructor; [key|constructor].
  - unfold read_names. rewrite concat_app. cbn [List.concat app]. rewrite (name_list_typed true _ _ G2 [A (TKey "object")] [] []); [cbn [bind app]; now rewrite app_nil_r|reflexivity].
Qed.
(** ** Constants *)
Definition named (ns : list (string * sort)) : list (cname * sort) := map (fun c => (CStr (fst c), snd c)) ns.
Definition grouped (ns : list (string * sort)) : list (string * sort) :=
  flat_map (fun s => map (fun n => (n, s)) (sorted (map fst (filter (fun c => String.eqb (snd c) s) ns)))) (sorted (nodup string_dec (map snd ns))).
Lemma sorted_Permutation k : Permutation (sorted k) k.
Proof.
  assert (I : forall a k, Permutation (insert a k) (a :: k)) by (intros a k0; induction k0 as [|x k0 IH]; cbn [insert]; [reflexivity|]; destruct (String.leb a x); [reflexivity|]; rewrite IH; constructor).
  induction k as [|a k IH]; cbn [sorted]; [constructor|]. rewrite I. now constructor.
Qed.
Lemma grouped_In ns n s : In (n, s) (grouped ns) <-> In (n, s) ns.
Proof.
  unfold grouped. rewrite in_flat_map. split.
  - intros (s' & Hs & X). apply in_map_iff in X as (n' & E & X). injection E as -> ->. rewrite sorted_In in X. apply in_map_iff in X as ([n' s'] & E & X). cbn in E. subst n'. apply filter_In in X as [X E]. cbn in E. apply String.eqb_eq in E. now subst.
  - intros H. exists s. split; [apply sorted_In; apply nodup_In; now apply (in_map snd) in H|]. apply in_map_iff. exists n. split; [reflexivity|]. apply sorted_In. apply in_map_iff. exists (n, s). split; [reflexivity|]. apply filter_In. split; [exact H|apply String.eqb_refl].
Qed.
Lemma grouped_perm ns : NoDup ns -> Permutation ns (grouped ns).
Proof.
  intros N. apply NoDup_Permutation; [exact N| |intros [n s]; symmetry; apply grouped_In].
  unfold grouped. apply NoDup_flat_map.
  - eapply Permutation_NoDup; [apply Permutation_sym, sorted_Permutation|]. apply NoDup_nodup.
  - intros s _. apply FinFun.Injective_map_NoDup; [intros a b E; congruence|]. eapply Permutation_NoDup; [apply Permutation_sym, sorted_Permutation|]. apply NoDup_map_inj_in; [now apply NoDup_filter|].
    intros [a x] [b y] Ha Hb E. apply filter_In in Ha as [_ Ha]. apply filter_In in Hb as [_ Hb]. cbn in *. apply String.eqb_eq in Ha. apply String.eqb_eq in Hb. congruence.
  - intros a b [n s] _ _ X Y. apply in_map_iff in X as (? & X & _). apply in_map_iff in Y as (? & Y & _). congruence.
Qed.
Lemma named_of (cs : list (cname * sort)) : (forall c s, In (c, s) cs -> exists n, c = CStr n) -> exists ns, cs = named ns.
Proof.
  induction cs as [|[c s] cs IH]; intros H; [now exists []|]. destruct IH as [ns ->]; [intros c' s' X; apply (H c' s'); now right|]. destruct (H c s (or_introl eq_refl)) as [n ->]. now exists ((n, s) :: ns).
Qed.
Lemma name_list_names b pend ns r : name_list b pend (map (fun n => A (TName n)) ns ++ r)%list = name_list b (pend ++ map lower ns)%list r.
Proof. revert pend. induction ns as [|n ns IH]; intros pend; cbn [map app]; [now rewrite app_nil_r|]. cbn [name_list]. rewrite IH, <- app_assoc. reflexivity. Qed.
Lemma objects_trip ns : (forall n s, In (n, s) ns -> legal_name n = true /\ sort_ok s) ->
  exists text xs, print_objects (named ns) = Ok text /\ reads text xs /\ read_names false xs = Ok (grouped ns).
Proof.
  intros H. unfold print_objects.
  assert (M : mapM (fun c : cname * sort => match fst c with CStr n => Ok (n, snd c) | CInt _ => Err TypeError end) (named ns) = Ok ns).
  { clear H. unfold named. induction ns as [|[n s] ns IH]; [reflexivity|]. cbn [map]. rewrite mapM_cons. cbn [fst snd bind]. rewrite IH. reflexivity. }
  rewrite M. cbn [bind]. unfold grouped. set (ss := sorted (nodup string_dec (map snd ns))).
  assert (Hss : forall s, In s ss -> exists n, In (n, s) ns). { intros s Hs. unfold ss in Hs. rewrite sorted_In in Hs. apply nodup_In in Hs. apply in_map_iff in Hs as ([n s'] & E & Hs). cbn in E. subst. eauto. }
  assert (G : exists xss, Forall2 reads (map (fun s => join " " (sorted (map fst (filter (fun c => String.eqb (snd c) s) ns))) ++ " - " ++ s) ss) xss /\
    name_list false [] (List.concat xss) = Ok ([], flat_map (fun s => map (fun n => (n, s)) (sorted (map fst (filter (fun c => String.eqb (snd c) s) ns)))) ss)).
  { clearbody ss. induction ss as [|s ss IH]; [exists []; split; [constructor|reflexivity]|]. destruct IH as (xss & I1 & I2). { intros s' Hs'. apply Hss. now right. }
    destruct (Hss s (or_introl eq_refl)) as (n0 & Hn0). destruct (H n0 s Hn0) as [_ Hs]. destruct (sort_reads s Hs) as (t & T1 & T2 & T3).
    cbn [map flat_map]. set (xs := sorted (map fst (filter (fun c => String.eqb (snd c) s) ns))).
    assert (Hxs : forall n, In n xs -> legal_name n = true). { intros n Hn. unfold xs in Hn. rewrite sorted_In in Hn. apply in_map_iff in Hn as ([n' s'] & E & Hn). cbn in E. subst n'. apply filter_In in Hn as [Hn _]. now apply (H n s'). }
    assert (Hne : xs <> []). { intros E. assert (X : In n0 xs); [|now rewrite E in X]. apply sorted_In. apply in_map_iff. exists (n0, s). split; [reflexivity|]. apply filter_In. split; [exact Hn0|apply String.eqb_refl]. }
    clearbody xs. exists ((map (fun n => A (TName n)) xs ++ [A (TKey "-"); A t])%list :: xss). split.
    - cbn [map]. constructor; [|exact I1]. change (join " " xs ++ " - " ++ s) with (join " " xs ++ " " ++ ("-" ++ " " ++ s)). apply reads_space.
      + apply reads_join. clear -Hxs. induction xs as [|x xs IH]; cbn [map]; constructor; [apply name_reads, Hxs; now left|apply IH; intros; apply Hxs; now right].
      + apply (reads_space _ _ [A (TKey "-")]); [key|exact T1].
    - cbn [List.concat flat_map]. rewrite <- app_assoc, name_list_names. cbn [app name_list]. change (String.eqb "-" "-") with true. cbn [andb].
      assert (El : map lower xs = xs). { rewrite <- (map_id xs) at 2. apply map_ext_in. intros n Hn. apply legal_lower, Hxs, Hn. }
      rewrite El. destruct xs as [|x0 xs]; [congruence|]. rewrite T2. cbn [bind]. rewrite I2. cbn [bind]. reflexivity. }
  destruct G as (xss & G1 & G2). eexists. exists (List.concat xss). split; [reflexivity|]. split; [apply lines_reads; exact G1|]. unfold read_names. rewrite G2. reflexivity.
Qed.
