(** C82: reading atoms and models from texts. *)
From Coq Require Import Ascii.
From Verif Require Import ListUtil Base Syntax SemLemmas ModelState ModelText ModelProofs Lang LangSpec LangProofs LangProofs2 LangProofs3 FormulaText ParseAtom ParseAtomSpec ParseAtomProofs PropsModel PropsLang.
#[local] Open Scope string_scope.

(** A text is read as one list of words. *)
Theorem C82_words s : exists n cs, reads s (n :: cs) /\ forall ws, reads s ws -> ws = n :: cs.
Proof.
  destruct (fields s) as [|n cs] eqn:E.
  - exfalso. unfold fields in E. apply map_eq_nil in E. exact (split_nonempty _ E).
  - exists n, cs. split; [apply reads_fields; exact E|]. intros ws H. apply reads_fields in H. congruence.
Qed.

Lemma get_const l c t : inv_index l -> (get_argument l c = Ok (FTerm t) <-> constant_named l c t).
Proof.
  intros I. unfold get_argument, constant_named, lget. destruct (dget cname_eqb (l_index l) (CStr c)) as [e|] eqn:E.
  - cbn [bind]. assert (D := proj1 (ii_spec l I _ _) E). split.
    + destruct e as [s|p ts|f ts|k s]; try (intros H; discriminate H). destruct D as [<- _]. destruct (dget cname_eqb (l_consts l) (CStr c)) as [[sym r]|] eqn:G; intros H; [|discriminate H]. exists sym, r. split; [|congruence]. exact (dget_In cname_eqb cname_eqb_eq _ _ _ G).
    + intros (sym & s & H & ->). assert (D' : defined_as l (CStr c) (EConst (CStr c) s)). { split; [reflexivity|]. exists sym. exact H. } apply (ii_spec l I) in D'. assert (e = EConst (CStr c) s) by congruence. subst e. apply (dget_Some_In cname_eqb cname_eqb_eq (l_consts l) (CStr c) (sym, s) (ii_consts l I)) in H. rewrite H. reflexivity.
  - cbn [bind]. split; [intros H; discriminate H|]. intros (sym & s & H & ->). exfalso. apply (not_defined l (CStr c) I E (EConst (CStr c) s)). split; [reflexivity|]. exists sym. exact H.
Qed.
Lemma check_sound n l args ss ts : inv_tree l -> check_arguments n l args ss = Ok ts -> List.length args = List.length ss -> Forall2 (fun a t => a = FTerm t) args ts /\ Forall2 (conforms l) ts ss.
Proof.
  intros I. revert ss ts. induction args as [|a args IH]; intros ss ts E L; destruct ss as [|s ss]; try discriminate L; cbn [check_arguments] in E.
  - injection E as <-. split; constructor.
  - destruct a as [[x r|c r|f us|f u v]|]; try discriminate E. destruct (is_subtype n l r s) as [l' b] eqn:S. cbn [snd] in E. destruct b as [b|e]; cbn [bind] in E; [|discriminate E]. destruct b; [|discriminate E]. destruct (check_arguments n l args ss) as [us|e] eqn:R; cbn [bind] in E; [|discriminate E]. injection E as <-.
    destruct (IH ss us R ltac:(cbn in L; lia)) as [F G]. split; constructor; try assumption; [reflexivity|]. exists c, r. split; [reflexivity|]. destruct (subtype_sound n l r s l' (Ok true) I S) as (_ & X & _). apply (X true eq_refl). reflexivity.
Qed.
Lemma le_sort l r s : inv_tree l -> is_sort l r -> le l r s -> is_sort l s.
Proof. intros I R [<-|A]; [exact R|]. clear R. induction A as [r p E|r p s E A IH]; [exact (it_parent l I _ _ E)|exact IH]. Qed.
Lemma check_complete l args ts ss : inv_tree l -> Forall2 (fun a t => a = FTerm t) args ts -> Forall2 (conforms l) ts ss -> Forall (fun t => forall c r, t = Cst c r -> is_sort l r) ts ->
  exists n0, forall n, n0 <= n -> check_arguments n l args ss = Ok ts.
Proof.
  intros I F. revert ss. induction F as [|a t args ts -> F IH]; intros ss G S; inversion G as [|? s ? ss' (c & r & -> & C) G']; subst; [exists 0; intros n _; reflexivity|]. inversion S as [|? ? S1 S2]; subst. assert (R := S1 c r eq_refl).
  destruct (IH ss' G' S2) as [n1 H1]. destruct (subtype_complete l r s I R (le_sort l r s I R C)) as [n2 H2]. exists (n1 + n2). intros n L. cbn [check_arguments]. destruct (H2 n ltac:(lia)) as [b B]. destruct (is_subtype n l r s) as [l' q] eqn:Q. cbn [snd] in *. subst q. destruct (subtype_sound n l r s l' (Ok b) I Q) as (_ & X & _). assert (b = true) by (apply (X b eq_refl); exact C). subst b. cbn [bind]. rewrite (H1 n ltac:(lia)). reflexivity.
Qed.
Section Reachable.
Variables (parse : bool -> string -> option Z) (ops : list lop).
Hypothesis Hn : forallb native ops = true.
Let l := lrun parse ops.
Lemma l_tree : inv_tree l. Proof. exact (lrun_tree parse ops Hn). Qed.
Lemma l_index_ : inv_index l. Proof. exact (lrun_index parse ops). Qed.
(** Whatever is read is what the text says: the predicate and the constants that the language has under the words, in order, with the right number and sorts. *)
Theorem C82_sound fuel s q args : parse_atom fuel l s = Ok (q, args) ->
  exists n cs ts, reads s (n :: cs) /\ defined_as l (CStr n) (EPred n ts) /\ q = PU n ts /\ Forall2 (constant_named l) cs args /\ Forall2 (conforms l) args ts.
Proof.
  unfold parse_atom. destruct (fields s) as [|n cs] eqn:E; [discriminate|]. intros H. destruct (lget l (CStr n)) as [e|x] eqn:G; cbn [bind] in H; [|discriminate H]. destruct (mapM (get_argument l) cs) as [fs|x] eqn:M; cbn [bind] in H; [|discriminate H].
  apply (C16_lookup parse ops (CStr n) e) in G. fold l in G. destruct e as [r|p ts|f ts|k r]; try discriminate H. destruct (Nat.eqb_spec (List.length fs) (List.length ts)) as [L|L]; [|discriminate H]. destruct (check_arguments fuel l fs ts) as [us|x] eqn:C; cbn [bind] in H; [|discriminate H].
  assert (q = PU p ts /\ args = us) as [-> ->] by (split; congruence). destruct (check_sound fuel l fs ts us l_tree C L) as [F1 F2]. assert (p = n) by (destruct G as [G _]; congruence). subst p. exists n, cs, ts. split; [apply reads_fields; exact E|]. split; [exact G|]. split; [reflexivity|]. split; [|exact F2].
  apply mapM_Forall2 in M. clear - M F1. revert us F1. induction M as [|c f cs fs Hc M IH]; intros us F1; inversion F1 as [|? t ? ts' -> F1']; subst; constructor; [apply (get_const l c t l_index_); exact Hc|]. apply IH. exact F1'.
Qed.
(** And everything that the text can say is read. *)
Theorem C82_complete s n cs ts args : reads s (n :: cs) -> defined_as l (CStr n) (EPred n ts) -> Forall2 (constant_named l) cs args -> Forall2 (conforms l) args ts ->
  exists n0, forall fuel, n0 <= fuel -> parse_atom fuel l s = Ok (PU n ts, args).
Proof.
  intros R D F G. apply reads_fields in R. apply (C16_lookup parse ops) in D. fold l in D.
  assert (M : mapM (get_argument l) cs = Ok (map FTerm args)). { apply mapM_Forall2. clear - F. induction F as [|c t cs args H F IH]; cbn [map]; constructor; [apply (get_const l c t l_index_); exact H|exact IH]. }
  assert (S : Forall (fun t => forall c r, t = Cst c r -> is_sort l r) args). { clear - F Hn. induction F as [|c t cs args (sym & r & H & ->) F IH]; constructor; [|exact IH]. intros c' r' E. assert (r' = r) by congruence. subst r'. apply (it_const l l_tree (CStr c)). exists sym. exact H. }
  assert (A : Forall2 (fun a t => a = FTerm t) (map FTerm args) args). { clear. induction args as [|t args IH]; constructor; [reflexivity|exact IH]. }
  destruct (check_complete l (map FTerm args) args ts l_tree A G S) as [n0 H]. exists n0. intros fuel L. unfold parse_atom. rewrite R, D. cbn [bind]. rewrite M. cbn [bind]. rewrite map_length. assert (Len : List.length args = List.length ts) by (clear - G; induction G; cbn; congruence). rewrite Len, Nat.eqb_refl. rewrite (H fuel L). reflexivity.
Qed.
(** Failures: a word that the language does not have, a number of arguments that is not that of the predicate *)
Theorem C82_undefined fuel s n cs w : reads s (n :: cs) -> In w (n :: cs) -> (forall e, ~ defined_as l (CStr w) e) -> parse_atom fuel l s = Err UndefinedElement.
Proof.
  intros R Iw U. apply reads_fields in R. unfold parse_atom. rewrite R.
  assert (G : forall c, (forall e, ~ defined_as l (CStr c) e) -> lget l (CStr c) = Err UndefinedElement). { intros c V. unfold lget. destruct (dget cname_eqb (l_index l) (CStr c)) as [e|] eqn:Q; [|reflexivity]. exfalso. apply (V e). apply (ii_spec l l_index_). exact Q. }
  assert (X : forall c, lget l (CStr c) = Err UndefinedElement \/ exists e, lget l (CStr c) = Ok e). { intros c. unfold lget. destruct (dget cname_eqb (l_index l) (CStr c)) as [e|]; [right; exists e; reflexivity|left; reflexivity]. }
  destruct Iw as [<-|Iw]; [rewrite (G n U); reflexivity|]. destruct (X n) as [-> |[e ->]]; [reflexivity|]. cbn [bind].
  assert (M : mapM (get_argument l) cs = Err UndefinedElement). { clear R. induction cs as [|c cs IH]; [contradiction|]. cbn [mapM]. destruct Iw as [<-|Iw]. { unfold get_argument. rewrite (G c U). reflexivity. }
    destruct (get_argument l c) as [y|x] eqn:Y; [rewrite (IH Iw); reflexivity|]. unfold get_argument in Y. destruct (X c) as [Z|[e' Z]]; rewrite Z in Y; cbn [bind] in Y; [congruence|]. destruct e' as [r|p ts|f ts|k r]; try discriminate Y. destruct (dget cname_eqb (l_consts l) k) as [[sym r']|] eqn:Q; [discriminate Y|]. exfalso. apply (C16_lookup parse ops) in Z. fold l in Z. destruct Z as [_ [sym Z]]. apply (dget_Some_In cname_eqb cname_eqb_eq (l_consts l) k (sym, r) (ii_consts l l_index_)) in Z. congruence. }
  rewrite M. reflexivity.
Qed.
Theorem C82_arity fuel s n cs ts args : reads s (n :: cs) -> defined_as l (CStr n) (EPred n ts) -> Forall2 (constant_named l) cs args -> List.length args <> List.length ts -> parse_atom fuel l s = Err ArityMismatch.
Proof.
  intros R D F L. apply reads_fields in R. apply (C16_lookup parse ops) in D. fold l in D.
  assert (M : mapM (get_argument l) cs = Ok (map FTerm args)). { apply mapM_Forall2. clear - F. induction F as [|c t cs args H F IH]; cbn [map]; constructor; [apply (get_const l c t l_index_); exact H|exact IH]. }
  unfold parse_atom. rewrite R, D. cbn [bind]. rewrite M. cbn [bind]. rewrite map_length. destruct (Nat.eqb_spec (List.length args) (List.length ts)); [contradiction|reflexivity].
Qed.
(** The text of a ground atom with arguments (C81) is read as the atom, if its constants are registered under their texts. *)
Lemma word_opened w s s' : word w -> opened s s' -> opened (w ++ s) (w ++ s').
Proof. intros W O. induction w as [|c w IH]; [exact O|]. destruct W as [W1 W2]. cbn [append]. apply opened_other; [exact (proj1 (proj2 (proj2 W1)))|exact (IH W2)]. Qed.
Lemma word_padded w : word w -> padded w w.
Proof.
  intros W. split; [|split].
  - destruct w; [exact (fun H => H)|]. destruct W as [W _]. exact (proj1 W).
  - induction w as [|c w IH]; [exact (fun H => H)|]. destruct W as [W1 W2]. destruct w; [exact (proj1 W1)|]. exact (IH W2).
  - exists "", "". rewrite s_nil. split; [reflexivity|]. split; exact I.
Qed.
Lemma words_join ws : Forall word ws -> opened (join "," ws ++ ")") (separated ws ++ ")").
Proof.
  assert (C : opened ")" ")") by (constructor; [discriminate|constructor]).
  induction ws as [|w ws IH]; intros F; [exact C|]. inversion F as [|? ? F1 F2]; subst. destruct ws as [|x ws]; [exact (word_opened w _ _ F1 C)|]. change (opened ((w ++ "," ++ join "," (x :: ws)) ++ ")") ((w ++ "," ++ separated (x :: ws)) ++ ")")). rewrite !s_assoc. apply (word_opened w _ _ F1). cbn [append]. constructor; [discriminate|exact (IH F2)].
Qed.
Lemma words_end ws : ws <> [] -> Forall word ws -> forall x, last ws "x" <> "" -> ends x (separated ws) <-> ends x (last ws "x").
Proof.
  intros N F x L. induction ws as [|w ws IH]; [congruence|]. destruct ws as [|y ws]; [reflexivity|]. inversion F as [|? ? F1 F2]; subst. change (separated (w :: y :: ws)) with (w ++ "," ++ separated (y :: ws)). change (last (w :: y :: ws) "x") with (last (y :: ws) "x") in *. rewrite ends_app by discriminate. change ("," ++ separated (y :: ws)) with (String "," (separated (y :: ws))). rewrite ends_cons; [exact (IH ltac:(discriminate) F2 L)|]. intros Q. clear - Q L. destruct ws as [|z ws]; [cbn in *; congruence|]. destruct y; discriminate Q.
Qed.
Lemma written_reads n cs : word n -> n <> "" -> cs <> [] -> Forall word cs -> Forall (fun c => c <> "") cs -> reads (n ++ "(" ++ join "," cs ++ ")") (n :: cs).
Proof.
  intros W N Nc F Fe. exists (separated (n :: cs) ++ ")"), (n :: cs), ")". split.
  - destruct cs as [|c cs]; [congruence|]. change (separated (n :: c :: cs)) with (n ++ "," ++ separated (c :: cs)). rewrite !s_assoc. apply (word_opened n _ _ W). cbn [append]. constructor. exact (words_join (c :: cs) F).
  - split; [reflexivity|]. split; [split; [reflexivity|exact I]|]. assert (Fw : Forall word (n :: cs)) by (constructor; assumption). assert (Fa : Forall (fun c => c <> "") (n :: cs)) by (constructor; assumption). split.
    + assert (Il : In (last (n :: cs) "x") (n :: cs)). { clear. generalize n. induction cs as [|c r IH]; intros m; [left; reflexivity|]. right. exact (IH c). }
      rewrite Forall_forall in Fa. rewrite words_end; [|discriminate|exact Fw|exact (Fa _ Il)]. rewrite Forall_forall in Fw. specialize (Fw _ Il). clear - Fw. induction (last (n :: cs) "x") as [|c w IH]; [exact (fun H => H)|]. destruct Fw as [W1 W2]. destruct w; [exact (proj2 (proj2 (proj2 W1)))|exact (IH W2)].
    + split; [discriminate|]. split.
      * eapply Forall_impl; [|exact Fw]. intros w Ww. clear - Ww. induction w as [|c w IH]; [exact I|]. destruct Ww as [W1 W2]. split; [exact (proj1 (proj2 W1))|exact (IH W2)].
      * clear - Fw. induction Fw; constructor; [apply word_padded; assumption|assumption].
Qed.
Theorem C82_roundtrip n ts args : defined_as l (CStr n) (EPred n ts) -> word n -> n <> "" -> args <> [] -> Forall (under_its_text l) args -> Forall2 (conforms l) args ts ->
  exists n0, forall fuel, n0 <= fuel -> parse_atom fuel l (form_text (Atom (PU n ts) args)) = Ok (PU n ts, args).
Proof.
  intros D W N Na U G. assert (Q : Forall2 (constant_named l) (map term_text args) args /\ Forall word (map term_text args) /\ Forall (fun c => c <> "") (map term_text args)).
  { clear - U. induction U as [|t args (c & C & E & W & N) U (I1 & I2 & I3)]; cbn [map]; [split; [constructor|split; constructor]|]. rewrite E. split; [constructor; assumption|split; constructor; assumption]. }
  destruct Q as (Q1 & Q2 & Q3). apply (C82_complete _ n (map term_text args) ts args); try assumption. cbn [form_text pred_text]. apply written_reads; try assumption. destruct args; [congruence|discriminate].
Qed.
End Reachable.

(** ** Models *)
Lemma check_same fuel l args ts ss : check_arguments fuel l args ss = Ok ts -> List.length args = List.length ss -> check_assignment (subtype fuel l) ss ts = Ok tt.
Proof.
  intros E L. assert (X : List.length ts = List.length ss /\ check_sorts (subtype fuel l) ts ss = Ok tt).
  { revert ss ts E L. induction args as [|a args IH]; intros ss ts E L; destruct ss as [|s ss]; try discriminate L; cbn [check_arguments] in E; [injection E as <-; split; reflexivity|].
    destruct a as [[x r|c r|f us|f u v]|]; try discriminate E. destruct (snd (is_subtype fuel l r s)) as [b|e] eqn:S; cbn [bind] in E; [|discriminate E]. destruct b; [|discriminate E]. destruct (check_arguments fuel l args ss) as [us|e] eqn:R; cbn [bind] in E; [|discriminate E]. injection E as <-.
    destruct (IH ss us R ltac:(cbn in L; lia)) as [I1 I2]. split; [cbn; congruence|]. cbn [check_sorts ModelState.sort_of]. unfold subtype at 1. rewrite S. exact I2. }
  destruct X as [X1 X2]. unfold check_assignment. rewrite X1, Nat.eqb_refl. exact X2.
Qed.
Lemma atom_addable fuel l s q args m : parse_atom fuel l s = Ok (q, args) -> exists m', m_add (subtype fuel l) m q args = Ok m'.
Proof.
  unfold parse_atom. destruct (fields s) as [|n cs]; [discriminate|]. intros H. destruct (lget l (CStr n)) as [e|x]; cbn [bind] in H; [|discriminate H]. destruct (mapM (get_argument l) cs) as [fs|x]; cbn [bind] in H; [|discriminate H]. destruct e as [r|p ts|f ts|k r]; try discriminate H. destruct (Nat.eqb_spec (List.length fs) (List.length ts)) as [L|L]; [|discriminate H]. destruct (check_arguments fuel l fs ts) as [us|x] eqn:C; cbn [bind] in H; [|discriminate H].
  assert (q = PU p ts /\ args = us) as [-> ->] by (split; congruence). unfold m_add. rewrite (check_same fuel l fs us ts C L). cbn [bind]. eexists. reflexivity.
Qed.
Lemma atoms_hold fuel l texts : forall m m', parse_atoms fuel l m texts = Ok m' -> (forall q a, m_holds m' q a = true <-> m_holds m q a = true \/ exists s, In s texts /\ parse_atom fuel l s = Ok (q, a)) /\ (forall f a, m_value m' f a = m_value m f a).
Proof.
  induction texts as [|s texts IH]; intros m m' H; cbn [parse_atoms] in H.
  - injection H as <-. split; [|reflexivity]. intros q a. split; [intros H; left; exact H|]. intros [H|(s & [] & _)]. exact H.
  - destruct (parse_atom fuel l s) as [[p args]|x] eqn:E; cbn [bind fst snd] in H; [|discriminate H]. destruct (m_add (subtype fuel l) m p args) as [m1|x] eqn:A; cbn [bind] in H; [|discriminate H]. destruct (IH m1 m' H) as [I1 I2]. destruct (C14_add_frame _ _ _ _ _ A) as (A1 & A2 & A3). split; [|intros f a; rewrite I2; apply A3].
    intros q a. rewrite I1. split.
    + intros [Hm|(s' & I' & E')]; [|right; exists s'; split; [right; exact I'|exact E']]. destruct (psym_eq_dec p q) as [<-|Nq]. 2: { left. rewrite <- (A2 q a); [exact Hm|]. intros Q. apply Nq. congruence. }
      destruct (points_eqb args a) eqn:P. { apply points_eqb_eq in P. subst a. right. exists s. split; [left; reflexivity|exact E]. } left. rewrite <- (A2 p a); [exact Hm|]. intros Q. assert (args = a) by congruence. subst a. rewrite (proj2 (points_eqb_eq args args) eq_refl) in P. discriminate P.
    + intros [Hm|(s' & [<-|I'] & E')].
      * left. destruct (psym_eq_dec p q) as [<-|Nq]. 2: { rewrite (A2 q a); [exact Hm|]. intros Q. apply Nq. congruence. } destruct (points_eqb args a) eqn:P; [apply points_eqb_eq in P; subst a; exact A1|]. rewrite (A2 p a); [exact Hm|]. intros Q. assert (args = a) by congruence. subst a. rewrite (proj2 (points_eqb_eq args args) eq_refl) in P. discriminate P.
      * left. assert (p = q /\ args = a) as [-> ->] by (split; congruence). exact A1.
      * right. exists s'. split; assumption.
Qed.
(** The model that is read has exactly the atoms of the texts, in any order and number, and no values of functions. *)
Theorem C82_model fuel l texts m : parse_model fuel l texts = Ok m -> (forall q a, m_holds m q a = true <-> exists s, In s texts /\ parse_atom fuel l s = Ok (q, a)) /\ (forall f a, m_value m f a = Err KeyError).
Proof.
  intros H. destruct (atoms_hold fuel l texts empty_model m H) as [H1 H2]. split; [|intros f a; rewrite H2; reflexivity]. intros q a. rewrite H1. split; [|intros E; right; exact E]. intros [E|E]; [|exact E]. discriminate E.
Qed.
(** It is read exactly if each text is read as an atom. *)
Theorem C82_model_succeeds fuel l texts : (exists m, parse_model fuel l texts = Ok m) <-> Forall (fun s => exists q a, parse_atom fuel l s = Ok (q, a)) texts.
Proof.
  unfold parse_model. generalize empty_model. induction texts as [|s texts IH]; intros m0; cbn [parse_atoms].
  - split; [constructor|]. intros _. exists m0. reflexivity.
  - split.
    + intros [m H]. destruct (parse_atom fuel l s) as [[q a]|x] eqn:E; cbn [bind fst snd] in H; [|discriminate H]. destruct (m_add (subtype fuel l) m0 q a) as [m1|x]; cbn [bind] in H; [|discriminate H]. constructor; [exists q, a; exact E|]. apply (IH m1). exists m. exact H.
    + intros F. inversion F as [|? ? (q & a & E) F']; subst. rewrite E. cbn [bind fst snd]. destruct (atom_addable fuel l s q a m0 E) as [m1 ->]. cbn [bind]. apply (IH m1). exact F'.
Qed.
(** A set of ground atoms survives being written and read. *)
Definition writable_atom (l : lang) (qa : psym * list term) : Prop :=
  exists n ts, fst qa = PU n ts /\ defined_as l (CStr n) (EPred n ts) /\ word n /\ n <> "" /\ snd qa <> [] /\ Forall (under_its_text l) (snd qa) /\ Forall2 (conforms l) (snd qa) ts.
Theorem C82_model_roundtrip parse ops atoms : forallb native ops = true -> let l := lrun parse ops in Forall (writable_atom l) atoms ->
  exists n0, forall fuel, n0 <= fuel -> exists m, parse_model fuel l (map (fun qa => form_text (Atom (fst qa) (snd qa))) atoms) = Ok m /\ (forall q a, m_holds m q a = true <-> In (q, a) atoms).
Proof.
  intros Hn l F. assert (X : exists n0, forall fuel, n0 <= fuel -> Forall (fun qa => parse_atom fuel l (form_text (Atom (fst qa) (snd qa))) = Ok qa) atoms).
  { induction F as [|[q a] atoms (n & ts & E & D & W & N & Na & U & G) F [n1 IH]]; [exists 0; intros; constructor|]. cbn [fst snd] in *. subst q. destruct (C82_roundtrip parse ops Hn n ts a D W N Na U G) as [n2 H]. exists (n1 + n2). intros fuel L. constructor; [apply H; lia|apply IH; lia]. }
  destruct X as [n0 X]. exists n0. intros fuel L. specialize (X fuel L). destruct (proj2 (C82_model_succeeds fuel l (map (fun qa => form_text (Atom (fst qa) (snd qa))) atoms))) as [m M].
  - apply Forall_forall. intros s I. apply in_map_iff in I as ([q a] & <- & I). rewrite Forall_forall in X. exists q, a. exact (X (q, a) I).
  - exists m. split; [exact M|]. intros q a. rewrite (proj1 (C82_model fuel l _ m M) q a). rewrite Forall_forall in X. split.
    + intros (s & I & E). apply in_map_iff in I as (qa & <- & I). rewrite (X qa I) in E. assert (qa = (q, a)) by congruence. subst qa. exact I.
    + intros I. exists (form_text (Atom q a)). split; [apply in_map_iff; exists (q, a); split; [reflexivity|exact I]|]. exact (X (q, a) I).
Qed.

(** ** Concrete cases *)
Definition bw : list lop := [OSort "block" None; OSort "place" None; OArith; OInterval "digit" "Natural" 0 9; OPred "on" ["block"; "object"]; OPred "empty" []; OPred "high" ["digit"]; OConst (CStr "b1") "block"; OConst (CStr "b2") "block"; OConst (CStr "table") "place"; OConst (CInt 3) "digit"; OConst (CStr "7") "digit"].
Definition bw_parse (real : bool) (s : string) : option Z := if String.eqb s "7" then Some 7%Z else None.
Definition bwl : lang := Eval vm_compute in lrun bw_parse bw.
Lemma bwl_run : lrun bw_parse bw = bwl. Proof. vm_compute. reflexivity. Qed.
Example C82_nonvacuous : parse_atom 20 bwl " on( b1 ,table)" = Ok (PU "on" ["block"; "object"], [Cst (CStr "b1") "block"; Cst (CStr "table") "place"])
  /\ (exists m, parse_model 20 bwl ["on(b1, b2)"; "on(b2, table)"; "on(b1,b2)"; "high(7)"] = Ok m /\ m_holds m (PU "on" ["block"; "object"]) [Cst (CStr "b1") "block"; Cst (CStr "b2") "block"] = true /\ m_holds m (PU "high" ["digit"]) [Cst (CInt 7) "digit"] = true)
  /\ writable_atom bwl (PU "on" ["block"; "object"], [Cst (CStr "b1") "block"; Cst (CStr "table") "place"]).
Proof.
  split; [vm_compute; reflexivity|]. split.
  - destruct (parse_model 20 bwl ["on(b1, b2)"; "on(b2, table)"; "on(b1,b2)"; "high(7)"]) as [m|e] eqn:E; [|vm_compute in E; discriminate E]. exists m. split; [reflexivity|]. vm_compute in E. injection E as <-. split; vm_compute; reflexivity.
  - exists "on", ["block"; "object"]. split; [reflexivity|]. split; [cbn; tauto|].
    assert (Ww : forall s, forallb (fun c => negb (blank c) && negb (Ascii.eqb c ",") && negb (Ascii.eqb c "(") && negb (Ascii.eqb c ")")) (list_ascii_of_string s) = true -> word s).
    { induction s as [|c s IH]; intros H; [exact I|]. cbn [list_ascii_of_string forallb] in H. apply andb_true_iff in H as [H1 H2]. split; [|exact (IH H2)]. rewrite !andb_true_iff, !negb_true_iff in H1. destruct H1 as [[[B C] D] E]. rewrite <- blank_white. apply Ascii.eqb_neq in C, D, E. split; [congruence|]. split; [exact C|]. split; [exact D|exact E]. }
    split; [apply Ww; reflexivity|]. split; [discriminate|]. split; [discriminate|]. split.
    + constructor; [|constructor; [|constructor]].
      * exists "b1". split; [exists (CStr "b1"), "block"; split; [cbn; tauto|reflexivity]|]. split; [reflexivity|]. split; [apply Ww; reflexivity|discriminate].
      * exists "table". split; [exists (CStr "table"), "place"; split; [cbn; tauto|reflexivity]|]. split; [reflexivity|]. split; [apply Ww; reflexivity|discriminate].
    + constructor; [exists (CStr "b1"), "block"; split; [reflexivity|left; reflexivity]|]. constructor; [exists (CStr "table"), "place"; split; [reflexivity|right; apply anc_parent; reflexivity]|]. constructor.
Qed.
(** Known limits. The text of an atom without arguments is not read (its name alone is); a constant that was declared with a number is not found; white space after the last parenthesis is an error; parentheses may be missing, or commas. *)
Theorem C82_nullary_refuted : exists ops p, forallb native ops = true /\ let l := lrun bw_parse ops in defined_as l (CStr p) (EPred p []) /\ (forall fuel, parse_atom fuel l (form_text (Atom (PU p []) [])) = Err UndefinedElement) /\ (forall fuel, parse_atom fuel l p = Ok (PU p [], [])).
Proof. exists bw, "empty". split; [reflexivity|]. rewrite bwl_run. cbv zeta. split; [cbn; tauto|]. split; intros fuel; reflexivity. Qed.
Theorem C82_numbers_refuted : exists ops a, forallb native ops = true /\ let l := lrun bw_parse ops in (exists p ts c s, a = Atom (PU p ts) [Cst c s] /\ defined_as l (CStr p) (EPred p ts) /\ defined_as l c (EConst c s)) /\ forall fuel, parse_atom fuel l (form_text a) = Err UndefinedElement.
Proof. exists bw, (Atom (PU "high" ["digit"]) [Cst (CInt 3) "digit"]). split; [reflexivity|]. rewrite bwl_run. cbv zeta. split; [|intros fuel; reflexivity]. exists "high", ["digit"], (CInt 3), "digit". split; [reflexivity|]. split; [cbn; tauto|]. split; [reflexivity|]. exists (CInt 3). cbn. tauto. Qed.
Theorem C82_layout_refuted : exists ops, forallb native ops = true /\ let l := lrun bw_parse ops in
  parse_atom 20 l "on(b1, b2) " = Err UndefinedElement /\ parse_atom 20 l "on(b1, b2" = parse_atom 20 l "on(b1, b2)" /\ parse_atom 20 l "on, b1(b2)))" = parse_atom 20 l "on(b1, b2)" /\ exists a, parse_atom 20 l "on(b1, b2)" = Ok a.
Proof. exists bw. split; [reflexivity|]. rewrite bwl_run. cbv zeta. split; [vm_compute; reflexivity|]. split; [vm_compute; reflexivity|]. split; [vm_compute; reflexivity|]. exists (PU "on" ["block"; "object"], [Cst (CStr "b1") "block"; Cst (CStr "b2") "block"]). vm_compute. reflexivity. Qed.
