(** C80: The file written for the CSP of an action schema says what the CSP says *)
From Coq Require Import Ascii.
From Verif Require Import ListUtil Base Syntax SemLemmas FolSpec ModelState ModelProofs ModelText Eval SasText SasTextProofs Represent ProgressSpec RelaxSpec QElim Subst Effects Index Grounding GroundingSpec PropsGrounding PropsGround NegBuiltin Simplify SimplifySpec Lang LangSpec SortIds Asp CspSchema CspSchemaSpec CspSchemaProofs PropsCspSchema CspText CspTextSpec CspTextProofs.
#[local] Open Scope string_scope.
#[local] Open Scope list_scope.

Lemma position_ok v l i : position v l = Ok i -> exists w, nth_error l i = Some w /\ svar_eqb v w = true.
Proof.
  revert i. induction l as [|w l IH]; intros i H; [discriminate|]. cbn [position] in H. destruct (svar_eqb v w) eqn:E; [injection H as <-; exists w; split; [reflexivity|exact E]|].
  destruct (position v l) as [j|]; [|discriminate]. injection H as <-. exact (IH j eq_refl).
Qed.
Lemma position_err v l : match position v l with Ok _ => existsb (svar_eqb v) l = true | Err e => e = KeyError /\ existsb (svar_eqb v) l = false end.
Proof. induction l as [|w l IH]; [split; reflexivity|]. cbn [position existsb]. destruct (svar_eqb v w); [reflexivity|]. destruct (position v l); exact IH. Qed.
Lemma named_map ys : mapM CspText.named (map Some ys) = Ok ys.
Proof. induction ys as [|y ys IH]; [reflexivity|]. cbn [map]. rewrite mapM_cons. cbn [CspText.named bind]. rewrite IH. reflexivity. Qed.
Lemma symbol_table e n : symbol_of e n -> table_symbol e = n.
Proof. destruct e as [[| |[]|]|[| |[]| |]]; cbn; intros H; try destruct H; congruence. Qed.
Lemma one_constraint svs c ls : writable_constraint c -> constraint_lines svs c = Ok ls -> exists d, condition_of svs c d /\ good_condition d /\ ls = wcond d.
Proof.
  destruct c as [e xs neg|e value|x y rel]; intros W H.
  - destruct W as [(n & Sn & Wn) (ys & -> & Wy)]. cbn [constraint_lines] in H. rewrite named_map in H. cbn [bind] in H. injection H as <-. rewrite (symbol_table e n Sn). exists (DTable n neg ys). split; [split; [exact Sn|split; reflexivity]|]. split; [split; assumption|reflexivity].
  - destruct W as (p & ts & ->). cbn [constraint_lines] in H. destruct (position (SymP p, ts) svs) as [i|] eqn:E; [|discriminate]. cbn [bind] in H. injection H as <-. exists (DState i value). split; [split; [reflexivity|exact (position_ok _ _ _ E)]|]. split; [exact I|reflexivity].
  - destruct W as ((x' & -> & Wx) & (y' & -> & Wy) & Wr). cbn [constraint_lines maybe] in H. injection H as <-. exists (DRel x' rel y'). split; [split; [reflexivity|split; reflexivity]|]. split; [split; [exact Wx|split; [exact Wr|exact Wy]]|reflexivity].
Qed.
Lemma all_constraints svs cs : Forall writable_constraint cs -> forall ls, mapM (constraint_lines svs) cs = Ok ls -> exists ds, Forall2 (condition_of svs) cs ds /\ Forall good_condition ds /\ List.concat ls = flat_map wcond ds.
Proof.
  induction 1 as [|c cs W F IH]; intros ls H; [injection H as <-; exists []; split; [constructor|split; [constructor|reflexivity]]|].
  rewrite mapM_cons in H. destruct (constraint_lines svs c) as [l1|] eqn:E1; [|discriminate]. cbn [bind] in H. destruct (mapM (constraint_lines svs) cs) as [l2|] eqn:E2; [|discriminate]. cbn [bind] in H. injection H as <-.
  destruct (one_constraint svs c l1 W E1) as (d & A & B & ->). destruct (IH l2 eq_refl) as (ds & A2 & B2 & C2). exists (d :: ds). split; [constructor; assumption|]. split; [constructor; assumption|]. cbn [List.concat flat_map]. rewrite C2. reflexivity.
Qed.
Lemma all_relevant ts : Forall (fun t => exists x s, t = Var x s /\ one_word x) ts -> exists xs, Forall2 (fun t x => exists s, t = Var x s) ts xs /\ Forall one_word xs /\ map parameter_text ts = xs /\ List.length ts = List.length xs.
Proof.
  induction 1 as [|t ts (x & s & -> & W) F IH]; [exists []; split; [constructor|split; [constructor|split; reflexivity]]|]. destruct IH as (xs & A & B & C & D). exists (x :: xs). split; [constructor; [exists s; reflexivity|exact A]|]. split; [constructor; assumption|]. split; [cbn [map parameter_text]; rewrite C; reflexivity|cbn; rewrite D; reflexivity].
Qed.
Lemma flat_map_single {A} (l : list A) (f : A -> string) : flat_map (fun x => [f x]) l = map f l.
Proof. induction l as [|x l IH]; [reflexivity|]. cbn. rewrite IH. reflexivity. Qed.
Lemma wvars vs : flat_map wvar (map (fun v : string * string * (nat * Z) => (fst (fst v), snd (fst v), (Z.of_nat (fst (snd v)), snd (snd v)))) vs) = map variable_line vs.
Proof. induction vs as [|v vs IH]; [reflexivity|]. cbn [map flat_map]. rewrite IH. unfold wvar, variable_line. cbn [fst snd List.app]. rewrite Nat2Z.id. reflexivity. Qed.
Lemma wnames xs : flat_map wname xs = xs.
Proof. induction xs as [|x xs IH]; [reflexivity|]. cbn. rewrite IH. reflexivity. Qed.
Lemma Forall2_len {A B} (R : A -> B -> Prop) l1 l2 : Forall2 R l1 l2 -> List.length l1 = List.length l2.
Proof. induction 1 as [|? ? ? ? ? ? IH]; [reflexivity|cbn; rewrite IH; reflexivity]. Qed.
Lemma serialize_wdoc svs k t : writable_csp k -> serialize svs k = Ok t -> exists d, describes_csp svs k d /\ good_description d /\ t = lines (wdoc d).
Proof.
  intros [Wv Wr Wp Wc] H. unfold serialize in H. destruct (mapM (constraint_lines svs) (c_cons k)) as [ls|] eqn:E; [|discriminate]. cbn [bind] in H.
  destruct (all_constraints svs _ Wc ls E) as (ds & C1 & C2 & C3). destruct (all_relevant _ Wr) as (xs & R1 & R2 & R3 & R4).
  set (all := Nat.eqb (List.length (c_relevant k)) (List.length (c_index k))) in *.
  exists {| d_vars := map (fun v => (fst (fst v), snd (fst v), (Z.of_nat (fst (snd v)), snd (snd v)))) (c_vars k); d_relevant := if all then [] else xs; d_params := c_index k; d_cons := ds |}.
  split; [|split].
  - constructor; cbn; [reflexivity|reflexivity| |exact C1]. fold all. destruct all; [reflexivity|exact R1].
  - constructor; cbn [d_vars d_relevant d_params d_cons]; [|destruct all; [constructor|exact R2]|exact Wp|exact C2]. clear - Wv. induction Wv as [|v vs W F IH]; [constructor|]. cbn [map]. constructor; [|exact IH]. cbn [fst snd]. split; [exact W|]. apply Nat2Z.is_nonneg.
  - injection H as <-. unfold wdoc. cbn [d_vars d_relevant d_params d_cons]. rewrite wvars, !wnames, map_length, (Forall2_len _ _ _ C1), C3, R3, R4. destruct all; reflexivity.
Qed.

(** ** Reading the file gives back the variables, the parameters and the constraints *)
Theorem C80_text : exists read : string -> option description, forall svs k t, writable_csp k -> serialize svs k = Ok t -> exists d, read t = Some d /\ describes_csp svs k d.
Proof. exists read_csp. intros svs k t W H. destruct (serialize_wdoc svs k t W H) as (d & D & G & ->). exists d. split; [apply read_wdoc; exact G|exact D]. Qed.

(** ** The file is written unless a constraint is about an atom that is no state variable *)
Definition about_state_variable (svs : list svar) (c : constraint) : Prop := match c with CState (Atom p ts) _ => exists v, In v svs /\ svar_eqb (SymP p, ts) v = true | _ => True end.
Lemma line_total svs c : writable_constraint c -> (about_state_variable svs c /\ exists y, constraint_lines svs c = Ok y) \/ (~ about_state_variable svs c /\ constraint_lines svs c = Err KeyError).
Proof.
  destruct c as [e xs neg|e value|x y rel]; intros W.
  - destruct W as [_ (ys & -> & _)]. left. split; [exact I|]. cbn [constraint_lines]. rewrite named_map. eexists. reflexivity.
  - destruct W as (p & ts & ->). cbn [constraint_lines about_state_variable]. assert (P := position_err (SymP p, ts) svs). destruct (position (SymP p, ts) svs) as [i|e].
    + left. split; [|eexists; reflexivity]. apply existsb_exists in P. exact P.
    + right. destruct P as [-> P]. split; [|reflexivity]. intros X. apply existsb_exists in X. congruence.
  - left. split; [exact I|]. eexists. reflexivity.
Qed.
Theorem C80_total svs k : writable_csp k ->
  ((exists t, serialize svs k = Ok t) <-> Forall (about_state_variable svs) (c_cons k)) /\ forall e, serialize svs k = Err e -> e = KeyError.
Proof.
  intros [_ _ _ W]. unfold serialize. assert (X : (exists ls, mapM (constraint_lines svs) (c_cons k) = Ok ls /\ Forall (about_state_variable svs) (c_cons k)) \/ (mapM (constraint_lines svs) (c_cons k) = Err KeyError /\ ~ Forall (about_state_variable svs) (c_cons k))).
  { induction W as [|c cs Wc F IH]; [left; exists []; split; [reflexivity|constructor]|]. rewrite mapM_cons. destruct (line_total svs c Wc) as [[A [y ->]]|[A ->]]; cbn [bind].
    - destruct IH as [[ls [-> B]]|[-> B]]; cbn [bind]; [left; eexists; split; [reflexivity|constructor; assumption]|]. right. split; [reflexivity|]. intros Y. inversion Y; subst. contradiction.
    - right. split; [reflexivity|]. intros Y. inversion Y; subst. contradiction. }
  destruct X as [[ls [-> B]]|[-> B]]; cbn [bind].
  - split; [split; [intros _; exact B|intros _; eexists; reflexivity]|discriminate].
  - split; [split; [intros [t Q]; discriminate Q|contradiction]|]. intros e Q. injection Q as <-. reflexivity.
Qed.

(** ** The solutions of what is read are those of the CSP *)
Lemma cond_met ids svs m c d sigma : Forall (fun v => exists p, fst v = SymP p) svs -> (forall n ss ss' ts pt, (exists xs neg, c = CTable (inr (Atom (PU n ss) ts)) xs neg) -> m_holds m (PU n ss') pt = true -> ss' = ss) ->
  (forall e xs neg, c <> CTable (inl e) xs neg) -> condition_of svs c d -> (satisfied ids m sigma c <-> met ids svs m sigma d).
Proof.
  intros Hs Hu Hf C. destruct c as [e xs neg|e value|x y rel]; destruct d as [n neg' ys|i b|x' rel' y']; cbn [condition_of] in C.
  - destruct C as (Sn & -> & ->). destruct e as [e|e]; [exfalso; exact (Hf e (map Some ys) neg eq_refl)|]. destruct e as [| |[bb|n' ss] ts| |]; try destruct Sn. cbn [satisfied met].
    assert (E : in_table ids m (PU n ss) (map sigma ys) <-> in_named_table ids m n (map sigma ys)).
    { split; [intros H; exists ss; exact H|]. intros (ss' & pt & Hp & F). rewrite <- (Hu n ss ss' ts pt) by (try exact Hp; eexists; eexists; reflexivity). exists pt. split; assumption. }
    split.
    + intros (names & Q & H). assert (names = ys). { clear - Q. revert ys Q. induction names as [|a names IH]; intros [|b ys] Q; try discriminate; [reflexivity|]. injection Q as -> Q. f_equal. apply IH. exact Q. } subst names. rewrite <- E. exact H.
    + intros H. exists ys. split; [reflexivity|]. rewrite E. exact H.
  - destruct C.
  - destruct C.
  - destruct e; destruct C.
  - destruct e as [| |p ts| |]; [destruct C|destruct C| |destruct C|destruct C]. destruct C as (-> & v & Hv & E). cbn [satisfied met]. rewrite Forall_forall in Hs. destruct (Hs v (nth_error_In _ _ Hv)) as [q Eq]. destruct v as [sv ts']. cbn [fst] in Eq. subst sv.
    apply svar_key in E. unfold svkey in E. cbn [fst snd sym_sig] in E. injection E as E1 ->. apply psig_inj in E1. subst q. split; [intros H; exists p, ts'; split; assumption|]. intros (q & ts & Q & H). rewrite Hv in Q. injection Q as -> ->. exact H.
  - destruct e; destruct C.
  - destruct x as [x|]; [|destruct C]. destruct y; destruct C.
  - destruct x as [x|]; [|destruct C]. destruct y; destruct C.
  - destruct x as [x|]; [|destruct C]. destruct y as [y|]; [|destruct C]. destruct C as (-> & -> & ->). cbn [satisfied met]. tauto.
Qed.
Theorem C80_solutions ids svs m k d sigma : describes_csp svs k d ->
  (** the state variables are atoms, the tables are those of predicates, and no other predicate with true atoms has the name of one of them *)
  Forall (fun v => exists p, fst v = SymP p) svs -> (forall e xs neg, ~ In (CTable (inl e) xs neg) (c_cons k)) ->
  (forall n ss ss' ts xs neg pt, In (CTable (inr (Atom (PU n ss) ts)) xs neg) (c_cons k) -> m_holds m (PU n ss') pt = true -> ss' = ss) ->
  (solution ids m k sigma <-> solves ids svs m d sigma).
Proof.
  intros [Dv _ _ Dc] Hs Hf Hu. unfold solution, solves.
  assert (A : (forall x kind lo hi, In (x, kind, (lo, hi)) (c_vars k) -> (Z.of_nat lo <= sigma x <= hi)%Z) <-> (forall x kind lo hi, In (x, kind, (lo, hi)) (d_vars d) -> (lo <= sigma x <= hi)%Z)).
  { rewrite Dv. split.
    - intros H x kind lo hi Hi. apply in_map_iff in Hi as ([[x' kind'] [lo' hi']] & Q & Hi). cbn [fst snd] in Q. injection Q as <- <- <- <-. exact (H x' kind' lo' hi' Hi).
    - intros H x kind lo hi Hi. apply (H x kind (Z.of_nat lo) hi). apply in_map_iff. exists (x, kind, (lo, hi)). split; [reflexivity|exact Hi]. }
  assert (B : Forall (satisfied ids m sigma) (c_cons k) <-> Forall (met ids svs m sigma) (d_cons d)).
  { induction Dc as [|c e cs es C F IH]; [split; constructor|]. rewrite !Forall_cons_iff. rewrite (cond_met ids svs m c e sigma Hs) with (3 := C).
    - rewrite IH; [tauto| |]; [intros e0 xs neg Hi; exact (Hf e0 xs neg (or_intror Hi))|intros n ss ss' ts xs neg pt Hi; exact (Hu n ss ss' ts xs neg pt (or_intror Hi))].
    - intros n ss ss' ts pt (xs & neg & ->). apply (Hu n ss ss' ts xs neg pt). left. reflexivity.
    - intros e0 xs neg ->. apply (Hf e0 xs neg). left. reflexivity. }
  rewrite A, B. tauto.
Qed.

(** ** From an action schema to the file *)
Lemma word_lit s : existsb (fun c => Ascii.eqb c " " || Ascii.eqb c (ascii_of_nat 10))%bool (list_ascii_of_string s) = false -> s <> "" -> one_word s.
Proof.
  intros H N. split; [exact N|]. split; intros X; assert (Y : existsb (fun c => Ascii.eqb c " " || Ascii.eqb c (ascii_of_nat 10))%bool (list_ascii_of_string s) = true).
  - apply existsb_exists. exists " "%char. split; [exact X|reflexivity].
  - congruence.
  - apply existsb_exists. exists (ascii_of_nat 10). split; [exact X|reflexivity].
  - congruence.
Qed.
Definition kinds (k : csp) : Prop := Forall (fun v => one_word (snd (fst v))) (c_vars k).
Section Kinds.
Variables (svs : list svar) (bounds : list (string * (nat * nat))) (ids : list (cobj * nat)).
Lemma kinds_add k name kind b : kinds k -> one_word kind -> kinds (add_variable k name kind b).
Proof. intros H W. unfold add_variable. destruct (existsb _ (c_vars k)); [exact H|]. unfold kinds. cbn [c_vars]. apply Forall_app. split; [exact H|]. constructor; [exact W|constructor]. Qed.
Lemma kinds_variable k t kind k' n : kinds k -> one_word kind -> variable bounds ids k t kind = Ok (k', n) -> kinds k'.
Proof.
  intros H W E. destruct t as [x s|c s| |]; cbn [variable] in E; try discriminate E.
  - destruct (sget bounds s) as [[lo hi]|]; [|discriminate E]. injection E as <- <-. apply kinds_add; assumption.
  - destruct (dget cobj_eqb ids (c, s)); [|discriminate E]. injection E as <- <-. apply kinds_add; assumption.
Qed.
Lemma kinds_params vs : forall k k' ns, kinds k -> parameters bounds ids vs k = Ok (k', ns) -> kinds k'.
Proof.
  induction vs as [|v vs IH]; intros k k' ns H E; cbn [parameters] in E; [injection E as <- <-; exact H|]. destruct (variable bounds ids k (Var (fst v) (snd v)) "param") as [[k1 n1]|] eqn:E1; [|discriminate E]. cbn [bind fst snd] in E.
  destruct (parameters bounds ids vs k1) as [[k2 ns2]|] eqn:E2; [|discriminate E]. cbn [bind fst snd] in E. injection E as <- <-. apply (IH k1 k2 ns2); [|exact E2]. refine (kinds_variable _ _ _ _ _ H _ E1). apply word_lit; [reflexivity|discriminate].
Qed.
Lemma kinds_simple t k k' x : is_simple t = true -> kinds k -> compile_term bounds ids t k = Ok (k', x) -> kinds k'.
Proof.
  intros S H E. destruct t as [y s|c s| |]; try discriminate S; cbn [compile_term] in E.
  - destruct (variable bounds ids k (Var y s) "var") as [[k1 n1]|] eqn:E1; [|discriminate E]. cbn [bind fst snd] in E. injection E as <- <-. refine (kinds_variable _ _ _ _ _ H _ E1). apply word_lit; [reflexivity|discriminate].
  - destruct (variable bounds ids k (Cst c s) "const") as [[k1 n1]|] eqn:E1; [|discriminate E]. cbn [bind fst snd] in E. injection E as <- <-. refine (kinds_variable _ _ _ _ _ H _ E1). apply word_lit; [reflexivity|discriminate].
Qed.
Lemma kinds_list ts : Forall (fun t => is_simple t = true) ts -> forall k k' xs, kinds k -> compile_list (compile_term bounds ids) ts k = Ok (k', xs) -> kinds k'.
Proof.
  induction 1 as [|t ts S F IH]; intros k k' xs H E; [injection E as <- <-; exact H|].
  change (compile_list (compile_term bounds ids) (t :: ts) k) with (let! kx := compile_term bounds ids t k in let! kr := compile_list (compile_term bounds ids) ts (fst kx) in Ok (fst kr, snd kx :: snd kr)) in E.
  destruct (compile_term bounds ids t k) as [[k1 x1]|] eqn:E1; [|discriminate E]. cbn [bind fst snd] in E. destruct (compile_list (compile_term bounds ids) ts k1) as [[k2 x2]|] eqn:E2; [|discriminate E]. cbn [bind fst snd] in E. injection E as <- <-. exact (IH k1 k2 x2 (kinds_simple t k k1 x1 S H E1) E2).
Qed.
Variable T : term -> Prop.
Hypothesis Ts : forall t, T t -> is_simple t = true.
Lemma kinds_atom p ts neg k k' : csp_condition T (Atom p ts) -> kinds k -> compile_atom svs bounds ids p ts neg k = Ok k' -> kinds k'.
Proof.
  intros C H E. assert (S := csp_atom_terms T p ts C). unfold compile_atom in E. destruct (forallb is_cst ts && svar_mem svs (SymP p, ts))%bool; [injection E as <-; exact H|]. destruct p as [b|n ss].
  - destruct ts as [|u [|v [|]]]; try discriminate E. inversion S as [|? ? S1 S']; subst. inversion S' as [|? ? S2 _]; subst. destruct (compile_term bounds ids u k) as [[k1 x1]|] eqn:E1; [|discriminate E]. cbn [bind fst snd] in E.
    destruct (compile_term bounds ids v k1) as [[k2 x2]|] eqn:E2; [|discriminate E]. cbn [bind fst snd] in E. injection E as <-. exact (kinds_simple v k1 k2 x2 (Ts v S2) (kinds_simple u k k1 x1 (Ts u S1) H E1) E2).
  - assert (S' : Forall (fun t => is_simple t = true) ts) by (refine (Forall_impl _ _ S); exact Ts). destruct (compile_list (compile_term bounds ids) ts k) as [[k1 x1]|] eqn:E1; [|discriminate E]. cbn [bind fst snd] in E.
    destruct (compile_list (compile_term bounds ids) ts k1) as [[k2 x2]|] eqn:E2; [|discriminate E]. cbn [bind fst snd] in E. injection E as <-. exact (kinds_list ts S' k1 k2 x2 (kinds_list ts S' k k1 x1 H E1) E2).
Qed.
Lemma kinds_formula f : csp_condition T f -> forall k k', kinds k -> compile_formula svs bounds ids f k = Ok k' -> kinds k'.
Proof.
  induction f as [| |p ts|c fs IH|q vs g IH] using formula_ind_simple; intros C k k' H E; try destruct C; [exact (kinds_atom p ts false k k' C H E)|].
  apply csp_cases in C as [(p & ts & Q)|[(p & ts & Q & C)|(gs & Q & C)]]; [discriminate Q| |]; injection Q as -> ->; [exact (kinds_atom p ts true k k' C H E)|].
  revert k k' H E. induction C as [|g gs Cg Cgs IHl]; intros k k' H E; [injection E as <-; exact H|]. inversion IH as [|? ? I1 I2]; subst. rewrite compile_And_cons in E. destruct (compile_formula svs bounds ids g k) as [k1|] eqn:E1; [|discriminate E]. cbn [bind] in E. exact (IHl I2 k1 k' (I1 Cg k k1 H E1) E).
Qed.
(** The constraints *)
Hypothesis Tw : forall t, T t -> one_word (vname t).
Definition fine (c : constraint) : Prop :=
  ((forall n ss ts xs neg, c = CTable (inr (Atom (PU n ss) ts)) xs neg -> one_word n) -> writable_constraint c) /\ about_state_variable svs c /\ forall e xs neg, c <> CTable (inl e) xs neg.
Lemma fine_atom p ts neg : csp_condition T (Atom p ts) -> fine (constraint_of svs p ts neg).
Proof.
  intros C. unfold constraint_of. destruct (forallb is_cst ts && svar_mem svs (SymP p, ts))%bool eqn:E.
  - split; [intros _; exists p, ts; reflexivity|]. split; [|intros e xs n Q; discriminate Q]. apply andb_true_iff in E as [_ E]. unfold svar_mem in E. apply existsb_exists in E. exact E.
  - apply csp_atom in C as [(n & ss & -> & F)|(b & t & u & -> & Hb & -> & Ht & Hu)].
    + split; [|split; [exact I|intros e xs m Q; discriminate Q]]. intros W. split; [exists n; split; [reflexivity|exact (W n ss ts _ neg eq_refl)]|]. exists (map vname ts). split; [rewrite map_map; reflexivity|]. clear - F Tw. induction F as [|t ts Ht F IH]; [constructor|]. cbn [map]. constructor; [apply Tw; exact Ht|exact IH].
    + split; [|split; [exact I|intros e xs m Q; discriminate Q]]. intros _. split; [exists (vname t); split; [reflexivity|apply Tw; exact Ht]|]. split; [exists (vname u); split; [reflexivity|apply Tw; exact Hu]|]. destruct Hb as [-> | ->], neg; apply word_lit; try reflexivity; discriminate.
Qed.
Lemma fine_formula f : csp_condition T f -> Forall fine (constraints_of svs f).
Proof.
  induction f as [| |p ts|c fs IH|q vs g IH] using formula_ind_simple; intros C; try destruct C; [constructor; [exact (fine_atom p ts false C)|constructor]|].
  apply csp_cases in C as [(p & ts & Q)|[(p & ts & Q & C)|(gs & Q & C)]]; [discriminate Q| |]; injection Q as -> ->; [constructor; [exact (fine_atom p ts true C)|constructor]|].
  cbn [constraints_of]. apply Forall_flat_map. rewrite Forall_forall in *. intros g Hg. exact (IH g Hg (C g Hg)).
Qed.
End Kinds.

(** Names that can be written *)
Record words (l : lang) (a : action) (k : csp) : Prop := {
  wo_params : forall x r, In (Var x r) (a_params a) -> one_word x;
  wo_constants : forall c s, is_plain l s -> const_of l c s -> one_word (name_text c);
  wo_predicates : forall n ss ts xs neg, In (CTable (inr (Atom (PU n ss) ts)) xs neg) (c_cons k) -> one_word n
}.
Lemma schema_writable parse ops start ids bounds svs init statics a k : forallb native ops = true -> let l := lrun parse ops in numberable l -> sort_ids l start = Ok (ids, bounds) -> csp_action l a ->
  compile_schema_csp svs bounds ids init statics a = Ok (Some k) -> words l a k -> writable_csp k /\ Forall (about_state_variable svs) (c_cons k) /\ forall e xs neg, ~ In (CTable (inl e) xs neg) (c_cons k).
Proof.
  intros Hn l HN HI HA HC [Wp Wc Wq]. set (T := action_term l (a_params a)).
  assert (Tw : forall t, T t -> one_word (vname t)). { intros [x r|c s| |] H; try destruct H; cbn [vname]; [exact (Wp x r H)|exact (Wc c s H H0)]. }
  assert (Ts : forall t, T t -> is_simple t = true). { intros [x r|c s| |] H; try destruct H; reflexivity. }
  destruct (compile_steps parse ops ids bounds svs a HA init statics) as (f & _ & Cf & _ & Ec). rewrite Ec in HC. clear Ec.
  destruct (simp_csp T init (Some statics) (T_simple parse ops a) f Cf) as (r0 & E0 & G0). rewrite E0 in HC. cbn [bind] in HC.
  assert (X : exists g, (g = Top \/ csp_condition T g) /\ build_csp svs bounds ids a g = Ok k).
  { destruct r0 as [[|]|g]; [| discriminate HC|].
    - exists Top. split; [left; reflexivity|]. destruct (build_csp svs bounds ids a Top) as [k0|]; [|discriminate HC]. cbn [bind] in HC. congruence.
    - exists g. split; [right; exact (G0 g eq_refl)|]. destruct (build_csp svs bounds ids a g) as [k0|]; [|discriminate HC]. cbn [bind] in HC. congruence. }
  destruct X as (g & G & E). destruct (collect_effect_free_parameters a) as [free|] eqn:F.
  2:{ exfalso. unfold build_csp in E. destruct (parameters bounds ids (param_vars a) no_csp) as [kp|]; [|discriminate E]. cbn [bind] in E. destruct (compile_formula svs bounds ids g (fst kp)); [|discriminate E]. cbn [bind] in E. rewrite F in E. discriminate E. }
  destruct (build_spec parse ops start ids bounds Hn HN HI svs a HA g free G F) as (k' & E' & A1 & A2 & A3 & A4 & A5 & A6). assert (k' = k) by congruence. subst k'.
  assert (Kk : kinds k).
  { unfold build_csp in E. destruct (parameters bounds ids (param_vars a) no_csp) as [[kp ns]|] eqn:Ep; [|discriminate E]. cbn [bind fst snd] in E. destruct (compile_formula svs bounds ids g kp) as [k1|] eqn:Eg; [|discriminate E]. cbn [bind] in E. rewrite F in E. cbn [bind] in E.
    assert (Q : c_vars k = c_vars k1) by (injection E as <-; reflexivity). unfold kinds. rewrite Q. assert (K0 := kinds_params bounds ids (param_vars a) no_csp kp ns (Forall_nil _) Ep).
    destruct G as [-> | G]; [injection Eg as <-; exact K0|exact (kinds_formula svs bounds ids T Ts g G kp k1 K0 Eg)]. }
  assert (Fi : Forall (fine svs) (c_cons k)). { rewrite A1. destruct G as [-> | G]; [constructor|exact (fine_formula svs T Tw g G)]. }
  destruct (params_vars parse ops a HA) as [PE PV].
  assert (Pw : forall v, In v (param_vars a) -> one_word (fst v)). { intros [x r] Hv. apply PV in Hv. exact (Wp x r Hv). }
  split; [constructor|split].
  - apply Forall_forall. intros v Hv. unfold VI in A2. rewrite Forall_forall in A2. unfold kinds in Kk. rewrite Forall_forall in Kk. split; [|exact (Kk v Hv)]. destruct (A2 v Hv) as [(x & r & lo & hi & Tx & _ & -> & _)|(c & r & i & Tc & _ & -> & _)]; [exact (Tw _ Tx)|exact (Tw _ Tc)].
  - rewrite A6. apply Forall_forall. intros t Ht. apply filter_In in Ht as [Ht _]. apply in_map_iff in Ht as (v & <- & Hv). exists (fst v), (snd v). split; [reflexivity|exact (Pw v Hv)].
  - rewrite A5. apply Forall_forall. intros x Hx. apply in_map_iff in Hx as (v & <- & Hv). exact (Pw v Hv).
  - rewrite Forall_forall in *. intros c Hc. destruct (Fi c Hc) as [H _]. apply H. intros n ss ts xs neg ->. exact (Wq n ss ts xs neg Hc).
  - rewrite Forall_forall in *. intros c Hc. destruct (Fi c Hc) as (_ & H & _). exact H.
  - intros e xs neg Hc. rewrite Forall_forall in Fi. destruct (Fi _ Hc) as (_ & _ & H). exact (H e xs neg eq_refl).
Qed.
(** The file is written for each action for which there is a CSP; and in every state reached from the initial one, the solutions of what is read from it are exactly the applicable instances. *)
Theorem C80_applicable : exists read : string -> option description, forall parse ops start ids bounds svs sub declared acts fluents statics init plan m a k,
  forallb native ops = true -> let l := lrun parse ops in let D := lang_domains l in
  numberable l -> sort_ids l start = Ok (ids, bounds) -> csp_action l a ->
  is_state sub init -> approximate_symbol_fluency false declared acts = Ok (fluents, statics) -> execution D sub acts init plan m -> Forall (fun st => constant_binding (snd st)) plan ->
  compile_schema_csp svs bounds ids init statics a = Ok (Some k) -> words l a k -> Forall (fun v => exists p, fst v = SymP p) svs ->
  (forall n ss ss' ts xs neg pt, In (CTable (inr (Atom (PU n ss) ts)) xs neg) (c_cons k) -> m_holds m (PU n ss') pt = true -> ss' = ss) ->
  exists t d, serialize svs k = Ok t /\ read t = Some d /\
    map (fun x => Some x) (d_params d) = map (fun t => match t with Var x _ => Some x | _ => None end) (a_params a) /\
    (forall s pre effs, legal_step D [a] (a_name a, s) -> ground_schema a s = Ok (pre, effs) -> (is_applicable m pre = Ok true <-> exists sigma, solves ids svs m d sigma /\ encodes ids a s sigma)) /\
    (forall sigma, solves ids svs m d sigma -> exists s, legal_step D [a] (a_name a, s) /\ encodes ids a s sigma).
Proof.
  exists read_csp. intros parse ops start ids bounds svs sub declared acts fluents statics init plan m a k Hn l D HN HI HA HS Hf Hx Hp HC W Hs Hu.
  destruct (schema_writable parse ops start ids bounds svs init statics a k Hn HN HI HA HC W) as (Wk & Ab & Nf). destruct (proj2 (proj1 (C80_total svs k Wk)) Ab) as [t Et]. destruct (serialize_wdoc svs k t Wk Et) as (d & Dd & Gd & ->).
  exists (lines (wdoc d)), d. split; [exact Et|]. split; [apply read_wdoc; exact Gd|]. destruct (C53_solutions parse ops start ids bounds svs sub declared acts fluents statics init plan m a (Some k) Hn HN HI HA HS Hf Hx Hp HC) as (S1 & S2 & S3).
  assert (Q : forall sigma, solution ids m k sigma <-> solves ids svs m d sigma) by (intros sigma; exact (C80_solutions ids svs m k d sigma Dd Hs Nf Hu)).
  split; [rewrite (dc_params _ _ _ Dd); exact (S3 k eq_refl)|]. split.
  - intros s pre effs L Eg. destruct (S1 s pre effs L Eg) as [S4 _]. rewrite S4. split.
    + intros (k' & sigma & Ek & Sk & En). injection Ek as <-. exists sigma. split; [apply Q; exact Sk|exact En].
    + intros (sigma & Sk & En). exists k, sigma. split; [reflexivity|]. split; [apply Q; exact Sk|exact En].
  - intros sigma Sk. apply (S2 k sigma eq_refl). apply Q. exact Sk.
Qed.

(** ** An instance *)
Definition cspC : csp := {| c_vars := [("?t", "param", (2, 3%Z)); ("?p", "param", (0, 1%Z)); ("home", "const", (1, 1%Z))];
    c_cons := [CTable (inr (Atom atC [vT; cpl "home"])) [Some "?t"; Some "home"] false; CTable (inr (Atom roadC [vP; cpl "home"])) [Some "?p"; Some "home"] true; CRel (Some "?p") (Some "home") "!=";
               CState (Atom atC [Cst (CStr "t2") "big"; cpl "far"]) false]; c_relevant := [vT; vP]; c_index := ["?t"; "?p"] |}.
Example C80_nonvacuous : compile_schema_csp svsC boundsC idsC initC [SymP roadC] go = Ok (Some cspC) /\ words lC go cspC /\ Forall (fun v => exists p, fst v = SymP p) svsC /\
  (forall n ss ss' ts xs neg pt, In (CTable (inr (Atom (PU n ss) ts)) xs neg) (c_cons cspC) -> m_holds initC (PU n ss') pt = true -> ss' = ss) /\
  serialize svsC cspC = Ok (lines ["variables"; "3"; "?t param int 2 3"; "?p param int 0 1"; "home const int 1 1"; "end-variables"; "effect-relevant-variables"; "0"; "end-effect-relevant-variables";
    "parameter-index"; "2"; "?t"; "?p"; "end-parameter-index"; "constraints"; "4"; "table-constraint"; "at negative=False ?t home"; "table-constraint"; "road negative=True ?p home"; "relational"; "?p != home"; "statevar=const"; "0 False"; "end-constraints"; ""]).
Proof.
  split; [vm_compute; reflexivity|]. split; [|split; [|split]].
  - constructor.
    + intros x r H. cbn in H. destruct H as [H|[H|[]]]; injection H as <- <-; apply word_lit; (reflexivity || discriminate).
    + intros c s _ H. apply lC_const in H. cbn in H. destruct H as [H|[H|[H|[H|[]]]]]; injection H as <- <-; apply word_lit; (reflexivity || discriminate).
    + intros n ss ts xs neg H. cbn in H. destruct H as [H|[H|[H|[H|[]]]]]; try discriminate H; injection H as <- _ _ _ _; apply word_lit; (reflexivity || discriminate).
  - constructor; [eexists; reflexivity|constructor].
  - intros n ss ss' ts xs neg pt H Hp. assert (E : In (n, ss') [("at", ["truck"; "place"]); ("road", ["place"; "place"])]).
    { unfold m_holds in Hp. destruct (dget sig_eqb (preds initC) (psig (PU n ss'))) as [ext|] eqn:Ed; [|discriminate Hp]. apply (dget_In sig_eqb sig_eqb_eq) in Ed.
      assert (Ep : exists e1 e2, preds initC = [(psig atC, e1); (psig roadC, e2)]) by (eexists; eexists; vm_compute; reflexivity). destruct Ep as (e1 & e2 & Ep). rewrite Ep in Ed.
      destruct Ed as [Ed|[Ed|[]]]; [assert (Q : psig atC = psig (PU n ss')) by congruence; left|assert (Q : psig roadC = psig (PU n ss')) by congruence; right; left]; apply psig_inj in Q; injection Q as <- <-; reflexivity. }
    cbn in H. destruct H as [H|[H|[H|[H|[]]]]]; try discriminate H; injection H as <- <- _ _ _; destruct E as [E|[E|[]]]; congruence.
  - vm_compute. reflexivity.
Qed.

(** ** Where it fails *)
(** The file is the same whether all parameters matter for the effects or none does: 0 is written in both cases. *)
Theorem C80_relevant_refuted svs k : List.length (c_relevant k) = List.length (c_index k) ->
  serialize svs k = serialize svs {| c_vars := c_vars k; c_cons := c_cons k; c_relevant := []; c_index := c_index k |}.
Proof.
  intros E. unfold serialize. cbn [c_vars c_cons c_relevant c_index]. destruct (mapM (constraint_lines svs) (c_cons k)) as [ls|]; [|reflexivity]. cbn [bind]. rewrite E, Nat.eqb_refl. destruct (Nat.eqb (List.length (@nil term)) (List.length (c_index k))); reflexivity.
Qed.
Definition stay : action := {| a_name := "stay"; a_params := a_params go; a_pre := a_pre go; a_effs := [EDel Top (Atom atC [Cst (CStr "t2") "big"; cpl "home"])] |}.
Example C80_relevant_refuted_schemas : exists k k' t, compile_schema_csp svsC boundsC idsC initC [SymP roadC] go = Ok (Some k) /\ compile_schema_csp svsC boundsC idsC initC [SymP roadC] stay = Ok (Some k') /\
  c_relevant k = a_params go /\ c_relevant k' = [] /\ serialize svsC k = Ok t /\ serialize svsC k' = Ok t.
Proof. exists cspC. eexists. eexists. split; [vm_compute; reflexivity|]. split; [vm_compute; reflexivity|]. split; [reflexivity|]. split; [reflexivity|]. split; [vm_compute; reflexivity|]. vm_compute. reflexivity. Qed.
(** A schema with function terms is compiled, but its file cannot be written. *)
Theorem C80_functions_refuted : exists k, compile_schema_csp svsC boundsC idsC initC [] (act "go" (Atom atC [vT; App (FU "base" ["truck"] "place") [vT]])) = Ok (Some k) /\ serialize svsC k = Err TypeError.
Proof. eexists. split; [vm_compute; reflexivity|vm_compute; reflexivity]. Qed.
(** ... and in general, if a table has an argument without a variable *)
Theorem C80_no_variable_refuted svs k e xs neg : In (CTable e xs neg) (c_cons k) -> In None xs -> forall t, serialize svs k <> Ok t.
Proof.
  intros H N t E. unfold serialize in E. destruct (mapM (constraint_lines svs) (c_cons k)) as [ls|] eqn:Em; [|discriminate E]. clear E.
  assert (X : forall cs l, mapM (constraint_lines svs) cs = Ok l -> In (CTable e xs neg) cs -> exists y, constraint_lines svs (CTable e xs neg) = Ok y).
  { induction cs as [|c cs IH]; intros l E Hc; [destruct Hc|]. rewrite mapM_cons in E. destruct (constraint_lines svs c) as [y|] eqn:Ec; [|discriminate E]. cbn [bind] in E. destruct (mapM (constraint_lines svs) cs) as [l'|]; [|discriminate E]. destruct Hc as [-> | Hc]; [exists y; exact Ec|exact (IH l' eq_refl Hc)]. }
  destruct (X _ _ Em H) as [y Ey]. cbn [constraint_lines] in Ey. assert (Z : forall l, In None l -> exists e, mapM CspText.named l = Err e).
  { induction l as [|a l IH]; intros Hn; [destruct Hn|]. rewrite mapM_cons. destruct a as [a|]; [|eexists; reflexivity]. destruct Hn as [Q|Hn]; [discriminate Q|]. destruct (IH Hn) as [e0 E0]. cbn [CspText.named bind]. rewrite E0. eexists. reflexivity. }
  destruct (Z xs N) as [e0 E0]. rewrite E0 in Ey. discriminate Ey.
Qed.
(** Names with spaces: two different constraints with the same text *)
Theorem C80_words_refuted : exists k k' t, serialize [] k = Ok t /\ serialize [] k' = Ok t /\ c_cons k <> c_cons k'.
Proof.
  exists {| c_vars := []; c_cons := [CTable (inr (Atom atC [Var "?a ?b" "truck"])) [Some "?a ?b"] false]; c_relevant := []; c_index := [] |}.
  exists {| c_vars := []; c_cons := [CTable (inr (Atom atC [Var "?a" "truck"; Var "?b" "truck"])) [Some "?a"; Some "?b"] false]; c_relevant := []; c_index := [] |}.
  eexists. split; [vm_compute; reflexivity|]. split; [vm_compute; reflexivity|discriminate].
Qed.
(** All the files of a problem: one for each action that is not reported as inapplicable *)
Theorem C80_files svs bounds ids init statics acts fs : files svs bounds ids init statics acts = Ok fs ->
  forall n t, In (n, t) fs <-> exists a k, In a acts /\ n = a_name a /\ compile_schema_csp svs bounds ids init statics a = Ok (Some k) /\ serialize svs k = Ok t.
Proof.
  revert fs. induction acts as [|a acts IH]; intros fs E n t; cbn [files] in E; [injection E as <-; split; [intros []|intros (a & _ & [] & _)]|].
  destruct (compile_schema_csp svs bounds ids init statics a) as [k|] eqn:Ek; [|discriminate E]. cbn [bind] in E. destruct k as [k|].
  - destruct (serialize svs k) as [t0|] eqn:Et; [|discriminate E]. cbn [bind] in E. destruct (files svs bounds ids init statics acts) as [l|]; [|discriminate E]. cbn [bind] in E. injection E as <-. cbn [List.app In]. rewrite (IH l eq_refl n t). split.
    + intros [Q|(b & k' & Hb & R)]; [injection Q as <- <-; exists a, k; split; [left; reflexivity|split; [reflexivity|split; assumption]]|exists b, k'; split; [right; exact Hb|exact R]].
    + intros (b & k' & [<- | Hb] & R1 & R2 & R3); [left; congruence|right; exists b, k'; split; [exact Hb|split; [exact R1|split; assumption]]].
  - cbn [bind] in E. destruct (files svs bounds ids init statics acts) as [l|]; [|discriminate E]. cbn [bind] in E. injection E as <-. cbn [List.app]. rewrite (IH l eq_refl n t). split.
    + intros (b & k' & Hb & R). exists b, k'. split; [right; exact Hb|exact R].
    + intros (b & k' & [<- | Hb] & R1 & R2 & R3); [congruence|exists b, k'; split; [exact Hb|split; [exact R1|split; assumption]]].
Qed.
