(** The reader of RDDL instances: the initial state *)
From Coq Require Import Ascii.
From Verif Require Import Base Syntax Build SemLemmas ListUtil ModelState ModelProofs StateLemmas FreeVars Lang LangSpec LangProofs LangProofs2 LangProofs3 Theories TheoriesSpec TheoriesProofs TheoriesProofs2 TheoriesProofs3 Counters
  PropsTermOps RddlRead RddlReadProofs4 RddlInit RddlInitSpec RddlInitProofs RddlInitProofs2.
#[local] Open Scope string_scope.
#[local] Open Scope list_scope.

Lemma foldM_snoc {A B} (f : A -> B -> res A) l x a : foldM f (l ++ [x]) a = (let! b := foldM f l a in f b x).
Proof. revert a. induction l as [|y l IH]; intros a; cbn [app foldM bind]; [destruct (f a x); reflexivity|]. destruct (f a y) as [b|]; [|reflexivity]. apply IH. Qed.

Lemma cn_mem_In c d : cn_mem c d = true <-> In c d.
Proof. unfold cn_mem. rewrite existsb_exists. split; [intros (x & H & E); apply cname_eqb_eq in E; now subst|intros H; exists c; split; [exact H|now apply cname_eqb_eq]]. Qed.
Lemma exists_last_or {A} (a : list A) : a = [] \/ exists b x, a = b ++ [x].
Proof. destruct a as [|x a]; [now left|right]. destruct (exists_last (l := x :: a)) as (b & y & ->); [discriminate|eauto]. Qed.
Section State.
Variable parse : bool -> string -> option Z.
Variable fuel : nat.
Variable st : tlang.
Notation l := (t_lang st).
Hypothesis I : inv_tree l.
Hypothesis Hp : forall n p ss, lget l (CStr n) = Ok (EPred p ss) -> Forall (is_sort l) ss.
Hypothesis Hf : forall n f ss, lget l (CStr n) = Ok (EFun f ss) -> Forall (is_sort l) ss /\ ss <> [].

Definition denotes (g : rarg) (t : term) : Prop := exists w c s, g = GName w /\ lget l (CStr w) = Ok (EConst c s) /\ t = Cst c s.
Definition fits_sort (t : term) (s : sort) : Prop := match t with Cst _ s' => le l s' s | _ => False end.

Lemma argument_step e k g : object_argument g -> read_argument st e k g = match g with GName w => let! x := lget l (CStr w) in Ok (of_elem x) | GNum _ => Err TypeError end.
Proof. destruct g as [w|z]; [|reflexivity]. destruct w as [|c w]; [contradiction|]. intros H. cbn [read_argument]. destruct (Ascii.eqb_spec c "?") as [->|_]; [now destruct H|reflexivity]. Qed.
Lemma check_sort_fits c s' s : is_sort l s -> check_sort fuel st (Cst c s') s = Ok tt <-> le l s' s.
Proof. intros H. exact (check_sort_spec fuel st I (Cst c s') s H). Qed.
Lemma unit_ok (r : res unit) x : r = Ok x -> r = Ok tt.
Proof. now destruct x. Qed.
Lemma arguments_iff bad e gs : forall k ss ts, Forall object_argument gs -> Forall (is_sort l) ss ->
  (exists its, read_arguments st e k gs = Ok its /\ List.length its = List.length ss /\ check_arguments fuel st bad its ss = Ok ts) <-> Forall2 denotes gs ts /\ Forall2 fits_sort ts ss.
Proof.
  induction gs as [|g gs IH]; intros k ss ts G S.
  - split.
    + intros (its & E & L & C). cbn in E. injection E as <-. destruct ss; [|discriminate L]. cbn in C. injection C as <-. split; constructor.
    + intros [H1 H2]. inversion H1; subst. inversion H2; subst. exists []. split; [|split]; reflexivity.
  - inversion G as [|? ? Hg G']; subst. split.
    + intros (its & E & L & C). cbn [read_arguments] in E. rewrite (argument_step e k g Hg) in E. destruct g as [w|z]; [|discriminate E]. destruct (lget l (CStr w)) as [x|] eqn:Gw; [|discriminate E]. cbn [bind] in E.
      destruct (read_arguments st e (Datatypes.S k) gs) as [xs|] eqn:R; [|discriminate E]. cbn [bind] in E. injection E as <-. destruct ss as [|s ss]; [discriminate L|]. inversion S as [|? ? Hs S']; subst. destruct x as [| | |c s']; try discriminate C.
      cbn [of_elem check_arguments] in C. destruct (check_sort fuel st (Cst c s') s) as [u|] eqn:Q; [|discriminate C]. cbn [bind] in C. destruct (check_arguments fuel st bad xs ss) as [ts'|] eqn:C'; [|discriminate C]. injection C as <-.
      apply unit_ok, (check_sort_fits c s' s Hs) in Q. destruct (proj1 (IH (Datatypes.S k) ss ts' G' S')) as [A B]; [exists xs; repeat split; auto|]. split; constructor; auto. exists w, c, s'. auto.
    + intros [H1 H2]. inversion H1 as [|? t ? ts' D H1']; subst. inversion H2 as [|? s ? ss' F H2']; subst. inversion S as [|? ? Hs S']; subst. destruct (proj2 (IH (Datatypes.S k) ss' ts' G' S') (conj H1' H2')) as (its & E & L & C).
      destruct D as (w & c & s' & -> & Gw & ->). exists (ITerm (Cst c s') :: its). cbn [read_arguments]. rewrite (argument_step e k _ Hg), Gw. cbn [bind of_elem]. rewrite E. cbn [bind]. split; [reflexivity|]. split; [cbn [List.length]; now rewrite L|].
      cbn [check_arguments]. rewrite (proj2 (check_sort_fits c s' s Hs) F). cbn [bind]. now rewrite C.
Qed.
Definition args_of (x : string * option (list rarg)) : list rarg := match snd x with Some gs => gs | None => [] end.
(** What the reader makes of the fluent of an entry *)
Definition fluent_as (e : elem) (ts : list term) (a : arg) : Prop :=
  match e with
  | EPred p ss => Forall2 fits_sort ts ss /\ a = AForm (Atom (PU p ss) ts)
  | EFun f ss => Forall2 fits_sort ts (removelast ss) /\ a = ATerm (App (FU f (removelast ss) (last ss "")) ts)
  | _ => False
  end.
Lemma removelast_sorts ss : Forall (is_sort l) ss -> Forall (is_sort l) (removelast ss).
Proof. intros F. induction F as [|s ss Hs F' IH]; [constructor|]. cbn [removelast]. destruct ss; constructor; auto. Qed.
Lemma read_items e x : (match snd x with None => Ok [] | Some gs => read_arguments st e 0 gs end) = read_arguments st e 0 (args_of x).
Proof. unfold args_of. now destruct (snd x). Qed.
Theorem fluent_iff x a : Forall object_argument (args_of (fst x)) -> read_fluent fuel st (fst x) = Ok a <-> exists e ts, about l x e ts /\ fluent_as e ts a.
Proof.
  intros G. unfold read_fluent, about. fold (args_of (fst x)). destruct (lget l (CStr (unquote (fst (fst x))))) as [e|] eqn:E; cbn [bind]; [|split; [discriminate|intros (e' & ts & [H _] & _); discriminate H]].
  rewrite read_items. split.
  - intros H. apply bind_some in H as (its & R & H). exists e. destruct e as [s|p ss|f ss|c s]; try discriminate H.
    + cbn [call_element] in H. destruct (Nat.eqb_spec (List.length its) (List.length ss)) as [L|]; [|discriminate H]. apply bind_some in H as (ts & C & H). exists ts. injection H as <-.
      destruct (proj1 (arguments_iff LanguageError (EPred p ss) _ 0 ss ts G (Hp _ _ _ E))) as [A B]; [eauto|]. split; [split; [reflexivity|exact A]|split; [exact B|reflexivity]].
    + cbn [call_element] in H. destruct (Nat.eqb_spec (List.length its) (List.length (removelast ss))) as [L|]; [|discriminate H]. apply bind_some in H as (ts & C & H). exists ts. injection H as <-.
      destruct (proj1 (arguments_iff NotModelled (EFun f ss) _ 0 (removelast ss) ts G (removelast_sorts _ (proj1 (Hf _ _ _ E))))) as [A B]; [eauto|]. split; [split; [reflexivity|exact A]|split; [exact B|reflexivity]].
  - intros (e' & ts & [Q A] & F). injection Q as <-. destruct e as [s|p ss|f ss|c s]; try contradiction.
    + destruct F as [F ->]. destruct (proj2 (arguments_iff LanguageError (EPred p ss) _ 0 ss ts G (Hp _ _ _ E)) (conj A F)) as (its & R & L & C). rewrite R. cbn [bind call_element]. rewrite L, Nat.eqb_refl, C. reflexivity.
    + destruct F as [F ->]. destruct (proj2 (arguments_iff NotModelled (EFun f ss) _ 0 (removelast ss) ts G (removelast_sorts _ (proj1 (Hf _ _ _ E)))) (conj A F)) as (its & R & L & C). rewrite R. cbn [bind call_element]. rewrite L, Nat.eqb_refl, C. reflexivity.
Qed.
Lemma denotes_unique g t t' : denotes g t -> denotes g t' -> t = t'.
Proof. intros (w & c & s & -> & E & ->) (w' & c' & s' & Q & E' & ->). injection Q as <-. rewrite E in E'. now injection E' as <- <-. Qed.
Lemma about_unique x e ts e' ts' : about l x e ts -> about l x e' ts' -> e = e' /\ ts = ts'.
Proof.
  intros [E A] [E' A']. split; [congruence|]. clear E E'. unfold about in *. revert ts' A'. induction A as [|g t gs ts D _ IH]; intros ts' A'; inversion A'; subst; [reflexivity|]. f_equal; [eapply denotes_unique; eauto|auto].
Qed.
Lemma about_constants x e ts : about l x e ts -> forallb is_cst ts = true.
Proof. intros [_ A]. induction A as [|g t gs ts (w & c & s & _ & _ & ->) _ IH]; [reflexivity|exact IH]. Qed.
(** Values *)
Lemma value_iff v s t : exact_value parse v -> value_constant parse st v s = Ok t <-> value_as parse l v s t.
Proof.
  intros X. assert (Hr : forall r, In (s, r) (l_sorts l) <-> sget (l_sorts l) s = Some r) by (intros r; symmetry; apply (sget_In _ _ _ (ii_sorts l (it_index l I)))).
  assert (U : value_as parse l v s t <-> match sget (l_sorts l) s with None => False | Some r => 
      match s_kind r, v with
      | KPlain, IName w => In (CStr w) (s_dom r) /\ t = Cst (CStr w) s
  | KPlain, IInt z => In (CInt z) (s_dom r) /\ t = Cst (CInt z) s
  | KPlain, IBool b => In (CInt (if b then 1 else 0)) (s_dom r) /\ t = Cst (CInt (if b then 1 else 0)) s
      | KInterval _ lb ub, IInt z => (lb <= z <= ub)%Z /\ t = Cst (CInt z) s
      | KInterval _ lb ub, IBool b => (lb <= (if b then 1 else 0) <= ub)%Z /\ t = Cst (CInt (if b then 1 else 0)) s
      | KInterval real lb ub, IName w => exists z, parse real w = Some z /\ (lb <= z <= ub)%Z /\ t = Cst (CInt z) s
      | KInterval real _ _, IFloat w => real = true /\ t = Cst (CStr w) s
      | _, _ => False end end).
  { unfold value_as. split.
    - intros (r & H & K). apply Hr in H. rewrite H. exact K.
    - destruct (sget (l_sorts l) s) as [r|] eqn:E; [|contradiction]. intros K. exists r. split; [now apply Hr|exact K]. }
  rewrite U. clear U Hr. destruct (sget (l_sorts l) s) as [r|] eqn:E; [|unfold value_constant, literal; rewrite E; destruct v; split; (discriminate || contradiction)].
  assert (PL : forall c, s_kind r = KPlain -> literal parse st c s = Ok t <-> In c (s_dom r) /\ t = Cst c s).
  { intros c K. unfold literal. rewrite E, K. destruct (cn_mem c (s_dom r)) eqn:M; [apply cn_mem_In in M|]; split.
    - intros H. injection H as <-. auto.
    - intros [_ ->]. reflexivity.
    - discriminate.
    - intros [H _]. apply cn_mem_In in H. congruence. }
  assert (IV : forall z real lb ub, s_kind r = KInterval real lb ub -> (Z.abs z <= 2 ^ 53)%Z -> (let! y := (if Z.leb lb z && Z.leb z ub then Ok (CInt z) else Err ValueError) in match y with CInt z => if real && Z.ltb (2 ^ 53) (Z.abs z) then Err NotModelled else Ok (Cst y s) | CStr _ => Err NotModelled end) = Ok t <-> (lb <= z <= ub)%Z /\ t = Cst (CInt z) s).
  { intros z real lb ub K Hz. destruct (Z.leb_spec lb z); cbn [andb bind]; [|split; [discriminate|lia]]. destruct (Z.leb_spec z ub); cbn [andb bind]; [|split; [discriminate|lia]].
    destruct (Z.ltb_spec (2 ^ 53) (Z.abs z)); [lia|]. rewrite andb_false_r. split; [intros Q; injection Q as <-; auto|intros [_ ->]; reflexivity]. }
  assert (LT : forall c real lb ub, s_kind r = KInterval real lb ub -> literal parse st c s = (let! y := cast parse real lb ub c in match y with CInt z => if real && Z.ltb (2 ^ 53) (Z.abs z) then Err NotModelled else Ok (Cst y s) | CStr _ => Err NotModelled end)).
  { intros c real lb ub K. unfold literal. now rewrite E, K. }
  destruct (s_kind r) as [|real lb ub] eqn:K; destruct v as [z|w|b|w]; cbn [value_constant].
  - apply PL; reflexivity.
  - rewrite E, K. split; [discriminate|contradiction].
  - apply PL; reflexivity.
  - apply PL; reflexivity.
  - rewrite (LT _ _ _ _ eq_refl). unfold cast, encode. apply (IV z real lb ub eq_refl X).
  - rewrite E, K. destruct real; split; try discriminate; [intros Q; injection Q as <-; auto|intros [_ ->]; reflexivity|intros [Q _]; discriminate Q].
  - rewrite (LT _ _ _ _ eq_refl). unfold cast, encode. apply (IV _ real lb ub eq_refl). destruct b; lia.
  - rewrite (LT _ _ _ _ eq_refl). unfold cast, encode. destruct (parse real w) as [z|] eqn:P; [|split; [discriminate|intros (z & Q & _); discriminate Q]].
    rewrite (IV z real lb ub eq_refl (X _ _ P)). split; [intros [H1 H2]; exists z; auto|intros (z' & Q & H1 & H2)]. injection Q as <-. auto.
Qed.
Lemma value_unique v s t t' : exact_value parse v -> value_as parse l v s t -> value_as parse l v s t' -> t = t'.
Proof. intros X H H'. apply (value_iff v s t X) in H. apply (value_iff v s t' X) in H'. congruence. Qed.
Lemma value_sort v s t : value_as parse l v s t -> is_sort l s /\ exists c, t = Cst c s.
Proof.
  intros (r & H & K). split; [now apply (in_map fst) in H|]. destruct (s_kind r), v; try contradiction; try (destruct K as [_ ->]; eauto; fail). destruct K as (z & _ & _ & ->). eauto.
Qed.
(** Entries *)
Definition readable (x : entry) : Prop := Forall object_argument (args_of (fst x)) /\ exact_value parse (snd x).
Lemma lsub_le s' s : is_sort l s -> le l s' s -> lsub fuel l s' s = true.
Proof. intros Hs H. apply (check_sort_fits (CInt 0) s' s Hs) in H. unfold check_sort in H. unfold lsub. change (Theories.sort_of st (Cst (CInt 0) s')) with s' in H. destruct (snd (is_subtype fuel l s' s)) as [b|]; [|discriminate H]. cbn [bind] in H. destruct b; [reflexivity|discriminate H]. Qed.
Lemma check_assignment_ok ss ts : Forall (is_sort l) ss -> Forall2 fits_sort ts ss -> check_assignment (lsub fuel l) ss ts = Ok tt.
Proof.
  intros S F. unfold check_assignment. assert (L : List.length ss = List.length ts) by (induction F; cbn; auto; inversion S; subst; auto). match goal with |- context [Nat.eqb ?a ?b] => destruct (Nat.eqb_spec a b) as [_|Q]; [|now destruct (Q L)] end. clear L.
  induction F as [|t s ts ss H F IH]; [reflexivity|]. inversion S; subst. cbn [check_sorts]. destruct t as [|c s'| |]; try contradiction. cbn [ModelState.sort_of]. cbn in H. rewrite lsub_le by auto. auto.
Qed.
Definition entry_typed (x : entry) (e : elem) (ts : list term) : Prop :=
  match e with
  | EPred p ss => Forall2 fits_sort ts ss
  | EFun f ss => Forall2 fits_sort ts (removelast ss) /\ exists t, value_as parse l (snd x) (last ss "") t
  | _ => False
  end.
Lemma entry_step m x m' : readable x -> read_entry parse fuel st m x = Ok m' -> exists e ts, about l x e ts /\ entry_typed x e ts /\
  match e with
  | EPred p ss => if match snd x with IBool true => true | _ => false end then m_add (lsub fuel l) m (PU p ss) ts = Ok m' else m' = m
  | EFun f ss => exists v, value_as parse l (snd x) (last ss "") v /\ m_set (lsub fuel l) m (App (FU f (removelast ss) (last ss "")) ts) v = Ok m'
  | _ => False
  end.
Proof.
  intros [G X] H. unfold read_entry in H. apply bind_some in H as (a & R & H). apply (fluent_iff x a G) in R as (e & ts & A & F). exists e, ts. split; [exact A|]. destruct e as [s|p ss|f ss|c s]; try contradiction.
  - destruct F as [F ->]. cbn [entry_typed]. split; [exact F|]. destruct (snd x) as [| |[|]|]; try (injection H as <-; reflexivity). exact H.
  - destruct F as [F ->]. rewrite (about_constants _ _ _ A) in H. apply bind_some in H as (v & V & H). apply (value_iff _ _ _ X) in V. cbn [entry_typed]. split; [split; [exact F|eauto]|exists v; split; [exact V|exact H]].
Qed.
Lemma last_sort ss : ss <> [] -> Forall (is_sort l) ss -> is_sort l (last ss "").
Proof. intros N F. induction F as [|s ss Hs F IH]; [now destruct N|]. destruct ss as [|s' ss]; [exact Hs|]. apply IH. discriminate. Qed.
Lemma entry_runs m x e ts : readable x -> about l x e ts -> entry_typed x e ts -> exists m', read_entry parse fuel st m x = Ok m'.
Proof.
  intros [G X] A T. unfold read_entry. destruct e as [s|p ss|f ss|c s]; try contradiction; cbn [entry_typed] in T.
  - rewrite (proj2 (fluent_iff x (AForm (Atom (PU p ss) ts)) G)); [|exists (EPred p ss), ts; split; [exact A|split; [exact T|reflexivity]]]. cbn [bind]. destruct (snd x) as [| |[|]|]; eauto.
    unfold m_add. rewrite (check_assignment_ok ss ts (Hp _ _ _ (proj1 A)) T). cbn [bind]. eauto.
  - destruct T as [T (v & V)]. rewrite (proj2 (fluent_iff x (ATerm (App (FU f (removelast ss) (last ss "")) ts)) G)); [|exists (EFun f ss), ts; split; [exact A|split; [exact T|reflexivity]]]. cbn [bind].
    rewrite (about_constants _ _ _ A), (proj2 (value_iff _ _ _ X) V). cbn [bind]. unfold m_set. rewrite (about_constants _ _ _ A). destruct (Hf _ _ _ (proj1 A)) as [Fs Ns]. destruct (value_sort _ _ _ V) as [Sv (c & ->)].
    rewrite check_assignment_ok; [cbn [bind]; eauto| |].
    + apply Forall_app. split; [now apply removelast_sorts|constructor; [exact Sv|constructor]].
    + apply Forall2_app; [exact T|]. constructor; [|constructor]. left. reflexivity.
Qed.
Lemma entry_ok_iff x : entry_ok parse l x <-> exists e ts, about l x e ts /\ entry_typed x e ts.
Proof. reflexivity. Qed.
(** The state *)
Definition true_entry (x : entry) : bool := match snd x with IBool true => true | _ => false end.
Lemma given_snoc es x e ts v : given l (es ++ [x]) e ts v <-> (about l x e ts /\ snd x = v) \/ (~ about l x e ts /\ given l es e ts v).
Proof.
  split.
  - intros (before & y & after & E & A & V & No). destruct (exists_last_or after) as [->|(after' & z & ->)].
    + apply app_inj_tail in E as [_ ->]. left. auto.
    + change (y :: after' ++ [z]) with ((y :: after') ++ [z]) in E. rewrite app_assoc in E. apply app_inj_tail in E as [-> ->]. right. split; [apply No, in_app_iff; right; now left|]. exists before, y, after'. split; [reflexivity|split; [exact A|split; [exact V|]]]. intros u Hu. apply No, in_app_iff. now left.
  - intros [[A V]|[N (before & y & after & -> & A & V & No)]].
    + exists es, x, []. split; [reflexivity|split; [exact A|split; [exact V|contradiction]]].
    + exists before, y, (after ++ [x]). rewrite <- app_assoc. split; [reflexivity|split; [exact A|split; [exact V|]]]. intros u Hu. apply in_app_iff in Hu as [Hu|[<- |[]]]; auto.
Qed.
Theorem entries_spec es : forall m, Forall readable es -> foldM (read_entry parse fuel st) es empty_model = Ok m ->
  Forall (entry_ok parse l) es /\ proper m /\
  (forall p ss ts, m_holds m (PU p ss) ts = true <-> exists x, In x es /\ snd x = IBool true /\ about l x (EPred p ss) ts) /\
  (forall f ss s ts v, m_value m (FU f ss s) ts = Ok v <-> exists w, given l es (EFun f (ss ++ [s])) ts w /\ value_as parse l w s v).
Proof.
  induction es as [|x es IH] using rev_ind; intros m R H.
  - cbn in H. injection H as <-. split; [constructor|]. split; [intros s e []|]. split.
    + intros p ss ts. split; [discriminate|intros (x & [] & _)].
    + intros f ss s ts v. split; [discriminate|]. intros (w & (before & y & after & E & _) & _). destruct before; discriminate E.
  - rewrite foldM_snoc in H. apply bind_some in H as (m1 & H1 & H). apply Forall_app in R as [R Rx]. inversion Rx as [|? ? Rx' _]; subst. clear Rx. destruct (IH m1 R H1) as (A1 & A2 & A3 & A4).
    destruct (entry_step m1 x m Rx' H) as (e & ts & A & T & S). split; [apply Forall_app; split; [exact A1|constructor; [exists e, ts; split; [exact A|exact T]|constructor]]|].
    destruct e as [s|p ss|f ss|c s]; try contradiction.
    + assert (V : (forall f b, m_value m f b = m_value m1 f b) /\ proper m /\ (forall q b, m_holds m q b = true <-> (true_entry x = true /\ q = PU p ss /\ b = ts) \/ m_holds m1 q b = true)).
      { fold (true_entry x) in S. destruct (true_entry x).
        - destruct (add_spec _ _ _ _ _ S A2) as (P & P1 & P2). split; [exact P2|]. split; [exact P|]. intros q b. rewrite P1, orb_true_iff, same_atom_eq. intuition congruence.
        - subst m. split; [reflexivity|]. split; [exact A2|]. intros q b. intuition congruence. }
      destruct V as (V1 & V2 & V3). split; [exact V2|]. split.
      * intros q qs b. rewrite V3, A3. split.
        -- intros [(T1 & Q1 & ->)|(y & Y1 & Y2)]; [|exists y; split; [apply in_app_iff; now left|exact Y2]]. injection Q1 as -> ->. exists x. split; [apply in_app_iff; right; now left|]. split; [|exact A].
           unfold true_entry in T1. destruct (snd x) as [| |[|]|]; try discriminate T1. reflexivity.
        -- intros (y & Y1 & Y2 & Y3). apply in_app_iff in Y1 as [Y1|[<- |[]]]; [right; exists y; auto|]. left. unfold true_entry. rewrite Y2. split; [reflexivity|]. destruct (about_unique _ _ _ _ _ A Y3) as [Q1 Q2]. injection Q1 as <- <-. auto.
      * intros g gs s b v. rewrite V1, A4. split; intros (w & G & W); exists w; (split; [|exact W]).
        -- apply given_snoc. right. split; [|exact G]. intros K. destruct (about_unique _ _ _ _ _ A K) as [Q _]. discriminate Q.
        -- apply given_snoc in G as [[K _]|[_ G]]; [|exact G]. destruct (about_unique _ _ _ _ _ A K) as [Q _]. discriminate Q.
    + destruct S as (v & V & S). destruct (set_spec _ _ _ _ _ S) as (g & a & Q & P & P1 & P2). injection Q as <- <-. split; [exact (P A2)|]. split.
      * intros q qs b. rewrite P1, A3. split.
        -- intros (y & Y1 & Y2). exists y. split; [apply in_app_iff; now left|exact Y2].
        -- intros (y & Y1 & Y2 & Y3). apply in_app_iff in Y1 as [Y1|[<- |[]]]; [exists y; auto|]. destruct (about_unique _ _ _ _ _ A Y3) as [Q _]. discriminate Q.
      * intros g gs s b u. destruct (Hf _ _ _ (proj1 A)) as [_ Ns]. rewrite P2. destruct (same_point (FU f (removelast ss) (last ss "")) (FU g gs s) ts b) eqn:Q.
        -- apply same_point_eq in Q as [Q <-]. injection Q as <- <- <-. match goal with |- context [EFun f ?z] => replace z with ss by exact (app_removelast_last "" Ns) end. split.
           ++ intros K. injection K as <-. exists (snd x). split; [apply given_snoc; left; auto|exact V].
           ++ intros (w & G & W). apply given_snoc in G as [[_ <-]|[N _]]; [|now destruct (N A)]. f_equal. exact (value_unique _ _ _ _ (proj2 Rx') V W).
        -- assert (Na : ~ about l x (EFun g (gs ++ [s])) b).
           { intros K. destruct (about_unique _ _ _ _ _ A K) as [Q1 Q2]. injection Q1 as -> ->. subst b. rewrite removelast_last, last_last in Q. rewrite (proj2 (same_point_eq (FU g gs s) (FU g gs s) ts ts) (conj eq_refl eq_refl)) in Q. discriminate Q. }
           rewrite A4. split; intros (w & G & W); exists w; (split; [|exact W]).
           ++ apply given_snoc. right. auto.
           ++ apply given_snoc in G as [[K _]|[_ G]]; [contradiction|exact G].
Qed.
Theorem entries_run es : Forall readable es -> Forall (entry_ok parse l) es -> forall m, exists m', foldM (read_entry parse fuel st) es m = Ok m'.
Proof.
  induction es as [|x es IH]; intros R T m; [exists m; reflexivity|]. inversion R; subst. inversion T as [|? ? (e & ts & A & Tx) T']; subst. cbn [foldM]. destruct (entry_runs m x e ts H1 A Tx) as (m1 & ->). apply IH; auto.
Qed.
End State.
