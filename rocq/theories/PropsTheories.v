(** C59: loading theories into a language. *)
From Coq Require Import Permutation.
From Verif Require Import Base Syntax Semantics SemLemmas ListUtil ModelState ModelProofs Lang LangSpec LangProofs LangProofs2 LangProofs3 PropsLang Theories TheoriesSpec TheoriesProofs TheoriesProofs2 TheoriesProofs3.
Local Open Scope string_scope.

(** A theory that is loaded cannot be loaded again. *)
Theorem C59_twice : forall parse ops t, In t (t_theories (trun parse ops)) -> load_theory parse (trun parse ops) t = (trun parse ops, Err DuplicateDefinition).
Proof. intros parse ops t. apply load_twice. Qed.
Print Assumptions C59_twice.
(** The other theories can be loaded exactly if the names they need are free (or their sorts are there). *)
Theorem C59_load : forall parse ops t, forallb tnative ops = true -> let st := trun parse ops in
  snd (load_theory parse st t) = Ok tt <-> ~ In t (t_theories st) /\ loadable (t_lang st) t.
Proof.
  intros parse ops t H st. pose proof (trun_inv parse ops H) as T. fold st in T. split.
  - intros E. assert (N : ~ In t (t_theories st)) by (intros K; rewrite (load_twice parse st t K) in E; discriminate). split; [exact N|]. now apply (loadable_dec parse st t T N).
  - intros [N L]. destruct (load_ok parse st t (ti_tree _ T) N L (tinv_fresh st t T N)) as (l' & E & _). now rewrite E.
Qed.
Print Assumptions C59_load.
(** Loading declares the names of the theory, with the parents of its sorts, and nothing else changes. *)
Theorem C59_declares : forall parse ops t, forallb tnative ops = true -> let st := trun parse ops in let st' := fst (load_theory parse st t) in
  snd (load_theory parse st t) = Ok tt ->
  (forall n e, lget (t_lang st') n = Ok e <-> declared (t_lang st) t n e \/ lget (t_lang st) n = Ok e) /\
  (forall s p, parent_of (t_lang st') s = Some p <-> (declared (t_lang st) t (CStr s) (ESort s) /\ In (s, p) sort_parents) \/ parent_of (t_lang st) s = Some p) /\
  (forall x, usable st' x <-> In x (symbols_of t) \/ usable st x) /\ (forall u, In u (t_theories st') <-> u = t \/ In u (t_theories st)).
Proof.
  intros parse ops t H st st' E. pose proof (trun_inv parse ops H) as T. fold st in T. assert (X := proj1 (C59_load parse ops t H) E). fold st in X. destruct X as [N L].
  destruct (load_ok parse st t (ti_tree _ T) N L (tinv_fresh st t T N)) as (l' & Q & I' & A & B & _). unfold st'. rewrite Q. cbn [fst t_lang t_theories].
  split; [exact A|]. split; [exact B|]. split.
  - intros x. unfold usable. cbn [t_handlers t_symbols]. rewrite !in_app_iff. pose proof (ti_hand st T x). tauto.
  - intros u. rewrite in_app_iff. cbn. split; [intros [K|[K|[]]]; auto|intros [K|K]; auto].
Qed.
Print Assumptions C59_declares.
(** A load that raises loads no theory, makes no symbol usable, and changes the meaning of no name. *)
Theorem C59_failed : forall parse ops t x, forallb tnative ops = true -> let st := trun parse ops in let st' := fst (load_theory parse st t) in
  snd (load_theory parse st t) = Err x ->
  t_theories st' = t_theories st /\ (forall y, usable st' y <-> usable st y) /\ (forall n e, lget (t_lang st) n = Ok e -> lget (t_lang st') n = Ok e) /\
  (forall s, is_sort (t_lang st) s -> parent_of (t_lang st') s = parent_of (t_lang st) s).
Proof.
  intros parse ops t x H st st' E. pose proof (trun_inv parse ops H) as T. fold st in T. destruct (in_dec theory_dec t (t_theories st)) as [Hin|Hn].
  { unfold st'. rewrite (load_twice parse st t Hin). cbn [fst]. split; [reflexivity|]. split; [tauto|]. split; auto. }
  pose proof (load_inv parse st t T) as T'. fold st' in T'.
  destruct (load_err_rest parse st t x (ti_tree _ T) (tinv_fresh st t T Hn) E) as (A & B & h & C). fold st' in A, B, C.
  destruct (load_steps parse st t) as (os & Fo & Eo). destruct (steps_frame parse (t_lang st) os (ti_tree _ T) Fo) as (_ & K & S). fold st' in Eo. rewrite <- Eo in K, S.
  split; [exact A|]. split; [|split; [exact K|intros s Hs; now apply S]].
  intros y. unfold usable. rewrite B, C, in_app_iff. pose proof (ti_hand st T y). tauto.
Qed.
Print Assumptions C59_failed.
(** At any time, the symbols that can be used are those of the theories that are loaded, and the numerical ones come with the sorts of numbers. *)
Theorem C59_symbols : forall parse ops, forallb tnative ops = true -> let st := trun parse ops in
  (forall x, usable st x <-> exists t, In t (t_theories st) /\ In x (symbols_of t)) /\
  (forall t, In t (t_theories st) -> numerical t -> is_sort (t_lang st) "Integer" /\ is_sort (t_lang st) "Real").
Proof.
  intros parse ops H st. pose proof (trun_inv parse ops H) as T. fold st in T. split.
  - intros x. unfold usable. rewrite <- (ti_sym st T). split; [tauto|]. intros K. split; [now apply (ti_hand st T)|exact K].
  - intros t A B. destruct (ti_sorts st T t A B). auto.
Qed.
Print Assumptions C59_symbols.

(** * Several theories *)
Lemma unused_pt l l' n : (forall e, lget l' n = Ok e <-> lget l n = Ok e) -> (unused l' n <-> unused l n).
Proof.
  intros H. destruct (lget_cases l n) as [[e G]|U].
  - split; intros K; [apply H in G|]; exfalso; eapply used_ok; eauto.
  - split; [auto|]. intros _. destruct (lget_cases l' n) as [[e G]|U']; [|exact U']. apply H in G. unfold unused in U. congruence.
Qed.
Lemma loadable_other l l' t u : inv_tree l -> inv_tree l' -> t <> u -> loadable l t -> (forall n e, lget l' n = Ok e <-> declared l t n e \/ lget l n = Ok e) -> (loadable l' u <-> loadable l u).
Proof.
  intros I I' N [Lt1 Lt2] R.
  assert (S : forall s, is_sort l' s <-> declared l t (CStr s) (ESort s) \/ is_sort l s) by (intros s; rewrite !sort_lget by assumption; apply R).
  assert (Own : forall n e, In (n, e) (own_names u) -> (unused l' n <-> unused l n)).
  { intros n e Hu. assert (Nd : forall e', ~ declared l t n e').
    { intros e' [K|(_ & _ & K)]; [|now apply (own_names_sorts u n e n e' Hu K)]. destruct t, u; cbn in K, Hu; try contradiction; try (now apply N); decompose [or] K; decompose [or] Hu; try contradiction; congruence. }
    apply unused_pt. intros x. rewrite R. split; [|now right]. intros [K|K]; [now apply Nd in K|exact K]. }
  assert (Srt : numerical u -> ((is_sort l' "Integer" /\ is_sort l' "Real") \/ (~ is_sort l' "Integer" /\ forall n e, In (n, e) arithmetic_sorts -> unused l' n) <->
                (is_sort l "Integer" /\ is_sort l "Real") \/ (~ is_sort l "Integer" /\ forall n e, In (n, e) arithmetic_sorts -> unused l n))).
  { intros Nu. destruct (requires_arithmetic_sorts t) eqn:Rt.
    - apply numerical_iff in Rt. specialize (Lt2 Rt). split; [intros _; exact Lt2|]. intros _. left. destruct Lt2 as [[A B]|[A B]].
      + split; apply S; now right.
      + split; apply S; left; right; cbn; tauto.
    - assert (D : forall n e, declared l t n e <-> In (n, e) (own_names t)). { intros n e. unfold declared. split; [intros [K|(K & _)]; [exact K|apply numerical_iff in K; congruence]|now left]. }
      assert (A : forall n e, In (n, e) arithmetic_sorts -> (unused l' n <-> unused l n)).
      { intros n e Ha. apply unused_pt. intros x. rewrite R. split; [|now right]. intros [K|K]; [|exact K]. exfalso. apply D in K. now apply (own_names_sorts t n x n e K Ha). }
      assert (B : forall s e, In (CStr s, e) arithmetic_sorts -> (is_sort l' s <-> is_sort l s)).
      { intros s e Ha. rewrite S, D. split; [|now right]. intros [K|K]; [|exact K]. exfalso. now apply (own_names_sorts t _ _ _ _ K Ha). }
      rewrite (B "Integer" (ESort "Integer")), (B "Real" (ESort "Real")) by (cbn; tauto).
      assert (C : (forall n e, In (n, e) arithmetic_sorts -> unused l' n) <-> forall n e, In (n, e) arithmetic_sorts -> unused l n) by (split; intros K n e Ha; apply (A n e Ha); eauto).
      rewrite C. tauto. }
  unfold loadable. split; intros [H1 H2]; (split; [intros n e K; apply (Own n e K); eauto|intros Nu; apply (Srt Nu); auto]).
Qed.
Lemma declared_other l l' t u : inv_tree l -> inv_tree l' -> loadable l t -> (forall n e, lget l' n = Ok e <-> declared l t n e \/ lget l n = Ok e) -> forall n e, declared l t n e \/ declared l' u n e <-> declared l t n e \/ declared l u n e.
Proof.
  intros I I' [Lt1 Lt2] R n e. unfold declared.
  assert (S : is_sort l' "Integer" <-> (numerical t \/ is_sort l "Integer")).
  { rewrite !sort_lget by assumption. rewrite R. split.
    - intros [[K|(K & _)]|K]; [|tauto|tauto]. exfalso. destruct t; cbn in K; decompose [or] K; try contradiction; discriminate.
    - intros [K|K]; [|now right]. destruct (Lt2 K) as [[A _]|[A _]]; [right; now apply sort_lget|]. left. right. split; [exact K|]. split; [exact A|]. cbn. tauto. }
  rewrite S. destruct (requires_arithmetic_sorts t) eqn:Rt; [apply numerical_iff in Rt; tauto|]. assert (~ numerical t) by (intros K; apply numerical_iff in K; congruence). tauto.
Qed.
Lemma load_all_ok parse : forall ts st, tinv st -> NoDup ts -> (forall t, In t ts -> ~ In t (t_theories st) /\ loadable (t_lang st) t) ->
  exists st', load_all parse st ts = (st', Ok tt) /\ tinv st' /\ (forall n e, lget (t_lang st') n = Ok e <-> (exists t, In t ts /\ declared (t_lang st) t n e) \/ lget (t_lang st) n = Ok e) /\
    (forall s p, parent_of (t_lang st') s = Some p <-> ((exists t, In t ts /\ declared (t_lang st) t (CStr s) (ESort s)) /\ In (s, p) sort_parents) \/ parent_of (t_lang st) s = Some p) /\
    (forall u, In u (t_theories st') <-> In u ts \/ In u (t_theories st)).
Proof.
  induction ts as [|t ts IH]; intros st T ND H; cbn [load_all].
  - exists st. split; [reflexivity|]. split; [exact T|]. split; [|split].
    + intros n e. split; [now right|]. intros [(t & [] & _)|K]; exact K.
    + intros s p. split; [now right|]. intros [((t & [] & _) & _)|K]; exact K.
    + intros u. cbn. tauto.
  - inversion ND as [|? ? Nt ND']; subst. destruct (H t (or_introl eq_refl)) as [N L]. destruct (load_ok parse st t (ti_tree _ T) N L (tinv_fresh st t T N)) as (l1 & Q & I1 & A & B & _).
    pose proof (load_inv parse st t T) as T1. rewrite Q in *. unfold andthen at 1. cbn [fst snd] in *. set (st1 := {| t_lang := l1; t_theories := _; t_handlers := _; t_symbols := _ |}) in *.
    destruct (IH st1 T1 ND') as (st' & E & T' & A' & B' & C').
    { intros u Hu. assert (Tu : t <> u) by (intros ->; contradiction). destruct (H u (or_intror Hu)) as [Nu Lu]. split.
      - cbn. rewrite in_app_iff. cbn. intros [K|[K|[]]]; auto.
      - apply (loadable_other (t_lang st) l1 t u); auto. apply T. }
    assert (DO : forall u n e, declared (t_lang st) t n e \/ declared l1 u n e <-> declared (t_lang st) t n e \/ declared (t_lang st) u n e) by (intros u; now apply declared_other; [apply T| | |]).
    assert (EX : forall n e, (exists u, In u ts /\ declared (t_lang st1) u n e) \/ declared (t_lang st) t n e <-> exists u, In u (t :: ts) /\ declared (t_lang st) u n e).
    { intros n e. split.
      - intros [(u & Hu & D)|D]; [|exists t; split; [now left|exact D]]. destruct (proj1 (DO u n e) (or_intror D)) as [D'|D']; [exists t; split; [now left|exact D']|exists u; split; [now right|exact D']].
      - intros (u & [->|Hu] & D); [now right|]. destruct (proj2 (DO u n e) (or_intror D)) as [D'|D']; [now right|left; eauto]. }
    exists st'. split; [exact E|]. split; [exact T'|]. split; [|split].
    + intros n e. rewrite A'. change (t_lang st1) with l1 at 2. rewrite A. rewrite <- EX. tauto.
    + intros s p. rewrite B'. change (t_lang st1) with l1 at 2. rewrite B. rewrite <- EX. tauto.
    + intros u. rewrite C'. cbn. rewrite in_app_iff. cbn. tauto.
Qed.
Lemma load_all_only parse : forall ts st, tinv st -> snd (load_all parse st ts) = Ok tt -> NoDup ts /\ forall t, In t ts -> ~ In t (t_theories st) /\ loadable (t_lang st) t.
Proof.
  induction ts as [|t ts IH]; intros st T E; [split; [constructor|intros t []]|]. cbn [load_all] in E. unfold andthen in E. destruct (snd (load_theory parse st t)) as [[]|] eqn:E1; [|discriminate].
  assert (N : ~ In t (t_theories st)) by (intros K; rewrite (load_twice parse st t K) in E1; discriminate). assert (L := loadable_dec parse st t T N E1).
  destruct (load_ok parse st t (ti_tree _ T) N L (tinv_fresh st t T N)) as (l1 & Q & I1 & A & B & _). pose proof (load_inv parse st t T) as T1. rewrite Q in *. cbn [fst] in *.
  destruct (IH _ T1 E) as [ND H]. cbn [t_theories t_lang] in H.
  assert (Nt : ~ In t ts) by (intros K; apply H in K as [K _]; apply K, in_or_app; right; now left). split; [constructor; auto|].
  intros u [<-|Hu]; [auto|]. destruct (H u Hu) as [H1 H2]. split; [intros K; apply H1, in_or_app; now left|]. apply (loadable_other (t_lang st) l1 t u); auto; [apply T|]. intros ->. contradiction.
Qed.
(** Loading several theories, in any order: it succeeds exactly if none is repeated or loaded already and each of them could be loaded first; then every name, parent and symbol is determined by the set of theories. *)
Theorem C59_load_all : forall parse ops ts, forallb tnative ops = true -> let st := trun parse ops in
  snd (load_all parse st ts) = Ok tt <-> NoDup ts /\ forall t, In t ts -> ~ In t (t_theories st) /\ loadable (t_lang st) t.
Proof.
  intros parse ops ts H st. pose proof (trun_inv parse ops H) as T. fold st in T. split; [now apply load_all_only|]. intros [ND F]. destruct (load_all_ok parse ts st T ND F) as (st' & E & _). now rewrite E.
Qed.
Print Assumptions C59_load_all.
Theorem C59_load_all_declares : forall parse ops ts, forallb tnative ops = true -> let st := trun parse ops in let st' := fst (load_all parse st ts) in
  snd (load_all parse st ts) = Ok tt ->
  (forall n e, lget (t_lang st') n = Ok e <-> (exists t, In t ts /\ declared (t_lang st) t n e) \/ lget (t_lang st) n = Ok e) /\
  (forall s p, parent_of (t_lang st') s = Some p <-> ((exists t, In t ts /\ declared (t_lang st) t (CStr s) (ESort s)) /\ In (s, p) sort_parents) \/ parent_of (t_lang st) s = Some p) /\
  (forall x, usable st' x <-> (exists t, In t ts /\ In x (symbols_of t)) \/ usable st x).
Proof.
  intros parse ops ts H st st' E. pose proof (trun_inv parse ops H) as T. fold st in T. destruct (load_all_only parse ts st T E) as [ND F]. destruct (load_all_ok parse ts st T ND F) as (st2 & E2 & T2 & A & B & C).
  unfold st'. rewrite E2. cbn [fst]. split; [exact A|]. split; [exact B|]. intros x.
  assert (U : forall st0, tinv st0 -> (usable st0 x <-> exists t, In t (t_theories st0) /\ In x (symbols_of t))). { intros st0 T0. unfold usable. rewrite <- (ti_sym st0 T0). pose proof (ti_hand st0 T0 x). tauto. }
  rewrite (U st2 T2), (U st T). split.
  - intros (t & K & X). apply C in K as [K|K]; [left|right]; eauto.
  - intros [(t & K & X)|(t & K & X)]; exists t; rewrite C; auto.
Qed.
Print Assumptions C59_load_all_declares.
Theorem C59_order : forall parse ops ts ts', forallb tnative ops = true -> Permutation ts ts' -> let st := trun parse ops in
  let (st1, r1) := load_all parse st ts in let (st2, r2) := load_all parse st ts' in
  (r1 = Ok tt <-> r2 = Ok tt) /\ (r1 = Ok tt -> (forall n, lget (t_lang st1) n = lget (t_lang st2) n) /\ (forall s, parent_of (t_lang st1) s = parent_of (t_lang st2) s) /\ (forall x, usable st1 x <-> usable st2 x)).
Proof.
  intros parse ops ts ts' H P st. pose proof (C59_load_all parse ops ts H) as A1. pose proof (C59_load_all parse ops ts' H) as A2. pose proof (C59_load_all_declares parse ops ts H) as B1. pose proof (C59_load_all_declares parse ops ts' H) as B2.
  fold st in A1, A2, B1, B2. cbv zeta in *. destruct (load_all parse st ts) as [st1 r1]. destruct (load_all parse st ts') as [st2 r2]. cbn [fst snd] in *.
  assert (In' : forall t, In t ts <-> In t ts') by (intros t; split; apply Permutation_in; [exact P|now apply Permutation_sym]).
  assert (Q : r1 = Ok tt <-> r2 = Ok tt).
  { rewrite A1, A2. split; intros [ND F]; (split; [|intros t Ht; apply F; now apply In']); [apply (Permutation_NoDup P ND)|apply (Permutation_NoDup (Permutation_sym P) ND)]. }
  split; [exact Q|]. intros E1. assert (E2 := proj1 Q E1). destruct (B1 E1) as (N1 & P1 & U1). destruct (B2 E2) as (N2 & P2 & U2).
  assert (X : forall (R : theory -> Prop), (exists t, In t ts /\ R t) <-> exists t, In t ts' /\ R t) by (intros R; split; intros (t & K & L); exists t; (split; [now apply In'|exact L])).
  assert (N : forall n e, lget (t_lang st1) n = Ok e <-> lget (t_lang st2) n = Ok e) by (intros n e; now rewrite N1, N2, X).
  split; [|split].
  - intros n. destruct (lget_cases (t_lang st1) n) as [[e G]|U]; [now rewrite G; symmetry; apply N|]. rewrite U. symmetry. now apply (unused_iff _ _ N).
  - intros s. assert (PP : forall p, parent_of (t_lang st1) s = Some p <-> parent_of (t_lang st2) s = Some p) by (intros p; now rewrite P1, P2, X).
    destruct (parent_of (t_lang st1) s) as [p|] eqn:G; [symmetry; now apply PP|]. destruct (parent_of (t_lang st2) s) as [p|] eqn:G2; [|reflexivity]. discriminate (proj2 (PP p) eq_refl).
  - intros x. now rewrite U1, U2, X.
Qed.
Print Assumptions C59_order.
(** A new language can be given any theories, none of them twice. *)
Theorem C59_language : forall parse ts, NoDup ts <-> exists st, language parse ts = Ok st /\ forall u, In u (t_theories st) <-> In u ts.
Proof.
  intros parse ts. unfold language. split.
  - intros ND. assert (F : forall t, In t ts -> ~ In t (t_theories tlang0) /\ loadable (t_lang tlang0) t).
    { intros t _. split; [intros []|]. split.
      - intros n e K. destruct t; cbn in K; decompose [or] K; try contradiction; match goal with H : (_, _) = (_, _) |- _ => injection H as <- <- end; reflexivity.
      - intros _. right. split; [intros [K|[]]; discriminate|]. intros n e K. cbn in K. decompose [or] K; try contradiction; match goal with H : (_, _) = (_, _) |- _ => injection H as <- <- end; reflexivity. }
    destruct (load_all_ok parse ts tlang0 tinv0 ND F) as (st & E & _ & _ & _ & C). rewrite E. exists st. split; [reflexivity|]. intros u. rewrite C. cbn. tauto.
  - intros (st & E & _). destruct (load_all parse tlang0 ts) as [st1 r] eqn:E1. destruct r as [[]|]; [|discriminate]. apply (load_all_only parse ts tlang0 tinv0). now rewrite E1.
Qed.
Print Assumptions C59_language.
Lemma existsb_in_str x l : str_mem x l = true -> In x l.
Proof. unfold str_mem. intros H. apply existsb_exists in H as (y & Hy & E). apply String.eqb_eq in E. now subst. Qed.
(** A language with a sort of its own, to which theories are added *)
Definition opsT : list top := [TOp (OSort "block" None); TLoad TEquality; TOp (OPred "on" ["block"; "block"])].
Theorem C59_nonvacuous :
  forallb tnative opsT = true /\ snd (load_all no_parse (trun no_parse opsT) [TRandom; TBoolean; TArithmetic]) = Ok tt /\
  (let st := fst (load_all no_parse (trun no_parse opsT) [TRandom; TBoolean; TArithmetic]) in
   lget (t_lang st) (CStr "True") = Ok (EConst (CStr "True") "Boolean") /\ lget (t_lang st) (CStr "on") = Ok (EPred "on" ["block"; "block"]) /\ parent_of (t_lang st) "Natural" = Some "Integer" /\
   usable st "gamma" /\ usable st "=" /\ ~ usable st "max") /\
  snd (load_all no_parse (trun no_parse opsT) [TArithmetic; TEquality]) = Err DuplicateDefinition.
Proof.
  split; [vm_compute; reflexivity|]. split; [vm_compute; reflexivity|]. split; [|vm_compute; reflexivity].
  cbv zeta. set (st := fst _). assert (A : lget (t_lang st) (CStr "True") = Ok (EConst (CStr "True") "Boolean")) by (vm_compute; reflexivity).
  assert (B : lget (t_lang st) (CStr "on") = Ok (EPred "on" ["block"; "block"])) by (vm_compute; reflexivity). assert (C : parent_of (t_lang st) "Natural" = Some "Integer") by (vm_compute; reflexivity).
  split; [exact A|]. split; [exact B|]. split; [exact C|]. split; [|split].
  - split; apply (existsb_in_str); vm_compute; reflexivity.
  - split; apply (existsb_in_str); vm_compute; reflexivity.
  - intros [_ K]. assert (X : str_mem "max" (t_symbols st) = false) by (vm_compute; reflexivity). unfold str_mem in X. apply Bool.not_true_iff_false in X. apply X. apply existsb_exists. exists "max". split; [exact K|reflexivity].
Qed.
Print Assumptions C59_nonvacuous.
(** Loading is not atomic. With a sort Natural of the user, the first attempt to load the arithmetic raises but declares Real and Integer; so the second attempt succeeds, and the Natural of the user, no
    subtype of Integer, stays. *)
Theorem C59_atomic_refuted :
  let st := trun no_parse [TOp (OSort "Natural" None)] in let st1 := fst (load_theory no_parse st TArithmetic) in let st2 := fst (load_theory no_parse st1 TArithmetic) in
  snd (load_theory no_parse st TArithmetic) = Err DuplicateDefinition /\ unused (t_lang st) (CStr "Real") /\ lget (t_lang st1) (CStr "Real") = Ok (ESort "Real") /\
  snd (load_theory no_parse st1 TArithmetic) = Ok tt /\ parent_of (t_lang st2) "Natural" = Some "object".
Proof.
  cbv zeta. split; [vm_compute; reflexivity|]. split; [vm_compute; reflexivity|]. split; [vm_compute; reflexivity|]. split; [vm_compute; reflexivity|vm_compute; reflexivity].
Qed.
Print Assumptions C59_atomic_refuted.
