(** C75: the functional blocksworld benchmark, src/tarski/benchmarks/blocksworld.py:32-46, 127-192 *)
From Coq Require Import Permutation Lia.
From Verif Require Import ListUtil Base Syntax SemLemmas Build ModelState ModelProofs Eval EvalProofs Subst SubstProofs QElim Effects ProgressSpec StateLemmas FreeVars Represent
  Blocks BlocksSpec BlocksProofs2 BlocksProofs3 FBlocks FBlocksSpec FBlocksProofs FBlocksProofs2 FBlocksLangProofs.
#[local] Open Scope string_scope.
#[local] Open Scope list_scope.

(** A random pattern tells for each block where it is, and the blocks can stand like this. *)
Theorem C75_random n bs choice pat : chosen n (Random bs choice) pat -> lays_out n pat /\ physical pat.
Proof. intros H. destruct (chosen_spec _ _ _ H) as (cl & _ & L & _ & S). split; [exact L|]. exists pat. split; [apply Permutation_refl|exact S]. Qed.
Theorem C75_random_exists n bs choice : Permutation bs (block_names n) -> exists pat, chosen n (Random bs choice) pat.
Proof. intros P. destruct (random_spec n bs choice P) as (cl & pat & E & _). exists pat. split; [exists cl; exact E|exact P]. Qed.
(** A given pattern of another length is refused. *)
Theorem C75_refuses sub n init goal pat : List.length pat <> n ->
  generate_fstrips_blocksworld_problem sub n (Given pat) goal = Err ValueError /\
  (forall p, generate_fstrips_blocksworld_problem sub n init (Given pat) <> Ok p).
Proof.
  intros N. apply Nat.eqb_neq in N. split; [unfold generate_fstrips_blocksworld_problem; cbn [pattern_of]; rewrite N; reflexivity|]. intros p. unfold generate_fstrips_blocksworld_problem. destruct (pattern_of n init) as [i|]; [|discriminate]. cbn [bind].
  destruct (fbw_init sub n (fst i) (snd i)); [|discriminate]. cbn [bind pattern_of]. rewrite N. discriminate.
Qed.
(** Otherwise the generator succeeds, and the initial state says where the blocks are, that the places with nothing on them are clear, and nothing else. *)
Theorem C75_generates sub n init goal pi pg : places_typed sub -> chosen n init pi -> chosen n goal pg -> exists p, generate_fstrips_blocksworld_problem sub n init goal = Ok p.
Proof.
  intros T Ci Cg. destruct (chosen_spec _ _ _ Ci) as (cl & Ei & Li & Cl & _). destruct (chosen_spec _ _ _ Cg) as (cl' & Eg & Lg & _ & _). unfold generate_fstrips_blocksworld_problem. rewrite Ei. cbn [bind fst snd].
  destruct (init_says sub n cl pi T Li Cl) as (m & Em & _). rewrite Em. cbn [bind]. rewrite Eg. cbn [bind fst snd]. destruct (goal_ok sub n pg T Lg) as (f & Ef & _). rewrite Ef. cbn [bind]. eauto.
Qed.
Lemma generated_parts sub n init goal pi pg p : places_typed sub -> chosen n init pi -> chosen n goal pg -> generate_fstrips_blocksworld_problem sub n init goal = Ok p ->
  p_actions p = [fmove_action] /\ proper (p_init p) /\ says n (p_init p) (at_of pi) (clear_in pi) /\ lays_out n pi /\ lays_out n pg /\
  (forall q b, m_holds (p_init p) q b = true -> q = fclear /\ exists z, In z (place_names n) /\ b = [fplace z]) /\
  (forall g b v, m_value (p_init p) g b = Ok v -> g = floc /\ exists x, In x (block_names n) /\ b = [fplace x]) /\
  (forall m at_ free, says n m at_ free -> exists b, eval_f m (p_goal p) = Ok b /\ (b = true <-> forall x y, In (x, y) pg -> at_ x = y)).
Proof.
  intros T Ci Cg. destruct (chosen_spec _ _ _ Ci) as (cl & Ei & Li & Cl & _). destruct (chosen_spec _ _ _ Cg) as (cl' & Eg & Lg & _ & _). unfold generate_fstrips_blocksworld_problem. rewrite Ei. cbn [bind fst snd].
  destruct (init_says sub n cl pi T Li Cl) as (m & Em & Pm & Sm & Hm & Vm). rewrite Em. cbn [bind]. rewrite Eg. cbn [bind fst snd]. destruct (goal_ok sub n pg T Lg) as (f & Ef & Hf). rewrite Ef. cbn [bind]. intros E. injection E as <-. cbn [p_actions p_init p_goal]. auto 10.
Qed.
Theorem C75_initial sub n init goal pi pg p : places_typed sub -> chosen n init pi -> chosen n goal pg -> generate_fstrips_blocksworld_problem sub n init goal = Ok p ->
  (forall x y, In x (block_names n) -> m_value (p_init p) floc [fplace x] = Ok (fplace y) <-> In (x, y) pi) /\
  (forall z, In z (place_names n) -> m_holds (p_init p) fclear [fplace z] = true <-> clear_in pi z) /\
  (forall q b, m_holds (p_init p) q b = true -> q = fclear /\ exists z, In z (place_names n) /\ b = [fplace z]) /\
  (forall g b v, m_value (p_init p) g b = Ok v -> g = floc /\ exists x, In x (block_names n) /\ b = [fplace x]).
Proof.
  intros T Ci Cg G. destruct (generated_parts _ _ _ _ _ _ _ T Ci Cg G) as (_ & _ & [A F] & Li & _ & H & V & _). split; [|auto]. intros x y Hx. rewrite (A x Hx). split.
  - intros E. assert (E' : fplace (at_of pi x) = fplace y) by congruence. apply fplace_inj in E'. rewrite <- E'. exact (lays_out_all n pi x Li Hx).
  - intros I. rewrite (at_of_In pi x y (lays_out_NoDup n pi Li) I). reflexivity.
Qed.
(** The goal is true exactly where the blocks are as the goal pattern says. *)
Theorem C75_goal sub n init goal pi pg p m at_ free : places_typed sub -> chosen n init pi -> chosen n goal pg -> generate_fstrips_blocksworld_problem sub n init goal = Ok p ->
  says n m at_ free -> (eval_f m (p_goal p) = Ok true <-> forall x y, In (x, y) pg -> at_ x = y) /\ (exists b, eval_f m (p_goal p) = Ok b).
Proof.
  intros T Ci Cg G S. destruct (generated_parts _ _ _ _ _ _ _ T Ci Cg G) as (_ & _ & _ & _ & _ & _ & _ & Hg). destruct (Hg m at_ free S) as (b & Eb & B). split; [|eauto]. rewrite Eb, <- B. split; congruence.
Qed.
(** Moving [x] to [y] is possible exactly if they differ, [x] is not there yet and both are clear. The block is then there, [y] is not clear any more unless it is the table, and everything else is as before:
    the place that [x] has left does not become clear. *)
Theorem C75_move sub n st at_ free x y pre effs : places_typed sub -> is_state sub (fs_model st) -> says n (fs_model st) at_ free -> In x (block_names n) -> In y (place_names n) ->
  ground_schema fmove_action (bind_move x y) = Ok (pre, effs) ->
  (is_applicable (fs_model st) pre = Ok true <-> x <> y /\ at_ x <> y /\ free x /\ free y) /\
  exists st', fprogress sub st effs = Ok st' /\
    says n (fs_model st') (fun z => if String.eqb z x then y else at_ z) (fun z => free z /\ (y = "table" \/ z <> y)).
Proof.
  intros T Sm S Hx Hy G. apply state_proper in Sm. rewrite move_ground in G. assert (Q : pre = move_pre x y /\ effs = move_effs x y) by (split; congruence). destruct Q as [-> ->]. split.
  - destruct (applicable_spec n _ _ _ x y S Hx Hy) as (b & Eb & B). rewrite Eb, <- B. split; congruence.
  - destruct (progress_spec sub n st at_ free x y T Sm S Hx Hy) as (st' & E & _ & S' & _). exists st'. split; [exact E|exact S'].
Qed.
(** So a block that is not clear at the start stays where it is, is never clear, and nothing is ever put on it: in every state that a plan reaches. *)
Theorem C75_covered_stays sub n init goal pi pg p plan st : places_typed sub -> chosen n init pi -> chosen n goal pg -> generate_fstrips_blocksworld_problem sub n init goal = Ok p ->
  legal n plan -> frun sub (first_state p) plan st -> exists at_ free, says n (fs_model st) at_ free /\ (forall z, free z -> clear_in pi z) /\
    (forall x y, In (x, y) pi -> at_ x = y \/ clear_in pi x /\ clear_in pi (at_ x)).
Proof.
  intros T Ci Cg G L R. destruct (generated_parts _ _ _ _ _ _ _ T Ci Cg G) as (_ & Pm & S & Li & _). destruct (run_inv sub n _ _ _ T R _ _ Pm S L) as (at' & free' & S' & _ & F & A & _).
  exists at', free'. split; [exact S'|]. split; [exact F|]. intros x y I. rewrite <- (at_of_In pi x y (lays_out_NoDup n pi Li) I). apply A.
Qed.
(** There is a plan exactly if every block that is not in its place is clear at the start, and so is its place. *)
Theorem C75_solvable sub n init goal pi pg p : places_typed sub -> chosen n init pi -> chosen n goal pg -> physical pg -> generate_fstrips_blocksworld_problem sub n init goal = Ok p ->
  (exists plan st, legal n plan /\ frun sub (first_state p) plan st /\ eval_f (fs_model st) (p_goal p) = Ok true) <->
  forall x y, In (x, y) pg -> In (x, y) pi \/ clear_in pi x /\ clear_in pi y.
Proof.
  intros T Ci Cg (pg' & Pp & St) G. destruct (generated_parts _ _ _ _ _ _ _ T Ci Cg G) as (_ & Pm & S & Li & Lg & _ & _ & Hg). split.
  - intros (plan & st & L & R & E) x y I. destruct (lays_out_In n pg x y Lg I) as [Hx _]. destruct (run_inv sub n _ _ _ T R _ _ Pm S L) as (at' & free' & S' & _ & F & A & _). destruct (Hg _ _ _ S') as (b & Eb & B). rewrite Eb in E. injection E as ->.
    assert (Q := proj1 B eq_refl x y I). destruct (A x) as [K|[K1 K2]]; [left; rewrite <- Q, K; exact (lays_out_all n pi x Li Hx)|right; rewrite <- Q; auto].
  - intros H. destruct (build sub n (first_state p) (at_of pi) (clear_in pi) pg' T Pm S (or_introl eq_refl) St) as (plan & st & at' & free' & L & R & P' & S' & B & _).
    + intros x y I. apply (Permutation_in _ Pp) in I. destruct (lays_out_In n pg x y Lg I) as [Hx Hy]. split; [exact Hx|]. split; [exact Hy|]. destruct (H x y I) as [K|K]; [left; exact (at_of_In pi x y (lays_out_NoDup n pi Li) K)|right; exact K].
    + exists plan, st. split; [exact L|]. split; [exact R|]. destruct (Hg _ _ _ S') as (b & Eb & Q). rewrite Eb. f_equal. apply Q. intros x y I. apply B. exact (Permutation_in _ (Permutation_sym Pp) I).
Qed.
(** After the first move the domains of the sorts place and object cannot be listed any more; before, and for the blocks, they can. *)
Theorem C75_domains sub n init goal pi pg p plan st : places_typed sub -> chosen n init pi -> chosen n goal pg -> generate_fstrips_blocksworld_problem sub n init goal = Ok p ->
  legal n plan -> frun sub (first_state p) plan st ->
  domain_list n st block_sort = Ok (block_names n) /\ domain_list n (first_state p) place_sort = Ok (place_names n) /\
  (plan <> [] -> domain_list n st place_sort = Err UndefinedElement /\ domain_list n st "object" = Err UndefinedElement).
Proof.
  intros T Ci Cg G L R. destruct (generated_parts _ _ _ _ _ _ _ T Ci Cg G) as (_ & Pm & S & _). destruct (run_inv sub n _ _ _ T R _ _ Pm S L) as (_ & _ & _ & _ & _ & _ & (l & El & Il)). cbn [first_state fs_none app] in El.
  split; [|split; [reflexivity|]].
  - unfold domain_list. rewrite El. replace (existsb (String.eqb block_sort) l) with false; [reflexivity|]. symmetry. apply not_true_is_false. intros K. apply existsb_exists in K as (s & K1 & K2). apply String.eqb_eq in K2. subst s. apply Il in K1 as [_ [K|K]]; discriminate.
  - intros N. unfold domain_list. rewrite El. assert (X : forall s, s = place_sort \/ s = "object" -> existsb (String.eqb s) l = true). { intros s Hs. apply existsb_exists. exists s. split; [apply Il; auto|apply String.eqb_refl]. }
    rewrite !X; auto.
Qed.

(** * Examples *)
Definition all_sub : sort -> sort -> bool := fun a b => String.eqb a b || String.eqb b place_sort || String.eqb b "object".
Lemma all_sub_typed : places_typed all_sub. Proof. repeat split; reflexivity. Qed.
(** The language of the generator, for every number of blocks: it is built without an error, its subtype relation is the one the theorems above require (so they all apply with it),
    and the constants of its two sorts are the blocks and the places. *)
Theorem C75_language parse n : exists st, generate_fstrips_bw_language parse n = Ok st /\
  (forall fuel, 4 <= fuel -> let sub := Counters.lsub fuel (Theories.t_lang st) in places_typed sub /\ sub place_sort block_sort = false /\ sub block_sort "object" = true /\ sub "object" place_sort = false) /\
  Lang.sort_domain (Theories.t_lang st) block_sort = Ok (map CStr (block_names n)) /\ Lang.sort_domain (Theories.t_lang st) place_sort = Ok (map CStr (place_names n)) /\
  (forall x, In x (place_names n) -> Lang.lget (Theories.t_lang st) (CStr x) = Ok (Lang.EConst (CStr x) (if String.eqb x "table" then place_sort else block_sort))).
Proof.
  exists (bwtlang (block_names n)). split; [apply bw_language_spec|]. split; [|].
  - intros fuel F. cbn zeta. unfold places_typed. rewrite !(bw_sub (block_names n) fuel F) by (cbn; auto). repeat split; reflexivity.
  - destruct (bw_domain (block_names n)) as [D1 D2]; [constructor; [apply block_names_table|apply block_names_NoDup]|]. split; [exact D1|]. split; [exact D2|]. intros x [<-|Hx]; [reflexivity|].
    assert (T : String.eqb x "table" = false) by (apply String.eqb_neq; intros ->; exact (block_names_table n Hx)). rewrite T. apply bw_get; [|exact Hx]. intros c Hc. unfold block_names in Hc. apply in_map_iff in Hc as (k & <- & _). apply block_name_free.
Qed.
Definition tower12 : list (string * string) := [("b1", "b2"); ("b2", "table")].
Definition tower21 : list (string * string) := [("b1", "table"); ("b2", "b1")].
Lemma given_chosen n pat : List.length pat = n -> lays_out n pat -> chosen n (Given pat) pat.
Proof. intros E L. split; [|exact L]. cbn [pattern_of]. apply Nat.eqb_eq in E. rewrite E. eauto. Qed.
Lemma tower12_chosen : chosen 2 (Given tower12) tower12.
Proof. apply given_chosen; [reflexivity|]. split; [apply Permutation_refl|]. apply Forall_forall; intros xy [<-|[<-|[]]]; cbn; auto. Qed.
Lemma tower21_chosen : chosen 2 (Given tower21) tower21.
Proof. apply given_chosen; [reflexivity|]. split; [apply Permutation_refl|]. apply Forall_forall; intros xy [<-|[<-|[]]]; cbn; auto. Qed.
Lemma tower21_physical : physical tower21.
Proof. exists tower21. split; [apply Permutation_refl|]. apply (st_put [("b1", "table")] "b2" "b1"); [apply (st_put [] "b1" "table"); [constructor|intros []|auto]|cbn; intros [K|[]]; discriminate|right; cbn; split; [auto|intros [K|[]]; discriminate]]. Qed.
(** Two blocks, b1 on b2: the tower can be turned round in the world, but no plan of the generated problem does it. *)
Theorem C75_reversal_refuted : exists p, generate_fstrips_blocksworld_problem all_sub 2 (Given tower12) (Given tower21) = Ok p /\
  (exists steps, moves {| towers := [["b1"; "b2"]]; hand := None |} steps {| towers := [["b2"; "b1"]]; hand := None |}) /\
  ~ exists plan st, legal 2 plan /\ frun all_sub (first_state p) plan st /\ eval_f (fs_model st) (p_goal p) = Ok true.
Proof.
  destruct (C75_generates all_sub 2 _ _ _ _ all_sub_typed tower12_chosen tower21_chosen) as [p G]. exists p. split; [exact G|]. split.
  - exists [("unstack", ["b1"; "b2"]); ("put-down", ["b1"]); ("pick-up", ["b2"]); ("stack", ["b2"; "b1"])].
    eapply ms_cons; [apply (m_unstack _ "b1" "b2" [] []); [apply Permutation_refl|reflexivity]|].
    eapply ms_cons; [apply (m_put_down _ "b1"); reflexivity|]. cbn [towers].
    eapply ms_cons; [apply (m_pick_up _ "b2" [["b1"]]); [apply perm_swap|reflexivity]|].
    eapply ms_cons; [apply (m_stack _ "b2" "b1" [] []); [apply Permutation_refl|reflexivity]|]. constructor.
  - rewrite (C75_solvable all_sub 2 _ _ _ _ p all_sub_typed tower12_chosen tower21_chosen tower21_physical G). intros H. destruct (H "b2" "b1") as [K|[K _]]; [right; left; reflexivity| |].
    + destruct K as [K|[K|[]]]; discriminate.
    + destruct K as [K|K]; [discriminate|]. apply K. left. reflexivity.
Qed.
(** From the table every tower can be built. *)
Definition flat2 : list (string * string) := [("b1", "table"); ("b2", "table")].
Theorem C75_nonvacuous : chosen 2 (Given flat2) flat2 /\ chosen 2 (Given tower21) tower21 /\ physical tower21 /\ places_typed all_sub /\
  exists p, generate_fstrips_blocksworld_problem all_sub 2 (Given flat2) (Given tower21) = Ok p /\ exists plan st, legal 2 plan /\ frun all_sub (first_state p) plan st /\ plan <> [] /\ eval_f (fs_model st) (p_goal p) = Ok true.
Proof.
  assert (Cf : chosen 2 (Given flat2) flat2). { apply given_chosen; [reflexivity|]. split; [apply Permutation_refl|]. apply Forall_forall; intros xy [<-|[<-|[]]]; cbn; auto. }
  split; [exact Cf|]. split; [exact tower21_chosen|]. split; [exact tower21_physical|]. split; [exact all_sub_typed|]. destruct (C75_generates all_sub 2 _ _ _ _ all_sub_typed Cf tower21_chosen) as [p G]. exists p. split; [exact G|].
  assert (X := proj2 (C75_solvable all_sub 2 _ _ _ _ p all_sub_typed Cf tower21_chosen tower21_physical G)). destruct X as (plan & st & L & R & E).
  - intros x y [I|[I|[]]]; injection I as <- <-; right; (split; [right; cbn; intros [K|[K|[]]]; discriminate|]); [left; reflexivity|right; cbn; intros [K|[K|[]]]; discriminate].
  - exists plan, st. split; [exact L|]. split; [exact R|]. split; [|exact E]. intros ->. inversion R as [st0 E0|]. subst st st0. destruct (C75_goal all_sub 2 _ _ _ _ p (p_init p) (at_of flat2) (clear_in flat2) all_sub_typed Cf tower21_chosen G) as [Q _].
    + destruct (generated_parts _ _ _ _ _ _ _ all_sub_typed Cf tower21_chosen G) as (_ & _ & S & _). exact S.
    + cbn [first_state fs_model] in E. assert (K := proj1 Q E "b2" "b1" (or_intror (or_introl eq_refl))). discriminate K.
Qed.
