(** C78: walkers over problems (fstrips/walker.py, syntax/walker.py, fstrips/ops.py) *)
From Verif Require Import Base Syntax Semantics Effects Represent Grounding Simplify Walker WalkerSpec WalkerProofs WalkerProofs2 WalkerProofs3.
From Coq Require Import Sorting.Sorted.
#[local] Open Scope string_scope.
#[local] Open Scope list_scope.

Definition options (r : list (bool * node)) : list (bool * option node) := map (fun x => (fst x, Some (snd x))) r.
Lemma recorder_keeps c n s : recorder c n s = let! s' := record_step c n s in Ok (Keep n, s').
Proof. reflexivity. Qed.
Lemma logs_fine ns : forallb analysable_node ns = true -> Forall fine ns /\ no_reject (flat_map log ns).
Proof.
  intros H. rewrite forallb_forall in H. split; [apply Forall_forall; intros n I; exact (proj1 (fine_node n (H n I)))|]. intros I. apply in_flat_map in I as (n & In' & I). exact (proj2 (fine_node n (H n In')) I).
Qed.
(** Every place is visited once, parts before the whole and from left to right, and the walker knows whether it is in an effect. *)
Theorem C78_visits p : forallb analysable_node (visited p) = true ->
  exists c s ps, visit_problem recorder p (new_walker []) = Ok (p, (c, s)) /\ all_places (visited p) ps /\ options s = map (fun q => (in_effect_of (visited p) q, at_place_of (visited p) q)) ps.
Proof.
  intros H. apply logs_fine in H as [F N]. rewrite (keep_problem _ record_step recorder (fun c n s _ => eq_refl) (fun c e s => eq_refl)).
  destruct (play_records _ N None []) as (c & E & _). unfold new_walker. rewrite E. cbn [bind]. exists c, (recs false (flat_map log (visited p))). destruct (fine_list _ F) as [_ (ps & A & B & C)]. exists ps. split; [reflexivity|]. split; [split; assumption|exact C].
Qed.
Theorem C78_run n c s : analysable_node n = true -> told c = false ->
  exists c' r ps, run recorder n (c, s) = Ok (Keep n, (c', s ++ r)) /\ told c' = false /\ all_places [n] ps /\ options r = map (fun q => (in_effect_of [n] q, at_place_of [n] q)) ps.
Proof.
  intros H T. assert (X : forallb analysable_node [n] = true) by (cbn [forallb]; rewrite H; reflexivity). apply logs_fine in X as [F N]. assert (L : flat_map log [n] = log n) by (cbn [flat_map]; apply app_nil_r). rewrite L in N.
  rewrite (keep_run _ record_step recorder (fun c n s _ => eq_refl) (fun c e s => eq_refl)). destruct (play_records _ N c s) as (c' & E & K). rewrite E. cbn [bind]. destruct (fine_list _ F) as [G (ps & A & B & C)]. rewrite L in G, C.
  exists c', (recs (told c) (log n)), ps. split; [reflexivity|]. rewrite T in *. split; [congruence|]. split; [split; assumption|exact C].
Qed.
(** No place is visited twice. *)
Lemma before_irreflexive p : ~ comes_before p p.
Proof.
  intros [(r & N & E)|(c & i & j & r & r' & L & E1 & E2)].
  - apply N. rewrite <- (app_nil_r p) in E at 1. apply app_inv_head in E. congruence.
  - rewrite E1 in E2. apply app_inv_head in E2. injection E2 as -> _. lia.
Qed.
Theorem C78_once ns ps : all_places ns ps -> NoDup ps.
Proof. intros [S _]. induction S as [|p ps S IH H]; constructor; [|exact IH]. intros I. rewrite Forall_forall in H. exact (before_irreflexive p (H p I)). Qed.
(** Whatever it does besides, a walker that gives back each node leaves the problem as it is; with effects of other kinds the walk is an error. *)
Theorem C78_keeps {S} (h : option context -> node -> S -> res (reply * S)) p st : (forall c n s, exists s', h c n s = Ok (Keep n, s')) ->
  if forallb analysable_node (visited p) then exists st', visit_problem h p st = Ok (p, st') else visit_problem h p st = Err RuntimeError.
Proof.
  intros H. set (r := fun c n s => let! x := h c n s in Ok (snd x)).
  assert (He : forall c n s, h c n s = let! s' := r c n s in Ok (Keep n, s')). { intros c n s. unfold r. destruct (H c n s) as [s' ->]. reflexivity. }
  assert (Ht : forall c n s, exists s', r c n s = Ok s'). { intros c n s. unfold r. destruct (H c n s) as [s' ->]. exists s'. reflexivity. }
  rewrite (keep_problem S r h (fun c n s _ => He c n s) (fun c e s => He c (NE e) s)). destruct (forallb analysable_node (visited p)) eqn:A.
  - apply logs_fine in A as [_ N]. revert N st. generalize (flat_map log (visited p)). intros l. induction l as [|x l IH]; intros N st; [exists st; reflexivity|]. assert (N' : no_reject l) by (intros I; apply N; right; exact I). cbn [play].
    destruct x as [n| | |]; cbn [step bind]; [destruct (Ht (fst st) n (snd st)) as [s' ->]; cbn [bind]; apply IH; exact N'|apply IH; exact N'|apply IH; exact N'|exfalso; apply N; left; reflexivity].
  - assert (R : In Reject (flat_map log (visited p))). { apply in_flat_map. assert (X : exists n, In n (visited p) /\ analysable_node n = false). { clear - A. induction (visited p) as [|n l IH]; [discriminate|]. cbn [forallb] in A. destruct (analysable_node n) eqn:E; [destruct (IH A) as (m & I & K); exists m; split; [right; exact I|exact K]|exists n; split; [left; reflexivity|exact E]]. }
      destruct X as (n & I & K). exists n. split; [exact I|]. destruct n as [t|f|e]; try discriminate. exact (rejects e K). }
    rewrite (play_rejects r _ Ht R st). reflexivity.
Qed.
(** A walker that replaces nodes by nodes with the same meaning keeps the meaning of the problem. *)
Theorem C78_meaning {S} (h : option context -> node -> S -> res (reply * S)) p st : (forall c n s, exists m s', h c n s = Ok (Keep m, s') /\ same n m) ->
  wf (p_goal p) = true -> Forall (fun a => wf (a_pre a) = true /\ forallb wf_effect (a_effs a) = true) (p_actions p) ->
  exists p' st', visit_problem h p st = Ok (p', st') /\ p_init p' = p_init p /\ equivalent (p_goal p) (p_goal p') /\ Forall2 same_action (p_actions p) (p_actions p').
Proof.
  intros H Wg Wa. unfold visit_problem. destruct (proj2 (meaning_both S h H) (p_goal p) Wg st) as (g & s1 & -> & X). cbn [bind fst snd a_formula]. destruct (meaning_actions S h H (p_actions p) Wa s1) as (l & s2 & -> & Y). cbn [bind fst snd]. eexists _, s2. split; [reflexivity|]. cbn. auto.
Qed.
Theorem C78_meaning_expressions {S} (h : option context -> node -> S -> res (reply * S)) : (forall c n s, exists m s', h c n s = Ok (Keep m, s') /\ same n m) ->
  (forall f st, wf f = true -> exists g st', run h (NF f) st = Ok (Keep (NF g), st') /\ equivalent f g) /\ (forall t st, wf_term t = true -> exists u st', run h (NT t) st = Ok (Keep (NT u), st') /\ same_value t u).
Proof.
  intros H. split; intros x st W; [exact (proj2 (meaning_both S h H) x W st)|]. destruct (proj1 (meaning_both S h H) x W st) as (u & st' & E & X & _). exists u, st'. auto.
Qed.
(** Suppressed effects are gone, also from within universal effects, and all others stay in order. *)
Theorem C78_suppressed_effects {S} (h : option context -> node -> S -> res (reply * S)) (test : effect -> bool) a st :
  (forall c n s, expression n -> exists s', h c n s = Ok (Keep n, s')) -> (forall c e s, exists s', h c (NE e) s = Ok (if negb (universal e) && test e then Suppress else Keep (NE e), s')) ->
  forallb analysable (a_effs a) = true ->
  exists a' st', visit_action h a st = Ok (a', st') /\ a_name a' = a_name a /\ a_params a' = a_params a /\ a_pre a' = a_pre a /\ flat_map leaves (a_effs a') = filter (fun x => negb (test x)) (flat_map leaves (a_effs a)).
Proof. intros He Hn. exact (suppress_action S h test He Hn a st). Qed.
(** Suppressed atoms of a conjunction or disjunction are gone. *)
Theorem C78_suppressed_atoms {S} (h : option context -> node -> S -> res (reply * S)) (test : formula -> bool) k fs st :
  (forall c n s, exists s', h c n s = Ok (match n with NF f => if is_atom f && test f then Suppress else Keep n | _ => Keep n end, s')) -> forallb plain_atom fs = true ->
  exists st', run h (NF (Comp k fs)) st = Ok (Keep (NF (Comp k (filter (fun f => negb (test f)) fs))), st').
Proof.
  intros H W. cbn [run visit_f]. fold (@visit_f S h). destruct (conjuncts_kept S h test H fs W st) as (rs & s1 & -> & E). cbn [bind fst snd]. rewrite E. cbn [bind]. unfold visit. match goal with |- context [h ?c ?n ?s] => destruct (H c n s) as [s2 ->] end. cbn [is_atom andb bind fst snd]. eexists. reflexivity.
Qed.
(** With [raise_on_undefined], the walk is an error exactly if some node has no method. *)
Lemma in_recs b l m : (exists b', In (b', m) (recs b l)) <-> In (Visit m) l.
Proof.
  revert b. induction l as [|x l IH]; intros b; [split; [intros [b' []]|intros []]|]. destruct x as [n| | |]; cbn [recs In].
  - split; [intros (b' & [E|I]); [injection E as _ ->; left; reflexivity|right; apply (IH b); exists b'; exact I]|]. intros [E|I]; [injection E as ->; exists b; left; reflexivity|]. apply (IH b) in I as [b' I]. exists b'. right. exact I.
  - rewrite IH. split; [intros I; right; exact I|intros [E|I]; [discriminate|exact I]].
  - rewrite IH. split; [intros I; right; exact I|intros [E|I]; [discriminate|exact I]].
  - rewrite IH. split; [intros I; right; exact I|intros [E|I]; [discriminate|exact I]].
Qed.
Lemma visited_places ns m : forallb analysable_node ns = true -> In (Visit m) (flat_map log ns) <-> exists q, at_place_of ns q = Some m.
Proof.
  intros H. apply logs_fine in H as [F _]. destruct (fine_list _ F) as [_ (ps & _ & B & C)]. rewrite <- (in_recs false). split.
  - intros [b I]. apply (in_map (fun x => (fst x, Some (snd x)))) in I. rewrite C in I. apply in_map_iff in I as (q & E & _). exists q. cbn [fst snd] in E. congruence.
  - intros [q E]. assert (I : In q ps) by (apply B; rewrite E; discriminate). apply (in_map (fun p => (in_effect_of ns p, at_place_of ns p))) in I. rewrite <- C, E in I. apply in_map_iff in I as ([b n] & K & I). cbn [fst snd] in K. exists b. injection K as _ <-. exact I.
Qed.
Theorem C78_undefined {S} (methods : node -> option (option context -> S -> res (reply * S))) p st : (forall n f c s, methods n = Some f -> exists s', f c s = Ok (Keep n, s')) -> forallb analysable_node (visited p) = true ->
  ((exists q n, at_place_of (visited p) q = Some n /\ methods n = None) -> visit_problem (dispatch true methods) p st = Err TarskiError) /\
  ((forall q n, at_place_of (visited p) q = Some n -> methods n <> None) -> exists st', visit_problem (dispatch true methods) p st = Ok (p, st')) /\
  (exists st', visit_problem (dispatch false methods) p st = Ok (p, st')).
Proof.
  intros H A. set (r := fun c n s => let! x := dispatch true methods c n s in Ok (snd x)).
  assert (He : forall c n s, dispatch true methods c n s = let! s' := r c n s in Ok (Keep n, s')). { intros c n s. unfold r, dispatch. destruct (methods n) as [f|] eqn:E; [destruct (H n f c s E) as [s' ->]; reflexivity|reflexivity]. }
  assert (Hr : forall c n s, match methods n with Some _ => exists s', r c n s = Ok s' | None => r c n s = Err TarskiError end). { intros c n s. unfold r, dispatch. destruct (methods n) as [f|] eqn:E; [destruct (H n f c s E) as [s' ->]; exists s'; reflexivity|reflexivity]. }
  assert (P : forall l, no_reject l -> forall st, ((exists n, In (Visit n) l /\ methods n = None) -> play S r l st = Err TarskiError) /\ ((forall n, In (Visit n) l -> methods n <> None) -> exists st', play S r l st = Ok st')).
  { intros l. induction l as [|x l IH]; intros N s; [split; [intros (n & [] & _)|intros _; exists s; reflexivity]|]. assert (N' : no_reject l) by (intros I; apply N; right; exact I).
    destruct x as [n| | |]; cbn [play step].
    - assert (K := Hr (fst s) n (snd s)). destruct (methods n) as [f|] eqn:E.
      + destruct K as [s' ->]. cbn [bind]. destruct (IH N' (fst s, s')) as [I1 I2]. split.
        * intros (m & [K|K] & Em); [injection K as ->; congruence|]. apply I1. exists m. auto.
        * intros K. apply I2. intros m Im. apply K. right. exact Im.
      + rewrite K. cbn [bind]. split; [reflexivity|]. intros Z. exfalso. exact (Z n (or_introl eq_refl) E).
    - cbn [bind]. destruct (IH N' (Some InEffect, snd s)) as [I1 I2]. split; [intros (m & [K|K] & Em); [discriminate|]; apply I1; exists m; auto|intros K; apply I2; intros m Im; apply K; right; exact Im].
    - cbn [bind]. destruct (IH N' (Some InFormula, snd s)) as [I1 I2]. split; [intros (m & [K|K] & Em); [discriminate|]; apply I1; exists m; auto|intros K; apply I2; intros m Im; apply K; right; exact Im].
    - exfalso. apply N. left. reflexivity. }
  destruct (P _ (proj2 (logs_fine _ A)) st) as [P1 P2]. rewrite (keep_problem S r (dispatch true methods) (fun c n s _ => He c n s) (fun c e s => He c (NE e) s)). split; [|split].
  - intros (q & n & E & M). rewrite P1; [reflexivity|]. exists n. split; [apply visited_places; [exact A|exists q; exact E]|exact M].
  - intros K. destruct P2 as [st' ->]; [|exists st'; reflexivity]. intros n I. apply visited_places in I as [q E]; [|exact A]. exact (K q n E).
  - assert (X := C78_keeps (dispatch false methods) p st). rewrite A in X. apply X. intros c n s. unfold dispatch. destruct (methods n) as [f|] eqn:E; [exact (H n f c s E)|exists s; reflexivity].
Qed.

(** The symbols of a problem: those of the compound terms and atoms in it. *)
Definition symbol_of (n : node) : option sym := match n with NT (App f _) => Some (SymF f) | NF (Atom p _) => Some (SymP p) | _ => None end.
Definition symbols_at (n : node) : list sym := match symbol_of n with Some s => [s] | None => [] end.
Definition log_symbols (l : list ev) : list sym := flat_map (fun x => match x with Visit n => symbols_at n | _ => [] end) l.
Definition symbol_step (c : option context) (n : node) (s : list sym) : res (list sym) := Ok (s ++ symbols_at n).
Lemma all_symbols_keep c n s : dispatch false all_symbols c n s = let! s' := symbol_step c n s in Ok (Keep n, s').
Proof. unfold dispatch, symbol_step, symbols_at. destruct n as [[x t|x t|f ts|g a b]|[| |p ts|k fs|q vs g]|e]; cbn [all_symbols symbol_of bind]; rewrite ?app_nil_r; reflexivity. Qed.
Lemma play_symbols l : no_reject l -> forall c s, exists c', play _ symbol_step l (c, s) = Ok (c', s ++ log_symbols l).
Proof.
  induction l as [|x l IH]; intros N c s; [exists c; cbn; rewrite app_nil_r; reflexivity|]. assert (N' : no_reject l) by (intros I; apply N; right; exact I). destruct x as [n| | |]; cbn [play step symbol_step bind fst snd].
  - destruct (IH N' c (s ++ symbols_at n)) as [c' ->]. exists c'. unfold log_symbols. cbn [flat_map]. rewrite app_assoc. reflexivity.
  - exact (IH N' _ s).
  - exact (IH N' _ s).
  - exfalso. apply N. left. reflexivity.
Qed.
Lemma walked_symbols_eq b p : walked_symbols b p = if forallb analysable_node (visited p) then Ok (if b then log_symbols (flat_map log (visited p)) else filter (fun s => negb (sym_builtin s)) (log_symbols (flat_map log (visited p)))) else Err RuntimeError.
Proof.
  unfold walked_symbols. assert (K := C78_keeps (dispatch false all_symbols) p (new_walker [])). rewrite (keep_problem _ symbol_step _ (fun c n s _ => all_symbols_keep c n s) (fun c e s => all_symbols_keep c (NE e) s)) in *.
  destruct (forallb analysable_node (visited p)) eqn:A.
  - destruct (play_symbols _ (proj2 (logs_fine _ A)) None []) as [c' E]. unfold new_walker. rewrite E. reflexivity.
  - assert (E : forall (x : res (problem * state (list sym))), x = Err RuntimeError -> (let! r := x in Ok (if b then snd (snd r) else filter (fun s => negb (sym_builtin s)) (snd (snd r)))) = Err RuntimeError) by (intros x ->; reflexivity). apply E. apply K.
    intros c n s. rewrite all_symbols_keep. eexists. reflexivity.
Qed.
Theorem C78_symbols b p : if forallb analysable_node (visited p) then exists ss, walked_symbols b p = Ok ss /\ forall s, In s ss <-> (b = true \/ sym_builtin s = false) /\ exists q n, at_place_of (visited p) q = Some n /\ symbol_of n = Some s
  else walked_symbols b p = Err RuntimeError.
Proof.
  rewrite walked_symbols_eq. destruct (forallb analysable_node (visited p)) eqn:A; [|reflexivity].
  assert (X : forall s, In s (log_symbols (flat_map log (visited p))) <-> exists q n, at_place_of (visited p) q = Some n /\ symbol_of n = Some s).
  { intros s. unfold log_symbols. rewrite in_flat_map. split.
    - intros (x & I & K). destruct x as [n| | |]; try (destruct K; fail). apply visited_places in I as [q E]; [|exact A]. exists q, n. split; [exact E|]. unfold symbols_at in K. destruct (symbol_of n); [destruct K as [->|[]]; reflexivity|destruct K].
    - intros (q & n & E & K). exists (Visit n). split; [apply visited_places; [exact A|exists q; exact E]|]. unfold symbols_at. rewrite K. left. reflexivity. }
  eexists. split; [reflexivity|]. intros s. destruct b.
  - rewrite X. split; [intros H; split; [left; reflexivity|exact H]|intros [_ H]; exact H].
  - rewrite filter_In, X. split; [intros [H B]; split; [right; apply negb_true_iff; exact B|exact H]|intros [[B|B] H]; [discriminate|split; [exact H|apply negb_true_iff; exact B]]].
Qed.
(** This is the same as what is used for the simplification of problems (C31) ... *)
Lemma log_symbols_app a b : log_symbols (a ++ b) = log_symbols a ++ log_symbols b.
Proof. apply flat_map_app. Qed.
Lemma log_symbols_flat {A} (lg : A -> list ev) (sy : A -> list sym) l : Forall (fun x => log_symbols (lg x) = sy x) l -> log_symbols (flat_map lg l) = flat_map sy l.
Proof. intros H. induction H as [|x l Hx H IH]; [reflexivity|]. cbn [flat_map]. rewrite log_symbols_app, Hx, IH. reflexivity. Qed.
Lemma log_symbols_both : (forall t, log_symbols (log_t t) = symbols_t t) /\ (forall f, log_symbols (log_f f) = symbols_f f).
Proof.
  apply syntax_ind; intros; cbn [log_t log_f symbols_t symbols_f]; rewrite ?log_symbols_app; try reflexivity.
  - rewrite (log_symbols_flat log_t symbols_t) by assumption. reflexivity.
  - rewrite H, H0, H1. change (log_symbols [Visit (NT (Ite c t e))]) with (@nil sym). rewrite app_nil_r. reflexivity.
  - rewrite (log_symbols_flat log_t symbols_t) by assumption. reflexivity.
  - rewrite (log_symbols_flat log_f symbols_f) by assumption. change (log_symbols [Visit (NF (Comp c fs))]) with (@nil sym). apply app_nil_r.
  - rewrite H0, (log_symbols_flat log_t symbols_t) by assumption. change (log_symbols [Visit (NF (Quant q vs f))]) with (@nil sym). rewrite app_nil_r. reflexivity.
Qed.
Lemma log_symbols_e e : symbols_e e = if analysable e then Ok (log_symbols (log_e e)) else Err RuntimeError.
Proof.
  destruct log_symbols_both as [LT LF]. induction e as [c a|c a|i c l r|c vs es IH|c l|c] using effect_ind_nested; cbn [symbols_e analysable log_e]; try reflexivity.
  - rewrite log_symbols_app, LF. cbn [app]. change (Enter :: ?x) with ([Enter] ++ x). rewrite !log_symbols_app, LF. cbn. rewrite app_nil_r. reflexivity.
  - rewrite log_symbols_app, LF. cbn [app]. change (Enter :: ?x) with ([Enter] ++ x). rewrite !log_symbols_app, LF. cbn. rewrite app_nil_r. reflexivity.
  - rewrite !log_symbols_app, LF, !LT. cbn. rewrite app_nil_r. reflexivity.
  - assert (X : mapM symbols_e es = if forallb analysable es then Ok (map (fun e => log_symbols (log_e e)) es) else Err RuntimeError).
    { induction IH as [|x es Hx H IH]; [reflexivity|]. cbn [forallb map]. unfold mapM at 1. fold (mapM symbols_e es). rewrite Hx, IH. destruct (analysable x); [|reflexivity]. destruct (forallb analysable es); reflexivity. }
    rewrite X. destruct (forallb analysable es); [|reflexivity]. cbn [bind]. f_equal. rewrite log_symbols_app. change (log_symbols [Visit (NE (EUni c vs es))]) with (@nil sym). rewrite app_nil_r.
    clear. induction es as [|e es IH]; [reflexivity|]. cbn [map List.concat flat_map]. rewrite log_symbols_app, IH. reflexivity.
Qed.
Theorem C78_symbols_agree p : walked_symbols false p = collect_all_symbols (p_actions p) (p_goal p).
Proof.
  rewrite walked_symbols_eq. unfold collect_all_symbols, visited.
  assert (E : forall es, mapM symbols_e es = if forallb analysable es then Ok (map (fun e => log_symbols (log_e e)) es) else Err RuntimeError).
  { intros es. induction es as [|x es IH]; [reflexivity|]. cbn [forallb map]. unfold mapM at 1. fold (mapM symbols_e es). rewrite log_symbols_e, IH. destruct (analysable x); [|reflexivity]. destruct (forallb analysable es); reflexivity. }
  assert (E2 : forall es, List.concat (map (fun e => log_symbols (log_e e)) es) = log_symbols (flat_map log (map NE es))). { intros es. induction es as [|x es IH]; [reflexivity|]. cbn [map List.concat flat_map log]. rewrite log_symbols_app, IH. reflexivity. }
  assert (E3 : forall es, forallb analysable_node (map NE es) = forallb analysable es). { intros es. induction es as [|x es IH]; [reflexivity|]. cbn [map forallb analysable_node]. rewrite IH. reflexivity. }
  assert (A : forall l, mapM symbols_a l = if forallb analysable_node (flat_map (fun a => NF (a_pre a) :: map NE (a_effs a)) l) then Ok (map (fun a => log_symbols (flat_map log (NF (a_pre a) :: map NE (a_effs a)))) l) else Err RuntimeError).
  { intros l. induction l as [|a l IH]; [reflexivity|]. cbn [flat_map]. rewrite forallb_app. unfold mapM at 1. fold (mapM symbols_a l). rewrite IH. unfold symbols_a at 1. rewrite E. cbn [forallb analysable_node andb]. rewrite E3. destruct (forallb analysable (a_effs a)); [|reflexivity]. cbn [bind andb].
    destruct (forallb analysable_node (flat_map _ l)); [|reflexivity]. cbn [map]. rewrite E2. cbn [flat_map log]. rewrite log_symbols_app, (proj2 log_symbols_both). reflexivity. }
  rewrite A. cbn [forallb analysable_node andb]. destruct (forallb analysable_node _); [|reflexivity]. cbn [bind]. do 2 f_equal. cbn [flat_map log]. rewrite log_symbols_app, (proj2 log_symbols_both). f_equal.
  induction (p_actions p) as [|a l IH]; [reflexivity|]. cbn [map List.concat]. rewrite <- IH. cbn [flat_map log]. rewrite ?log_symbols_app, ?flat_map_app, ?log_symbols_app. cbn [flat_map log]. rewrite ?log_symbols_app. reflexivity.
Qed.
(** ... and the symbols that effects change are those that are used for fluents (C40). *)
Definition affected_step (c : option context) (n : node) (s : list sym) : res (list sym) := let! r := dispatch false affected_symbols c n s in Ok (snd r).
Lemma affected_keep c n s : dispatch false affected_symbols c n s = let! s' := affected_step c n s in Ok (Keep n, s').
Proof. unfold affected_step, dispatch. destruct n as [t|f|[k a|k a|i k l r|k vs es|k l|k]]; cbn [affected_symbols bind]; try reflexivity; [destruct a|destruct a|destruct l]; reflexivity. Qed.
Lemma affected_visits l : visits_only l -> (forall n, In (Visit n) l -> expression n) -> forall c s, play _ affected_step l (c, s) = Ok (c, s).
Proof.
  intros V. induction V as [|x l [n ->] V IH]; intros H c s; [reflexivity|]. cbn [play step]. assert (X := H n (or_introl eq_refl)). destruct n as [t|f|e]; [| |destruct X]; cbn; (apply IH; intros m I; apply H; right; exact I).
Qed.
Lemma expressions_only : (forall t n, In (Visit n) (log_t t) -> expression n) /\ (forall f n, In (Visit n) (log_f f) -> expression n).
Proof.
  assert (F : forall {A} (lg : A -> list ev) l, Forall (fun x => forall n, In (Visit n) (lg x) -> expression n) l -> forall n, In (Visit n) (flat_map lg l) -> expression n). { intros A lg l H n I. apply in_flat_map in I as (x & Ix & I). rewrite Forall_forall in H. exact (H x Ix n I). }
  apply syntax_ind; cbn [log_t log_f]; intros; repeat (match goal with H : In _ (_ ++ _) |- _ => apply in_app_or in H as [H|H] end); try (match goal with H : In (Visit _) [_] |- _ => destruct H as [H|[]]; injection H as <-; exact I end); eauto.
Qed.
Lemma play_affected e : forall c s, match affected e with Ok l => exists c', play _ affected_step (log_e e) (c, s) = Ok (c', s ++ l) | Err x => play _ affected_step (log_e e) (c, s) = Err x end.
Proof.
  destruct log_visits as [VT VF]. destruct expressions_only as [ET EF]. assert (PF : forall f c s, play _ affected_step (log_f f) (c, s) = Ok (c, s)) by (intros; apply affected_visits; [apply VF|apply EF]). assert (PT : forall t c s, play _ affected_step (log_t t) (c, s) = Ok (c, s)) by (intros; apply affected_visits; [apply VT|apply ET]).
  induction e as [k a|k a|i k l r|k vs es IH|k l|k] using effect_ind_nested; intros c s; cbn [log_e].
  - rewrite play_app, PF. cbn [bind app play step fst snd]. rewrite play_app, PF. cbn [bind play step fst snd]. unfold affected_step, dispatch. cbn [affected_symbols]. destruct a; cbn [affected bind fst snd]; try reflexivity. eexists. reflexivity.
  - rewrite play_app, PF. cbn [bind app play step fst snd]. rewrite play_app, PF. cbn [bind play step fst snd]. unfold affected_step, dispatch. cbn [affected_symbols]. destruct a; cbn [affected bind fst snd]; try reflexivity. eexists. reflexivity.
  - rewrite play_app, PF. cbn [bind app play step fst snd]. rewrite play_app, PT. cbn [bind play step fst snd]. rewrite play_app, PT. cbn [bind play step fst snd]. unfold affected_step, dispatch. cbn [affected_symbols]. destruct l; cbn [affected bind fst snd]; try reflexivity. eexists. reflexivity.
  - cbn [affected]. assert (X : forall c s, match mapM affected es with Ok l => exists c', play _ affected_step (flat_map log_e es) (c, s) = Ok (c', s ++ List.concat l) | Err x => play _ affected_step (flat_map log_e es) (c, s) = Err x end).
    { clear c s. induction IH as [|x es Hx H IH]; intros c s; [exists c; cbn; rewrite app_nil_r; reflexivity|]. unfold mapM. fold (mapM affected es). cbn [flat_map]. specialize (Hx c s). rewrite play_app. destruct (affected x) as [l|er]; [|rewrite Hx; reflexivity]. destruct Hx as [c1 ->]. cbn [bind].
      specialize (IH c1 (s ++ l)). destruct (mapM affected es) as [ls|er]; [|exact IH]. destruct IH as [c2 ->]. exists c2. cbn [List.concat]. rewrite app_assoc. reflexivity. }
    specialize (X c s). rewrite play_app. destruct (mapM affected es) as [l|er]; [|rewrite X; reflexivity]. destruct X as [c1 ->]. cbn [bind]. exists c1. reflexivity.
  - reflexivity.
  - reflexivity.
Qed.
Theorem C78_affected_agree acts : walked_affected acts = collect_affected_symbols acts.
Proof.
  unfold walked_affected, collect_affected_symbols, new_walker.
  assert (R : forall ns st, run_all (dispatch false affected_symbols) ns st = play _ affected_step (flat_map log ns) st).
  { intros ns. induction ns as [|n ns IH]; intros st; [reflexivity|]. cbn [run_all flat_map]. rewrite (keep_run _ affected_step _ (fun c n s _ => affected_keep c n s) (fun c e s => affected_keep c (NE e) s)), play_app. destruct (play _ _ (log n) st) as [s1|]; [|reflexivity]. cbn [bind snd]. apply IH. }
  assert (E : forall es c s, match mapM affected es with Ok l => exists c', play _ affected_step (flat_map log (map NE es)) (c, s) = Ok (c', s ++ List.concat l) | Err x => play _ affected_step (flat_map log (map NE es)) (c, s) = Err x end).
  { intros es. induction es as [|x es IH]; intros c s; [exists c; cbn; rewrite app_nil_r; reflexivity|]. unfold mapM. fold (mapM affected es). cbn [map flat_map log]. assert (Hx := play_affected x c s). rewrite play_app. destruct (affected x) as [l|er]; [|rewrite Hx; reflexivity]. destruct Hx as [c1 ->]. cbn [bind].
    specialize (IH c1 (s ++ l)). destruct (mapM affected es) as [ls|er]; [|exact IH]. destruct IH as [c2 ->]. exists c2. cbn [List.concat]. rewrite app_assoc. reflexivity. }
  assert (A : forall l c s, match mapM (fun a => let! l := mapM affected (a_effs a) in Ok (List.concat l)) l with Ok ls => exists c', play _ affected_step (flat_map log (flat_map (fun a => map NE (a_effs a)) l)) (c, s) = Ok (c', s ++ List.concat ls) | Err x => play _ affected_step (flat_map log (flat_map (fun a => map NE (a_effs a)) l)) (c, s) = Err x end).
  { intros l. induction l as [|a l IH]; intros c s; [exists c; cbn; rewrite app_nil_r; reflexivity|]. cbn [flat_map]. rewrite flat_map_app, play_app. unfold mapM at 1. fold (mapM (fun a => let! l := mapM affected (a_effs a) in Ok (List.concat l)) l). assert (X := E (a_effs a) c s). destruct (mapM affected (a_effs a)) as [x|er]; [|rewrite X; reflexivity]. destruct X as [c1 ->]. cbn [bind].
    specialize (IH c1 (s ++ List.concat x)). destruct (mapM _ l) as [ls|er]; [|exact IH]. destruct IH as [c2 ->]. exists c2. cbn [List.concat]. rewrite app_assoc. reflexivity. }
  rewrite R. specialize (A acts None []). destruct (mapM _ acts) as [ls|er]; [|rewrite A; reflexivity]. destruct A as [c' ->]. reflexivity.
Qed.

(** * Known limits, and examples *)
Definition at_p (n : string) (ts : list term) : formula := Atom (PU n (map (fun _ => "object") ts)) ts.
Definition vx : term := Var "x" "object".
Definition ca : term := Cst (CStr "a") "object".
Definition count : term := App (FU "count" ["object"] "object") [ca].
(** The condition of a universal effect is not visited, so its symbols are not found. A conjunction all of whose atoms are suppressed stays as a conjunction of nothing, which cannot be built otherwise. *)
Theorem C78_universal_condition_refuted m : let a := {| a_name := "act"; a_params := []; a_pre := Top; a_effs := [EUni (at_p "q" [ca]) [vx] [EAdd (at_p "r" [vx]) (at_p "p" [vx])]] |} in
  walked_symbols true {| p_actions := [a]; p_init := m; p_goal := Top |} = Ok [SymP (PU "r" ["object"]); SymP (PU "p" ["object"])] /\ visit_f (dispatch false (fun n => match n with NF (Atom _ _) => Some (fun _ s => Ok (Suppress, s)) | _ => None end)) (Comp And [at_p "p" [ca]; at_p "q" [ca]]) (new_walker tt) = Ok (Keep (NF (Comp And [])), (None, tt)) /\ wf (Comp And []) = false.
Proof. split; [|split]; vm_compute; reflexivity. Qed.
Definition example_action : action := {| a_name := "act"; a_params := [vx]; a_pre := Comp Not [Comp Not [at_p "p" [vx]]]; a_effs := [EUni Top [vx] [EAdd (at_p "p" [vx]) (at_p "q" [vx]); EDel Top (at_p "p" [vx])]; EFun false Top count vx] |}.
Definition example_goal : formula := Quant QEx [vx] (Comp Not [Comp Not [at_p "p" [vx]]]).
Definition doubles (c : option context) (n : node) (s : nat) : res (reply * nat) := Ok (Keep (match n with NF (Comp Not [Comp Not [f]]) => NF f | _ => n end), S s).
Lemma doubles_same c n s : exists m s', doubles c n s = Ok (Keep m, s') /\ same n m.
Proof.
  unfold doubles. eexists _, _. split; [reflexivity|]. destruct n as [t|f|e]; [split; [intros M v; reflexivity|intros _; reflexivity]| |reflexivity]. assert (R : equivalent f f) by (intros M v; reflexivity).
  destruct f as [| |p ts|k fs|q vs g]; try exact R. destruct k; try exact R. destruct fs as [|f1 [|f2 fs]]; try exact R; [|destruct f1 as [| |p ts|k gs|q vs g]; try exact R; destruct k; try exact R; destruct gs as [|? [|]]; exact R].
  destruct f1 as [| |p ts|k gs|q vs g]; try exact R. destruct k; try exact R. destruct gs as [|g1 [|g2 gs]]; try exact R. intros M v. cbn [fsem]. apply negb_involutive.
Qed.
Theorem C78_nonvacuous m : let p := {| p_actions := [example_action]; p_init := m; p_goal := example_goal |} in
  forallb analysable_node (visited p) = true /\ wf (p_goal p) = true /\ Forall (fun a => wf (a_pre a) = true /\ forallb wf_effect (a_effs a) = true) (p_actions p) /\ (forall c n s, exists n' s', doubles c n s = Ok (Keep n', s') /\ same n n') /\
  (exists a' s', visit_problem doubles p (new_walker 0) = Ok ({| p_actions := [a']; p_init := m; p_goal := Quant QEx [vx] (at_p "p" [vx]) |}, s') /\ a_pre a' = at_p "p" [vx] /\ a_effs a' = a_effs example_action) /\
  at_place_of (visited p) [2; 0; 1; 0] = Some (NT vx) /\ in_effect_of (visited p) [2; 0; 1; 0] = true /\ in_effect_of (visited p) [2; 0; 0] = false /\
  (exists a' s', visit_action (dispatch false (fun n => match n with NE (EDel _ _) => Some (fun _ s => Ok (Suppress, s)) | _ => None end)) example_action (new_walker tt) = Ok (a', s') /\ flat_map leaves (a_effs a') = [EAdd (at_p "p" [vx]) (at_p "q" [vx]); EFun false Top count vx]) /\
  walked_affected [example_action] = Ok [SymP (PU "q" ["object"]); SymP (PU "p" ["object"]); SymF (FU "count" ["object"] "object")].
Proof.
  split; [vm_compute; reflexivity|]. split; [vm_compute; reflexivity|]. split; [constructor; [split; vm_compute; reflexivity|constructor]|]. split; [exact doubles_same|]. split.
  { exists {| a_name := "act"; a_params := [vx]; a_pre := at_p "p" [vx]; a_effs := a_effs example_action |}, (Some InFormula, 25). split; [vm_compute; reflexivity|split; reflexivity]. }
  split; [reflexivity|]. split; [reflexivity|]. split; [reflexivity|]. split.
  { exists {| a_name := "act"; a_params := [vx]; a_pre := a_pre example_action; a_effs := [EUni Top [vx] [EAdd (at_p "p" [vx]) (at_p "q" [vx])]; EFun false Top count vx] |}, (Some InFormula, tt). split; vm_compute; reflexivity. }
  vm_compute. reflexivity.
Qed.
