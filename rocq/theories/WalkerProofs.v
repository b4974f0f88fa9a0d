(** Walkers that keep every node *)
From Verif Require Import Base Syntax Effects Represent Walker WalkerSpec.
From Coq Require Import Sorting.Sorted.

Inductive ev := Visit (n : node) | Enter | Exit | Reject.
Fixpoint log_t (t : term) : list ev :=
  match t with
  | Var _ _ | Cst _ _ => [Visit (NT t)]
  | App f ts => flat_map log_t ts ++ [Visit (NT t)]
  | Ite c a b => log_f c ++ log_t a ++ log_t b ++ [Visit (NT t)]
  end%list
with log_f (f : formula) : list ev :=
  match f with
  | Top | Bot => [Visit (NF f)]
  | Atom p ts => flat_map log_t ts ++ [Visit (NF f)]
  | Comp c fs => flat_map log_f fs ++ [Visit (NF f)]
  | Quant q vs g => log_f g ++ flat_map log_t vs ++ [Visit (NF f)]
  end%list.
Fixpoint log_e (e : effect) : list ev :=
  match e with
  | EAdd c a | EDel c a => log_f c ++ [Enter] ++ log_f a ++ [Exit; Visit (NE e)]
  | EFun _ c l r => log_f c ++ [Enter] ++ log_t l ++ [Exit; Enter] ++ log_t r ++ [Exit; Visit (NE e)]
  | EUni c vs es => flat_map log_e es ++ [Visit (NE e)]
  | ELit _ _ | EOther _ => [Reject]
  end%list.
Definition log (n : node) : list ev := match n with NT t => log_t t | NF f => log_f f | NE e => log_e e end.

Section Keep.
Variable S : Type.
Variable r : option context -> node -> S -> res S.
Variable h : option context -> node -> S -> res (reply * S).
Definition expression (n : node) : Prop := match n with NE _ => False | _ => True end.
Hypothesis He : forall c n s, expression n -> h c n s = let! s' := r c n s in Ok (Keep n, s').
Definition step (st : state S) (x : ev) : res (state S) :=
  match x with Visit n => let! s' := r (fst st) n (snd st) in Ok (fst st, s') | Enter => Ok (Some InEffect, snd st) | Exit => Ok (Some InFormula, snd st) | Reject => Err RuntimeError end.
Fixpoint play (l : list ev) (st : state S) : res (state S) := match l with [] => Ok st | x :: l' => let! st' := step st x in play l' st' end.
Lemma play_app a b st : play (a ++ b) st = let! s := play a st in play b s.
Proof. revert st. induction a as [|x a IH]; intros st; [reflexivity|]. cbn [play app]. destruct (step st x); [cbn [bind]; apply IH|reflexivity]. Qed.
Lemma visit_keep n st : expression n -> visit h n st = let! s := play [Visit n] st in Ok (Keep n, s).
Proof. intros X. unfold visit. rewrite He by exact X. cbn [play step]. destruct (r (fst st) n (snd st)); reflexivity. Qed.
Lemma walk_keep {A} (go : A -> state S -> res (reply * state S)) (lg : A -> list ev) (nd : A -> node) xs :
  Forall (fun x => forall st, go x st = let! s := play (lg x) st in Ok (Keep (nd x), s)) xs ->
  forall st, walk_list go xs st = let! s := play (flat_map lg xs) st in Ok (map (fun x => Keep (nd x)) xs, s).
Proof.
  intros H. induction H as [|x xs Hx H IH]; intros st; [reflexivity|]. cbn [walk_list flat_map map]. rewrite Hx, play_app. destruct (play (lg x) st) as [s|]; [|reflexivity]. cbn [bind fst snd].
  rewrite IH. destruct (play (flat_map lg xs) s); reflexivity.
Qed.
Lemma accept_terms_keep ts : accept_terms (map (fun t => Keep (NT t)) ts) = Ok ts.
Proof. induction ts as [|t ts IH]; [reflexivity|]. cbn [map accept_terms]. rewrite IH. reflexivity. Qed.
Lemma accept_formulas_keep ts : accept_formulas (map (fun t => Keep (NF t)) ts) = Ok ts.
Proof. induction ts as [|t ts IH]; [reflexivity|]. cbn [map accept_formulas]. rewrite IH. reflexivity. Qed.
Lemma accept_effects_keep ts : accept_effects (map (fun t => Keep (NE t)) ts) = Ok ts.
Proof. induction ts as [|t ts IH]; [reflexivity|]. cbn [map accept_effects]. rewrite IH. reflexivity. Qed.
Ltac pl := repeat (rewrite ?play_app; cbn [bind fst snd]); match goal with |- context [play ?l ?s] => destruct (play l s) as [?s|]; [|reflexivity]; cbn [bind fst snd] end.
Lemma keep_both : (forall t st, visit_t h t st = let! s := play (log_t t) st in Ok (Keep (NT t), s)) /\ (forall f st, visit_f h f st = let! s := play (log_f f) st in Ok (Keep (NF f), s)).
Proof.
  apply syntax_ind.
  - intros x s st. apply visit_keep; exact I.
  - intros x s st. apply visit_keep; exact I.
  - intros f ts H st. cbn [visit_t log_t]. rewrite (walk_keep (visit_t h) log_t NT ts H), play_app. destruct (play (flat_map log_t ts) st) as [s|]; [|reflexivity]. cbn [bind fst snd]. rewrite accept_terms_keep. cbn [bind]. apply visit_keep; exact I.
  - intros c t e Hc Ht Hee st. cbn [visit_t log_t]. rewrite Hc, !play_app. destruct (play (log_f c) st) as [s|]; [|reflexivity]. cbn [bind fst snd a_formula]. rewrite Ht, play_app. destruct (play (log_t t) s) as [s1|]; [|reflexivity]. cbn [bind fst snd].
    rewrite Hee, play_app. destruct (play (log_t e) s1) as [s2|]; [|reflexivity]. cbn [bind fst snd accept_terms]. apply visit_keep; exact I.
  - intros st. apply visit_keep; exact I.
  - intros st. apply visit_keep; exact I.
  - intros f ts H st. cbn [visit_f log_f]. rewrite (walk_keep (visit_t h) log_t NT ts H), play_app. destruct (play (flat_map log_t ts) st) as [s|]; [|reflexivity]. cbn [bind fst snd]. rewrite accept_terms_keep. cbn [bind]. apply visit_keep; exact I.
  - intros f ts H st. cbn [visit_f log_f]. rewrite (walk_keep (visit_f h) log_f NF ts H), play_app. destruct (play (flat_map log_f ts) st) as [s|]; [|reflexivity]. cbn [bind fst snd]. rewrite accept_formulas_keep. cbn [bind]. apply visit_keep; exact I.
  - intros q vs g H Hg st. cbn [visit_f log_f]. rewrite Hg, !play_app. destruct (play (log_f g) st) as [s|]; [|reflexivity]. cbn [bind fst snd a_formula]. rewrite (walk_keep (visit_t h) log_t NT vs H), play_app. destruct (play (flat_map log_t vs) s) as [s1|]; [|reflexivity]. cbn [bind fst snd]. rewrite accept_terms_keep. cbn [bind]. apply visit_keep; exact I.
Qed.
Lemma effect_formula_keep f st : visit_effect_formula h f st = let! s := play ([Enter] ++ log_f f ++ [Exit]) st in Ok (f, s).
Proof. unfold visit_effect_formula. rewrite (proj2 keep_both). cbn [app play step bind]. rewrite play_app. destruct (play (log_f f) _) as [[c s]|]; reflexivity. Qed.
Lemma effect_term_keep f st : visit_effect_term h f st = let! s := play ([Enter] ++ log_t f ++ [Exit]) st in Ok (f, s).
Proof. unfold visit_effect_term. rewrite (proj1 keep_both). cbn [app play step bind]. rewrite play_app. destruct (play (log_t f) _) as [[c s]|]; reflexivity. Qed.
Hypothesis Hn : forall c e s, h c (NE e) s = let! s' := r c (NE e) s in Ok (Keep (NE e), s').
Lemma visit_keep_e e st : visit h (NE e) st = let! s := play [Visit (NE e)] st in Ok (Keep (NE e), s).
Proof. unfold visit. rewrite Hn. cbn [play step]. destruct (r (fst st) (NE e) (snd st)); reflexivity. Qed.
Lemma keep_e e : forall st, visit_effect h e st = let! s := play (log_e e) st in Ok (Keep (NE e), s).
Proof.
  induction e as [c a|c a|i c l r0|c vs es IH|c l|c] using effect_ind_nested; intros st; cbn [visit_effect log_e].
  - rewrite (proj2 keep_both), play_app. destruct (play (log_f c) st) as [s|]; [|reflexivity]. cbn [bind fst snd a_formula]. rewrite effect_formula_keep. change [Exit; Visit (NE (EAdd c a))] with ([Exit] ++ [Visit (NE (EAdd c a))])%list. rewrite !play_app. destruct (play [Enter] s) as [s1|]; [|reflexivity]. cbn [bind]. rewrite !play_app. destruct (play (log_f a) s1) as [s2|]; [|reflexivity]. cbn [bind].
    rewrite ?play_app. destruct (play [Exit] s2) as [s3|]; [|reflexivity]. cbn [bind fst snd]. apply visit_keep_e.
  - rewrite (proj2 keep_both), play_app. destruct (play (log_f c) st) as [s|]; [|reflexivity]. cbn [bind fst snd a_formula]. rewrite effect_formula_keep. change [Exit; Visit (NE (EDel c a))] with ([Exit] ++ [Visit (NE (EDel c a))])%list. rewrite !play_app. destruct (play [Enter] s) as [s1|]; [|reflexivity]. cbn [bind]. rewrite !play_app. destruct (play (log_f a) s1) as [s2|]; [|reflexivity]. cbn [bind].
    rewrite ?play_app. destruct (play [Exit] s2) as [s3|]; [|reflexivity]. cbn [bind fst snd]. apply visit_keep_e.
  - rewrite (proj2 keep_both), play_app. destruct (play (log_f c) st) as [s|]; [|reflexivity]. cbn [bind fst snd a_formula]. rewrite effect_term_keep.
    change [Exit; Visit (NE (EFun i c l r0))] with ([Exit] ++ [Visit (NE (EFun i c l r0))])%list. change [Exit; Enter] with ([Exit] ++ [Enter])%list. rewrite !play_app. destruct (play [Enter] s) as [s1|]; [|reflexivity]. cbn [bind]. rewrite !play_app. destruct (play (log_t l) s1) as [s2|]; [|reflexivity]. cbn [bind].
    rewrite !play_app. destruct (play [Exit] s2) as [s3|]; [|reflexivity]. cbn [bind fst snd]. rewrite effect_term_keep, !play_app. destruct (play [Enter] s3) as [s4|]; [|reflexivity]. cbn [bind]. rewrite !play_app. destruct (play (log_t r0) s4) as [s5|]; [|reflexivity]. cbn [bind]. rewrite ?play_app.
    destruct (play [Exit] s5) as [s6|]; [|reflexivity]. cbn [bind fst snd]. apply visit_keep_e.
  - rewrite (walk_keep (visit_effect h) log_e NE es IH), play_app. destruct (play (flat_map log_e es) st) as [s|]; [|reflexivity]. cbn [bind fst snd]. rewrite accept_effects_keep. cbn [bind]. apply visit_keep_e.
  - reflexivity.
  - reflexivity.
Qed.
Lemma keep_run n st : run h n st = let! s := play (log n) st in Ok (Keep n, s).
Proof. destruct n; [apply (proj1 keep_both)|apply (proj2 keep_both)|apply keep_e]. Qed.
Lemma keep_action a st : visit_action h a st = let! s := play (flat_map log (NF (a_pre a) :: map NE (a_effs a))) st in Ok (a, s).
Proof.
  unfold visit_action. rewrite (proj2 keep_both). cbn [flat_map log]. rewrite play_app. destruct (play (log_f (a_pre a)) st) as [s|]; [|reflexivity]. cbn [bind fst snd a_formula].
  assert (H : Forall (fun x => forall st, visit_effect h x st = let! s := play (log_e x) st in Ok (Keep (NE x), s)) (a_effs a)) by (apply Forall_forall; intros x _; apply keep_e).
  rewrite (walk_keep (visit_effect h) log_e NE _ H). assert (E : flat_map log (map NE (a_effs a)) = flat_map log_e (a_effs a)) by (induction (a_effs a) as [|x l IH]; [reflexivity|]; cbn [map flat_map log]; inversion H; subst; rewrite IH; auto). rewrite E.
  destruct (play (flat_map log_e (a_effs a)) s) as [s1|]; [|reflexivity]. cbn [bind fst snd]. rewrite accept_effects_keep. cbn [bind]. destruct a; reflexivity.
Qed.
Lemma keep_actions l st : visit_actions h l st = let! s := play (flat_map log (flat_map (fun a => NF (a_pre a) :: map NE (a_effs a)) l)) st in Ok (l, s).
Proof.
  revert st. induction l as [|a l IH]; intros st; [reflexivity|]. cbn [visit_actions]. rewrite keep_action.
  assert (E : flat_map log (flat_map (fun a => NF (a_pre a) :: map NE (a_effs a)) (a :: l)) = (flat_map log (NF (a_pre a) :: map NE (a_effs a)) ++ flat_map log (flat_map (fun a => NF (a_pre a) :: map NE (a_effs a)) l))%list).
  { rewrite <- flat_map_app. reflexivity. }
  rewrite E, play_app. generalize (flat_map log (NF (a_pre a) :: map NE (a_effs a))). intros u. destruct (play u st) as [s|]; [|reflexivity]. cbn [bind fst snd]. rewrite IH. match goal with |- context [play ?u s] => destruct (play u s) as [s1|] end; reflexivity.
Qed.
Lemma keep_problem p st : visit_problem h p st = let! s := play (flat_map log (visited p)) st in Ok (p, s).
Proof.
  unfold visit_problem, visited. rewrite (proj2 keep_both). cbn [flat_map log]. rewrite play_app. destruct (play (log_f (p_goal p)) st) as [s|]; [|reflexivity]. cbn [bind fst snd a_formula]. rewrite keep_actions.
  match goal with |- context [play ?u s] => destruct (play u s) as [s1|] end; [|reflexivity]. cbn [bind fst snd]. destruct p; reflexivity.
Qed.
End Keep.
