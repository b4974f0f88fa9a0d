(** Proofs about the functional blocksworld, part 2: runs, patterns and the generator. *)
From Coq Require Import Permutation Lia.
From Verif Require Import ListUtil Base Syntax SemLemmas Build ModelState ModelProofs Eval EvalProofs Subst SubstProofs QElim Effects ProgressSpec StateLemmas FreeVars Represent
  Blocks BlocksProofs2 BlocksProofs3 FBlocks FBlocksSpec FBlocksProofs.
#[local] Open Scope string_scope.
#[local] Open Scope list_scope.

(** * Runs *)
Lemma step_inv sub n st x y pre effs st1 at_ free : places_typed sub -> proper (fs_model st) -> says n (fs_model st) at_ free -> In x (block_names n) -> In y (place_names n) ->
  ground_schema fmove_action (bind_move x y) = Ok (pre, effs) -> is_applicable (fs_model st) pre = Ok true -> fprogress sub st effs = Ok st1 ->
  x <> y /\ at_ x <> y /\ free x /\ free y /\ proper (fs_model st1) /\ says n (fs_model st1) (moved at_ x y) (covered free y) /\ fs_none st1 = fs_none st ++ [place_sort; "object"].
Proof.
  intros T P S Hx Hy G A R. rewrite move_ground in G. assert (Q : pre = move_pre x y /\ effs = move_effs x y) by (split; congruence). destruct Q as [-> ->].
  destruct (applicable_spec n _ _ _ x y S Hx Hy) as (b & Eb & B). rewrite Eb in A. injection A as ->. destruct (progress_spec sub n st at_ free x y T P S Hx Hy) as (st' & E & P' & S' & N'). rewrite E in R. injection R as <-.
  destruct (proj1 B eq_refl) as (B1 & B2 & B3 & B4). auto 10.
Qed.
Lemma step_ok sub n st x y at_ free : places_typed sub -> proper (fs_model st) -> says n (fs_model st) at_ free -> In x (block_names n) -> In y (place_names n) -> x <> y -> at_ x <> y -> free x -> free y ->
  exists st1, frun sub st [(x, y)] st1 /\ proper (fs_model st1) /\ says n (fs_model st1) (moved at_ x y) (covered free y).
Proof.
  intros T P S Hx Hy N1 N2 F1 F2. destruct (applicable_spec n _ _ _ x y S Hx Hy) as (b & Eb & B). assert (b = true) by (apply B; auto). subst b.
  destruct (progress_spec sub n st at_ free x y T P S Hx Hy) as (st' & E & P' & S' & N'). exists st'. split; [|auto]. exact (fr_step sub _ _ _ _ _ _ _ _ (move_ground x y) Eb E (fr_nil sub st')).
Qed.
Lemma run_app sub st p1 st1 p2 st2 : frun sub st p1 st1 -> frun sub st1 p2 st2 -> frun sub st (p1 ++ p2) st2.
Proof. induction 1 as [|st x y pre effs st' plan st'' G A R _ IH]; intros H; [exact H|]. cbn [app]. exact (fr_step sub _ _ _ _ _ _ _ _ G A R (IH H)). Qed.

Lemma run_inv sub n st plan st' : places_typed sub -> frun sub st plan st' -> forall at_ free, proper (fs_model st) -> says n (fs_model st) at_ free -> legal n plan ->
  exists at' free', says n (fs_model st') at' free' /\ proper (fs_model st') /\ (forall z, free' z -> free z) /\ (forall x, at' x = at_ x \/ free x /\ free (at' x)) /\
    (exists l, fs_none st' = fs_none st ++ l /\ forall s, In s l <-> plan <> [] /\ (s = place_sort \/ s = "object")).
Proof.
  intros T R. induction R as [st|st x y pre effs st1 plan st2 G A E R IH]; intros at_ free P S L.
  - exists at_, free. split; [exact S|]. split; [exact P|]. split; [auto|]. split; [auto|]. exists []. split; [symmetry; apply app_nil_r|]. intros s. split; [intros []|intros [K _]; congruence].
  - apply Forall_cons_iff in L as [[Lx Ly] L]. cbn [fst snd] in Lx, Ly. destruct (step_inv sub n _ _ _ _ _ _ _ _ T P S Lx Ly G A E) as (N1 & N2 & F1 & F2 & P1 & S1 & No). destruct (IH _ _ P1 S1 L) as (at' & free' & S' & P' & Fr & At & (l & El & Il)).
    exists at', free'. split; [exact S'|]. split; [exact P'|]. split; [intros z Hz; exact (proj1 (Fr z Hz))|]. split.
    + intros z. destruct (At z) as [Ez|[Ez1 Ez2]].
      * unfold moved in Ez. destruct (String.eqb_spec z x) as [Qz|Nz]; [right; rewrite Ez, Qz; auto|left; exact Ez].
      * right. split; [exact (proj1 Ez1)|exact (proj1 Ez2)].
    + exists ([place_sort; "object"] ++ l). rewrite El, No, <- app_assoc. split; [reflexivity|]. intros s. rewrite in_app_iff, Il. cbn [In]. split.
      * intros [[K|[K|[]]]|[_ K]]; (split; [discriminate|]); auto.
      * intros [_ [K|K]]; left; auto.
Qed.

(** * Patterns *)
Lemma stacking_targets p x y : stacking p -> In (x, y) p -> y = "table" \/ In y (map fst p).
Proof.
  induction 1 as [|pat x' y' St IH N T]; intros H; [destruct H|]. rewrite map_app, in_app_iff. apply in_app_or in H as [H|[H|[]]]; [destruct (IH H); auto|]. injection H as <- <-. tauto.
Qed.
Lemma stacking_NoDup p : stacking p -> NoDup (map fst p).
Proof.
  induction 1 as [|pat x y St IH N T]; [constructor|]. rewrite map_app. cbn [map fst]. apply NoDup_app_iff || idtac.
  apply (Permutation_NoDup (l := x :: map fst pat)); [apply Permutation_cons_append|]. constructor; auto.
Qed.

Lemma build sub n st at0 C0 p : places_typed sub -> proper (fs_model st) -> says n (fs_model st) at0 C0 -> C0 "table" -> stacking p ->
  (forall x y, In (x, y) p -> In x (block_names n) /\ In y (place_names n) /\ (at0 x = y \/ C0 x /\ C0 y)) ->
  exists plan st' at' free', legal n plan /\ frun sub st plan st' /\ proper (fs_model st') /\ says n (fs_model st') at' free' /\
    (forall x y, In (x, y) p -> at' x = y) /\ (forall x, ~ In x (map fst p) -> at' x = at0 x) /\ (forall z, C0 z -> z = "table" \/ ~ In z (map snd p) -> free' z).
Proof.
  intros T P S CT St. induction St as [|pat x y St IH N Ty]; intros H.
  - exists [], st, at0, C0. split; [constructor|]. split; [constructor|]. split; [exact P|]. split; [exact S|]. split; [intros x y []|]. auto.
  - destruct IH as (plan & st1 & at1 & f1 & L1 & R1 & P1 & S1 & B1 & O1 & F1). { intros x' y' I. apply H. apply in_or_app. auto. }
    destruct (H x y) as (Hx & Hy & D). { apply in_or_app. right. left. reflexivity. }
    assert (Xt : x <> "table"). { intros ->. exact (block_names_table n Hx). }
    assert (Xs : ~ In x (map snd pat)). { intros K. apply in_map_iff in K as ([x' y'] & K1 & K2). cbn [snd] in K1. subst y'. destruct (stacking_targets _ _ _ St K2) as [K|K]; [exact (Xt K)|exact (N K)]. }
    assert (At1 : at1 x = at0 x) by (apply O1; exact N).
    destruct (string_dec (at0 x) y) as [E|E].
    + exists plan, st1, at1, f1. split; [exact L1|]. split; [exact R1|]. split; [exact P1|]. split; [exact S1|]. split; [|split].
      * intros x' y' I. apply in_app_or in I as [I|[I|[]]]; [exact (B1 _ _ I)|]. injection I as <- <-. congruence.
      * intros x' I. apply O1. intros K. apply I. rewrite map_app, in_app_iff. auto.
      * intros z Cz [Z|Z]; apply F1; auto. right. intros K. apply Z. rewrite map_app, in_app_iff. auto.
    + destruct D as [D|[D1 D2]]; [contradiction|]. assert (Fx : f1 x) by (apply F1; auto). assert (Fy : f1 y). { apply F1; [exact D2|]. destruct Ty as [Ty|[_ Ty]]; auto. }
      assert (Nxy : x <> y). { destruct Ty as [-> |[Ty _]]; [exact Xt|]. intros ->. exact (N Ty). }
      destruct (step_ok sub n st1 x y at1 f1 T P1 S1 Hx Hy Nxy) as (st2 & R2 & P2 & S2); [congruence|exact Fx|exact Fy|].
      exists (plan ++ [(x, y)]), st2, (moved at1 x y), (covered f1 y). split; [apply Forall_app; split; [exact L1|constructor; [split; [exact Hx|exact Hy]|constructor]]|]. split; [exact (run_app _ _ _ _ _ _ R1 R2)|]. split; [exact P2|]. split; [exact S2|]. split; [|split].
      * intros x' y' I. unfold moved. apply in_app_or in I as [I|[I|[]]].
        -- destruct (String.eqb_spec x' x) as [->|_]; [|exact (B1 _ _ I)]. exfalso. apply N. apply in_map_iff. exists (x, y'). auto.
        -- injection I as <- <-. rewrite String.eqb_refl. reflexivity.
      * intros x' I. unfold moved. rewrite map_app, in_app_iff in I. destruct (String.eqb_spec x' x) as [->|_]; [exfalso; apply I; right; left; reflexivity|]. apply O1. auto.
      * intros z Cz Z. rewrite map_app, in_app_iff in Z. cbn [map snd In] in Z. split.
        -- apply F1; [exact Cz|]. destruct Z as [Z|Z]; auto.
        -- destruct (string_dec y "table") as [->|Ny]; [auto|]. right. destruct Z as [-> |Z]; [intros K; apply Ny; auto|]. intros ->. apply Z. auto.
Qed.

Lemma loop_stacking choice bs : forall cl pat, stacking pat -> (forall z, In z cl <-> z = "table" \/ In z (map fst pat) /\ ~ In z (map snd pat)) -> NoDup (map fst pat ++ bs) -> ~ In "table" (map fst pat ++ bs) ->
  exists cl' pat', pattern_loop choice bs cl pat = Ok (cl', pat') /\ stacking pat' /\ map fst pat' = map fst pat ++ bs /\ (forall z, In z cl' <-> z = "table" \/ In z (map fst pat') /\ ~ In z (map snd pat')).
Proof.
  induction bs as [|b bs IH]; intros cl pat St C ND NT; [exists cl, pat; rewrite app_nil_r; auto|]. cbn [pattern_loop].
  assert (Hcl : List.length cl <> 0%nat). { intros K. apply length_zero_iff_nil in K. assert (X := proj2 (C "table") (or_introl eq_refl)). rewrite K in X. destruct X. }
  destruct (nth_error cl (choice (List.length pat) mod List.length cl)) as [t|] eqn:En; [|exfalso; apply nth_error_None in En; assert (X := PeanoNat.Nat.mod_upper_bound (choice (List.length pat)) _ Hcl); lia].
  apply nth_error_In in En. apply C in En. assert (Nb : ~ In b (map fst pat)). { intros K. apply NoDup_remove_2 in ND. apply ND. apply in_or_app. auto. } assert (Nt : b <> "table"). { intros ->. apply NT. apply in_or_app. right. left. reflexivity. }
  assert (Nbt : b <> t). { destruct En as [->|[En _]]; [exact Nt|]. intros ->. exact (Nb En). }
  assert (Bs : ~ In b (map snd pat)). { intros K. apply in_map_iff in K as ([x' y'] & K1 & K2). cbn [snd] in K1. subst y'. destruct (stacking_targets _ _ _ St K2) as [K|K]; [exact (Nt K)|exact (Nb K)]. }
  set (c1 := if String.eqb t "table" then cl else sremove t cl). set (c2 := if existsb (String.eqb b) c1 then c1 else c1 ++ [b]).
  destruct (IH c2 (pat ++ [(b, t)])) as (cl' & pat' & E & St' & M & C').
  - constructor; auto.
  - intros z. assert (Z2 : In z c2 <-> In z c1 \/ z = b). { unfold c2. destruct (existsb (String.eqb b) c1) eqn:X; [|rewrite in_app_iff; cbn; intuition congruence]. apply existsb_exists in X as (b' & Xb & X). apply String.eqb_eq in X. subst b'. split; [auto|]. intros [Z| ->]; auto. }
    rewrite Z2. assert (Z1 : In z c1 <-> In z cl /\ (z = "table" \/ z <> t)).
    { unfold c1. destruct (String.eqb_spec t "table") as [->|X]; [split; [|tauto]; intros Z; split; [exact Z|]; destruct (string_dec z "table"); auto|]. unfold sremove. rewrite filter_In, negb_true_iff, String.eqb_neq. split; [intros [Z1 Z]; split; [exact Z1|]; right; congruence|]. intros [Z1 [->|Z]]; split; auto. }
    rewrite Z1, C, !map_app, !in_app_iff. cbn [map fst snd In]. destruct (string_dec z b) as [->|Zb].
    + split; [intros _; right; split; [auto|]; intros [K|[K|[]]]; [exact (Bs K)|congruence]|intros _; auto].
    + destruct (string_dec z "table") as [->|Zt]; [tauto|]. split.
      * intros [[[K|[K1 K2]] [K'|K']]|K]; try contradiction. right. split; [auto|]. intros [Q|[Q|[]]]; [exact (K2 Q)|congruence].
      * intros [K|[[K1|[K1|[]]] K2]]; [contradiction| |congruence]. left. split; [right; split; [exact K1|tauto]|]. right. intros ->. apply K2. auto.
  - rewrite map_app, <- app_assoc. exact ND.
  - rewrite map_app, <- app_assoc. exact NT.
  - exists cl', pat'. split; [exact E|]. split; [exact St'|]. split; [|exact C']. rewrite M, map_app, <- app_assoc. reflexivity.
Qed.
Lemma random_spec n bs choice : Permutation bs (block_names n) -> exists cl pat, generate_random_bw_pattern choice bs = Ok (cl, pat) /\ lays_out n pat /\ stacking pat /\ (forall z, In z cl <-> In z (place_names n) /\ clear_in pat z).
Proof.
  intros P. assert (ND := block_names_NoDup n). assert (NT := block_names_table n). unfold generate_random_bw_pattern. destruct (loop_stacking choice bs ["table"] []) as (cl & pat & E & St & M & C).
  - constructor.
  - intros z. cbn. split; [intros [<-|[]]; auto|]. intros [->|[[] _]]. auto.
  - cbn [map app]. exact (Permutation_NoDup (Permutation_sym P) ND).
  - cbn [map app]. intros K. apply NT. exact (Permutation_in _ P K).
  - cbn [map app] in M. assert (MI : forall z, In z (map fst pat) <-> In z (block_names n)). { intros z. rewrite M. split; apply Permutation_in; [exact P|apply Permutation_sym; exact P]. }
    exists cl, pat. split; [exact E|]. split; [split; [rewrite M; exact P|]|]. { apply Forall_forall. intros [x y] I. cbn [snd]. destruct (stacking_targets _ _ _ St I) as [->|K]; [left; reflexivity|right; apply MI; exact K]. }
    split; [exact St|]. intros z. rewrite C, MI. unfold clear_in, place_names. cbn [In]. destruct (string_dec z "table") as [->|]; [tauto|]. intuition congruence.
Qed.
Lemma chosen_spec n l pat : chosen n l pat -> exists cl, pattern_of n l = Ok (cl, pat) /\ lays_out n pat /\ (forall z, In z cl <-> In z (place_names n) /\ clear_in pat z) /\ match l with Random _ _ => stacking pat | Given _ => True end.
Proof.
  intros [[cl E] H]. exists cl. split; [exact E|]. destruct l as [bs choice|locs]; cbn [pattern_of] in E.
  - destruct (random_spec n bs choice H) as (cl' & pat' & E' & L & St & C). rewrite E' in E. injection E as <- <-. auto.
  - destruct (Nat.eqb _ n); [|discriminate]. injection E as <- <-. split; [exact H|]. split; [|exact I]. intros z. unfold compute_clear_from_pattern.
    set (f := filter _ (place_names n)). assert (Hf : forall z, In z f <-> In z (place_names n) /\ ~ In z (map snd locs)).
    { intros u. unfold f. rewrite filter_In, negb_true_iff. apply and_iff_compat_l. split.
      - intros X K. apply in_map_iff in K as (xy & K1 & K2). assert (Y : existsb (fun xy => String.eqb (snd xy) u) locs = true) by (apply existsb_exists; exists xy; split; [exact K2|apply String.eqb_eq; exact K1]). congruence.
      - intros X. apply not_true_is_false. intros Y. apply existsb_exists in Y as (xy & Y1 & Y2). apply String.eqb_eq in Y2. apply X. apply in_map_iff. eauto. }
    unfold clear_in. destruct (existsb (String.eqb "table") f) eqn:X.
    + apply existsb_exists in X as (t & Xt & X). apply String.eqb_eq in X. subst t. rewrite Hf. split; [tauto|]. intros [Z1 [->|Z2]]; [|auto]. apply Hf in Xt. exact Xt.
    + rewrite in_app_iff, Hf. cbn [In]. split; [intros [[K1 K2]|[<-|[]]]; [auto|split; [left; reflexivity|auto]]|]. intros [Z1 [->|Z2]]; auto.
Qed.

(** * The generator *)
Lemma get_place_ok n x : In x (place_names n) -> get_place n x = Ok (fplace x).
Proof. intros H. unfold get_place. replace (existsb (String.eqb x) (place_names n)) with true; [reflexivity|]. symmetry. apply existsb_exists. exists x. split; [exact H|apply String.eqb_refl]. Qed.
Lemma block_term n x : In x (block_names n) -> fplace x = Cst (CStr x) block_sort.
Proof. intros H. unfold fplace. destruct (String.eqb_spec x "table") as [->|]; [exfalso; exact (block_names_table n H)|reflexivity]. Qed.
Lemma set_all sub n pat : places_typed sub -> forall m0, proper m0 -> NoDup (map fst pat) -> (forall x y, In (x, y) pat -> In x (block_names n) /\ In y (place_names n)) ->
  exists m, foldM (set_location sub n) pat m0 = Ok m /\ proper m /\ (forall q b, m_holds m q b = m_holds m0 q b) /\ (forall x y, In (x, y) pat -> m_value m floc [fplace x] = Ok (fplace y)) /\
    (forall g b, (forall x y, In (x, y) pat -> ~ (g = floc /\ b = [fplace x])) -> m_value m g b = m_value m0 g b).
Proof.
  intros (T1 & T2 & T3). induction pat as [|[x y] pat IH]; intros m0 P ND H; [exists m0; split; [reflexivity|]; split; [exact P|]; split; [reflexivity|]; split; [intros x y []|reflexivity]|].
  cbn [map fst] in ND. apply NoDup_cons_iff in ND as [Nx ND]. destruct (H x y (or_introl eq_refl)) as [Hx Hy]. cbn [foldM]. unfold set_location at 1. cbn [fst snd]. rewrite (get_place_ok n x (or_intror Hx)), (get_place_ok n y Hy). cbn [bind].
  assert (G : exists m1, m_set sub m0 (App floc [fplace x]) (fplace y) = Ok m1).
  { unfold floc. cbn [m_set]. rewrite (block_term n x Hx). cbn [forallb is_cst andb]. unfold check_assignment. cbn [List.length app Nat.eqb check_sorts ModelState.sort_of]. rewrite T1. unfold fplace. destruct (String.eqb y "table"); cbn [ModelState.sort_of]; rewrite ?T2, ?T3; cbn [bind]; eauto. }
  destruct G as [m1 G]. rewrite G. destruct (set_spec _ _ _ _ _ G) as (f & a & Et & P1 & H1 & V1). injection Et as <- <-. destruct (IH m1 (P1 P) ND) as (m & E & Pm & Hm & Vm & Om). { intros x' y' I. apply H. right. exact I. }
  exists m. split; [exact E|]. split; [exact Pm|]. split; [intros q b; rewrite Hm; apply H1|]. split.
  - intros x' y' [I|I]; [|exact (Vm _ _ I)]. injection I as <- <-. rewrite Om.
    + rewrite V1. replace (same_point floc floc [fplace x] [fplace x]) with true; [reflexivity|]. symmetry. now apply same_point_eq.
    + intros x' y' I [_ K]. assert (K' : fplace x = fplace x') by congruence. apply fplace_inj in K'. subst x'. apply Nx. apply in_map_iff. exists (x, y'). auto.
  - intros g b Hg. rewrite Om; [|intros x' y' I; apply Hg with (y := y'); right; exact I]. rewrite V1. replace (same_point floc g [fplace x] b) with false; [reflexivity|]. symmetry. apply not_true_is_false. intros K. apply same_point_eq in K as [<- <-]. exact (Hg x y (or_introl eq_refl) (conj eq_refl eq_refl)).
Qed.
Lemma clear_all sub n cl : places_typed sub -> (forall z, In z cl -> In z (place_names n)) -> forall m0, proper m0 ->
  exists m, foldM (set_clear sub n) cl m0 = Ok m /\ proper m /\ (forall f b, m_value m f b = m_value m0 f b) /\ (forall q b, m_holds m q b = true <-> m_holds m0 q b = true \/ q = fclear /\ exists z, In z cl /\ b = [fplace z]).
Proof.
  intros (T1 & T2 & T3). induction cl as [|z cl IH]; intros H m0 P; [exists m0; split; [reflexivity|]; split; [exact P|]; split; [reflexivity|]; intros q b; split; [auto|intros [K|(_ & z & [] & _)]; exact K]|].
  cbn [foldM]. unfold set_clear at 1. rewrite (get_place_ok n z (H z (or_introl eq_refl))). cbn [bind].
  assert (G : exists m1, m_add sub m0 fclear [fplace z] = Ok m1). { unfold fclear, m_add, check_assignment, fplace. destruct (String.eqb z "table"); cbn [List.length Nat.eqb check_sorts ModelState.sort_of]; rewrite ?T2, ?T3; cbn [bind]; eauto. }
  destruct G as [m1 G]. rewrite G. destruct (add_spec _ _ _ _ _ G P) as (P1 & H1 & V1). destruct (IH (fun u Hu => H u (or_intror Hu)) m1 P1) as (m & E & Pm & Vm & Hm).
  exists m. split; [exact E|]. split; [exact Pm|]. split; [intros f b; rewrite Vm; apply V1|]. intros q b. rewrite Hm, H1, orb_true_iff, same_atom_eq. split.
  - intros [[[<- <-]|K]|(K & u & Hu & Eu)]; [right; split; [reflexivity|exists z; split; [left; reflexivity|reflexivity]]|auto|right; split; [exact K|exists u; split; [right; exact Hu|exact Eu]]].
  - intros [K|(-> & u & [<-|Hu] & ->)]; [auto|left; left; auto|right; split; [reflexivity|eauto]].
Qed.
Definition at_of (pat : list (string * string)) (x : string) : string := match find (fun xy => String.eqb (fst xy) x) pat with Some xy => snd xy | None => "table" end.
Lemma at_of_In pat x y : NoDup (map fst pat) -> In (x, y) pat -> at_of pat x = y.
Proof.
  induction pat as [|[a b] pat IH]; intros ND H; [destruct H|]. unfold at_of. cbn [find fst]. cbn [map fst] in ND. apply NoDup_cons_iff in ND as [N ND]. destruct (String.eqb_spec a x) as [->|K].
  - destruct H as [H|H]; [injection H as <-; reflexivity|]. exfalso. apply N. apply in_map_iff. exists (x, y). auto.
  - destruct H as [H|H]; [congruence|]. exact (IH ND H).
Qed.
Lemma lays_out_NoDup n pat : lays_out n pat -> NoDup (map fst pat).
Proof. intros [P _]. exact (Permutation_NoDup (Permutation_sym P) (block_names_NoDup n)). Qed.
Lemma lays_out_In n pat x y : lays_out n pat -> In (x, y) pat -> In x (block_names n) /\ In y (place_names n).
Proof. intros [P F] H. split; [apply (Permutation_in _ P); apply in_map_iff; exists (x, y); auto|]. rewrite Forall_forall in F. exact (F _ H). Qed.
Lemma lays_out_all n pat x : lays_out n pat -> In x (block_names n) -> In (x, at_of pat x) pat.
Proof. intros L H. assert (I : In x (map fst pat)) by (apply (Permutation_in _ (Permutation_sym (proj1 L))); exact H). apply in_map_iff in I as ([x' y] & E & I). cbn [fst] in E. subst x'. rewrite (at_of_In pat x y (lays_out_NoDup n pat L) I). exact I. Qed.
Lemma init_says sub n cl pat : places_typed sub -> lays_out n pat -> (forall z, In z cl <-> In z (place_names n) /\ clear_in pat z) ->
  exists m, fbw_init sub n cl pat = Ok m /\ proper m /\ says n m (at_of pat) (clear_in pat) /\ (forall q b, m_holds m q b = true -> q = fclear /\ exists z, In z (place_names n) /\ b = [fplace z]) /\
    (forall g b v, m_value m g b = Ok v -> g = floc /\ exists x, In x (block_names n) /\ b = [fplace x]).
Proof.
  intros T L C. unfold fbw_init. destruct (set_all sub n pat T empty_model) as (m1 & E1 & P1 & H1 & V1 & O1); [intros s e []|exact (lays_out_NoDup n pat L)|intros x y; apply lays_out_In; exact L|]. rewrite E1. cbn [bind].
  destruct (clear_all sub n cl T (fun z Hz => proj1 (proj1 (C z) Hz)) m1 P1) as (m & E & P & V & H). exists m. split; [exact E|]. split; [exact P|]. split; [split|split].
  - intros x Hx. rewrite V. apply V1. apply (lays_out_all n); assumption.
  - intros z Hz. rewrite H, H1. split; [intros [K|(_ & u & Hu & K)]; [discriminate|]|].
    + assert (K' : fplace z = fplace u) by congruence. apply fplace_inj in K'. subst u. exact (proj2 (proj1 (C z) Hu)).
    + intros K. right. split; [reflexivity|]. exists z. split; [apply C; auto|reflexivity].
  - intros q b K. apply H in K as [K|(-> & z & Hz & ->)]; [rewrite H1 in K; discriminate|]. split; [reflexivity|]. exists z. split; [exact (proj1 (proj1 (C z) Hz))|reflexivity].
  - intros g b v K. rewrite V in K. destruct (fsym_eq_dec g floc) as [->|N].
    + split; [reflexivity|]. destruct (existsb (fun xy => points_eqb [fplace (fst xy)] b) pat) eqn:I.
      * apply existsb_exists in I as ([x y] & I & Q). apply points_eqb_eq in Q. cbn [fst] in Q. exists x. split; [exact (proj1 (lays_out_In n pat x y L I))|symmetry; exact Q].
      * rewrite O1 in K; [discriminate|]. intros x y Ixy [_ Q]. assert (X : existsb (fun xy => points_eqb [fplace (fst xy)] b) pat = true); [|congruence]. apply existsb_exists. exists (x, y). split; [exact Ixy|]. apply points_eqb_eq. symmetry. exact Q.
    + rewrite O1 in K; [discriminate|]. intros x y _ [Q _]. exact (N Q).
Qed.
Lemma goal_ok sub n pat : places_typed sub -> lays_out n pat -> exists f, fbw_goal sub n pat = Ok f /\ forall m at_ free, says n m at_ free -> exists b, eval_f m f = Ok b /\ (b = true <-> forall x y, In (x, y) pat -> at_ x = y).
Proof.
  intros (T1 & T2 & T3) L. assert (E : forall p, incl p pat -> mapM (floc_is sub n) p = Ok (map (fun xy => Atom (PB PEq) [App floc [fplace (fst xy)]; fplace (snd xy)]) p)).
  { induction p as [|[x y] p IH]; intros I; [reflexivity|]. destruct (lays_out_In n pat x y L (I _ (or_introl eq_refl))) as [Hx Hy]. cbn [mapM map]. unfold floc_is at 1. cbn [fst snd]. rewrite (get_place_ok n x (or_intror Hx)). cbn [bind]. rewrite (block_term n x Hx).
    unfold check_assignment. cbn [List.length Nat.eqb check_sorts ModelState.sort_of]. rewrite T1. cbn [bind]. rewrite (get_place_ok n y Hy). cbn [bind]. rewrite (IH (fun u Hu => I u (or_intror Hu))). reflexivity. }
  assert (V : forall m at_ free, says n m at_ free -> forall p, incl p pat -> exists b, eval_all m (map (fun xy => Atom (PB PEq) [App floc [fplace (fst xy)]; fplace (snd xy)]) p) = Ok b /\ (b = true <-> forall x y, In (x, y) p -> at_ x = y)).
  { intros m at_ free [A _]. induction p as [|[x y] p IH]; intros I; [exists true; split; [reflexivity|]; split; [intros _ x y []|reflexivity]|]. cbn [map eval_all fst snd].
    destruct (lays_out_In n pat x y L (I _ (or_introl eq_refl))) as [Hx Hy]. rewrite (fcmp_loc m PEq x y _ (A x Hx)), name_eq. destruct (String.eqb_spec (at_ x) y) as [Q|Q].
    - destruct (IH (fun u Hu => I u (or_intror Hu))) as (b & Eb & B). exists b. split; [exact Eb|]. rewrite B. split; [intros K x' y' [J|J]; [injection J as <- <-; exact Q|exact (K _ _ J)]|]. intros K x' y' J. apply K. right. exact J.
    - exists false. split; [reflexivity|]. split; [discriminate|]. intros K. exfalso. apply Q. apply K. left. reflexivity. }
  unfold fbw_goal. rewrite (E pat (incl_refl pat)). cbn [bind]. unfold land. destruct pat as [|p1 [|p2 pat]].
  - exists Top. split; [reflexivity|]. intros m at_ free _. exists true. split; [reflexivity|]. split; [intros _ x y []|reflexivity].
  - eexists. split; [reflexivity|]. intros m at_ free S. destruct (V m at_ free S [p1] (incl_refl _)) as (b & Eb & B). exists b. split; [|exact B]. cbn [map eval_all] in Eb. cbn [map]. destruct (eval_f m _) as [[]|]; [exact Eb|exact Eb|discriminate].
  - eexists. split; [reflexivity|]. intros m at_ free S. destruct (V m at_ free S (p1 :: p2 :: pat) (incl_refl _)) as (b & Eb & B). exists b. split; [|exact B]. exact Eb.
Qed.
