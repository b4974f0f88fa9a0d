(** Reading the answer of the solver. *)
From Coq Require Import Ascii.
From Verif Require Import Base Syntax SemLemmas ModelState ModelText Lang Asp LpGround AspSpec LpGroundSpec PropsAspNames.
#[local] Open Scope string_scope.

Lemma word_app a b : word a -> word b -> word (a ++ b).
Proof. induction a as [|c a IH]; cbn; tauto. Qed.
Lemma wc c x : word_character c -> In x ["("; ")"; ","; "."; " "; ascii_of_nat 10]%char -> Ascii.eqb c x = false /\ Ascii.eqb x c = false.
Proof. intros H Hx. split; apply Ascii.eqb_neq; intros E; subst; auto. Qed.
Ltac inn := cbn [In]; auto 10.

(** a text without newline, then a newline *)
Definition no_newline (s : string) : Prop := forall a b, s <> a ++ String newline b.
Fixpoint avoids (x : ascii) (s : string) : Prop := match s with EmptyString => True | String c s' => Ascii.eqb c x = false /\ avoids x s' end.
Lemma avoids_app x a b : avoids x (a ++ b) <-> avoids x a /\ avoids x b.
Proof. induction a as [|c a IH]; cbn; tauto. Qed.
Lemma word_avoids x s : In x ["("; ")"; ","; "."; " "; ascii_of_nat 10]%char -> word s -> avoids x s.
Proof. intros Hx. induction s as [|c s IH]; cbn; [auto|]. intros [A B]. split; [apply (wc c x A Hx)|auto]. Qed.
Lemma file_line s rest : avoids newline s -> file_lines (s ++ String newline rest) = (s ++ String newline "") :: file_lines rest.
Proof.
  induction s as [|c s IH]; cbn [append file_lines avoids].
  - intros _. rewrite Ascii.eqb_refl. reflexivity.
  - intros [A B]. rewrite A, IH by auto. reflexivity.
Qed.
Lemma comma_avoids x l : In x ["("; ")"; "."; " "; ascii_of_nat 10]%char -> Forall word l -> avoids x (comma_separated l).
Proof.
  intros Hx H. assert (Hx' : In x ["("; ")"; ","; "."; " "; ascii_of_nat 10]%char) by (cbn [In] in *; tauto). induction H as [|w l Hw H IH]; [exact I|]. cbn [comma_separated]. destruct l as [|w' l]; [now apply word_avoids|].
  rewrite !avoids_app. split; [now apply word_avoids|]. split; [|exact IH]. cbn [avoids]. split; [|exact I]. cbn [In] in Hx. decompose [or] Hx; subst; try reflexivity; contradiction.
Qed.
Lemma text_avoids_newline s args : word s -> Forall word args -> avoids newline (atom_text s args ++ ".").
Proof.
  intros Hs Ha. assert (Ws : avoids newline s) by (apply word_avoids; [inn|auto]). assert (Wa : avoids newline (comma_separated args)) by (apply comma_avoids; [inn|auto]). apply avoids_app. split; [|cbn; auto]. destruct args as [|w l]; cbn [atom_text]; [exact Ws|]. apply avoids_app. split; [exact Ws|].
  cbn [append avoids]. split; [reflexivity|]. apply avoids_app. split; [exact Wa|]. cbn; auto.
Qed.
Lemma answer_lines atoms : words atoms -> file_lines (answer_text atoms) = map atom_line atoms.
Proof.
  induction 1 as [|[s l] atoms [Hs Hl] H IH]; [reflexivity|]. cbn [answer_text map fst snd] in *. unfold atom_line at 1. cbn [fst snd]. rewrite !app_assoc_s. cbn [append].
  change (String "." (String (ascii_of_nat 10) (answer_text atoms))) with ("." ++ String newline (answer_text atoms)). rewrite <- app_assoc_s. rewrite file_line by now apply text_avoids_newline. rewrite IH, app_assoc_s. reflexivity.
Qed.
(** stripping *)
Lemma rstrip_drop d s c : d c = true -> rstrip d (s ++ String c "") = rstrip d s.
Proof. intros H. induction s as [|x s IH]; cbn [append rstrip]; [now rewrite H|]. now rewrite IH. Qed.
Lemma rstrip_keep d s c : d c = false -> rstrip d (s ++ String c "") = s ++ String c "".
Proof. intros H. induction s as [|x s IH]; cbn [append rstrip]; [now rewrite H|]. rewrite IH. destruct s; reflexivity. Qed.
Lemma rstrip_word d s : (forall c, word_character c -> d c = false) -> word s -> rstrip d s = s.
Proof. intros H. induction s as [|c s IH]; [reflexivity|]. intros [A B]. cbn [rstrip]. rewrite IH by auto. destruct s; [rewrite (H c A)|]; reflexivity. Qed.
Lemma ends_word c : word_character c -> ends_line c = false.
Proof. intros H. unfold ends_line, newline. rewrite (proj1 (wc c " " H ltac:(inn))), (proj1 (wc c (ascii_of_nat 10) H ltac:(inn))), (proj1 (wc c "." H ltac:(inn))). reflexivity. Qed.
Lemma close_word c : word_character c -> Ascii.eqb ")" c = false.
Proof. intros H. exact (proj2 (wc c ")" H ltac:(inn))). Qed.
Lemma rstrip_comma d w args : (forall c, word_character c -> d c = false) -> d "("%char = false -> d ","%char = false -> Forall word args -> rstrip d (w ++ "(" ++ comma_separated args) = w ++ "(" ++ comma_separated args.
Proof.
  intros Hd Ho Hc Ha. assert (G : forall l, Forall word l -> forall x, rstrip d x = x -> (forall y, rstrip d (x ++ y) = "" -> y = "") -> True) by auto. clear G.
  assert (K : forall v u, rstrip d u = u -> u <> "" -> rstrip d (v ++ u) = v ++ u). { intros v u E N. induction v as [|c v IH]; [exact E|]. cbn [append rstrip]. rewrite IH. destruct (v ++ u) eqn:X; [|reflexivity]. destruct v; [cbn in X; contradiction|discriminate]. }
  apply K; [|discriminate]. assert (Lp : forall v, word v -> rstrip d v = v) by (intros; now apply rstrip_word).
  assert (G : forall c, d c = false -> forall v, rstrip d v = v -> rstrip d (String c v) = String c v). { intros c Ec v Ev. cbn [rstrip]. rewrite Ev. destruct v; [rewrite Ec|]; reflexivity. }
  change ("(" ++ comma_separated args) with (String "(" (comma_separated args)). apply G; [exact Ho|]. induction Ha as [|x l Hx Ha IH]; [reflexivity|]. cbn [comma_separated]. destruct l as [|y l]; [auto|].
  change (x ++ "," ++ comma_separated (y :: l)) with (x ++ String "," (comma_separated (y :: l))). apply K; [apply G; auto|discriminate].
Qed.
Lemma strip_line s args : word s -> Forall word args -> rstrip (Ascii.eqb ")") (rstrip ends_line (atom_line (s, args))) = match args with [] => s | _ => s ++ "(" ++ comma_separated args end.
Proof.
  intros Hs Ha. unfold atom_line. cbn [fst snd append]. change (String "." (String (ascii_of_nat 10) "")) with ("." ++ String newline ""). rewrite <- app_assoc_s, rstrip_drop by reflexivity. change "." with (String "." "") at 1. rewrite rstrip_drop by reflexivity.
  destruct args as [|w l]; cbn [atom_text].
  - rewrite (rstrip_word ends_line) by (auto using ends_word). apply rstrip_word; auto using close_word.
  - change (s ++ "(" ++ comma_separated (w :: l) ++ ")") with (s ++ ("(" ++ comma_separated (w :: l)) ++ String ")" ""). rewrite <- app_assoc_s. rewrite (rstrip_keep ends_line) by reflexivity. rewrite rstrip_drop by reflexivity. apply rstrip_comma; auto using close_word.
Qed.
(** splitting *)
Lemma split_avoids x s : avoids x s -> split_at x s = [s].
Proof. induction s as [|c s IH]; [reflexivity|]. intros [A B]. cbn [split_at]. rewrite A, IH by auto. reflexivity. Qed.
Lemma split_sep x s r : avoids x s -> split_at x (s ++ String x r) = s :: split_at x r.
Proof. induction s as [|c s IH]; cbn [append split_at avoids]; [intros _; now rewrite Ascii.eqb_refl|]. intros [A B]. rewrite A, IH by auto. reflexivity. Qed.
Lemma split_commas args : Forall word args -> args <> [] -> split_at "," (comma_separated args) = args.
Proof.
  induction 1 as [|w l Hw H IH]; [contradiction|]. intros _. cbn [comma_separated]. destruct l as [|y l]; [apply split_avoids, word_avoids; [inn|auto]|].
  change (w ++ "," ++ comma_separated (y :: l)) with (w ++ String "," (comma_separated (y :: l))). rewrite split_sep by (apply word_avoids; [inn|auto]). rewrite IH by discriminate. reflexivity.
Qed.
Lemma parse_atom_line t m s args : word s -> Forall word args -> parse_line t m (atom_line (s, args)) = Ok (add_tuple m (back t s) (map (back t) args)).
Proof.
  intros Hs Ha. unfold parse_line. rewrite strip_line by auto. destruct args as [|w l].
  - rewrite split_avoids by (apply word_avoids; [inn|auto]). reflexivity.
  - change (s ++ "(" ++ comma_separated (w :: l)) with (s ++ String "(" (comma_separated (w :: l))). rewrite split_sep by (apply word_avoids; [inn|auto]). rewrite split_avoids by (apply comma_avoids; [inn|auto]). rewrite split_commas by (auto || discriminate). reflexivity.
Qed.
(** the dictionary *)
Lemma sget_set {V} (d : list (string * V)) k v k' : sget (dset String.eqb d k v) k' = if String.eqb k k' then Some v else sget d k'.
Proof. unfold sget. induction d as [|[x y] d IH]; cbn [dset dget]; [reflexivity|].
  destruct (String.eqb x k) eqn:E; cbn [dget]; [apply String.eqb_eq in E as ->; destruct (String.eqb k k'); reflexivity|].
  rewrite IH. destruct (String.eqb x k') eqn:E'; [|reflexivity]. apply String.eqb_eq in E' as ->. destruct (String.eqb k k') eqn:F; [|reflexivity]. apply String.eqb_eq in F as ->. now rewrite String.eqb_refl in E. Qed.
Lemma words_eqb_eq a b : words_eqb a b = true <-> a = b.
Proof. unfold words_eqb. destruct (list_eq_dec string_dec a b); split; congruence. Qed.
Lemma tuples_add m k x k' y : In y (tuples (add_tuple m k x) k') <-> (k = k' /\ x = y) \/ In y (tuples m k').
Proof.
  unfold add_tuple. unfold tuples at 1. rewrite sget_set. destruct (String.eqb k k') eqn:E.
  - apply String.eqb_eq in E as <-. destruct (existsb (words_eqb x) (tuples m k)) eqn:X.
    + split; [auto|]. intros [[_ <-]|H]; [|exact H]. apply existsb_exists in X as (z & Hz & Ez). apply words_eqb_eq in Ez as ->. exact Hz.
    + rewrite in_app_iff. cbn [In]. tauto.
  - apply String.eqb_neq in E. change (match sget m k' with Some ts => ts | None => [] end) with (tuples m k'). tauto.
Qed.
Lemma tuples_NoDup m k x k' : NoDup (tuples m k') -> NoDup (tuples (add_tuple m k x) k').
Proof.
  intros H. unfold add_tuple. unfold tuples at 1. rewrite sget_set. destruct (String.eqb k k') eqn:E; [|exact H]. apply String.eqb_eq in E as <-. destruct (existsb (words_eqb x) (tuples m k)) eqn:X; [exact H|].
  assert (N : ~ In x (tuples m k)). { intros Hx. assert (existsb (words_eqb x) (tuples m k) = true) by (apply existsb_exists; exists x; split; [auto|now apply words_eqb_eq]). congruence. }
  clear - H N. induction H as [|y l Hy H IH]; cbn [app]; [repeat constructor; auto|]. constructor; [|apply IH; cbn in N; tauto]. rewrite in_app_iff. cbn [In] in *. intros [A|[A|[]]]; [auto|]. subst. tauto.
Qed.
Lemma parse_atoms t atoms : words atoms -> forall m, exists m', parse_lines t m (map atom_line atoms) = Ok m' /\
  (forall k y, In y (tuples m' k) <-> In y (tuples m k) \/ exists s l, In (s, l) atoms /\ back t s = k /\ map (back t) l = y) /\ (forall k, NoDup (tuples m k) -> NoDup (tuples m' k)).
Proof.
  induction 1 as [|[s l] atoms [Hs Hl] H IH]; intros m.
  - exists m. split; [reflexivity|]. split; [|auto]. intros k y. split; [auto|]. intros [A|(s & l & [] & _)]. exact A.
  - cbn [fst snd] in *. destruct (IH (add_tuple m (back t s) (map (back t) l))) as (m' & E & A & B). exists m'. cbn [map parse_lines]. rewrite parse_atom_line by auto. cbn [bind]. split; [exact E|]. split; [|intros k Hk; apply B, tuples_NoDup, Hk].
    intros k y. rewrite A, tuples_add. split.
    + intros [[[E1 E2]|X]|(s' & l' & X & Y)]; [right; exists s, l; cbn [In]; auto|auto|right; exists s', l'; cbn [In]; tauto].
    + intros [X|(s' & l' & [X|X] & Y & Z)]; [auto|injection X as <- <-; auto|right; eauto].
Qed.
Lemma parse_answer t atoms : words atoms -> exists m, parse_model t (answer_text atoms) = Ok m /\ (forall k y, In y (tuples m k) <-> exists s l, In (s, l) atoms /\ back t s = k /\ map (back t) l = y) /\ forall k, NoDup (tuples m k).
Proof.
  intros H. destruct (parse_atoms t atoms H []) as (m & E & A & B). exists m. unfold parse_model. rewrite answer_lines by auto. split; [exact E|]. split; [intros k y; rewrite A; cbn; tauto|]. intros k. apply B. constructor.
Qed.
