(** Reading the text of the Fast Downward writer *)
From Coq Require Import Ascii DecimalString DecimalNat DecimalFacts.
From Verif Require Import ListUtil Base Syntax SemLemmas SubstProofs ModelState Index PropsIndex ModelText Sas SasText SasTextSpec.
#[local] Open Scope string_scope.
#[local] Notation "a +++ b" := (@List.app string a b) (right associativity, at level 60).

Lemma Forall2_len {A B} (R : A -> B -> Prop) l l' : Forall2 R l l' -> List.length l = List.length l'.
Proof. induction 1; cbn; auto. Qed.
(** ** Splitting *)
Fixpoint split (c : ascii) (s : string) : list string :=
  match s with
  | EmptyString => [""]
  | String a r => if Ascii.eqb a c then "" :: split c r else match split c r with x :: l => String a x :: l | [] => [String a ""] end
  end.
Definition free_of (c : ascii) (s : string) : Prop := ~ In c (list_ascii_of_string s).
Lemma free_cons c a s : free_of c (String a s) <-> a <> c /\ free_of c s.
Proof. unfold free_of. cbn. tauto. Qed.
Lemma free_app c s t : free_of c (s ++ t) <-> free_of c s /\ free_of c t.
Proof. induction s as [|a s IH]; cbn [append]; [split; [intros H; split; [intros []|exact H]|tauto]|]. rewrite !free_cons, IH. tauto. Qed.
Lemma split_free c s : free_of c s -> split c s = [s].
Proof. induction s as [|a s IH]; [reflexivity|]. rewrite free_cons. intros [H1 H2]. cbn [split]. destruct (Ascii.eqb_spec a c); [contradiction|]. now rewrite IH. Qed.
Lemma split_app c s t : free_of c s -> split c (s ++ String c t) = s :: split c t.
Proof. induction s as [|a s IH]; cbn [append split]; [now rewrite Ascii.eqb_refl|]. rewrite free_cons. intros [H1 H2]. destruct (Ascii.eqb_spec a c); [contradiction|]. now rewrite IH. Qed.
Lemma split_join c l : Forall (free_of c) l -> l <> [] -> split c (join (String c "") l) = l.
Proof.
  induction 1 as [|x l H HF IH]; intros N; [contradiction|]. destruct l as [|y l]; [now apply split_free|]. cbn [join]. cbn [append]. rewrite split_app by exact H. f_equal. apply IH. discriminate.
Qed.
Lemma app_assoc_s (a b c : string) : (a ++ b) ++ c = a ++ (b ++ c).
Proof. induction a; cbn; [auto|now f_equal]. Qed.
Definition sect (l : list string) : list string := match l with [] => [""] | _ => l end.
Lemma lines_app l m : l <> [] -> m <> [] -> lines (l +++ m) = lines l ++ nl ++ lines m.
Proof.
  induction l as [|x l IH]; intros N M; [contradiction|]. destruct l as [|y l].
  - destruct m; [contradiction|]. reflexivity.
  - change (lines ((x :: y :: l) +++ m)) with (x ++ nl ++ lines ((y :: l) +++ m)). rewrite IH by (auto; discriminate). change (lines (x :: y :: l)) with (x ++ nl ++ lines (y :: l)). now rewrite !app_assoc_s.
Qed.
Lemma lines_sect l : lines (sect l) = lines l. Proof. now destruct l. Qed.
Lemma sect_ne l : sect l <> []. Proof. destruct l; discriminate. Qed.
(** A line of a template can be a text of several lines. *)
Lemma lines_blocks bs : bs <> [] -> lines (map lines bs) = lines (flat_map sect bs).
Proof.
  induction bs as [|b bs IH]; intros N; [contradiction|]. destruct bs as [|b' bs]; [cbn [map flat_map]; rewrite app_nil_r, lines_sect; reflexivity|].
  change (flat_map sect (b :: b' :: bs)) with (sect b ++ flat_map sect (b' :: bs))%list. rewrite lines_app; [|apply sect_ne|cbn [flat_map]; destruct (sect b') eqn:E; [now apply sect_ne in E|discriminate]]. rewrite <- IH by discriminate. rewrite lines_sect. reflexivity.
Qed.

(** ** Numbers *)
Definition rnum (s : string) : option nat := option_map Nat.of_uint (NilZero.uint_of_string s).
Lemma rnum_num n : rnum (num n) = Some n.
Proof. unfold rnum, num. rewrite NilZero.usu by (rewrite <- (Unsigned.of_to n), Unsigned.to_of; apply unorm_nonnil). cbn. now rewrite Unsigned.of_to. Qed.
Definition digit (c : ascii) : Prop := In c ["0"; "1"; "2"; "3"; "4"; "5"; "6"; "7"; "8"; "9"]%char.
Lemma uint_digits d c : In c (list_ascii_of_string (NilEmpty.string_of_uint d)) -> digit c.
Proof. induction d; cbn [NilEmpty.string_of_uint list_ascii_of_string]; [intros []|..]; (intros [<-|H]; [unfold digit; cbn; tauto|auto]). Qed.
Lemma num_digits n c : In c (list_ascii_of_string (num n)) -> digit c.
Proof. unfold num, NilZero.string_of_uint. destruct (Nat.to_uint n) eqn:E; [intros [<-|[]]; unfold digit; cbn; tauto|..]; apply uint_digits. Qed.
Lemma num_free n c : ~ digit c -> free_of c (num n).
Proof. intros H X. apply H. now apply num_digits in X. Qed.
Lemma space_digit : ~ digit " "%char. Proof. unfold digit. cbn. intros H. repeat (destruct H as [H|H]; [discriminate H|]). destruct H. Qed.
Lemma nl_digit : ~ digit (ascii_of_nat 10). Proof. unfold digit. cbn. intros H. repeat (destruct H as [H|H]; [discriminate H|]). destruct H. Qed.
Definition rpair (s : string) : option (nat * nat) := match split " " s with [a; b] => match rnum a, rnum b with Some i, Some j => Some (i, j) | _, _ => None end | _ => None end.
Definition reff (s : string) : option (nat * nat) := match split " " s with [z; e; a; b] => match rnum a, rnum b with Some i, Some j => Some (i, j) | _, _ => None end | _ => None end.
Definition ptext (ij : nat * nat) : string := num (fst ij) ++ " " ++ num (snd ij).
Definition etext (ij : nat * nat) : string := "0" ++ " " ++ "" ++ " " ++ num (fst ij) ++ " " ++ num (snd ij).
Lemma rpair_text ij : rpair (ptext ij) = Some ij.
Proof. unfold rpair, ptext. change (" " ++ num (snd ij)) with (String " " (num (snd ij))). rewrite split_app by apply num_free, space_digit. rewrite split_free by apply num_free, space_digit. rewrite !rnum_num. now destruct ij. Qed.
Lemma reff_text ij : reff (etext ij) = Some ij.
Proof.
  unfold reff, etext. change ("0" ++ " " ++ "" ++ " " ++ num (fst ij) ++ " " ++ num (snd ij)) with ("0" ++ String " " ("" ++ String " " (num (fst ij) ++ String " " (num (snd ij))))).
  rewrite split_app by (intros [H|[]]; discriminate H). rewrite split_app by (intros []). rewrite split_app by apply num_free, space_digit. rewrite split_free by apply num_free, space_digit. rewrite !rnum_num. now destruct ij.
Qed.

(** ** Reading lines *)
Definition reader (A : Type) := list string -> option (A * list string).
Definition rbind {A B} (p : reader A) (k : A -> reader B) : reader B := fun ls => match p ls with Some (a, r) => k a r | None => None end.
Definition rret {A} (a : A) : reader A := fun ls => Some (a, ls).
Definition rline {A} (f : string -> option A) : reader A := fun ls => match ls with s :: r => match f s with Some a => Some (a, r) | None => None end | [] => None end.
Definition rany : reader string := rline Some.
Definition rword (w : string) : reader unit := rline (fun s => if String.eqb s w then Some tt else None).
Fixpoint rtimes {A} (p : reader A) (n : nat) : reader (list A) :=
  match n with 0 => rret [] | S n' => rbind p (fun a => rbind (rtimes p n') (fun l => rret (a :: l))) end.
Definition rsect {A} (p : reader A) (n : nat) : reader (list A) := match n with 0 => rbind (rword "") (fun _ => rret []) | _ => rtimes p n end.
Fixpoint runtil {A} (f : string -> option A) (w : string) (ls : list string) : option (list A * list string) :=
  match ls with
  | [] => None
  | s :: r => if String.eqb s w then Some ([], r) else match f s with Some a => match runtil f w r with Some (l, r') => Some (a :: l, r') | None => None end | None => None end
  end.
Definition rlist {A} (f : string -> option A) (w : string) : reader (list A) := fun ls => match ls with "" :: r => runtil f w r | _ => runtil f w ls end.
Lemma rbind_ok {A B} (p : reader A) (k : A -> reader B) ls a r : p ls = Some (a, r) -> rbind p k ls = k a r.
Proof. intros H. unfold rbind. now rewrite H. Qed.
Lemma rword_ok w r : rword w (w :: r) = Some (tt, r).
Proof. unfold rword, rline. now rewrite String.eqb_refl. Qed.
Lemma rline_ok {A} (f : string -> option A) s a r : f s = Some a -> rline f (s :: r) = Some (a, r).
Proof. intros H. unfold rline. now rewrite H. Qed.
Lemma rtimes_ok {A} (p : reader A) (enc : A -> list string) l r : (forall a s, In a l -> p (enc a +++ s) = Some (a, s)) -> rtimes p (List.length l) (flat_map enc l +++ r) = Some (l, r).
Proof.
  induction l as [|a l IH]; intros H; [reflexivity|]. cbn [flat_map List.length rtimes]. rewrite <- app_assoc. erewrite rbind_ok by (apply H; now left). erewrite rbind_ok by (apply IH; intros; apply H; now right). reflexivity.
Qed.
Lemma flat_map_ne {A} (enc : A -> list string) l : l <> [] -> (forall a, enc a <> []) -> flat_map enc l <> [].
Proof. destruct l as [|a l]; [contradiction|]. intros _ H E. cbn in E. apply app_eq_nil in E as [E _]. now apply H in E. Qed.
Lemma rsect_ok {A} (p : reader A) (enc : A -> list string) l r : (forall a s, In a l -> p (enc a +++ s) = Some (a, s)) -> (forall a, enc a <> []) -> rsect p (List.length l) (sect (flat_map enc l) +++ r) = Some (l, r).
Proof.
  intros H N. destruct l as [|a l]; [reflexivity|]. unfold sect. destruct (flat_map enc (a :: l)) eqn:E; [exfalso; revert E; apply flat_map_ne; [discriminate|exact N]|]. rewrite <- E. change (rsect p (List.length (a :: l))) with (rtimes p (List.length (a :: l))). apply rtimes_ok. exact H.
Qed.
Lemma runtil_ok {A} (f : string -> option A) w (enc : A -> string) l r : (forall a, f (enc a) = Some a) -> (forall a, enc a <> w) -> runtil f w (map enc l +++ w :: r) = Some (l, r).
Proof.
  intros H N. induction l as [|a l IH]; cbn [map app runtil]; [now rewrite String.eqb_refl|]. destruct (String.eqb_spec (enc a) w) as [E|_]; [now apply N in E|]. now rewrite H, IH.
Qed.
Lemma rlist_ok {A} (f : string -> option A) w (enc : A -> string) l r : (forall a, f (enc a) = Some a) -> (forall a, enc a <> w) -> (forall a, enc a <> "") -> rlist f w (sect (map enc l) +++ w :: r) = Some (l, r).
Proof.
  intros H N E. destruct l as [|a l]; [cbn; now rewrite String.eqb_refl|]. unfold sect. cbn [map]. unfold rlist. cbn [app]. destruct (enc a) eqn:Ea; [now apply E in Ea|]. rewrite <- Ea. exact (runtil_ok f w enc (a :: l) r H N).
Qed.

(** ** The lines of the text *)
Definition vlines (v : string * list string) : list string := flat_map sect [["begin_variable"]; [fst v]; ["-1"]; [num (List.length (snd v))]; snd v; ["end_variable"]].
Definition olines (o : string * list (nat * nat) * list (nat * nat)) : list string :=
  flat_map sect [["begin_operator"]; [fst (fst o)]; [num (List.length (snd (fst o)))]; map ptext (snd (fst o)); [num (List.length (snd o))]; map etext (snd o); ["1"]; ["end_operator"]].
Definition all_lines (n : nat) (v : view) : list string :=
  flat_map sect [["begin_version"]; ["4"]; ["end_version"]; ["begin_metric"]; [if v_unit v then "0" else "1"]; ["end_metric"]; [num (List.length (v_vars v))]; flat_map vlines (v_vars v); ["0"];
    ["begin_axiom_defaults"; "0"; "end_axiom_defaults"]; ["0"]; [num (List.length (v_ops v))]; flat_map olines (v_ops v);
    flat_map sect [["begin_initial_state"]; [num (List.length (v_vars v))]; map ptext (v_init v); ["end_initial_state"]]; flat_map sect [["begin_goal"]; map ptext (v_goal v); ["end_goal"]]; [""]].
Definition rvar : reader (string * list string) :=
  rbind (rword "begin_variable") (fun _ => rbind rany (fun n => rbind (rword "-1") (fun _ => rbind (rline rnum) (fun k => rbind (rsect rany k) (fun vs => rbind (rword "end_variable") (fun _ => rret (n, vs))))))).
Definition rop : reader (string * list (nat * nat) * list (nat * nat)) :=
  rbind (rword "begin_operator") (fun _ => rbind rany (fun n => rbind (rline rnum) (fun k => rbind (rsect (rline rpair) k) (fun pre => rbind (rline rnum) (fun k' => rbind (rsect (rline reff) k') (fun eff => rbind (rword "1") (fun _ => rbind (rword "end_operator") (fun _ => rret (n, pre, eff))))))))).
Definition rview : reader view :=
  rbind (rword "begin_version") (fun _ => rbind (rword "4") (fun _ => rbind (rword "end_version") (fun _ => rbind (rword "begin_metric") (fun _ => rbind rany (fun u => rbind (rword "end_metric") (fun _ =>
  rbind (rline rnum) (fun n => rbind (rsect rvar n) (fun vs => rbind (rword "0") (fun _ => rbind (rword "begin_axiom_defaults") (fun _ => rbind (rword "0") (fun _ => rbind (rword "end_axiom_defaults") (fun _ => rbind (rword "0") (fun _ =>
  rbind (rline rnum) (fun k => rbind (rsect rop k) (fun ops => rbind (rword "begin_initial_state") (fun _ => rbind rany (fun _ => rbind (rlist rpair "end_initial_state") (fun ini => rbind (rword "begin_goal") (fun _ => rbind (rlist rpair "end_goal") (fun gl =>
  rret {| v_unit := String.eqb u "0"; v_vars := vs; v_ops := ops; v_init := ini; v_goal := gl |})))))))))))))))))))).
Definition read_text (t : string) : option view := match rview (split (ascii_of_nat 10) t) with Some (v, _) => Some v | None => None end.
Lemma rvar_ok v r : rvar (vlines v +++ r) = Some (v, r).
Proof.
  unfold rvar, vlines. cbn [flat_map sect app]. rewrite <- app_assoc.
  repeat (erewrite rbind_ok; [|first [apply rword_ok|apply rline_ok; reflexivity|apply rline_ok, rnum_num|idtac]]).
  all: try reflexivity.
  2: { replace (sect (snd v)) with (sect (flat_map (fun s => [s]) (snd v))) by (f_equal; generalize (snd v) as l; induction l; cbn; congruence). apply rsect_ok; [intros a s _; reflexivity|discriminate]. }
  destruct v. reflexivity.
Qed.
Lemma map_flat {A} (f : A -> string) l : map f l = flat_map (fun a => [f a]) l. Proof. induction l; cbn; congruence. Qed.

Lemma rop_ok o r : rop (olines o +++ r) = Some (o, r).
Proof.
  unfold rop, olines. cbn [flat_map sect app]. rewrite <- app_assoc. cbn [app]. rewrite <- app_assoc. cbn [app].
  erewrite rbind_ok by apply rword_ok. erewrite rbind_ok by (apply rline_ok; reflexivity). erewrite rbind_ok by apply rline_ok, rnum_num.
  erewrite rbind_ok by (rewrite map_flat; apply (rsect_ok (rline rpair) (fun a => [ptext a])); [intros a s _; apply rline_ok, rpair_text|discriminate]).
  erewrite rbind_ok by apply rline_ok, rnum_num.
  erewrite rbind_ok by (rewrite map_flat; apply (rsect_ok (rline reff) (fun a => [etext a])); [intros a s _; apply rline_ok, reff_text|discriminate]).
  erewrite rbind_ok by apply rword_ok. erewrite rbind_ok by apply rword_ok. destruct o as [[n p] e]. reflexivity.
Qed.
Lemma num_cons n : exists c s, num n = String c s /\ digit c.
Proof.
  destruct (num n) as [|c s] eqn:E; [pose proof (rnum_num n) as R; rewrite E in R; discriminate R|]. exists c, s. split; [reflexivity|]. apply (num_digits n). rewrite E. now left.
Qed.
Lemma ptext_word a c s : ~ digit c -> ptext a <> String c s.
Proof. unfold ptext. destruct (num_cons (fst a)) as (d & r & -> & D). intros H E. injection E as -> _. contradiction. Qed.
Lemma ptext_ne a : ptext a <> "".
Proof. unfold ptext. destruct (num_cons (fst a)) as (d & r & -> & D). discriminate. Qed.
Lemma e_digit : ~ digit "e"%char. Proof. unfold digit. cbn. intros H. repeat (destruct H as [H|H]; [discriminate H|]). destruct H. Qed.
Lemma vlines_ne v : vlines v <> []. Proof. discriminate. Qed.
Lemma olines_ne v : olines v <> []. Proof. discriminate. Qed.
Lemma rview_ok v : rview (all_lines (List.length (v_vars v)) v) = Some (v, [""]).
Proof.
  unfold rview, all_lines. cbn [flat_map sect app]. repeat (rewrite <- app_assoc; cbn [app]).
  do 4 erewrite rbind_ok by apply rword_ok. erewrite rbind_ok by (apply rline_ok; reflexivity). erewrite rbind_ok by apply rword_ok. erewrite rbind_ok by apply rline_ok, rnum_num.
  erewrite rbind_ok by (apply rsect_ok; [intros a s _; apply rvar_ok|apply vlines_ne]). do 5 erewrite rbind_ok by apply rword_ok. erewrite rbind_ok by apply rline_ok, rnum_num.
  erewrite rbind_ok by (apply rsect_ok; [intros a s _; apply rop_ok|apply olines_ne]). erewrite rbind_ok by apply rword_ok. erewrite rbind_ok by (apply rline_ok; reflexivity).
  erewrite rbind_ok by (apply rlist_ok; [apply rpair_text|intros a; apply ptext_word, e_digit|apply ptext_ne]). erewrite rbind_ok by apply rword_ok.
  erewrite rbind_ok by (apply rlist_ok; [apply rpair_text|intros a; apply ptext_word, e_digit|apply ptext_ne]).
  destruct v as [[] vs ops ini gl]; reflexivity.
Qed.

(** ** The text of an instance *)
Lemma teqb a b : term_eqb a b = true <-> a = b. Proof. split; [apply term_eqb_eq|intros ->; apply term_eqb_refl]. Qed.
Lemma run_objects_aux xs : forall s, si_inv s -> NoDup (si_objects s ++ xs)%list ->
  let s' := fold_left (fun s x => snd (si_add term_eqb s x)) xs s in si_inv s' /\ si_objects s' = (si_objects s ++ xs)%list.
Proof.
  induction xs as [|x xs IH]; intros s I N; [split; [exact I|now rewrite app_nil_r]|]. cbn [fold_left]. destruct (si_add_spec term_eqb teqb s x I) as [[H _]|(H & _ & Eo & I')].
  - exfalso. apply NoDup_remove_2 in N. apply N. apply in_app_iff. now left.
  - destruct (IH _ I') as [J1 J2]; [rewrite Eo, <- app_assoc; exact N|]. split; [exact J1|]. rewrite J2, Eo, <- app_assoc. reflexivity.
Qed.
Lemma empty_inv : si_inv (@si_empty term). Proof. split; [reflexivity|constructor]. Qed.
Lemma run_objects xs : NoDup xs -> si_inv (si_run term_eqb xs) /\ si_objects (si_run term_eqb xs) = xs.
Proof. intros N. exact (run_objects_aux xs si_empty empty_inv N). Qed.
Lemma run_iter xs : NoDup xs -> si_iter (si_run term_eqb xs) = xs.
Proof. intros N. destruct (run_objects xs N) as [I E]. unfold si_iter. rewrite (si_inv_keys _ I). exact E. Qed.
Lemma run_len xs : NoDup xs -> si_len (si_run term_eqb xs) = List.length xs.
Proof. intros N. rewrite <- (run_iter xs N) at 2. unfold si_iter, si_len. now rewrite map_length. Qed.
Lemma run_index xs x k : NoDup xs -> si_get_index term_eqb (si_run term_eqb xs) x = Ok k <-> nth_error xs k = Some x.
Proof. intros N. destruct (run_objects xs N) as [I E]. rewrite (si_index_spec term_eqb teqb _ x k I), E. tauto. Qed.
Lemma index_total {K} (eqb : K -> K -> bool) s x : (exists k, si_get_index eqb s x = Ok k) \/ si_get_index eqb s x = Err KeyError.
Proof. unfold si_get_index. destruct (dget eqb (si_data s) x); eauto. Qed.

Section Text.
Variables (str : term -> string) (i : instance).
Hypothesis WF : well_formed i.
Let w := writer_of i.
Lemma domain_dget x l : In (x, l) (i_vars i) -> fd_domain w x = Ok (si_run term_eqb l).
Proof.
  intros H. unfold fd_domain, w. cbn [fw_domains writer_of]. destruct WF as [N _]. revert N H. generalize (i_vars i). intros vs. induction vs as [|[y m] vs IH]; intros N H; [destruct H|]. cbn [map fst snd dget]. cbn [map fst] in N. inversion N as [|? ? N1 N2]; subst. destruct (term_eqb y x) eqn:E.
  - apply term_eqb_eq in E. subst y. destruct H as [[= ->]|H]; [reflexivity|]. exfalso. apply N1. apply in_map_iff. exists (x, l). auto.
  - destruct H as [[= -> _]|H]; [rewrite term_eqb_refl in E; discriminate|auto].
Qed.
Lemma domain_get x d : fd_domain w x = Ok d -> exists l, In (x, l) (i_vars i) /\ d = si_run term_eqb l.
Proof.
  unfold fd_domain, w. cbn [fw_domains writer_of]. generalize (i_vars i). intros vs. induction vs as [|[y m] vs IH]; [discriminate|]. cbn [map fst snd dget]. destruct (term_eqb y x) eqn:E.
  - apply term_eqb_eq in E. subst y. intros [= <-]. exists m. split; [now left|reflexivity].
  - intros H. destruct (IH H) as (l & Hl & ->). exists l. split; [now right|reflexivity].
Qed.
Lemma values_NoDup x l : In (x, l) (i_vars i) -> NoDup l.
Proof. intros H. destruct WF as [_ F]. rewrite Forall_forall in F. exact (F _ H). Qed.
Lemma index_points x k : si_get_index term_eqb (fw_vars w) x = Ok k <-> exists l, nth_error (i_vars i) k = Some (x, l).
Proof.
  unfold w. cbn [fw_vars writer_of]. rewrite run_index by apply WF. rewrite nth_error_map. destruct (nth_error (i_vars i) k) as [[y l]|]; cbn; split; intros H; [injection H as ->; eauto|destruct H as (l' & [= -> _]); reflexivity|discriminate H|destruct H as (l & H); discriminate H].
Qed.
Lemma pair_ok {A} (enc : nat * nat -> A) x v : (exists a, (let! k := si_get_index term_eqb (fw_vars w) x in let! d := fd_domain w x in let! j := si_get_index term_eqb d v in Ok (enc (k, j))) = Ok a) <-> legal i x v.
Proof.
  split.
  - intros (a & E). destruct (si_get_index term_eqb (fw_vars w) x) as [k|]; [|discriminate]. cbn [bind] in E. destruct (fd_domain w x) as [d|] eqn:Ed; [|discriminate]. cbn [bind] in E. destruct (si_get_index term_eqb d v) as [j|] eqn:Ej; [|discriminate]. destruct (domain_get x d Ed) as (l & Hl & ->). exists l. split; [exact Hl|]. apply run_index in Ej; [|now apply (values_NoDup x)]. now apply nth_error_In in Ej.
  - intros (l & Hl & Hv). destruct (In_nth_error _ _ Hl) as (k & Hk). destruct (In_nth_error _ _ Hv) as (j & Hj). rewrite (proj2 (index_points x k)) by eauto. cbn [bind]. rewrite (domain_dget x l Hl). cbn [bind]. rewrite (proj2 (run_index l v j (values_NoDup x l Hl))) by exact Hj. eexists. reflexivity.
Qed.
Lemma pair_points {A} (enc : nat * nat -> A) x v a : (let! k := si_get_index term_eqb (fw_vars w) x in let! d := fd_domain w x in let! j := si_get_index term_eqb d v in Ok (enc (k, j))) = Ok a -> exists ij, points i ij (x, v) /\ a = enc ij.
Proof.
  intros E. destruct (si_get_index term_eqb (fw_vars w) x) as [k|] eqn:Ek; [|discriminate]. cbn [bind] in E. destruct (fd_domain w x) as [d|] eqn:Ed; [|discriminate]. cbn [bind] in E. destruct (si_get_index term_eqb d v) as [j|] eqn:Ej; [|discriminate]. cbn [bind] in E. injection E as <-.
  destruct (domain_get x d Ed) as (l & Hl & ->). apply index_points in Ek as (l' & Hk). assert (l' = l) as ->. { apply nth_error_In in Hk. pose proof (domain_dget x l' Hk) as D1. pose proof (domain_dget x l Hl) as D2. rewrite D1 in D2. injection D2 as D2. apply (f_equal (@si_objects term)) in D2. rewrite (proj2 (run_objects l' (values_NoDup x l' Hk))), (proj2 (run_objects l (values_NoDup x l Hl))) in D2. exact D2. }
  exists (k, j). split; [|reflexivity]. exists l. cbn. split; [exact Hk|]. apply run_index in Ej; [exact Ej|now apply (values_NoDup x)].
Qed.
Lemma pairs_points {T} (enc : nat * nat -> string) (f : T -> term * term) (g : T -> res string) ts ss :
  (forall t, g t = let! k := si_get_index term_eqb (fw_vars w) (fst (f t)) in let! d := fd_domain w (fst (f t)) in let! j := si_get_index term_eqb d (snd (f t)) in Ok (enc (k, j))) ->
  mapM g ts = Ok ss -> exists ps, Forall2 (points i) ps (map f ts) /\ ss = map enc ps.
Proof.
  intros Hg E. apply mapM_Forall2 in E. induction E as [|t s ts ss H F (ps & P & ->)]; [exists []; split; constructor|]. rewrite Hg in H. apply pair_points in H as (ij & H & ->). exists (ij :: ps). split; [|reflexivity]. cbn [map]. constructor; [|exact P]. destruct (f t). exact H.
Qed.
Lemma lines_map {A} (enc : A -> list string) l : (forall a, enc a <> []) -> lines (map (fun a => lines (enc a)) l) = lines (flat_map enc l).
Proof.
  intros N. destruct l as [|a l]; [reflexivity|]. replace (flat_map enc (a :: l)) with (flat_map sect (map enc (a :: l))).
  - rewrite <- lines_blocks by discriminate. f_equal. now rewrite map_map.
  - generalize (a :: l). intros m. induction m as [|b m IH]; [reflexivity|]. cbn [map flat_map]. rewrite IH. f_equal. unfold sect. destruct (enc b) eqn:E; [now apply N in E|reflexivity].
Qed.
Lemma variables_text vs : mapM (variable_text str w) (si_iter (fw_vars w)) = Ok vs -> vs = map (fun v => lines (vlines v)) (map (fun xl => (str (fst xl), map str (snd xl))) (i_vars i)).
Proof.
  unfold w at 2. cbn [fw_vars writer_of]. rewrite run_iter by apply WF. intros E. apply mapM_Forall2 in E. assert (HI : forall xl, In xl (i_vars i) -> In xl (i_vars i)) by auto. revert HI E. generalize (i_vars i) at 1 3 4. intros l. revert vs. induction l as [|[x l0] l IH]; intros vs HI E; inversion E as [|? s ? vs' H F]; subst; [reflexivity|].
  cbn [map]. f_equal; [|apply IH; [intros; apply HI; now right|exact F]]. unfold variable_text in H. cbn [fst] in H. pose proof (HI (x, l0) (or_introl eq_refl)) as Hx. rewrite (domain_dget x l0 Hx) in H. cbn [bind] in H. injection H as <-. destruct (run_objects l0 (values_NoDup x l0 Hx)) as [_ Eo]. rewrite Eo, (run_len l0 (values_NoDup x l0 Hx)). cbn [fst snd]. unfold vlines. rewrite <- lines_blocks by discriminate. cbn [fst snd map]. rewrite map_length. reflexivity.
Qed.
Lemma operators_text acts : forall ss, mapM (operator_text str w) acts = Ok ss ->
  exists ops, Forall2 (fun o a => fst (fst o) = full_name str a /\ Forall2 (points i) (snd (fst o)) (map (fun t => (fst (fst t), snd (fst t))) (sa_transitions a)) /\ Forall2 (points i) (snd o) (map (fun t => (fst (fst t), snd t)) (sa_transitions a))) ops acts /\ ss = map (fun o => lines (olines o)) ops.
Proof.
  induction acts as [|a acts IH]; intros ss E; apply mapM_Forall2 in E; inversion E as [|? s ? ss' H F]; subst; [exists []; split; constructor|].
  destruct (IH ss') as (ops & P & ->); [clear - F; induction F as [|a s l l' H F IH]; [reflexivity|cbn; now rewrite H, IH]|].
  unfold operator_text in H. destruct (mapM (fun t => pair_text w _ _) (sa_transitions a)) as [pre|] eqn:Ep; [|discriminate]. cbn [bind] in H. destruct (mapM (fun t => effect_text w _ _) (sa_transitions a)) as [eff|] eqn:Ee; [|discriminate]. cbn [bind] in H. injection H as <-.
  apply (pairs_points ptext (fun t => (fst (fst t), snd (fst t)))) in Ep as (p1 & P1 & ->); [|reflexivity]. apply (pairs_points etext (fun t => (fst (fst t), snd t))) in Ee as (p2 & P2 & ->); [|reflexivity].
  exists ((full_name str a, p1, p2) :: ops). split; [constructor; auto|]. cbn [map]. f_equal. unfold olines. rewrite <- lines_blocks by discriminate. cbn [fst snd map].
  assert (L1 : List.length (sa_transitions a) = List.length p1) by (apply Forall2_len in P1; rewrite map_length in P1; auto). assert (L2 : List.length (sa_transitions a) = List.length p2) by (apply Forall2_len in P2; rewrite map_length in P2; auto). rewrite L1 at 1. rewrite L2. reflexivity.
Qed.
Lemma dump_text t : fd_dump str w = Ok t -> exists v, describes str i v /\ t = lines (all_lines (List.length (v_vars v)) v).
Proof.
  unfold fd_dump. intros E. destruct (mapM (variable_text str w) _) as [vs|] eqn:Ev; [|discriminate]. cbn [bind] in E. apply variables_text in Ev. destruct (Nat.eqb _ 0); [discriminate|]. destruct (mapM (operator_text str w) _) as [ops|] eqn:Eo; [|discriminate]. cbn [bind] in E. apply operators_text in Eo as (os & P & ->).
  destruct (mapM _ (fw_initial w)) as [ini|] eqn:Ei; [|discriminate]. cbn [bind] in E. destruct (mapM _ (fw_goal w)) as [gl|] eqn:Eg; [|discriminate]. cbn [bind] in E. injection E as <-.
  apply (pairs_points ptext (fun t => t)) in Ei as (pi & Pi & ->); [|reflexivity]. apply (pairs_points ptext (fun t => t)) in Eg as (pg & Pg & ->); [|reflexivity]. rewrite map_id in Pi, Pg.
  exists {| v_unit := i_unit i; v_vars := map (fun xl => (str (fst xl), map str (snd xl))) (i_vars i); v_ops := os; v_init := pi; v_goal := pg |}. split; [split; auto|].
  unfold all_lines. cbn [v_unit v_vars v_ops v_init v_goal]. rewrite <- lines_blocks by discriminate. cbn [map]. rewrite <- !lines_map by discriminate. rewrite <- !lines_blocks by discriminate. subst vs.
  assert (Ln : si_len (fw_vars w) = List.length (map (fun xl : term * list term => (str (fst xl), map str (snd xl))) (i_vars i))). { unfold w. cbn [fw_vars writer_of]. rewrite run_len by apply WF. now rewrite !map_length. }
  assert (La : List.length (fw_actions w) = List.length os). { apply Forall2_len in P. auto. }
  unfold w in Ln, La. cbn [fw_vars fw_actions writer_of] in Ln, La. rewrite Ln, La. reflexivity.
Qed.
End Text.
