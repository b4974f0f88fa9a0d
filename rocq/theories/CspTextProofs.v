(** Reading the text of a CSP *)
From Coq Require Import Ascii DecimalString DecimalZ DecimalFacts DecimalPos.
From Verif Require Import ListUtil Base Syntax SemLemmas ModelState ModelProofs ModelText Eval SasText SasTextProofs Grounding PropsGrounding CspSchema CspSchemaSpec CspText CspTextSpec.
#[local] Open Scope string_scope.
#[local] Open Scope list_scope.
#[local] Notation "a +++ b" := (@List.app string a b) (right associativity, at level 60).

(** ** Numbers *)
Definition rint (s : string) : option Z := option_map Z.of_int (NilZero.int_of_string s).
Lemma rint_int z : rint (int_text z) = Some z.
Proof.
  unfold rint, int_text. rewrite NilZero.isi.
  - cbn [option_map]. rewrite DecimalZ.of_to. reflexivity.
  - destruct z; cbn; try discriminate. intros Q. injection Q. apply Unsigned.to_uint_nonnil.
  - destruct z; cbn; try discriminate. intros Q. injection Q. apply Unsigned.to_uint_nonnil.
Qed.
Lemma int_free z c : ~ digit c -> c <> "-"%char -> free_of c (int_text z).
Proof.
  intros H N. unfold int_text, free_of. destruct z as [|p|p]; cbn [Z.to_int NilZero.string_of_int].
  - intros [<-|[]]. apply H. unfold digit. cbn. tauto.
  - unfold NilZero.string_of_uint. destruct (Pos.to_uint p) eqn:E; [exfalso; apply (Unsigned.to_uint_nonnil p); exact E|..]; intros X; apply H; apply uint_digits in X; exact X.
  - cbn [list_ascii_of_string]. unfold NilZero.string_of_uint. destruct (Pos.to_uint p) eqn:E; [exfalso; apply (Unsigned.to_uint_nonnil p); exact E|..]; (intros [X|X]; [congruence|]; apply H; apply uint_digits in X; exact X).
Qed.
Lemma int_space z : free_of " " (int_text z). Proof. apply int_free; [exact space_digit|discriminate]. Qed.
Lemma int_nl z : free_of (ascii_of_nat 10) (int_text z). Proof. apply int_free; [exact nl_digit|discriminate]. Qed.
Definition rbool (s : string) : option bool := if String.eqb s "True" then Some true else if String.eqb s "False" then Some false else None.
Lemma rbool_bool b : rbool (bool_text b) = Some b. Proof. destruct b; reflexivity. Qed.

(** ** Readers of lines *)
Fixpoint items {A} (item : list string -> option (A * list string)) (n : nat) (ls : list string) : option (list A * list string) :=
  match n with
  | 0 => Some ([], ls)
  | S n' => match item ls with Some (x, r) => match items item n' r with Some (xs, r') => Some (x :: xs, r') | None => None end | None => None end
  end.
Definition section {A} (title last : string) (item : list string -> option (A * list string)) (ls : list string) : option (list A * list string) :=
  match ls with
  | t :: n :: r => if String.eqb t title then match rnum n with Some n => match items item n r with Some (xs, e :: r') => if String.eqb e last then Some (xs, r') else None | _ => None end | None => None end else None
  | _ => None
  end.
Lemma items_ok {A} item (write : A -> list string) xs rest : (forall x r, In x xs -> item (write x +++ r) = Some (x, r)) -> items item (List.length xs) (flat_map write xs +++ rest) = Some (xs, rest).
Proof.
  induction xs as [|x xs IH]; intros H; [reflexivity|]. cbn [List.length flat_map items]. rewrite <- app_assoc, (H x _ (or_introl eq_refl)), IH; [reflexivity|]. intros y r Hy. apply H. now right.
Qed.
Lemma section_ok {A} title last item (write : A -> list string) xs rest : (forall x r, In x xs -> item (write x +++ r) = Some (x, r)) ->
  section title last item (title :: num (List.length xs) :: (flat_map write xs +++ (last :: rest))) = Some (xs, rest).
Proof. intros H. unfold section. rewrite String.eqb_refl, rnum_num, (items_ok item write xs _ H), String.eqb_refl. reflexivity. Qed.

Definition rvar (ls : list string) : option (string * string * (Z * Z) * list string) :=
  match ls with
  | l :: r => match split " " l with [x; kind; _; lo; hi] => match rnum lo, rint hi with Some a, Some b => Some ((x, kind, (Z.of_nat a, b)), r) | _, _ => None end | _ => None end
  | [] => None
  end.
Definition rname (ls : list string) : option (string * list string) := match ls with l :: r => Some (l, r) | [] => None end.
Definition rcond (ls : list string) : option (condition * list string) :=
  match ls with
  | k :: l :: r =>
      match split " " l with
      | a :: b :: rest =>
          if String.eqb k "table-constraint" then
            match split "=" b with
            | [_; v] => match rbool v with Some neg => Some (DTable a neg (match rest with [""] => [] | _ => rest end), r) | None => None end
            | _ => None
            end
          else if String.eqb k "statevar=const" then match rnum a, rbool b with Some i, Some v => Some (DState i v, r) | _, _ => None end
          else match rest with [c] => Some (DRel a b c, r) | _ => None end
      | _ => None
      end
  | _ => None
  end.
Definition rdoc (ls : list string) : option description :=
  match section "variables" "end-variables" rvar ls with
  | Some (vs, r1) =>
      match section "effect-relevant-variables" "end-effect-relevant-variables" rname r1 with
      | Some (rel, r2) =>
          match section "parameter-index" "end-parameter-index" rname r2 with
          | Some (ps, r3) => match section "constraints" "end-constraints" rcond r3 with Some (cs, _) => Some {| d_vars := vs; d_relevant := rel; d_params := ps; d_cons := cs |} | None => None end
          | None => None
          end
      | None => None
      end
  | None => None
  end.
Definition read_csp (t : string) : option description := rdoc (split (ascii_of_nat 10) t).

(** ** What is written *)
Definition wvar (v : string * string * (Z * Z)) : list string := [join " " [fst (fst v); snd (fst v); "int"; num (Z.to_nat (fst (snd v))); int_text (snd (snd v))]].
Definition wcond (d : condition) : list string :=
  match d with
  | DTable n neg xs => ["table-constraint"; (n ++ " negative=" ++ bool_text neg ++ " " ++ join " " xs)%string]
  | DState i b => ["statevar=const"; (num i ++ " " ++ bool_text b)%string]
  | DRel x rel y => ["relational"; (x ++ " " ++ rel ++ " " ++ y)%string]
  end.
Definition wname (x : string) : list string := [x].
Definition wdoc (d : description) : list string :=
  "variables" :: num (List.length (d_vars d)) :: (flat_map wvar (d_vars d) +++ "end-variables" :: "effect-relevant-variables" :: num (List.length (d_relevant d)) :: (flat_map wname (d_relevant d) +++
  "end-effect-relevant-variables" :: "parameter-index" :: num (List.length (d_params d)) :: (flat_map wname (d_params d) +++ "end-parameter-index" :: "constraints" :: num (List.length (d_cons d)) ::
  (flat_map wcond (d_cons d) +++ ["end-constraints"; ""])))).
Definition good_condition (d : condition) : Prop :=
  match d with DTable n _ xs => one_word n /\ Forall one_word xs | DState _ _ => True | DRel x rel y => one_word x /\ one_word rel /\ one_word y end.
Record good_description (d : description) : Prop := {
  gd_vars : Forall (fun v => (one_word (fst (fst v)) /\ one_word (snd (fst v))) /\ (0 <= fst (snd v))%Z) (d_vars d);
  gd_relevant : Forall one_word (d_relevant d);
  gd_params : Forall one_word (d_params d);
  gd_cons : Forall good_condition (d_cons d)
}.
Lemma word_space s : one_word s -> free_of " " s. Proof. intros (_ & H & _). exact H. Qed.
Lemma word_nl s : one_word s -> free_of (ascii_of_nat 10) s. Proof. intros (_ & _ & H). exact H. Qed.
Lemma bool_space b : free_of " " (bool_text b). Proof. destruct b; unfold free_of; cbn; intros H; repeat (destruct H as [H|H]; [discriminate H|]); exact H. Qed.
Lemma bool_nl b : free_of (ascii_of_nat 10) (bool_text b). Proof. destruct b; unfold free_of; cbn; intros H; repeat (destruct H as [H|H]; [discriminate H|]); exact H. Qed.
Lemma num_space n : free_of " " (num n). Proof. apply num_free. exact space_digit. Qed.
Lemma num_nl n : free_of (ascii_of_nat 10) (num n). Proof. apply num_free. exact nl_digit. Qed.
Lemma rvar_ok v r : (one_word (fst (fst v)) /\ one_word (snd (fst v))) /\ (0 <= fst (snd v))%Z -> rvar (wvar v +++ r) = Some (v, r).
Proof.
  intros [[A B] P]. destruct v as [[x kind] [lo hi]]. cbn [fst snd] in *. unfold wvar. cbn [List.app rvar fst snd].
  rewrite split_join.
  - rewrite rnum_num, rint_int, Z2Nat.id by exact P. reflexivity.
  - constructor; [apply word_space; exact A|]. constructor; [apply word_space; exact B|]. constructor; [unfold free_of; cbn; intros H; repeat (destruct H as [H|H]; [discriminate H|]); exact H|]. constructor; [apply num_space|]. constructor; [apply int_space|constructor].
  - discriminate.
Qed.
Lemma neg_split b : split "=" ("negative=" ++ bool_text b)%string = ["negative"; bool_text b]. Proof. destruct b; reflexivity. Qed.
Lemma rcond_ok d r : good_condition d -> rcond (wcond d +++ r) = Some (d, r).
Proof.
  destruct d as [n neg xs|i b|x rel y]; intros G; cbn [wcond List.app rcond].
  - destruct G as [Hn Hx]. assert (E : split " " (n ++ " negative=" ++ bool_text neg ++ " " ++ join " " xs)%string = n :: ("negative=" ++ bool_text neg)%string :: sect xs).
    { change (n ++ " negative=" ++ bool_text neg ++ " " ++ join " " xs)%string with (n ++ String " " ("negative=" ++ bool_text neg ++ String " " (join " " xs)))%string. rewrite split_app by (apply word_space; exact Hn).
      rewrite <- app_assoc_s. rewrite split_app; [|destruct neg; unfold free_of; cbn; intros H; repeat (destruct H as [H|H]; [discriminate H|]); exact H]. f_equal. f_equal.
      destruct xs as [|x xs]; [reflexivity|]. apply split_join; [|discriminate]. refine (Forall_impl _ _ Hx). exact word_space. }
    rewrite E. cbn [String.eqb Ascii.eqb Bool.eqb]. rewrite neg_split, rbool_bool. destruct xs as [|x xs]; [reflexivity|]. inversion Hx as [|? ? H1 H2]; subst. destruct H1 as (N & _). cbn [sect]. destruct x; [congruence|]. reflexivity.
  - change (num i ++ " " ++ bool_text b)%string with (num i ++ String " " (bool_text b))%string. rewrite split_app by apply num_space. rewrite split_free by apply bool_space. cbn [String.eqb Ascii.eqb Bool.eqb]. rewrite rnum_num, rbool_bool. reflexivity.
  - destruct G as (A & B & C). assert (E : split " " (x ++ " " ++ rel ++ " " ++ y)%string = [x; rel; y]).
    { change (x ++ " " ++ rel ++ " " ++ y)%string with (x ++ String " " (rel ++ String " " y))%string. rewrite split_app by (apply word_space; exact A). rewrite split_app by (apply word_space; exact B). rewrite split_free by (apply word_space; exact C). reflexivity. }
    rewrite E. reflexivity.
Qed.
Lemma rdoc_ok d : good_description d -> rdoc (wdoc d) = Some d.
Proof.
  intros [A B C D]. rewrite Forall_forall in A, B, C, D. unfold rdoc, wdoc. rewrite section_ok by (intros x r Hx; apply rvar_ok; exact (A x Hx)).
  rewrite section_ok by reflexivity. rewrite section_ok by reflexivity. rewrite section_ok by (intros x r Hx; apply rcond_ok; exact (D x Hx)). destruct d; reflexivity.
Qed.
Lemma wdoc_lines d : good_description d -> Forall (free_of (ascii_of_nat 10)) (wdoc d).
Proof.
  assert (lit : forall s, existsb (Ascii.eqb (ascii_of_nat 10)) (list_ascii_of_string s) = false -> free_of (ascii_of_nat 10) s).
  { intros s H X. assert (T : existsb (Ascii.eqb (ascii_of_nat 10)) (list_ascii_of_string s) = true) by (apply existsb_exists; exists (ascii_of_nat 10); split; [exact X|apply Ascii.eqb_refl]). congruence. }
  assert (fm : forall A (w : A -> list string) (P : A -> Prop) l, (forall x, P x -> Forall (free_of (ascii_of_nat 10)) (w x)) -> Forall P l -> Forall (free_of (ascii_of_nat 10)) (flat_map w l)).
  { intros A w P l H F. induction F as [|x l Px F IH]; [constructor|]. cbn [flat_map]. apply Forall_app. split; [apply H; exact Px|exact IH]. }
  intros [A B C D]. unfold wdoc. repeat first [apply Forall_cons; [first [apply num_nl|apply lit; reflexivity]|] | apply Forall_app; split | apply Forall_nil].
  - apply (fm _ wvar _ _) with (2 := A). intros [[x kind] [lo hi]] [[H1 H2] _]. cbn [fst snd] in *. unfold wvar. constructor; [|constructor]. cbn [fst snd join]. apply free_app. split; [apply word_nl; exact H1|]. apply free_app. split; [apply lit; reflexivity|]. apply free_app. split; [apply word_nl; exact H2|].
    apply free_app. split; [apply lit; reflexivity|]. apply free_app. split; [apply lit; reflexivity|]. apply free_app. split; [apply lit; reflexivity|]. apply free_app. split; [apply num_nl|]. apply free_app. split; [apply lit; reflexivity|apply int_nl].
  - apply (fm _ wname _ _) with (2 := B). intros x H. constructor; [apply word_nl; exact H|constructor].
  - apply (fm _ wname _ _) with (2 := C). intros x H. constructor; [apply word_nl; exact H|constructor].
  - apply (fm _ wcond _ _) with (2 := D). intros [n neg xs|i b|x rel y] G; cbn [wcond]; (constructor; [apply lit; reflexivity|]); (constructor; [|constructor]).
    + destruct G as [Hn Hx]. apply free_app. split; [apply word_nl; exact Hn|]. apply free_app. split; [apply lit; reflexivity|]. apply free_app. split; [apply bool_nl|]. apply free_app. split; [apply lit; reflexivity|].
      clear Hn. induction Hx as [|x xs Hx F IH]; [apply lit; reflexivity|]. destruct xs as [|y xs]; [apply word_nl; exact Hx|]. change (join " " (x :: y :: xs)) with (x ++ " " ++ join " " (y :: xs))%string. apply free_app. split; [apply word_nl; exact Hx|]. apply free_app. split; [apply lit; reflexivity|exact IH].
    + apply free_app. split; [apply num_nl|]. apply free_app. split; [apply lit; reflexivity|apply bool_nl].
    + destruct G as (G1 & G2 & G3). apply free_app. split; [apply word_nl; exact G1|]. apply free_app. split; [apply lit; reflexivity|]. apply free_app. split; [apply word_nl; exact G2|]. apply free_app. split; [apply lit; reflexivity|apply word_nl; exact G3].
Qed.
Lemma read_wdoc d : good_description d -> read_csp (lines (wdoc d)) = Some d.
Proof. intros G. unfold read_csp, lines, nl. rewrite split_join; [apply rdoc_ok; exact G|apply wdoc_lines; exact G|discriminate]. Qed.
