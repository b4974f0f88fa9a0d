(** The tokens of a written RDDL document *)
From Coq Require Import Ascii.
From Verif Require Import ListUtil Base Syntax ModelState ModelText PddlText Lang Rddl RddlSpec RddlProofs RddlProofs2 RddlProofs3 PropsRddl RddlDoc RddlDocSpec.
#[local] Open Scope string_scope.
#[local] Open Scope list_scope.

(** ** Lexing *)
Definition lit (s : string) (ts : list token) : Prop := forall rest, lex "" (s ++ rest) = ts ++ lex "" rest.
Lemma lit_lexes s ts : lit s ts -> lexes s ts.
Proof. intros H rest _. apply H. Qed.
Lemma lit_app a ta s ts : lit a ta -> lexes s ts -> lexes (a ++ s) (ta ++ ts).
Proof. intros A B rest S. rewrite sassoc, A, B by exact S. now rewrite app_assoc. Qed.
Definition stops (s : string) : Prop := forall rest, stop rest -> stop (s ++ rest).
Lemma var_app a ta s ts : lexes a ta -> stops s -> lexes s ts -> lexes (a ++ s) (ta ++ ts).
Proof. intros A T B rest S. rewrite sassoc, A by (apply T; exact S). rewrite B by exact S. now rewrite app_assoc. Qed.
Lemma stops_cons c s : plain_char c = false -> stops (String c s).
Proof. intros H rest _. exact H. Qed.
Lemma lexes_nil : lexes "" [].
Proof. intros rest _. reflexivity. Qed.
Lemma lexes_name w : name_ok w = true -> lexes w [Word w].
Proof. intros H. destruct (name_ok_clean w H) as [C N]. now apply lexes_word. Qed.
Lemma lexes_value w : value_of w <> None -> lexes w [Word w].
Proof.
  unfold value_of. destruct (String.eqb_spec w "true") as [->|]; [intros _; now apply lexes_word|]. destruct (String.eqb_spec w "false") as [->|]; [intros _; now apply lexes_word|].
  destruct (name_ok w) eqn:E; [|congruence]. intros _. now apply lexes_name.
Qed.
(** joining with a comma and a space *)
Lemma lexes_join2 l ts : Forall2 lexes l ts -> l <> [] -> lexes (join ", " l) (sep ts).
Proof.
  induction 1 as [|s t l ts H HF IH]; intros N; [contradiction|]. destruct HF as [|s' t' l ts H' HF]; [exact H|].
  change (join ", " (s :: s' :: l)) with (s ++ ", " ++ join ", " (s' :: l))%string. change (sep (t :: t' :: ts)) with (t ++ [Comma] ++ sep (t' :: ts)).
  apply var_app; [exact H|now apply stops_cons|]. apply lit_app; [intros rest; reflexivity|]. apply IH. discriminate.
Qed.
Definition word_tokens (ws : list string) : list (list token) := map (fun w => [Word w]) ws.
Lemma lexes_words ws : Forall (fun w => name_ok w = true) ws -> Forall2 lexes ws (word_tokens ws).
Proof. induction 1; constructor; auto using lexes_name. Qed.

Definition head_tokens (n : string) (ws : list string) : list token := call_tokens n LP RP (word_tokens ws).
Lemma lexes_head n ws : name_ok n = true -> Forall (fun w => name_ok w = true) ws -> lexes (n ++ arguments "(" ")" ws) (head_tokens n ws).
Proof. intros H F. destruct (name_ok_clean n H) as [C N]. apply lexes_call; auto using lexes_words. Qed.
Lemma lexes_head2 n ws : name_ok n = true -> Forall (fun w => name_ok w = true) ws -> ws <> [] -> lexes (n ++ "(" ++ join ", " ws ++ ")") (head_tokens n ws).
Proof.
  intros H F N. unfold head_tokens, call_tokens. assert (Q : match word_tokens ws with [] => [] | _ => LP :: sep (word_tokens ws) ++ [RP] end = [LP] ++ sep (word_tokens ws) ++ [RP]) by (destruct ws; [contradiction|reflexivity]). rewrite Q.
  change (Word n :: ?x) with ([Word n] ++ x). apply var_app; [now apply lexes_name|now apply stops_cons|]. apply lit_app; [intros rest; reflexivity|].
  apply var_app; [apply lexes_join2; [now apply lexes_words|exact N]|now apply stops_cons|]. intros rest _. reflexivity.
Qed.

(** ** Entries *)
Definition type_tokens (sp : string * string) : list token := [Word (fst sp); Word ":"; Word (snd sp); Semi].
Lemma lexes_type s p : name_ok s = true -> name_ok p = true -> lexes (s ++ " : " ++ p ++ ";") (type_tokens (s, p)).
Proof.
  intros A B. change (type_tokens (s, p)) with ([Word s] ++ [Word ":"] ++ [Word p] ++ [Semi]). apply var_app; [now apply lexes_name|now apply stops_cons|]. apply lit_app; [intros rest; reflexivity|].
  apply var_app; [now apply lexes_name|now apply stops_cons|]. intros rest _. reflexivity.
Qed.
Definition declaration_tokens (kind attribute : string) (d : fluent * pyvalue) : list token :=
  head_tokens (symbol_name (fst d)) (symbol_sorts (fst d)) ++ [Word ":"; LC] ++ [Word kind] ++ [Comma] ++ [Word (get_type (fst d))] ++ [Comma] ++ [Word attribute] ++ [Word "="] ++ [Word (py_text (snd d))] ++ [RC; Semi].
Lemma type_name_ok c : name_ok c = true -> name_ok (type_name c) = true.
Proof. intros H. unfold type_name. destruct (String.eqb c "Object"); [reflexivity|]. destruct (String.eqb c "Real"); [reflexivity|]. destruct (String.eqb c "Integer"); [reflexivity|exact H]. Qed.
Lemma get_type_ok l d : fluent_ok l d -> name_ok (get_type (fst d)) = true.
Proof. destruct d as [[n ss|n ss c] v]; intros (_ & _ & _ & H & _); cbn [fst get_type] in *; [reflexivity|now apply type_name_ok]. Qed.
Lemma fluent_value l d : fluent_ok l d -> value_of (py_text (snd d)) <> None.
Proof. intros (_ & _ & _ & _ & s & -> & H). exact H. Qed.
Lemma lexes_declaration l kind attribute d : fluent_ok l d -> name_ok kind = true -> name_ok attribute = true -> lexes (pvar_line kind attribute d) (declaration_tokens kind attribute d).
Proof.
  intros H K A. unfold pvar_line. pose proof (get_type_ok l d H) as T. pose proof (fluent_value l d H) as V. destruct H as (_ & N & S & _).
  change (declaration_tokens kind attribute d) with ([] ++ declaration_tokens kind attribute d). apply lit_app; [intros rest; reflexivity|]. unfold declaration_tokens.
  apply var_app; [|now apply stops_cons|].
  - destruct (fst d); cbn [get_signature symbol_name symbol_sorts] in *; now apply lexes_head.
  - apply lit_app; [intros rest; reflexivity|]. apply var_app; [now apply lexes_name|now apply stops_cons|]. apply lit_app; [intros rest; reflexivity|]. apply var_app; [now apply lexes_name|now apply stops_cons|].
    apply lit_app; [intros rest; reflexivity|]. apply var_app; [now apply lexes_name|now apply stops_cons|]. apply lit_app; [intros rest; reflexivity|]. apply var_app; [now apply lexes_value|now apply stops_cons|]. intros rest _. reflexivity.
Qed.
Definition object_tokens (so : string * list string) : list token := [Word (fst so)] ++ [Word ":"; LC] ++ sep (word_tokens (snd so)) ++ [RC; Semi].
Lemma lexes_object s ws : name_ok s = true -> Forall (fun w => name_ok w = true) ws -> lexes (tab ++ s ++ " : {" ++ join "," ws ++ "};") (object_tokens (s, ws)).
Proof.
  intros H F. change (object_tokens (s, ws)) with ([] ++ object_tokens (s, ws)). apply lit_app; [intros rest; reflexivity|]. unfold object_tokens. cbn [fst snd].
  apply var_app; [now apply lexes_name|now apply stops_cons|]. apply lit_app; [intros rest; reflexivity|]. apply var_app; [|now apply stops_cons|intros rest _; reflexivity].
  destruct ws as [|w ws]; [exact lexes_nil|]. apply lexes_join; [now apply lexes_words|discriminate].
Qed.
Definition value_tokens (e : string * list string * string) : list token := head_tokens (fst (fst e)) (snd (fst e)) ++ [Word "="] ++ [Word (snd e)] ++ [Semi].
Lemma lexes_value_line h n ws v : lexes h (head_tokens n ws) -> value_of v <> None -> lexes (tab ++ h ++ " = " ++ v ++ ";") (value_tokens (n, ws, v)).
Proof.
  intros H V. change (value_tokens (n, ws, v)) with ([] ++ value_tokens (n, ws, v)). apply lit_app; [intros rest; reflexivity|]. unfold value_tokens. cbn [fst snd].
  apply var_app; [exact H|now apply stops_cons|]. apply lit_app; [intros rest; reflexivity|]. apply var_app; [now apply lexes_value|now apply stops_cons|]. intros rest _. reflexivity.
Qed.

(** ** Entries are read back *)
Lemma entries_read {A B} (f : list token -> option (A * list token)) (tok : B -> list token) (g : B -> A) bs :
  (forall b rest, In b bs -> f (tok b ++ rest) = Some (g b, rest)) -> (forall b, In b bs -> tok b <> []) ->
  forall n, List.length bs <= n -> entries f n (List.concat (map tok bs)) = Some (map g bs).
Proof.
  induction bs as [|b bs IH]; intros R N n L; [destruct n; reflexivity|]. destruct n as [|n]; [cbn in L; lia|]. cbn [map List.concat].
  assert (R' := R b (List.concat (map tok bs)) (or_introl eq_refl)). assert (N' := N b (or_introl eq_refl)).
  destruct (tok b) as [|t ts] eqn:E; [contradiction|]. cbn [List.app] in *. cbn [entries]. rewrite R'. rewrite IH; [reflexivity| | |cbn in L; lia]; intros; [apply R|apply N]; now right.
Qed.
Lemma concat_length {B} (tok : B -> list token) bs : (forall b, In b bs -> tok b <> []) -> List.length bs <= List.length (List.concat (map tok bs)).
Proof.
  induction bs as [|b bs IH]; intros N; [cbn; lia|]. cbn [map List.concat List.length]. rewrite app_length. specialize (IH (fun c H => N c (or_intror H))). pose proof (N b (or_introl eq_refl)). destruct (tok b); [contradiction|]. cbn [List.length]. lia.
Qed.
Lemma all_read {A B} (f : list token -> option (A * list token)) (tok : B -> list token) (g : B -> A) bs :
  (forall b rest, In b bs -> f (tok b ++ rest) = Some (g b, rest)) -> (forall b, In b bs -> tok b <> []) -> all f (List.concat (map tok bs)) = Some (map g bs).
Proof. intros R N. apply entries_read; auto. now apply concat_length. Qed.

Lemma names_read close ws rest : close <> Comma -> ws <> [] -> Forall (fun w => name_ok w = true) ws -> names_until close (sep (word_tokens ws) ++ close :: rest) = Some (ws, rest).
Proof.
  intros C N F. induction F as [|w ws H F IH]; [contradiction|]. assert (T : token_eqb close close = true) by (destruct close; cbn; auto; apply String.eqb_refl).
  destruct F as [|w' ws H' F].
  - cbn [word_tokens map sep List.app names_until]. rewrite H, T. reflexivity.
  - change (sep (word_tokens (w :: w' :: ws))) with (Word w :: Comma :: sep (word_tokens (w' :: ws))). cbn [List.app names_until]. rewrite H, IH by discriminate. destruct (token_eqb Comma close) eqn:E; [destruct close; discriminate E || contradiction|reflexivity].
Qed.
Lemma head_read n ws rest : name_ok n = true -> Forall (fun w => name_ok w = true) ws -> match rest with LP :: _ => False | _ => True end -> head_of (head_tokens n ws ++ rest) = Some ((n, ws), rest).
Proof.
  intros H F R. unfold head_tokens, call_tokens. destruct ws as [|w ws].
  - cbn [word_tokens map List.app]. unfold head_of. rewrite H. destruct rest as [|[] rest]; try reflexivity. contradiction.
  - assert (Q : match word_tokens (w :: ws) with [] => [] | _ => LP :: sep (word_tokens (w :: ws)) ++ [RP] end = LP :: sep (word_tokens (w :: ws)) ++ [RP]) by reflexivity. rewrite Q. rewrite <- !app_comm_cons, <- app_assoc. unfold head_of. rewrite H. cbn [List.app]. rewrite names_read by (first [discriminate|exact F]). reflexivity.
Qed.
Lemma type_read s p rest : name_ok s = true -> name_ok p = true -> type_entry (type_tokens (s, p) ++ rest) = Some ((s, p), rest).
Proof. intros A B. cbn [type_tokens fst snd List.app type_entry]. rewrite A, B. reflexivity. Qed.
Lemma object_read s ws rest : name_ok s = true -> Forall (fun w => name_ok w = true) ws -> object_entry (object_tokens (s, ws) ++ rest) = Some ((s, ws), rest).
Proof.
  intros H F. unfold object_tokens. cbn [fst snd]. rewrite <- !app_assoc. cbn [List.app]. unfold object_entry. rewrite H. change (String.eqb ":" ":") with true. cbn [andb]. destruct ws as [|w ws]; [reflexivity|].
  rewrite names_read by (first [discriminate|exact F]). assert (Q : exists ts, sep (word_tokens (w :: ws)) ++ RC :: Semi :: rest = Word w :: ts) by (destruct ws; cbn [word_tokens map sep List.app]; eauto). destruct Q as (ts & ->). reflexivity.
Qed.
Definition value_means (v : string) : rvalue := match value_of v with Some x => x | None => Truth true end.
Lemma value_read n ws v rest : name_ok n = true -> Forall (fun w => name_ok w = true) ws -> value_of v <> None -> value_entry (value_tokens (n, ws, v) ++ rest) = Some ((n, ws, value_means v), rest).
Proof.
  intros H F V. unfold value_tokens, value_entry, value_means. cbn [fst snd]. rewrite <- !app_assoc. rewrite head_read by (cbn; auto). cbn [List.app]. change (String.eqb "=" "=") with true. cbv match. destruct (value_of v); [reflexivity|contradiction].
Qed.
Definition declaration_of (kind attribute : string) (d : fluent * pyvalue) : declaration :=
  {| d_name := symbol_name (fst d); d_params := symbol_sorts (fst d); d_kind := kind; d_type := get_type (fst d); d_attribute := attribute; d_value := value_means (py_text (snd d)) |}.
Lemma declaration_read l kind attribute d rest : fluent_ok l d -> In (kind, attribute) kinds -> declaration_entry (declaration_tokens kind attribute d ++ rest) = Some (declaration_of kind attribute d, rest).
Proof.
  intros H K. pose proof (get_type_ok l d H) as T. pose proof (fluent_value l d H) as V. destruct H as (_ & N & S & _). unfold declaration_tokens, declaration_entry. rewrite <- !app_assoc. rewrite head_read by (cbn; auto). cbn [List.app].
  change (String.eqb ":" ":") with true. change (String.eqb "=" "=") with true. rewrite T. cbn [andb].
  assert (Q : existsb (fun ka => String.eqb (fst ka) kind && String.eqb (snd ka) attribute) kinds = true) by (apply existsb_exists; exists (kind, attribute); cbn [fst snd]; rewrite !String.eqb_refl; auto). rewrite Q.
  unfold declaration_of, value_means. destruct (value_of (py_text (snd d))); [reflexivity|contradiction].
Qed.
Lemma names_list_read ws : Forall (fun w => name_ok w = true) ws -> names_list (sep (word_tokens ws)) = Some ws.
Proof.
  intros F. destruct ws as [|w ws]; [reflexivity|]. unfold names_list. assert (Q : exists t ts, sep (word_tokens (w :: ws)) = t :: ts) by (destruct ws; cbn [word_tokens map sep List.app]; eauto). destruct Q as (t & ts & Q).
  rewrite Q. rewrite <- Q. rewrite names_read by (first [discriminate|exact F]). reflexivity.
Qed.
