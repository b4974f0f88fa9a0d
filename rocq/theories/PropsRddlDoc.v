(** C68: the whole document written for an RDDL task *)
From Coq Require Import Ascii.
From Verif Require Import ListUtil Base Syntax Semantics SemLemmas ModelState ModelText ModelProofs PddlText Lang LangSpec LangProofs LangProofs2 LangProofs3 PropsLang
  Rddl RddlSpec RddlProofs RddlProofs2 RddlProofs3 PropsRddl RddlDoc RddlDocSpec RddlDocProofs RddlDocProofs2 RddlDocProofs3.
#[local] Open Scope string_scope.
#[local] Open Scope list_scope.

(** ** The sections of the text *)
Definition constraint_tokens (e : xexpr) : list token := toks e ++ [Semi].
Definition kept (k : ctype) (t : task) : list xexpr := map fst (filter (fun c => ctype_eqb (snd c) k) (t_constraints t)).
Definition reward_tokens (r : option xexpr) : list token := match r with Some e => toks e | None => [Word "0.0"] end.
Definition all_declarations (t : task) : list ((string * string) * (fluent * pyvalue)) :=
  map (pair ("state-fluent", "default")) (t_state t) ++ map (pair ("interm-fluent", "level")) (t_interm t) ++ map (pair ("action-fluent", "default")) (t_action t) ++ map (pair ("non-fluent", "default")) (t_non t).
Definition dtokens (x : (string * string) * (fluent * pyvalue)) : list token := declaration_tokens (fst (fst x)) (snd (fst x)) (snd x).
Definition domain_pieces (t : task) (tp : list (string * string)) : list piece :=
  [Assign_block "requirements" (sep (word_tokens (t_requirements t))); Block "types" (List.concat (map type_tokens tp)); Block "pvariables" (List.concat (map dtokens (all_declarations t)));
   Block "cpfs" (List.concat (map definition_tokens (t_cpfs t))); Assign "reward" (reward_tokens (t_reward t));
   Block "action-preconditions" (List.concat (map constraint_tokens (kept ACTION t))); Block "state-invariants" (List.concat (map constraint_tokens (kept STATE t)))].
Definition optional {A} (k : string) (tok : A -> list token) (xs : list A) : list piece := match xs with [] => [] | _ => [Block k (List.concat (map tok xs))] end.
Definition constant_pieces (t : task) (os : list (string * list string)) (es : list (string * list string * string)) : list piece :=
  Assign "domain" [Word (t_domain t)] :: optional "objects" object_tokens os ++ optional "non-fluents" value_tokens es.
Definition instance_pieces (t : task) (max : pyvalue) (es : list (string * list string * string)) : list piece :=
  [Assign "domain" [Word (t_domain t)]; Assign "non-fluents" [Word (non_fluents_name t)]; Block "init-state" (List.concat (map value_tokens es));
   Assign "max-nondef-actions" [Word (py_text max)]; Assign "horizon" [Word (py_text (t_horizon t))]; Assign "discount" [Word (py_text (t_discount t))]].
Definition document_tokens t tp os es max es' : list token :=
  section_tokens ("domain", t_domain t, domain_pieces t tp) ++ section_tokens ("non-fluents", non_fluents_name t, constant_pieces t os es) ++ section_tokens ("instance", t_instance t, instance_pieces t max es').

(** ** Reading a list of pieces *)
Lemma bal_words ws : balanced (sep (word_tokens ws)).
Proof. apply bal_sep. apply Forall_forall. intros x H. apply in_map_iff in H as (w & <- & _). now apply bal_plain. Qed.
Lemma bal_map_all {A} (tok : A -> list token) xs : (forall x, balanced (tok x)) -> balanced (List.concat (map tok xs)).
Proof. intros H. apply bal_concat. apply Forall_forall. intros y Hy. apply in_map_iff in Hy as (x & <- & _). apply H. Qed.
Lemma bal_head n ws : balanced (head_tokens n ws).
Proof. apply bal_call; try reflexivity. apply Forall_forall. intros x H. apply in_map_iff in H as (w & <- & _). now apply bal_plain. Qed.
Lemma bal_type x : balanced (type_tokens x).
Proof. now apply bal_plain. Qed.
Lemma bal_declaration x : balanced (dtokens x).
Proof. unfold dtokens, declaration_tokens. apply bal_app; [apply bal_head|]. cbn [List.app]. apply bal_one; [reflexivity|]. change (LC :: ?a :: ?b :: ?c :: ?d :: ?e :: ?f :: ?g :: RC :: [Semi]) with (LC :: [a; b; c; d; e; f; g] ++ RC :: [Semi]). apply bal_braces; now apply bal_plain. Qed.
Lemma bal_definition x : balanced (definition_tokens x).
Proof.
  unfold definition_tokens. apply bal_app; [apply bal_call; try reflexivity; apply bal_map; apply Forall_forall; intros; apply bal_toks|]. apply bal_one; [reflexivity|]. apply bal_app; [apply bal_toks|now apply bal_plain].
Qed.
Lemma bal_constraint e : balanced (constraint_tokens e).
Proof. apply bal_app; [apply bal_toks|now apply bal_plain]. Qed.
Lemma bal_object x : balanced (object_tokens x).
Proof.
  unfold object_tokens. cbn [List.app]. apply bal_one; [reflexivity|]. apply bal_one; [reflexivity|]. change (sep (word_tokens (snd x)) ++ [RC; Semi]) with (sep (word_tokens (snd x)) ++ RC :: [Semi]). apply bal_braces; [apply bal_words|now apply bal_plain].
Qed.
Lemma bal_value x : balanced (value_tokens x).
Proof. unfold value_tokens. apply bal_app; [apply bal_head|now apply bal_plain]. Qed.
Lemma toks_first e : match toks e with LC :: _ => False | _ => True end.
Proof.
  assert (C : forall n l r ts, match call_tokens n l r ts with LC :: _ => False | _ => True end) by (intros; exact I). assert (F : forall op ts, match infix_tokens op ts with LC :: _ => False | _ => True end) by (intros op ts; destruct ts as [|a [|b ts]]; exact I).
  destruct e as [x s|c s|f ts|c a b| | |p ts|c fs|q vs f|m vs f]; cbn [toks]; try exact I.
  - destruct f as [b|n d c]; [|apply C]. destruct (infix_fun b); [apply F|]. destruct (random_binary b); apply C.
  - destruct p; [apply F|apply C].
  - apply F.
Qed.
Lemma domain_pieces_ok t tp : Forall piece_ok (domain_pieces t tp).
Proof.
  unfold domain_pieces. repeat apply Forall_cons; [apply bal_words|apply bal_map_all, bal_type|apply bal_map_all, bal_declaration|apply bal_map_all, bal_definition| |apply bal_map_all, bal_constraint|apply bal_map_all, bal_constraint|constructor].
  cbn [piece_ok]. destruct (t_reward t) as [e|]; cbn [reward_tokens]; [split; [apply bal_toks|]; split; [apply ns_toks|apply toks_first]|]. split; [now apply bal_plain|]. split; [intros [H|[]]; discriminate H|exact I].
Qed.
Lemma word_piece_ok k w : piece_ok (Assign k [Word w]).
Proof. split; [now apply bal_plain|]. split; [intros [H|[]]; discriminate H|exact I]. Qed.
Lemma optional_ok {A} k (tok : A -> list token) xs : (forall x, balanced (tok x)) -> Forall piece_ok (optional k tok xs).
Proof. intros H. unfold optional. destruct xs; [constructor|]. constructor; [now apply bal_map_all|constructor]. Qed.
Lemma constant_pieces_ok t os es : Forall piece_ok (constant_pieces t os es).
Proof. constructor; [apply word_piece_ok|]. apply Forall_app. split; apply optional_ok; [apply bal_object|apply bal_value]. Qed.
Lemma instance_pieces_ok t m es : Forall piece_ok (instance_pieces t m es).
Proof. unfold instance_pieces. repeat apply Forall_cons; try apply word_piece_ok; [apply bal_map_all, bal_value|constructor]. Qed.

Lemma the_cpfs ds : Forall definition_ok ds -> definitions (List.length (List.concat (map definition_tokens ds))) (List.concat (map definition_tokens ds)) = Some (map definition_exp ds).
Proof. intros F. apply parse_definitions; [exact F|]. apply concat_length. intros [[f ts] e] _. unfold definition_tokens, call_tokens. discriminate. Qed.
Lemma the_constraints es : Forall writable es -> constraints (List.length (List.concat (map constraint_tokens es))) (List.concat (map constraint_tokens es)) = Some (map tr es).
Proof. intros F. apply parse_constraints; [exact F|]. apply (concat_length constraint_tokens). intros e _. unfold constraint_tokens. destruct (toks e); discriminate. Qed.
Lemma the_types tp : (forall s p, In (s, p) tp -> name_ok s = true /\ name_ok p = true) -> all type_entry (List.concat (map type_tokens tp)) = Some tp.
Proof.
  intros H. rewrite <- (map_id tp) at 2. apply (all_read type_entry type_tokens (fun x => x)); [|intros [s p] _; discriminate]. intros [s p] rest X. destruct (H s p X). now apply type_read.
Qed.
Definition dmeans (x : (string * string) * (fluent * pyvalue)) : declaration := declaration_of (fst (fst x)) (snd (fst x)) (snd x).
Lemma the_declarations l xs : Forall (fun x => In (fst x) kinds /\ fluent_ok l (snd x)) xs -> all declaration_entry (List.concat (map dtokens xs)) = Some (map dmeans xs).
Proof.
  intros F. apply all_read.
  - intros [[k a] d] rest X. destruct (proj1 (Forall_forall _ _) F _ X) as [K O]. now apply (declaration_read l).
  - intros [[k a] d] _. discriminate.
Qed.
Lemma the_objects os : (forall s ws, In (s, ws) os -> name_ok s = true /\ Forall (fun w => name_ok w = true) ws) -> all object_entry (List.concat (map object_tokens os)) = Some os.
Proof.
  intros H. rewrite <- (map_id os) at 2. apply (all_read object_entry object_tokens (fun x => x)); [|intros [s p] _; discriminate]. intros [s p] rest X. destruct (H s p X). now apply object_read.
Qed.
Lemma the_values es : (forall e, In e es -> name_ok (fst (fst e)) = true /\ Forall (fun w => name_ok w = true) (snd (fst e)) /\ value_of (snd e) <> None) -> all value_entry (List.concat (map value_tokens es)) = Some (map entry_of es).
Proof.
  intros H. apply all_read; [|intros [[n ws] v] _; unfold value_tokens, head_tokens, call_tokens; discriminate]. intros [[n ws] v] rest X. destruct (H _ X) as (A & B & C). cbn [fst snd] in *. now apply value_read.
Qed.
Lemma the_reward r : (forall e, r = Some e -> writable e) -> whole_expression (reward_tokens r) = Some (match r with Some e => tr e | None => RName "0.0" [] end).
Proof.
  intros H. destruct r as [e|]; [|reflexivity]. unfold whole_expression, reward_tokens, read_expression. pose proof (proj2 (writable_parses e (H e eq_refl)) (List.length (toks e)) true []) as P. rewrite app_nil_r in P. rewrite P; [reflexivity|lia|exact I|exact I].
Qed.

Lemma constant_fields t os es : let fs := map piece_field (constant_pieces t os es) in
  the_field "domain" fs = Some [Word (t_domain t)] /\ a_field "objects" fs = Some (List.concat (map object_tokens os)) /\ a_field "non-fluents" fs = Some (List.concat (map value_tokens es)).
Proof. unfold constant_pieces. destruct os as [|o os], es as [|e es]; (split; [reflexivity|split; reflexivity]). Qed.

(** ** The text is made of these sections *)
Ltac doc_step :=
  match goal with
  | |- lexes (?a ++ ?s) _ =>
      first [eapply var_app; [eassumption|intros ? _; reflexivity|]
            |let ts := eval vm_compute in (lex "" a) in apply (lit_app a ts); [intros rest; reflexivity|]]
  end.
Lemma document_lexes t types cpfs reward pre inv objs nfs init max tp os es es' v pv rq :
  lexes (t_domain t) [Word (t_domain t)] -> lexes (t_instance t) [Word (t_instance t)] -> lexes (non_fluents_name t) [Word (non_fluents_name t)] ->
  lexes rq (sep (word_tokens (t_requirements t))) -> lexes types (List.concat (map type_tokens tp)) -> lexes pv (List.concat (map dtokens (all_declarations t))) ->
  lexes cpfs (List.concat (map definition_tokens (t_cpfs t))) -> lexes reward (reward_tokens (t_reward t)) -> lexes pre (List.concat (map constraint_tokens (kept ACTION t))) -> lexes inv (List.concat (map constraint_tokens (kept STATE t))) ->
  lexes objs (List.concat (map piece_tokens (optional "objects" object_tokens os))) -> lexes nfs (List.concat (map piece_tokens (optional "non-fluents" value_tokens es))) ->
  lexes init (List.concat (map value_tokens es')) -> lexes max [Word (py_text v)] -> lexes (py_text (t_horizon t)) [Word (py_text (t_horizon t))] -> lexes (py_text (t_discount t)) [Word (py_text (t_discount t))] ->
  lexes (template (t_domain t) rq types pv cpfs reward pre inv (non_fluents_name t) objs nfs (t_instance t) init max (py_text (t_horizon t)) (py_text (t_discount t))) (document_tokens t tp os es v es').
Proof.
  intros. unfold template. match goal with |- lexes ?s ?d => assert (L : exists ts, ts = d /\ lexes s ts); [|destruct L as (ts & <- & L); exact L] end.
  eexists. split; [|repeat doc_step; apply (lit_lexes nl []); intros rest; reflexivity].
  unfold document_tokens, section_tokens, domain_pieces, constant_pieces, instance_pieces. cbn [fst snd map List.concat piece_tokens]. rewrite !map_app, !concat_app.
  rewrite ?app_nil_r. repeat (progress (rewrite <- ?app_assoc; cbn [List.app])). reflexivity.
Qed.

(** ** Reading the document *)
Definition the_document (t : task) (tp : list (string * string)) (os : list (string * list string)) (es : list (string * list string * string)) (v : pyvalue) (es' : list (string * list string * string)) : document :=
  {| doc_domain := t_domain t; doc_requirements := t_requirements t; doc_types := tp; doc_fluents := map dmeans (all_declarations t);
     doc_cpfs := map definition_exp (t_cpfs t); doc_reward := match t_reward t with Some e => tr e | None => RName "0.0" [] end;
     doc_preconditions := map tr (kept ACTION t); doc_invariants := map tr (kept STATE t);
     doc_non_fluents := non_fluents_name t; doc_non_fluents_domain := t_domain t; doc_objects := os; doc_constants := map entry_of es;
     doc_instance := t_instance t; doc_instance_domain := t_domain t; doc_instance_non_fluents := non_fluents_name t; doc_init := map entry_of es';
     doc_max := py_text v; doc_horizon := py_text (t_horizon t); doc_discount := py_text (t_discount t) |}.
Lemma a_name_ok w : name_ok w = true -> a_name [Word w] = Some w.
Proof. intros H. unfold a_name. now rewrite H. Qed.
Definition section_body (x : string * string * list piece) : string * string * list token := (fst x, List.concat (map piece_tokens (snd x))).
Lemma document_read t tp os es v es' s l :
  lex "" s = document_tokens t tp os es v es' ->
  name_ok (t_domain t) = true -> name_ok (t_instance t) = true -> name_ok (non_fluents_name t) = true -> Forall (fun w => name_ok w = true) (t_requirements t) ->
  (forall s p, In (s, p) tp -> name_ok s = true /\ name_ok p = true) -> Forall (fun x => In (fst x) kinds /\ fluent_ok l (snd x)) (all_declarations t) ->
  Forall definition_ok (t_cpfs t) -> (forall e, t_reward t = Some e -> writable e) -> Forall writable (kept ACTION t) -> Forall writable (kept STATE t) ->
  (forall s ws, In (s, ws) os -> name_ok s = true /\ Forall (fun w => name_ok w = true) ws) ->
  (forall e, In e es -> name_ok (fst (fst e)) = true /\ Forall (fun w => name_ok w = true) (snd (fst e)) /\ value_of (snd e) <> None) ->
  (forall e, In e es' -> name_ok (fst (fst e)) = true /\ Forall (fun w => name_ok w = true) (snd (fst e)) /\ value_of (snd e) <> None) ->
  name_ok (py_text v) = true -> name_ok (py_text (t_horizon t)) = true -> name_ok (py_text (t_discount t)) = true ->
  read_document s = Some (the_document t tp os es v es').
Proof.
  intros E Nd Ni Nn Nr Ht Hd Hc Hr Hp Hi Ho He He' Nm Nh Nc. unfold read_document. rewrite E.
  assert (A : all section (document_tokens t tp os es v es') = Some (map section_body [("domain", t_domain t, domain_pieces t tp); ("non-fluents", non_fluents_name t, constant_pieces t os es); ("instance", t_instance t, instance_pieces t v es')])).
  { replace (document_tokens t tp os es v es') with (List.concat (map section_tokens [("domain", t_domain t, domain_pieces t tp); ("non-fluents", non_fluents_name t, constant_pieces t os es); ("instance", t_instance t, instance_pieces t v es')]))
      by (cbn [map List.concat]; rewrite app_nil_r; reflexivity).
    apply all_read; [|intros x _; discriminate]. intros x rest [<-|[<-|[<-|[]]]]; unfold section_body; cbn [fst snd]; apply section_read; auto using domain_pieces_ok, constant_pieces_ok, instance_pieces_ok. }
  rewrite A. cbn [map]. unfold section_body. cbn [fst snd]. change (String.eqb "domain" "domain" && String.eqb "non-fluents" "non-fluents" && String.eqb "instance" "instance") with true. cbv match.
  rewrite !fields_read by (auto using domain_pieces_ok, constant_pieces_ok, instance_pieces_ok).
  destruct (constant_fields t os es) as (F1 & F2 & F3). cbv beta iota. rewrite F1, F2, F3. cbv beta iota.
  change (the_field "requirements" (map piece_field (domain_pieces t tp))) with (Some (sep (word_tokens (t_requirements t)))). cbv beta iota. rewrite names_list_read by exact Nr. cbv beta iota.
  change (the_field "types" (map piece_field (domain_pieces t tp))) with (Some (List.concat (map type_tokens tp))). cbv beta iota. rewrite the_types by exact Ht. cbv beta iota.
  change (the_field "pvariables" (map piece_field (domain_pieces t tp))) with (Some (List.concat (map dtokens (all_declarations t)))). cbv beta iota. rewrite (the_declarations l) by exact Hd. cbv beta iota.
  change (the_field "cpfs" (map piece_field (domain_pieces t tp))) with (Some (List.concat (map definition_tokens (t_cpfs t)))). cbv beta iota. rewrite the_cpfs by exact Hc. cbv beta iota.
  change (the_field "reward" (map piece_field (domain_pieces t tp))) with (Some (reward_tokens (t_reward t))). cbv beta iota. rewrite the_reward by exact Hr. cbv beta iota.
  change (the_field "action-preconditions" (map piece_field (domain_pieces t tp))) with (Some (List.concat (map constraint_tokens (kept ACTION t)))). cbv beta iota. rewrite the_constraints by exact Hp. cbv beta iota.
  change (the_field "state-invariants" (map piece_field (domain_pieces t tp))) with (Some (List.concat (map constraint_tokens (kept STATE t)))). cbv beta iota. rewrite the_constraints by exact Hi. cbv beta iota.
  rewrite a_name_ok by exact Nd. cbv beta iota. rewrite the_objects by exact Ho. cbv beta iota. rewrite the_values by exact He. cbv beta iota.
  change (the_field "domain" (map piece_field (instance_pieces t v es'))) with (Some [Word (t_domain t)]). cbv beta iota. rewrite a_name_ok by exact Nd. cbv beta iota.
  change (the_field "non-fluents" (map piece_field (instance_pieces t v es'))) with (Some [Word (non_fluents_name t)]). cbv beta iota. rewrite a_name_ok by exact Nn. cbv beta iota.
  change (the_field "init-state" (map piece_field (instance_pieces t v es'))) with (Some (List.concat (map value_tokens es'))). cbv beta iota. rewrite the_values by exact He'.
  change (the_field "max-nondef-actions" (map piece_field (instance_pieces t v es'))) with (Some [Word (py_text v)]). cbv beta iota. rewrite a_name_ok by exact Nm. cbv beta iota.
  change (the_field "horizon" (map piece_field (instance_pieces t v es'))) with (Some [Word (py_text (t_horizon t))]). cbv beta iota. rewrite a_name_ok by exact Nh. cbv beta iota.
  change (the_field "discount" (map piece_field (instance_pieces t v es'))) with (Some [Word (py_text (t_discount t))]). cbv beta iota. rewrite a_name_ok by exact Nc. cbv beta iota. reflexivity.
Qed.

(** ** Writing a task, possibly several times with the same writer *)
Fixpoint writers (t : task) (k : nat) : writer := match k with O => new_writer | S k' => after t (writers t k') end.
Fixpoint copies {A} (k : nat) (l : list A) : list A := match k with O => [] | S k' => copies k' l ++ l end.
Lemma writers_objects t k : w_objects (writers t k) = copies k (written_types (t_lang t)).
Proof. induction k as [|k IH]; [reflexivity|]. cbn [writers copies]. unfold after. cbn [w_objects]. now rewrite IH. Qed.
Lemma copies_map {A B} (f : A -> B) k l : map f (copies k l) = copies k (map f l).
Proof. induction k as [|k IH]; [reflexivity|]. cbn [copies]. now rewrite map_app, IH. Qed.
Lemma copies_In {A} k l (x : A) : In x (copies k l) -> In x l.
Proof. induction k as [|k IH]; [intros []|]. cbn [copies]. intros H. apply in_app_iff in H as [H|H]; auto. Qed.
Lemma sig_mem_app s a b : sig_mem s (a ++ b) = sig_mem s a || sig_mem s b.
Proof. unfold sig_mem. apply existsb_app. Qed.
Lemma writers_non t k s : sig_mem s (w_non (writers t (S k))) = sig_mem s (map (fun d => signature_of (fst d)) (t_non t)).
Proof. induction k as [|k IH]; [reflexivity|]. change (writers t (S (S k))) with (after t (writers t (S k))). unfold after at 1. cbn [w_non]. rewrite sig_mem_app, IH. apply orb_diag. Qed.
Lemma writers_interm t k s : sig_mem s (w_interm (writers t (S k))) = sig_mem s (map (fun d => signature_of (fst d)) (t_interm t)).
Proof. induction k as [|k IH]; [reflexivity|]. change (writers t (S (S k))) with (after t (writers t (S k))). unfold after at 1. cbn [w_interm]. rewrite sig_mem_app, IH. apply orb_diag. Qed.
Lemma value_lines_ext l keep keep' m : (forall s, keep s = keep' s) -> value_lines l keep m = value_lines l keep' m.
Proof.
  intros H. unfold value_lines. rewrite (filter_ext (fun sd => keep (fst sd)) (fun sd => keep' (fst sd)) (fun sd => H (fst sd)) (funs m)). now rewrite (filter_ext (fun sd => keep (fst sd)) (fun sd => keep' (fst sd)) (fun sd => H (fst sd)) (preds m)).
Qed.
Definition keep_non (t : task) (s : signature) : bool := sig_mem s (map (fun d => signature_of (fst d)) (t_non t)).
Definition keep_init (t : task) (s : signature) : bool := negb (keep_non t s || sig_mem s (map (fun d => signature_of (fst d)) (t_interm t))).
Lemma mapM_copies {A B} (f : A -> res B) l bs k : mapM f l = Ok bs -> mapM f (copies k l) = Ok (copies k bs).
Proof.
  intros E. induction k as [|k IH]; [reflexivity|]. cbn [copies]. revert IH. generalize (copies k bs). induction (copies k l) as [|a c IHc]; intros cs IH; [cbn in IH; injection IH as <-; exact E|].
  cbn [List.app mapM] in *. fold (mapM f c) in IH. fold (mapM f (c ++ l)). destruct (f a) as [b|e]; [|discriminate IH]. cbn [bind] in *. destruct (mapM f c) as [ds|e]; [|discriminate IH]. cbn [bind] in IH. injection IH as <-. rewrite (IHc ds eq_refl). reflexivity.
Qed.
Lemma name_app a b : name_chars (a ++ b) = name_chars a && name_chars b.
Proof. induction a as [|c a IH]; [reflexivity|]. cbn [append name_chars]. rewrite IH. apply andb_assoc. Qed.
Lemma name_suffix w : name_ok w = true -> name_ok (w ++ "_non_fluents") = true.
Proof.
  intros H. unfold name_ok in *. apply andb_true_iff in H as [H _]. apply andb_true_iff in H as [H C]. rewrite name_app, C. cbn [andb]. assert (N : String.eqb (w ++ "_non_fluents") "" = false) by (destruct w; reflexivity). rewrite N. cbn [negb andb].
  change (name_chars "_non_fluents") with true. cbn [andb]. apply negb_true_iff. apply not_true_iff_false. unfold mem. rewrite existsb_exists. intros (r & Hr & E). apply String.eqb_eq in E. subst r.
  assert (L : forall r, In r reserved -> String.length r <= 7). { apply (proj1 (Forall_forall (fun r => String.length r <= 7) reserved)). repeat (constructor; [cbn; lia|]). constructor. }
  apply L in Hr. assert (Q : String.length (w ++ "_non_fluents") = String.length w + 12) by (clear; induction w as [|c w IH]; [reflexivity|cbn [append String.length]; now rewrite IH]). lia.
Qed.
Lemma cpf_definition d : cpf_ok d -> definition_ok d.
Proof. intros (A & B & C & D). split; [exact A|]. split; [|auto]. eapply Forall_impl; [|exact B]. intros t H. unfold simple_argument. destruct t; try contradiction; auto. Qed.
Lemma rewrite_constraints k cs : (forall e c, In (e, c) cs -> writable e /\ variables_apart e) -> exists s, constraints_of k cs = Ok s /\ lexes s (List.concat (map constraint_tokens (map fst (filter (fun c => ctype_eqb (snd c) k) cs)))).
Proof.
  intros H. unfold constraints_of. destruct (mapM_build constraint_line (fun e s => lexes s (constraint_tokens e)) (map fst (filter (fun c => ctype_eqb (snd c) k) cs))) as (ls & E & F).
  - intros e He. apply kept_map in He. destruct (H e k He) as [W _]. destruct (reads_rewrite e W) as (s & Es & _ & Ls). exists (tab ++ s ++ ";")%string. unfold constraint_line. rewrite Es. split; [reflexivity|now apply lexes_constraint].
  - rewrite E. cbn [bind]. eexists. split; [reflexivity|]. apply lexes_lines. apply Forall2_map_r. now apply Forall2_swap.
Qed.
Lemma lexes_optional {A} k (tok : A -> list token) xs ls : lit (k ++ " {")%string [Word k; LC] -> Forall2 lexes ls (map tok xs) ->
  lexes (match ls with [] => "" | _ => k ++ " {" ++ join newline ls ++ "};" end)%string (List.concat (map piece_tokens (optional k tok xs))).
Proof.
  intros L F. destruct xs as [|x xs]; [inversion F; subst; exact lexes_nil|]. destruct ls as [|s ls]; [inversion F|]. pose proof (lexes_lines _ _ F) as G.
  change (optional k tok (x :: xs)) with [Block k (List.concat (map tok (x :: xs)))]. revert G. generalize (List.concat (map tok (x :: xs))) as c. intros c G. cbn [map List.concat piece_tokens]. rewrite app_nil_r.
  replace (k ++ " {" ++ join newline (s :: ls) ++ "};")%string with ((k ++ " {") ++ join newline (s :: ls) ++ "};")%string by (rewrite sassoc; reflexivity).
  change (Word k :: LC :: c ++ [RC; Semi]) with ([Word k; LC] ++ c ++ [RC; Semi]). apply lit_app; [exact L|]. apply var_app; [exact G|now apply stops_cons|]. intros rest _. reflexivity.
Qed.

Lemma lit_objects : lit ("objects" ++ " {") [Word "objects"; LC].
Proof. intros rest. reflexivity. Qed.
Lemma lit_non_fluents : lit ("non-fluents" ++ " {") [Word "non-fluents"; LC].
Proof. intros rest. reflexivity. Qed.

Section Core.
  Variables (parse : bool -> string -> option Z) (sub : sort -> sort -> bool) (lops : list lop) (mops : list mop) (t : task).
  Hypothesis H : task_ok parse sub lops mops t.
  Notation l := (t_lang t).
  Let inv : inv_tree (t_lang t).
  Proof. destruct (ok_lang _ _ _ _ _ H) as [-> N]. now apply lrun_tree. Qed.
  Let st : sinv (t_lang t) (t_x0 t).
  Proof. rewrite (ok_state _ _ _ _ _ H). apply run_sinv; [exact (ok_symbols _ _ _ _ _ H)|apply empty_sinv]. Qed.
  Lemma declarations_ok : Forall (fun x => In (fst x) kinds /\ fluent_ok l (snd x)) (all_declarations t).
  Proof.
    pose proof (ok_fluents _ _ _ _ _ H) as F. rewrite !Forall_app in F. destruct F as (F1 & F2 & F3 & F4). unfold all_declarations. rewrite !Forall_app.
    assert (G : forall ka ds, In ka kinds -> Forall (fluent_ok l) ds -> Forall (fun x => In (fst x) kinds /\ fluent_ok l (snd x)) (map (pair ka) ds)) by (intros ka ds K D; induction D; cbn [map]; constructor; auto).
    repeat split; apply G; auto; unfold kinds; cbn; auto 6.
  Qed.
  Lemma pvars_lexes : lexes (get_pvars t) (List.concat (map dtokens (all_declarations t))).
  Proof.
    pose proof (ok_fluents _ _ _ _ _ H) as F. rewrite !Forall_app in F. destruct F as (F1 & F2 & F3 & F4). unfold get_pvars, all_declarations. apply lexes_lines. rewrite !map_app.
    assert (G : forall k a ds, name_ok k = true -> name_ok a = true -> Forall (fluent_ok l) ds -> Forall2 lexes (map (pvar_line k a) ds) (map dtokens (map (pair (k, a)) ds))).
    { intros k a ds K A D. induction D; cbn [map]; constructor; auto. unfold dtokens. cbn [fst snd]. now apply (lexes_declaration (t_lang t)). }
    repeat apply Forall2_app; apply G; auto.
  Qed.
  Lemma core : exists tp os v, map fst tp = written_types l /\ (forall s p, In (s, p) tp <-> user_type l s /\ parent_of l s = Some p) /\
    map fst os = written_types l /\ (forall s ws, In (s, ws) os -> NoDup ws /\ forall w, In w ws <-> object_in l s w) /\ t_max t = Some v /\
    forall k, exists s, write_model t (writers t k) = Ok (s, writers t (S k)) /\
      read_document s = Some (the_document t tp (copies (S k) os) (state_entries (keep_non t) (t_x0 t)) v (state_entries (keep_init t) (t_x0 t))).
  Proof.
    destruct (types_written l inv) as (tp & Et & Ft & Qt). destruct (ok_lang _ _ _ _ _ H) as [EL NL].
    destruct (objects_written parse lops NL) with (ss := written_types (lrun parse lops)) as (os & Eo & Fo & Qo). { rewrite <- EL. exact (ok_distinct _ _ _ _ _ H). } { intros s. apply written_In. }
    rewrite <- EL in Eo, Fo, Qo. destruct (ok_parameters _ _ _ _ _ H) as ((v & Ev & Nv) & Nh & Nc). exists tp, os, v. split; [exact Ft|]. split; [exact Qt|]. split; [exact Fo|]. split; [exact Qo|]. split; [exact Ev|]. intros k.
    destruct (ok_names _ _ _ _ _ H) as (Nd & Ni & Nr). pose proof (name_suffix _ Ni) as Nn. fold (non_fluents_name t) in Nn.
    assert (Dc : Forall definition_ok (t_cpfs t)) by (eapply Forall_impl; [|exact (ok_cpfs _ _ _ _ _ H)]; apply cpf_definition).
    assert (Ht : forall s p, In (s, p) tp -> name_ok s = true /\ name_ok p = true) by (intros s p X; apply Qt in X as [U P]; exact (ok_types _ _ _ _ _ H s p U P)).
    assert (Ho : forall s ws, In (s, ws) os -> name_ok s = true /\ Forall (fun w => name_ok w = true) ws).
    { intros s ws X. split.
      - assert (In s (map fst tp)) as Y by (rewrite Ft, <- Fo; apply in_map_iff; exists (s, ws); auto). apply in_map_iff in Y as ([s' p] & <- & Y). apply (Ht s' p Y).
      - apply Forall_forall. intros w Hw. apply (Qo s ws X) in Hw as (c & s' & -> & P & C & _). exact (ok_constants _ _ _ _ _ H c s' C P). }
    assert (Ho' : forall s ws, In (s, ws) (copies (S k) os) -> name_ok s = true /\ Forall (fun w => name_ok w = true) ws) by (intros s ws X; apply Ho; now apply copies_In in X).
    (* the texts *)
    assert (Lt : exists x, get_types l = Ok x /\ lexes x (List.concat (map type_tokens tp))).
    { unfold get_types. rewrite Et. cbn [bind]. eexists. split; [reflexivity|]. apply lexes_lines. clear - Ht. induction tp as [|[s p] tp IH]; cbn [map]; [constructor|]. constructor; [|apply IH; intros s' p' X; apply Ht; now right]. destruct (Ht s p (or_introl eq_refl)). now apply lexes_type. }
    assert (Lc : exists x, get_cpfs (t_cpfs t) = Ok x /\ lexes x (List.concat (map definition_tokens (t_cpfs t)))).
    { unfold get_cpfs. destruct (mapM_build cpf_line (fun d s => lexes s (definition_tokens d)) (t_cpfs t)) as (ls & E & F). { intros d X. apply lexes_definition. exact (proj1 (Forall_forall _ _) Dc d X). } rewrite E. cbn [bind]. eexists. split; [reflexivity|]. apply lexes_lines. apply Forall2_map_r. now apply Forall2_swap. }
    assert (Lr : exists x, get_reward (t_reward t) = Ok x /\ lexes x (reward_tokens (t_reward t))).
    { destruct (t_reward t) as [e|] eqn:E; [|exists "0.0"; split; [reflexivity|now apply lexes_word]]. destruct (ok_reward _ _ _ _ _ H e E) as [W _]. destruct (reads_rewrite e W) as (s & Es & _ & Ls). exists s. auto. }
    destruct (rewrite_constraints ACTION (t_constraints t) (ok_constraints _ _ _ _ _ H)) as (pre & Ep & Lp). destruct (rewrite_constraints STATE (t_constraints t) (ok_constraints _ _ _ _ _ H)) as (iv & Ei & Li).
    assert (Lo : exists x, get_objects l (w_objects (writers t (S k))) = Ok x /\ lexes x (List.concat (map piece_tokens (optional "objects" object_tokens (copies (S k) os))))).
    { clear - Ho' Eo Fo. remember (S k) as K eqn:EK. clear EK k. rewrite writers_objects. pose proof (mapM_copies _ _ _ K Eo) as M. assert (F2 : Forall2 lexes (copies K (map object_text os)) (map object_tokens (copies K os))).
      { rewrite <- copies_map. clear - Ho'. induction (copies K os) as [|[s ws] c IH]; cbn [map]; constructor; [|apply IH; intros; apply Ho'; now right]. destruct (Ho' s ws (or_introl eq_refl)). now apply lexes_object. }
      pose proof (lexes_optional "objects" object_tokens _ _ lit_objects F2) as L. unfold get_objects. destruct (copies K (written_types l)) as [|a c] eqn:C.
      - cbn [mapM] in M. injection M as M. rewrite <- M in L. exists "". auto.
      - rewrite M. cbn [bind]. destruct (copies K (map object_text os)) as [|b d] eqn:D; [|eexists; split; [reflexivity|exact L]]. exfalso. apply (f_equal (@List.length string)) in D. apply (f_equal (@List.length string)) in C. rewrite <- Fo, <- !copies_map, !map_length in *. cbn [List.length] in *. lia. }
    destruct (values_written l (t_x0 t) (keep_non t) inv st) as (ln & En & Ln). destruct (values_written l (t_x0 t) (keep_init t) inv st) as (li & Es & Ls).
    assert (Lf : exists x, get_non_fluent_init t (writers t (S k)) = Ok x /\ lexes x (List.concat (map piece_tokens (optional "non-fluents" value_tokens (state_entries (keep_non t) (t_x0 t)))))).
    { unfold get_non_fluent_init. rewrite (value_lines_ext _ _ (keep_non t)) by (intros s; apply writers_non). rewrite En. cbn [bind]. pose proof (lexes_optional "non-fluents" value_tokens _ _ lit_non_fluents Ln) as L. destruct ln; eexists; (split; [reflexivity|exact L]). }
    assert (Lx : exists x, get_state_fluent_init t (writers t (S k)) = Ok x /\ lexes x (List.concat (map value_tokens (state_entries (keep_init t) (t_x0 t))))).
    { unfold get_state_fluent_init. rewrite (value_lines_ext _ _ (keep_init t)) by (intros s; unfold keep_init, keep_non; now rewrite writers_non, writers_interm). rewrite Es. cbn [bind]. eexists. split; [reflexivity|]. now apply lexes_lines. }
    destruct Lt as (xt & Et' & Lt), Lc as (xc & Ec & Lc), Lr as (xr & Er & Lr), Lo as (xo & Eo' & Lo), Lf as (xf & Ef & Lf), Lx as (xi & Ex & Lx).
    assert (Lq : lexes (get_requirements t) (sep (word_tokens (t_requirements t)))). { unfold get_requirements. destruct (t_requirements t) as [|r rs] eqn:R; [exact lexes_nil|]. apply lexes_join2; [apply lexes_words; exact Nr|discriminate]. }
    set (s := template (t_domain t) (get_requirements t) xt (get_pvars t) xc xr pre iv (non_fluents_name t) xo xf (t_instance t) xi (py_text v) (py_text (t_horizon t)) (py_text (t_discount t))).
    exists s. split.
    - unfold write_model. cbv zeta. change (after t (writers t k)) with (writers t (S k)). rewrite Et'. cbn [bind]. rewrite Ec. cbn [bind]. rewrite Er. cbn [bind]. unfold get_preconditions, get_state_invariants. rewrite Ep. cbn [bind]. rewrite Ei. cbn [bind]. rewrite Eo'. cbn [bind]. rewrite Ef. cbn [bind]. rewrite Ex. cbn [bind]. unfold get_max_nondef_actions. rewrite Ev. reflexivity.
    - assert (D : lexes s (document_tokens t tp (copies (S k) os) (state_entries (keep_non t) (t_x0 t)) v (state_entries (keep_init t) (t_x0 t)))).
      { apply document_lexes; auto using lexes_name, pvars_lexes. }
      apply (document_read _ _ _ _ _ _ _ l); auto.
      + rewrite <- (sapp_nil s), (D "") by exact I. cbn [lex flush]. apply app_nil_r.
      + exact declarations_ok.
      + intros e E. exact (proj1 (ok_reward _ _ _ _ _ H e E)).
      + apply Forall_forall. intros e X. apply kept_map in X. exact (proj1 (ok_constraints _ _ _ _ _ H e _ X)).
      + apply Forall_forall. intros e X. apply kept_map in X. exact (proj1 (ok_constraints _ _ _ _ _ H e _ X)).
      + exact (entries_ok l (t_x0 t) (keep_non t) st).
      + exact (entries_ok l (t_x0 t) (keep_init t) st).
  Qed.
End Core.

(** ** The document describes the task *)
Lemma range_type f : match f with FPred _ _ => True | FFun _ _ c => c <> "Object" end -> range_of f = get_type f.
Proof.
  destruct f as [n ss|n ss c]; [reflexivity|]. intros N. unfold range_of, get_type, type_name. destruct (String.eqb_spec c "Real") as [->|]; [reflexivity|]. destruct (String.eqb_spec c "Integer") as [->|]; [reflexivity|]. destruct (String.eqb_spec c "Object") as [->|]; [contradiction|reflexivity].
Qed.
Lemma declared_all l k a ds : Forall (fluent_ok l) ds -> Forall2 (declared_fluent k a) ds (map dmeans (map (pair (k, a)) ds)).
Proof.
  intros F. induction F as [|d ds O _ IH]; cbn [map]; constructor; [|exact IH]. destruct O as (_ & _ & _ & C & s & E & V). unfold declared_fluent, dmeans, declaration_of. cbn [fst snd d_name d_params d_kind d_type d_attribute d_value].
  rewrite E, range_type by (destruct (fst d); [exact I|exact (proj2 C)]). cbn [py_text]. unfold value_means. destruct (value_of s); [|contradiction]. auto 8.
Qed.
Lemma cpfs_same ds : Forall cpf_ok ds -> Forall2 same_definition (map definition_exp ds) ds.
Proof.
  intros H. induction H as [|d ds (K & Ft & W & A) _ IH]; [constructor|]. cbn [map]. constructor; [|exact IH]. unfold same_definition, definition_exp. cbn [fst snd]. split; [reflexivity|]. split; [|now apply tr_same].
  clear - Ft. induction Ft as [|t ts Wt _ IHt]; [constructor|]. cbn [map]. constructor; [|exact IHt].
  destruct t; try contradiction; (apply tr_same; [exact Wt|]); intros v w Hv Hw; cbn in Hv, Hw; [destruct Hv as [<-|[]], Hw as [<-|[]]; reflexivity|destruct Hv].
Qed.
Lemma constraints_same k cs : (forall e c, In (e, c) cs -> writable e /\ variables_apart e) -> Forall2 same_meaning (map tr (map fst (filter (fun c => ctype_eqb (snd c) k) cs))) (map fst (filter (fun c => ctype_eqb (snd c) k) cs)).
Proof.
  intros H. assert (G : forall e, In e (map fst (filter (fun c => ctype_eqb (snd c) k) cs)) -> same_meaning (tr e) e) by (intros e X; apply kept_map in X; destruct (H e k X); now apply tr_same).
  induction (map fst (filter (fun c => ctype_eqb (snd c) k) cs)) as [|e es IH]; cbn [map]; constructor; [apply G; now left|apply IH; intros; apply G; now right].
Qed.
Lemma task_inv parse sub lops mops t : task_ok parse sub lops mops t -> inv_tree (t_lang t) /\ sinv (t_lang t) (t_x0 t).
Proof.
  intros H. split; [destruct (ok_lang _ _ _ _ _ H) as [-> N]; now apply lrun_tree|]. rewrite (ok_state _ _ _ _ _ H). apply run_sinv; [exact (ok_symbols _ _ _ _ _ H)|apply empty_sinv].
Qed.
Lemma described parse sub lops mops t (H : task_ok parse sub lops mops t) tp os v :
  map fst tp = written_types (t_lang t) -> (forall s p, In (s, p) tp <-> user_type (t_lang t) s /\ parent_of (t_lang t) s = Some p) ->
  map fst os = written_types (t_lang t) -> (forall s ws, In (s, ws) os -> NoDup ws /\ forall w, In w ws <-> object_in (t_lang t) s w) -> t_max t = Some v ->
  describes (the_document t tp os (state_entries (keep_non t) (t_x0 t)) v (state_entries (keep_init t) (t_x0 t))) t.
Proof.
  intros Ft Qt Fo Qo Ev. destruct (task_inv _ _ _ _ _ H) as [I S]. pose proof (ok_fluents _ _ _ _ _ H) as F. rewrite !Forall_app in F. destruct F as (F1 & F2 & F3 & F4).
  assert (K : forall ds, Forall (fluent_ok (t_lang t)) ds -> Forall (fun d => known_symbol (t_lang t) (fst d)) ds) by (intros ds D; eapply Forall_impl; [|exact D]; intros d X; exact (proj1 X)).
  unfold describes, the_document. cbn [doc_domain doc_requirements doc_types doc_fluents doc_cpfs doc_reward doc_preconditions doc_invariants doc_non_fluents doc_non_fluents_domain doc_objects doc_constants doc_instance doc_instance_domain doc_instance_non_fluents doc_init doc_max doc_horizon doc_discount].
  split; [reflexivity|]. split; [reflexivity|]. split; [split; [rewrite Ft; now apply written_NoDup|exact Qt]|]. split.
  { exists (map dmeans (map (pair ("state-fluent", "default")) (t_state t))), (map dmeans (map (pair ("interm-fluent", "level")) (t_interm t))), (map dmeans (map (pair ("action-fluent", "default")) (t_action t))), (map dmeans (map (pair ("non-fluent", "default")) (t_non t))).
    split; [unfold all_declarations; now rewrite !map_app|]. repeat split; eapply declared_all; eassumption. }
  split; [exact (cpfs_same _ (ok_cpfs _ _ _ _ _ H))|]. split. { destruct (t_reward t) as [e|] eqn:E; [|reflexivity]. destruct (ok_reward _ _ _ _ _ H e E). now apply tr_same. }
  split; [exact (constraints_same ACTION _ (ok_constraints _ _ _ _ _ H))|]. split; [exact (constraints_same STATE _ (ok_constraints _ _ _ _ _ H))|]. split; [split; [congruence|exact Qo]|]. split.
  { intros n ws x. rewrite (entries_mean (t_lang t) (t_x0 t) _ S). split; intros (f & A & B & C & D); exists f; (split; [exact A|]; split; [exact B|]; split; [|exact D]); apply (sig_mem_spec _ f _ I A (K _ F4)); exact C. }
  split.
  { intros n ws x. rewrite (entries_mean (t_lang t) (t_x0 t) _ S). unfold keep_init, keep_non. split; intros (f & A & B & C); exists f; (split; [exact A|]; split; [exact B|]); pose proof (sig_mem_spec _ f _ I A (K _ F4)) as X; pose proof (sig_mem_spec _ f _ I A (K _ F2)) as Y.
    - destruct C as [C D]. apply negb_true_iff, orb_false_iff in C as [C1 C2]. split; [rewrite <- X; congruence|]. split; [rewrite <- Y; congruence|exact D].
    - destruct C as (C1 & C2 & D). split; [|exact D]. apply negb_true_iff, orb_false_iff. split; apply not_true_is_false; [now rewrite X|now rewrite Y]. }
  repeat (split; [reflexivity|]). split; [exists v; auto|auto].
Qed.
(** Writing a task whose names the language of RDDL can express gives a text, and the text is a document that says of the task everything that it should. *)
Theorem C68_document parse sub lops mops t : task_ok parse sub lops mops t -> exists s w d, write_model t new_writer = Ok (s, w) /\ read_document s = Some d /\ describes d t.
Proof.
  intros H. destruct (core parse sub lops mops t H) as (tp & os & v & Ft & Qt & Fo & Qo & Ev & W). destruct (W 0) as (s & E & R). eexists s, _, _. split; [exact E|]. split; [exact R|].
  change (copies 1 os) with ([] ++ os). cbn [List.app]. eapply described; eassumption.
Qed.

(** ** Writing with the same writer again *)
Fixpoint write_again (t : task) (n : nat) : res (string * writer) :=
  match n with O => write_model t new_writer | S n' => match write_again t n' with Ok r => write_model t (snd r) | Err e => Err e end end.
Definition with_objects (os : list (string * list string)) (d : document) : document :=
  {| doc_domain := doc_domain d; doc_requirements := doc_requirements d; doc_types := doc_types d; doc_fluents := doc_fluents d; doc_cpfs := doc_cpfs d; doc_reward := doc_reward d;
     doc_preconditions := doc_preconditions d; doc_invariants := doc_invariants d; doc_non_fluents := doc_non_fluents d; doc_non_fluents_domain := doc_non_fluents_domain d;
     doc_objects := os; doc_constants := doc_constants d; doc_instance := doc_instance d; doc_instance_domain := doc_instance_domain d;
     doc_instance_non_fluents := doc_instance_non_fluents d; doc_init := doc_init d; doc_max := doc_max d; doc_horizon := doc_horizon d; doc_discount := doc_discount d |}.
(** The list of objects grows with every use of a writer: the n+1-st document has n+1 copies of it, and otherwise says the same as the first one. *)
Theorem C68_written_again parse sub lops mops t : task_ok parse sub lops mops t -> exists s0 w0 d0, write_model t new_writer = Ok (s0, w0) /\ read_document s0 = Some d0 /\ describes d0 t /\
  forall n, exists s w, write_again t n = Ok (s, w) /\ read_document s = Some (with_objects (List.concat (repeat (doc_objects d0) (S n))) d0).
Proof.
  intros H. destruct (core parse sub lops mops t H) as (tp & os & v & Ft & Qt & Fo & Qo & Ev & W). destruct (W 0) as (s0 & E0 & R0).
  set (d0 := the_document t tp os (state_entries (keep_non t) (t_x0 t)) v (state_entries (keep_init t) (t_x0 t))). exists s0, (writers t 1), d0. split; [exact E0|]. split; [exact R0|]. split; [subst d0; eapply described; eassumption|].
  assert (G : forall n, exists s, write_again t n = Ok (s, writers t (S n))). { induction n as [|n (s & E)]; [exists s0; exact E0|]. destruct (W (S n)) as (s' & E' & _). exists s'. cbn [write_again]. rewrite E. exact E'. }
  assert (C : forall n, copies n os = List.concat (repeat os n)).
  { assert (Sn : forall n, List.concat (repeat os n) ++ os = os ++ List.concat (repeat os n)) by (induction n as [|n IH]; [cbn; now rewrite app_nil_r|]; cbn [repeat List.concat]; now rewrite <- app_assoc, IH). induction n as [|n IH]; [reflexivity|]. cbn [copies repeat List.concat]. rewrite IH. apply Sn. }
  intros n. destruct (G n) as (s & E). exists s, (writers t (S n)). split; [exact E|]. destruct (W n) as (s' & E' & R). assert (s' = s) as ->.
  { destruct n as [|n]; [change (write_again t 0) with (write_model t (writers t 0)) in E; congruence|]. cbn [write_again] in E. destruct (G n) as (s2 & E2). rewrite E2 in E. cbn [snd] in E. congruence. }
  rewrite R, C. reflexivity.
Qed.
(** So the second document declares every type with objects twice, and does not describe the task. *)
Theorem C68_written_again_refuted parse sub lops mops t : task_ok parse sub lops mops t -> (exists s, user_type (t_lang t) s) -> forall n, exists s w d, write_again t (S n) = Ok (s, w) /\ read_document s = Some d /\ ~ describes d t /\ ~ NoDup (map fst (doc_objects d)).
Proof.
  intros H (u & U) n. destruct (C68_written_again _ _ _ _ _ H) as (s0 & w0 & d0 & _ & _ & D & A). destruct (A (S n)) as (s & w & E & R). eexists s, w, _. split; [exact E|]. split; [exact R|].
  destruct D as (_ & _ & (ND & T) & _ & _ & _ & _ & _ & (O & _) & _).
  assert (P : exists p, parent_of (t_lang t) u = Some p). { destruct (user_parent (t_lang t) u) as (p & P & _); [exact (proj1 (task_inv _ _ _ _ _ H))|exact U|]. eauto. } destruct P as (p & P).
  assert (I : In u (map fst (doc_objects d0))) by (rewrite O; apply in_map_iff; exists (u, p); split; [reflexivity|]; apply T; auto).
  assert (N : ~ NoDup (map fst (List.concat (repeat (doc_objects d0) (S (S n)))))).
  { intros N. cbn [repeat List.concat] in N. rewrite !map_app in N. apply (NoDup_app_disj _ _ u N I). apply in_app_iff. now left. }
  split; [|exact N]. intros (_ & _ & (ND' & _) & _ & _ & _ & _ & _ & (O' & _) & _). cbn [with_objects doc_objects doc_types] in *. apply N. cbn [doc_objects] in O'. unfold with_objects in O', ND'. cbn [doc_objects doc_types] in O', ND'. rewrite O'. exact ND'.
Qed.

(** ** The bound on the number of actions *)
(** A task whose parameters are those that the class defines cannot be written. *)
Theorem C68_max_actions_refuted t w : t_max t = None -> forall s w', write_model t w <> Ok (s, w').
Proof.
  intros H s w' E. unfold write_model in E. do 8 (match type of E with bind ?x _ = _ => destruct x; [cbn [bind] in E|discriminate E] end). unfold get_max_nondef_actions in E. rewrite H in E. discriminate E.
Qed.

(** ** Boolean defaults *)
(** the task with the texts of the defaults in place of the defaults *)
Definition as_text (t : task) : task :=
  let f := map (fun d => (fst d, PText (py_text (snd d)))) in
  {| t_lang := t_lang t; t_domain := t_domain t; t_instance := t_instance t; t_requirements := t_requirements t; t_state := f (t_state t); t_interm := f (t_interm t); t_action := f (t_action t); t_non := f (t_non t);
     t_cpfs := t_cpfs t; t_constraints := t_constraints t; t_reward := t_reward t; t_x0 := t_x0 t; t_max := t_max t; t_horizon := t_horizon t; t_discount := t_discount t |}.
Lemma as_text_write t w : write_model (as_text t) w = write_model t w.
Proof.
  assert (L : forall k a ds, map (pvar_line k a) (map (fun d : fluent * pyvalue => (fst d, PText (py_text (snd d)))) ds) = map (pvar_line k a) ds) by (intros; rewrite map_map; reflexivity).
  assert (P : get_pvars (as_text t) = get_pvars t) by (unfold get_pvars, as_text; cbn [t_state t_interm t_action t_non]; now rewrite !L).
  assert (A : after (as_text t) w = after t w) by (unfold after, as_text; cbn [t_lang t_non t_interm]; now rewrite !map_map).
  unfold write_model. rewrite A, P. reflexivity.
Qed.
(** Wherever a default is given as a Python Boolean, the document has the word True or False in its place, which is not a truth value of the language. *)
Theorem C68_boolean_default_refuted parse sub lops mops t : task_ok parse sub lops mops (as_text t) -> (exists f b, In (f, PBool b) (t_state t ++ t_interm t ++ t_action t ++ t_non t)) ->
  exists s w d, write_model t new_writer = Ok (s, w) /\ read_document s = Some d /\ ~ describes d t /\
    forall f b, In (f, PBool b) (t_state t ++ t_interm t ++ t_action t ++ t_non t) -> exists r, In r (doc_fluents d) /\ d_name r = symbol_name f /\ d_value r = Other (if b then "True" else "False").
Proof.
  intros H (f & b & X). destruct (C68_document _ _ _ _ _ H) as (s & w & d & E & R & D). rewrite as_text_write in E. exists s, w, d. split; [exact E|]. split; [exact R|].
  destruct D as (_ & _ & _ & (d1 & d2 & d3 & d4 & Ed & F1 & F2 & F3 & F4) & _).
  assert (B : forall k a ds rs, Forall2 (declared_fluent k a) (map (fun d => (fst d, PText (py_text (snd d)))) ds) rs -> forall f b, In (f, PBool b) ds -> exists r, In r rs /\ d_name r = symbol_name f /\ d_value r = Other (if b then "True" else "False")).
  { intros k a ds rs F g c. revert rs F. induction ds as [|e ds IH]; intros rs F; [intros []|]. inversion F as [|x r xs rs' De F' E1 E2]; subst. intros [->|Y].
    - exists r. split; [now left|]. destruct De as (A & _ & _ & _ & _ & V). cbn [fst snd] in *. split; [exact A|]. destruct c; cbn [py_text] in V; match type of V with ?a = _ => let x := eval vm_compute in a in change a with x in V end; injection V as <-; reflexivity.
    - destruct (IH _ F' Y) as (r' & A & Z). exists r'. split; [now right|exact Z]. }
  split.
  - intros (_ & _ & _ & (e1 & e2 & e3 & e4 & Ee & G1 & G2 & G3 & G4) & _). rewrite Ee in Ed. cbn [as_text t_state t_interm t_action t_non] in *.
    assert (Ln : forall A B (R : A -> B -> Prop) a b, Forall2 R a b -> List.length a = List.length b) by (intros A B0 R0 a c F; induction F; cbn; congruence).
    assert (L1 : List.length e1 = List.length d1) by (apply Ln in F1; apply Ln in G1; rewrite map_length in F1; congruence). assert (L2 : List.length e2 = List.length d2) by (apply Ln in F2; apply Ln in G2; rewrite map_length in F2; congruence). assert (L3 : List.length e3 = List.length d3) by (apply Ln in F3; apply Ln in G3; rewrite map_length in F3; congruence).
    assert (Sp : forall A (a b c e : list A), List.length a = List.length b -> a ++ c = b ++ e -> a = b /\ c = e) by (intros A a; induction a as [|x a IH]; intros [|y c0] c e Q; try discriminate Q; intros Z; [auto|]; cbn in Z; injection Z as -> Z; destruct (IH c0 c e) as [-> ->]; auto).
    apply Sp in Ed as [-> Ed]; [|exact L1]. apply Sp in Ed as [-> Ed]; [|exact L2]. apply Sp in Ed as [-> ->]; [|exact L3].
    assert (Cn : forall k a ds rs, Forall2 (declared_fluent k a) ds rs -> Forall2 (declared_fluent k a) (map (fun d => (fst d, PText (py_text (snd d)))) ds) rs -> ~ In (f, PBool b) ds).
    { intros k a ds rs F. induction F as [|x r xs rs De F IH]; [intros _ []|]. intros G. inversion G as [|? ? ? ? De' G' Z1 Z2]; subst. intros [->|Y]; [|now apply (IH G')]. destruct De as (_ & _ & _ & _ & _ & V), De' as (_ & _ & _ & _ & _ & V'). cbn [fst snd] in V, V'. rewrite V in V'. destruct b; cbn in V'; discriminate V'. }
    rewrite !in_app_iff in X. destruct X as [X|[X|[X|X]]]; revert X; eapply Cn; eassumption.
  - intros g c Y. rewrite Ed. cbn [as_text t_state t_interm t_action t_non] in *. rewrite !in_app_iff in Y. destruct Y as [Y|[Y|[Y|Y]]]; eapply B in Y as (r & A & Z); try eassumption; exists r; (split; [rewrite !in_app_iff; tauto|exact Z]).
Qed.

(** ** What the sections of types and objects leave out or repeat *)
(** An object of a subtype is listed with the subtype and with every type above it. *)
Theorem C68_subtype_objects parse sub lops mops t c s u : task_ok parse sub lops mops t -> const_of (t_lang t) c s -> user_type (t_lang t) s -> user_type (t_lang t) u -> anc (t_lang t) s u -> s <> u ->
  exists text w d ws us, write_model t new_writer = Ok (text, w) /\ read_document text = Some d /\ In (s, ws) (doc_objects d) /\ In (u, us) (doc_objects d) /\ In (name_text c) ws /\ In (name_text c) us /\ ~ NoDup (flat_map snd (doc_objects d)).
Proof.
  intros H K U V A N. destruct (C68_document _ _ _ _ _ H) as (x & w & d & E & R & D). exists x, w, d. destruct (task_inv _ _ _ _ _ H) as [I _]. destruct D as (_ & _ & (ND & T) & _ & _ & _ & _ & _ & (O & Q) & _).
  assert (F : forall z, user_type (t_lang t) z -> exists ws, In (z, ws) (doc_objects d)).
  { intros z Z. destruct (user_parent _ z I Z) as (p & P & _). assert (Y : In z (map fst (doc_objects d))) by (rewrite O; apply in_map_iff; exists (z, p); split; [reflexivity|]; apply T; auto). apply in_map_iff in Y as ([z' ws] & <- & Y). eauto. }
  destruct (F s U) as (ws & Hw), (F u V) as (us & Hu). exists ws, us. assert (Pl : is_plain (t_lang t) s) by (destruct U as (_ & r & Hr & _ & Kr); exists r; auto).
  assert (W1 : In (name_text c) ws) by (apply (Q s ws Hw); exists c, s; split; [reflexivity|]; split; [exact Pl|]; split; [exact K|now left]).
  assert (W2 : In (name_text c) us) by (apply (Q u us Hu); exists c, s; split; [reflexivity|]; split; [exact Pl|]; split; [exact K|now right]).
  repeat (split; [assumption|]). intros Nd. revert Hw Hu Nd. generalize (doc_objects d). intros l. induction l as [|[z zs] l IH]; [intros []|]. intros [Hw|Hw] [Hu|Hu] Nd; cbn [flat_map snd] in Nd.
  - congruence.
  - injection Hw as -> ->. apply (NoDup_app_disj _ _ (name_text c) Nd W1). apply in_flat_map. exists (u, us). auto.
  - injection Hu as -> ->. apply (NoDup_app_disj _ _ (name_text c) Nd W2). apply in_flat_map. exists (s, ws). auto.
  - apply (IH Hw Hu). exact (NoDup_app_r _ _ Nd).
Qed.
(** An object whose sort is the sort of all objects is not listed at all, nor is an interval sort declared. *)
Theorem C68_left_out_refuted parse sub lops mops t : task_ok parse sub lops mops t -> exists text w d, write_model t new_writer = Ok (text, w) /\ read_document text = Some d /\
  (forall c, const_of (t_lang t) c "object" -> forall s ws, In (s, ws) (doc_objects d) -> ~ In (name_text c) ws) /\
  (forall s r, In (s, r) (l_sorts (t_lang t)) -> s_kind r <> KPlain -> ~ In s (map fst (doc_types d))).
Proof.
  intros H. destruct (C68_document _ _ _ _ _ H) as (x & w & d & E & R & D). exists x, w, d. split; [exact E|]. split; [exact R|]. destruct (task_inv _ _ _ _ _ H) as [I _]. destruct D as (_ & _ & (ND & T) & _ & _ & _ & _ & _ & (O & Q) & _). split.
  - intros c K s ws Hw B. apply (Q s ws Hw) in B as (c' & s' & Et & Pl & K' & L).
    assert (Po : is_plain (t_lang t) "object"). { exact (it_object _ I). }
    assert (c' = c) as -> by (symmetry; eapply (ok_distinct _ _ _ _ _ H); eassumption).
    assert (s' = "object") as ->. { destruct (ok_lang _ _ _ _ _ H). pose proof (it_index _ I) as J. pose proof (proj2 (ii_spec _ J c (EConst c s')) (conj eq_refl K')). pose proof (proj2 (ii_spec _ J c (EConst c "object")) (conj eq_refl K)). congruence. }
    assert (Su : user_type (t_lang t) s). { assert (Y : In s (map fst (doc_types d))) by (rewrite <- O; apply in_map_iff; exists (s, ws); auto). apply in_map_iff in Y as ([s2 p] & <- & Y). apply T in Y as [Y _]. exact Y. }
    destruct L as [L|L]; [destruct Su as [Su _]; congruence|]. assert (P : exists p, parent_of (t_lang t) "object" = Some p) by (inversion L; subst; eauto). destruct P as (p & P). pose proof (it_root' _ I) as Rt. congruence.
  - intros s r Hr Kr Hs. apply in_map_iff in Hs as ([s' p] & E' & Hs). cbn [fst] in E'. subst s'. apply T in Hs as [(_ & r' & Hr' & _ & Kr') _]. pose proof (it_index _ I) as J. apply Kr. assert (r = r') as ->; [|exact Kr'].
    pose proof (proj2 (sget_In _ _ _ (ii_sorts _ J)) Hr). pose proof (proj2 (sget_In _ _ _ (ii_sorts _ J)) Hr'). congruence.
Qed.
