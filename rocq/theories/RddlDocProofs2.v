(** Sections and fields of an RDDL document *)
From Coq Require Import Ascii.
From Verif Require Import ListUtil Base Syntax ModelState ModelText PddlText Lang Rddl RddlSpec RddlProofs RddlProofs2 RddlProofs3 PropsRddl RddlDoc RddlDocSpec RddlDocProofs.
#[local] Open Scope string_scope.
#[local] Open Scope list_scope.

(** ** Balanced braces *)
Definition balanced (ts : list token) : Prop := forall d rest, block d (ts ++ rest) = match block d rest with Some (a, b) => Some (ts ++ a, b) | None => None end.
Lemma bal_nil : balanced [].
Proof. intros d rest. cbn [List.app]. destruct (block d rest) as [[a b]|]; reflexivity. Qed.
Lemma bal_app a b : balanced a -> balanced b -> balanced (a ++ b).
Proof. intros A B d rest. rewrite <- app_assoc, A, B. destruct (block d rest) as [[x y]|]; [|reflexivity]. now rewrite app_assoc. Qed.
Definition no_brace (t : token) : bool := match t with LC | RC => false | _ => true end.
Lemma bal_one t ts : no_brace t = true -> balanced ts -> balanced (t :: ts).
Proof. intros N B d rest. cbn [List.app]. destruct t; try discriminate N; cbn [block]; rewrite B; destruct (block d rest) as [[x y]|]; reflexivity. Qed.
Lemma bal_braces a ts : balanced a -> balanced ts -> balanced (LC :: a ++ RC :: ts).
Proof.
  intros A B d rest. cbn [List.app block]. rewrite <- app_assoc, A. cbn [List.app block]. rewrite B. destruct (block d rest) as [[x y]|]; [|reflexivity]. now rewrite <- app_assoc.
Qed.
Lemma bal_plain ts : forallb no_brace ts = true -> balanced ts.
Proof. induction ts as [|t ts IH]; intros H; [exact bal_nil|]. cbn [forallb] in H. apply andb_true_iff in H as [H H']. apply bal_one; auto. Qed.
Lemma bal_sep l : Forall balanced l -> balanced (sep l).
Proof.
  induction 1 as [|t l H F IH]; [exact bal_nil|]. destruct F as [|t' l H' F]; [exact H|]. change (sep (t :: t' :: l)) with (t ++ Comma :: sep (t' :: l)). apply bal_app; [exact H|]. now apply bal_one.
Qed.
Lemma bal_concat l : Forall balanced l -> balanced (List.concat l).
Proof. induction 1; cbn [List.concat]; auto using bal_nil, bal_app. Qed.
Lemma bal_call n l r ts : no_brace l = true -> no_brace r = true -> Forall balanced ts -> balanced (call_tokens n l r ts).
Proof.
  intros L R F. unfold call_tokens. apply bal_one; [reflexivity|]. destruct ts as [|t ts]; [exact bal_nil|]. apply bal_one; [exact L|]. apply bal_app; [now apply bal_sep|]. apply bal_one; [exact R|exact bal_nil].
Qed.
Lemma bal_infix op ts : Forall balanced ts -> balanced (infix_tokens op ts).
Proof.
  intros F. unfold infix_tokens. destruct F as [|a ts A F]; [exact bal_nil|]. destruct F as [|b ts B F]; [exact bal_nil|]. apply bal_one; [reflexivity|]. apply bal_app; [exact A|]. apply bal_one; [reflexivity|]. apply bal_app; [exact B|]. now apply bal_plain.
Qed.
Lemma bal_block q vs t : balanced t -> balanced (block_tokens q vs t).
Proof.
  intros T. unfold block_tokens. apply bal_one; [reflexivity|]. apply bal_braces; [apply bal_sep; apply Forall_forall; intros x Hx; apply in_map_iff in Hx as (v & <- & _); now apply bal_plain|].
  apply bal_one; [reflexivity|]. apply bal_app; [exact T|]. now apply bal_plain.
Qed.
Lemma bal_map ts : Forall (fun e => balanced (toks e)) ts -> Forall balanced (map toks ts).
Proof. induction 1; constructor; auto. Qed.
Lemma bal_toks e : balanced (toks e).
Proof.
  induction e as [x s|c s|f ts IH|c a b IHc IHa IHb| | |p ts IH|c fs IH|q vs f IH|m vs f IH] using xexpr_ind_nested; cbn [toks]; try (now apply bal_plain).
  - apply bal_map in IH. destruct f as [b|n d c]; [|now apply bal_call]. destruct (infix_fun b); [now apply bal_infix|]. destruct (random_binary b); now apply bal_call.
  - apply bal_one; [reflexivity|]. apply bal_one; [reflexivity|]. apply bal_app; [exact IHc|]. apply bal_one; [reflexivity|]. apply bal_one; [reflexivity|]. apply bal_one; [reflexivity|]. apply bal_app; [exact IHa|].
    apply bal_one; [reflexivity|]. apply bal_one; [reflexivity|]. apply bal_one; [reflexivity|]. apply bal_app; [exact IHb|]. now apply bal_plain.
  - apply bal_map in IH. destruct p; [now apply bal_infix|now apply bal_call].
  - apply bal_map in IH. now apply bal_infix.
  - now apply bal_block.
  - now apply bal_block.
Qed.
Lemma block_read a rest : balanced a -> block 0 (a ++ RC :: rest) = Some (a, rest).
Proof. intros A. rewrite A. cbn [block]. now rewrite app_nil_r. Qed.

(** ** No semicolons in expressions *)
Definition no_semi (ts : list token) : Prop := ~ In Semi ts.
Lemma ns_app a b : no_semi a -> no_semi b -> no_semi (a ++ b).
Proof. intros A B H. apply in_app_iff in H as [H|H]; auto. Qed.
Lemma ns_cons t ts : t <> Semi -> no_semi ts -> no_semi (t :: ts).
Proof. intros A B [H|H]; auto. Qed.
Lemma ns_nil : no_semi [].
Proof. intros []. Qed.
Lemma ns_sep l : Forall no_semi l -> no_semi (sep l).
Proof. induction 1 as [|t l H F IH]; [exact ns_nil|]. destruct F as [|t' l H' F]; [exact H|]. change (sep (t :: t' :: l)) with (t ++ Comma :: sep (t' :: l)). apply ns_app; [exact H|]. now apply ns_cons. Qed.
Lemma ns_call n l r ts : l <> Semi -> r <> Semi -> Forall no_semi ts -> no_semi (call_tokens n l r ts).
Proof.
  intros L R F. unfold call_tokens. apply ns_cons; [discriminate|]. destruct ts as [|t ts]; [exact ns_nil|]. apply ns_cons; [exact L|]. apply ns_app; [now apply ns_sep|]. apply ns_cons; [exact R|exact ns_nil].
Qed.
Lemma ns_infix op ts : Forall no_semi ts -> no_semi (infix_tokens op ts).
Proof.
  intros F. unfold infix_tokens. destruct F as [|a ts A F]; [exact ns_nil|]. destruct F as [|b ts B F]; [exact ns_nil|]. apply ns_cons; [discriminate|]. apply ns_app; [exact A|]. apply ns_cons; [discriminate|]. apply ns_app; [exact B|]. apply ns_cons; [discriminate|exact ns_nil].
Qed.
Lemma ns_block q vs t : no_semi t -> no_semi (block_tokens q vs t).
Proof.
  intros T. unfold block_tokens. apply ns_cons; [discriminate|]. apply ns_cons; [discriminate|]. apply ns_app; [apply ns_sep; apply Forall_forall; intros x Hx; apply in_map_iff in Hx as (v & <- & _); intros [H|[H|[H|[]]]]; discriminate H|].
  apply ns_cons; [discriminate|]. apply ns_cons; [discriminate|]. apply ns_app; [exact T|]. apply ns_cons; [discriminate|exact ns_nil].
Qed.
Lemma ns_map ts : Forall (fun e => no_semi (toks e)) ts -> Forall no_semi (map toks ts).
Proof. induction 1; constructor; auto. Qed.
Lemma ns_toks e : no_semi (toks e).
Proof.
  induction e as [x s|c s|f ts IH|c a b IHc IHa IHb| | |p ts IH|c fs IH|q vs f IH|m vs f IH] using xexpr_ind_nested; cbn [toks]; try (intros [H|[]]; discriminate H).
  - apply ns_map in IH. destruct f as [b|n d c]; [|apply ns_call; auto; discriminate]. destruct (infix_fun b); [now apply ns_infix|]. destruct (random_binary b); apply ns_call; auto; discriminate.
  - apply ns_cons; [discriminate|]. apply ns_cons; [discriminate|]. apply ns_app; [exact IHc|]. apply ns_cons; [discriminate|]. apply ns_cons; [discriminate|]. apply ns_cons; [discriminate|]. apply ns_app; [exact IHa|].
    apply ns_cons; [discriminate|]. apply ns_cons; [discriminate|]. apply ns_cons; [discriminate|]. apply ns_app; [exact IHb|]. apply ns_cons; [discriminate|exact ns_nil].
  - apply ns_map in IH. destruct p; [now apply ns_infix|apply ns_call; auto; discriminate].
  - apply ns_map in IH. now apply ns_infix.
  - now apply ns_block.
  - now apply ns_block.
Qed.
Lemma semi_read a rest : no_semi a -> until_semi (a ++ Semi :: rest) = Some (a, rest).
Proof. induction a as [|t a IH]; intros N; [reflexivity|]. cbn [List.app]. unfold no_semi in N. cbn [In] in N. assert (IH' : until_semi (a ++ Semi :: rest) = Some (a, rest)) by (apply IH; intros H; apply N; now right). destruct t; cbn [until_semi]; try (rewrite IH'; reflexivity). contradict N. now left. Qed.

(** ** Fields *)
Inductive piece : Set := Block (k : string) (b : list token) | Assign_block (k : string) (b : list token) | Assign (k : string) (b : list token).
Definition piece_tokens (p : piece) : list token :=
  match p with
  | Block k b => Word k :: LC :: b ++ [RC; Semi]
  | Assign_block k b => Word k :: Word "=" :: LC :: b ++ [RC; Semi]
  | Assign k b => Word k :: Word "=" :: b ++ [Semi]
  end.
Definition piece_ok (p : piece) : Prop :=
  match p with Block _ b | Assign_block _ b => balanced b | Assign _ b => balanced b /\ no_semi b /\ match b with LC :: _ => False | _ => True end end.
Definition piece_field (p : piece) : string * list token := match p with Block k b | Assign_block k b | Assign k b => (k, b) end.
Lemma piece_read p rest : piece_ok p -> field (piece_tokens p ++ rest) = Some (piece_field p, rest).
Proof.
  destruct p as [k b|k b|k b]; intros H; cbn [piece_tokens piece_field]; rewrite <- !app_comm_cons, <- app_assoc.
  - unfold field. cbn [List.app]. rewrite block_read by exact H. reflexivity.
  - unfold field. cbn [List.app]. rewrite block_read by exact H. reflexivity.
  - destruct H as (_ & N & L). pose proof (semi_read b rest N) as R. unfold field. change (String.eqb "=" "=") with true. cbv match. change ([Semi] ++ rest) with (Semi :: rest). rewrite R. destruct b as [|[] b]; try reflexivity. contradiction.
Qed.
Lemma bal_piece p : piece_ok p -> balanced (piece_tokens p).
Proof.
  destruct p as [k b|k b|k b]; intros H; cbn [piece_tokens]; apply bal_one; try reflexivity.
  - apply bal_braces; [exact H|now apply bal_plain].
  - apply bal_one; [reflexivity|]. apply bal_braces; [exact H|now apply bal_plain].
  - apply bal_one; [reflexivity|]. apply bal_app; [apply H|now apply bal_plain].
Qed.
Lemma fields_read ps : Forall piece_ok ps -> all field (List.concat (map piece_tokens ps)) = Some (map piece_field ps).
Proof.
  intros F. apply all_read.
  - intros p rest H. apply piece_read. exact (proj1 (Forall_forall _ _) F p H).
  - intros [] _; discriminate.
Qed.
Definition section_tokens (s : string * string * list piece) : list token := Word (fst (fst s)) :: Word (snd (fst s)) :: LC :: List.concat (map piece_tokens (snd s)) ++ [RC].
Lemma section_read k n ps rest : name_ok n = true -> Forall piece_ok ps -> section (section_tokens (k, n, ps) ++ rest) = Some ((k, n, List.concat (map piece_tokens ps)), rest).
Proof.
  intros N F. unfold section_tokens. cbn [fst snd]. rewrite <- !app_comm_cons, <- app_assoc. unfold section. rewrite N. cbn [List.app]. rewrite block_read; [reflexivity|]. apply bal_concat. clear N. induction F; constructor; auto using bal_piece.
Qed.
