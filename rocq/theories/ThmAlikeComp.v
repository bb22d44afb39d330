(** Properties C54 and C55 for completion. *)

From Coq Require Import String List NArith Bool Arith Lia.
From Verif Require Import Text Kind Green SpecParser SpecSyntax Lexer LexerFacts Winnow Grammar Sem Lossless Total
  Bounds Lang TokForm Shape ThmParser ThmSyntax Red Unique LineIndex Cursor Doc Ast Binder SpecBinder Nav NavSpec NavFacts ThmNav Types Check
  Hover InstrNames Completion SpecCompletion ThmCompletion SpecKeyword ThmKeyword
  SpecRename SpecAlike SpecAlikeMore SpecAlikeComp Alike AlikeNav AlikeMore AlikeComp AlikeParen ThmAlike ThmAlpha ThmAlikeMore.
From Verif Require SpecComplete ThmComplete.
From Verif Require Import ThmFormat.
Import ListNotations.
Notation Document := SpecComplete.Document.

(** ** White space and comments (C54) *)

(** Texts, complete or not, whose trees differ in white space and comments
    only: with the cursors behind the same token the same items are offered, in
    the same order.  No form may stand between the token and an opening
    parenthesis before it. *)
Theorem C54_completion src src' pos pos' t t' :
  bare (tree_of src) = bare (tree_of src') ->
  CursorAfter src pos t -> CursorAfter src' pos' t' -> Counterpart (tree_of src) (tree_of src') t t' ->
  PlainlyBehind t ->
  completion src pos = completion src' pos'.
Proof.
  intros Hb C C' Ht HB. pose proof (tree_sim _ _ Hb) as HS.
  assert (E : forall x x', SameTexts eq x x' -> x = x') by (induction 1; congruence).
  destruct (A_completion eq eq_names (fun x x' H => or_introl H) src src' HS pos pos' t t' C C' (counterpart_R eq _ _ HS t t' Ht) HB)
    as [| |l l' Hl]; [reflexivity|reflexivity|]. f_equal. apply F2_eq. eapply F2_imp; [|exact Hl].
  intros [lb ins k det doc] [lb' ins' k' det' doc'] [H1 H2 H3 H4 H5]. cbn [c_kind c_label c_insert c_detail c_doc] in *.
  assert (lb = lb') by now destruct H2. subst lb' k' det'. f_equal.
  - destruct H3 as [[-> ->]|(r & r' & -> & -> & E1 & E2)]; [reflexivity|]. rewrite E1 in E2. cbn in E2. now injection E2 as ->.
  - destruct H5 as [->|(d & d' & -> & -> & H5)]; [reflexivity|]. f_equal. now apply E.
Qed.
Print Assumptions C54_completion.
(** In a well-formed document nothing stands there. *)
Theorem C54_completion_document a b pos pos' t t' :
  Document a -> Document b -> bare a = bare b ->
  CursorAfter (gtext a) pos t -> CursorAfter (gtext b) pos' t' -> Counterpart a b t t' ->
  completion (gtext a) pos = completion (gtext b) pos'.
Proof.
  intros Da D E C C' Ht. destruct (ThmAlike.document_tree _ Da) as [Ta _]. destruct (ThmAlike.document_tree _ D) as [Tb _].
  destruct (cursor_after_tok _ _ _ C) as (T & N & _).
  apply (C54_completion _ _ _ _ t t'); auto; [now rewrite Ta, Tb|now rewrite Ta, Tb|]. apply (document_plainly (gtext a)); auto. now rewrite Ta.
Qed.
Print Assumptions C54_completion_document.

(** ** Names (C55) *)

Lemma called_dollar f a : Document a -> Renames f a -> forall x x', Called f a x x' -> x = x' \/ exists r r', x = 36%N :: r /\ x' = 36%N :: r'.
Proof.
  intros D [V _] x x' [O ->]. right. destruct (ThmReparse.document_form _ D _ _ O) as [(r & E & _) _].
  destruct (V x O) as (c & r' & E' & _). exists r, (c :: r'). auto.
Qed.
(** After a consistent renaming the same items are offered, up to names. *)
Theorem C55_completion f a pos pos' t t' :
  Document a -> Renames f a ->
  CursorAfter (gtext a) pos t -> CursorAfter (gtext (with_names f a)) pos' t' -> Counterpart a (with_names f a) t t' ->
  AnsR (Forall2 (SameOffer (written_as f))) (completion (gtext a) pos) (completion (gtext (with_names f a)) pos').
Proof.
  intros Da Hf C C' Ht. destruct (ThmAlike.document_tree _ Da) as [Ta _]. destruct (cursor_after_tok _ _ _ C) as (T & N & _).
  eapply AR_imp; [|eapply (A_completion (Called f a) (called_eqb f a Hf) (called_dollar f a Da Hf) _ _ (two_sim f a Da Hf)); [exact C|exact C'|now apply two_counter|]].
  - apply F2_imp. intros i i' [H1 H2 H3 H4 H5]. constructor; auto.
    + destruct H2 as [H2|H2]; [now left|right]. now apply (called_written f a).
    + destruct H5 as [H5|(d & d' & E & E' & H5)]; [now left|right]. exists d, d'. repeat split; auto. eapply sts_imp; [apply called_written|exact H5].
  - apply (document_plainly (gtext a)); auto. now rewrite Ta.
Qed.
Print Assumptions C55_completion.

(** ** Cases *)

(** Unfinished texts: the argument of a call is being typed. *)
Definition typing_a : text := Text.T "(module (func $f (param i32)) (func $g) (func (call $".
Definition typing_b : text :=
  unlines ["(module ;; two functions"; "  (func $f (param i32)) (; and ;)"; "  (func $g)"; "  (func"; "    (call (; which? ;) $"]%string.
Definition behindb (t : elem) : bool :=
  is_l_paren t || match find (fun e => negb (is_node e)) (filter sigE (prev_siblings t)) with Some q => is_l_paren q | None => false end.
Lemma plainly_by src t : InTree (tree_of src) t -> behindb t = false -> PlainlyBehind t.
Proof.
  intros T E H. exfalso. apply (behind_iff src t T) in H. unfold behindb in E. apply orb_false_iff in E as [E1 E2].
  destruct H as [H|(q & F & O)]; [apply open_iff in H; congruence|]. rewrite F in E2. apply open_iff in O. congruence.
Qed.
Example C54_completion_example :
  let t := left_of typing_a (0, 53) in let t' := left_of typing_b (4, 24) in
  bare (tree_of typing_a) = bare (tree_of typing_b)
  /\ CursorAfter typing_a (0, 53) t /\ CursorAfter typing_b (4, 24) t' /\ Counterpart (tree_of typing_a) (tree_of typing_b) t t'
  /\ PlainlyBehind t
  /\ labels (completion typing_b (4, 24)) = [(Text.T "$f", Some (Text.T "f")); (Text.T "$g", Some (Text.T "g"))].
Proof.
  assert (C : CursorAfter typing_a (0, 53) (left_of typing_a (0, 53))) by (apply left_cursor; vm_compute; reflexivity).
  assert (C' : CursorAfter typing_b (4, 24) (left_of typing_b (4, 24))) by (apply left_cursor; vm_compute; reflexivity).
  destruct (cursor_after_tok _ _ _ C) as (T & _). destruct (cursor_after_tok _ _ _ C') as (T' & _).
  intros t t'. split; [vm_compute; reflexivity|]. split; [exact C|]. split; [exact C'|]. split.
  - split; [exact T|]. split; [exact T'|]. split; [|split]; vm_compute; reflexivity.
  - split; [apply (plainly_by typing_a); [exact T|vm_compute; reflexivity]|vm_compute; reflexivity].
Qed.
(** After the renaming of the example of C55, where [$f] and [$x] change
    places. *)
Example C55_completion_example :
  let a := ex_tree alpha_ex in let src' := gtext (with_names alpha_new a) in
  let t := left_of alpha_ex (0, 57) in let t' := left_of src' (0, 57) in
  Document a /\ Renames alpha_new a /\ gtext a = alpha_ex
  /\ CursorAfter alpha_ex (0, 57) t /\ CursorAfter src' (0, 57) t' /\ Counterpart a (with_names alpha_new a) t t'
  /\ labels (completion alpha_ex (0, 57)) = [(Text.T "$x", Some (Text.T "x"))]
  /\ labels (completion src' (0, 57)) = [(Text.T "$f", Some (Text.T "f"))].
Proof.
  intros a src' t t'.
  assert (C : CursorAfter alpha_ex (0, 57) t) by (apply left_cursor; vm_compute; reflexivity).
  assert (C' : CursorAfter src' (0, 57) t') by (apply left_cursor; vm_compute; reflexivity).
  destruct (cursor_after_tok _ _ _ C) as (T & _). destruct (cursor_after_tok _ _ _ C') as (T' & _).
  assert (D : Document a) by (apply ThmComplete.documentb_ok; vm_compute; reflexivity).
  assert (Rn : Renames alpha_new a) by (apply renames_by; vm_compute; reflexivity).
  destruct (ThmAlike.document_tree _ D) as [Ta _]. destruct (ThmAlike.document_tree _ (Db alpha_new a D Rn)) as [Tb _].
  assert (Ea : gtext a = alpha_ex) by (vm_compute; reflexivity).
  split; [exact D|]. split; [exact Rn|]. split; [exact Ea|]. split; [exact C|]. split; [exact C'|]. split.
  - rewrite Ea in Ta. rewrite Ta in T. unfold src' in T'. rewrite Tb in T'. split; [exact T|]. split; [exact T'|]. split; [|split]; vm_compute; reflexivity.
  - split; vm_compute; reflexivity.
Qed.
