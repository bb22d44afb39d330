(** Properties C54 and C55 for code actions. *)

From Coq Require Import String List NArith Bool Arith Lia.
From Verif Require Import Text Kind Green SpecParser SpecSyntax Lexer LexerFacts Winnow Grammar Sem Lossless Total
  Bounds Lang TokForm Shape ThmParser ThmSyntax Red Unique LineIndex Cursor Doc Ast Binder SpecBinder Nav NavSpec NavFacts ThmNav Types Check SpecAction Action
  SpecRename SpecAlike SpecAlikeAct Alike AlikeNav AlikeCheck AlikeDoc AlikeMore AlikeAct Completion SpecCompletion ThmCompletion ThmAlike ThmAlpha.
From Verif Require SpecComplete ThmComplete.
Import ListNotations.
Notation Document := SpecComplete.Document.

(** In well-formed documents with the same words, with the same tokens
    selected (from the start of [s] to the end of [u]), the same code actions
    are offered: with the same titles, and the same texts for ranges in the
    same places. *)
Theorem C54_code_action a b w s s' u u' r r' :
  Document a -> Document b -> words a = words b ->
  Counterpart a b s s' -> Counterpart a b u u' -> is_node s = false -> is_node u = false -> estart s <= estart u ->
  SpanOf (gtext a) s u r -> SpanOf (gtext b) s' u' r' ->
  AnsR (Forall2 (SameAction (gtext a) (gtext b))) (code_action (gtext a) w (fst r) (snd r)) (code_action (gtext b) w (fst r') (snd r')).
Proof.
  intros Da Db E Hs Hu Ns Nu L Sr Sr'. destruct (document_tree _ Da) as [Ta _]. destruct (document_tree _ Db) as [Tb _].
  assert (HS : Sim eq (tree_of (gtext a)) (tree_of (gtext b))) by (apply tree_sim; rewrite Ta, Tb; now apply C54_same_tree).
  apply (A_code_action eq _ _ HS) with (s := s) (u := u) (s' := s') (u' := u'); auto; rewrite ?Ta, ?Tb; auto.
  - rewrite Ta, Tb in HS. now apply (counterpart_R eq _ _ HS).
  - rewrite Ta, Tb in HS. now apply (counterpart_R eq _ _ HS).
Qed.
(** The same for other names: they are not in the way of code actions. *)
Theorem C55_code_action f a w s s' u u' r r' :
  Document a -> Renames f a ->
  Counterpart a (with_names f a) s s' -> Counterpart a (with_names f a) u u' -> is_node s = false -> is_node u = false -> estart s <= estart u ->
  SpanOf (gtext a) s u r -> SpanOf (gtext (with_names f a)) s' u' r' ->
  AnsR (Forall2 (SameAction (gtext a) (gtext (with_names f a))))
    (code_action (gtext a) w (fst r) (snd r)) (code_action (gtext (with_names f a)) w (fst r') (snd r')).
Proof.
  intros Da Hf Hs Hu Ns Nu L Sr Sr'. pose proof (Db f a Da Hf) as D. destruct (document_tree _ Da) as [Ta _]. destruct (document_tree _ D) as [Tb _].
  apply (A_code_action (Called f a) _ _ (two_sim f a Da Hf)) with (s := s) (u := u) (s' := s') (u' := u'); auto; rewrite ?Ta, ?Tb; auto.
  - pose proof (two_counter f a Da Hf s s' Hs) as X. now rewrite Ta, Tb in X.
  - pose proof (two_counter f a Da Hf u u' Hu) as X. now rewrite Ta, Tb in X.
Qed.

(** ** Cases *)

(** Two groups of parameters selected, from the first parenthesis to the last
    one. *)
Definition join_a : text := Text.T "(module (func (param i32) (param i64 f32)))".
Definition join_b : text := Text.T "(module (func (param i32  ) (; or ;) ( param i64 f32 )))".
Definition both : wanted := mk_wanted true true.
Example C54_code_action_case :
  let s := left_of join_a (0, 15) in let u := left_of join_a (0, 41) in let s' := left_of join_b (0, 15) in let u' := left_of join_b (0, 54) in
  Document (tree_of join_a) /\ Document (tree_of join_b) /\ words (tree_of join_a) = words (tree_of join_b)
  /\ gtext (tree_of join_a) = join_a /\ gtext (tree_of join_b) = join_b
  /\ Counterpart (tree_of join_a) (tree_of join_b) s s' /\ Counterpart (tree_of join_a) (tree_of join_b) u u'
  /\ is_node s = false /\ is_node u = false /\ estart s <= estart u
  /\ SpanOf join_a s u ((0, 14), (0, 41)) /\ SpanOf join_b s' u' ((0, 14), (0, 54))
  /\ code_action join_a both (0, 14) (0, 41) = Ans [mk_action (Text.T "Join parameters") [(((0, 14), (0, 41)), Text.T "(param i32 i64 f32)")]]
  /\ code_action join_b both (0, 14) (0, 54) = Ans [mk_action (Text.T "Join parameters") [(((0, 14), (0, 54)), Text.T "(param i32 i64 f32)")]].
Proof.
  intros s u s' u'. split; [apply ThmComplete.documentb_ok; vm_compute; reflexivity|]. split; [apply ThmComplete.documentb_ok; vm_compute; reflexivity|].
  split; [vm_compute; reflexivity|]. split; [vm_compute; reflexivity|]. split; [vm_compute; reflexivity|].
  assert (Z : forall x p t, CursorAfter x p t -> InTree (tree_of x) t) by (intros x p t C; apply cursor_after_tok in C as (T & _); exact T).
  split; [|split].
  - split; [apply (Z _ (0, 15)), left_cursor; vm_compute; reflexivity|]. split; [apply (Z _ (0, 15)), left_cursor; vm_compute; reflexivity|]. repeat split; vm_compute; reflexivity.
  - split; [apply (Z _ (0, 41)), left_cursor; vm_compute; reflexivity|]. split; [apply (Z _ (0, 54)), left_cursor; vm_compute; reflexivity|]. repeat split; vm_compute; reflexivity.
  - split; [vm_compute; reflexivity|]. split; [vm_compute; reflexivity|]. split; [apply Nat.leb_le; vm_compute; reflexivity|].
    split; [split; vm_compute; reflexivity|]. split; [split; vm_compute; reflexivity|]. split; vm_compute; reflexivity.
Qed.
