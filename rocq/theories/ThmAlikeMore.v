(** Properties C54 and C55 for rename, document symbols, the call hierarchy and
    inlay hints. *)

From Coq Require Import String List NArith Bool Arith Lia Permutation.
From Verif Require Import Text Kind Green SpecParser SpecSyntax Lexer LexerFacts Winnow Grammar Sem Lossless Total
  Bounds Lang TokForm Shape ThmParser ThmSyntax Red Unique LineIndex Cursor Doc Ast Binder SpecBinder Nav NavSpec NavFacts ThmNav Types Check Features ThmRename
  SpecRename SpecAlike SpecAlikeMore Alike AlikeNav AlikeCheck AlikeDoc AlikeMore ThmAlike ThmAlpha.
From Verif Require SpecComplete ThmComplete.
Import ListNotations.
Notation Document := SpecComplete.Document.

(** ** White space and comments (C54) *)

(** With [eq] the texts are equal. *)
Lemma same_texts_eq a a' : SameTexts eq a a' <-> a = a'.
Proof.
  split; [|intros ->; apply sts_refl]. induction 1 as [|c m m' _ ->|x x' m m' -> _ ->]; reflexivity.
Qed.

(** In texts whose trees differ in white space and comments only, renaming at
    the same token edits the same places. *)
Theorem C54_prepare_rename src src' pos pos' t t' :
  bare (tree_of src) = bare (tree_of src') ->
  CursorOn src pos t -> CursorOn src' pos' t' -> Counterpart (tree_of src) (tree_of src') t t' ->
  AnsR (SamePlace src src') (prepare_rename src pos) (prepare_rename src' pos').
Proof.
  intros Hb Hc Hc' Ht. pose proof (tree_sim _ _ Hb) as HS.
  exact (A_prepare_rename eq src src' pos pos' t t' Hc Hc' (counterpart_R eq _ _ HS t t' Ht)).
Qed.
Print Assumptions C54_prepare_rename.
Theorem C54_rename src src' pos pos' t t' new :
  bare (tree_of src) = bare (tree_of src') ->
  CursorOn src pos t -> CursorOn src' pos' t' -> Counterpart (tree_of src) (tree_of src') t t' ->
  SameRename src src' new new (rename src pos new) (rename src' pos' new).
Proof.
  intros Hb Hc Hc' Ht. pose proof (tree_sim _ _ Hb) as HS.
  exact (A_rename eq eq_names src src' HS pos pos' t t' Hc Hc' (counterpart_R eq _ _ HS t t' Ht) new new eq_refl).
Qed.
Print Assumptions C54_rename.
(** The document symbols are the same. *)
Theorem C54_document_symbol src src' :
  bare (tree_of src) = bare (tree_of src') ->
  AnsR (Forall2 (SameSymbol eq src src')) (document_symbol src) (document_symbol src').
Proof.
  intros Hb. apply (A_document_symbol eq), tree_sim, Hb.
Qed.
Print Assumptions C54_document_symbol.
(** The call hierarchy is the same. *)
Theorem C54_prepare_call_hierarchy src src' pos pos' t t' :
  bare (tree_of src) = bare (tree_of src') ->
  CursorOn src pos t -> CursorOn src' pos' t' -> Counterpart (tree_of src) (tree_of src') t t' ->
  AnsR (Forall2 (SameItem eq src src')) (prepare_call_hierarchy src pos) (prepare_call_hierarchy src' pos').
Proof.
  intros Hb Hc Hc' Ht. pose proof (tree_sim _ _ Hb) as HS.
  exact (A_prepare_call eq eq_names src src' HS pos pos' t t' Hc Hc' (counterpart_R eq _ _ HS t t' Ht)).
Qed.
Print Assumptions C54_prepare_call_hierarchy.
Theorem C54_incoming_calls src src' f f' r r' :
  bare (tree_of src) = bare (tree_of src') ->
  Counterpart (tree_of src) (tree_of src') f f' -> is_node f = true -> has_sort FuncS f = true -> RangeOf src f r -> RangeOf src' f' r' ->
  AnsR (Forall2 (SameCall eq src src')) (incoming_calls src r) (incoming_calls src' r').
Proof.
  intros Hb Hf Nf Sf Hr Hr'. pose proof (tree_sim _ _ Hb) as HS.
  exact (A_incoming eq eq_names src src' HS f f' r r' (counterpart_R eq _ _ HS f f' Hf) Nf Sf Hr Hr').
Qed.
Print Assumptions C54_incoming_calls.
Theorem C54_outgoing_calls src src' f f' r r' :
  bare (tree_of src) = bare (tree_of src') ->
  Counterpart (tree_of src) (tree_of src') f f' -> is_node f = true -> has_sort FuncS f = true -> RangeOf src f r -> RangeOf src' f' r' ->
  AnsR (Forall2 (SameCall eq src src')) (outgoing_calls src r) (outgoing_calls src' r').
Proof.
  intros Hb Hf Nf Sf Hr Hr'. pose proof (tree_sim _ _ Hb) as HS.
  exact (A_outgoing eq eq_names src src' HS f f' r r' (counterpart_R eq _ _ HS f f' Hf) Nf Sf Hr Hr').
Qed.
Print Assumptions C54_outgoing_calls.
(** The inlay hints of well-formed documents are the same. *)
Theorem C54_inlay_hints a b r r' :
  Document a -> Document b -> words a = words b -> RangeOf (gtext a) (root_of a) r -> RangeOf (gtext b) (root_of b) r' ->
  AnsR (Forall2 (SameHint eq (gtext a) (gtext b))) (inlay_hint (gtext a) r) (inlay_hint (gtext b) r').
Proof.
  intros Ha Hb E. destruct (ThmAlike.document_tree _ Ha) as [Ta _]. destruct (ThmAlike.document_tree _ Hb) as [Tb _].
  assert (HS : Sim eq (tree_of (gtext a)) (tree_of (gtext b))) by (apply tree_sim; rewrite Ta, Tb; now apply C54_same_tree).
  pose proof (A_inlay eq eq_names (gtext a) (gtext b) HS) as X. rewrite Ta, Tb in X.
  apply X; now apply document_ends.
Qed.
Print Assumptions C54_inlay_hints.

(** ** Names (C55) *)

Section Mono.
  Variables (P Q : text -> text -> Prop) (src src' : text).
  Hypothesis H : forall x x', P x x' -> Q x x'.
  Fixpoint symbol_mono (d d' : doc_symbol) (S : SameSymbol P src src' d d') {struct S} : SameSymbol Q src src' d d'.
  Proof.
    destruct S as [x x' k r r' s s' X R1 R2|x x' k r r' s s' l l' X R1 R2 L].
    - apply SS_leaf; auto. eapply sts_imp; eauto.
    - apply SS_node; auto; [eapply sts_imp; eauto|]. revert l l' L. fix go 3. intros l l' L. destruct L as [|a a' l l' A L]; constructor; [now apply symbol_mono|now apply go].
  Qed.
  Lemma item_mono i i' : SameItem P src src' i i' -> SameItem Q src src' i i'.
  Proof. intros (A & B & C & D). repeat split; auto; eapply sts_imp; eauto. Qed.
  Lemma call_mono c c' : SameCall P src src' c c' -> SameCall Q src src' c c'.
  Proof. intros (A & B). split; [now apply item_mono|exact B]. Qed.
  Lemma hint_mono h h' : SameHint P src src' h h' -> SameHint Q src src' h h'.
  Proof. intros (A & B). split; [exact A|]. eapply sts_imp; eauto. Qed.
End Mono.
(** The name [x] is written [f x]. *)
Definition written_as (f : text -> text) (x x' : text) : Prop := x' = f x.
Lemma called_written f a x x' : Called f a x x' -> written_as f x x'.
Proof. intros [_ E]. exact E. Qed.

Theorem C55_prepare_rename f a pos pos' t t' :
  Document a -> Renames f a ->
  CursorOn (gtext a) pos t -> CursorOn (gtext (with_names f a)) pos' t' -> Counterpart a (with_names f a) t t' ->
  AnsR (SamePlace (gtext a) (gtext (with_names f a))) (prepare_rename (gtext a) pos) (prepare_rename (gtext (with_names f a)) pos').
Proof.
  intros Da Hf Hc Hc' Ht.
  exact (A_prepare_rename (Called f a) _ _ pos pos' t t' Hc Hc' (two_counter f a Da Hf t t' Ht)).
Qed.
Print Assumptions C55_prepare_rename.
(** Renaming edits the same places. *)
Theorem C55_rename_places f a pos pos' t t' new new' :
  Document a -> Renames f a ->
  CursorOn (gtext a) pos t -> CursorOn (gtext (with_names f a)) pos' t' -> Counterpart a (with_names f a) t t' ->
  ValidName new -> ValidName new' ->
  SameRename (gtext a) (gtext (with_names f a)) new new' (rename (gtext a) pos new) (rename (gtext (with_names f a)) pos' new').
Proof.
  intros Da Hf Hc Hc' Ht V V'.
  apply (A_rename (Called f a) (called_eqb f a Hf) _ _ (two_sim f a Da Hf) pos pos' t t' Hc Hc' (two_counter f a Da Hf t t' Ht) new new').
  apply valid_name_iff in V, V'. congruence.
Qed.
Print Assumptions C55_rename_places.
Theorem C55_document_symbol f a :
  Document a -> Renames f a ->
  AnsR (Forall2 (SameSymbol (written_as f) (gtext a) (gtext (with_names f a))))
    (document_symbol (gtext a)) (document_symbol (gtext (with_names f a))).
Proof.
  intros Da Hf. eapply AR_imp; [apply F2_imp; intros ? ?; apply (symbol_mono (Called f a)), called_written|]. apply A_document_symbol. now apply two_sim.
Qed.
Print Assumptions C55_document_symbol.
Theorem C55_prepare_call_hierarchy f a pos pos' t t' :
  Document a -> Renames f a ->
  CursorOn (gtext a) pos t -> CursorOn (gtext (with_names f a)) pos' t' -> Counterpart a (with_names f a) t t' ->
  AnsR (Forall2 (SameItem (written_as f) (gtext a) (gtext (with_names f a))))
    (prepare_call_hierarchy (gtext a) pos) (prepare_call_hierarchy (gtext (with_names f a)) pos').
Proof.
  intros Da Hf Hc Hc' Ht. eapply AR_imp; [apply F2_imp; intros ? ?; apply (item_mono (Called f a)), called_written|].
  exact (A_prepare_call (Called f a) (called_eqb f a Hf) _ _ (two_sim f a Da Hf) pos pos' t t' Hc Hc' (two_counter f a Da Hf t t' Ht)).
Qed.
Print Assumptions C55_prepare_call_hierarchy.
Theorem C55_incoming_calls f a g g' r r' :
  Document a -> Renames f a ->
  Counterpart a (with_names f a) g g' -> is_node g = true -> has_sort FuncS g = true ->
  RangeOf (gtext a) g r -> RangeOf (gtext (with_names f a)) g' r' ->
  AnsR (Forall2 (SameCall (written_as f) (gtext a) (gtext (with_names f a))))
    (incoming_calls (gtext a) r) (incoming_calls (gtext (with_names f a)) r').
Proof.
  intros Da Hf Hg Ng Sg Hr Hr'. eapply AR_imp; [apply F2_imp; intros ? ?; apply (call_mono (Called f a)), called_written|].
  exact (A_incoming (Called f a) (called_eqb f a Hf) _ _ (two_sim f a Da Hf) g g' r r' (two_counter f a Da Hf g g' Hg) Ng Sg Hr Hr').
Qed.
Print Assumptions C55_incoming_calls.
Theorem C55_outgoing_calls f a g g' r r' :
  Document a -> Renames f a ->
  Counterpart a (with_names f a) g g' -> is_node g = true -> has_sort FuncS g = true ->
  RangeOf (gtext a) g r -> RangeOf (gtext (with_names f a)) g' r' ->
  AnsR (Forall2 (SameCall (written_as f) (gtext a) (gtext (with_names f a))))
    (outgoing_calls (gtext a) r) (outgoing_calls (gtext (with_names f a)) r').
Proof.
  intros Da Hf Hg Ng Sg Hr Hr'. eapply AR_imp; [apply F2_imp; intros ? ?; apply (call_mono (Called f a)), called_written|].
  exact (A_outgoing (Called f a) (called_eqb f a Hf) _ _ (two_sim f a Da Hf) g g' r r' (two_counter f a Da Hf g g' Hg) Ng Sg Hr Hr').
Qed.
Print Assumptions C55_outgoing_calls.
Theorem C55_inlay_hints f a r r' :
  Document a -> Renames f a ->
  RangeOf (gtext a) (root_of a) r -> RangeOf (gtext (with_names f a)) (root_of (with_names f a)) r' ->
  AnsR (Forall2 (SameHint (written_as f) (gtext a) (gtext (with_names f a))))
    (inlay_hint (gtext a) r) (inlay_hint (gtext (with_names f a)) r').
Proof.
  intros Da Hf. pose proof (Db f a Da Hf) as D. destruct (ThmAlike.document_tree _ Da) as [Ta _]. destruct (ThmAlike.document_tree _ D) as [Tb _].
  pose proof (A_inlay (Called f a) (called_eqb f a Hf) _ _ (two_sim f a Da Hf)) as X. rewrite Ta, Tb in X.
  intros Hr Hr'. eapply AR_imp; [apply F2_imp; intros ? ?; apply (hint_mono (Called f a)), called_written|]. apply X; auto; now apply document_ends.
Qed.
Print Assumptions C55_inlay_hints.

(** ** A case that meets the conditions *)

Definition count {A} (a : ans (list A)) : nat := match a with Ans l => length l | _ => 0 end.
Definition edits (r : rename_result) : nat := match r with Edits l => length l | _ => 0 end.
(** The cursor on the same token of [ex_a] and [ex_b] (C54): the name of the
    first function. *)
Example C54_cursor_example :
  let t := cur ex_a (0, 15) in let t' := cur ex_b (1, 9) in
  bare (tree_of ex_a) = bare (tree_of ex_b) /\ CursorOn ex_a (0, 15) t /\ CursorOn ex_b (1, 9) t'
  /\ Counterpart (tree_of ex_a) (tree_of ex_b) t t'
  /\ edits (rename ex_a (0, 15) (Text.T "$h")) = 3 /\ count (prepare_call_hierarchy ex_a (0, 15)) = 1
  /\ count (document_symbol ex_a) = 1 /\ count (inlay_hint ex_a ((0, 0), (1, 11))) = 3.
Proof.
  cursor_at ex_a (0, 15) C P. cursor_at ex_b (1, 9) C' P'.
  destruct (cursor_node _ _ _ _ C P) as (T & _). destruct (cursor_node _ _ _ _ C' P') as (T' & _).
  intros t t'. split; [vm_compute; reflexivity|]. split; [exact C|]. split; [exact C'|]. split; [|split; [|split; [|split]]; vm_compute; reflexivity].
  split; [exact T|]. split; [exact T'|]. split; [|split]; vm_compute; reflexivity.
Qed.
