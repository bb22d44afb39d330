(** Properties C54 and C55 for semantic tokens and selection ranges. *)

From Coq Require Import String List NArith ZArith Bool Arith Lia.
From Verif Require Import Text Kind Green SpecParser SpecSyntax Lexer LexerFacts Winnow Grammar Sem Lossless Total
  Bounds Lang TokForm Shape ThmParser ThmSyntax Red Unique LineIndex Cursor Doc Ast Binder SpecBinder Nav NavSpec NavFacts ThmNav Types Check Features SemTok
  SpecSemTok ThmSemTok SpecRename SpecAlike SpecAlikeMore SpecAlikeTok Alike AlikeNav AlikeCheck AlikeDoc AlikeMore AlikeTok ThmAlike ThmAlpha.
From Verif Require SpecComplete ThmComplete.
Import ListNotations.
Notation Document := SpecComplete.Document.

(** ** White space and comments (C54) *)

(** The semantic tokens of texts whose trees differ in white space and comments
    only are the same, comments left out: tokens in the same places, of the
    same types and lengths. *)
Theorem C54_semantic_tokens types src src' :
  bare (tree_of src) = bare (tree_of src') ->
  AnsR (fun ts ts' => SameTokens types (tree_of src) (tree_of src') ts ts'
      /\ map st_length (filter (fun s => negb (is_comment types s)) ts) = map st_length (filter (fun s => negb (is_comment types s)) ts'))
    (semantic_tokens_full types src) (semantic_tokens_full types src').
Proof.
  intros Hb. pose proof (tree_sim _ _ Hb) as HS. eapply AR_imp; [|exact (A_semantic_tokens eq eq_names src src' HS types)].
  intros ts ts' H. split; [exact H|]. unfold SameTokens in H. eapply F2_map_eq; [|exact H].
  intros s s' (_ & e & e' & C & N & -> & ->). f_equal. apply (counterpart_R eq _ _ HS) in C.
  destruct (kind_eqb (ekind e) IDENT) eqn:K.
  - apply kind_eqb_eq in K. exact (R_name eq _ _ e e' C N K).
  - apply (R_text eq _ _ e e' C N). intros E. rewrite E in K. discriminate K.
Qed.
Print Assumptions C54_semantic_tokens.
(** With the cursors on the same tokens the selection ranges are those of
    elements in the same places. *)
Theorem C54_selection_range src src' ps ps' :
  bare (tree_of src) = bare (tree_of src') ->
  Forall2 (fun p p' => exists t t', CursorOn src p t /\ CursorOn src' p' t' /\ Counterpart (tree_of src) (tree_of src') t t') ps ps' ->
  AnsR (Forall2 (Forall2 (SamePlace src src'))) (selection_range src ps) (selection_range src' ps').
Proof.
  intros Hb H. pose proof (tree_sim _ _ Hb) as HS. apply (A_selection eq src src').
  eapply F2_imp; [|exact H]. intros p p' (t & t' & C & C' & Ht). exists t, t'. split; [exact C|]. split; [exact C'|].
  exact (counterpart_R eq _ _ HS t t' Ht).
Qed.
Print Assumptions C54_selection_range.

(** ** Names (C55) *)

Theorem C55_semantic_tokens types f a :
  Document a -> Renames f a ->
  AnsR (SameTokens types a (with_names f a)) (semantic_tokens_full types (gtext a)) (semantic_tokens_full types (gtext (with_names f a))).
Proof.
  intros Da Hf. pose proof (Db f a Da Hf) as D. destruct (ThmAlike.document_tree _ Da) as [Ta _]. destruct (ThmAlike.document_tree _ D) as [Tb _].
  pose proof (A_semantic_tokens (Called f a) (called_eqb f a Hf) _ _ (two_sim f a Da Hf) types) as X. rewrite Ta, Tb in X. exact X.
Qed.
Print Assumptions C55_semantic_tokens.
Theorem C55_selection_range f a ps ps' :
  Document a -> Renames f a ->
  Forall2 (fun p p' => exists t t', CursorOn (gtext a) p t /\ CursorOn (gtext (with_names f a)) p' t' /\ Counterpart a (with_names f a) t t') ps ps' ->
  AnsR (Forall2 (Forall2 (SamePlace (gtext a) (gtext (with_names f a))))) (selection_range (gtext a) ps) (selection_range (gtext (with_names f a)) ps').
Proof.
  intros Da Hf H. apply (A_selection (Called f a)).
  eapply F2_imp; [|exact H]. intros p p' (t & t' & C & C' & Ht). exists t, t'. split; [exact C|]. split; [exact C'|]. now apply two_counter.
Qed.
Print Assumptions C55_selection_range.

(** ** A case *)

Definition all_types : list string := map tkind_name all_tkinds.
Definition shapes (a : ans (list semtok)) : list (nat * nat) := match a with Ans l => map (fun s => (st_type s, st_length s)) l | _ => [] end.
(** The second document (C54) has two comments that the first has not; leaving
    them out (type 5), the tokens agree. *)
Example C54_tokens_example :
  bare (tree_of ex_a) = bare (tree_of ex_b)
  /\ length (shapes (semantic_tokens_full all_types ex_a)) = 15 /\ length (shapes (semantic_tokens_full all_types ex_b)) = 17
  /\ nth_error (legend all_types) 5 = Some "comment"%string
  /\ filter (fun p => negb (Nat.eqb (fst p) 5)) (shapes (semantic_tokens_full all_types ex_b)) = shapes (semantic_tokens_full all_types ex_a).
Proof. repeat split; vm_compute; reflexivity. Qed.
