(** Vocabulary for completion in two documents (C54, C55). *)

From Coq Require Import String List NArith Bool Arith.
From Verif Require Import Text Kind Green Red LineIndex Cursor Doc Completion SpecAlike SpecAlikeMore SpecKeyword.
Import ListNotations.

(** Two completion items: the same kind and the same type, labels and
    documentation that differ in names only, and for both the label is
    inserted, or for both its part after the dollar sign. *)
Record SameOffer (Name : text -> text -> Prop) (i i' : item) : Prop :=
  { so_kind : c_kind i = c_kind i';
    so_label : c_label i = c_label i' \/ Name (c_label i) (c_label i');
    so_insert : c_insert i = None /\ c_insert i' = None
      \/ exists r r', c_insert i = Some r /\ c_insert i' = Some r' /\ c_label i = T "$" ++ r /\ c_label i' = T "$" ++ r';
    so_detail : c_detail i = c_detail i';
    so_doc : c_doc i = c_doc i'
      \/ exists d d', c_doc i = Some d /\ c_doc i' = Some d' /\ SameTexts Name d d' }.

(** No form stands between the token and an opening parenthesis before it. *)
Definition PlainlyBehind (t : elem) : Prop := BehindParen t -> AfterParen t.
