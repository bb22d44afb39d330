(** Vocabulary for hovers of two documents (C54, C55). *)

From Coq Require Import String List NArith Bool Arith.
From Verif Require Import Text Kind Green SpecParser Red LineIndex Cursor Doc Ast Binder SpecBinder Nav NavSpec Types Check SemTok Hover SpecHover SpecAlike
  SpecAlikeMore.
Import ListNotations.

(** Two hovers: the same texts up to names, in the same form, for the same
    place. *)
Inductive SameContents (Name : text -> text -> Prop) : contents -> contents -> Prop :=
| SC_snippet x x' : SameTexts Name x x' -> SameContents Name (Snippet x) (Snippet x')
| SC_markup x x' : SameTexts Name x x' -> SameContents Name (Markup x) (Markup x')
| SC_snippets l l' : Forall2 (SameTexts Name) l l' -> SameContents Name (Snippets l) (Snippets l').
Definition SameHover (Name : text -> text -> Prop) (src src' : text) (h h' : hover_answer) : Prop :=
  SameContents Name (fst h) (fst h') /\ SamePlace src src' (snd h) (snd h').
(** Functions in the same place have the same documentation above them. *)
Definition SameDocs (tree tree' : green) : Prop :=
  forall d d' x, Counterpart tree tree' d d' -> is_node d = true -> has_sort FuncS d = true -> Docs d x -> Docs d' x.
