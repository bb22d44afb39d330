(** Vocabulary for semantic tokens of two documents (C54, C55). *)

From Coq Require Import String List NArith ZArith Bool Arith.
From Verif Require Import Text Kind Green SpecParser Red LineIndex Cursor Doc Ast Binder Nav NavSpec Types Check Features SemTok SpecAlike.
Import ListNotations.

(** The token is given the type [comment] of the legend. *)
Definition is_comment (types : list string) (s : semtok) : bool :=
  match nth_error (legend types) (st_type s) with Some x => String.eqb x "comment" | None => false end.
(** Two lists of semantic tokens: leaving out comments they agree one by one,
    in that they are for tokens in the same place, have the length of these
    tokens, and the same type. *)
Definition SameTokens (types : list string) (tree tree' : green) (ts ts' : list semtok) : Prop :=
  Forall2 (fun s s' => st_type s = st_type s'
      /\ exists e e', Counterpart tree tree' e e' /\ is_node e = false /\ st_length s = tlen (etext e) /\ st_length s' = tlen (etext e'))
    (filter (fun s => negb (is_comment types s)) ts) (filter (fun s => negb (is_comment types s)) ts').
