(** Vocabulary for code actions of two documents (C54, C55). *)

From Coq Require Import List Arith.
From Verif Require Import Text Kind Green Red LineIndex Doc Nav Action SpecAlike.
Import ListNotations.

(** The range from the start of [x] to the end of [y]. *)
Definition SpanOf (src : text) (x y : elem) (r : (nat * nat) * (nat * nat)) : Prop :=
  line_col (new_line_index src) (estart x) = Some (fst r) /\ line_col (new_line_index src) (eend y) = Some (snd r).
(** Two ranges that start and end with elements in the same places. *)
Definition SameSpan (src src' : text) (r r' : (nat * nat) * (nat * nat)) : Prop :=
  exists x x' y y', Counterpart (tree_of src) (tree_of src') x x' /\ Counterpart (tree_of src) (tree_of src') y y'
    /\ SpanOf src x y r /\ SpanOf src' x' y' r'.
(** Two actions: the same title, and the same new texts for such ranges. *)
Definition SameAction (src src' : text) (a a' : action) : Prop :=
  a_title a = a_title a' /\ Forall2 (fun e e' => SameSpan src src' (fst e) (fst e') /\ snd e = snd e') (a_edits a) (a_edits a').
