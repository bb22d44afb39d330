(** Vocabulary for undoing one code action by another (C60). *)

From Coq Require Import String List.
From Verif Require Import Text Kind Green Red LineIndex Cursor Doc Ast Nav NavSpec Action SpecAction.
Import ListNotations.

(** Parameters in one group, [(param i32 i64)], and in a group each,
    [(param i32) (param i64)]. *)
Definition in_one (types : list text) : text := T "(param " ++ spaced types ++ T ")".
Definition one_each (types : list text) : text := spaced (map (fun t => T "(param " ++ t ++ T ")") types).

(** The title of an action and what it replaces. *)
Definition replaces (title : text) (r : range) (new : text) : action := mk_action title [(r, new)].
