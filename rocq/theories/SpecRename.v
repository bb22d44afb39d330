(** Vocabulary for the effect of renaming (C52). *)

From Coq Require Import String List NArith Bool Arith.
From Verif Require Import Text Kind Green.
Import ListNotations.

(** The tree [g], whose text starts at offset [o] of the document, where the
    identifiers that start at an offset in [at_] are replaced by [new]. *)
Fixpoint replaced (at_ : nat -> bool) (new : text) (o : nat) (g : green) : green :=
  match g with
  | Tok k t => if kind_eqb k IDENT && at_ o then Tok k new else Tok k t
  | Node k cs =>
      Node k ((fix go (o : nat) (l : list green) : list green :=
                 match l with
                 | [] => []
                 | c :: r => replaced at_ new o c :: go (o + glen c) r
                 end) o cs)
  end.
Definition starts_in (l : list nat) (o : nat) : bool := existsb (Nat.eqb o) l.

(** The tree with every identifier [x] written as [f x]. *)
Fixpoint with_names (f : text -> text) (g : green) : green :=
  match g with
  | Tok k t => if kind_eqb k IDENT then Tok k (f t) else Tok k t
  | Node k cs => Node k (map (with_names f) cs)
  end.
(** The identifiers of a document. *)
Definition Occurs (tree : green) (x : text) : Prop := In (IDENT, x) (gtokens tree).
