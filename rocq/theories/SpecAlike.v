(** Specification for documents that differ only in white space and comments:
    which elements of the two trees, and which ranges of the two texts, go
    together.  Nothing here refers to the symbol table or to the requests. *)

From Coq Require Import String List NArith Bool Arith.
From Verif Require Import Text Kind Green SpecParser SpecSyntax Red LineIndex Cursor Nav NavSpec Check.
Import ListNotations.

(** How many children that are not white space or comments come before the
    one taken. *)
Definition rank (u : up) : nat := length (filter significant (firstn (u_idx u) (gchildren (u_green u)))).
(** The place of an element: its position among its siblings, that of its
    parent, and so on up to the root, not counting white space and comments. *)
Definition place (e : elem) : list nat := map rank (ups e).

Definition Counterpart (tree tree' : green) (e e' : elem) : Prop :=
  InTree tree e /\ InTree tree' e' /\ significant (el e) = true /\ significant (el e') = true
  /\ place e = place e'.

(** Two ranges of elements in the same place. *)
Definition SamePlace (src src' : text) (r r' : (nat * nat) * (nat * nat)) : Prop :=
  exists e e', Counterpart (Doc.tree_of src) (Doc.tree_of src') e e' /\ RangeOf src e r /\ RangeOf src' e' r'.

(** Two answers: both none, both a crash (other properties exclude that), or
    related. *)
Inductive AnsR {A B} (R : A -> B -> Prop) : ans A -> ans B -> Prop :=
| AR_none : AnsR R NoAns NoAns
| AR_crash : AnsR R Panics Panics
| AR_some a b : R a b -> AnsR R (Ans a) (Ans b).

(** Two messages: the same, up to one name.  [Name] says which names go
    together. *)
Inductive SameText (Name : text -> text -> Prop) : text -> text -> Prop :=
| ST_same m : SameText Name m m
| ST_name a x x' b : Name x x' -> SameText Name (a ++ x ++ b) (a ++ x' ++ b).

(** Two locations, or two lists of locations. *)
Inductive SameResponse (src src' : text) : def_response -> def_response -> Prop :=
| SR_one r r' : SamePlace src src' r r' -> SameResponse src src' (Scalar r) (Scalar r')
| SR_many l l' : Forall2 (SamePlace src src') l l' -> SameResponse src src' (Array l) (Array l').

(** Two diagnostics: the same message on ranges in the same place, with the
    same related messages on ranges in the same places. *)
Definition SameDiagnostic (src src' : text) (d d' : diag) : Prop :=
  SamePlace src src' (d_range d) (d_range d') /\ d_message d = d_message d'
  /\ match d_related d, d_related d' with
     | None, None => True
     | Some l, Some l' => Forall2 (fun p p' => SamePlace src src' (fst p) (fst p') /\ snd p = snd p') l l'
     | _, _ => False
     end.

(** What is left of the tokens without white space and comments. *)
Definition words (tree : green) : list (kind * text) :=
  filter (fun p => negb (is_trivia_kind (fst p))) (gtokens tree).

(** Two diagnostics in documents where [x] is called [f x]: their messages
    are the same up to one name. *)
Definition RenamedText (f : text -> text) : text -> text -> Prop := SameText (fun x x' => x' = f x).
Definition RenamedDiagnostic (f : text -> text) (src src' : text) (d d' : diag) : Prop :=
  SamePlace src src' (d_range d) (d_range d') /\ RenamedText f (d_message d) (d_message d')
  /\ match d_related d, d_related d' with
     | None, None => True
     | Some l, Some l' => Forall2 (fun p p' => SamePlace src src' (fst p) (fst p') /\ RenamedText f (snd p) (snd p')) l l'
     | _, _ => False
     end.
