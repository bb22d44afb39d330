(** Vocabulary for answers that show names (C54, C55): [Name x x'] says that
    the name [x] of one document is [x'] in the other. *)

From Coq Require Import String List NArith Bool Arith.
From Verif Require Import Text Kind Green SpecParser Red LineIndex Cursor Doc Ast Binder Nav NavSpec Types Check Features SpecAlike.
Import ListNotations.

(** Two texts: the same, up to names. *)
Inductive SameTexts (Name : text -> text -> Prop) : text -> text -> Prop :=
| STs_nil : SameTexts Name [] []
| STs_same a m m' : SameTexts Name m m' -> SameTexts Name (a ++ m) (a ++ m')
| STs_name x x' m m' : Name x x' -> SameTexts Name m m' -> SameTexts Name (x ++ m) (x' ++ m').

(** Two ranges of identifiers in the same place. *)
Definition SameIdent (src src' : text) (r r' : (nat * nat) * (nat * nat)) : Prop :=
  exists t t', Counterpart (tree_of src) (tree_of src') t t' /\ is_node t = false /\ ekind t = IDENT
    /\ RangeOf src t r /\ RangeOf src' t' r'.
(** Two answers to a rename request for [new] and [new']: refused for the same
    reason, or edits of identifiers in the same places. *)
Inductive SameRename (src src' new new' : text) : rename_result -> rename_result -> Prop :=
| SRn_invalid : SameRename src src' new new' InvalidName InvalidName
| SRn_cant : SameRename src src' new new' CantRename CantRename
| SRn_none : SameRename src src' new new' NoEdit NoEdit
| SRn_panics : SameRename src src' new new' RenamePanics RenamePanics
| SRn_edits l l' :
    Forall2 (fun e e' => SameIdent src src' (fst e) (fst e') /\ snd e = new /\ snd e' = new') l l' ->
    SameRename src src' new new' (Edits l) (Edits l').

Section Two.
  Variable Name : text -> text -> Prop.
  Variables src src' : text.
  (** Two document symbols: the same kind, the same name, ranges in the same
      places, and the same children. *)
  Inductive SameSymbol : doc_symbol -> doc_symbol -> Prop :=
  | SS_leaf x x' k r r' s s' : SameTexts Name x x' -> SamePlace src src' r r' -> SamePlace src src' s s' ->
      SameSymbol (mk_ds x k r s None) (mk_ds x' k r' s' None)
  | SS_node x x' k r r' s s' l l' : SameTexts Name x x' -> SamePlace src src' r r' -> SamePlace src src' s s' ->
      Forall2 SameSymbol l l' ->
      SameSymbol (mk_ds x k r s (Some l)) (mk_ds x' k r' s' (Some l')).
  (** Two items of the call hierarchy, and two calls. *)
  Definition SameItem (i i' : call_item) : Prop :=
    SameTexts Name (it_name i) (it_name i') /\ SameTexts Name (it_detail i) (it_detail i')
    /\ SamePlace src src' (it_range i) (it_range i') /\ SamePlace src src' (it_selection i) (it_selection i').
  Definition SameCall (c c' : call_item * list ((nat * nat) * (nat * nat))) : Prop :=
    SameItem (fst c) (fst c') /\ Forall2 (SamePlace src src') (snd c) (snd c').
  (** Two inlay hints: after elements in the same place, with the same label. *)
  Definition SameHint (h h' : hint) : Prop :=
    (exists r r', SamePlace src src' r r' /\ fst h = snd r /\ fst h' = snd r') /\ SameTexts Name (snd h) (snd h').
End Two.
