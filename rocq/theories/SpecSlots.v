(** Vocabulary for the numbering of parameters and locals after a code action
    (C53). *)

From Coq Require Import List Bool.
From Verif Require Import Text Kind Green Red Ast LineIndex Cursor Nav InstrMeta Types Features SpecBinder NavSpec SpecTypes.
Import ListNotations.

(** The nodes of certain kinds, in the order of the text. *)
Definition nodes_of (ks : list kind) (tree : green) : list elem :=
  filter (fun e => is_node e && existsb (kind_eqb (ekind e)) ks) (descendants_with_tokens (root_of tree)).

(** Each number and each name of a parameter or local means the same
    declaration, or the same type of one, in both functions. *)
Definition SameLocals (f f' : elem) : Prop :=
  length (locals_space f) = length (locals_space f')
  /\ forall w, option_map el (local_target f w) = option_map el (local_target f' w).

(** Both have the same types of parameters and results. *)
Definition SameTypes (u u' : elem) : Prop :=
  ekind u = ekind u'
  /\ map etext (written_params u) = map etext (written_params u')
  /\ map etext (written_results u) = map etext (written_results u').

(** The modules have the same definitions one after another: of the same kind
    and with the same name, if any. *)
Definition SameName (d d' : elem) : Prop :=
  ekind d = ekind d' /\ option_map etext (token d IDENT) = option_map etext (token d' IDENT).
Definition SameDefinitions (m m' : elem) : Prop := Forall2 SameName (definitions m) (definitions m').

(** The range shows the definition at this place among those of the module. *)
Definition ShowsDefinition (src : text) (m : elem) (r : (nat * nat) * (nat * nat)) (j : nat) : Prop :=
  exists d, nth_error (definitions m) j = Some d /\ Shows src r d.

(** The function writes parameters or results itself. *)
Definition WritesSignature (f : elem) : Prop :=
  exists tu, child f TYPE_USE = Some tu /\ (childs tu PARAM <> [] \/ childs tu RESULT <> []).

(** The type that the function declares for the parameter or local so written. *)
Definition DeclaredType (f : elem) (w : wref) (t : valtype) : Prop :=
  exists d, local_target f w = Some d /\ SlotType d t.

(** Whenever inlay hints are asked for a range that the node lies in, the
    answer has this text behind the node. *)
Definition HintBehind (src : text) (n : elem) (x : text) : Prop :=
  forall r a b, rowan_range (new_line_index src) (fst r) (snd r) = RangeOk a b -> a <= estart n -> eend n <= b ->
  exists hs pos, inlay_hint src r = Ans hs /\ line_col (new_line_index src) (eend n) = Some pos /\ In (pos, x) hs.

(** The definition, not of a table, gives this name in the module, and another
    definition of the module, not of a table, gives it too. *)
Definition GivesName (m d : elem) (x : text) : Prop :=
  (exists s, s <> TableS /\ In d (definitions_of s m)) /\ option_map etext (token d IDENT) = Some x.
Definition GivesNameAgain (m d : elem) (x : text) : Prop :=
  GivesName m d x /\ exists o, o <> d /\ GivesName m o x.
