(** Specification of navigation, read off the tree alone. *)

From Coq Require Import String List NArith Bool Arith Lia.
From Verif Require Import Text Kind Green Lexer Red LineIndex Cursor Doc Ast SpecBinder.
Import ListNotations.

(** What is shown for a declaration: its identifier, else its keyword, else
    all of it. *)
Definition shown (d : elem) : elem :=
  match token d IDENT with
  | Some t => t
  | None => match token d KEYWORD with Some t => t | None => d end
  end.
(** The range [r] is that of [e] in the document. *)
Definition RangeOf (src : text) (e : elem) (r : (nat * nat) * (nat * nat)) : Prop :=
  line_col (new_line_index src) (estart e) = Some (fst r)
  /\ line_col (new_line_index src) (eend e) = Some (snd r).
Definition Shows (src : text) (r : (nat * nat) * (nat * nat)) (d : elem) : Prop := RangeOf src (shown d) r.

(** The cursor is on token [t]. *)
Definition CursorOn (src : text) (pos : nat * nat) (t : elem) : Prop :=
  find_meaningful_token (new_line_index src) (root_of (tree_of src)) pos = Ans t.

(** [d] is what a module-level reference written [w] denotes in [m], where a
    number counts all the definitions of the module. *)
Definition denotes (m : elem) (w : wref) (d : elem) : Prop :=
  match w with
  | Named x => has_name x d = true
  | Numbered k => nth_error (definitions m) (N.to_nat k) = Some d
  end.

(** A reference that resolves to [d]. *)
Definition Resolves (src : text) (n d : elem) : Prop :=
  exists s m w, Asks n (AModule s) /\ Written n w
    /\ in_module n m /\ InTree (tree_of src) m /\ In d (definitions_of s m) /\ denotes m w d.

(** Parameters and locals: only a declaration with an identifier has a name. *)
Definition slot_name (d : elem) : option text :=
  if kind_eqb (ekind d) VAL_TYPE then None else option_map etext (token d IDENT).
Definition slot_has_name (x : text) (d : elem) : bool :=
  match slot_name d with Some y => text_eqb x y | None => false end.
Definition local_denotes (f : elem) (w : wref) (d : elem) : Prop :=
  match w with
  | Named x => In d (locals_space f) /\ slot_has_name x d = true
  | Numbered k => nth_error (locals_space f) (N.to_nat k) = Some d
  end.
(** The declaration that [w] means in [f]. *)
Definition local_target (f : elem) (w : wref) : option elem :=
  match w with
  | Named x => find (slot_has_name x) (locals_space f)
  | Numbered k => nth_error (locals_space f) (N.to_nat k)
  end.

(** The block that label [w] means among [bs], innermost first. *)
Definition label_target (bs : list elem) (w : wref) : option elem :=
  match w with
  | Named x => find (has_name x) bs
  | Numbered k => nth_error bs (N.to_nat k)
  end.
(** The innermost block around [n] and those that directly enclose it. *)
Definition direct_blocks (n : elem) : list elem :=
  match find is_block (ancestors n) with
  | Some b => while_block (ancestors b)
  | None => []
  end.
