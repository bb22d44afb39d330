(** Specification of semantic tokens: the encoding of the protocol, and which
    tokens of a document get which type. *)

From Coq Require Import String List NArith ZArith Bool Arith Lia.
From Verif Require Import Text Kind Green Lexer Red LineIndex Cursor Doc Ast Binder SpecBinder NavSpec Nav SemTok.
Import ListNotations.

(** ** The encoding of the protocol: every token is given relative to the one
    before it, the column only when both are on the same line. *)
Record placed : Type := mk_placed { pl_line : nat; pl_col : Z; pl_len : nat; pl_type : nat }.
Fixpoint decode (line : nat) (col : Z) (l : list semtok) : list placed :=
  match l with
  | [] => []
  | s :: r =>
      let line' := line + st_line s in
      let col' := if Nat.eqb (st_line s) 0 then (col + st_start s)%Z else st_start s in
      mk_placed line' col' (st_length s) (st_type s) :: decode line' col' r
  end.

(** ** The type of a token *)

(** [g] calls or names a function: a call instruction, a start field, an
    exported function. *)
Definition FuncPlace (g : elem) : Prop :=
  (exists i, In i (children_with_tokens g) /\ is_node i = false /\ ekind i = INSTR_NAME
     /\ In (etext i) (map T ["call"; "ref.func"; "return_call"]%string))
  \/ ekind g = MODULE_FIELD_START \/ ekind g = EXPORT_DESC_FUNC.
Definition InFuncPlace (t : elem) : Prop := exists p g, parent t = Some p /\ parent p = Some g /\ FuncPlace g.
(** [n] refers to a parameter of the function around it. *)
Definition RefersToParam (src : text) (n : elem) : Prop :=
  exists w f d, Asks n ALocal /\ Written n w /\ in_func n f /\ InTree (tree_of src) f
    /\ local_target f w = Some d /\ In d (match child f TYPE_USE with Some tu => flat_map entries (childs tu PARAM) | None => [] end).
Definition InLocalInstr (t : elem) : Prop :=
  exists p g i x, parent t = Some p /\ parent p = Some g /\ token g INSTR_NAME = Some i /\ etext i = T "local." ++ x.

Inductive Class (src : text) (t : elem) : tkind -> Prop :=
| Class_type : In (ekind t) [NUM_TYPE; VEC_TYPE; REF_TYPE] -> Class src t TkType
| Class_keyword : ekind t = KEYWORD -> Class src t TkKeyword
| Class_string : ekind t = STRING -> Class src t TkString
| Class_comment : In (ekind t) [LINE_COMMENT; BLOCK_COMMENT] -> Class src t TkComment
| Class_op : ekind t = INSTR_NAME -> Class src t TkOp
| Class_float : ekind t = FLOAT -> Class src t TkNumber
(* identifiers *)
| Class_name_func : ekind t = IDENT ->
    InFuncPlace t \/ (exists p, parent t = Some p /\ ekind p = MODULE_FIELD_FUNC) -> Class src t TkFunc
| Class_name_param p : ekind t = IDENT -> parent t = Some p -> ~ InFuncPlace t -> ekind p <> MODULE_FIELD_FUNC ->
    ekind p = PARAM \/ RefersToParam src p -> Class src t TkParam
| Class_name_var p : ekind t = IDENT -> parent t = Some p -> ~ InFuncPlace t -> ekind p <> MODULE_FIELD_FUNC ->
    ekind p <> PARAM -> ~ RefersToParam src p -> Class src t TkVar
(* integers *)
| Class_index_func : In (ekind t) [INT; UNSIGNED_INT] -> InFuncPlace t -> Class src t TkFunc
| Class_index_param p : In (ekind t) [INT; UNSIGNED_INT] -> parent t = Some p -> ~ InFuncPlace t -> InLocalInstr t ->
    RefersToParam src p -> Class src t TkParam
| Class_index_var p : In (ekind t) [INT; UNSIGNED_INT] -> parent t = Some p -> ~ InFuncPlace t -> InLocalInstr t ->
    ~ RefersToParam src p -> Class src t TkVar
| Class_number : In (ekind t) [INT; UNSIGNED_INT] -> ~ InFuncPlace t -> ~ InLocalInstr t -> Class src t TkNumber.

(** ** What a client sees *)

(** The legend tells the client which index means which type. *)
Definition Highlighted (types : list string) (src : text) (t : elem) : Prop :=
  exists k, Class src t k /\ In (tkind_name k) types.
(** [q] is the token [t], its column less [shift]. *)
Definition Placed (types : list string) (src : text) (shift : nat -> nat) (t : elem) (q : placed) : Prop :=
  exists k line col, Class src t k /\ line_col (new_line_index src) (estart t) = Some (line, col)
    /\ pl_line q = line /\ pl_col q = (Z.of_nat col - Z.of_nat (shift line))%Z
    /\ pl_len q = tlen (etext t)
    /\ nth_error (legend types) (pl_type q) = Some (tkind_name k).

(** [l'] is [l] without the elements that are not [P]. *)
Inductive Keeps {A} (P : A -> Prop) : list A -> list A -> Prop :=
| Keeps_nil : Keeps P [] []
| Keeps_in x l l' : P x -> Keeps P l l' -> Keeps P (x :: l) (x :: l')
| Keeps_out x l l' : ~ P x -> Keeps P l l' -> Keeps P (x :: l) l'.

(** The tokens of a document, in order. *)
Definition tokens (src : text) : list elem :=
  filter (fun e => negb (is_node e)) (descendants_with_tokens (root_of (tree_of src))).

(** Line feeds are only where the encoder counts them: in white space, and in
    comments if the client knows comments. *)
Definition Counted (types : list string) (src : text) : Prop :=
  (forall t, In t (tokens src) -> In (ekind t) [STRING; ERROR] -> ~ In LF (etext t))
  /\ (In "comment"%string types \/ forall t, In t (tokens src) -> ekind t = BLOCK_COMMENT -> ~ In LF (etext t)).
