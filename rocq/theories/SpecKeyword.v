(** Which keywords and instructions may follow an opening parenthesis (C36). *)

From Coq Require Import String List NArith Bool.
From Verif Require Import Text Kind Green SpecSyntax Red Cursor Hover Completion SpecCompletion.
Import ListNotations.

(** ** From the productions *)

(** The production of [k] has a form in parentheses that starts with the
    keyword [w]. *)
Definition Opens (k : kind) (w : string) : Prop :=
  exists r, Mentions (Sq lp (Sq (Kw w) r)) (production k).
Definition an_instr (k : kind) : Prop := In k [PLAIN_INSTR; BLOCK_BLOCK; BLOCK_IF; BLOCK_LOOP].
(** [w] starts a form, not an instruction, that stands directly inside [k]. A
    type use and a list of elements have no parentheses of their own. *)
Inductive Inner (k : kind) (w : string) : Prop :=
| Inner_part k' : Mentions (Nd k') (production k) -> ~ an_instr k' -> Opens k' w -> Inner k w
| Inner_list k' k'' : k' = TYPE_USE \/ k' = ELEM_LIST -> Mentions (Nd k') (production k) ->
    Mentions (Nd k'') (production k') -> ~ an_instr k'' -> Opens k'' w -> Inner k w.

(** ** The cursor after an opening parenthesis *)

Definition OpenParen (t : elem) : Prop := ekind t = L_PAREN \/ ekind t = ERROR /\ etext t = Text.T "(".
(** The token is the opening parenthesis, or the first thing after it that is
    not white space or a comment. *)
Definition AfterParen (t : elem) : Prop :=
  OpenParen t
  \/ exists l q r, prev_siblings t = l ++ q :: r /\ Forall (fun e => is_trivia e = true) l
       /\ is_node q = false /\ OpenParen q.
(** As before, but forms may stand between. *)
Definition BehindParen (t : elem) : Prop :=
  OpenParen t
  \/ exists l q r, prev_siblings t = l ++ q :: r /\ Forall (fun e => is_trivia e = true \/ is_node e = true) l
       /\ is_node q = false /\ OpenParen q.

(** ** Where keywords are completed *)

(** In a function before its first instruction; in a global before its type;
    anywhere in the other forms listed. *)
Definition Completes (t p : elem) : Prop :=
  match ekind p with
  | ROOT | MODULE | MODULE_FIELD_TYPE | FUNC_TYPE | MODULE_FIELD_IMPORT | MODULE_FIELD_EXPORT | MODULE_FIELD_TABLE
  | MODULE_FIELD_MEMORY | MODULE_FIELD_DATA | IMPORT_DESC_TYPE_USE | IMPORT_DESC_GLOBAL_TYPE | ELEM | ELEM_LIST => True
  | MODULE_FIELD_FUNC => forall e, In e (prev_siblings t) -> ~ an_instr (ekind e)
  | MODULE_FIELD_GLOBAL => forall g, In g (children p) -> ekind g <> GLOBAL_TYPE
  | _ => False
  end.
(** Where instructions are: in a function not before a part of its header, in
    a global after its type, in a data segment, an element, an offset. *)
Definition Instructs (t p : elem) : Prop :=
  match ekind p with
  | MODULE_FIELD_FUNC => forall e, In e (next_siblings t) -> is_node e = true -> an_instr (ekind e)
  | MODULE_FIELD_GLOBAL => exists g, In g (children p) /\ ekind g = GLOBAL_TYPE
  | MODULE_FIELD_DATA | MODULE_FIELD_ELEM | ELEM | ELEM_LIST | ELEM_EXPR | OFFSET => True
  | _ => False
  end.
Definition keyword (w : string) : item := mk_item (Text.T w) None IKeyword None None.
Definition operator (w : string) : item := mk_item (Text.T w) None IOperator None None.
