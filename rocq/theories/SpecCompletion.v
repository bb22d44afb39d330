(** Specification of completion: what a position asks for, and which names
    may be offered there. *)

From Coq Require Import String List NArith Bool Arith Lia.
From Verif Require Import Text Kind Green SpecParser SpecSyntax Lexer Red LineIndex Cursor ThmPos Doc Ast SpecBinder NavSpec InstrMeta
  Types SpecTypes SpecHeader Hover SpecHover Nav InstrNames Completion.
Import ListNotations.

(** ** The token before the cursor *)

(** [t] is the token the cursor is in; between two tokens, the left one. *)
Definition CursorAfter (src : text) (pos : lsp_pos) (t : elem) : Prop :=
  exists x, offset (new_line_index src) pos = Some x /\ x <= tlen (gtext (tree_of src))
    /\ Touch (tree_of src) x t /\ forall t', Touch (tree_of src) x t' -> estart t <= estart t'.

(** ** What the position asks for *)

(** Instructions and the index their operands are. *)
Definition operand_sorts : list (list string * asked) :=
  [ (["call"; "ref.func"; "return_call"]%string, AModule FuncS)
  ; (["global.get"; "global.set"]%string, AModule GlobalS)
  ; (["table.get"; "table.set"; "table.size"; "table.grow"; "table.fill"; "table.copy"; "table.init"]%string, AModule TableS)
  ; (["local.get"; "local.set"; "local.tee"]%string, ALocal)
  ; (["br"; "br_if"; "br_table"]%string, ALabel) ].
(** Forms whose only operand is an index. *)
Definition form_sorts : list (kind * sort) :=
  [ (MODULE_FIELD_START, FuncS); (EXPORT_DESC_FUNC, FuncS); (TYPE_USE, TypeS); (EXPORT_DESC_GLOBAL, GlobalS)
  ; (EXPORT_DESC_MEMORY, MemS); (MEM_USE, MemS); (EXPORT_DESC_TABLE, TableS); (TABLE_USE, TableS) ].

(** The token is in a reference, or between the name of an instruction (the
    keyword of a form) and the reference to come. *)
Inductive AsksAt (t : elem) : asked -> Prop :=
| At_reference n a : parent t = Some n -> Asks n a ->
    (forall p, parent n = Some p -> ekind p <> MEM_USE) -> AsksAt t a
| At_export_global n p : parent t = Some n -> ekind n = INDEX -> parent n = Some p -> ekind p = EXPORT_DESC_GLOBAL ->
    AsksAt t (AModule GlobalS)
| At_instr p l a : parent t = Some p -> ekind t <> INSTR_NAME -> named_instr p l -> In (l, a) operand_sorts -> AsksAt t a
| At_form p s : parent t = Some p -> In (ekind p, s) form_sorts -> AsksAt t (AModule s).

(** ** The names in scope *)

Fixpoint numbered (i : N) (l : list elem) : list (N * elem) :=
  match l with
  | [] => []
  | d :: r => (i, d) :: numbered (i + 1) r
  end.
(** The definitions of the asked sort in the enclosing module, numbered among
    all definitions of the module; the parameters and locals of the enclosing
    function; the blocks around the token, from the inside out. *)
Inductive InScopeAt (src : text) (t : elem) : asked -> list (N * elem) -> Prop :=
| Scope_module s m : in_module t m -> InTree (tree_of src) m ->
    InScopeAt src t (AModule s) (filter (fun p => has_sort s (snd p)) (numbered 0 (definitions m)))
| Scope_func f : in_func t f -> InTree (tree_of src) f -> InScopeAt src t ALocal (numbered 0 (locals_space f))
| Scope_no_func : (forall f, in_func t f -> ~ InTree (tree_of src) f) -> InScopeAt src t ALocal []
| Scope_label : InScopeAt src t ALabel (numbered 0 (enclosing_blocks t)).

(** ** How a name is offered *)

Definition named_entry (p : N * elem) : bool := match token (snd p) IDENT with Some _ => true | None => false end.
(** The decimal digits of a number, without leading zeros. *)
Definition Digits10 (k : N) (x : text) : Prop :=
  x <> [] /\ Forall (fun c => (48 <= c <= 57)%N) x /\ dec_val x = k /\ (forall r, x = 48%N :: r -> r = []).
(** After a dollar sign names are inserted without theirs; otherwise names as
    they are written, and numbers where there is no name. *)
Definition Labelled (dollar : bool) (p : N * elem) (it : item) : Prop :=
  match token (snd p) IDENT with
  | Some i => c_label it = etext i
      /\ (if dollar then exists r, etext i = 36%N :: r /\ c_insert it = Some r else c_insert it = None)
  | None => dollar = false /\ Digits10 (fst p) (c_label it) /\ c_insert it = None
  end.
Definition slot_value (d : elem) : option elem :=
  if kind_eqb (ekind d) VAL_TYPE then Some d else hd_error (childs d VAL_TYPE).
Definition global_value (d : elem) : option elem :=
  match child d GLOBAL_TYPE with Some g => hd_error (childs g VAL_TYPE) | None => None end.
Definition Offered (src : text) (dollar : bool) (a : asked) (p : N * elem) (it : item) : Prop :=
  Labelled dollar p it
  /\ match a with
     | AModule FuncS => c_kind it = IFunction /\ c_detail it = None
         /\ exists h, Header src (snd p) h /\ c_doc it = Some (code_block h)
     | AModule TypeS => c_kind it = IInterface /\ c_detail it = None /\ c_doc it = None
     | AModule GlobalS => c_kind it = IVariable /\ c_detail it = option_map etext (global_value (snd p)) /\ c_doc it = None
     | ALocal => c_kind it = IVariable /\ c_detail it = option_map etext (slot_value (snd p)) /\ c_doc it = None
     | _ => c_kind it = IVariable /\ c_detail it = None /\ c_doc it = None
     end.
(** The token starts with a dollar sign. *)
Definition at_dollar (t : elem) : bool := match etext t with c :: _ => N.eqb c 36 | [] => false end.

(** The item offers a name that is in scope at the token. *)
Definition InScopeItem (src : text) (t : elem) (it : item) : Prop :=
  exists a l p, InScopeAt src t a l /\ In p l /\ Offered src (at_dollar t) a p it.

(** Items that are not names. *)
Inductive Word : item -> Prop :=
| Word_instr s : In s instr_names -> Word (mk_item (T s) None IOperator None None)
| Word_type s : In s ["i32"; "i64"; "f32"; "f64"; "v128"; "funcref"; "externref"]%string ->
    Word (mk_item (T s) None IClass None (value_type_doc (T s)))
| Word_arg s : In s ["offset="; "align="]%string -> Word (mk_item (T s) None ISnippet None None)
| Word_keyword s : In s keywords -> Word (mk_item (T s) None IKeyword None None).

(** ** Keywords *)

(** [a] occurs in the expression. *)
Fixpoint Mentions (a r : rx) : Prop :=
  r = a \/ match r with
           | Sq x y | Or x y => Mentions a x \/ Mentions a y
           | Star x => Mentions a x
           | _ => False
           end.
(** The keyword belongs to the form, or to one of its parts; the parts of a
    type use and of a list of elements count as parts of the form around it,
    since they are not in parentheses of their own. *)
Inductive May (k : kind) (w : string) : Prop :=
| May_self : Mentions (Kw w) (production k) -> May k w
| May_part k' : Mentions (Nd k') (production k) -> Mentions (Kw w) (production k') -> May k w
| May_list k' k'' : k' = TYPE_USE \/ k' = ELEM_LIST -> Mentions (Nd k') (production k) ->
    Mentions (Nd k'') (production k') -> Mentions (Kw w) (production k'') -> May k w.
