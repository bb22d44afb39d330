(** Specification of name resolution, read off the syntax tree alone.
    Uses tree navigation ([Red.v], [Ast.v]) but nothing of the symbol table. *)

From Coq Require Import String List NArith Bool Arith Lia.
From Verif Require Import Text Kind Green Lexer Red Ast.
Import ListNotations.

(** Index spaces of a module. *)
Inductive sort : Type := FuncS | TypeS | GlobalS | MemS | TableS.
Definition sort_eq_dec (a b : sort) : {a = b} + {a <> b}.
Proof. decide equality. Defined.

(** Which index space a node adds an entry to. *)
Definition def_sort (d : elem) : option sort :=
  match ekind d with
  | MODULE_FIELD_FUNC | IMPORT_DESC_TYPE_USE => Some FuncS
  | MODULE_FIELD_TYPE => Some TypeS
  | MODULE_FIELD_GLOBAL | IMPORT_DESC_GLOBAL_TYPE => Some GlobalS
  | MODULE_FIELD_MEMORY | IMPORT_DESC_MEMORY_TYPE => Some MemS
  | MODULE_FIELD_TABLE | IMPORT_DESC_TABLE_TYPE => Some TableS
  | _ => None
  end.
Definition is_def (d : elem) : bool := match def_sort d with Some _ => true | None => false end.
Definition has_sort (s : sort) (d : elem) : bool :=
  match def_sort d with Some s' => if sort_eq_dec s s' then true else false | None => false end.

(** All definitions of a module, and those of one index space, in source
    order. *)
Definition definitions (m : elem) : list elem := filter is_def (descendants m).
Definition definitions_of (s : sort) (m : elem) : list elem := filter (has_sort s) (descendants m).

(** What a reference node asks for. *)
Inductive asked : Type := AModule (s : sort) | ALocal | ALabel.

Definition named_instr (p : elem) (l : list string) : Prop :=
  ekind p = PLAIN_INSTR /\ exists t, token p INSTR_NAME = Some t /\ In (etext t) (map T l).

Inductive Asks (n : elem) : asked -> Prop :=
| Asks_call p : parent n = Some p ->
    named_instr p ["call"; "ref.func"; "return_call"]%string -> Asks n (AModule FuncS)
| Asks_global p : parent n = Some p ->
    named_instr p ["global.get"; "global.set"]%string -> Asks n (AModule GlobalS)
| Asks_table p : parent n = Some p ->
    named_instr p ["table.get"; "table.set"; "table.size"; "table.grow"; "table.fill"; "table.copy"]%string ->
    Asks n (AModule TableS)
| Asks_init p r : parent n = Some p -> named_instr p ["table.init"%string] ->
    children p = n :: r -> Asks n (AModule TableS)
| Asks_local p : parent n = Some p ->
    named_instr p ["local.get"; "local.set"; "local.tee"]%string -> Asks n ALocal
| Asks_label p : parent n = Some p ->
    named_instr p ["br"; "br_if"; "br_table"]%string -> Asks n ALabel
| Asks_func_index p : parent n = Some p -> In (ekind p) [MODULE_FIELD_START; EXPORT_DESC_FUNC] ->
    child p INDEX = Some n -> Asks n (AModule FuncS)
| Asks_type_index p : parent n = Some p -> ekind p = TYPE_USE ->
    child p INDEX = Some n -> Asks n (AModule TypeS)
| Asks_mem_index p : parent n = Some p -> In (ekind p) [EXPORT_DESC_MEMORY; MEM_USE] ->
    child p INDEX = Some n -> Asks n (AModule MemS)
| Asks_table_index p : parent n = Some p -> ekind p = EXPORT_DESC_TABLE ->
    child p INDEX = Some n -> Asks n (AModule TableS).

(** How the reference is written. *)
Inductive wref : Type := Named (x : text) | Numbered (k : N).

(** [t] is a decimal number, with at most a plus sign before it, below 2^32. *)
Definition dec_val (ds : text) : N := fold_left (fun a c => (a * 10 + (c - 48))%N) ds 0%N.
Definition Decimal (t : text) (k : N) : Prop :=
  exists ds, (t = ds \/ t = 43%N :: ds) /\ ds <> []
    /\ Forall (fun c => (48 <= c <= 57)%N) ds /\ k = dec_val ds /\ (k < 4294967296)%N.

Inductive Written (n : elem) : wref -> Prop :=
| Written_name t : token n IDENT = Some t -> Written n (Named (etext t))
| Written_num t k : token n IDENT = None ->
    find (fun t => kind_eqb (ekind t) UNSIGNED_INT || kind_eqb (ekind t) INT) (tokens n) = Some t ->
    Decimal (etext t) k -> Written n (Numbered k).

(** [e] lies in module (function) [m]: [m] is its nearest ancestor of that
    kind. *)
Definition in_module (e m : elem) : Prop :=
  ekind m = MODULE /\ is_node m = true /\ Desc m e.
Definition in_func (e f : elem) : Prop :=
  ekind f = MODULE_FIELD_FUNC /\ is_node f = true /\ Desc f e.

(** The definitions a reference written [w] should resolve to among a list,
    when numbers are positions in [space]. *)
Definition has_name (x : text) (d : elem) : bool :=
  match token d IDENT with Some t => text_eqb (etext t) x | None => false end.

(** Parameters, then locals, of a function: one entry for a declaration with
    an identifier, otherwise one for each of its types. *)
Definition entries (d : elem) : list elem :=
  match token d IDENT with
  | Some _ => [d]
  | None => childs d VAL_TYPE
  end.
Definition locals_space (f : elem) : list elem :=
  match child f TYPE_USE with
  | Some tu => flat_map entries (childs tu PARAM)
  | None => []
  end ++ flat_map entries (childs f LOCAL).

(** Blocks: the nodes that declare a label. *)
Definition is_block (e : elem) : bool := existsb (kind_eqb (ekind e)) [BLOCK_BLOCK; BLOCK_LOOP; BLOCK_IF].

(** The blocks that enclose an element without any other node in between:
    starting at [b], while the node is a block. *)
Fixpoint while_block (l : list elem) : list elem :=
  match l with
  | [] => []
  | e :: r => if is_block e then e :: while_block r else []
  end.
(** All blocks enclosing an element, innermost first, as the language
    counts labels. *)
Definition enclosing_blocks (e : elem) : list elem := filter is_block (ancestors e).
