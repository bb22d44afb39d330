(** Syntax kinds: crates/syntax/src/kind.rs:5-78, in declaration order. *)

From Coq Require Import Bool NArith.

Inductive kind : Set :=
| WHITESPACE
| LINE_COMMENT
| BLOCK_COMMENT
| L_PAREN
| R_PAREN
| KEYWORD
| INSTR_NAME
| IDENT
| STRING
| INT
| UNSIGNED_INT
| FLOAT
| NUM_TYPE
| VEC_TYPE
| REF_TYPE
| HEAP_TYPE
| SHARE
| MEM_ARG
| ERROR
| MODULE_NAME
| NAME
| VAL_TYPE
| FUNC_TYPE
| PARAM
| RESULT
| TABLE_TYPE
| MEMORY_TYPE
| GLOBAL_TYPE
| BLOCK_TYPE
| PLAIN_INSTR
| BLOCK_BLOCK
| BLOCK_LOOP
| BLOCK_IF
| BLOCK_IF_THEN
| BLOCK_IF_ELSE
| OPERAND
| TYPE_USE
| LIMITS
| IMPORT
| EXPORT
| IMPORT_DESC_TYPE_USE
| IMPORT_DESC_TABLE_TYPE
| IMPORT_DESC_MEMORY_TYPE
| IMPORT_DESC_GLOBAL_TYPE
| EXPORT_DESC_FUNC
| EXPORT_DESC_TABLE
| EXPORT_DESC_MEMORY
| EXPORT_DESC_GLOBAL
| INDEX
| LOCAL
| MEM_USE
| OFFSET
| ELEM
| ELEM_LIST
| ELEM_EXPR
| TABLE_USE
| DATA
| MODULE
| MODULE_FIELD_DATA
| MODULE_FIELD_ELEM
| MODULE_FIELD_EXPORT
| MODULE_FIELD_FUNC
| MODULE_FIELD_GLOBAL
| MODULE_FIELD_IMPORT
| MODULE_FIELD_MEMORY
| MODULE_FIELD_START
| MODULE_FIELD_TABLE
| MODULE_FIELD_TYPE
| ROOT.

(** The [repr(u16)] discriminant (kind.rs:3, 80-84). *)
Definition kind_num (k : kind) : N :=
  match k with
  | WHITESPACE => 0%N
  | LINE_COMMENT => 1%N
  | BLOCK_COMMENT => 2%N
  | L_PAREN => 3%N
  | R_PAREN => 4%N
  | KEYWORD => 5%N
  | INSTR_NAME => 6%N
  | IDENT => 7%N
  | STRING => 8%N
  | INT => 9%N
  | UNSIGNED_INT => 10%N
  | FLOAT => 11%N
  | NUM_TYPE => 12%N
  | VEC_TYPE => 13%N
  | REF_TYPE => 14%N
  | HEAP_TYPE => 15%N
  | SHARE => 16%N
  | MEM_ARG => 17%N
  | ERROR => 18%N
  | MODULE_NAME => 19%N
  | NAME => 20%N
  | VAL_TYPE => 21%N
  | FUNC_TYPE => 22%N
  | PARAM => 23%N
  | RESULT => 24%N
  | TABLE_TYPE => 25%N
  | MEMORY_TYPE => 26%N
  | GLOBAL_TYPE => 27%N
  | BLOCK_TYPE => 28%N
  | PLAIN_INSTR => 29%N
  | BLOCK_BLOCK => 30%N
  | BLOCK_LOOP => 31%N
  | BLOCK_IF => 32%N
  | BLOCK_IF_THEN => 33%N
  | BLOCK_IF_ELSE => 34%N
  | OPERAND => 35%N
  | TYPE_USE => 36%N
  | LIMITS => 37%N
  | IMPORT => 38%N
  | EXPORT => 39%N
  | IMPORT_DESC_TYPE_USE => 40%N
  | IMPORT_DESC_TABLE_TYPE => 41%N
  | IMPORT_DESC_MEMORY_TYPE => 42%N
  | IMPORT_DESC_GLOBAL_TYPE => 43%N
  | EXPORT_DESC_FUNC => 44%N
  | EXPORT_DESC_TABLE => 45%N
  | EXPORT_DESC_MEMORY => 46%N
  | EXPORT_DESC_GLOBAL => 47%N
  | INDEX => 48%N
  | LOCAL => 49%N
  | MEM_USE => 50%N
  | OFFSET => 51%N
  | ELEM => 52%N
  | ELEM_LIST => 53%N
  | ELEM_EXPR => 54%N
  | TABLE_USE => 55%N
  | DATA => 56%N
  | MODULE => 57%N
  | MODULE_FIELD_DATA => 58%N
  | MODULE_FIELD_ELEM => 59%N
  | MODULE_FIELD_EXPORT => 60%N
  | MODULE_FIELD_FUNC => 61%N
  | MODULE_FIELD_GLOBAL => 62%N
  | MODULE_FIELD_IMPORT => 63%N
  | MODULE_FIELD_MEMORY => 64%N
  | MODULE_FIELD_START => 65%N
  | MODULE_FIELD_TABLE => 66%N
  | MODULE_FIELD_TYPE => 67%N
  | ROOT => 68%N
  end.

Definition kind_eqb (a b : kind) : bool := N.eqb (kind_num a) (kind_num b).

Lemma kind_num_inj a b : kind_num a = kind_num b -> a = b.
Proof. destruct a; cbv; destruct b; congruence. Qed.

Lemma kind_eqb_spec a b : reflect (a = b) (kind_eqb a b).
Proof.
  unfold kind_eqb. destruct (N.eqb_spec (kind_num a) (kind_num b)) as [H|H]; constructor.
  - now apply kind_num_inj.
  - congruence.
Qed.

Lemma kind_eqb_eq a b : kind_eqb a b = true <-> a = b.
Proof. destruct (kind_eqb_spec a b); split; congruence. Qed.

Lemma kind_eqb_refl a : kind_eqb a a = true.
Proof. now apply kind_eqb_eq. Qed.

(** Token kinds come first in the enumeration (kind.rs:6-25). *)
Definition is_token_kind (k : kind) : bool := N.leb (kind_num k) (kind_num ERROR).

(** [is_trivia] and [is_punc], crates/syntax/src/lib.rs:30-41. *)
Definition is_trivia_kind (k : kind) : bool :=
  match k with WHITESPACE | LINE_COMMENT | BLOCK_COMMENT => true | _ => false end.
Definition is_punc_kind (k : kind) : bool :=
  match k with L_PAREN | R_PAREN => true | _ => false end.
