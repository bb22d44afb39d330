(** Specification of a class of well-formed documents with their trees: a
    grammar of the WebAssembly text format in which white space and comments
    are explicit, and the rules that keep neighbouring tokens apart.  Nothing
    here refers to the parser. *)

From Coq Require Import String List NArith Bool.
From Verif Require Import Text Kind Green SpecParser.
Import ListNotations.
Local Open Scope list_scope.

(** ** Grammar expressions *)

(** Three classes of instructions: all of them, those in parentheses, and
    those in parentheses that are no blocks. *)
Inductive iclass : Set := IAny | IFold | IPlain.

Inductive rx : Type :=
| Kw (s : string)          (* the keyword [s] *)
| Tk (k : kind)            (* a token of kind [k] *)
| Float (named : bool)     (* a float token: [inf] and [nan] forms, or with digits *)
| Nd (k : kind) (e : rx)   (* a node of kind [k] with children [e] *)
| Loose (k : kind) (e : rx)(* the same; spacing in front belongs to the node *)
| Ins (i : iclass)         (* an instruction *)
| Eps
| Sq (a b : rx)
| Or (a b : rx)
| Star (a : rx).

Definition Opt (a : rx) : rx := Or a Eps.
Fixpoint seq (l : list rx) : rx :=
  match l with [] => Eps | [a] => a | a :: r => Sq a (seq r) end.
Fixpoint one_of (l : list rx) : rx :=
  match l with [] => Eps | [a] => a | a :: r => Or a (one_of r) end.
Definition Plus (a : rx) : rx := Sq a (Star a).

(** ** The grammar *)

Definition lp : rx := Tk L_PAREN.
Definition rp : rx := Tk R_PAREN.
Definition id_opt : rx := Opt (Tk IDENT).
(** [( keyword ... )] *)
Definition form (kw : string) (l : list rx) : rx := seq (lp :: Kw kw :: l ++ [rp]).

(** Types. *)
Definition VAL : rx := Nd VAL_TYPE (one_of [Tk NUM_TYPE; Tk VEC_TYPE; Tk REF_TYPE]).
Definition VALS : rx := Or (Sq (Tk IDENT) VAL) (Star VAL).
Definition PAR : rx := Nd PARAM (form "param" [VALS]).
Definition RES : rx := Nd RESULT (form "result" [Star VAL]).
Definition FUNCTY : rx := Nd FUNC_TYPE (form "func" [Star PAR; Star RES]).
Definition LIM : rx := Nd LIMITS (seq [Tk UNSIGNED_INT; Opt (Tk UNSIGNED_INT); Opt (Tk SHARE)]).
Definition TABLETY : rx := Nd TABLE_TYPE (Sq LIM (Tk REF_TYPE)).
Definition MEMTY : rx := Nd MEMORY_TYPE LIM.
Definition GLOBALTY : rx := Or (Nd GLOBAL_TYPE VAL) (Nd GLOBAL_TYPE (form "mut" [VAL])).

(** References. *)
Definition IDX : rx := Nd INDEX (Or (Tk IDENT) (Tk UNSIGNED_INT)).
Definition USE_TYPE : rx :=
  Nd TYPE_USE (seq [lp; Kw "type"; IDX; rp; Star PAR; Star RES]).
Definition USE_PARAMS : rx := Nd TYPE_USE (Sq (Plus PAR) (Star RES)).
Definition USE_RESULTS : rx := Nd TYPE_USE (Plus RES).
Definition USE : rx := one_of [USE_TYPE; USE_PARAMS; USE_RESULTS].

(** Instructions.  A block type is one result, or a type use that does not
    start with a result. *)
Definition BLOCKTY : rx := Or (Nd BLOCK_TYPE RES) (Nd BLOCK_TYPE (Or USE_TYPE USE_PARAMS)).
Definition block_open (k : kind) (kw : string) : rx :=
  Nd k (seq [Kw kw; id_opt; Opt BLOCKTY; Star (Ins IAny); Kw "end"; id_opt]).
Definition block_fold (k : kind) (kw : string) : rx :=
  Nd k (seq [lp; Kw kw; id_opt; Opt BLOCKTY; Star (Ins IAny); rp; id_opt]).
Definition if_open : rx :=
  Nd BLOCK_IF (seq
    [ Kw "if"; id_opt; Opt BLOCKTY
    ; Loose BLOCK_IF_THEN (Star (Ins IAny))
    ; Opt (Nd BLOCK_IF_ELSE (seq [Kw "else"; id_opt; Star (Ins IAny)]))
    ; Kw "end"; id_opt ]).
Definition if_fold : rx :=
  Nd BLOCK_IF (seq
    [ lp; Kw "if"; id_opt; Opt BLOCKTY
    ; Sq (Star (Ins IAny)) (Nd BLOCK_IF_THEN (form "then" [Star (Ins IAny)]))
    ; Opt (Nd BLOCK_IF_ELSE (form "else" [Star (Ins IAny)]))
    ; rp ]).
(** Immediate operands: numbers, strings, names, type uses, [offset=] and
    [align=], heap types. *)
Definition IMM : rx :=
  Nd OPERAND (one_of
    [ Or (Tk INT) (Float false); Float true; Tk STRING; Tk IDENT; USE_TYPE; Tk MEM_ARG; Tk HEAP_TYPE ]).
Definition ARG : rx := Nd OPERAND (Ins IFold).
Definition plain_fold : rx :=
  Nd PLAIN_INSTR (seq [lp; Tk INSTR_NAME; Sq (Star IMM) (Star ARG); rp]).
Definition plain_open : rx := Nd PLAIN_INSTR (Sq (Tk INSTR_NAME) (Star IMM)).

Definition instr_rx (i : iclass) : rx :=
  match i with
  | IAny =>
      Or (one_of [ Or if_open if_fold
                 ; Or (block_open BLOCK_LOOP "loop") (block_fold BLOCK_LOOP "loop")
                 ; Or (block_open BLOCK_BLOCK "block") (block_fold BLOCK_BLOCK "block") ])
         (Or plain_fold plain_open)
  | IFold =>
      Or (one_of [if_fold; block_fold BLOCK_LOOP "loop"; block_fold BLOCK_BLOCK "block"]) plain_fold
  | IPlain => plain_fold
  end.

(** Module fields. *)
Definition IMPORT_ : rx := Nd IMPORT (form "import" [Nd MODULE_NAME (Tk STRING); Nd NAME (Tk STRING)]).
Definition EXPORT_ : rx := Nd EXPORT (form "export" [Nd NAME (Tk STRING)]).
Definition LOCAL_ : rx := Nd LOCAL (form "local" [VALS]).
Definition OFFSET_ : rx :=
  Or (Nd OFFSET (form "offset" [Star (Ins IAny)])) (Nd OFFSET (Ins IPlain)).
Definition EXPR : rx :=
  Or (Nd ELEM_EXPR (form "item" [Star (Ins IAny)])) (Nd ELEM_EXPR (Ins IFold)).
Definition ELEMS : rx :=
  Or (Nd ELEM_LIST (Sq (Or (Kw "func") IDX) (Star IDX)))
     (Nd ELEM_LIST (Sq (Tk REF_TYPE) (Star EXPR))).
(** The same, not starting with an index: without an offset in front, a name
    is the name of the segment. *)
Definition ELEMS_KIND : rx :=
  Or (Nd ELEM_LIST (Sq (Kw "func") (Star IDX))) (Nd ELEM_LIST (Sq (Tk REF_TYPE) (Star EXPR))).
Definition FUNC : rx :=
  Nd MODULE_FIELD_FUNC
    (form "func" [id_opt; Star (Or IMPORT_ EXPORT_); Opt USE; Star LOCAL_; Star (Ins IAny)]).
Definition TYPE : rx := Nd MODULE_FIELD_TYPE (form "type" [id_opt; FUNCTY]).
Definition GLOBAL : rx :=
  Nd MODULE_FIELD_GLOBAL
    (form "global" [id_opt; Opt IMPORT_; Opt EXPORT_; GLOBALTY; Star (Ins IAny)]).
Definition MEMORY : rx :=
  Nd MODULE_FIELD_MEMORY
    (form "memory" [id_opt; Opt IMPORT_; Opt EXPORT_;
                    Or (Nd DATA (form "data" [Star (Tk STRING)])) MEMTY]).
Definition TABLE : rx :=
  Nd MODULE_FIELD_TABLE
    (form "table" [id_opt; Opt IMPORT_; Opt EXPORT_;
                   Or (Sq (Tk REF_TYPE)
                          (Nd ELEM (form "elem" [Or (Plus EXPR) (Or Eps (Plus IDX))])))
                      TABLETY]).
Definition DESC (k : kind) (kw : string) (e : rx) : rx := Nd k (form kw [id_opt; e]).
Definition FIELD_IMPORT : rx :=
  Nd MODULE_FIELD_IMPORT
    (form "import" [Nd MODULE_NAME (Tk STRING); Nd NAME (Tk STRING); one_of
      [ DESC IMPORT_DESC_TYPE_USE "func" (Opt USE)
      ; DESC IMPORT_DESC_GLOBAL_TYPE "global" GLOBALTY
      ; DESC IMPORT_DESC_MEMORY_TYPE "memory" MEMTY
      ; DESC IMPORT_DESC_TABLE_TYPE "table" TABLETY ]]).
Definition FIELD_EXPORT : rx :=
  Nd MODULE_FIELD_EXPORT
    (form "export" [Nd NAME (Tk STRING); one_of
      [ Nd EXPORT_DESC_FUNC (form "func" [IDX]); Nd EXPORT_DESC_TABLE (form "table" [IDX])
      ; Nd EXPORT_DESC_MEMORY (form "memory" [IDX]); Nd EXPORT_DESC_GLOBAL (form "global" [IDX]) ]]).
Definition START : rx := Nd MODULE_FIELD_START (form "start" [IDX]).
Definition FIELD_DATA : rx :=
  Nd MODULE_FIELD_DATA
    (form "data" [id_opt; Opt (Nd MEM_USE (form "memory" [IDX])); Opt OFFSET_; Star (Tk STRING)]).
Definition FIELD_ELEM : rx :=
  Nd MODULE_FIELD_ELEM
    (form "elem" [id_opt; one_of
      [ Sq (Kw "declare") ELEMS; ELEMS_KIND
      ; seq [Opt (Nd TABLE_USE (form "table" [IDX])); OFFSET_; Opt ELEMS] ]]).
Definition FIELD : rx :=
  one_of [FUNC; TYPE; FIELD_EXPORT; FIELD_IMPORT; START; FIELD_DATA; TABLE; MEMORY; GLOBAL; FIELD_ELEM].
Definition MODULE_ : rx := Nd MODULE (form "module" [id_opt; Star FIELD]).

(** ** Trees written in the grammar *)

Definition Trivia (l : list green) : Prop :=
  Forall (fun g => match g with Tok k _ => is_trivia_kind k = true | Node _ _ => False end) l.
(** The first child is not white space and not a comment. *)
Definition Tight (l : list green) : Prop :=
  match l with Tok k _ :: _ => is_trivia_kind k = false | _ => True end.

Definition starts_alpha (t : text) : bool :=
  match t with c :: _ => is_ascii_lowercase c | [] => false end.

(** [Reads e l]: the children [l] are written as [e] says; any white space
    and comments may stand in front of each token and node. *)
Inductive Reads : rx -> list green -> Prop :=
| R_Kw s tr : Trivia tr -> Reads (Kw s) (tr ++ [Tok KEYWORD (T s)])
| R_Tk k t tr : Trivia tr -> is_trivia_kind k = false -> Reads (Tk k) (tr ++ [Tok k t])
| R_Float b t tr : Trivia tr -> starts_alpha t = b -> Reads (Float b) (tr ++ [Tok FLOAT t])
| R_Nd k e cs tr : Trivia tr -> Reads e cs -> Tight cs -> Reads (Nd k e) (tr ++ [Node k cs])
| R_Loose k e cs : Reads e cs -> Reads (Loose k e) [Node k cs]
| R_Ins i l : Reads (instr_rx i) l -> Reads (Ins i) l
| R_Eps : Reads Eps []
| R_Sq a b l m : Reads a l -> Reads b m -> Reads (Sq a b) (l ++ m)
| R_OrL a b l : Reads a l -> Reads (Or a b) l
| R_OrR a b l : Reads b l -> Reads (Or a b) l
| R_Star0 a : Reads (Star a) []
| R_StarS a l m : Reads a l -> Reads (Star a) m -> Reads (Star a) (l ++ m).

(** ** Tokens *)

Definition texts (ts : list (kind * text)) : text := concat (map snd ts).

(** Words with a meaning of their own. *)
Definition reserved : list string :=
  keywords ++ ["i32"; "i64"; "f32"; "f64"; "v128"; "funcref"; "externref"; "extern"; "shared"; "unshared"]%string.

Definition Prefix (p t : text) : Prop := exists r, t = p ++ r.

(** The form of a token: the lexical form of its kind, where strings are
    closed, floats are not integers, underscores in floats stand in front of
    digits, and instruction names are no reserved words and no beginnings of
    other operands. *)
Definition TokenForm (k : kind) (t : text) : Prop :=
  LexForm k t /\
  match k with
  | STRING => exists b, StrBody b /\ t = [c_quote] ++ b ++ [c_quote]
  | FLOAT =>
      ~ LexForm INT t
      /\ forall p r, t = p ++ c_underscore :: r -> exists d r', r = d :: r' /\ is_ascii_digit d = true
  | INSTR_NAME =>
      ~ In t (map T reserved)
      /\ forall p, In p ["inf"; "nan"; "offset="; "align="]%string -> ~ Prefix (T p) t
  | ERROR => False
  | _ => True
  end.

(** What may follow a token: words, names and numbers end where no
    identifier character follows; a parenthesis and a semicolon would open a
    comment; white space is one token; line comments reach to the end of the
    line. *)
Definition Follows (k : kind) (r : text) : Prop :=
  match k with
  | STRING | BLOCK_COMMENT | R_PAREN => True
  | L_PAREN => ~ Prefix [c_semi] r
  | WHITESPACE => forall c x, r = c :: x -> ~ In c (T " " ++ [c_tab; c_lf; c_cr])
  | LINE_COMMENT => r = [] \/ Prefix [c_lf] r \/ Prefix [c_cr; c_lf] r
  | _ => forall c x, r = c :: x -> is_id_char c = false
  end.

Fixpoint Separated (ts : list (kind * text)) : Prop :=
  match ts with
  | [] => True
  | (k, t) :: r => TokenForm k t /\ Follows k (texts r) /\ Separated r
  end.

(** ** Documents: modules, with white space and comments around them. *)
Definition Document (tree : green) : Prop :=
  exists ms tl, tree = Node ROOT (ms ++ tl) /\ Reads (Star MODULE_) ms /\ Trivia tl
    /\ Separated (gtokens tree).
