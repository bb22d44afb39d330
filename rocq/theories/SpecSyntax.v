(** Specification of the concrete syntax of WebAssembly text documents, as a
    table of productions: for every kind of node the possible sequences of
    its children, white space and comments left out.  Nothing here refers to
    the parser; the productions are written from the grammar of the
    WebAssembly text format restricted to the node kinds of the tree. *)

From Coq Require Import String List NArith Bool.
From Verif Require Import Text Kind Green SpecParser.
Import ListNotations.
Local Open Scope string_scope.

(** ** Regular expressions over children *)

Inductive rx : Type :=
| Kw (s : string)          (* the keyword [s] *)
| Tk (k : kind)            (* a token of kind [k] *)
| Nd (k : kind)            (* a node of kind [k] *)
| Eps
| Sq (a b : rx)
| Or (a b : rx)
| Star (a : rx).

Inductive Matches : rx -> list green -> Prop :=
| M_Kw s : Matches (Kw s) [Tok KEYWORD (T s)]
| M_Tk k t : Matches (Tk k) [Tok k t]
| M_Nd k cs : Matches (Nd k) [Node k cs]
| M_Eps : Matches Eps []
| M_Sq a b l m : Matches a l -> Matches b m -> Matches (Sq a b) (l ++ m)
| M_OrL a b l : Matches a l -> Matches (Or a b) l
| M_OrR a b l : Matches b l -> Matches (Or a b) l
| M_Star0 a : Matches (Star a) []
| M_StarS a l m : Matches a l -> Matches (Star a) m -> Matches (Star a) (l ++ m).

Definition Opt (a : rx) : rx := Or a Eps.
Definition Plus (a : rx) : rx := Sq a (Star a).
Fixpoint seq (l : list rx) : rx :=
  match l with [] => Eps | [a] => a | a :: r => Sq a (seq r) end.
Fixpoint one_of (l : list rx) : rx :=
  match l with [] => Eps | [a] => a | a :: r => Or a (one_of r) end.

(** ** The productions *)

Definition lp : rx := Tk L_PAREN.
Definition rp : rx := Tk R_PAREN.
Definition id_opt : rx := Opt (Tk IDENT).
(** [( keyword ... )] *)
Definition form (kw : string) (l : list rx) : rx := seq (lp :: Kw kw :: l ++ [rp]).

Definition instr : rx :=
  one_of [Nd BLOCK_IF; Nd BLOCK_LOOP; Nd BLOCK_BLOCK; Nd PLAIN_INSTR].
Definition block_header (kw : string) : list rx := [Kw kw; id_opt; Opt (Nd BLOCK_TYPE)].
Definition block_forms (kw : string) : rx :=
  Or (seq (block_header kw ++ [Star instr; Kw "end"; id_opt]))
     (seq (lp :: block_header kw ++ [Star instr; rp; id_opt])).
Definition import_export : list rx := [Opt (Nd IMPORT); Opt (Nd EXPORT)].

Definition production (k : kind) : rx :=
  match k with
  | MODULE =>
      form "module" [id_opt; Star (one_of
        [Nd MODULE_FIELD_FUNC; Nd MODULE_FIELD_TYPE; Nd MODULE_FIELD_EXPORT; Nd MODULE_FIELD_IMPORT;
         Nd MODULE_FIELD_START; Nd MODULE_FIELD_DATA; Nd MODULE_FIELD_TABLE; Nd MODULE_FIELD_MEMORY;
         Nd MODULE_FIELD_GLOBAL; Nd MODULE_FIELD_ELEM])]
  (* types *)
  | VAL_TYPE => one_of [Tk NUM_TYPE; Tk VEC_TYPE; Tk REF_TYPE]
  | PARAM => form "param" [Or (Sq (Tk IDENT) (Nd VAL_TYPE)) (Star (Nd VAL_TYPE))]
  | RESULT => form "result" [Star (Nd VAL_TYPE)]
  | FUNC_TYPE => form "func" [Star (Nd PARAM); Star (Nd RESULT)]
  | LIMITS => seq [Tk UNSIGNED_INT; Opt (Tk UNSIGNED_INT); Opt (Tk SHARE)]
  | TABLE_TYPE => seq [Nd LIMITS; Tk REF_TYPE]
  | MEMORY_TYPE => Nd LIMITS
  | GLOBAL_TYPE => Or (Nd VAL_TYPE) (form "mut" [Nd VAL_TYPE])
  (* references *)
  | INDEX => Or (Tk IDENT) (Tk UNSIGNED_INT)
  | TYPE_USE => one_of
      [ seq [lp; Kw "type"; Nd INDEX; rp; Star (Nd PARAM); Star (Nd RESULT)]
      ; seq [Plus (Nd PARAM); Star (Nd RESULT)]
      ; Plus (Nd RESULT) ]
  | MEM_USE => form "memory" [Nd INDEX]
  | TABLE_USE => form "table" [Nd INDEX]
  (* instructions *)
  | BLOCK_TYPE => Or (Nd RESULT) (Nd TYPE_USE)
  | BLOCK_BLOCK => block_forms "block"
  | BLOCK_LOOP => block_forms "loop"
  | BLOCK_IF =>
      Or (seq (block_header "if" ++ [Nd BLOCK_IF_THEN; Opt (Nd BLOCK_IF_ELSE); Kw "end"; id_opt]))
         (seq (lp :: block_header "if" ++ [Star instr; Nd BLOCK_IF_THEN; Opt (Nd BLOCK_IF_ELSE); rp]))
  | BLOCK_IF_THEN => Or (Star instr) (form "then" [Star instr])
  | BLOCK_IF_ELSE => Or (seq [Kw "else"; id_opt; Star instr]) (form "else" [Star instr])
  | PLAIN_INSTR =>
      Or (seq [lp; Tk INSTR_NAME; Star (Nd OPERAND); rp])
         (seq [Tk INSTR_NAME; Star (Nd OPERAND)])
  | OPERAND => one_of
      [Tk INT; Tk FLOAT; Tk STRING; Tk IDENT; Nd TYPE_USE; instr; Tk MEM_ARG; Tk HEAP_TYPE]
  (* module fields *)
  | MODULE_NAME => Tk STRING
  | NAME => Tk STRING
  | IMPORT => form "import" [Nd MODULE_NAME; Nd NAME]
  | EXPORT => form "export" [Nd NAME]
  | LOCAL => form "local" [Or (Sq (Tk IDENT) (Nd VAL_TYPE)) (Star (Nd VAL_TYPE))]
  | MODULE_FIELD_FUNC =>
      form "func" [id_opt; Star (Or (Nd IMPORT) (Nd EXPORT)); Opt (Nd TYPE_USE); Star (Nd LOCAL);
                   Star instr]
  | MODULE_FIELD_TYPE => form "type" [id_opt; Nd FUNC_TYPE]
  | MODULE_FIELD_GLOBAL =>
      form "global" ([id_opt] ++ import_export ++ [Nd GLOBAL_TYPE; Star instr])
  | MODULE_FIELD_MEMORY =>
      form "memory" ([id_opt] ++ import_export ++ [Or (Nd DATA) (Nd MEMORY_TYPE)])
  | MODULE_FIELD_TABLE =>
      form "table" ([id_opt] ++ import_export ++ [Or (Sq (Tk REF_TYPE) (Nd ELEM)) (Nd TABLE_TYPE)])
  | MODULE_FIELD_IMPORT =>
      form "import" [Nd MODULE_NAME; Nd NAME; one_of
        [Nd IMPORT_DESC_TYPE_USE; Nd IMPORT_DESC_GLOBAL_TYPE; Nd IMPORT_DESC_MEMORY_TYPE;
         Nd IMPORT_DESC_TABLE_TYPE]]
  | IMPORT_DESC_TYPE_USE => form "func" [id_opt; Opt (Nd TYPE_USE)]
  | IMPORT_DESC_GLOBAL_TYPE => form "global" [id_opt; Nd GLOBAL_TYPE]
  | IMPORT_DESC_MEMORY_TYPE => form "memory" [id_opt; Nd MEMORY_TYPE]
  | IMPORT_DESC_TABLE_TYPE => form "table" [id_opt; Nd TABLE_TYPE]
  | MODULE_FIELD_EXPORT =>
      form "export" [Nd NAME; one_of
        [Nd EXPORT_DESC_FUNC; Nd EXPORT_DESC_TABLE; Nd EXPORT_DESC_MEMORY; Nd EXPORT_DESC_GLOBAL]]
  | EXPORT_DESC_FUNC => form "func" [Nd INDEX]
  | EXPORT_DESC_TABLE => form "table" [Nd INDEX]
  | EXPORT_DESC_MEMORY => form "memory" [Nd INDEX]
  | EXPORT_DESC_GLOBAL => form "global" [Nd INDEX]
  | MODULE_FIELD_START => form "start" [Nd INDEX]
  | MODULE_FIELD_DATA => form "data" [id_opt; Opt (Nd MEM_USE); Opt (Nd OFFSET); Star (Tk STRING)]
  | DATA => form "data" [Star (Tk STRING)]
  | OFFSET => Or (form "offset" [Star instr]) instr
  | MODULE_FIELD_ELEM =>
      form "elem" [id_opt; one_of
        [ Sq (Kw "declare") (Nd ELEM_LIST)
        ; Nd ELEM_LIST
        ; seq [Opt (Nd TABLE_USE); Nd OFFSET; Opt (Nd ELEM_LIST)] ]]
  | ELEM => form "elem" [Or (Star (Nd ELEM_EXPR)) (Star (Nd INDEX))]
  | ELEM_LIST =>
      Or (Sq (Or (Kw "func") (Nd INDEX)) (Star (Nd INDEX)))
         (Sq (Tk REF_TYPE) (Star (Nd ELEM_EXPR)))
  | ELEM_EXPR => Or (form "item" [Star instr]) instr
  | ROOT => Star (Nd MODULE)
  | _ => Nd ROOT  (* no other kind is the kind of a node *)
  end.

(** ** Trees that follow the productions *)

Definition significant (g : green) : bool :=
  match g with Tok k _ => negb (is_trivia_kind k) | Node _ _ => true end.

(** Every node below [g], [g] included, follows the production of its kind. *)
Definition Conforms (g : green) : Prop :=
  forall k cs, Sub g (Node k cs) -> Matches (production k) (filter significant cs).
