(** The grammar functions of crates/parser/src/parser/{mod,token,ty,instr,module}.rs. *)

From Coq Require Import String List NArith Bool Arith Lia.
From Verif Require Import Text Kind Green Lexer Winnow.
Import ListNotations.

Definition words (l : list string) : text -> bool :=
  fun w => existsb (text_eqb w) (map T l).

(** ** token.rs *)

(** [l_paren], token.rs:13-17. *)
Definition l_paren : grammar :=
  GCtx (MExpChar c_lparen) (GTok L_PAREN (l_lit (T "("))).
(** [trivias_prefixed], token.rs:80-90. *)
Definition tp (g : grammar) : grammar := GSeq GTriv g.
(** [keyword], token.rs:129-137. *)
Definition keyword (s : string) : grammar :=
  GCtx (MExpLit s) (GTok KEYWORD (l_verify word (text_eqb (T s)))).
(** [ident], token.rs:139-149. *)
Definition ident : grammar := GCtx (MExpDesc "identifier") (GTok IDENT ident_l).
(** [string], token.rs:175-182. *)
Definition gstring : grammar := GCtx (MExpDesc "string literal") (GTok STRING string_l).
(** [int], token.rs:200-202. *)
Definition int : grammar := GTok INT int_l.
(** [unsigned_int], token.rs:213-217. *)
Definition unsigned_int : grammar := GTok UNSIGNED_INT unsigned_int_l.
(** [float], token.rs:244-246. *)
Definition float : grammar := GTok FLOAT float_l.

(** ** ty.rs *)

(** [word.verify_map(..)] producing tokens of several kinds
    ([val_type], ty.rs:25-30) is written as an alternative per kind; the
    alternatives are disjoint and none moves on failure. *)
Definition word_tok (k : kind) (l : list string) : grammar :=
  GTok k (l_verify word (words l)).

(** [ref_type], ty.rs:13-22. *)
Definition ref_type : grammar :=
  GCtx (MExpDesc "ref type") (word_tok REF_TYPE ["funcref"; "externref"]%string).
(** [val_type], ty.rs:24-36. *)
Definition val_type : grammar :=
  GNode VAL_TYPE
    (GCtx (MExpDesc "value type")
       (alts [ word_tok NUM_TYPE ["i32"; "i64"; "f32"; "f64"]%string
             ; word_tok VEC_TYPE ["v128"]%string
             ; word_tok REF_TYPE ["funcref"; "externref"]%string ])).
(** [heap_type], ty.rs:38-41. *)
Definition heap_type : grammar := word_tok HEAP_TYPE ["func"; "extern"]%string.

(** [param], ty.rs:69-96. *)
Definition param : grammar :=
  GNode PARAM (seqs
    [ l_paren; tp (keyword "param")
    ; alts [ GSeq (tp ident) (GMust (GRetryOnce val_type []))
           ; GRep (GRetryOnce val_type []) ]
    ; GRParen ]).
(** [result], ty.rs:98-118. *)
Definition result : grammar :=
  GNode RESULT (seqs
    [ l_paren; tp (keyword "result"); GRep (GRetryOnce val_type []); GRParen ]).
(** [func_type], ty.rs:43-67. *)
Definition func_type : grammar :=
  GNode FUNC_TYPE (seqs
    [ l_paren; tp (keyword "func")
    ; GRep (GRetryOnce param [T "result"]); GRep (GRetryOnce result [])
    ; GRParen ]).
(** [share], ty.rs:191-195. *)
Definition share : grammar := word_tok SHARE ["shared"; "unshared"]%string.
(** [limits], ty.rs:171-189. *)
Definition limits : grammar :=
  GNode LIMITS (seqs [ unsigned_int; GOpt (tp unsigned_int); GOpt (tp share) ]).
(** [table_type], ty.rs:120-135. *)
Definition table_type : grammar :=
  GNode TABLE_TYPE
    (GCtx (MExpDesc "table type") (GSeq limits (GMust (GRetryOnce ref_type [])))).
(** [memory_type], ty.rs:137-144. *)
Definition memory_type : grammar :=
  GNode MEMORY_TYPE (GCtx (MExpDesc "memory type") limits).
(** [global_type], ty.rs:146-169. *)
Definition global_type : grammar :=
  alts [ GNode GLOBAL_TYPE val_type
       ; GNode GLOBAL_TYPE (seqs [ l_paren; tp (keyword "mut"); GMust (tp val_type); GRParen ]) ].

(** ** module.rs, parts used by instr.rs *)

(** [index], module.rs:780-787. *)
Definition index : grammar :=
  GNode INDEX
    (GCtx (MExpDesc "index (identifier or unsigned integer)") (alts [ ident; unsigned_int ])).
(** [type_use], module.rs:651-697. *)
Definition type_use : grammar :=
  alts
    [ GNode TYPE_USE (seqs
        [ l_paren; tp (keyword "type"); GMust (GRetryOnce index []); GRParen
        ; GRep (tp param); GRep (tp result) ])
    ; GNode TYPE_USE (GSeq (GRep1 (tp param)) (GRep (tp result)))
    ; GNode TYPE_USE (GRep1 (tp result)) ].

(** ** instr.rs *)

(** [block_type], instr.rs:34-40. *)
Definition block_type : grammar :=
  alts [ GNode BLOCK_TYPE result; GNode BLOCK_TYPE type_use ].

(** [block_block], instr.rs:42-110, and [block_loop], instr.rs:112-180,
    which differ in keyword and kind only. *)
Definition block_like (kw : string) (k : kind) : grammar :=
  alts
    [ GNode k (seqs
        [ keyword kw; GOpt (tp ident); GOpt (tp block_type)
        ; GTill (GRetryOnce GInstr []) (GPeek (la_block_end [T "end"]))
        ; GMust (tp (keyword "end")); GOpt (tp ident) ])
    ; GNode k (seqs
        [ l_paren; tp (keyword kw); GOpt (tp ident); GOpt (tp block_type)
        ; GRep (GRetry GInstr []); GRParen; GOpt (tp ident) ]) ].

(** [block_if], instr.rs:182-329.  In the folded form (second alternative)
    the code runs [repeat_till(.., (trivias, l_paren, then))] and afterwards
    [repeat(.., retry(instr))] and [r_paren], and puts the last two results
    together with the [(] and [then] tokens into one BLOCK_IF_THEN node.
    Both trailing parsers never fail (they backtrack to success), so they
    are placed inside the terminator of [GTill] here. *)
Definition block_if : grammar :=
  alts
    [ GNode BLOCK_IF (seqs
        [ keyword "if"; GOpt (tp ident); GOpt (tp block_type)
        ; GNode BLOCK_IF_THEN
            (GTill (GRetryOnce GInstr []) (GPeek (la_block_end [T "end"; T "else"])))
        ; GOpt (GSeq GTriv
            (GNode BLOCK_IF_ELSE (seqs
               [ keyword "else"; GOpt (tp ident)
               ; GTill (GRetryOnce GInstr []) (GPeek (la_block_end [T "end"])) ])))
        ; GMust (tp (keyword "end")); GOpt (tp ident) ])
    ; GNode BLOCK_IF (seqs
        [ l_paren; tp (keyword "if"); GOpt (tp ident); GOpt (tp block_type)
        ; GTill (GRetry GInstr [])
            (GSeq GTriv
               (GNode BLOCK_IF_THEN (seqs
                  [ l_paren; tp (keyword "then"); GRep (GRetry GInstr []); GRParen ])))
        ; GOpt (GSeq GTriv
            (GNode BLOCK_IF_ELSE (seqs
               [ l_paren; tp (keyword "else"); GRep (GRetry GInstr []); GRParen ])))
        ; GRParen ]) ].

(** [block_instr], instr.rs:24-32. *)
Definition block_instr : grammar :=
  dispatch la_opt_paren_word
    [ (T "if", block_if); (T "loop", block_like "loop" BLOCK_LOOP)
    ; (T "block", block_like "block" BLOCK_BLOCK) ]
    GFail.

(** [instr_name], instr.rs:367-371. *)
Definition instr_name : grammar := GCtx (MLabel "instruction name") (GTok INSTR_NAME word).
(** [mem_arg], instr.rs:394-399. *)
Definition mem_arg : grammar := GTok MEM_ARG mem_arg_l.

Definition first_char (p : char -> bool) : text -> bool :=
  fun w => match w with c :: _ => p c | [] => false end.

(** [operand], instr.rs:373-392. *)
Definition operand (allow_instr : bool) : grammar :=
  GCtx (MExpDesc "operand") (GNode OPERAND
    (GIf la_any (first_char (fun c => is_ascii_digit c || is_sign c))
       (GAlt int float)
    (GIf la_any (first_char (char_in (T ".in"))) float
    (GIf la_any (first_char (N.eqb c_quote)) gstring
    (GIf la_any (first_char (N.eqb c_dollar)) ident
    (GIf la_any (first_char (N.eqb c_lparen))
       (dispatch la_paren_word [ (T "type", type_use) ]
          (if allow_instr then GInstr else GFail))
    (GIf la_any (first_char (char_in (T "oa"))) mem_arg
    (GIf la_any (first_char (char_in (T "fe"))) heap_type
       GFail)))))))).

(** [plain_instr], instr.rs:331-365. *)
Definition plain_instr : grammar :=
  alts
    [ GNode PLAIN_INSTR (seqs
        [ l_paren; tp instr_name; GRep (GRetryOnce (operand true) []); GRParen ])
    ; GNode PLAIN_INSTR (GSeq instr_name (GRep (tp (operand false)))) ].

(** [instr], instr.rs:20-22: the meaning of [GInstr]. *)
Definition instr_body : grammar := alts [ block_instr; plain_instr ].

(** ** module.rs *)

(** [module_name], module.rs:641-645; [name], module.rs:647-649. *)
Definition module_name : grammar := GNode MODULE_NAME gstring.
Definition name : grammar := GNode NAME gstring.

(** [local], module.rs:410-435. *)
Definition local : grammar :=
  GNode LOCAL (seqs
    [ l_paren; tp (keyword "local")
    ; alts [ GSeq (tp ident) (GRetry val_type [])
           ; GRep (GRetryOnce val_type []) ]
    ; GRParen ]).
(** [import], module.rs:437-461. *)
Definition import : grammar :=
  GNode IMPORT (seqs
    [ l_paren; tp (keyword "import"); GMust (tp module_name); GMust (tp name); GRParen ]).
(** [export], module.rs:463-483. *)
Definition export : grammar :=
  GNode EXPORT (seqs [ l_paren; tp (keyword "export"); GMust (tp name); GRParen ]).

(** [import_desc_global_type], module.rs:499-523. *)
Definition import_desc_global_type : grammar :=
  GNode IMPORT_DESC_GLOBAL_TYPE (seqs
    [ l_paren; tp (keyword "global"); GOpt (tp ident)
    ; GMust (GRetryOnce global_type []); GRParen ]).
(** [import_desc_memory_type], module.rs:525-549. *)
Definition import_desc_memory_type : grammar :=
  GNode IMPORT_DESC_MEMORY_TYPE (seqs
    [ l_paren; tp (keyword "memory"); GOpt (tp ident)
    ; GMust (GRetry memory_type []); GRParen ]).
(** [import_desc_table_type], module.rs:551-575. *)
Definition import_desc_table_type : grammar :=
  GNode IMPORT_DESC_TABLE_TYPE (seqs
    [ l_paren; tp (keyword "table"); GOpt (tp ident)
    ; GMust (GRetry table_type []); GRParen ]).
(** [import_desc_type_use], module.rs:577-601. *)
Definition import_desc_type_use : grammar :=
  GNode IMPORT_DESC_TYPE_USE (seqs
    [ l_paren; tp (keyword "func"); GOpt (tp ident)
    ; GOpt (GRetryOnce type_use []); GRParen ]).
(** [import_desc], module.rs:485-497. *)
Definition import_desc : grammar :=
  GCtx (MExpDesc "import descriptor")
    (dispatch la_paren_word
       [ (T "func", import_desc_type_use); (T "global", import_desc_global_type)
       ; (T "memory", import_desc_memory_type); (T "table", import_desc_table_type) ]
       GFail).

(** [export_desc_variant], module.rs:617-639. *)
Definition export_desc_variant (kw : string) (k : kind) : grammar :=
  GNode k (seqs
    [ l_paren; tp (keyword kw); GMust (GRetryOnce index []); GRParen ]).
(** [export_desc], module.rs:603-615. *)
Definition export_desc : grammar :=
  GCtx (MExpDesc "export desc")
    (dispatch la_paren_word
       [ (T "func", export_desc_variant "func" EXPORT_DESC_FUNC)
       ; (T "table", export_desc_variant "table" EXPORT_DESC_TABLE)
       ; (T "memory", export_desc_variant "memory" EXPORT_DESC_MEMORY)
       ; (T "global", export_desc_variant "global" EXPORT_DESC_GLOBAL) ]
       GFail).

(** [elem_expr], module.rs:755-778. *)
Definition elem_expr : grammar :=
  alts
    [ GNode ELEM_EXPR (seqs
        [ l_paren; tp (keyword "item"); GRep (GRetry GInstr []); GRParen ])
    ; GNode ELEM_EXPR (GSeq (GPeek la_lparen) GInstr) ].
(** [elem], module.rs:699-723. *)
Definition elem : grammar :=
  GNode ELEM (seqs
    [ l_paren; tp (keyword "elem")
    ; dispatch la_triv_any
        [ ([c_lparen], GRep (GRetryOnce elem_expr [])); ([c_rparen], GEmpty) ]
        (GRep (GRetryOnce index []))
    ; GRParen ]).
(** [elem_list], module.rs:725-753. *)
Definition elem_list : grammar :=
  alts
    [ GNode ELEM_LIST (GSeq (alts [ keyword "func"; index ]) (GRep (GRetryOnce index [])))
    ; GNode ELEM_LIST (GSeq ref_type (GRep (GRetryOnce elem_expr []))) ].
(** [mem_use], module.rs:789-809. *)
Definition mem_use : grammar :=
  GNode MEM_USE (seqs [ l_paren; tp (keyword "memory"); GMust (tp index); GRParen ]).
(** [table_use], module.rs:811-831. *)
Definition table_use : grammar :=
  GNode TABLE_USE (seqs [ l_paren; tp (keyword "table"); GMust (tp index); GRParen ]).
(** [offset], module.rs:833-857. *)
Definition offset : grammar :=
  GCtx (MExpDesc "offset")
    (alts
       [ GNode OFFSET (seqs
           [ l_paren; tp (keyword "offset"); GRep (GRetry GInstr []); GRParen ])
       ; GNode OFFSET (GSeq (GPeek la_lparen) GInstr) ]).
(** [data], module.rs:859-879. *)
Definition data : grammar :=
  GNode DATA (seqs
    [ l_paren; tp (keyword "data"); GRep (GRetryOnce gstring []); GRParen ]).

(** [module_field_data], module.rs:65-99. *)
Definition module_field_data : grammar :=
  GNode MODULE_FIELD_DATA (seqs
    [ l_paren; tp (keyword "data"); GOpt (tp ident); GOpt (tp mem_use)
    ; GOpt (tp offset); GRep (GRetryOnce gstring []); GRParen ]).
(** [module_field_elem], module.rs:101-143. *)
Definition module_field_elem : grammar :=
  GNode MODULE_FIELD_ELEM (seqs
    [ l_paren; tp (keyword "elem"); GOpt (tp ident)
    ; alts [ GSeq (tp (keyword "declare")) (GMust (GRetryOnce elem_list []))
           ; tp elem_list
           ; seqs [ GOpt (tp table_use); GMust (GRetryOnce offset [])
                  ; GOpt (GRetryOnce elem_list []) ] ]
    ; GRParen ]).
(** [module_field_export], module.rs:145-169. *)
Definition module_field_export : grammar :=
  GNode MODULE_FIELD_EXPORT (seqs
    [ l_paren; tp (keyword "export"); GMust (tp name)
    ; GMust (GRetryOnce export_desc []); GRParen ]).
(** [module_field_func], module.rs:171-209. *)
Definition module_field_func : grammar :=
  GNode MODULE_FIELD_FUNC (seqs
    [ l_paren; tp (keyword "func"); GOpt (tp ident)
    ; GRep (tp (alts [ import; export ]))
    ; GOpt (tp type_use); GRep (tp local); GRep (GRetryOnce GInstr []); GRParen ]).
(** [module_field_global], module.rs:211-249. *)
Definition module_field_global : grammar :=
  GNode MODULE_FIELD_GLOBAL (seqs
    [ l_paren; tp (keyword "global"); GOpt (tp ident); GOpt (tp import); GOpt (tp export)
    ; GMust (GRetryOnce global_type []); GRep (GRetryOnce GInstr []); GRParen ]).
(** [module_field_import], module.rs:251-279. *)
Definition module_field_import : grammar :=
  GNode MODULE_FIELD_IMPORT (seqs
    [ l_paren; tp (keyword "import"); GMust (GRetry module_name []); GMust (GRetry name [])
    ; GMust (GRetryOnce import_desc []); GRParen ]).
(** [module_field_memory], module.rs:281-318. *)
Definition module_field_memory : grammar :=
  GNode MODULE_FIELD_MEMORY (seqs
    [ l_paren; tp (keyword "memory"); GOpt (tp ident); GOpt (tp import); GOpt (tp export)
    ; dispatch la_triv_any [ ([c_lparen], GMust (GRetryOnce data [])) ]
        (GMust (GRetryOnce memory_type []))
    ; GRParen ]).
(** [module_field_start], module.rs:320-340. *)
Definition module_field_start : grammar :=
  GNode MODULE_FIELD_START (seqs
    [ l_paren; tp (keyword "start"); GMust (GRetryOnce index []); GRParen ]).
(** [module_field_table], module.rs:342-382. *)
Definition module_field_table : grammar :=
  GNode MODULE_FIELD_TABLE (seqs
    [ l_paren; tp (keyword "table"); GOpt (tp ident); GOpt (tp import); GOpt (tp export)
    ; GMust (alts [ GSeq (tp ref_type) (GMust (GRetryOnce elem []))
                  ; GSeq (GRetry table_type []) GEmpty ])
    ; GRParen ]).
(** [module_field_type], module.rs:384-408. *)
Definition module_field_type : grammar :=
  GNode MODULE_FIELD_TYPE (seqs
    [ l_paren; tp (keyword "type"); GOpt (tp ident); GMust (GRetryOnce func_type [])
    ; GRParen ]).
(** [module_field], module.rs:45-63. *)
Definition module_field : grammar :=
  GCtx (MExpDesc "module field")
    (dispatch la_paren_word
       [ (T "func", module_field_func); (T "type", module_field_type)
       ; (T "export", module_field_export); (T "import", module_field_import)
       ; (T "start", module_field_start); (T "data", module_field_data)
       ; (T "table", module_field_table); (T "memory", module_field_memory)
       ; (T "global", module_field_global); (T "elem", module_field_elem) ]
       GFail).
(** [module], module.rs:19-43. *)
Definition module : grammar :=
  GNode MODULE (seqs
    [ l_paren; tp (keyword "module"); GOpt (tp ident)
    ; GRep (GRetryOnce module_field []); GRParen ]).

(** ** mod.rs *)

(** One item of the second [repeat] of [root], mod.rs:74-77:
    [alt((ws, line_comment, block_comment, error_token(true)))]; the first
    three alternatives are [trivia1]. *)
Definition root_item (dbg : bool) (s : st) : res :=
  match trivia1 dbg (rest s) with
  | POk g r => ROk [g] (mk_st r (pos s + glen g) (log s))
  | PErr =>
      match error_token true (rest s) with
      | LOk c r => ROk [Tok ERROR c] (advance s c r)
      | LErr c r => RErr err_new (advance s c r)
      end
  | PPanic => RPanic
  | POof => ROof
  end.

(** [instr] with recursion depth at most [n]. *)
Fixpoint run_instr (dbg : bool) (n : nat) : st -> res :=
  match n with
  | 0 => fun _ => ROof
  | S n' => run dbg (run_instr dbg n') instr_body
  end.

(** [root], mod.rs:71-88: the children of the ROOT node. *)
Definition root (dbg : bool) (s : st) : res :=
  match run dbg (run_instr dbg (S (length (rest s)))) (GRep (GRetryOnce module [])) s with
  | ROk out s1 =>
      match rep_loop dbg (root_item dbg) (S (length (rest s1))) s1 with
      | ROk out' s2 => ROk (out ++ out') s2
      | x => x
      end
  | x => x
  end.

(** Outcome of [Parser::parse_to_green] and [Parser::errors],
    mod.rs:43-52. *)
Inductive parse_result : Type :=
| Parsed (tree : green) (errors : list err)   (* errors in recording order *)
| ParsePanic                                  (* a panic *)
| ParseOof.                                   (* out of fuel: excluded by theorem *)

(** [parse_to_green], mod.rs:43-47.  [recoverable_parse] of winnow runs
    [(root, eof.resume_after(rest.void()))] and collects the errors: input
    left over by [root] is skipped and one error recorded.  An error of
    [root] itself makes [tree.expect(..)] panic. *)
Definition parse (dbg : bool) (src : text) : parse_result :=
  match root dbg (mk_st src 0 []) with
  | ROk out s =>
      let log' := match rest s with
                  | [] => log s
                  | r => err_at_end err_new (pos s + tlen r) :: log s
                  end in
      Parsed (Node ROOT out) (rev log')
  | RErr _ _ => ParsePanic
  | RPanic => ParsePanic
  | ROof => ParseOof
  end.
