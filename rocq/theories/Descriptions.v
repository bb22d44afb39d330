(** The descriptions of the parsers of [Grammar.v]. *)

From Coq Require Import String List NArith Bool Arith Lia.
From Verif Require Import Text Kind Green SpecParser Lexer Winnow Grammar SpecComplete TokAccept Streams Describe.
Import ListNotations.
Local Open Scope list_scope.

Fixpoint dseqs (l : list dg) : dg :=
  match l with [] => DEmpty | [a] => a | a :: r => DSeq a (dseqs r) end.
Fixpoint dalts (l : list dg) : dg :=
  match l with [] => DFail | [a] => a | a :: r => DAlt a (dalts r) end.
Fixpoint dcases (l : lk) (arms : list (string * dg)) : dg :=
  match arms with [] => DFail | [(w, g)] => DIf l (T w) g DFail | (w, g) :: r => DIf l (T w) g (dcases l r) end.

Definition d_lp : dg := DCtx (MExpChar c_lparen) (DTok CLp).
Definition d_kw (s : string) : dg := DCtx (MExpLit s) (DTok (CKw s)).
Definition d_ident : dg := DCtx (MExpDesc "identifier") (DTok CId).
Definition d_string : dg := DCtx (MExpDesc "string literal") (DTok CStr).
Definition d_id : dg := DOpt (DTp d_ident).
(** [( keyword ... )] *)
Definition d_form (kw : string) (l : list dg) : dg := dseqs (d_lp :: DTp (d_kw kw) :: l ++ [DRParen]).

Definition d_ref : dg := DCtx (MExpDesc "ref type") (DTok (CWords REF_TYPE)).
Definition d_val : dg :=
  DNode VAL_TYPE (DCtx (MExpDesc "value type")
    (dalts [DTok (CWords NUM_TYPE); DTok (CWords VEC_TYPE); DTok (CWords REF_TYPE)])).
Definition d_param : dg :=
  DNode PARAM (d_form "param"
    [dalts [DSeq (DTp d_ident) (DMust (DOnce d_val [])); DRep (DOnce d_val [])]]).
Definition d_result : dg := DNode RESULT (d_form "result" [DRep (DOnce d_val [])]).
Definition d_functy : dg :=
  DNode FUNC_TYPE (d_form "func" [DRep (DOnce d_param ["result"%string]); DRep (DOnce d_result [])]).
Definition d_limits : dg :=
  DNode LIMITS (dseqs [DTok CUInt; DOpt (DTp (DTok CUInt)); DOpt (DTp (DTok (CWords SHARE)))]).
Definition d_tablety : dg :=
  DNode TABLE_TYPE (DCtx (MExpDesc "table type") (DSeq d_limits (DMust (DOnce d_ref [])))).
Definition d_memty : dg := DNode MEMORY_TYPE (DCtx (MExpDesc "memory type") d_limits).
Definition d_globalty : dg :=
  dalts [DNode GLOBAL_TYPE d_val; DNode GLOBAL_TYPE (d_form "mut" [DMust (DTp d_val)])].
Definition d_index : dg :=
  DNode INDEX (DCtx (MExpDesc "index (identifier or unsigned integer)") (dalts [d_ident; DTok CUInt])).

(** Type uses with some of the three forms hidden. *)
Definition hide (b : bool) (d : dg) : dg := if b then d else DHide d.
Definition d_use (params results : bool) : dg :=
  dalts
    [ DNode TYPE_USE (dseqs
        [d_lp; DTp (d_kw "type"); DMust (DOnce d_index []); DRParen; DRep (DTp d_param); DRep (DTp d_result)])
    ; hide params (DNode TYPE_USE (DSeq (DRep1 (DTp d_param)) (DRep (DTp d_result))))
    ; hide results (DNode TYPE_USE (DRep1 (DTp d_result))) ].
Definition d_blockty : dg :=
  dalts [DNode BLOCK_TYPE d_result; DNode BLOCK_TYPE (d_use true false)].

Definition d_ins : dg := DInstr IAny.
Definition d_block (open : bool) (kw : string) (k : kind) : dg :=
  dalts
    [ hide open (DNode k (dseqs
        [ d_kw kw; d_id; DOpt (DTp d_blockty); DTill (DOnce d_ins []) ["end"%string]
        ; DMust (DTp (d_kw "end")); d_id ]))
    ; DNode k (dseqs
        [ d_lp; DTp (d_kw kw); d_id; DOpt (DTp d_blockty); DRep (DRetry d_ins []); DRParen; d_id ]) ].
Definition d_if (open : bool) : dg :=
  dalts
    [ hide open (DNode BLOCK_IF (dseqs
        [ d_kw "if"; d_id; DOpt (DTp d_blockty)
        ; DLoose BLOCK_IF_THEN (DTill (DOnce d_ins []) ["end"; "else"]%string)
        ; DOpt (DTp (DNode BLOCK_IF_ELSE (dseqs
            [d_kw "else"; d_id; DTill (DOnce d_ins []) ["end"%string]])))
        ; DMust (DTp (d_kw "end")); d_id ]))
    ; DNode BLOCK_IF (dseqs
        [ d_lp; DTp (d_kw "if"); d_id; DOpt (DTp d_blockty)
        ; DTillN (DRetry d_ins []) (DTp (DNode BLOCK_IF_THEN (d_form "then" [DRep (DRetry d_ins [])])))
        ; DOpt (DTp (DNode BLOCK_IF_ELSE (d_form "else" [DRep (DRetry d_ins [])])))
        ; DRParen ]) ].
Definition d_blocks (open : bool) : dg :=
  dcases LOptParenWord
    [ ("if", d_if open); ("loop", d_block open "loop" BLOCK_LOOP); ("block", d_block open "block" BLOCK_BLOCK) ]%string.

(** Operands: immediate ones, or instructions, or both. *)
Definition d_operand (imm arg : bool) (allow : bool) : dg :=
  DCtx (MExpDesc "operand") (DNode OPERAND
    (DFirst (fun c => is_ascii_digit c || is_sign c) (hide imm (DAlt (DTok CInt) (DTok (CFloat false))))
    (DFirst (char_in (T ".in")) (hide imm (DTok (CFloat true)))
    (DFirst (N.eqb c_quote) (hide imm d_string)
    (DFirst (N.eqb c_dollar) (hide imm d_ident)
    (DFirst (N.eqb c_lparen)
       (DIf LParenWord (T "type") (hide imm (d_use false false)) (if allow then hide arg (DInstr IFold) else DFail))
    (DFirst (char_in (T "oa")) (hide imm (DTok CMem))
    (DFirst (char_in (T "fe")) (hide imm (DTok (CWords HEAP_TYPE))) DFail)))))))).
Definition d_name : dg := DCtx (MLabel "instruction name") (DTok CName).
Definition d_plain (open : bool) : dg :=
  dalts
    [ DNode PLAIN_INSTR (dseqs
        [ d_lp; DTp d_name; DRep2 (DOnce (d_operand true false true) []) (DOnce (d_operand false true true) []); DRParen ])
    ; hide open (DNode PLAIN_INSTR (DSeq d_name (DRep (DTp (d_operand true true false))))) ].
Definition d_body (i : iclass) : dg :=
  match i with
  | IAny => dalts [d_blocks true; d_plain true]
  | IFold => dalts [d_blocks false; d_plain false]
  | IPlain => dalts [DHide (d_blocks true); d_plain false]
  end.

Definition d_module_name : dg := DNode MODULE_NAME d_string.
Definition d_nm : dg := DNode NAME d_string.
Definition d_local : dg :=
  DNode LOCAL (d_form "local" [dalts [DSeq (DTp d_ident) (DRetry d_val []); DRep (DOnce d_val [])]]).
Definition d_import : dg := DNode IMPORT (d_form "import" [DMust (DTp d_module_name); DMust (DTp d_nm)]).
Definition d_export : dg := DNode EXPORT (d_form "export" [DMust (DTp d_nm)]).
Definition d_import_desc : dg :=
  DCtx (MExpDesc "import descriptor") (dcases LParenWord
    [ ("func", DNode IMPORT_DESC_TYPE_USE (d_form "func" [d_id; DOpt (DOnce (d_use true true) [])]))
    ; ("global", DNode IMPORT_DESC_GLOBAL_TYPE (d_form "global" [d_id; DMust (DOnce d_globalty [])]))
    ; ("memory", DNode IMPORT_DESC_MEMORY_TYPE (d_form "memory" [d_id; DMust (DRetry d_memty [])]))
    ; ("table", DNode IMPORT_DESC_TABLE_TYPE (d_form "table" [d_id; DMust (DRetry d_tablety [])])) ]%string).
Definition d_export_variant (kw : string) (k : kind) : dg := DNode k (d_form kw [DMust (DOnce d_index [])]).
Definition d_export_desc : dg :=
  DCtx (MExpDesc "export desc") (dcases LParenWord
    [ ("func", d_export_variant "func" EXPORT_DESC_FUNC); ("table", d_export_variant "table" EXPORT_DESC_TABLE)
    ; ("memory", d_export_variant "memory" EXPORT_DESC_MEMORY); ("global", d_export_variant "global" EXPORT_DESC_GLOBAL) ]%string).
Definition d_elem_expr : dg :=
  dalts [ DNode ELEM_EXPR (d_form "item" [DRep (DRetry d_ins [])]); DNode ELEM_EXPR (DPeekLp (DInstr IFold)) ].
Definition d_elem : dg :=
  DNode ELEM (d_form "elem"
    [ DIf LTrivAny [c_lparen] (DSub (Plus EXPR) (DRep (DOnce d_elem_expr [])))
        (DIf LTrivAny [c_rparen] DEmpty (DSub (Plus IDX) (DRep (DOnce d_index [])))) ]).
Definition d_elem_list : dg :=
  dalts [ DNode ELEM_LIST (DSeq (dalts [d_kw "func"; d_index]) (DRep (DOnce d_index [])))
        ; DNode ELEM_LIST (DSeq d_ref (DRep (DOnce d_elem_expr []))) ].
Definition d_mem_use : dg := DNode MEM_USE (d_form "memory" [DMust (DTp d_index)]).
Definition d_table_use : dg := DNode TABLE_USE (d_form "table" [DMust (DTp d_index)]).
Definition d_offset : dg :=
  DCtx (MExpDesc "offset") (dalts
    [ DNode OFFSET (d_form "offset" [DRep (DRetry d_ins [])]); DNode OFFSET (DPeekLp (DInstr IPlain)) ]).
Definition d_data : dg := DNode DATA (d_form "data" [DRep (DOnce d_string [])]).

Definition d_field_data : dg :=
  DNode MODULE_FIELD_DATA (d_form "data" [d_id; DOpt (DTp d_mem_use); DOpt (DTp d_offset); DRep (DOnce d_string [])]).
Definition d_field_elem : dg :=
  DNode MODULE_FIELD_ELEM (d_form "elem"
    [ d_id
    ; dalts [ DSeq (DTp (d_kw "declare")) (DMust (DOnce d_elem_list [])); DTp (DSub ELEMS_KIND d_elem_list)
            ; dseqs [DOpt (DTp d_table_use); DMust (DOnce d_offset []); DOpt (DOnce d_elem_list [])] ] ]).
Definition d_field_export : dg :=
  DNode MODULE_FIELD_EXPORT (d_form "export" [DMust (DTp d_nm); DMust (DOnce d_export_desc [])]).
Definition d_field_func : dg :=
  DNode MODULE_FIELD_FUNC (d_form "func"
    [ d_id; DRep (DTp (dalts [d_import; d_export])); DOpt (DTp (d_use true true)); DRep (DTp d_local)
    ; DRep (DOnce d_ins []) ]).
Definition d_field_global : dg :=
  DNode MODULE_FIELD_GLOBAL (d_form "global"
    [ d_id; DOpt (DTp d_import); DOpt (DTp d_export); DMust (DOnce d_globalty []); DRep (DOnce d_ins []) ]).
Definition d_field_import : dg :=
  DNode MODULE_FIELD_IMPORT (d_form "import"
    [ DMust (DRetry d_module_name []); DMust (DRetry d_nm []); DMust (DOnce d_import_desc []) ]).
Definition d_field_memory : dg :=
  DNode MODULE_FIELD_MEMORY (d_form "memory"
    [ d_id; DOpt (DTp d_import); DOpt (DTp d_export)
    ; DIf LTrivAny [c_lparen] (DMust (DOnce d_data [])) (DMust (DOnce d_memty [])) ]).
Definition d_field_start : dg := DNode MODULE_FIELD_START (d_form "start" [DMust (DOnce d_index [])]).
Definition d_field_table : dg :=
  DNode MODULE_FIELD_TABLE (d_form "table"
    [ d_id; DOpt (DTp d_import); DOpt (DTp d_export)
    ; DMust (dalts [ DSeq (DTp d_ref) (DMust (DOnce d_elem []))
                   ; DSub TABLETY (DSeq (DRetry d_tablety []) DEmpty) ]) ]).
Definition d_field_type : dg := DNode MODULE_FIELD_TYPE (d_form "type" [d_id; DMust (DOnce d_functy [])]).
Definition d_field : dg :=
  DCtx (MExpDesc "module field") (dcases LParenWord
    [ ("func", d_field_func); ("type", d_field_type); ("export", d_field_export); ("import", d_field_import)
    ; ("start", d_field_start); ("data", d_field_data); ("table", d_field_table); ("memory", d_field_memory)
    ; ("global", d_field_global); ("elem", d_field_elem) ]%string).
Definition d_module : dg := DNode MODULE (d_form "module" [d_id; DRep (DOnce d_field [])]).

(** They describe the parsers of the model, and the expressions of the
    specification. *)
Lemma erase_body i : erase (d_body i) = instr_body.
Proof. destruct i; reflexivity. Qed.
Lemma erase_module : erase d_module = module.
Proof. reflexivity. Qed.
Lemma lang_body i : lang (d_body i) = Some (instr_rx i).
Proof. destruct i; reflexivity. Qed.
Lemma lang_module : lang d_module = Some MODULE_.
Proof. reflexivity. Qed.
Lemma ok_body_any : ok (d_body IAny) fany = true.
Proof. vm_compute. reflexivity. Qed.
Lemma ok_body_fold : ok (d_body IFold) fany = true.
Proof. vm_compute. reflexivity. Qed.
Lemma ok_body_plain F : ok (d_body IPlain) F = true.
Proof. vm_compute. reflexivity. Qed.
Lemma ok_module : ok (DRep (DOnce d_module [])) [H1 SEnd] = true.
Proof. vm_compute. reflexivity. Qed.
