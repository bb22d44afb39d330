(** Completion: crates/service/src/features/completion.rs. *)

From Coq Require Import String List NArith Bool Arith Lia.
From Verif Require Import Text Kind Green Lexer Red LineIndex Cursor Doc Ast Binder Nav InstrMeta Types Check SemTok Hover InstrNames.
Import ListNotations.

(** [CompletionItem]: the fields the code sets.  [c_detail] is
    [label_details.description]; [c_doc] is the Markdown documentation. *)
Inductive item_kind : Type := IOperator | IClass | IVariable | IFunction | IInterface | ISnippet | IKeyword.
Record item : Type := mk_item
  { c_label : text; c_insert : option text; c_kind : item_kind; c_detail : option text; c_doc : option text }.
Definition plain (k : item_kind) (l : string) : item := mk_item (T l) None k None None.

(** [enum CmpCtx], completion.rs:342-370. *)
Inductive cmp_ctx : Type :=
| CInstr | CValType | CRefType | CLocal | CFunc | CFuncType | CGlobal | CMemArg | CMemory | CTable | CBlock
| KwModule | KwModuleField | KwImExport | KwType | KwParamResult | KwLocal | KwMut | KwPortDesc | KwData
| KwFunc | KwElem | KwItem | KwMemory | KwOffset | KwDeclare | KwTable.

(** [find_token], completion.rs:30-42. *)
Definition find_token (src : text) (pos : lsp_pos) : ans elem :=
  abind (aopt (offset (new_line_index src) pos)) (fun x =>
  match token_at_offset (root_of (tree_of src)) x with
  | TNone => NoAns
  | TSingle t => Ans t
  | TBetween l _ => Ans l
  | TPanic => Panics
  end).

(** [siblings_with_tokens(Direction::Next).skip(1)]. *)
Definition next_siblings (e : elem) : list elem :=
  match ups e, parent e with
  | u :: _, Some p => skipn (S (u_idx u)) (children_with_tokens p)
  | _, _ => []
  end.
Definition node_kind_of (l : list elem) : option kind := option_map ekind (find is_node l).

(** [is_l_paren], completion.rs:747-750. *)
Definition is_l_paren (t : elem) : bool :=
  kind_eqb (ekind t) L_PAREN || kind_eqb (ekind t) ERROR && text_eqb (etext t) (T "(").
(** [find_leading_l_paren], completion.rs:730-746; only whether there is one
    matters. *)
Definition leading_l_paren (t : elem) : bool :=
  is_l_paren t
  || match find (fun e => negb (is_node e)) (skip_while is_trivia (prev_siblings t)) with
     | Some e => is_l_paren e
     | None => false
     end.

(** The [matches!] on the previous and the next node. *)
Definition is_instr_kind (k : kind) : bool :=
  match k with PLAIN_INSTR | BLOCK_BLOCK | BLOCK_IF | BLOCK_LOOP => true | _ => false end.
Definition header_keywords : list cmp_ctx := [KwImExport; KwType; KwParamResult; KwLocal].
Definition header_ctx (t before : elem) : list cmp_ctx :=
  if negb (match node_kind_of (prev_siblings before) with Some k => is_instr_kind k | None => false end)
     && leading_l_paren t
  then header_keywords else [].

(** [str::split_once('.')]. *)
Fixpoint split_dot (t : text) : option (text * text) :=
  match t with
  | [] => None
  | c :: r => if N.eqb c 46 then Some ([], r)
              else match split_dot r with Some (a, b) => Some (c :: a, b) | None => None end
  end.
(** [prev_sibling()]: the node before. *)
Definition prev_node (n : elem) : option elem := find is_node (prev_siblings n).

(** [add_cmp_ctx_for_operands], completion.rs:312-341. *)
Definition operand_ctx (name : text) (n : elem) : list cmp_ctx :=
  match split_dot name with
  | Some (a, b) =>
      if text_eqb a (T "local") then [CLocal]
      else if text_eqb a (T "global") then [CGlobal]
      else if text_eqb a (T "ref") && text_eqb b (T "func") then [CFunc]
      else if text_eqb a (T "table") then
        if text_eqb b (T "init") && kind_eqb (ekind n) OPERAND
           && match prev_node n with Some p => kind_eqb (ekind p) OPERAND | None => false end
        then [] else [CTable]
      else if starts_with (T "load") b || starts_with (T "store") b then [CMemArg]
      else []
  | None =>
      if text_eqb name (T "call") || text_eqb name (T "return_call") then [CFunc]
      else if text_eqb name (T "br") || text_eqb name (T "br_if") || text_eqb name (T "br_table") then [CBlock]
      else []
  end.

Definition has_child (n : elem) (k : kind) : bool := existsb (fun c => kind_eqb (ekind c) k) (children n).
(** [siblings(Direction::Prev)]: the node itself and those before it. *)
Definition prev_nodes (n : elem) : list elem := n :: filter is_node (prev_siblings n).

(** [get_cmp_ctx], completion.rs:43-311: the contexts of a token with parent
    [p].  [NoAns] is the [?] of a missing token or node; the empty list also
    becomes [None] in the end. *)
Definition instr_name_ctx (t p : elem) : list cmp_ctx :=
  CInstr ::
  match parent p with
  | Some g =>
      match ekind g with
      | MODULE_FIELD_FUNC => header_ctx t p
      | OFFSET =>
          match token g KEYWORD with
          | Some _ => []
          | None =>
              KwOffset ::
              match option_map ekind (parent g) with
              | Some MODULE_FIELD_DATA => [KwMemory]
              | Some MODULE_FIELD_ELEM =>
                  if existsb (fun c => kind_eqb (ekind c) TABLE_USE) (prev_nodes g) then [] else [KwTable]
              | _ => []
              end
          end
      | _ => []
      end
  | None => []
  end.
Definition when (b : bool) (l : list cmp_ctx) : list cmp_ctx := if b then l else [].
Definition contexts (t p : elem) : ans (list cmp_ctx) :=
  match ekind p with
  | MODULE_FIELD_FUNC =>
      Ans (header_ctx t t
           ++ when (match node_kind_of (next_siblings t) with Some k => is_instr_kind k | None => true end) [CInstr])
  | MODULE_FIELD_TYPE => Ans (when (leading_l_paren t) [KwFunc])
  | PLAIN_INSTR =>
      if kind_eqb (ekind t) INSTR_NAME then Ans (instr_name_ctx t p)
      else abind (aopt (token p INSTR_NAME)) (fun nm => Ans (operand_ctx (etext nm) p))
  | OPERAND =>
      abind (aopt (find (fun n => kind_eqb (ekind n) PLAIN_INSTR) (ancestors p))) (fun i =>
      abind (aopt (token i INSTR_NAME)) (fun nm => Ans (operand_ctx (etext nm) p)))
  | PARAM | RESULT | LOCAL | GLOBAL_TYPE => Ans (when (negb (starts_with (T "$") (etext t))) [CValType])
  | TYPE_USE => Ans [CFuncType]
  | FUNC_TYPE => Ans (when (leading_l_paren t) [KwParamResult])
  | INDEX =>
      abind (aopt (parent p)) (fun g =>
      Ans match ekind g with
          | MODULE_FIELD_START | EXPORT_DESC_FUNC => [CFunc]
          | TYPE_USE => [CFuncType]
          | EXPORT_DESC_GLOBAL => [CGlobal]
          | EXPORT_DESC_MEMORY => [CMemory]
          | EXPORT_DESC_TABLE => [CTable]
          | _ => []
          end)
  | MODULE_FIELD_GLOBAL =>
      Ans (if has_child p GLOBAL_TYPE then [CInstr]
           else if leading_l_paren t then [KwMut; KwImExport] else [CValType])
  | MODULE_FIELD_EXPORT | MODULE_FIELD_IMPORT => Ans (when (leading_l_paren t) [KwPortDesc])
  | MODULE_FIELD_TABLE => Ans (if leading_l_paren t then [KwImExport; KwElem] else [CRefType])
  | MODULE_FIELD_START | EXPORT_DESC_FUNC => Ans [CFunc]
  | EXPORT_DESC_GLOBAL => Ans [CGlobal]
  | MODULE_FIELD_MEMORY => Ans (when (leading_l_paren t) [KwImExport; KwData])
  | MODULE_FIELD_DATA => Ans (when (leading_l_paren t) [KwMemory; KwOffset; CInstr])
  | MODULE_FIELD_ELEM =>
      Ans (if leading_l_paren t then
             (if has_child p OFFSET then [KwItem]
              else when (negb (has_child p TABLE_USE)) [KwTable] ++ [KwOffset]) ++ [CInstr]
           else if match find (fun c => kind_eqb (ekind c) ELEM_LIST) (children p) with
                   | Some l => match token l KEYWORD with Some k => text_eqb (etext k) (T "func") | None => false end
                   | None => false
                   end then [CFunc]
           else [CRefType; KwFunc]
                ++ when (negb (existsb (fun e => negb (is_node e) && text_eqb (etext e) (T "declare"))
                           (children_with_tokens p))) [KwDeclare])
  | EXPORT_DESC_MEMORY | MEM_USE => Ans [CMemory]
  | EXPORT_DESC_TABLE => Ans [CTable]
  | TABLE_TYPE | IMPORT_DESC_TABLE_TYPE => Ans [CRefType]
  | IMPORT_DESC_TYPE_USE => Ans (when (leading_l_paren t) [KwParamResult; KwType])
  | IMPORT_DESC_GLOBAL_TYPE => Ans (if leading_l_paren t then [KwMut] else [CValType])
  | ELEM => Ans (if leading_l_paren t then [CInstr; KwItem] else [CFunc])
  | ELEM_EXPR | OFFSET => Ans [CInstr]
  | ELEM_LIST => Ans (when (leading_l_paren t) [KwItem; CInstr])
  | TABLE_USE => Ans [CTable]
  | MODULE => Ans (when (leading_l_paren t) [KwModuleField])
  | ROOT => Ans (when (leading_l_paren t) [KwModule])
  | _ => Ans []
  end.

(** [get_idx_cmp_text], completion.rs:711-728: the label and the inserted
    text. *)
Definition idx_text (i : idx) (has_dollar : bool) : option (text * option text) :=
  if has_dollar then
    match i_name i with
    | Some x => match x with c :: r => if N.eqb c 36 then Some (x, Some r) else None | [] => None end
    | None => None
    end
  else Some (match i_name i with
             | Some x => x
             | None => match i_num i with Some n => show_N n | None => [] end
             end, None).
Definition has_dollar (t : elem) : bool := starts_with (T "$") (etext t).
Definition name_item (t : elem) (k : item_kind) (detail doc : option text) (i : idx) : list item :=
  match idx_text i (has_dollar t) with
  | Some (l, ins) => [mk_item l ins k detail doc]
  | None => []
  end.

(** [parent_ancestors().find(...)]. *)
Definition ancestor (t : elem) (k : kind) : option elem := find (fun n => kind_eqb (ekind n) k) (tl (ancestors t)).
Definition fields (tb : table) (t : elem) (k : skind) : list symbol :=
  match ancestor t MODULE with
  | Some m => filter (fun s => skind_eqb (s_kind s) k && key_eqb (s_region s) (key_of m)) (symbols tb)
  | None => []
  end.
Definition type_item (l : string) : item := mk_item (T l) None IClass None (value_type_doc (T l)).

(** The block symbols around the token, innermost first, numbered. *)
Fixpoint number_from (n : N) (l : list symbol) : list idx :=
  match l with
  | [] => []
  | s :: r => mk_idx (Some n) (i_name (s_idx s)) :: number_from (n + 1) r
  end.
Definition blocks_around (tb : table) (t : elem) : list symbol :=
  rev (filter (fun s => skind_eqb (s_kind s) SBlockDef
      && (Nat.leb (key_start (s_key s)) (estart t) && Nat.leb (eend t) (key_end (s_key s)))) (symbols tb)).

(** The body of the fold in [get_cmp_list], completion.rs:371-709. *)
Definition ctx_items (src : text) (tb : table) (t : elem) (c : cmp_ctx) : ans (list item) :=
  match c with
  | CInstr => Ans (map (plain IOperator) instr_names)
  | CValType => Ans (map type_item ["i32"; "i64"; "f32"; "f64"; "v128"; "funcref"; "externref"]%string)
  | CRefType => Ans (map type_item ["funcref"; "externref"]%string)
  | CLocal =>
      Ans match ancestor t MODULE_FIELD_FUNC with
          | None => []
          | Some f =>
              flat_map (fun s => name_item t IVariable (option_map show_valtype (extract_type (s_green s))) None (s_idx s))
                (filter (fun s => (skind_eqb (s_kind s) SParam || skind_eqb (s_kind s) SLocal)
                    && key_eqb (s_region s) (key_of f)) (symbols tb))
          end
  | CFunc =>
      abind (map_ans (fun s =>
          match idx_text (s_idx s) (has_dollar t) with
          | None => Ans []
          | Some _ => abind (render_func_header src tb s) (fun h => Ans (name_item t IFunction None (Some (code h)) (s_idx s)))
          end) (fields tb t SFunc)) (fun l => Ans (concat l))
  | CFuncType => Ans (flat_map (fun s => name_item t IInterface None None (s_idx s)) (fields tb t SType))
  | CGlobal =>
      Ans (flat_map (fun s => name_item t IVariable (option_map show_valtype (extract_global_type (s_green s))) None (s_idx s))
             (fields tb t SGlobalDef))
  | CMemArg => Ans (map (plain ISnippet) ["offset="; "align="]%string)
  | CMemory => Ans (flat_map (fun s => name_item t IVariable None None (s_idx s)) (fields tb t SMemoryDef))
  | CTable => Ans (flat_map (fun s => name_item t IVariable None None (s_idx s)) (fields tb t STableDef))
  | CBlock => Ans (flat_map (name_item t IVariable None None) (number_from 0 (blocks_around tb t)))
  | KwModule => Ans [plain IKeyword "module"]
  | KwModuleField =>
      Ans (map (plain IKeyword) ["func"; "type"; "import"; "table"; "memory"; "global"; "export"; "start"; "elem"; "data"]%string)
  | KwImExport => Ans (map (plain IKeyword) ["import"; "export"]%string)
  | KwType => Ans [plain IKeyword "type"]
  | KwParamResult => Ans (map (plain IKeyword) ["param"; "result"]%string)
  | KwLocal => Ans [plain IKeyword "local"]
  | KwMut => Ans [plain IKeyword "mut"]
  | KwPortDesc => Ans (map (plain IKeyword) ["func"; "table"; "memory"; "global"]%string)
  | KwData => Ans [plain IKeyword "data"]
  | KwFunc => Ans [plain IKeyword "func"]
  | KwElem => Ans [plain IKeyword "elem"]
  | KwItem => Ans [plain IKeyword "item"]
  | KwMemory => Ans [plain IKeyword "memory"]
  | KwOffset => Ans [plain IKeyword "offset"]
  | KwDeclare => Ans [plain IKeyword "declare"]
  | KwTable => Ans [plain IKeyword "table"]
  end.

(** [completion], completion.rs:20-29. *)
Definition completion (src : text) (pos : lsp_pos) : ans (list item) :=
  abind (find_token src pos) (fun t =>
  abind (aopt (parent t)) (fun p =>
  abind (contexts t p) (fun cs =>
  match cs with
  | [] => NoAns
  | _ =>
      abind (the_symbols src) (fun tb =>
      abind (map_ans (ctx_items src tb t) cs) (fun l => Ans (concat l)))
  end))).
