(** The formatter: crates/formatter/src.  [format_range] and the two requests
    are in FmtRequest.v.

    Every [DocGen] implementation has the same form: for each accessor of the
    syntax tree in turn, if it finds a child, print what separates the child
    from what came before, then the child, then remember the comments and
    blank lines that follow it ("trivias").  The implementations are modelled
    by tables of such steps ([parts_of]) and one interpreter ([run_parts]). *)

From Coq Require Import String List NArith Bool Arith.
From Verif Require Import Text Kind Green LineIndex.
Import ListNotations.
Local Open Scope string_scope.
Local Open Scope list_scope.

(** ** Documents of the pretty printer *)

(** [tiny_pretty::Doc] as far as the formatter uses it: [nil], [text],
    [hard_line], [empty_line], [soft_line], [nest] and [list]; [Doc::space()]
    is a text. *)
Inductive doc : Type :=
| DNil
| DText (t : text)
| DNewLine
| DEmptyLine
| DSoft
| DNest (n : nat) (d : doc)
| DList (l : list doc).

Definition space : doc := DText (T " ").
Definition nilb {A : Type} (l : list A) : bool := match l with [] => true | _ => false end.

(** ** Comments, white space and unknown tokens after a child *)

Definition of_kind (k : kind) (g : green) : bool :=
  match g with Tok k' _ => kind_eqb k k' | Node _ _ => false end.
Definition is_ws (g : green) : bool := of_kind WHITESPACE g.
Definition is_comment (g : green) : bool := of_kind LINE_COMMENT g || of_kind BLOCK_COMMENT g.

(** [text.chars().filter(|c| *c == '\n').count()], mod.rs:112, 165, 188, 240. *)
Definition count_lf (t : text) : nat := length (filter (N.eqb c_lf) t).
Definition gap_docs (t : text) : list doc :=
  match count_lf t with
  | 0 => [space]
  | 1 => [DNewLine]
  | _ => [DEmptyLine; DNewLine]
  end.

(** The siblings after a child up to the first that is neither a comment nor
    white space nor an ERROR token, mod.rs:147-163 and 204-219. *)
Fixpoint trail (l : list green) : list green :=
  match l with
  | g :: r => if is_ws g || is_comment g || of_kind ERROR g then g :: trail r else []
  | [] => []
  end.
Fixpoint skip_ws (l : list green) : list green :=
  match l with
  | g :: r => if is_ws g then skip_ws r else l
  | [] => []
  end.

(** Options: [format_comments] and [ignore_comment_directive] of
    [LanguageOptions], config.rs:78-92, and [indent_width] of
    [LayoutOptions]. *)
Record options := mk_options { fix_comments : bool; directive : text; indent_width : nat }.

Definition blank_char (c : char) : bool := N.eqb c c_space || N.eqb c c_tab.
Definition starts_blank (t : text) : bool := match t with c :: _ => blank_char c | [] => false end.
Definition ends_blank (t : text) : bool := starts_blank (rev t).

(** [format_line_comment], mod.rs:254-267, and [format_block_comment],
    mod.rs:269-289.  The two [expect]s cannot fail on a comment of the
    parser (theorem [C33_no_panic]); here the text is left as it is then. *)
Definition line_comment_text (o : options) (t : text) : text :=
  if fix_comments o then
    match strip_prefix (T ";;") t with
    | Some [] => t
    | Some c => if starts_blank c then t else T ";; " ++ c
    | None => t
    end
  else t.
Definition strip_suffix (s t : text) : option text :=
  match strip_prefix (rev s) (rev t) with Some r => Some (rev r) | None => None end.
Definition block_comment_text (o : options) (t : text) : text :=
  if fix_comments o then
    match strip_prefix (T "(;") t with
    | None => t
    | Some r =>
        match strip_suffix (T ";)") r with
        | None => t
        | Some c =>
            if nilb c || starts_blank c && ends_blank c then t
            else if starts_blank c then T "(;" ++ c ++ T " ;)"
            else if ends_blank c then T "(; " ++ c ++ T ";)"
            else T "(; " ++ c ++ T " ;)"
        end
    end
  else t.

(** The [for_each] over the tokens, mod.rs:180-200 and 232-252. *)
Definition trivia_docs (o : options) (g : green) : list doc :=
  match g with
  | Tok LINE_COMMENT t => [DText (line_comment_text o t)]
  | Tok BLOCK_COMMENT t => [DText (block_comment_text o t)]
  | Tok WHITESPACE t => gap_docs t
  | Tok ERROR t => [DText t]
  | _ => []
  end.

(** [format_trivias_after_node], mod.rs:143-202; the argument is the list of
    the siblings after the node. *)
Definition after_node (o : options) (next : list green) : list doc :=
  let ts := trail next in
  if forallb (fun g => is_ws g && Nat.ltb (count_lf (gtext g)) 2) ts then []
  else (match ts with g :: _ => if is_comment g then [DSoft] else [] | [] => [] end)
       ++ flat_map (trivia_docs o) ts.
(** [format_trivias_after_token], mod.rs:203-252. *)
Definition after_token (o : options) (next : list green) : list doc :=
  let ts := skip_ws (trail next) in
  if forallb is_ws ts then [] else space :: flat_map (trivia_docs o) ts.

(** ** Ignored nodes *)

(** [char::is_whitespace]: the characters of Unicode property White_Space. *)
Definition is_whitespace (c : char) : bool :=
  in_range 9%N 13%N c || char_in [32; 133; 160; 5760; 8232; 8233; 8239; 8287; 12288]%N c || in_range 8192%N 8202%N c.
Fixpoint trim_start (t : text) : text :=
  match t with
  | c :: r => if is_whitespace c then trim_start r else t
  | [] => []
  end.

(** [should_ignore], mod.rs:302-323; [p] is the sibling two before the node
    or, if there is none, the one two before the node's parent. *)
Definition should_ignore (o : options) (p : option green) : bool :=
  match p with
  | Some (Tok LINE_COMMENT t) =>
      match strip_prefix (T ";;") t with
      | Some s =>
          match strip_prefix (directive o) (trim_start s) with
          | Some [] => true
          | Some (c :: _) => is_ascii_whitespace c
          | None => false
          end
      | None => false
      end
  | _ => false
  end.
Definition or_else {A : Type} (a b : option A) : option A := match a with Some _ => a | None => b end.

(** [str::lines]: the text cut at line feeds, an empty last piece dropped, a
    carriage return before the line feed dropped. *)
Fixpoint split_lf (t : text) : text * list text :=
  match t with
  | [] => ([], [])
  | c :: r => let '(a, l) := split_lf r in
              if N.eqb c c_lf then ([], a :: l) else (c :: a, l)
  end.
Definition drop_cr (t : text) : text :=
  match rev t with c :: r => if N.eqb c c_cr then rev r else t | [] => t end.
Definition str_lines (t : text) : list text :=
  let '(a, l) := split_lf t in
  match rev (a :: l) with
  | last :: before => map drop_cr (rev before) ++ (if nilb last then [] else [last])
  | [] => []
  end.
(** [reflow], mod.rs:291-300. *)
Definition reflow (t : text) : list doc :=
  match str_lines t with
  | [] => []
  | a :: l => DText a :: flat_map (fun x => [DEmptyLine; DText x]) l
  end.

(** ** The steps *)

(** Accessors of wat_syntax::ast: children of some kinds, tokens of a kind,
    the keyword with a given text. *)
Inductive sel : Type :=
| STok (k : kind)
| SKw (s : string)
| SNode (ks : list kind).
Inductive mode : Type := First | Second | Each.

(** What is printed between the last thing and a child. *)
Inductive lead : Type :=
| LTight      (* [docs.append(&mut trivias)] *)
| LSpace      (* a space, unless there are trivias *)
| LHard       (* a line break, unless there are trivias *)
| LSoft       (* a space or line break, unless there are trivias *)
| LField      (* as [LHard]; the child may be ignored, module.rs:502-518 *)
| LKeyworded  (* module.rs:51-66, 127-142, 573-585, 641-653 *)
| LThen       (* instr.rs:117-124 *)
| LOperand    (* instr.rs:374-383 *)
| LTypeUse    (* module.rs:748-757 *)
| LLocal      (* module.rs:761-778 *)
| LParam      (* module.rs:1218-1235 *)
| LResult     (* module.rs:1237-1254 *)
| LIndex      (* module.rs:117-126 *)
| LFresh.     (* nothing, trivias are lost: module.rs:127-130 *)

(** One accessor: which children, how many of them, what comes before each,
    and a fixed text printed instead of the child. *)
Record step := Step { s_sel : sel; s_mode : mode; s_lead : lead; s_lit : option string }.

Inductive part : Type :=
| One (s : step)
| Nested (only_folded : bool) (l : list step).   (* indented by [indent_width] *)
Inductive closing : Type :=
| CParen      (* trivias and [)], whether or not the tree has one *)
| CIfParen    (* the same if the tree has one *)
| CAppend     (* trivias *)
| CNone.      (* trivias are lost *)

Inductive shape : Type :=
| Whole                                 (* the text of the node *)
| Choice (l : list sel) (tok : bool)    (* the first child found, or the first token *)
| Parts (l : list part) (c : closing) (nest : bool)
| IfParen (a b : shape).

Definition instr_kinds : list kind := [BLOCK_BLOCK; BLOCK_LOOP; BLOCK_IF; PLAIN_INSTR].
Definition field_kinds : list kind :=
  [MODULE_FIELD_DATA; MODULE_FIELD_ELEM; MODULE_FIELD_EXPORT; MODULE_FIELD_FUNC; MODULE_FIELD_GLOBAL;
   MODULE_FIELD_IMPORT; MODULE_FIELD_MEMORY; MODULE_FIELD_START; MODULE_FIELD_TABLE; MODULE_FIELD_TYPE].
Definition import_desc_kinds : list kind :=
  [IMPORT_DESC_GLOBAL_TYPE; IMPORT_DESC_MEMORY_TYPE; IMPORT_DESC_TABLE_TYPE; IMPORT_DESC_TYPE_USE].
Definition export_desc_kinds : list kind :=
  [EXPORT_DESC_FUNC; EXPORT_DESC_GLOBAL; EXPORT_DESC_MEMORY; EXPORT_DESC_TABLE].

Definition p_paren : part := One (Step (STok L_PAREN) First LTight (Some "(")).
Definition p_kw (s : string) : part := One (Step (STok KEYWORD) First LTight (Some s)).
Definition p_ident : part := One (Step (STok IDENT) First LSpace None).
Definition p_node (ks : list kind) : part := One (Step (SNode ks) First LSpace None).
Definition p_nodes (ks : list kind) : part := One (Step (SNode ks) Each LSpace None).
Definition p_instrs : part := Nested false [Step (SNode instr_kinds) Each LHard None].
Definition p_close : part := One (Step (STok R_PAREN) First LTight (Some ")")).
Definition p_end : list part :=
  [One (Step (SKw "end") First LHard (Some "end")); One (Step (STok IDENT) Second LSpace None)].
Definition form (kw : string) (l : list part) : shape := Parts (p_paren :: p_kw kw :: l) CParen false.
Definition keyworded (ks : list kind) (m : mode) : part := One (Step (SNode ks) m LKeyworded None).

(** The implementations of [DocGen], by kind of node; ROOT is [root_doc].
    The first step of each, pushing the opening parenthesis, comes before
    there are trivias: [LTight] prints nothing then. *)
Definition shape_of (k : kind) : option shape :=
  match k with
  (* ty.rs *)
  | FUNC_TYPE => Some (form "func" [p_nodes [PARAM]; p_nodes [RESULT]])             (* 5-40 *)
  | GLOBAL_TYPE =>                                                                  (* 42-71 *)
      Some (IfParen (form "mut" [p_node [VAL_TYPE]]) (Choice [SNode [VAL_TYPE]] false))
  | LIMITS =>                                                                       (* 73-91 *)
      Some (Parts [One (Step (STok UNSIGNED_INT) First LTight None);
                   One (Step (STok UNSIGNED_INT) Second LSpace None)] CNone false)
  | MEMORY_TYPE => Some (Choice [SNode [LIMITS]] false)                             (* 93-101 *)
  | PARAM => Some (form "param" [p_ident; p_nodes [VAL_TYPE]])                      (* 103-138 *)
  | RESULT => Some (form "result" [p_nodes [VAL_TYPE]])                             (* 140-166 *)
  | TABLE_TYPE =>                                                                   (* 168-186 *)
      Some (Parts [One (Step (SNode [LIMITS]) First LTight None);
                   One (Step (STok REF_TYPE) First LSpace None)] CNone false)
  | VAL_TYPE => Some Whole                                                          (* 188-192 *)
  (* instr.rs *)
  | BLOCK_BLOCK =>                                                                  (* 5-73 *)
      Some (Parts ([p_paren; p_kw "block"; p_ident; p_node [BLOCK_TYPE]; p_instrs; p_close] ++ p_end) CNone false)
  | BLOCK_IF =>                                                                     (* 75-166 *)
      Some (Parts ([p_paren; p_kw "if"; p_ident; p_node [BLOCK_TYPE];
                    Nested true [Step (SNode instr_kinds) Each LHard None;
                                 Step (SNode [BLOCK_IF_THEN]) First LThen None;
                                 Step (SNode [BLOCK_IF_ELSE]) First LHard None];
                    p_close] ++ p_end) CNone false)
  | BLOCK_IF_ELSE =>                                                                (* 168-205 *)
      Some (Parts [p_paren; p_kw "else"; p_ident; One (Step (SNode instr_kinds) Each LHard None)] CIfParen true)
  | BLOCK_IF_THEN =>                                                                (* 207-244 *)
      Some (Parts [p_paren; p_kw "then"; p_ident; One (Step (SNode instr_kinds) Each LHard None)] CIfParen true)
  | BLOCK_LOOP =>                                                                   (* 256-324 *)
      Some (Parts ([p_paren; p_kw "loop"; p_ident; p_node [BLOCK_TYPE]; p_instrs; p_close] ++ p_end) CNone false)
  | BLOCK_TYPE => Some (Choice [SNode [RESULT]; SNode [TYPE_USE]] false)            (* 326-336 *)
  | OPERAND => Some (Choice [SNode instr_kinds; SNode [TYPE_USE]] true)             (* 347-359 *)
  | PLAIN_INSTR =>                                                                  (* 361-393 *)
      Some (Parts [p_paren; One (Step (STok INSTR_NAME) First LTight None);
                   One (Step (SNode [OPERAND]) Each LOperand None)] CIfParen true)
  (* module.rs *)
  | DATA => Some (form "data" [One (Step (STok STRING) Each LSpace None)])          (* 5-31 *)
  | ELEM => Some (form "elem" [p_nodes [INDEX]; keyworded [ELEM_EXPR] Each])        (* 33-73 *)
  | ELEM_EXPR => Some (Parts [p_paren; p_kw "item"; p_instrs] CIfParen false)       (* 75-107 *)
  | ELEM_LIST =>                                                                    (* 109-149 *)
      Some (Parts [p_kw "func"; One (Step (SNode [INDEX]) Each LIndex None);
                   One (Step (STok REF_TYPE) First LFresh None); keyworded [ELEM_EXPR] Each] CAppend false)
  | EXPORT => Some (form "export" [p_node [NAME]])                                  (* 151-177 *)
  | EXPORT_DESC_FUNC | EXPORT_DESC_GLOBAL | EXPORT_DESC_MEMORY | EXPORT_DESC_TABLE =>
      Some (Parts [p_paren; One (Step (STok KEYWORD) First LTight None);            (* 1262-1291 *)
                   p_node [INDEX]] CParen false)
  | IMPORT => Some (form "import" [p_node [MODULE_NAME]; p_node [NAME]])            (* 214-249 *)
  | IMPORT_DESC_GLOBAL_TYPE => Some (form "global" [p_ident; p_node [GLOBAL_TYPE]]) (* 262-297 *)
  | IMPORT_DESC_MEMORY_TYPE => Some (form "memory" [p_ident; p_node [MEMORY_TYPE]]) (* 299-334 *)
  | IMPORT_DESC_TABLE_TYPE => Some (form "table" [p_ident; p_node [TABLE_TYPE]])    (* 336-371 *)
  | IMPORT_DESC_TYPE_USE => Some (form "func" [p_ident; p_node [TYPE_USE]])         (* 373-408 *)
  | INDEX => Some Whole                                                             (* 410-414 *)
  | LOCAL => Some (form "local" [p_ident; p_nodes [VAL_TYPE]])                      (* 416-451 *)
  | MEM_USE => Some (form "memory" [p_node [INDEX]])                                (* 453-479 *)
  | MODULE =>                                                                       (* 481-525 *)
      Some (form "module" [p_ident; Nested false [Step (SNode field_kinds) Each LField None]])
  | MODULE_FIELD_DATA =>                                                            (* 544-602 *)
      Some (form "data" [p_ident; p_node [MEM_USE]; keyworded [OFFSET] First;
                         One (Step (STok STRING) Each LSoft None)])
  | MODULE_FIELD_ELEM =>                                                            (* 604-671 *)
      Some (form "elem" [p_ident; One (Step (SKw "declare") First LSpace (Some "declare"));
                         p_node [TABLE_USE]; keyworded [OFFSET] First; p_node [ELEM_LIST]])
  | MODULE_FIELD_EXPORT => Some (form "export" [p_node [NAME]; p_node export_desc_kinds])   (* 673-708 *)
  | MODULE_FIELD_FUNC =>                                                            (* 710-799 *)
      Some (form "func" [p_ident; p_node [IMPORT]; p_nodes [EXPORT];
                         One (Step (SNode [TYPE_USE]) First LTypeUse None);
                         One (Step (SNode [LOCAL]) Each LLocal None); p_instrs])
  | MODULE_FIELD_GLOBAL =>                                                          (* 801-867 *)
      Some (form "global" [p_ident; p_node [IMPORT]; p_node [EXPORT]; p_node [GLOBAL_TYPE]; p_instrs])
  | MODULE_FIELD_IMPORT =>                                                          (* 869-913 *)
      Some (form "import" [p_node [MODULE_NAME]; p_node [NAME]; p_node import_desc_kinds])
  | MODULE_FIELD_MEMORY =>                                                          (* 915-977 *)
      Some (form "memory" [p_ident; p_node [IMPORT]; p_node [EXPORT]; p_node [MEMORY_TYPE]; p_node [DATA]])
  | MODULE_FIELD_START => Some (form "start" [p_node [INDEX]])                      (* 979-1005 *)
  | MODULE_FIELD_TABLE =>                                                           (* 1007-1078 *)
      Some (form "table" [p_ident; p_node [IMPORT]; p_node [EXPORT]; p_node [TABLE_TYPE];
                          One (Step (STok REF_TYPE) First LSpace None); p_node [ELEM]])
  | MODULE_FIELD_TYPE => Some (form "type" [p_ident; p_node [FUNC_TYPE]])           (* 1080-1115 *)
  | MODULE_NAME => Some Whole                                                       (* 1117-1121 *)
  | NAME => Some Whole                                                              (* 1123-1127 *)
  | OFFSET => Some (Parts [p_paren; p_kw "offset"; p_instrs] CIfParen false)        (* 1129-1161 *)
  | TABLE_USE => Some (form "table" [p_node [INDEX]])                               (* 1163-1189 *)
  | TYPE_USE =>                                                                     (* 1191-1260 *)
      Some (Parts [p_paren; p_kw "type"; p_node [INDEX]; p_close;
                   One (Step (SNode [PARAM]) Each LParam None);
                   One (Step (SNode [RESULT]) Each LResult None)] CNone false)
  | _ => None
  end.

(** ** The interpreter *)

(** A child with its own document, the siblings after it, and the element
    [should_ignore] looks at. *)
Record item := mk_item { i_el : green; i_doc : doc; i_next : list green; i_prev : option green }.

Definition selects (s : sel) (g : green) : bool :=
  match s, g with
  | STok k, Tok k' _ => kind_eqb k k'
  | SKw w, Tok KEYWORD t => text_eqb t (T w)
  | SNode ks, Node k _ => existsb (kind_eqb k) ks
  | _, _ => false
  end.
Definition choose (s : step) (its : list item) : list item :=
  let l := filter (fun i => selects (s_sel s) (i_el i)) its in
  match s_mode s with
  | First => firstn 1 l
  | Second => firstn 1 (skipn 1 l)
  | Each => l
  end.

Definition has (s : sel) (g : green) : bool :=
  match g with Node _ cs => existsb (selects s) cs | Tok _ _ => false end.
Definition has_item (s : sel) (its : list item) : bool := existsb (fun i => selects s (i_el i)) its.

(** The state of an implementation: [docs] and [trivias]. *)
Definition fstate : Type := list doc * list doc.

Section Interpreter.
  Variable o : options.

  Definition or_trivias (d : list doc) (tr : list doc) : list doc := if nilb tr then d else tr.
  Definition nested_soft : doc := DNest (indent_width o) DSoft.

  (** What is pushed before a child: [paren] says whether the node has an
      opening parenthesis, [first] whether the child is the first of its
      step. *)
  Definition lead_docs (l : lead) (paren first : bool) (docs tr : list doc) (i : item) : list doc :=
    match l with
    | LTight => tr
    | LSpace => or_trivias [space] tr
    | LHard | LField => or_trivias [DNewLine] tr
    | LSoft => or_trivias [DSoft] tr
    | LKeyworded =>
        if nilb tr && has (STok KEYWORD) (i_el i) then [DNest (indent_width o) DNewLine] else tr
    | LThen => if nilb tr && has (STok L_PAREN) (i_el i) then [DNewLine] else tr
    | LOperand => or_trivias [if has (SNode instr_kinds) (i_el i) then DNewLine else space] tr
    | LTypeUse => or_trivias [if has (STok KEYWORD) (i_el i) then space else nested_soft] tr
    | LLocal => or_trivias [if first then nested_soft else space] tr
    | LParam =>
        if first then
          if nilb tr && negb (nilb docs) then [nested_soft] else if paren then tr else []
        else or_trivias [space] tr
    | LResult =>
        if first then
          if nilb tr && negb (nilb docs) then [space] else if paren then tr else []
        else or_trivias [space] tr
    | LIndex => or_trivias (if nilb docs then [] else [space]) tr
    | LFresh => []
    end.

  (** What is pushed for a child. *)
  Definition content (s : step) (i : item) : list doc :=
    match s_lit s with
    | Some x => [DText (T x)]
    | None =>
        match s_lead s with
        | LKeyworded =>
            [if has (STok KEYWORD) (i_el i) then DNest (indent_width o) (i_doc i) else i_doc i]
        | LField => if should_ignore o (i_prev i) then reflow (gtext (i_el i)) else [i_doc i]
        | _ => [i_doc i]
        end
    end.

  Definition after (i : item) : list doc :=
    match i_el i with Tok _ _ => after_token o (i_next i) | Node _ _ => after_node o (i_next i) end.

  Definition emit (s : step) (paren first : bool) (i : item) (st : fstate) : fstate :=
    let '(docs, tr) := st in
    (docs ++ lead_docs (s_lead s) paren first docs tr i ++ content s i, after i).

  Fixpoint emit_all (s : step) (paren first : bool) (l : list item) (st : fstate) : fstate :=
    match l with
    | [] => st
    | i :: r => emit_all s paren false r (emit s paren first i st)
    end.

  Definition run_step (its : list item) (s : step) (st : fstate) : fstate :=
    emit_all s (has_item (STok L_PAREN) its) true (choose s its) st.
  Definition run_steps (its : list item) (l : list step) (st : fstate) : fstate :=
    fold_left (fun st s => run_step its s st) l st.

  Definition run_part (its : list item) (p : part) (st : fstate) : fstate :=
    match p with
    | One s => run_step its s st
    | Nested only_folded l =>
        let '(docs, tr) := st in
        let '(inner, tr') := run_steps its l ([], tr) in
        if negb only_folded || has_item (STok L_PAREN) its
        then (docs ++ [DNest (indent_width o) (DList inner)], tr')
        else (docs ++ inner, tr')
    end.
  Definition run_parts (its : list item) (l : list part) (st : fstate) : fstate :=
    fold_left (fun st p => run_part its p st) l st.

  Definition close (its : list item) (c : closing) (st : fstate) : list doc :=
    let '(docs, tr) := st in
    match c with
    | CParen => docs ++ tr ++ [DText (T ")")]
    | CIfParen => if has_item (STok R_PAREN) its then docs ++ tr ++ [DText (T ")")] else docs
    | CAppend => docs ++ tr
    | CNone => docs
    end.

  (** The first token below the children. *)
  Definition first_leaf (l : list (kind * text)) : option text :=
    match l with (_, t) :: _ => Some t | [] => None end.

  Fixpoint shape_doc (g : green) (its : list item) (s : shape) : doc :=
    match s with
    | Whole => DText (gtext g)
    | Choice l tok =>
        match flat_map (fun s => filter (fun i => selects s (i_el i)) its) l with
        | i :: _ => i_doc i
        | [] => if tok then match first_leaf (gtokens g) with Some t => DText t | None => DNil end else DNil
        end
    | Parts l c nest =>
        let d := DList (close its c (run_parts its l ([], []))) in
        if nest then DNest (indent_width o) d else d
    | IfParen a b => if has_item (STok L_PAREN) its then shape_doc g its a else shape_doc g its b
    end.

  (** [impl DocGen for Root], mod.rs:89-141; [prev] is the kind of the
      element before, [first] says whether the element is the first. *)
  Fixpoint root_docs (prev : kind) (first : bool) (its : list item) : list doc :=
    match its with
    | [] => []
    | i :: r =>
        (match i_el i with
         | Node k _ =>
             if should_ignore o (i_prev i) then reflow (gtext (i_el i))
             else if kind_eqb k MODULE then [i_doc i] else []
         | Tok LINE_COMMENT t => [DText (line_comment_text o t)]
         | Tok BLOCK_COMMENT t => [DText (block_comment_text o t)]
         | Tok WHITESPACE t =>
             if first || nilb r then []
             else match count_lf t with
                  | 0 => if kind_eqb prev LINE_COMMENT then [DNewLine] else [space]
                  | _ => gap_docs t
                  end
         | Tok _ t => [DText t]
         end) ++ root_docs (gkind (i_el i)) false r
    end.
  Definition root_doc (its : list item) : doc := DList (root_docs WHITESPACE true its ++ [DNewLine]).

  Definition node_doc (g : green) (its : list item) : doc :=
    if kind_eqb (gkind g) ROOT then root_doc its
    else match shape_of (gkind g) with Some s => shape_doc g its s | None => DNil end.

  (** [doc] of an element; [outer] is the sibling two before it. *)
  Fixpoint gdoc (outer : option green) (g : green) : doc :=
    match g with
    | Tok _ t => DText t
    | Node k cs =>
        node_doc g
          ((fix items (p1 p2 : option green) (l : list green) : list item :=
              match l with
              | [] => []
              | c :: r => mk_item c (gdoc p2 c) r (or_else p2 outer) :: items (Some c) p1 r
              end) None None cs)
    end.

  (** [format_node], mod.rs:23-83. *)
  Definition format_node (outer : option green) (g : green) : option doc :=
    if kind_eqb (gkind g) ROOT then Some (gdoc outer g)
    else match shape_of (gkind g) with Some _ => Some (gdoc outer g) | None => None end.
End Interpreter.

(** ** The pretty printer *)

(** [tiny_pretty::print].  A soft line ([group] of one [line_or_space]) is a
    space if what follows fits in the line and a line break otherwise; all
    else is printed the same way whatever the width.  [fits] decides, from
    the column and the documents that are still to be printed, whether it
    does; [measure] gives the width of a text. *)
Record layout := mk_layout
  { line_break : text
  ; tabs : bool
  ; tab_size : nat
  ; measure : text -> nat
  ; fits : nat -> list (nat * doc) -> bool }.

Section Print.
  Variable y : layout.

  Definition indentation (n : nat) : text :=
    if tabs y
    then repeat c_tab (Nat.div n (tab_size y)) ++ repeat c_space (Nat.modulo n (tab_size y))
    else repeat c_space n.

  (** [print_doc d n rest col]: the text of [d] at indentation [n] when
      [rest] is still to be printed and the column is [col], and the column
      after it. *)
  Fixpoint print_doc (d : doc) (n : nat) (rest : list (nat * doc)) (col : nat) : text * nat :=
    match d with
    | DNil => ([], col)
    | DText t => (t, col + measure y t)
    | DNewLine => (line_break y ++ indentation n, n)
    | DEmptyLine => (line_break y, col)
    | DSoft => if fits y (S col) rest then (T " ", S col) else (line_break y ++ indentation n, n)
    | DNest m d => print_doc d (n + m) rest col
    | DList l =>
        (fix go (l : list doc) (col : nat) : text * nat :=
           match l with
           | [] => ([], col)
           | d :: r =>
               let '(t, c1) := print_doc d n (map (pair n) r ++ rest) col in
               let '(t', c2) := go r c1 in
               (t ++ t', c2)
           end) l col
    end.
End Print.

(** [fitting] of tiny_pretty for a soft line: the texts up to the next place
    where a line may end must not exceed the width. *)
Fixpoint doc_fits (measure : text -> nat) (width : nat) (d : doc) (col : nat) : bool + nat :=
  match d with
  | DNil => inr col
  | DText t => if Nat.ltb width (col + measure t) then inl false else inr (col + measure t)
  | DNewLine => inl true
  | DEmptyLine => inr col
  | DSoft => inl true
  | DNest _ d => doc_fits measure width d col
  | DList l =>
      (fix go (l : list doc) (col : nat) : bool + nat :=
         match l with
         | [] => inr col
         | d :: r => match doc_fits measure width d col with inr c => go r c | x => x end
         end) l col
  end.
Fixpoint rest_fits (measure : text -> nat) (width : nat) (col : nat) (rest : list (nat * doc)) : bool :=
  match rest with
  | [] => true
  | (_, d) :: r => match doc_fits measure width d col with inl b => b | inr c => rest_fits measure width c r end
  end.

(** ** The interface *)

Record settings := mk_settings
  { f_options : options; f_tabs : bool; f_crlf : bool; f_fits : nat -> list (nat * doc) -> bool
  ; f_measure : text -> nat }.

(** [build_options], lib.rs:46-56. *)
Definition layout_of (s : settings) : layout :=
  mk_layout (if f_crlf s then [c_cr; c_lf] else [c_lf]) (f_tabs s) (indent_width (f_options s))
            (f_measure s) (f_fits s).
Definition print (s : settings) (d : doc) : text := fst (print_doc (layout_of s) d 0 [] 0).

(** [format], lib.rs:15-18. *)
Definition format (s : settings) (root : green) : text := print s (gdoc (f_options s) None root).
