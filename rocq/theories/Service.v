(** The handlers of the language service as programs over the query engine.

    The handlers are modelled in Nav.v, Features.v, Hover.v, SemTok.v, Action.v,
    Completion.v and Check.v as functions of the text.  Here each of them is
    split: [core f] is [f] with the four things it takes from the text (the
    syntax errors, the symbol table, the tree, the line index) as arguments,
    and the definition is accepted only if nothing else of the text is left.
    The program of a handler reads those four queries and applies the core.

    Simplification: the code asks for a query where it first needs it, and for
    signatures and headers through the memoized queries; the programs read the
    four queries first and compute the rest from them.  [C34_answers_current]
    holds for every program over the queries. *)

From Coq Require Import String List NArith Bool Arith Lia.
From Verif Require Import Text Kind Green SpecParser Winnow Red LineIndex Cursor Doc Ast Binder Nav InstrMeta Types Check
  SemTok Features Hover Action Completion Salsa.
Import ListNotations.

Ltac unfolded f :=
  eval cbv beta delta [range_of create_location the_symbols cursor_token goto_definition type_of_def
    goto_type_definition goto_declaration find_references prepare_rename edit_token rename_impl rename folding_of
    folding_range parent_ranges selection_at selection_range doc_entry document_symbol item_selection call_item_of
    prepare_step prepare_call_hierarchy func_at_range incoming_of incoming_calls outgoing_of outgoing_calls pos_at
    type_hint hint_of inlay_hint func_hover global_hover def_hover ref_hover key_hover token_hover hover build_tokens
    all_tokens semantic_tokens_full tokens_in semantic_tokens_range split_act join_act mem_arg_act act_on code_action
    find_token ctx_items completion key_range diag_at multi_modules check_operand literal_operands undef_diag
    undef_check ident_range lsp_of ident_lsp_range group_diag group_diags dup_scope nested_ranges nested_diag dup_nested
    dup_names resolve_type resolve_expected_types type_mismatch type_mismatches receive check_folded stack_step
    stack_loop check_stacked check_node check get_func_sig render_func_header] in f.
Ltac core f :=
  let t := constr:(fun src : text => ltac:(
     let u := unfolded (f src) in
     let v := eval pattern (syntax_diags src), (create_symbol_table (tree_of src)), (tree_of src), (new_line_index src) in u in
     match v with ?h _ _ _ _ => exact h end)) in
  let t := eval cbv beta in t in
  match t with (fun _ => ?h) => exact h end.

(** What a handler takes from the text. *)
Definition of_view (A : Type) : Type := ans (list diag) -> option table -> green -> line_index -> A.

(** ** Requests *)

(** The requests of server.rs:52-330, in that order. *)
Inductive method : Type :=
| MPrepareCalls | MIncoming | MOutgoing | MCodeAction | MCompletion | MDiagnostic | MFolding | MFormatting
| MRangeFormatting | MDefinition | MTypeDefinition | MDeclaration | MHover | MInlayHint | MReferences | MPrepareRename
| MRename | MSelection | MTokensFull | MTokensRange | MSymbols.

(** The parameters of a request; each method uses some of them. *)
Record params : Type := mk_params
  { p_uri : uri; p_pos : lsp_pos; p_range : range; p_positions : list lsp_pos; p_name : text;
    p_include : bool; p_wanted : wanted; p_tab : nat; p_spaces : bool }.

(** The results. *)
Inductive answer : Type :=
| ANull
| ACallItems (l : list call_item)
| ACalls (l : list (call_item * list range))
| AActions (l : list action)
| AItems (l : list item)
| ADiagnostics (l : list diag)
| AFolding (l : list range)
| AEdits (l : list (range * text))
| ADefinition (r : def_response)
| AHover (h : hover_answer)
| AHints (l : list hint)
| ALocations (l : list range)
| ARange (r : range)
| ASelections (l : list selection)
| ATokens (l : list semtok)
| ASymbols (l : list doc_symbol)
| AError (m : text).

Definition wrap {A} (f : A -> answer) (a : ans A) : ans answer :=
  match a with Ans x => Ans (f x) | NoAns => Ans ANull | Panics => Panics end.

(** The errors of [rename], rename.rs:39-41 and 50-52. *)
Definition bad_name : text -> text := fun x => T "Invalid name `" ++ x ++ T "`: not a valid identifier.".
Definition bad_place : text := T "This can't be renamed.".
Definition of_rename (name : text) (r : rename_result) : ans answer :=
  match r with
  | InvalidName => Ans (AError (bad_name name))
  | CantRename => Ans (AError bad_place)
  | NoEdit => Ans ANull
  | Edits l => Ans (AEdits l)
  | RenamePanics => Panics
  end.

Section Handlers.
  (** The token types the client supports (lib.rs:60-108), and the formatter
      with its options, which is not modelled here: any function of the tree
      and the line index. *)
  Variable legend : list string.
  Variable formatter : green -> line_index -> params -> ans (list (range * text)).
  Variable range_formatter : green -> line_index -> params -> ans (list (range * text)).

  (** The answer of a handler as a function of the text. *)
  Definition respond (m : method) (p : params) (src : text) : ans answer :=
    match m with
    | MPrepareCalls => wrap ACallItems (prepare_call_hierarchy src (p_pos p))
    | MIncoming => wrap ACalls (incoming_calls src (p_range p))
    | MOutgoing => wrap ACalls (outgoing_calls src (p_range p))
    | MCodeAction => wrap AActions (code_action src (p_wanted p) (fst (p_range p)) (snd (p_range p)))
    | MCompletion => wrap AItems (completion src (p_pos p))
    | MDiagnostic => wrap ADiagnostics (check src)
    | MFolding => wrap AFolding (folding_range src)
    | MFormatting => wrap AEdits (formatter (tree_of src) (new_line_index src) p)
    | MRangeFormatting => wrap AEdits (range_formatter (tree_of src) (new_line_index src) p)
    | MDefinition => wrap ADefinition (goto_definition src (p_pos p))
    | MTypeDefinition => wrap ADefinition (goto_type_definition src (p_pos p))
    | MDeclaration => wrap ADefinition (goto_declaration src (p_pos p))
    | MHover => wrap AHover (hover src (p_pos p))
    | MInlayHint => wrap AHints (inlay_hint src (p_range p))
    | MReferences => wrap ALocations (find_references src (p_pos p) (p_include p))
    | MPrepareRename => wrap ARange (prepare_rename src (p_pos p))
    | MRename => of_rename (p_name p) (rename src (p_pos p) (p_name p))
    | MSelection => wrap ASelections (selection_range src (p_positions p))
    | MTokensFull => wrap ATokens (semantic_tokens_full legend src)
    | MTokensRange => wrap ATokens (semantic_tokens_range legend src (p_range p))
    | MSymbols => wrap ASymbols (document_symbol src)
    end.
End Handlers.

Definition calls_core : of_view (lsp_pos -> ans (list call_item)) := ltac:(core prepare_call_hierarchy).
Definition incoming_core : of_view (range -> ans (list (call_item * list range))) := ltac:(core incoming_calls).
Definition outgoing_core : of_view (range -> ans (list (call_item * list range))) := ltac:(core outgoing_calls).
Definition action_core : of_view (wanted -> lsp_pos -> lsp_pos -> ans (list action)) := ltac:(core code_action).
Definition completion_core : of_view (lsp_pos -> ans (list item)) := ltac:(core completion).
Definition check_core : of_view (ans (list diag)) := ltac:(core check).
Definition folding_core : of_view (ans (list range)) := ltac:(core folding_range).
Definition definition_core : of_view (lsp_pos -> ans def_response) := ltac:(core goto_definition).
Definition type_definition_core : of_view (lsp_pos -> ans def_response) := ltac:(core goto_type_definition).
Definition declaration_core : of_view (lsp_pos -> ans def_response) := ltac:(core goto_declaration).
Definition hover_core : of_view (lsp_pos -> ans hover_answer) := ltac:(core hover).
Definition hint_core : of_view (range -> ans (list hint)) := ltac:(core inlay_hint).
Definition references_core : of_view (lsp_pos -> bool -> ans (list range)) := ltac:(core find_references).
Definition prepare_rename_core : of_view (lsp_pos -> ans range) := ltac:(core prepare_rename).
Definition rename_core : of_view (lsp_pos -> text -> rename_result) := ltac:(core rename).
Definition selection_core : of_view (list lsp_pos -> ans (list selection)) := ltac:(core selection_range).
Definition tokens_core : of_view (list string -> ans (list semtok)) := ltac:(core (fun s l => semantic_tokens_full l s)).
Definition tokens_range_core : of_view (list string -> range -> ans (list semtok)) :=
  ltac:(core (fun s l => semantic_tokens_range l s)).
Definition symbols_core : of_view (ans (list doc_symbol)) := ltac:(core document_symbol).

(** Read what a handler needs; a panic of the handler ends the program. *)
Definition with_view {A} (u : uri) (f : of_view (ans A)) : prog A :=
  ask_line u (fun li =>
  ask_parse u (fun _ ds =>
  ask_root u (fun g =>
  ask_table u (fun tb =>
  match f (Ans ds) (Some tb) g li with
  | Ans a => Ret a
  | _ => Fail
  end)))).

Section Programs.
  Variable legend : list string.
  Variable formatter : green -> line_index -> params -> ans (list (range * text)).
  Variable range_formatter : green -> line_index -> params -> ans (list (range * text)).

  Definition respond_core (m : method) (p : params) : of_view (ans answer) := fun sd tb g li =>
    match m with
    | MPrepareCalls => wrap ACallItems (calls_core sd tb g li (p_pos p))
    | MIncoming => wrap ACalls (incoming_core sd tb g li (p_range p))
    | MOutgoing => wrap ACalls (outgoing_core sd tb g li (p_range p))
    | MCodeAction => wrap AActions (action_core sd tb g li (p_wanted p) (fst (p_range p)) (snd (p_range p)))
    | MCompletion => wrap AItems (completion_core sd tb g li (p_pos p))
    | MDiagnostic => wrap ADiagnostics (check_core sd tb g li)
    | MFolding => wrap AFolding (folding_core sd tb g li)
    | MFormatting => wrap AEdits (formatter g li p)
    | MRangeFormatting => wrap AEdits (range_formatter g li p)
    | MDefinition => wrap ADefinition (definition_core sd tb g li (p_pos p))
    | MTypeDefinition => wrap ADefinition (type_definition_core sd tb g li (p_pos p))
    | MDeclaration => wrap ADefinition (declaration_core sd tb g li (p_pos p))
    | MHover => wrap AHover (hover_core sd tb g li (p_pos p))
    | MInlayHint => wrap AHints (hint_core sd tb g li (p_range p))
    | MReferences => wrap ALocations (references_core sd tb g li (p_pos p) (p_include p))
    | MPrepareRename => wrap ARange (prepare_rename_core sd tb g li (p_pos p))
    | MRename => of_rename (p_name p) (rename_core sd tb g li (p_pos p) (p_name p))
    | MSelection => wrap ASelections (selection_core sd tb g li (p_positions p))
    | MTokensFull => wrap ATokens (tokens_core sd tb g li legend)
    | MTokensRange => wrap ATokens (tokens_range_core sd tb g li legend (p_range p))
    | MSymbols => wrap ASymbols (symbols_core sd tb g li)
    end.

  (** The handler of a method.  [rename] looks at the new name before it
      looks at the document, rename.rs:36-46. *)
  Definition handler (m : method) (p : params) : prog answer :=
    match m with
    | MRename =>
        if valid_name (p_name p) then with_view (p_uri p) (respond_core m p)
        else Ret (AError (bad_name (p_name p)))
    | _ => with_view (p_uri p) (respond_core m p)
    end.

  (** [publish_diagnostics], features/diagnostics.rs:30-38. *)
  Definition diagnostics_prog (u : uri) : prog (list diag) := with_view u check_core.
End Programs.
