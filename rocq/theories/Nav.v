(** Navigation requests: crates/service/src/features/definition.rs,
    references.rs and rename.rs. *)

From Coq Require Import String List NArith Bool Arith Lia.
From Verif Require Import Text Kind Green Lexer Red LineIndex Cursor Doc Ast Binder.
Import ListNotations.

Definition lsp_pos : Type := nat * nat.
Definition range : Type := lsp_pos * lsp_pos.

Fixpoint map_ans {A B} (f : A -> ans B) (l : list A) : ans (list B) :=
  match l with
  | [] => Ans []
  | x :: r => abind (f x) (fun y => abind (map_ans f r) (fun ys => Ans (y :: ys)))
  end.

(** [helpers::rowan_range_to_lsp_range], helpers.rs:10-15, of an element;
    panics when an end is past the end of the text. *)
Definition range_of (src : text) (e : elem) : ans range :=
  amust (lsp_range (new_line_index src) (estart e) (eend e)).

(** [create_location_by_symbol], definition.rs:165-184, references.rs:387-402
    (identical).  The URI of the location is that of the request. *)
Definition create_location (src : text) (s : symbol) : ans range :=
  abind (amust (to_node (tree_of src) (s_key s))) (fun n =>
  range_of src
    match token n IDENT with
    | Some t => t
    | None => match token n KEYWORD with Some t => t | None => n end
    end).

(** [symbol_table(uri)].  A loop that does not stop is an answer that never
    comes; [table_spec] excludes it. *)
Definition the_symbols (src : text) : ans table := amust (create_symbol_table (tree_of src)).

Definition cursor_token (src : text) (pos : lsp_pos) : ans elem :=
  find_meaningful_token (new_line_index src) (root_of (tree_of src)) pos.

Inductive def_response : Type := Scalar (r : range) | Array (l : list range).

(** [goto_definition], definition.rs:17-72. *)
Definition goto_definition (src : text) (pos : lsp_pos) : ans def_response :=
  abind (cursor_token src pos) (fun t =>
  abind (aopt (parent t)) (fun p =>
  if kind_eqb (ekind p) OPERAND || kind_eqb (ekind p) INDEX then
    abind (the_symbols src) (fun tb =>
    match find_param_or_local_def tb (key_of p) with
    | Some s => abind (create_location src s) (fun l => Ans (Scalar l))
    | None =>
        match find_defs tb (key_of p) with
        | Some ss => abind (map_ans (create_location src) ss) (fun ls => Ans (Array ls))
        | None =>
            match find_block_def tb (key_of p) with
            | Some s => abind (create_location src s) (fun l => Ans (Scalar l))
            | None => NoAns
            end
        end
    end)
  else NoAns)).

(** [goto_type_definition], definition.rs:75-123.  [filter_map] and [flatten]
    over the definitions. *)
Definition type_of_def (src : text) (tb : table) (s : symbol) : ans (list symbol) :=
  abind (amust (to_node (tree_of src) (s_key s))) (fun n =>
  match child n TYPE_USE with
  | None => Ans []
  | Some tu =>
      match child tu INDEX with
      | None => Ans []
      | Some i => match find_defs tb (key_of i) with Some l => Ans l | None => Ans [] end
      end
  end).
Definition goto_type_definition (src : text) (pos : lsp_pos) : ans def_response :=
  abind (the_symbols src) (fun tb =>
  abind (cursor_token src pos) (fun t =>
  abind (aopt (parent t)) (fun p =>
  if kind_eqb (ekind p) OPERAND || kind_eqb (ekind p) INDEX then
    abind (aopt (parent p)) (fun g =>
    if kind_eqb (ekind g) PLAIN_INSTR then
      match find_defs tb (key_of p) with
      | Some ss =>
          abind (map_ans (type_of_def src tb) ss) (fun ls =>
          abind (map_ans (create_location src) (concat ls)) (fun rs => Ans (Array rs)))
      | None => NoAns
      end
    else NoAns)
  else NoAns))).

(** [goto_declaration], definition.rs:129-162. *)
Definition goto_declaration (src : text) (pos : lsp_pos) : ans def_response :=
  abind (the_symbols src) (fun tb =>
  abind (cursor_token src pos) (fun t =>
  abind (aopt (parent t)) (fun p =>
  if kind_eqb (ekind p) OPERAND then
    match find_defs tb (key_of p) with
    | Some ss => abind (map_ans (create_location src) ss) (fun ls => Ans (Array ls))
    | None => NoAns
    end
  else NoAns))).

(** ** References *)

(** The reference kind that goes with a definition kind. *)
Definition refs_kind (k : skind) : option skind :=
  match k with
  | SFunc => Some SCall
  | SParam | SLocal => Some SLocalRef
  | SType => Some STypeUse
  | SGlobalDef => Some SGlobalRef
  | SMemoryDef => Some SMemoryRef
  | STableDef => Some STableRef
  | _ => None
  end.

(** The seven branches for a definition, references.rs:44-100, 146-163 and
    similar: they differ only in the two kinds. *)
Definition refs_of_def (incl : bool) (tb : table) (cur : symbol) (rk : skind) : list symbol :=
  filter (fun s =>
    if skind_eqb (s_kind s) (s_kind cur)
    then incl && idx_eqb (s_idx cur) (s_idx s) && key_eqb (s_region s) (s_region cur)
    else if skind_eqb (s_kind s) rk
    then is_defined_by (s_idx s) (s_idx cur) && key_eqb (s_region s) (s_region cur)
    else false) (symbols tb).
(** The five branches for a module-level reference, references.rs:101-123 and
    similar. *)
Definition refs_of_ref (incl : bool) (tb : table) (cur : symbol) (dk : skind) (defs : list symbol) : list symbol :=
  filter (fun s =>
    if skind_eqb (s_kind s) dk
    then incl && is_defined_by (s_idx cur) (s_idx s) && key_eqb (s_region s) (s_region cur)
    else if skind_eqb (s_kind s) (s_kind cur)
    then existsb (fun d => is_defined_by (s_idx s) (s_idx d)) defs && key_eqb (s_region s) (s_region cur)
    else false) (symbols tb).
(** The branch for a local reference, references.rs:125-146. *)
Definition refs_of_local_ref (incl : bool) (tb : table) (cur d : symbol) : list symbol :=
  filter (fun s =>
    match s_kind s with
    | SParam | SLocal =>
        incl && is_defined_by (s_idx cur) (s_idx s) && key_eqb (s_region s) (s_region cur)
    | SLocalRef => is_defined_by (s_idx s) (s_idx d) && key_eqb (s_region s) (s_region cur)
    | _ => false
    end) (symbols tb).
(** [get_block_refs], references.rs:358-385. *)
Definition block_refs (incl : bool) (tb : table) (d : symbol) : list symbol :=
  (if incl then [d] else [])
  ++ flat_map (fun t => match t with (rk, dk, _) =>
       if key_eqb dk (s_key d) then match find_key tb rk with Some s => [s] | None => [] end else [] end)
       (blocks tb).

Definition ref_token_kind (k : kind) : bool :=
  existsb (kind_eqb k) [IDENT; INT; UNSIGNED_INT; NUM_TYPE; VEC_TYPE; REF_TYPE; KEYWORD].

(** The symbols [find_references] lists for the symbol [cur]; [None]: [?]. *)
Definition listed (incl : bool) (tb : table) (cur : symbol) : option (list symbol) :=
  match s_kind cur with
  | SModule => None
  | SFunc | SParam | SLocal | SType | SGlobalDef | SMemoryDef | STableDef =>
      match refs_kind (s_kind cur) with
      | Some rk => Some (refs_of_def incl tb cur rk)
      | None => None
      end
  | SCall | STypeUse | SGlobalRef | SMemoryRef | STableRef =>
      match def_kind (s_kind cur), find_defs tb (s_key cur) with
      | Some dk, Some defs => Some (refs_of_ref incl tb cur dk defs)
      | _, _ => None
      end
  | SLocalRef =>
      match find_param_or_local_def tb (s_key cur) with
      | Some d => Some (refs_of_local_ref incl tb cur d)
      | None => None
      end
  | SBlockDef => Some (block_refs incl tb cur)
  | SBlockRef =>
      match find_block_def tb (s_key cur) with
      | Some d => Some (block_refs incl tb d)
      | None => None
      end
  end.

(** [find_references], references.rs:15-355. *)
Definition find_references (src : text) (pos : lsp_pos) (incl : bool) : ans (list range) :=
  abind (cursor_token src pos) (fun t =>
  if ref_token_kind (ekind t) then
    abind (aopt (parent t)) (fun p =>
    abind (the_symbols src) (fun tb =>
    abind (aopt (find_key tb (key_of p))) (fun cur =>
    abind (aopt (listed incl tb cur)) (fun ss =>
    map_ans (create_location src) ss))))
  else NoAns).

(** ** Rename *)

(** [prepare_rename], rename.rs:22-33. *)
Definition prepare_rename (src : text) (pos : lsp_pos) : ans range :=
  abind (cursor_token src pos) (fun t =>
  if kind_eqb (ekind t) IDENT then range_of src t else NoAns).

(** The check of the new name, rename.rs:37-41. *)
Definition valid_name (x : text) : bool :=
  match x with
  | c :: r => N.eqb c 36 && negb (match r with [] => true | _ => false end) && forallb is_id_char r
  | [] => false
  end.

(** The filter of [rename_impl], rename.rs:74-116. *)
Definition renamed (tb : table) (old : text) (symbol_key : key) (symbol sym : symbol) : bool :=
  match s_kind sym with
  | SModule => false
  | SBlockDef =>
      symbol_eqb symbol sym
      || existsb (fun t => match t with (rk, dk, _) => key_eqb symbol_key rk && key_eqb dk (s_key sym) end) (blocks tb)
  | SBlockRef =>
      symbol_eqb symbol sym
      || existsb (fun t => match t with (rk, dk, _) => key_eqb (s_key sym) rk && key_eqb dk (s_key symbol) end) (blocks tb)
      || match find_block_def tb symbol_key with
         | Some d => existsb (fun t => match t with (rk, dk, _) => key_eqb (s_key sym) rk && key_eqb dk (s_key d) end) (blocks tb)
         | None => false
         end
  | _ =>
      key_eqb (s_region symbol) (s_region sym)
      && match i_name (s_idx symbol) with Some x => text_eqb x old | None => false end
  end.

(** [rename_impl], rename.rs:62-128: the ranges replaced by the new name. *)
Definition edit_token (src : text) (s : symbol) : ans (list elem) :=
  abind (amust (to_node (tree_of src) (s_key s))) (fun n =>
  Ans match token n IDENT with Some t => [t] | None => [] end).
Definition rename_impl (src : text) (t : elem) : ans (list range) :=
  abind (the_symbols src) (fun tb =>
  abind (aopt (parent t)) (fun p =>
  abind (aopt (find_key tb (key_of p))) (fun symbol =>
  abind (map_ans (edit_token src) (filter (renamed tb (etext t) (key_of p) symbol) (symbols tb))) (fun ts =>
  map_ans (range_of src) (concat ts))))).

(** [rename], rename.rs:36-59.  Errors are told apart from [Ok(None)]. *)
Inductive rename_result : Type :=
| InvalidName | CantRename | NoEdit | Edits (l : list (range * text)) | RenamePanics.
Definition rename (src : text) (pos : lsp_pos) (new_name : text) : rename_result :=
  if valid_name new_name then
    match cursor_token src pos with
    | Ans t =>
        if kind_eqb (ekind t) IDENT then
          match rename_impl src t with
          | Ans rs => Edits (map (fun r => (r, new_name)) rs)
          | NoAns => NoEdit
          | Panics => RenamePanics
          end
        else CantRename
    | NoAns => CantRename
    | Panics => RenamePanics
    end
  else InvalidName.
