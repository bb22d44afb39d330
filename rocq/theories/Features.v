(** Handlers that describe the structure of a document: folding ranges,
    selection ranges, document symbols, call hierarchy, inlay hints
    (crates/service/src/features). *)

From Coq Require Import String List NArith Bool Arith Lia.
From Verif Require Import Text Kind Green Lexer Red LineIndex Cursor Doc Ast Binder Nav InstrMeta Types Check.
Import ListNotations.

(** ** Folding ranges *)

(** [folding_range], folding_range.rs:9-32.  A [FoldingRange] is given by its
    two positions; its kind is always [Region]. *)
Definition folding_of (src : text) (n : elem) : ans (list range) :=
  match match token n KEYWORD with Some t => Some t | None => token n L_PAREN end with
  | None => Ans []
  | Some _ =>
      abind (range_of src n) (fun r =>
      Ans (if Nat.eqb (fst (fst r)) (fst (snd r)) then [] else [r]))
  end.
Definition folding_range (src : text) : ans (list range) :=
  abind (map_ans (folding_of src) (descendants (root_of (tree_of src)))) (fun l => Ans (concat l)).

(** ** Selection ranges *)

(** [SelectionRange] of lsp-types: a range and the optional parent, as the
    list of the ranges from the inside out. *)
Definition selection : Type := list range.

(** [get_parent_range], selection_range.rs:35-42: the ranges of the proper
    ancestors. *)
Section Ranges.
Variable src : text.
Fixpoint parent_ranges (us : list up) : ans (list range) :=
  match us with
  | [] => Ans []
  | u :: r =>
      abind (range_of src (mk_elem (u_green u) (u_off u) r)) (fun x =>
      abind (parent_ranges r) (fun l => Ans (x :: l)))
  end.
End Ranges.
(** [selection_range], selection_range.rs:8-32.  [filter_map] leaves out the
    positions for which no token is found. *)
Definition selection_at (src : text) (pos : lsp_pos) : ans (list selection) :=
  match cursor_token src pos with
  | Ans t =>
      abind (range_of src t) (fun r =>
      abind (parent_ranges src (ups t)) (fun l => Ans [r :: l]))
  | NoAns => Ans []
  | Panics => Panics
  end.
Definition selection_range (src : text) (ps : list lsp_pos) : ans (list selection) :=
  abind (map_ans (selection_at src) ps) (fun l => Ans (concat l)).

(** ** Document symbols *)

(** [DocumentSymbol] of lsp-types, without the fields that are always [None].
    [SymbolKind] is one of three. *)
Inductive lsp_kind : Type := KModule | KFunction | KVariable.
Inductive doc_symbol : Type := mk_ds
  { ds_name : text; ds_kind : lsp_kind; ds_range : range; ds_selection : range;
    ds_children : option (list doc_symbol) }.

(** [idx.name.or(idx.num).unwrap_or_default()], document_symbol.rs:52-57,
    call_hierarchy.rs:50-55. *)
Definition symbol_name (s : symbol) : text :=
  match i_name (s_idx s) with
  | Some x => x
  | None => match i_num (s_idx s) with Some n => show_N n | None => [] end
  end.

(** The entry made of a symbol, document_symbol.rs:25-137. *)
Definition is_field_kind (k : skind) : option lsp_kind :=
  match k with
  | SModule => Some KModule
  | SFunc => Some KFunction
  | SLocal | SType | SGlobalDef | SMemoryDef | STableDef => Some KVariable
  | _ => None
  end.
Definition doc_entry (src : text) (s : symbol) : ans (list (key * doc_symbol)) :=
  match is_field_kind (s_kind s) with
  | None => Ans []
  | Some KModule =>
      abind (key_range src (s_key s)) (fun r =>
      Ans [(s_key s, mk_ds (T "module") KModule r r None)])
  | Some k =>
      abind (key_range src (s_key s)) (fun r =>
      abind (amust (to_node (tree_of src) (s_key s))) (fun n =>
      abind (match token n IDENT with Some t => range_of src t | None => Ans r end) (fun sel =>
      Ans [(s_key s, mk_ds (symbol_name s) k r sel None)])))
  end.

(** The hash map: an association list without repeated keys, in no particular
    order (document_symbol.rs:139, [collect]).  Inserting replaces. *)
Definition symbols_map : Type := list (key * doc_symbol).
Definition map_remove (k : key) (m : symbols_map) : symbols_map :=
  filter (fun p => negb (key_eqb (fst p) k)) m.
Definition map_get (k : key) (m : symbols_map) : option doc_symbol :=
  option_map snd (find (fun p => key_eqb (fst p) k) m).
Definition map_insert (m : symbols_map) (p : key * doc_symbol) : symbols_map :=
  map_remove (fst p) m ++ [p].
Definition map_update (k : key) (f : doc_symbol -> doc_symbol) (m : symbols_map) : symbols_map :=
  map (fun p => if key_eqb (fst p) k then (fst p, f (snd p)) else p) m.

(** [children.reverse()]; [parent.children.get_or_insert_with(..).push(..)]. *)
Definition reverse_children (d : doc_symbol) : doc_symbol :=
  mk_ds (ds_name d) (ds_kind d) (ds_range d) (ds_selection d) (option_map (@rev _) (ds_children d)).
Definition push_child (c d : doc_symbol) : doc_symbol :=
  mk_ds (ds_name d) (ds_kind d) (ds_range d) (ds_selection d)
    (Some (match ds_children d with Some l => l | None => [] end ++ [c])).

(** The loop body, document_symbol.rs:145-158.  [remove] takes effect before
    the parent is looked up. *)
Definition attach (m : symbols_map) (s : symbol) : symbols_map :=
  match map_get (s_key s) m with
  | None => m
  | Some d =>
      let m' := map_remove (s_key s) m in
      match map_get (s_region s) m' with
      | None => m'
      | Some _ => map_update (s_region s) (push_child (reverse_children d)) m'
      end
  end.
(** [document_symbol], document_symbol.rs:15-175.  The order of the top-level
    symbols is that of the values of the hash map, which is not specified:
    the answer is meant up to permutation. *)
Definition document_symbol (src : text) : ans (list doc_symbol) :=
  abind (the_symbols src) (fun tb =>
  abind (map_ans (doc_entry src) (symbols tb)) (fun es =>
  let m := fold_left map_insert (concat es) [] in
  let m := fold_left attach (rev (filter (fun s => negb (kind_eqb (key_kind (s_region s)) ROOT)) (symbols tb))) m in
  Ans (flat_map (fun p => match ds_children (snd p) with
                          | Some _ => [reverse_children (snd p)]
                          | None => []
                          end) m))).

(** ** Call hierarchy *)

(** [CallHierarchyItem], without the fields that are always the same: kind,
    tags, uri (that of the document), data. *)
Record call_item : Type := mk_item
  { it_name : text; it_detail : text; it_range : range; it_selection : range }.

(** [create_selection_range], call_hierarchy.rs:231-240. *)
Definition item_selection (src : text) (s : symbol) : ans range := create_location src s.

(** The record built in call_hierarchy.rs:49-73, 77-95, 136-152, 201-224. *)
Definition call_item_of (src : text) (tb : table) (s : symbol) : ans call_item :=
  abind (render_func_header src tb s) (fun d =>
  abind (key_range src (s_key s)) (fun r =>
  abind (item_selection src s) (fun sel =>
  Ans (mk_item (symbol_name s) d r sel)))).

Definition key_is_range (k : key) (a b : nat) : bool := Nat.eqb (key_start k) a && Nat.eqb (key_end k) b.

(** [prepare_call_hierarchy], call_hierarchy.rs:21-100. *)
Definition prepare_step (src : text) (tb : table) (p : elem) (s : symbol) : option (ans (list call_item)) :=
  match s_kind s with
  | SFunc =>
      if key_is_range (s_key s) (estart p) (eend p)
      then Some (abind (call_item_of src tb s) (fun i => Ans [i])) else None
  | SCall =>
      if key_is_range (s_key s) (estart p) (eend p) then
        match find_defs tb (s_key s) with
        | Some ds => Some (map_ans (call_item_of src tb) ds)
        | None => None
        end
      else None
  | _ => None
  end.
Definition prepare_call_hierarchy (src : text) (pos : lsp_pos) : ans (list call_item) :=
  abind (the_symbols src) (fun tb =>
  abind (cursor_token src pos) (fun t =>
  abind (aopt (parent t)) (fun p =>
  match find_map (prepare_step src tb p) (symbols tb) with
  | Some a => a
  | None => NoAns
  end))).

(** The range of the item is turned back into offsets and the function looked
    up, call_hierarchy.rs:111-115, 172-176. *)
Definition func_at_range (src : text) (tb : table) (r : range) : ans symbol :=
  match rowan_range (new_line_index src) (fst r) (snd r) with
  | RangePanic => Panics
  | RangeNone => NoAns
  | RangeOk a b =>
      aopt (find (fun s => skind_eqb (s_kind s) SFunc && key_is_range (s_key s) a b) (symbols tb))
  end.

(** [call_hierarchy_incoming_calls], call_hierarchy.rs:103-160.  A call is an
    item and the list of ranges of the calls. *)
Definition incoming_of (src : text) (tb : table) (callee c : symbol) : ans (list (call_item * list range)) :=
  if skind_eqb (s_kind c) SCall && is_defined_by (s_idx c) (s_idx callee)
     && key_eqb (s_region callee) (s_region c) then
    abind (amust (to_node (tree_of src) (s_key c))) (fun n =>
    match enclosing [MODULE_FIELD_FUNC] n with
    | None => Ans []
    | Some f =>
        match find (fun s => skind_eqb (s_kind s) SFunc && key_eqb (s_key s) (key_of f)) (symbols tb) with
        | None => Ans []
        | Some fs =>
            abind (match parent n with
                   | Some p => abind (range_of src p) (fun r => Ans [r])
                   | None => Ans []
                   end) (fun rs =>
            abind (call_item_of src tb fs) (fun i => Ans [(i, rs)]))
        end
    end)
  else Ans [].
Definition incoming_calls (src : text) (r : range) : ans (list (call_item * list range)) :=
  abind (the_symbols src) (fun tb =>
  abind (func_at_range src tb r) (fun callee =>
  abind (map_ans (incoming_of src tb callee) (symbols tb)) (fun l => Ans (concat l)))).

(** [is_call], features/mod.rs:49-58. *)
Definition is_call (n : elem) : bool :=
  existsb (fun t => negb (is_node t) && kind_eqb (ekind t) INSTR_NAME && name_in (etext t) call_names)
    (children_with_tokens n).

(** [call_hierarchy_outgoing_calls], call_hierarchy.rs:163-228. *)
Definition outgoing_of (src : text) (tb : table) (n : elem) : ans (list (call_item * list range)) :=
  if kind_eqb (ekind n) PLAIN_INSTR && is_call n then
    abind (range_of src n) (fun r =>
    map_ans (fun s => abind (call_item_of src tb s) (fun i => Ans (i, [r])))
      (filter (fun s => skind_eqb (s_kind s) SFunc)
        (flat_map (fun o => match find_defs tb (key_of o) with Some l => l | None => [] end)
          (childs n OPERAND))))
  else Ans [].
Definition outgoing_calls (src : text) (r : range) : ans (list (call_item * list range)) :=
  abind (the_symbols src) (fun tb =>
  abind (func_at_range src tb r) (fun caller =>
  abind (amust (to_node (tree_of src) (s_key caller))) (fun f =>
  abind (map_ans (outgoing_of src tb) (descendants f)) (fun l => Ans (concat l))))).

(** ** Inlay hints *)

(** [InlayHint]: position and label; the kind and padding follow. *)
Definition hint : Type := lsp_pos * text.

Definition pos_at (src : text) (o : nat) : ans lsp_pos := amust (line_col (new_line_index src) o).
Definition within (a b : nat) (x y : nat) : bool := Nat.leb a x && Nat.leb y b.

(** [inlay_hint], inlay_hint.rs:14-90; [a], [b] is the range asked for. *)
Definition type_hint (src : text) (s : symbol) (t : option valtype) : ans (list hint) :=
  match t with
  | Some v => abind (pos_at src (key_end (s_key s))) (fun p => Ans [(p, show_valtype v)])
  | None => Ans []
  end.
Definition hint_of (src : text) (tb : table) (a b : nat) (s : symbol) : ans (list hint) :=
  match s_kind s with
  | SLocalRef =>
      if within a b (key_start (s_key s)) (key_end (s_key s)) then
        match find_param_or_local_def tb (s_key s) with
        | Some d => type_hint src s (extract_type (s_green d))
        | None => Ans []
        end
      else Ans []
  | SGlobalRef =>
      if within a b (key_start (s_key s)) (key_end (s_key s)) then
        match find_defs tb (s_key s) with
        | Some (d :: _) => type_hint src s (extract_global_type (s_green d))
        | _ => Ans []
        end
      else Ans []
  | SFunc =>
      abind (amust (to_node (tree_of src) (s_key s))) (fun f =>
      match hd_error (rev (children_with_tokens f)), i_name (s_idx s) with
      | Some l, Some x =>
          if within a b (estart l) (eend l)
          then abind (pos_at src (eend l)) (fun p => Ans [(p, T "(func " ++ x ++ T ")")])
          else Ans []
      | _, _ => Ans []
      end)
  | _ => Ans []
  end.
Definition inlay_hint (src : text) (r : range) : ans (list hint) :=
  match rowan_range (new_line_index src) (fst r) (snd r) with
  | RangePanic => Panics
  | RangeNone => NoAns
  | RangeOk a b =>
      abind (the_symbols src) (fun tb =>
      abind (map_ans (hint_of src tb a b) (symbols tb)) (fun l => Ans (concat l)))
  end.
