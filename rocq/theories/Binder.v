(** The symbol table: crates/service/src/binder.rs and crates/service/src/idx.rs. *)

From Coq Require Import String List NArith Bool Arith Lia.
From Verif Require Import Text Kind Green Lexer Red Ast.
Import ListNotations.

(** [Idx], idx.rs:3-7.  Identifiers are interned by salsa ([InternIdent]);
    interning is injective, so a name is modelled by its text. *)
Record idx : Type := mk_idx { i_num : option N; i_name : option text }.

Definition opt_eqb {A} (eqb : A -> A -> bool) (a b : option A) : bool :=
  match a, b with
  | Some x, Some y => eqb x y
  | None, None => true
  | _, _ => false
  end.
(** Derived [PartialEq] of [Idx]. *)
Definition idx_eqb (a b : idx) : bool :=
  opt_eqb N.eqb (i_num a) (i_num b) && opt_eqb text_eqb (i_name a) (i_name b).

(** [Idx::is_defined_by], idx.rs:22-44 (the debug assertions only state what
    kinds of [Idx] are passed and are not modelled). *)
Definition is_defined_by (a b : idx) : bool :=
  match i_num a, i_num b with
  | Some x, Some y => N.eqb x y
  | _, _ =>
      match i_name a, i_name b with
      | Some x, Some y => text_eqb x y
      | _, _ => false
      end
  end.

(** [SymbolItemKind], binder.rs:618-636. *)
Inductive skind : Type :=
| SModule | SFunc | SParam | SLocal | SCall | SLocalRef | SType | STypeUse
| SGlobalDef | SGlobalRef | SMemoryDef | SMemoryRef | STableDef | STableRef
| SBlockDef | SBlockRef.
Definition skind_eq_dec (a b : skind) : {a = b} + {a <> b}.
Proof. decide equality. Defined.
Definition skind_eqb (a b : skind) : bool := if skind_eq_dec a b then true else false.
Lemma skind_eqb_eq a b : skind_eqb a b = true <-> a = b.
Proof. unfold skind_eqb. destruct (skind_eq_dec a b); split; congruence. Qed.

(** [SymbolItem], binder.rs:597-604. *)
Record symbol : Type := mk_symbol
  { s_key : key; s_green : green; s_region : key; s_kind : skind; s_idx : idx }.
(** [PartialEq for SymbolItem], binder.rs:605-609. *)
Definition symbol_eqb (a b : symbol) : bool :=
  key_eqb (s_key a) (s_key b) && skind_eqb (s_kind a) (s_kind b).

(** [SymbolTable], binder.rs:23-27. *)
Record table : Type := mk_table { symbols : list symbol; blocks : list (key * key * idx) }.

(** [str::parse::<u32>]: an optional [+], then at least one decimal digit,
    value at most [u32::MAX]. *)
Definition u32_max : N := 4294967295.
Fixpoint dec_value (acc : N) (t : text) : option N :=
  match t with
  | [] => Some acc
  | c :: r =>
      if is_ascii_digit c then
        let v := (acc * 10 + (c - 48))%N in
        if N.leb v u32_max then dec_value v r else None
      else None
  end.
Definition parse_u32 (t : text) : option N :=
  match t with
  | [] => None
  | c :: r =>
      if N.eqb c 43 then (match r with [] => None | _ => dec_value 0 r end)
      else dec_value 0 t
  end.

Definition ident_of (e : elem) : option text := option_map etext (token e IDENT).

(** [create_parent_based_symbol], binder.rs:29-46. *)
Definition parent_based (e : elem) (id : N) (k : skind) : list symbol :=
  match parent e with
  | Some p => [mk_symbol (key_of e) (el e) (key_of p) k (mk_idx (Some id) (ident_of e))]
  | None => []
  end.
(** [create_ref_symbol], binder.rs:47-79. *)
Definition ref_idx (e : elem) : option idx :=
  match ident_of e with
  | Some x => Some (mk_idx None (Some x))
  | None =>
      match find (fun t => kind_eqb (ekind t) UNSIGNED_INT || kind_eqb (ekind t) INT) (tokens e) with
      | Some t => option_map (fun n => mk_idx (Some n) None) (parse_u32 (etext t))
      | None => None
      end
  end.
Definition ref_symbol (region : key) (k : skind) (e : elem) : list symbol :=
  match ref_idx e with
  | Some i => [mk_symbol (key_of e) (el e) region k i]
  | None => []
  end.
(** [create_import_desc_symbol], binder.rs:81-100. *)
Definition import_desc_based (e : elem) (id : N) (k : skind) : list symbol :=
  match parent e with
  | Some p =>
      match parent p with
      | Some m => [mk_symbol (key_of e) (el e) (key_of m) k (mk_idx (Some id) (ident_of e))]
      | None => []
      end
  | None => []
  end.

(** [node.ancestors().find(..).map(SymbolItemKey::from)]. *)
Definition enclosing (ks : list kind) (e : elem) : option elem :=
  find (fun a => existsb (kind_eqb (ekind a)) ks) (ancestors e).

(** The reference made by the first INDEX child, binder.rs:358-389 and
    similar. *)
Definition index_ref (e : elem) (k : skind) : list symbol :=
  match enclosing [MODULE] e, child e INDEX with
  | Some m, Some i => ref_symbol (key_of m) k i
  | _, _ => []
  end.

(** References made by all child nodes of an instruction, binder.rs:233-256
    and similar. *)
Definition refs_in (ks : list kind) (e : elem) (k : skind) : list symbol :=
  match enclosing ks e with
  | Some m => flat_map (ref_symbol (key_of m) k) (children e)
  | None => []
  end.

(** Parameters or locals, binder.rs:139-204: a declaration with an identifier
    is one symbol, otherwise there is one for each of its types. *)
Definition slots_of (d : elem) : list elem :=
  match token d IDENT with
  | Some _ => [d]
  | None => childs d VAL_TYPE
  end.
Fixpoint number_slots (region : key) (k : skind) (i : N) (l : list elem) : list symbol :=
  match l with
  | [] => []
  | d :: r =>
      mk_symbol (key_of d) (el d) region k
        (mk_idx (Some i) (if kind_eqb (ekind d) VAL_TYPE then None else ident_of d))
      :: number_slots region k (i + 1) r
  end.
Definition param_slots (f : elem) : list elem :=
  match child f TYPE_USE with
  | Some tu => flat_map slots_of (childs tu PARAM)
  | None => []
  end.
Definition local_slots (f : elem) : list elem := flat_map slots_of (childs f LOCAL).

Definition instr_name_of (e : elem) : option text := option_map etext (token e INSTR_NAME).
Definition name_in (t : text) (l : list string) : bool := existsb (fun s => text_eqb t (T s)) l.

Definition call_names : list string := ["call"; "ref.func"; "return_call"]%string.
Definition local_names : list string := ["local.get"; "local.set"; "local.tee"]%string.
Definition global_names : list string := ["global.get"; "global.set"]%string.
Definition br_names : list string := ["br"; "br_if"; "br_table"]%string.
Definition table_names : list string :=
  ["table.get"; "table.set"; "table.size"; "table.grow"; "table.fill"; "table.copy"]%string.
Definition block_kinds : list kind := [BLOCK_BLOCK; BLOCK_LOOP; BLOCK_IF].

(** The symbols of a PLAIN_INSTR node, binder.rs:228-347. *)
Definition instr_symbols (e : elem) : list symbol :=
  match instr_name_of e with
  | None => []
  | Some t =>
      if name_in t call_names then refs_in [MODULE] e SCall
      else if name_in t local_names then refs_in [MODULE_FIELD_FUNC] e SLocalRef
      else if name_in t global_names then refs_in [MODULE] e SGlobalRef
      else if name_in t br_names then refs_in block_kinds e SBlockRef
      else if name_in t table_names then refs_in [MODULE] e STableRef
      else if name_in t ["table.init"%string] then
        match enclosing [MODULE] e, children e with
        | Some m, c :: _ => ref_symbol (key_of m) STableRef c
        | _, _ => []
        end
      else []
  end.

(** The loop body of [create_symbol_table] (binder.rs:106-494): the symbols a
    node adds, given the value of [module_field_id] ... *)
Definition node_symbols (id : N) (e : elem) : list symbol :=
  match ekind e with
  | MODULE =>
      match parent e with
      | Some p => [mk_symbol (key_of e) (el e) (key_of p) SModule (mk_idx None None)]
      | None => []
      end
  | MODULE_FIELD_FUNC =>
      let ps := param_slots e in
      parent_based e id SFunc
      ++ number_slots (key_of e) SParam 0 ps
      ++ number_slots (key_of e) SLocal (N.of_nat (length ps)) (local_slots e)
  | MODULE_FIELD_TYPE => parent_based e id SType
  | MODULE_FIELD_GLOBAL => parent_based e id SGlobalDef
  | PLAIN_INSTR => instr_symbols e
  | BLOCK_BLOCK | BLOCK_IF | BLOCK_LOOP => parent_based e 0 SBlockDef
  | MODULE_FIELD_START | EXPORT_DESC_FUNC => index_ref e SCall
  | TYPE_USE => index_ref e STypeUse
  | MODULE_FIELD_MEMORY => parent_based e id SMemoryDef
  | MODULE_FIELD_TABLE => parent_based e id STableDef
  | EXPORT_DESC_MEMORY => index_ref e SMemoryRef
  | EXPORT_DESC_TABLE => index_ref e STableRef
  | IMPORT_DESC_TYPE_USE => import_desc_based e id SFunc
  | IMPORT_DESC_TABLE_TYPE => import_desc_based e id STableDef
  | IMPORT_DESC_MEMORY_TYPE => import_desc_based e id SMemoryDef
  | IMPORT_DESC_GLOBAL_TYPE => import_desc_based e id SGlobalDef
  | MEM_USE => index_ref e SMemoryRef
  | _ => []
  end.
(** ... and the value of [module_field_id] afterwards. *)
Definition next_id (id : N) (e : elem) : N :=
  match ekind e with
  | MODULE => 0
  | MODULE_FIELD_FUNC | MODULE_FIELD_TYPE | MODULE_FIELD_GLOBAL | MODULE_FIELD_MEMORY
  | MODULE_FIELD_TABLE | IMPORT_DESC_TYPE_USE | IMPORT_DESC_TABLE_TYPE
  | IMPORT_DESC_MEMORY_TYPE | IMPORT_DESC_GLOBAL_TYPE => id + 1
  | _ => id
  end.

(** The [while let] loop of binder.rs:295-312: from a region to the block
    symbol it denotes, to that block's region, and so on.  [None]: out of
    fuel, i.e. the loop did not stop. *)
Definition is_block_def (r : key) (s : symbol) : bool :=
  skind_eqb (s_kind s) SBlockDef && key_eqb (s_key s) r.
Fixpoint block_chain (fuel : nat) (syms : list symbol) (r : key) (level : N) : option (list (key * idx)) :=
  match find (is_block_def r) syms with
  | None => Some []
  | Some p =>
      match fuel with
      | 0 => None
      | S f =>
          match block_chain f syms (s_region p) (level + 1) with
          | Some l => Some ((s_key p, mk_idx (Some level) (i_name (s_idx p))) :: l)
          | None => None
          end
      end
  end.

(** [for_each] over the label references of one instruction,
    binder.rs:284-313. *)
Fixpoint br_loop (fuel : nat) (syms : list symbol) (bl : list (key * key * idx)) (refs : list symbol)
  : option (list symbol * list (key * key * idx)) :=
  match refs with
  | [] => Some (syms, bl)
  | s :: r =>
      let syms' := syms ++ [s] in
      match block_chain fuel syms' (s_region s) 0 with
      | Some ch => br_loop fuel syms' (bl ++ map (fun p => (s_key s, fst p, snd p)) ch) r
      | None => None
      end
  end.

Definition is_br (e : elem) : bool :=
  kind_eqb (ekind e) PLAIN_INSTR
  && match instr_name_of e with Some t => name_in t br_names | None => false end.

Fixpoint scan (id : N) (syms : list symbol) (bl : list (key * key * idx)) (nodes : list elem)
  : option table :=
  match nodes with
  | [] => Some (mk_table syms bl)
  | e :: r =>
      let new := node_symbols id e in
      if is_br e then
        match br_loop (S (length (ups e))) syms bl new with
        | Some (syms', bl') => scan (next_id id e) syms' bl' r
        | None => None
        end
      else scan (next_id id e) (syms ++ new) bl r
  end.

(** [create_symbol_table], binder.rs:28-496. *)
Definition create_symbol_table (tree : green) : option table :=
  scan 0 [] [] (descendants (root_of tree)).

(** ** Queries *)

Definition find_key (tb : table) (k : key) : option symbol :=
  find (fun s => key_eqb (s_key s) k) (symbols tb).

(** The kind of the definitions of a reference, binder.rs:504-511. *)
Definition def_kind (k : skind) : option skind :=
  match k with
  | SCall => Some SFunc
  | STypeUse => Some SType
  | SGlobalRef => Some SGlobalDef
  | SMemoryRef => Some SMemoryDef
  | STableRef => Some STableDef
  | _ => None
  end.
(** [find_defs], binder.rs:499-518. *)
Definition find_defs (tb : table) (k : key) : option (list symbol) :=
  match find_key tb k with
  | Some r =>
      match def_kind (s_kind r) with
      | Some dk =>
          Some (filter (fun s => key_eqb (s_region s) (s_region r) && skind_eqb (s_kind s) dk
                                 && is_defined_by (s_idx r) (s_idx s)) (symbols tb))
      | None => None
      end
  | None => None
  end.
(** [find_local_ref], binder.rs:540-544. *)
Definition find_local_ref (tb : table) (k : key) : option symbol :=
  find (fun s => skind_eqb (s_kind s) SLocalRef && key_eqb (s_key s) k) (symbols tb).
Definition is_param_or_local (s : symbol) : bool :=
  match s_kind s with SParam | SLocal => true | _ => false end.
(** [find_param_def], binder.rs:520-528. *)
Definition find_param_def (tb : table) (k : key) : option symbol :=
  match find_local_ref tb k with
  | Some l =>
      find (fun s => key_eqb (s_region s) (s_region l) && skind_eqb (s_kind s) SParam
                     && is_defined_by (s_idx l) (s_idx s)) (symbols tb)
  | None => None
  end.
(** [find_param_or_local_def], binder.rs:530-538. *)
Definition find_param_or_local_def (tb : table) (k : key) : option symbol :=
  match find_local_ref tb k with
  | Some l =>
      find (fun s => key_eqb (s_region s) (s_region l) && is_param_or_local s
                     && is_defined_by (s_idx l) (s_idx s)) (symbols tb)
  | None => None
  end.
(** [find_block_ref], binder.rs:555-559. *)
Definition find_block_ref (tb : table) (k : key) : option symbol :=
  find (fun s => skind_eqb (s_kind s) SBlockRef && key_eqb (s_key s) k) (symbols tb).
(** [find_block_def], binder.rs:546-553. *)
Definition find_block_def (tb : table) (k : key) : option symbol :=
  match find_block_ref tb k with
  | Some b =>
      match find (fun t => match t with (rk, _, i) => key_eqb k rk && is_defined_by (s_idx b) i end)
              (blocks tb) with
      | Some (_, dk, _) => find_key tb dk
      | None => None
      end
  | None => None
  end.
(** [get_declared_fields], binder.rs:561-571. *)
Definition get_declared_fields (tb : table) (m : elem) (k : skind) : list symbol :=
  filter (fun s => skind_eqb (s_kind s) k && key_eqb (s_region s) (key_of m)) (symbols tb).
(** [get_declared_params_and_locals], binder.rs:573-582. *)
Definition get_declared_params_and_locals (tb : table) (f : elem) : list symbol :=
  filter (fun s => is_param_or_local s && key_eqb (s_region s) (key_of f)) (symbols tb).
