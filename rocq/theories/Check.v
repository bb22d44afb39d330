(** The checkers: crates/service/src/checker, crates/service/src/files.rs and
    crates/service/src/features/diagnostics.rs. *)

From Coq Require Import String List NArith Bool Arith Lia DecimalString.
From Verif Require Import Text Kind Green Lexer Winnow Red LineIndex Cursor Doc Ast Binder Nav InstrMeta Types.
Import ListNotations.

(** [Diagnostic]: range, message and related information (the URI of a related
    location is that of the document).  Severity and source are the same for
    all and not modelled. *)
Record diag : Type := mk_diag { d_range : range; d_message : text; d_related : option (list (range * text)) }.

(** [Option] as a value. *)
Definition catch {A} (a : ans A) : ans (option A) :=
  match a with Ans x => Ans (Some x) | NoAns => Ans None | Panics => Panics end.

(** [helpers::rowan_range_to_lsp_range] of [ptr.text_range()]. *)
Definition key_range (src : text) (k : key) : ans range :=
  amust (lsp_range (new_line_index src) (key_start k) (key_end k)).

(** A diagnostic on an element without related information. *)
Definition diag_at (src : text) (e : elem) (m : text) : ans diag :=
  abind (range_of src e) (fun r => Ans (mk_diag r m None)).

(** [usize] and [u32] as decimal text. *)
Definition show_N (n : N) : text := T (NilZero.string_of_uint (N.to_uint n)).
Definition show_nat (n : nat) : text := show_N (N.of_nat n).

(** ** Syntax errors: files.rs:32-56 *)

(** [Display for StrContext] (winnow 0.6.18, error.rs); the special cases for
    newline, backquote and control characters are not modelled, the parser uses
    none of them. *)
Definition show_msg (m : msg) : text :=
  match m with
  | MLabel s => T "invalid " ++ T s
  | MExpChar c => T "expected `" ++ [c] ++ T "`"
  | MExpLit s => T "expected `" ++ T s ++ T "`"
  | MExpDesc s => T "expected " ++ T s
  end.
Definition syntax_diag (src : text) (e : err) : ans diag :=
  abind (amust (line_col (new_line_index src) (e_start e))) (fun a =>
  abind (amust (line_col (new_line_index src) (e_end e))) (fun b =>
  Ans (mk_diag (a, b) (T "syntax error: " ++ show_msg (e_msg e)) None))).
Definition syntax_diags (src : text) : ans (list diag) := map_ans (syntax_diag src) (errs_of src).

(** ** multi_modules.rs:6-19 *)

Definition multi_modules (src : text) (root : elem) : ans (list diag) :=
  map_ans (fun m => diag_at src m (T "only one module is allowed in one file")) (tl (childs root MODULE)).

(** ** literal_operands.rs *)

(** [SyntaxNode::first_token] (rowan cursor.rs): the first child, if it is a
    token; otherwise the first token of that child. *)
Fixpoint first_token_of (g : green) (o : nat) (us : list up) : option elem :=
  match g with
  | Tok _ _ => Some (mk_elem g o us)
  | Node _ cs => match cs with [] => None | c :: _ => first_token_of c o (mk_up g o 0 :: us) end
  end.
Definition first_token (e : elem) : option elem := first_token_of (el e) (off e) (ups e).

Definition expected_idx : list kind * string := ([IDENT; INT], "expected identifier or unsigned integer"%string).
Definition expected_int : list kind * string := ([INT], "expected integer"%string).
Definition expected_float : list kind * string := ([FLOAT; INT], "expected floating-point number"%string).
Definition expected_mem : list kind * string := ([MEM_ARG], "expected memory argument"%string).

(** The [match] of literal_operands.rs:35-102: the forms of the operands that
    are checked, in order. *)
Definition idx_instrs : list string :=
  ["call"; "local.get"; "local.set"; "local.tee"; "global.get"; "global.set";
   "table.get"; "table.set"; "ref.func"; "memory.init"; "data.drop"; "elem.drop";
   "table.grow"; "table.size"; "table.fill"; "br"; "br_if"]%string.
Definition int_instrs : list string := ["i32.const"; "i64.const"; "v128.const"]%string.
Definition float_instrs : list string := ["f32.const"; "f64.const"]%string.
Definition idx2_instrs : list string := ["table.init"; "table.copy"]%string.
Definition mem_instrs : list string :=
  ["i32.load"; "i64.load"; "f32.load"; "f64.load"; "i32.load8_s"; "i32.load8_u";
   "i32.load16_s"; "i32.load16_u"; "i64.load8_s"; "i64.load8_u"; "i64.load16_s";
   "i64.load16_u"; "i64.load32_s"; "i64.load32_u"; "i32.store"; "i64.store";
   "f32.store"; "f64.store"; "i32.store8"; "i32.store16"; "i64.store8";
   "i64.store16"; "i64.store32"; "v128.load"; "v128.load8x8_s"; "v128.load8x8_u";
   "v128.load16x4_s"; "v128.load16x4_u"; "v128.load32x2_s"; "v128.load32x2_u";
   "v128.load8_splat"; "v128.load16_splat"; "v128.load32_splat"; "v128.load64_splat";
   "v128.store"]%string.
Definition lane_instrs : list string :=
  ["i8x16.shuffle"; "i8x16.extract_lane_s"; "i8x16.extract_lane_u"; "i8x16.replace_lane";
   "i16x8.extract_lane_s"; "i16x8.extract_lane_u"; "i16x8.replace_lane";
   "i32x4.extract_lane"; "i32x4.replace_lane"; "i64x2.extract_lane"; "i64x2.replace_lane";
   "f32x4.extract_lane"; "f32x4.replace_lane"; "f64x2.extract_lane"; "f64x2.replace_lane"]%string.
Definition mem_lane_instrs : list string :=
  ["v128.load8_lane"; "v128.load16_lane"; "v128.load32_lane"; "v128.load64_lane";
   "v128.store8_lane"; "v128.store16_lane"; "v128.store32_lane"; "v128.store64_lane"]%string.
Definition operand_forms (nm : text) : list (list kind * string) :=
  if name_in nm idx_instrs then [expected_idx]
  else if name_in nm int_instrs then [expected_int]
  else if name_in nm float_instrs then [expected_float]
  else if name_in nm idx2_instrs then [expected_idx; expected_idx]
  else if name_in nm mem_instrs then [expected_mem]
  else if name_in nm lane_instrs then [expected_idx]
  else if name_in nm mem_lane_instrs then [expected_mem; expected_idx]
  else [].
(** [check_operand!], literal_operands.rs:16-33. *)
Definition check_operand (src : text) (p : (list kind * string) * elem) : ans (list diag) :=
  match first_token (snd p) with
  | None => Ans []
  | Some t =>
      if existsb (kind_eqb (ekind t)) (fst (fst p)) then Ans []
      else abind (diag_at src t (T (snd (fst p)))) (fun d => Ans [d])
  end.
Definition literal_operands (src : text) (e : elem) : ans (list diag) :=
  match instr_name_of e with
  | None => Ans []
  | Some nm =>
      abind (map_ans (check_operand src) (combine (operand_forms nm) (childs e OPERAND))) (fun ls =>
      Ans (concat ls))
  end.

(** ** undef.rs *)

Definition is_undefined (tb : table) (s : symbol) : bool :=
  match s_kind s with
  | SModule | SFunc | SParam | SLocal | SType | SGlobalDef | SMemoryDef | STableDef | SBlockDef => false
  | SCall | STypeUse | SGlobalRef | SMemoryRef | STableRef =>
      match find_defs tb (s_key s) with Some (_ :: _) => false | _ => true end
  | SLocalRef => match find_param_or_local_def tb (s_key s) with Some _ => false | None => true end
  | SBlockRef =>
      negb (existsb (fun t => match t with (rk, _, i) => key_eqb rk (s_key s) && is_defined_by (s_idx s) i end)
              (blocks tb))
  end.
Definition show_idx (i : idx) : text :=
  match i_name i with
  | Some x => x
  | None => match i_num i with Some n => show_N n | None => [] end
  end.
Definition undef_diag (src : text) (s : symbol) : ans diag :=
  abind (key_range src (s_key s)) (fun r =>
  Ans (mk_diag r (T "cannot find `" ++ show_idx (s_idx s) ++ T "` in this scope") None)).
Definition undef_check (src : text) (tb : table) : ans (list diag) :=
  map_ans (undef_diag src) (filter (is_undefined tb) (symbols tb)).

(** ** dup_names.rs *)

(** [get_ident_range], dup_names.rs:162-166, as a pair of offsets. *)
Definition ident_range (src : text) (s : symbol) : ans (nat * nat) :=
  abind (amust (to_node (tree_of src) (s_key s))) (fun n =>
  Ans match token n IDENT with
      | Some t => (estart t, eend t)
      | None => (key_start (s_key s), key_end (s_key s))
      end).
Definition lsp_of (src : text) (p : nat * nat) : ans range :=
  amust (lsp_range (new_line_index src) (fst p) (snd p)).
Definition ident_lsp_range (src : text) (s : symbol) : ans range :=
  abind (ident_range src s) (lsp_of src).

Definition dup_kind (s : symbol) : bool :=
  match s_kind s with
  | SFunc | SParam | SLocal | SType | SGlobalDef | SMemoryDef | SBlockDef => true
  | _ => false
  end.
(** The [FxHashMap] of dup_names.rs:37-44 as a list of groups in order of
    first insertion.  The real iteration order is unspecified. *)
Fixpoint add_to_group (x : text) (r : key) (s : symbol) (m : list ((text * key) * list symbol))
  : list ((text * key) * list symbol) :=
  match m with
  | [] => [((x, r), [s])]
  | ((y, r'), l) :: m' =>
      if text_eqb x y && key_eqb r r' then ((y, r'), l ++ [s]) :: m'
      else ((y, r'), l) :: add_to_group x r s m'
  end.
Definition name_groups (l : list symbol) : list ((text * key) * list symbol) :=
  fold_left (fun m s => match i_name (s_idx s) with Some x => add_to_group x (s_region s) s m | None => m end) l [].

Definition dup_msg (x : text) : text := T "duplicated name `" ++ x ++ T "` in this scope".
Definition dup_related_msg (x : text) : text := T "already defined here as `" ++ x ++ T "`".

(** dup_names.rs:46-76. *)
Definition group_diag (src : text) (x : text) (l : list symbol) (s : symbol) : ans diag :=
  abind (ident_lsp_range src s) (fun r =>
  abind (map_ans (ident_lsp_range src) (filter (fun o => negb (symbol_eqb o s)) l)) (fun rs =>
  Ans (mk_diag r (dup_msg x) (Some (map (fun r => (r, dup_related_msg x)) rs))))).
Definition group_diags (src : text) (g : (text * key) * list symbol) : ans (list diag) :=
  map_ans (group_diag src (fst (fst g)) (snd g)) (snd g).
Definition dup_scope (src : text) (tb : table) : ans (list diag) :=
  abind (map_ans (group_diags src)
           (filter (fun g => Nat.ltb 1 (length (snd g))) (name_groups (filter dup_kind (symbols tb))))) (fun ls =>
  Ans (concat ls)).

(** The [while let] loop of dup_names.rs:93-113: the blocks from the region of
    a block upwards.  [None]: out of fuel. *)
Fixpoint parent_blocks (fuel : nat) (tb : table) (r : key) : option (list symbol) :=
  match find_key tb r with
  | None => Some []
  | Some p =>
      if skind_eqb (s_kind p) SBlockDef then
        match fuel with
        | 0 => None
        | S f => match parent_blocks f tb (s_region p) with Some l => Some (p :: l) | None => None end
        end
      else Some []
  end.
Definition named_as (x : text) (s : symbol) : bool :=
  match i_name (s_idx s) with Some y => text_eqb y x | None => false end.
(** [sort_by_key(|range| range.start())], stable. *)
Fixpoint insert_by_start (p : nat * nat) (l : list (nat * nat)) : list (nat * nat) :=
  match l with
  | [] => [p]
  | q :: r => if Nat.leb (fst p) (fst q) then p :: l else q :: insert_by_start p r
  end.
Definition sort_by_start (l : list (nat * nat)) : list (nat * nat) := fold_right insert_by_start [] l.

(** dup_names.rs:79-158.  The map has one entry for each named block, since the
    symbols of a table are pairwise different. *)
Definition key_contains (a b : key) : bool :=
  Nat.leb (key_start a) (key_start b) && Nat.leb (key_end b) (key_end a).
Definition nested_ranges (src : text) (tb : table) (s : symbol) (x : text) : ans (list (nat * nat)) :=
  abind (amust (parent_blocks (S (gdepth (tree_of src))) tb (s_region s))) (fun ps =>
  map_ans (ident_range src)
    (filter (named_as x) ps
     ++ filter (fun o => negb (symbol_eqb o s) && skind_eqb (s_kind o) SBlockDef && named_as x o
                         && key_contains (s_key s) (s_key o)) (symbols tb))).
Definition nested_diag (src : text) (tb : table) (s : symbol) : ans (list diag) :=
  match s_kind s, i_name (s_idx s) with
  | SBlockDef, Some x =>
      abind (nested_ranges src tb s x) (fun rs =>
      if Nat.ltb 1 (length rs) then
        abind (ident_lsp_range src s) (fun r =>
        abind (map_ans (lsp_of src) (sort_by_start rs)) (fun rr =>
        Ans [mk_diag r (dup_msg x) (Some (map (fun r => (r, dup_related_msg x)) rr))]))
      else Ans [])
  | _, _ => Ans []
  end.
Definition dup_nested (src : text) (tb : table) : ans (list diag) :=
  abind (map_ans (nested_diag src tb) (symbols tb)) (fun ls => Ans (concat ls)).
Definition dup_names (src : text) (tb : table) : ans (list diag) :=
  abind (dup_scope src tb) (fun a => abind (dup_nested src tb) (fun b => Ans (a ++ b))).

(** ** typeck.rs *)

(** [data_set::INSTR_METAS.get]. *)
Definition meta_of (nm : text) : option instr_meta :=
  option_map snd (find (fun p => text_eqb (T (fst p)) nm) instr_table).

(** [Instr::can_cast], crates/syntax/src/ast/instr.rs:426-440. *)
Definition is_instr (e : elem) : bool := existsb (kind_eqb (ekind e)) [PLAIN_INSTR; BLOCK_BLOCK; BLOCK_LOOP; BLOCK_IF].
(** [Operand::instr], instr.rs:489-491. *)
Definition operand_instr (o : elem) : option elem := find is_instr (children o).
(** [PlainInstr::operands], instr.rs:541-543. *)
Definition operands (e : elem) : list elem := childs e OPERAND.

(** [find_defs(..).into_iter().flatten().next()]. *)
Definition first_def (tb : table) (e : elem) : option symbol :=
  match find_defs tb (key_of e) with Some (d :: _) => Some d | _ => None end.

(** [resolve_type], typeck.rs:224-274. *)
Definition resolve_type (src : text) (tb : table) (e : elem) : ans (list optype) :=
  if kind_eqb (ekind e) PLAIN_INSTR then
    abind (aopt (instr_name_of e)) (fun nm =>
    if text_eqb nm (T "call") then
      abind (aopt (hd_error (operands e))) (fun i =>
      abind (aopt (first_def tb i)) (fun f =>
      abind (get_func_sig src tb f) (fun sg => Ans (map OVal (sig_results sg)))))
    else if text_eqb nm (T "local.get") then
      abind (aopt (hd_error (operands e))) (fun i =>
      abind (aopt (find_param_or_local_def tb (key_of i))) (fun s =>
      abind (aopt (extract_type (s_green s))) (fun t => Ans [OVal t])))
    else if text_eqb nm (T "global.get") then
      abind (aopt (hd_error (operands e))) (fun i =>
      abind (aopt (first_def tb i)) (fun s =>
      abind (aopt (extract_global_type (s_green s))) (fun t => Ans [OVal t])))
    else abind (aopt (meta_of nm)) (fun m => Ans (m_results m)))
  else NoAns.

(** [ExpectedType], typeck.rs:276; the message of the related place is always
    the same. *)
Definition expected_type : Type := optype * option key.
(** [resolve_expected_types], typeck.rs:277-318. *)
Definition resolve_expected_types (src : text) (tb : table) (e : elem) : ans (list expected_type) :=
  abind (aopt (instr_name_of e)) (fun nm =>
  if text_eqb nm (T "call") then
    abind (aopt (hd_error (operands e))) (fun i =>
    abind (aopt (first_def tb i)) (fun f =>
    abind (amust (to_node (tree_of src) (s_key f))) (fun n =>
    let related := map (fun s => Some (s_key s))
      (filter (fun s => skind_eqb (s_kind s) SParam) (get_declared_params_and_locals tb n)) in
    abind (get_func_sig src tb f) (fun sg =>
    Ans (combine (map (fun p => OVal (fst p)) (sig_params sg)) related)))))
  else abind (aopt (meta_of nm)) (fun m => Ans (map (fun p => (p, None)) (m_params m)))).

(** [build_incorrect_operands_count_msg], typeck.rs:320-325. *)
Definition count_msg (expected received : nat) : text :=
  T "expected " ++ show_nat expected ++ T " " ++ T (if Nat.eqb expected 1 then "operand" else "operands")%string
  ++ T ", found " ++ show_nat received.
Definition mismatch_msg (expected received : valtype) : text :=
  T "expected type `" ++ show_valtype expected ++ T "`, found `" ++ show_valtype received ++ T "`".

(** The closure of typeck.rs:89-117 and 178-208. *)
Definition type_mismatch (src : text) (p : expected_type * (optype * elem)) : ans (list diag) :=
  match p with
  | ((OVal x, rel), (OVal y, e)) =>
      if valtype_eqb x y then Ans []
      else
        abind (range_of src e) (fun r =>
        abind (match rel with
               | None => Ans None
               | Some k => abind (key_range src k) (fun r => Ans (Some [(r, T "parameter originally defined here")]))
               end) (fun rl =>
        Ans [mk_diag r (mismatch_msg x y) rl]))
  | _ => Ans []
  end.
Definition type_mismatches (src : text) (ps : list expected_type) (rs : list (optype * elem)) : ans (list diag) :=
  abind (map_ans (type_mismatch src) (combine ps rs)) (fun ls => Ans (concat ls)).

(** The fold of typeck.rs:46-71: received types, and diagnostics. *)
Definition receive (src : text) (tb : table) (known : bool) (o : elem) : ans (list (optype * elem) * list diag) :=
  match operand_instr o with
  | Some i =>
      abind (catch (resolve_type src tb i)) (fun r =>
      Ans (match r with Some ts => map (fun t => (t, o)) ts | None => [] end, []))
  | None =>
      if known then abind (diag_at src o (T "expected instr")) (fun d => Ans ([], [d])) else Ans ([], [])
  end.
(** [check_folded], typeck.rs:23-119. *)
Definition check_folded (src : text) (tb : table) (e : elem) : ans (list diag) :=
  match instr_name_of e, token e L_PAREN with
  | Some nm, Some _ =>
      let meta := meta_of nm in
      let skipped := if text_eqb nm (T "call") then 1
                     else match meta with Some m => m_operands_count m | None => 0 end in
      abind (map_ans (receive src tb (match meta with Some _ => true | None => false end)) (skipn skipped (operands e)))
        (fun rc =>
      let received := concat (map fst rc) in
      let d1 := concat (map snd rc) in
      abind (catch (resolve_expected_types src tb e)) (fun ex =>
      match ex with
      | None => Ans d1
      | Some params =>
          let expected_count := length params + skipped in
          let received_count :=
            length received
            + length (filter (fun o => match operand_instr o with None => true | Some _ => false end) (operands e)) in
          abind (if Nat.eqb expected_count received_count then Ans []
                 else abind (diag_at src e (count_msg expected_count received_count)) (fun d => Ans [d])) (fun d2 =>
          abind (type_mismatches src params received) (fun d3 => Ans (d1 ++ d2 ++ d3)))
      end))
  | _, _ => Ans []
  end.

(** One step of the loop of [check_stacked], typeck.rs:145-221.  The end of
    the stack is the end of the list. *)
Definition stack_step (src : text) (tb : table) (stack : list (optype * elem)) (e : elem)
  : ans (list (optype * elem) * list diag) :=
  if kind_eqb (ekind e) PLAIN_INSTR then
    abind (catch (resolve_expected_types src tb e)) (fun ex =>
    match ex with
    | None => Ans (stack, [])
    | Some params =>
        let expected_count := match token e L_PAREN with Some _ => 0 | None => length params end in
        let rest := length stack - expected_count in
        abind (if Nat.leb expected_count (length stack) then Ans []
               else abind (diag_at src e (count_msg expected_count (length stack))) (fun d => Ans [d])) (fun d1 =>
        abind (type_mismatches src params (skipn rest stack)) (fun d2 =>
        abind (catch (resolve_type src tb e)) (fun r =>
        Ans (firstn rest stack ++ match r with Some ts => map (fun t => (t, e)) ts | None => [] end, d1 ++ d2))))
    end)
  else Ans (stack, []).
Section Loop.
Variable src : text.
Fixpoint stack_loop (tb : table) (stack : list (optype * elem)) (l : list elem) : ans (list diag) :=
  match l with
  | [] => Ans []
  | e :: r =>
      abind (stack_step src tb stack e) (fun sd =>
      abind (stack_loop tb (fst sd) r) (fun ds => Ans (snd sd ++ ds)))
  end.
End Loop.
(** [check_stacked], typeck.rs:121-222. *)
Definition check_stacked (src : text) (tb : table) (e : elem) : ans (list diag) :=
  let is := filter is_instr (children e) in
  if forallb (fun c => match token c L_PAREN with Some _ => true | None => false end) is then Ans []
  else stack_loop src tb [] is.

(** ** [check], checker/mod.rs:11-55 *)

Definition check_node (src : text) (tb : table) (e : elem) : ans (list diag) :=
  match ekind e with
  | ROOT => multi_modules src e
  | MODULE_FIELD_FUNC | MODULE_FIELD_GLOBAL => check_stacked src tb e
  | PLAIN_INSTR =>
      abind (literal_operands src e) (fun a => abind (check_folded src tb e) (fun b => Ans (a ++ b)))
  | _ => Ans []
  end.
(** [pull_diagnostics] and [publish_diagnostics], diagnostics.rs:9-35. *)
Definition check (src : text) : ans (list diag) :=
  abind (the_symbols src) (fun tb =>
  abind (syntax_diags src) (fun a =>
  abind (map_ans (check_node src tb) (descendants (root_of (tree_of src)))) (fun ls =>
  abind (undef_check src tb) (fun c =>
  abind (dup_names src tb) (fun d => Ans (a ++ concat ls ++ c ++ d)))))).
