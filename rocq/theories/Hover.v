(** Hover: crates/service/src/features/hover.rs. *)

From Coq Require Import String List NArith Bool Arith Lia.
From Verif Require Import Text Kind Green Lexer Red LineIndex Cursor Doc Ast Binder Nav InstrMeta Types Check SemTok.
Import ListNotations.

(** [HoverContents] of lsp-types: one code snippet, Markdown, or several
    snippets.  The language of a snippet is always "wat" (hover.rs:333-338). *)
Inductive contents : Type := Snippet (x : text) | Markup (x : text) | Snippets (l : list text).
(** [Hover]; the range is always given. *)
Definition hover_answer : Type := contents * range.

(** [siblings_with_tokens(Direction::Prev).skip(1)]: what stands before an
    element in its parent, nearest first. *)
Definition prev_siblings (e : elem) : list elem :=
  match ups e, parent e with
  | u :: _, Some p => rev (firstn (u_idx u) (children_with_tokens p))
  | _, _ => []
  end.

(** [strip_prefix(";;;")] and [strip_prefix([' ', '\t'])], hover.rs:232-234. *)
Definition doc_line (t : text) : text :=
  match skipn 3 t with
  | c :: r => if N.eqb c 32 || N.eqb c 9 then r else c :: r
  | [] => []
  end.
(** The comments above a function, hover.rs:213-227, nearest first. *)
Definition doc_comments (n : elem) : list text :=
  take_while (starts_with (T ";;;"))
    (skip_while (fun t => negb (starts_with (T ";;;") t))
      (map etext (filter (fun e => negb (is_node e) && kind_eqb (ekind e) LINE_COMMENT)
        (take_while (fun e => kind_eqb (ekind e) LINE_COMMENT || kind_eqb (ekind e) WHITESPACE) (prev_siblings n))))).
(** The fold, hover.rs:228-236. *)
Definition add_doc (doc comment : text) : text :=
  doc_line comment ++ match doc with [] => [] | _ => LF :: doc end.
Definition doc_of (n : elem) : text := fold_left add_doc (doc_comments n) [].

(** The pieces of [format!] strings: a line feed, a code block, a rule. *)
Definition nl : text := [LF].
Definition code (x : text) : text := T "```wat" ++ nl ++ x ++ nl ++ T "```".
Definition rule : text := nl ++ T "---" ++ nl.

(** [create_func_hover], hover.rs:206-247. *)
Definition func_hover (src : text) (tb : table) (s : symbol) : ans text :=
  abind (amust (to_node (tree_of src) (s_key s))) (fun n =>
  abind (render_func_header src tb s) (fun h =>
  Ans (code h ++ match doc_of n with [] => [] | d => rule ++ d end))).

(** [create_param_or_local_hover], hover.rs:249-274. *)
Definition opt_name (s : symbol) : text :=
  match i_name (s_idx s) with Some x => T " " ++ x | None => [] end.
Definition slot_hover (s : symbol) : text :=
  T "("
  ++ match s_kind s with
     | SParam => T "param" ++ opt_name s
     | SLocal => T "local" ++ opt_name s
     | _ => []
     end
  ++ match extract_type (s_green s) with Some v => T " " ++ show_valtype v | None => [] end
  ++ T ")".

(** [create_global_def_hover], hover.rs:276-305. *)
Definition global_hover (src : text) (s : symbol) : ans text :=
  abind (amust (to_node (tree_of src) (s_key s))) (fun n =>
  Ans (T "("
       ++ (if skind_eqb (s_kind s) SGlobalDef then T "global" ++ opt_name s else [])
       ++ match child n GLOBAL_TYPE with
          | Some g =>
              (if is_some (token g KEYWORD) then T " (mut" else [])
              ++ match child g VAL_TYPE with Some v => T " " ++ etext v | None => [] end
              ++ (if is_some (token g KEYWORD) then T ")" else [])
          | None => []
          end
       ++ T ")")).

(** [create_type_def_hover], hover.rs:307-331. *)
Definition type_hover (s : symbol) : ans text :=
  let name := if skind_eqb (s_kind s) SType then opt_name s else [] in
  match find_func_type_of_type_def (s_green s) with
  | Some ft =>
      abind (extract_sig ft) (fun sg =>
      Ans (T "(type" ++ name ++ T " (func"
           ++ match sig_params sg, sig_results sg with [], [] => [] | _, _ => T " " ++ show_sig sg end
           ++ T "))"))
  | None => Ans (T "(type" ++ name ++ T ")")
  end.

(** [create_def_hover], hover.rs:182-204. *)
Definition def_hover (src : text) (tb : table) (s : symbol) : ans contents :=
  match s_kind s with
  | SParam | SLocal => Ans (Snippet (slot_hover s))
  | SFunc => abind (func_hover src tb s) (fun x => Ans (Markup x))
  | SType => abind (type_hover s) (fun x => Ans (Snippet x))
  | SGlobalDef => abind (global_hover src s) (fun x => Ans (Snippet x))
  | _ => NoAns
  end.

(** The fold of hover.rs:62-74. *)
Fixpoint joined (acc : text) (l : list text) : text :=
  match l with
  | [] => acc
  | x :: r => joined (match acc with [] => x | _ => acc ++ rule ++ x end) r
  end.
(** hover.rs:59-116: what is shown of the definitions that a reference
    denotes. *)
Definition ref_hover (src : text) (tb : table) (s : symbol) : ans contents :=
  match s_kind s, find_defs tb (s_key s) with
  | SCall, Some ds => abind (map_ans (func_hover src tb) ds) (fun l => Ans (Markup (joined [] l)))
  | STypeUse, Some ds => abind (map_ans type_hover ds) (fun l => Ans (Snippets l))
  | SGlobalRef, Some ds => abind (map_ans (global_hover src) ds) (fun l => Ans (Snippets l))
  | _, _ => NoAns
  end.
(** hover.rs:45-131, for the node [key]. *)
Definition key_hover (src : text) (tb : table) (k : key) : ans contents :=
  match find_param_or_local_def tb k with
  | Some d => Ans (Snippet (slot_hover d))
  | None =>
      abind (aopt (find_key tb k)) (fun s =>
      match ref_hover src tb s with
      | NoAns => def_hover src tb s
      | a => a
      end)
  end.

(** [get_value_type_description], data_set/mod.rs:275-286. *)
Definition value_type_doc (t : text) : option text :=
  option_map (fun p => T (snd p)) (find (fun p => text_eqb (T (fst p)) t)
    [ ("i32", "The type `i32` classifies 32 bit integers.");
      ("i64", "The type `i64` classifies 64 bit integers.");
      ("f32", "The type `f32` classifies 32 bit floating-point data.");
      ("f64", "The type `f64` classifies 64 bit floating-point data.");
      ("v128", "The type `v128` corresponds to a 128 bit vector of packed integer or floating-point data.");
      ("funcref", "The type [`funcref`](https://webassembly.github.io/spec/core/syntax/types.html#syntax-reftype) denotes the infinite union of all references to [functions](https://webassembly.github.io/spec/core/syntax/modules.html#syntax-func), regardless of their [function types](https://webassembly.github.io/spec/core/syntax/types.html#syntax-functype).");
      ("externref", "The type [`externref`](https://webassembly.github.io/spec/core/syntax/types.html#syntax-reftype) denotes the infinite union of all references to objects owned by the [embedder](https://webassembly.github.io/spec/core/intro/overview.html#embedder) and that can be passed into WebAssembly under this type.") ]%string).

(** What is shown for a token, hover.rs:39-178. *)
Definition token_hover (src : text) (t : elem) : ans contents :=
  match ekind t with
  | IDENT | INT | UNSIGNED_INT =>
      abind (the_symbols src) (fun tb =>
      abind (aopt (parent t)) (fun p => key_hover src tb (key_of p)))
  | NUM_TYPE | VEC_TYPE | REF_TYPE =>
      abind (aopt (value_type_doc (etext t))) (fun d => Ans (Markup (code (etext t) ++ nl ++ nl ++ d)))
  | KEYWORD =>
      abind (aopt (parent t)) (fun p =>
      abind (the_symbols src) (fun tb =>
      abind (aopt (find_key tb (key_of p))) (fun s => def_hover src tb s)))
  | INSTR_NAME =>
      abind (aopt (meta_of (etext t))) (fun m =>
      Ans (Markup (code (etext t) ++ nl ++ T "Binary Opcode: " ++ T (m_bin_op m))))
  | _ => NoAns
  end.
(** [hover], hover.rs:22-180. *)
Definition hover (src : text) (pos : lsp_pos) : ans hover_answer :=
  abind (cursor_token src pos) (fun t =>
  abind (token_hover src t) (fun c =>
  abind (range_of src t) (fun r => Ans (c, r)))).
