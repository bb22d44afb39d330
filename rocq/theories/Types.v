(** crates/service/src/types_analyzer.rs: value types and function
    signatures. *)

From Coq Require Import String List NArith Bool Arith Lia.
From Verif Require Import Text Kind Green Lexer Red LineIndex Cursor Doc Ast Binder Nav InstrMeta.
Import ListNotations.

(** [==] on [ValType] (derived), types_analyzer.rs:138. *)
Definition valtype_eqb (a b : valtype) : bool :=
  match a, b with
  | VI32, VI32 | VI64, VI64 | VF32, VF32 | VF64, VF64 | VV128, VV128
  | VFuncRef, VFuncRef | VExternRef, VExternRef => true
  | _, _ => false
  end.
(** [Display for ValType], types_analyzer.rs:150-162. *)
Definition show_valtype (v : valtype) : text :=
  T match v with
    | VI32 => "i32" | VI64 => "i64" | VF32 => "f32" | VF64 => "f64" | VV128 => "v128"
    | VFuncRef => "funcref" | VExternRef => "externref"
    end%string.

(** The number and reference types by text, types_analyzer.rs:167-172 and
    192-198. *)
Definition num_type (t : text) : option valtype :=
  if text_eqb t (T "i32") then Some VI32
  else if text_eqb t (T "i64") then Some VI64
  else if text_eqb t (T "f32") then Some VF32
  else if text_eqb t (T "f64") then Some VF64
  else None.
(** types_analyzer.rs:177-181 and 200-204. *)
Definition ref_type (t : text) : option valtype :=
  if text_eqb t (T "funcref") then Some VFuncRef
  else if text_eqb t (T "externref") then Some VExternRef
  else None.

(** [From<AstValType> for ValType], types_analyzer.rs:164-187; [Panics] is
    [unreachable!]. *)
Definition valtype_from (e : elem) : ans valtype :=
  match token e NUM_TYPE with
  | Some t => amust (num_type (etext t))
  | None =>
      match token e VEC_TYPE with
      | Some _ => Ans VV128
      | None =>
          match token e REF_TYPE with
          | Some t => amust (ref_type (etext t))
          | None => Panics
          end
      end
  end.

Fixpoint find_map {A B} (f : A -> option B) (l : list A) : option B :=
  match l with
  | [] => None
  | x :: r => match f x with Some y => Some y | None => find_map f r end
  end.

(** [TryFrom<GreenNode> for ValType], types_analyzer.rs:189-215. *)
Definition valtype_of_green (g : green) : option valtype :=
  find_map (fun c =>
    match c with
    | Tok NUM_TYPE t => num_type t
    | Tok VEC_TYPE _ => Some VV128
    | Tok REF_TYPE t => ref_type t
    | _ => None
    end) (gchildren g).

(** [extract_type], types_analyzer.rs:39-48. *)
Definition extract_type (g : green) : option valtype :=
  match valtype_of_green g with
  | Some v => Some v
  | None =>
      find_map (fun c => match c with Node VAL_TYPE _ => valtype_of_green c | _ => None end) (gchildren g)
  end.

(** The first child node of a kind, as in types_analyzer.rs:51-55. *)
Definition green_child (k : kind) (g : green) : option green :=
  find (fun c => match c with Node k' _ => kind_eqb k' k | Tok _ _ => false end) (gchildren g).

(** [extract_global_type], types_analyzer.rs:50-57. *)
Definition extract_global_type (g : green) : option valtype :=
  match green_child GLOBAL_TYPE g with Some t => extract_type t | None => None end.

(** [FuncSig], types_analyzer.rs:217-221. *)
Record funcsig : Type := mk_sig { sig_params : list (valtype * option text); sig_results : list valtype }.

(** One parameter declaration, types_analyzer.rs:61-72. *)
Definition sig_param (p : elem) : ans (list (valtype * option text)) :=
  match token p IDENT, childs p VAL_TYPE with
  | Some i, v :: _ => abind (valtype_from v) (fun t => Ans [(t, Some (etext i))])
  | _, vs => abind (map_ans valtype_from vs) (fun ts => Ans (map (fun t => (t, None)) ts))
  end.
(** [extract_sig], types_analyzer.rs:59-79. *)
Definition extract_sig (g : green) : ans funcsig :=
  let root := root_of g in
  abind (map_ans sig_param (childs root PARAM)) (fun ps =>
  abind (map_ans valtype_from (flat_map (fun r => childs r VAL_TYPE) (childs root RESULT))) (fun rs =>
  Ans (mk_sig (concat ps) rs))).

(** [find_func_type_of_type_def], helpers.rs:40-48. *)
Definition find_func_type_of_type_def (g : green) : option green := green_child FUNC_TYPE g.

(** [get_func_sig], types_analyzer.rs:81-111.  The [debug_assert!] is not
    modelled; every caller passes a function symbol. *)
Definition get_func_sig (src : text) (tb : table) (s : symbol) : ans funcsig :=
  abind (aopt (green_child TYPE_USE (s_green s))) (fun tu =>
  if existsb (fun c => kind_eqb (gkind c) PARAM || kind_eqb (gkind c) RESULT) (gchildren tu) then extract_sig tu
  else
    abind (amust (to_node (tree_of src) (s_key s))) (fun node =>
    abind (aopt (child node TYPE_USE)) (fun tu =>
    abind (aopt (child tu INDEX)) (fun i =>
    abind (aopt (find_defs tb (key_of i))) (fun ds =>
    abind (aopt (hd_error ds)) (fun d =>
    abind (aopt (find_func_type_of_type_def (s_green d))) (fun ft =>
    extract_sig ft))))))).

(** [Display for FuncSig], types_analyzer.rs:222-247. *)
Definition show_param (p : valtype * option text) : text :=
  T "(param" ++ match snd p with Some x => T " " ++ x | None => [] end ++ T " " ++ show_valtype (fst p) ++ T ")".
Definition show_result (v : valtype) : text := T "(result " ++ show_valtype v ++ T ")".
Fixpoint join_spaces (l : list text) : text :=
  match l with
  | [] => []
  | [x] => x
  | x :: r => x ++ T " " ++ join_spaces r
  end.
Definition show_sig (s : funcsig) : text :=
  join_spaces (map show_param (sig_params s) ++ map show_result (sig_results s)).

(** [render_func_header], types_analyzer.rs:113-137. *)
Definition render_func_header (src : text) (tb : table) (s : symbol) : ans text :=
  let name := match s_kind s, i_name (s_idx s) with SFunc, Some x => T " " ++ x | _, _ => [] end in
  match get_func_sig src tb s with
  | Ans sg =>
      Ans (T "(func" ++ name
           ++ match sig_params sg, sig_results sg with [], [] => [] | _, _ => T " " ++ show_sig sg end
           ++ T ")")
  | NoAns => Ans (T "(func" ++ name ++ T ")")
  | Panics => Panics
  end.
