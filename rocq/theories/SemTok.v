(** Semantic tokens: crates/service/src/features/semantic_tokens.rs and the
    legend negotiated in [initialize], crates/service/src/lib.rs:58-87,
    139-151. *)

From Coq Require Import String List NArith ZArith Bool Arith Lia.
From Verif Require Import Text Kind Green Lexer Red LineIndex Cursor Doc Ast Binder Nav Features.
Import ListNotations.

(** [SemanticTokenKind], semantic_tokens.rs:187-198. *)
Inductive tkind : Type :=
| TkType | TkParam | TkVar | TkFunc | TkKeyword | TkComment | TkString | TkNumber | TkOp.
Definition tkind_eq_dec (a b : tkind) : {a = b} + {a <> b}.
Proof. decide equality. Defined.
Definition tkind_eqb (a b : tkind) : bool := if tkind_eq_dec a b then true else false.

(** The names of the token types in the protocol ([SemanticTokenType] of
    lsp-types), for the constants used in lib.rs:66-84. *)
Definition tkind_name (k : tkind) : string :=
  match k with
  | TkType => "type" | TkParam => "parameter" | TkVar => "variable" | TkFunc => "function"
  | TkKeyword => "keyword" | TkComment => "comment" | TkString => "string" | TkNumber => "number"
  | TkOp => "operator"
  end.
Definition all_tkinds : list tkind :=
  [TkType; TkParam; TkVar; TkFunc; TkKeyword; TkComment; TkString; TkNumber; TkOp].
(** The chain of comparisons, lib.rs:66-84. *)
Definition tkind_of_name (x : string) : option tkind :=
  find (fun k => String.eqb x (tkind_name k)) all_tkinds.

(** [IndexMap::insert]: a key already present keeps its place.  The value
    inserted is the name of the key. *)
Definition index_insert (m : list (tkind * string)) (k : tkind) : list (tkind * string) :=
  if existsb (fun p => tkind_eqb (fst p) k) m then m else m ++ [(k, tkind_name k)].
(** [kinds_map], lib.rs:59-85. *)
Definition kinds_map (types : list string) : list (tkind * string) :=
  fold_left (fun m x => match tkind_of_name x with Some k => index_insert m k | None => m end) types [].
(** [semantic_token_kinds], lib.rs:86, and the legend of the answer to
    [initialize], lib.rs:143. *)
Definition token_kinds (types : list string) : list tkind := map fst (kinds_map types).
Definition legend (types : list string) : list string := map snd (kinds_map types).

(** [IndexSet::get_index_of]. *)
Fixpoint index_of (k : tkind) (l : list tkind) : option nat :=
  match l with
  | [] => None
  | x :: r => if tkind_eqb x k then Some 0 else option_map S (index_of k r)
  end.

(** [str::starts_with]. *)
Fixpoint starts_with (p t : text) : bool :=
  match p, t with
  | [], _ => true
  | c :: p', d :: t' => N.eqb c d && starts_with p' t'
  | _ :: _, [] => false
  end.

(** The kind chosen by [token_type], semantic_tokens.rs:110-184, before it is
    looked up. *)
Definition is_func_place (g : elem) : bool :=
  is_call g || kind_eqb (ekind g) MODULE_FIELD_START || kind_eqb (ekind g) EXPORT_DESC_FUNC.
Definition is_local_instr (g : elem) : bool :=
  match token g INSTR_NAME with Some nm => starts_with (T "local.") (etext nm) | None => false end.
Definition opt_test {A} (p : A -> bool) (o : option A) : bool :=
  match o with Some x => p x | None => false end.
Definition is_some {A} (o : option A) : bool := match o with Some _ => true | None => false end.
Definition grand (t : elem) : option elem :=
  match parent t with Some p => parent p | None => None end.

Definition token_class (tb : table) (t : elem) : option tkind :=
  match ekind t with
  | NUM_TYPE | VEC_TYPE | REF_TYPE => Some TkType
  | KEYWORD => Some TkKeyword
  | INT | UNSIGNED_INT =>
      if opt_test is_func_place (grand t) then Some TkFunc
      else if opt_test is_local_instr (grand t) then
        match parent t with
        | Some p => if is_some (find_param_def tb (key_of p)) then Some TkParam else Some TkVar
        | None => Some TkNumber
        end
      else Some TkNumber
  | FLOAT => Some TkNumber
  | IDENT =>
      if opt_test is_func_place (grand t)
         || opt_test (fun p => kind_eqb (ekind p) MODULE_FIELD_FUNC) (parent t)
      then Some TkFunc
      else if opt_test (fun p => kind_eqb (ekind p) PARAM) (parent t)
              || opt_test (fun p => is_some (find_param_def tb (key_of p))) (parent t)
      then Some TkParam
      else Some TkVar
  | STRING => Some TkString
  | LINE_COMMENT | BLOCK_COMMENT => Some TkComment
  | INSTR_NAME => Some TkOp
  | _ => None
  end.
Definition token_type (kinds : list tkind) (tb : table) (t : elem) : option nat :=
  match token_class tb t with Some k => index_of k kinds | None => None end.

(** [SemanticToken] of lsp-types; the modifiers are always 0.  [delta_start]
    is computed by a subtraction of [u32]s: a negative value here is a panic
    in a debug build and a wrapped value in a release build. *)
Record semtok : Type := mk_st { st_line : nat; st_start : Z; st_length : nat; st_type : nat }.

Definition count_lf (t : text) : nat := length (filter (N.eqb LF) t).

(** [build_tokens], semantic_tokens.rs:65-108. *)
Section Build.
Variable src : text.
Fixpoint build_tokens (kinds : list tkind) (tb : table) (delta_line prev_start : nat)
  (l : list elem) : ans (list semtok) :=
  match l with
  | [] => Ans []
  | t :: r =>
      if kind_eqb (ekind t) WHITESPACE then
        let lines := count_lf (etext t) in
        if Nat.ltb 0 lines
        then build_tokens kinds tb (delta_line + lines) 0 r
        else build_tokens kinds tb delta_line prev_start r
      else
        match token_type kinds tb t with
        | None => build_tokens kinds tb delta_line prev_start r
        | Some ty =>
            abind (amust (line_col (new_line_index src) (estart t))) (fun p =>
            let lines := if kind_eqb (ekind t) BLOCK_COMMENT then count_lf (etext t) else 0 in
            abind (build_tokens kinds tb lines (if Nat.ltb 0 lines then 0 else snd p) r) (fun ts =>
            Ans (mk_st delta_line (Z.of_nat (snd p) - Z.of_nat prev_start) (glen (el t)) ty :: ts)))
        end
  end.
End Build.

Definition all_tokens (src : text) : list elem :=
  filter (fun e => negb (is_node e)) (descendants_with_tokens (root_of (tree_of src))).

(** [semantic_tokens_full], semantic_tokens.rs:13-32. *)
Definition semantic_tokens_full (types : list string) (src : text) : ans (list semtok) :=
  abind (the_symbols src) (fun tb =>
  build_tokens src (token_kinds types) tb 0 0 (all_tokens src)).

Fixpoint skip_while {A} (p : A -> bool) (l : list A) : list A :=
  match l with
  | [] => []
  | x :: r => if p x then skip_while p r else l
  end.
Fixpoint take_while {A} (p : A -> bool) (l : list A) : list A :=
  match l with
  | [] => []
  | x :: r => if p x then x :: take_while p r else []
  end.

(** [semantic_tokens_range], semantic_tokens.rs:35-63. *)
Definition tokens_in (src : text) (a b : nat) : list elem :=
  take_while (fun t => Nat.ltb (estart t) b) (skip_while (fun t => Nat.leb (eend t) a) (all_tokens src)).
Definition semantic_tokens_range (types : list string) (src : text) (r : range) : ans (list semtok) :=
  abind (aopt (offset (new_line_index src) (fst r))) (fun a =>
  abind (aopt (offset (new_line_index src) (snd r))) (fun b =>
  abind (the_symbols src) (fun tb =>
  let ts := tokens_in src a b in
  match ts with
  | [] => Ans []
  | t :: _ =>
      abind (amust (line_col (new_line_index src) (estart t))) (fun p =>
      build_tokens src (token_kinds types) tb (fst p) (snd p) ts)
  end))).
