(** Specification vocabulary for the parser properties.  Nothing here refers
    to the parser: only to texts, trees and error records. *)

From Coq Require Import String List NArith Bool Arith Lia.
From Verif Require Import Text Kind Green.
Import ListNotations.

(** ** Specification: how the tree text relates to the source *)

Definition bsl : text := [c_bslash].

(** The inside of a string literal up to some point: ordinary characters and
    complete escapes. *)
Inductive StrBody : text -> Prop :=
| SB_nil : StrBody []
| SB_char p c : StrBody p -> c <> c_bslash -> c <> c_quote -> c <> c_lf -> c <> c_cr ->
    StrBody (p ++ [c])
| SB_esc p c : StrBody p -> c <> c_u -> StrBody (p ++ [c_bslash; c])
| SB_uni p h : StrBody p -> Forall (fun c => is_ascii_hexdigit c = true) h ->
    StrBody (p ++ [c_bslash; c_u; c_lbrace] ++ h ++ [c_rbrace]).

(** A piece of a malformed string literal: a double quote, a string body and
    an unfinished [\u] escape. *)
Definition BadEscape (g : text) : Prop :=
  exists p h, StrBody p /\ Forall (fun c => is_ascii_hexdigit c = true) h /\
    (g = [c_quote] ++ p ++ [c_bslash; c_u]
     \/ g = [c_quote] ++ p ++ [c_bslash; c_u; c_lbrace] ++ h).

(** [Cov src out]: [out] is [src] with some malformed string pieces, each
    directly followed by an opening parenthesis, removed. *)
Inductive Cov : text -> text -> Prop :=
| Cov_nil : Cov [] []
| Cov_keep c a b : Cov a b -> Cov (c :: a) (c :: b)
| Cov_gap g a b : BadEscape g -> Cov (c_lparen :: a) b -> Cov (g ++ c_lparen :: a) b.

(** ** Specification: text that the parser drops at the end *)

(** A double quote that starts neither a complete string nor a string cut
    off by a line ending or the end of the text: the text ends inside an
    escape, or has an unfinished [\u] escape, or a bare carriage return. *)
Definition BadString (t : text) : Prop :=
  exists p, StrBody p /\
    ( t = [c_quote] ++ p ++ [c_bslash]
    \/ (exists r, t = [c_quote] ++ p ++ [c_bslash; c_u] ++ r
                  /\ forall r', r <> c_lbrace :: r')
    \/ (exists h r, t = [c_quote] ++ p ++ [c_bslash; c_u; c_lbrace] ++ h ++ r
          /\ Forall (fun c => is_ascii_hexdigit c = true) h
          /\ forall c r', r = c :: r' -> c <> c_rbrace /\ is_ascii_hexdigit c = false)
    \/ (exists r, t = [c_quote] ++ p ++ [c_cr] ++ r /\ forall r', r <> c_lf :: r')).

(** What the text left out at the end of the document can start with. *)
Definition Droppable (t : text) : Prop :=
  t = [] \/ (exists r, t = c_ff :: r) \/ BadString t.

(** ** Specification: positions *)

(** [n] is the byte offset of a character boundary of [src]. *)
Definition Boundary (src : text) (n : nat) : Prop :=
  exists p q, src = p ++ q /\ n = tlen p.

(** ** Specification: lexical forms *)

Definition Digits (p : char -> bool) (t : text) : Prop :=
  exists d r, t = d :: r /\ p d = true
    /\ Forall (fun c => p c = true \/ c = c_underscore) r.

(** Unsigned integers: decimal, or hexadecimal after [0x]; underscores may
    separate digits but not end the number. *)
Definition UIntForm (t : text) : Prop :=
  (Digits is_ascii_digit t \/ exists d, t = T "0x" ++ d /\ Digits is_ascii_hexdigit d)
  /\ forall r, t <> r ++ [c_underscore].

Definition SignForm (t : text) : Prop := t = [] \/ t = [c_plus] \/ t = [c_minus].
Definition Opt (P : text -> Prop) (t : text) : Prop := t = [] \/ P t.
Definition Cat (P Q : text -> Prop) (t : text) : Prop := exists a b, t = a ++ b /\ P a /\ Q b.

Definition FloatForm : text -> Prop :=
  Cat SignForm (fun t =>
       Cat (eq (T "0x")) (Cat (Digits is_ascii_hexdigit)
         (Cat (Opt (Cat (eq [c_dot]) (Opt (Digits is_ascii_hexdigit))))
              (Opt (Cat (fun e => e = T "p" \/ e = T "P") (Cat SignForm (Digits is_ascii_digit)))))) t
    \/ Cat (Digits is_ascii_digit)
         (Cat (Opt (Cat (eq [c_dot]) (Opt (Digits is_ascii_digit))))
              (Opt (Cat (fun e => e = T "e" \/ e = T "E") (Cat SignForm (Digits is_ascii_digit))))) t
    \/ t = T "inf"
    \/ t = T "nan"
    \/ Cat (eq (T "nan:0x")) (Digits is_ascii_hexdigit) t).

Definition WordForm (t : text) : Prop :=
  exists c r, t = c :: r /\ is_ascii_lowercase c = true /\ Forall (fun c => is_id_char c = true) r.

Definition OneOf (l : list string) (t : text) : Prop := In t (map T l).

Definition keywords : list string :=
  ["module"; "import"; "func"; "type"; "param"; "result"; "local"; "export"; "table";
   "memory"; "global"; "mut"; "elem"; "item"; "declare"; "data"; "offset"; "start";
   "block"; "loop"; "if"; "then"; "else"; "end"]%string.

(** What stands between the delimiters of a block comment: characters that
    do not begin a delimiter, and nested comments. *)
Inductive CommentBody : text -> Prop :=
| CB_nil : CommentBody []
| CB_char c m :
    (forall d r, In d [T "(;"; T ";)"] -> c :: m ++ T ";)" <> d ++ r) ->
    CommentBody m -> CommentBody (c :: m)
| CB_nest a b : CommentBody a -> CommentBody b -> CommentBody (T "(;" ++ a ++ T ";)" ++ b).

(** The text of a token, by kind; [False] for kinds that no token has. *)
Definition LexForm (k : kind) (t : text) : Prop :=
  match k with
  | WHITESPACE => t <> [] /\ Forall (fun c => In c (T " " ++ [c_tab; c_lf; c_cr])) t
  | LINE_COMMENT => exists r, t = T ";;" ++ r /\ Forall (fun c => c <> c_lf /\ c <> c_cr) r
  | BLOCK_COMMENT => exists m, t = T "(;" ++ m ++ T ";)" /\ CommentBody m
  | L_PAREN => t = T "("
  | R_PAREN => t = T ")"
  | KEYWORD => OneOf keywords t
  | INSTR_NAME => WordForm t
  | IDENT => exists r, t = c_dollar :: r /\ r <> [] /\ Forall (fun c => is_id_char c = true) r
  | STRING => exists b, StrBody b /\ (t = [c_quote] ++ b ++ [c_quote] \/ t = [c_quote] ++ b)
  | INT => Cat SignForm UIntForm t
  | UNSIGNED_INT => UIntForm t
  | FLOAT => FloatForm t
  | NUM_TYPE => OneOf ["i32"; "i64"; "f32"; "f64"]%string t
  | VEC_TYPE => OneOf ["v128"]%string t
  | REF_TYPE => OneOf ["funcref"; "externref"]%string t
  | HEAP_TYPE => OneOf ["func"; "extern"]%string t
  | SHARE => OneOf ["shared"; "unshared"]%string t
  | MEM_ARG => exists n, (t = T "offset=" ++ n \/ t = T "align=" ++ n) /\ UIntForm n
  | ERROR => t <> []
  | _ => False
  end.

(** Tokens and subtrees of a tree. *)
Definition HasToken (g : green) (k : kind) (t : text) : Prop := In (k, t) (gtokens g).

Inductive Sub : green -> green -> Prop :=
| Sub_here g : Sub g g
| Sub_child k cs c g : In c cs -> Sub c g -> Sub (Node k cs) g.
