(** Token parsers of crates/parser/src/parser/token.rs.

    A token parser is a function from the remaining input to either
    [LOk consumed rest] or [LErr consumed rest].  winnow parsers do not
    rewind the input when they fail, so [LErr] also says how far the parser
    had advanced when it failed ([consumed ++ rest] is always the input).

    [dbg] is the build profile: with debug assertions winnow's
    "parser must always consume" check panics, without them it is an
    ordinary backtracking error. *)

From Coq Require Import String List NArith Bool Arith Lia.
From Verif Require Import Text Kind Green.
Import ListNotations.

Inductive lres : Type :=
| LOk (c r : text)
| LErr (c r : text).

Definition lex := text -> lres.

Definition lprefix (c : text) (x : lres) : lres :=
  match x with
  | LOk c2 r => LOk (c ++ c2) r
  | LErr c2 r => LErr (c ++ c2) r
  end.

(** ** winnow primitives on [&str] (winnow 0.6.18, trusted) *)

(** A string or char literal used as a parser. *)
Definition l_lit (s : text) : lex := fun t =>
  match strip_prefix s t with
  | Some r => LOk s r
  | None => LErr [] t
  end.

(** [one_of(pred)]; [none_of(pred)] is [l_one (negb pred)]. *)
Definition l_one (p : char -> bool) : lex := fun t =>
  match t with
  | c :: r => if p c then LOk [c] r else LErr [] t
  | [] => LErr [] t
  end.

(** [take_while(0.., pred)]. *)
Fixpoint span (p : char -> bool) (t : text) : text * text :=
  match t with
  | [] => ([], [])
  | c :: r => if p c then let '(a, b) := span p r in (c :: a, b) else ([], t)
  end.
Definition l_while (p : char -> bool) : lex := fun t =>
  let '(a, b) := span p t in LOk a b.
(** [take_while(1.., pred)]. *)
Definition l_while1 (p : char -> bool) : lex := fun t =>
  match span p t with
  | ([], _) => LErr [] t
  | (a, b) => LOk a b
  end.

(** Tuples with [.take()]. *)
Definition l_seq (a b : lex) : lex := fun t =>
  match a t with
  | LOk c r => lprefix c (b r)
  | LErr c r => LErr c r
  end.
Definition l_empty : lex := fun t => LOk [] t.
Definition l_opt (a : lex) : lex := fun t =>
  match a t with LOk c r => LOk c r | LErr _ _ => LOk [] t end.
Definition l_alt (a b : lex) : lex := fun t =>
  match a t with LOk c r => LOk c r | LErr _ _ => b t end.
Definition l_peek (a : lex) : lex := fun t =>
  match a t with LOk _ _ => LOk [] t | LErr _ _ => LErr [] t end.
Definition l_verify (a : lex) (p : text -> bool) : lex := fun t =>
  match a t with
  | LOk c r => if p c then LOk c r else LErr [] t
  | LErr c r => LErr c r
  end.
Definition l_eof : lex := fun t =>
  match t with [] => LOk [] [] | _ => LErr [] t end.

Infix "+>" := l_seq (at level 60, right associativity).

(** ** token.rs *)

(** [word], token.rs:67-74. *)
Definition word : lex := l_one is_ascii_lowercase +> l_while is_id_char.

(** [ws], token.rs:92-96 ([multispace1]). *)
Definition ws : lex := l_while1 is_multispace.

(** [till_line_ending] of winnow::ascii: take until CR or LF, then fail if a
    CR follows that is not part of CRLF. *)
Definition till_line_ending : lex := fun t =>
  let '(a, b) := span (fun c => negb (N.eqb c c_cr || N.eqb c c_lf)) t in
  if starts_with [c_cr] b && negb (starts_with [c_cr; c_lf] b)
  then LErr a b else LOk a b.

(** [line_comment], token.rs:98-103. *)
Definition line_comment : lex := l_lit (T ";;") +> till_line_ending.

(** [ident_impl], token.rs:142-149. *)
Definition ident_l : lex := l_lit [c_dollar] +> l_while1 is_id_char.

(** [take_escaped(none_of([...]), '\\', dispatch!{any; 'u' => ('{', hex_digit0,
    '}'), _ => empty})], token.rs:186-193, as a scanner with four modes:
    normal, after a backslash, after [\u], inside [\u{...}]. *)
Inductive smode : Set := SNorm | SEsc | SU | SHex.

Fixpoint str_scan (m : smode) (t : text) : lres :=
  match m, t with
  | SNorm, [] => LOk [] []
  | SNorm, c :: r =>
      if N.eqb c c_bslash then lprefix [c] (str_scan SEsc r)
      else if N.eqb c c_quote || N.eqb c c_lf || N.eqb c c_cr then LOk [] t
      else lprefix [c] (str_scan SNorm r)
  | SEsc, [] => LErr [] []
  | SEsc, c :: r =>
      if N.eqb c c_u then lprefix [c] (str_scan SU r)
      else lprefix [c] (str_scan SNorm r)
  | SU, c :: r =>
      if N.eqb c c_lbrace then lprefix [c] (str_scan SHex r) else LErr [] t
  | SHex, c :: r =>
      if is_ascii_hexdigit c then lprefix [c] (str_scan SHex r)
      else if N.eqb c c_rbrace then lprefix [c] (str_scan SNorm r)
      else LErr [] t
  | SU, [] | SHex, [] => LErr [] []
  end.

(** [line_ending] of winnow::ascii. *)
Definition line_ending : lex := l_alt (l_lit [c_lf]) (l_lit [c_cr; c_lf]).

(** [string_impl], token.rs:183-198. *)
Definition string_l : lex :=
  l_lit [c_quote] +> str_scan SNorm
    +> l_alt (l_lit [c_quote]) (l_alt (l_peek line_ending) l_eof).

Definition is_sign (c : char) : bool := N.eqb c c_plus || N.eqb c c_minus.

(** [unsigned_hex], token.rs:227-234. *)
Definition unsigned_hex : lex :=
  l_one is_ascii_hexdigit
    +> l_while (fun c => is_ascii_hexdigit c || N.eqb c c_underscore).
(** [unsigned_dec], token.rs:235-242. *)
Definition unsigned_dec : lex :=
  l_one is_ascii_digit
    +> l_while (fun c => is_ascii_digit c || N.eqb c c_underscore).

Fixpoint ends_with_char (c : char) (t : text) : bool :=
  match t with
  | [] => false
  | [x] => N.eqb x c
  | _ :: r => ends_with_char c r
  end.

(** [unsigned_int_impl], token.rs:218-226: [dispatch!] on [opt("0x")], then
    [verify] that the text does not end with an underscore. *)
Definition unsigned_int_l : lex :=
  l_verify
    (fun t => match strip_prefix (T "0x") t with
              | Some r => lprefix (T "0x") (unsigned_hex r)
              | None => unsigned_dec t
              end)
    (fun s => negb (ends_with_char c_underscore s)).

(** [peek(none_of(is_id_char))]: fails at the end of input. *)
Definition not_id_next : lex := l_peek (l_one (fun c => negb (is_id_char c))).

(** [int_impl], token.rs:203-211. *)
Definition int_l : lex := l_opt (l_one is_sign) +> unsigned_int_l +> not_id_next.

(** The [verify] closure of [float_impl], token.rs:268-285: every underscore
    is followed by a digit; the character after an underscore is skipped. *)
Fixpoint float_ok (is_hex : bool) (t : text) : bool :=
  match t with
  | [] => true
  | c :: r =>
      if N.eqb c c_underscore then
        match r with
        | [] => false
        | d :: r' => (if is_hex then is_ascii_hexdigit d else is_ascii_digit d)
                     && float_ok is_hex r'
        end
      else float_ok is_hex r
  end.

(** [float_impl], token.rs:247-287. *)
Definition float_l : lex :=
  l_verify
    (l_opt (l_one is_sign)
     +> l_alt
          (l_lit (T "0x")
           +> (unsigned_hex +> l_opt (l_lit [c_dot] +> l_opt unsigned_hex))
           +> l_opt (l_one (char_in (T "pP")) +> l_opt (l_one is_sign) +> unsigned_dec))
          (l_alt
             ((unsigned_dec +> l_opt (l_lit [c_dot] +> l_opt unsigned_dec))
              +> l_opt (l_one (char_in (T "eE")) +> l_opt (l_one is_sign) +> unsigned_dec))
             (l_alt (l_lit (T "inf"))
                    (l_lit (T "nan") +> l_opt (l_lit (T ":0x") +> unsigned_hex))))
     +> not_id_next)
    (fun s => float_ok (starts_with (T "0x") s) s).

(** [mem_arg], instr.rs:394-399. *)
Definition mem_arg_l : lex :=
  l_alt (l_lit (T "offset")) (l_lit (T "align")) +> l_lit [c_eq] +> unsigned_int_l.

(** [error_token], token.rs:289-301. *)
Definition error_token (allow_parens : bool) : lex := fun t =>
  match t with
  | [] => LErr [] t
  | c :: _ =>
      if N.eqb c c_dollar then (l_lit [c_dollar] +> l_while is_id_char) t
      else if N.eqb c c_lparen || N.eqb c c_rparen then
        if allow_parens then l_alt (l_lit [c_lparen]) (l_lit [c_rparen]) t
        else LErr [] t
      else if N.eqb c c_quote then string_l t
      else if is_id_char c then l_while1 is_id_char t
      else l_while1 (fun c => negb (N.eqb c c_lparen || N.eqb c c_rparen
                                    || is_ascii_whitespace c)) t
  end.

(** ** Block comments and trivia *)

(** [take_until(0.., ("(;", ";)"))]: text before the first of the two
    literals, or failure. *)
Fixpoint until_comment_delim (t : text) : option (text * text) :=
  if starts_with (T "(;") t || starts_with (T ";)") t then Some ([], t)
  else match t with
       | [] => None
       | c :: r => match until_comment_delim r with
                   | Some (a, b) => Some (c :: a, b)
                   | None => None
                   end
       end.

(** Results of parsers that may hit winnow's assertion. [POof] (out of
    fuel) is excluded by theorem. *)
Inductive pres (A : Type) : Type :=
| POk (a : A) (r : text)
| PErr
| PPanic
| POof.
Arguments POk {A}. Arguments PErr {A}. Arguments PPanic {A}. Arguments POof {A}.

(** The [repeat_till] loop of [block_comment_impl], token.rs:113-123, entered
    after the opening delimiter.  Result: the text up to and including the
    closing delimiter. *)
Fixpoint bc_loop (dbg : bool) (n : nat) (t : text) : pres text :=
  match n with
  | 0 => POof
  | S n' =>
      match strip_prefix (T ";)") t with
      | Some r => POk (T ";)") r                       (* the terminator *)
      | None =>
          match until_comment_delim t with
          | None => PErr
          | Some (a, t1) =>
              (* dispatch on peek(opt("(;")) *)
              match strip_prefix (T "(;") t1 with
              | Some t2 =>
                  (* opt(block_comment_impl) *)
                  match bc_loop dbg n' t2 with
                  | POk c r =>
                      match bc_loop dbg n' r with
                      | POk c' r' => POk (a ++ T "(;" ++ c ++ c') r'
                      | x => x
                      end
                  | PErr =>
                      match a with
                      | [] => if dbg then PPanic else PErr  (* winnow assert *)
                      | _ => match bc_loop dbg n' t1 with
                             | POk c' r' => POk (a ++ c') r'
                             | x => x
                             end
                      end
                  | x => x
                  end
              | None =>
                  match a with
                  | [] => if dbg then PPanic else PErr
                  | _ => match bc_loop dbg n' t1 with
                         | POk c' r' => POk (a ++ c') r'
                         | x => x
                         end
                  end
              end
          end
      end
  end.

(** [block_comment_impl], token.rs:110-127. *)
Definition block_comment (dbg : bool) (t : text) : pres text :=
  match strip_prefix (T "(;") t with
  | Some r => match bc_loop dbg (S (length r)) r with
              | POk c r' => POk (T "(;" ++ c) r'
              | x => x
              end
  | None => PErr
  end.

(** [alt((ws, line_comment, block_comment))], token.rs:77. *)
Definition trivia1 (dbg : bool) (t : text) : pres green :=
  match ws t with
  | LOk c r => POk (Tok WHITESPACE c) r
  | LErr _ _ =>
      match line_comment t with
      | LOk c r => POk (Tok LINE_COMMENT c) r
      | LErr _ _ =>
          match block_comment dbg t with
          | POk c r => POk (Tok BLOCK_COMMENT c) r
          | PErr => PErr
          | PPanic => PPanic
          | POof => POof
          end
      end
  end.

(** [trivias], token.rs:76-78: [repeat(0.., ...)], which never fails.  (Its
    "must consume" check is dead: [trivia1] never succeeds on nothing,
    lemma [trivia1_spec].) *)
Fixpoint trivias_loop (dbg : bool) (n : nat) (t : text) : pres (list green) :=
  match n with
  | 0 => POof
  | S n' =>
      match trivia1 dbg t with
      | POk g r => match trivias_loop dbg n' r with
                   | POk l r' => POk (g :: l) r'
                   | x => x
                   end
      | PErr => POk [] t
      | PPanic => PPanic
      | POof => POof
      end
  end.
Definition trivias (dbg : bool) (t : text) : pres (list green) :=
  trivias_loop dbg (S (length t)) t.

(** ** Error terms *)

Definition opt_rparen_error (t : text) : list green * text :=
  match t with
  | c :: r => if N.eqb c c_rparen then ([Tok ERROR (T ")")], r) else ([], t)
  | [] => ([], t)
  end.

(** The [repeat(0.., (trivias, dispatch!{...}))] of [error_term_inner],
    token.rs:319-336. *)
Fixpoint et_loop (dbg : bool) (n : nat) (t : text) : pres (list green) :=
  match n with
  | 0 => POof
  | S n' =>
      match trivias dbg t with
      | POk tr t1 =>
          match strip_prefix (T "(") t1 with
          | Some t2 =>
              match et_loop dbg n' t2 with
              | POk items t3 =>
                  let '(rp, t4) := opt_rparen_error t3 in
                  match et_loop dbg n' t4 with
                  | POk more t5 =>
                      POk (tr ++ (Tok ERROR (T "(") :: items ++ rp) ++ more) t5
                  | x => x
                  end
              | x => x
              end
          | None =>
              match error_token false t1 with
              | LOk c r =>
                  match et_loop dbg n' r with
                  | POk more t5 => POk (tr ++ [Tok ERROR c] ++ more) t5
                  | x => x
                  end
              | LErr _ _ => POk [] t
              end
          end
      | PErr => PErr
      | PPanic => PPanic
      | POof => POof
      end
  end.

(** [error_term_inner], token.rs:316-349. *)
Definition error_term_inner (dbg : bool) (t : text) : pres (list green) :=
  match strip_prefix (T "(") t with
  | Some r =>
      match et_loop dbg (S (length r)) r with
      | POk items t3 =>
          let '(rp, t4) := opt_rparen_error t3 in
          POk (Tok ERROR (T "(") :: items ++ rp) t4
      | x => x
      end
  | None => PErr
  end.

(** ** Lookahead parsers *)

Inductive ares : Type :=
| AOk (w : text)
| AFail
| APanic
| AOof.

Definition look := bool -> text -> ares.

Definition la_word (t : text) : ares :=
  match word t with LOk w _ => AOk w | LErr _ _ => AFail end.

Definition la_triv (f : text -> ares) (dbg : bool) (t : text) : ares :=
  match trivias dbg t with
  | POk _ r => f r
  | PErr => AFail
  | PPanic => APanic
  | POof => AOof
  end.

(** [peek(any)]. *)
Definition la_any_t (t : text) : ares :=
  match t with c :: _ => AOk [c] | [] => AFail end.
Definition la_any : look := fun _ t => la_any_t t.
(** [peek(preceded(trivias, any))], module.rs:288, 703. *)
Definition la_triv_any : look := fun dbg t => la_triv la_any_t dbg t.
(** [peek(preceded(('(', trivias), word))], module.rs:46, 486, 604; instr.rs:379. *)
Definition la_paren_word : look := fun dbg t =>
  match strip_prefix (T "(") t with
  | Some r => la_triv la_word dbg r
  | None => AFail
  end.
(** [peek(preceded(opt(('(', trivias)), word))], instr.rs:25. *)
Definition la_opt_paren_word : look := fun dbg t =>
  match strip_prefix (T "(") t with
  | Some r => la_triv la_word dbg r
  | None => la_word t
  end.
(** [peek('(')], module.rs:775, 853. *)
Definition la_lparen : look := fun _ t =>
  match strip_prefix (T "(") t with Some _ => AOk (T "(") | None => AFail end.
(** [peek((trivias, alt((word.verify(..), ")"))))], instr.rs:51, 121, 191-194, 203. *)
Definition la_block_end (names : list text) : look := fun dbg t =>
  la_triv (fun r =>
             match l_verify word (fun w => existsb (text_eqb w) names) r with
             | LOk w _ => AOk w
             | LErr _ _ =>
                 match strip_prefix (T ")") r with
                 | Some _ => AOk (T ")")
                 | None => AFail
                 end
             end) dbg t.

(** [error_term], token.rs:303-315.  The lookahead is
    [(trivias, '(', trivias, word.verify(allowed))]. *)
Definition error_term (dbg : bool) (names : list text) (t : text) : pres (list green) :=
  let guard :=
    la_triv (fun r =>
               match strip_prefix (T "(") r with
               | Some r' => la_triv (fun x =>
                              match l_verify word (fun w => existsb (text_eqb w) names) x with
                              | LOk w _ => AOk w
                              | LErr _ _ => AFail
                              end) dbg r'
               | None => AFail
               end) dbg t in
  match guard with
  | AOk _ => PErr
  | AFail => error_term_inner dbg t
  | APanic => PPanic
  | AOof => POof
  end.
