(** A grammar language with the semantics of the winnow 0.6 combinators used
    by crates/parser, plus the project's own combinators [retry],
    [retry_once], [must] (parser/mod.rs:90-247) and [r_paren]
    (parser/token.rs:19-65).

    The input type of the parser is [Recoverable<Located<&str>, SyntaxError>]
    (mod.rs:57): remaining text, byte offset, and the list of recorded
    errors.  [input.reset(checkpoint)] restores text and offset but not the
    list of recorded errors. *)

From Coq Require Import String List NArith Bool Arith Lia.
From Verif Require Import Text Kind Green Lexer.
Import ListNotations.

(** [StrContext], the message of a [SyntaxError] (error.rs:9-13). *)
Inductive msg : Type :=
| MLabel (s : string)
| MExpChar (c : char)
| MExpLit (s : string)
| MExpDesc (s : string).

(** [SyntaxError], error.rs:9-13. *)
Record err : Type := mk_err { e_start : nat; e_end : nat; e_msg : msg }.

(** [SyntaxError::new], error.rs:16-22. *)
Definition err_new : err := mk_err 0 0 (MLabel "<unknown syntax error>").
(** [from_recoverable_error], error.rs:25-35. *)
Definition err_at_end (e : err) (pos : nat) : err := mk_err (e_start e) pos (e_msg e).
(** [add_context], error.rs:37-48. *)
Definition err_ctx (e : err) (pos : nat) (m : msg) : err := mk_err pos (e_end e) m.

(** Parser state; [log] holds the recorded errors, latest first. *)
Record st : Type := mk_st { rest : text; pos : nat; log : list err }.

Definition advance (s : st) (c r : text) : st := mk_st r (pos s + tlen c) (log s).
(** [input.reset(start)] after the parser reached state [s]. *)
Definition reset (start s : st) : st := mk_st (rest start) (pos start) (log s).
(** [input.record_err(.., e)]: always succeeds during [recoverable_parse]. *)
Definition record (s : st) (e : err) : st :=
  mk_st (rest s) (pos s) (err_at_end e (pos s) :: log s).

Inductive res : Type :=
| ROk (out : list green) (s : st)
| RErr (e : err) (s : st)
| RPanic
| ROof.

(** Grammar terms.  Every parser of the code base returns a
    [GreenElement], an [Option<Vec<GreenElement>>] or a [Vec<GreenElement>];
    here all return the list of green elements they contribute. *)
Inductive grammar : Type :=
| GTok (k : kind) (l : lex)             (* token parser mapped with [tok(k, _)] *)
| GTriv                                 (* [trivias] *)
| GEmpty                                (* [empty] *)
| GFail                                 (* [fail] *)
| GSeq (a b : grammar)                  (* tuple *)
| GAlt (a b : grammar)                  (* [alt((a, b))] *)
| GOpt (a : grammar)                    (* [opt] *)
| GRep (a : grammar)                    (* [repeat(0.., a)] *)
| GRep1 (a : grammar)                   (* [repeat(1.., a)] *)
| GTill (f g : grammar)                 (* [repeat_till(0.., f, g)] *)
| GIf (l : look) (p : text -> bool) (a b : grammar)
                                        (* one arm of [dispatch!{peek(l); ..}] *)
| GNode (k : kind) (a : grammar)        (* [.map(|c| node(k, c))] *)
| GCtx (m : msg) (a : grammar)          (* [.context(m)] *)
| GRetry (a : grammar) (names : list text)       (* [retry(a, names)] *)
| GRetryOnce (a : grammar) (names : list text)   (* [retry_once(a, names)] *)
| GMust (a : grammar)                   (* [must(a)] *)
| GRParen                               (* [r_paren] *)
| GInstr.                               (* the recursive parser [instr] *)

Section Interp.
  Variable dbg : bool.
  Variable self : st -> res.    (* the parser [instr], one recursion level down *)

  (** winnow's "parser must always consume" assertion. *)
  Definition assert_fail (s : st) : res :=
    if dbg then RPanic else RErr err_new s.

  (** [repeat(0.., f)]. *)
  Fixpoint rep_loop (f : st -> res) (n : nat) (s : st) : res :=
    match n with
    | 0 => ROof
    | S n' =>
        match f s with
        | ROk out s1 =>
            if Nat.eqb (length (rest s1)) (length (rest s)) then assert_fail s1
            else match rep_loop f n' s1 with
                 | ROk out' s2 => ROk (out ++ out') s2
                 | x => x
                 end
        | RErr _ s1 => ROk [] (reset s s1)
        | RPanic => RPanic
        | ROof => ROof
        end
    end.

  (** [repeat_till(0.., f, g)]. *)
  Fixpoint till_loop (f g : st -> res) (n : nat) (s : st) : res :=
    match n with
    | 0 => ROof
    | S n' =>
        match g s with
        | ROk out s1 => ROk out s1
        | RErr _ s1 =>
            match f (reset s s1) with
            | ROk out s2 =>
                if Nat.eqb (length (rest s2)) (length (rest s)) then assert_fail s2
                else match till_loop f g n' s2 with
                     | ROk out' s3 => ROk (out ++ out') s3
                     | x => x
                     end
            | x => x
            end
        | RPanic => RPanic
        | ROof => ROof
        end
    end.

  (** Outcome of the recovery attempt shared by [retry] and [retry_once]
      (mod.rs:120-147, 188-213): at the token start, first one error token,
      otherwise an error term, tried from wherever the error token parser
      stopped (it is not rewound).  [err] is recorded on success. *)
  Inductive recov : Type :=
  | RecTok (out : list green) (s : st)
  | RecTerm (out : list green) (s : st)
  | RecNone (s : st)
  | RecPanic
  | RecOof.

  Definition recover (names : list text) (e : err) (ts : st) : recov :=
    match error_token false (rest ts) with
    | LOk c r =>
        let s1 := advance ts c r in
        if Nat.eqb (length r) (length (rest ts)) then RecNone s1
        else RecTok [Tok ERROR c] (record s1 e)
    | LErr c r =>
        match error_term dbg names r with
        | POk out r2 =>
            let s2 := mk_st r2 (pos ts + tlen c + glens out) (log ts) in
            if Nat.eqb (length r2) (length (rest ts)) then RecNone s2
            else RecTerm out (record s2 e)
        | PErr => RecNone (advance ts c r)
        | PPanic => RecPanic
        | POof => RecOof
        end
    end.

  (** [retry], mod.rs:92-156. *)
  Fixpoint retry_loop (f : st -> res) (names : list text) (n : nat) (s : st) : res :=
    match n with
    | 0 => ROof
    | S n' =>
        match trivias dbg (rest s) with
        | POk tr r =>
            let ts := mk_st r (pos s + glens tr) (log s) in
            match f ts with
            | ROk out s1 => ROk (tr ++ out) s1
            | RErr e s1 =>
                match recover names e (reset ts s1) with
                | RecTok out s2 =>
                    match retry_loop f names n' s2 with
                    | ROk out' s3 => ROk (tr ++ out ++ out') s3
                    | x => x
                    end
                | RecTerm out s2 => ROk (tr ++ out) s2
                | RecNone s2 =>
                    RErr (err_at_end e (pos s)) (reset s s2)
                | RecPanic => RPanic
                | RecOof => ROof
                end
            | RPanic => RPanic
            | ROof => ROof
            end
        | PErr => RErr err_new s
        | PPanic => RPanic
        | POof => ROof
        end
    end.

  (** [retry_once], mod.rs:160-220. *)
  Definition retry_once (f : st -> res) (names : list text) (s : st) : res :=
    match trivias dbg (rest s) with
    | POk tr r =>
        let ts := mk_st r (pos s + glens tr) (log s) in
        match f ts with
        | ROk out s1 => ROk (tr ++ out) s1
        | RErr e s1 =>
            match recover names e (reset ts s1) with
            | RecTok out s2 | RecTerm out s2 => ROk (tr ++ out) s2
            | RecNone s2 => RErr (err_at_end e (pos s)) (reset s s2)
            | RecPanic => RPanic
            | RecOof => ROof
            end
        | RPanic => RPanic
        | ROof => ROof
        end
    | PErr => RErr err_new s
    | PPanic => RPanic
    | POof => ROof
    end.

  (** [must], mod.rs:225-247. *)
  Definition must (f : st -> res) (s : st) : res :=
    match f s with
    | ROk out s1 => ROk out s1
    | RErr e s1 => ROk [] (reset s (record s1 e))
    | x => x
    end.

  (** [r_paren], token.rs:19-65: the loop; [s0] is the checkpoint [start].
      A failing ['\)'] does not move, so its context location is the token
      start.  [None] of the code is the empty contribution, and then the
      tokens collected so far are dropped with the reset to [start]. *)
  Fixpoint rparen_loop (s0 : st) (acc : list green) (n : nat) (s : st) : res :=
    match n with
    | 0 => ROof
    | S n' =>
        match trivias dbg (rest s) with
        | POk tr r =>
            let ts := mk_st r (pos s + glens tr) (log s) in
            match strip_prefix (T ")") r with
            | Some r2 =>
                ROk (acc ++ tr ++ [Tok R_PAREN (T ")")]) (advance ts (T ")") r2)
            | None =>
                let e := err_ctx err_new (pos ts) (MExpChar c_rparen) in
                match error_token false r with
                | LOk c r2 =>
                    let s1 := advance ts c r2 in
                    if Nat.eqb (length r2) (length r)
                    then RErr (err_at_end e (pos s0)) (reset s0 s1)
                    else rparen_loop s0 (acc ++ tr ++ [Tok ERROR c]) n' (record s1 e)
                | LErr c r2 =>
                    ROk [] (reset s0 (record (advance ts c r2) e))
                end
            end
        | PErr => RErr err_new s
        | PPanic => RPanic
        | POof => ROof
        end
    end.

  Fixpoint run (g : grammar) : st -> res :=
    match g with
    | GTok k l => fun s =>
        match l (rest s) with
        | LOk c r => ROk [Tok k c] (advance s c r)
        | LErr c r => RErr err_new (advance s c r)
        end
    | GTriv => fun s =>
        match trivias dbg (rest s) with
        | POk tr r => ROk tr (mk_st r (pos s + glens tr) (log s))
        | PErr => RErr err_new s
        | PPanic => RPanic
        | POof => ROof
        end
    | GEmpty => fun s => ROk [] s
    | GFail => fun s => RErr err_new s
    | GSeq a b => fun s =>
        match run a s with
        | ROk out s1 =>
            match run b s1 with
            | ROk out' s2 => ROk (out ++ out') s2
            | x => x
            end
        | x => x
        end
    | GAlt a b => fun s =>
        match run a s with
        | RErr _ s1 => run b (reset s s1)
        | x => x
        end
    | GOpt a => fun s =>
        match run a s with
        | RErr _ s1 => ROk [] (reset s s1)
        | x => x
        end
    | GRep a => fun s => rep_loop (run a) (S (length (rest s))) s
    | GRep1 a => fun s =>
        match run a s with
        | ROk out s1 =>
            match rep_loop (run a) (S (length (rest s1))) s1 with
            | ROk out' s2 => ROk (out ++ out') s2
            | x => x
            end
        | x => x
        end
    | GTill f g => fun s => till_loop (run f) (run g) (S (length (rest s))) s
    | GIf l p a b => fun s =>
        match l dbg (rest s) with
        | AOk w => if p w then run a s else run b s
        | AFail => RErr err_new s
        | APanic => RPanic
        | AOof => ROof
        end
    | GNode k a => fun s =>
        match run a s with
        | ROk out s1 => ROk [Node k out] s1
        | x => x
        end
    | GCtx m a => fun s =>
        match run a s with
        | RErr e s1 => RErr (err_ctx e (pos s1) m) s1
        | x => x
        end
    | GRetry a names => fun s => retry_loop (run a) names (S (length (rest s))) s
    | GRetryOnce a names => fun s => retry_once (run a) names s
    | GMust a => fun s => must (run a) s
    | GRParen => fun s => rparen_loop s [] (S (length (rest s))) s
    | GInstr => self
    end.
End Interp.

(** Sequences and alternatives of several parsers. *)
Fixpoint seqs (l : list grammar) : grammar :=
  match l with
  | [] => GEmpty
  | [a] => a
  | a :: r => GSeq a (seqs r)
  end.
Fixpoint alts (l : list grammar) : grammar :=
  match l with
  | [] => GFail
  | [a] => a
  | a :: r => GAlt a (alts r)
  end.
(** [dispatch!{peek(l); w1 => g1, ..., _ => d}] over words. *)
Fixpoint dispatch (l : look) (arms : list (text * grammar)) (d : grammar) : grammar :=
  match arms with
  | [] => GIf l (fun _ => true) d d
  | [(w, g)] => GIf l (text_eqb w) g d
  | (w, g) :: r => GIf l (text_eqb w) g (dispatch l r d)
  end.
(** [peek(l)] used for its success only. *)
Definition GPeek (l : look) : grammar := GIf l (fun _ => true) GEmpty GFail.
