(** Specification of formatting: the lexemes of a text, and which of them a
    formatted document keeps.  Nothing here refers to the formatter. *)

From Coq Require Import String List NArith Bool.
From Verif Require Import Text Kind Green SpecParser SpecSyntax.
Import ListNotations.
Local Open Scope string_scope.
Local Open Scope list_scope.

(** ** The lexemes of a text

    Blanks separate lexemes.  A parenthesis is a lexeme; so is a string, a
    line comment up to the end of its line, a block comment with the comments
    nested in it, and every longest run of other characters. *)

Inductive lex_mode : Type :=
| Out                       (* between lexemes or in a run of characters *)
| InString (escaped : bool) (* [escaped]: after a backslash *)
| InLine
| InBlock (depth : nat).

Definition is_blank (c : char) : bool :=
  N.eqb c c_space || N.eqb c c_tab || N.eqb c c_lf || N.eqb c c_cr.
Definition c_semi : char := 59%N.

(** [acc] is the current lexeme, reversed. *)
Definition flush (acc : text) : list text := match acc with [] => [] | _ => [rev acc] end.

Fixpoint lex (m : lex_mode) (acc : text) (t : text) : list text :=
  match t with
  | [] => flush acc
  | c :: r =>
      match m with
      | Out =>
          if is_blank c then flush acc ++ lex Out [] r
          else if N.eqb c c_quote then flush acc ++ lex (InString false) [c] r
          else if N.eqb c c_lparen then
            flush acc ++
            match r with
            | c2 :: r2 => if N.eqb c2 c_semi then lex (InBlock 0) [c2; c] r2 else [c] :: lex Out [] r
            | [] => [[c]]
            end
          else if N.eqb c c_rparen then flush acc ++ [c] :: lex Out [] r
          else if N.eqb c c_semi then
            flush acc ++
            match r with
            | c2 :: r2 => if N.eqb c2 c_semi then lex InLine [c2; c] r2 else [c] :: lex Out [] r
            | [] => [[c]]
            end
          else lex Out (c :: acc) r
      | InString true => lex (InString false) (c :: acc) r
      | InString false =>
          if N.eqb c c_bslash then lex (InString true) (c :: acc) r
          else if N.eqb c c_quote then rev (c :: acc) :: lex Out [] r
          else lex (InString false) (c :: acc) r
      | InLine =>
          if N.eqb c c_lf || N.eqb c c_cr then rev acc :: lex Out [] r
          else lex InLine (c :: acc) r
      | InBlock n =>
          match r with
          | c2 :: r2 =>
              if N.eqb c c_lparen && N.eqb c2 c_semi then lex (InBlock (S n)) (c2 :: c :: acc) r2
              else if N.eqb c c_semi && N.eqb c2 c_rparen then
                match n with
                | 0 => rev (c2 :: c :: acc) :: lex Out [] r2
                | S n' => lex (InBlock n') (c2 :: c :: acc) r2
                end
              else lex (InBlock n) (c :: acc) r
          | [] => [rev (c :: acc)]
          end
      end
  end.
Definition lexemes (t : text) : list text := lex Out [] t.

Definition comment (t : text) : bool := starts_with (T ";;") t || starts_with (T "(;") t.

(** ** The tokens of a tree *)

Definition shown (g : green) : list (kind * text) :=
  filter (fun p => negb (kind_eqb (fst p) WHITESPACE)) (gtokens g).
Definition code (g : green) : list text :=
  map snd (filter (fun p => negb (is_trivia_kind (fst p))) (gtokens g)).

(** ** Documents in ordinary form

    [ordinary] is [production] (SpecSyntax.v) without the forms that the
    formatter does not keep: a memory limit with [shared], a function with
    several inline imports or with an inline import after an export, and a
    label after [end] of a block that has no label itself. *)

Definition labelled (open : list rx) (kw : string) (body : list rx) (close : rx) : rx :=
  Or (seq (open ++ [Kw kw; Opt (Nd BLOCK_TYPE)] ++ body ++ [close]))
     (seq (open ++ [Kw kw; Tk IDENT; Opt (Nd BLOCK_TYPE)] ++ body ++ [close; id_opt])).
Definition if_body : list rx := [Nd BLOCK_IF_THEN; Opt (Nd BLOCK_IF_ELSE)].

Definition ordinary (k : kind) : rx :=
  match k with
  | LIMITS => seq [Tk UNSIGNED_INT; Opt (Tk UNSIGNED_INT)]
  | MODULE_FIELD_FUNC =>
      form "func" [id_opt; Opt (Nd IMPORT); Star (Nd EXPORT); Opt (Nd TYPE_USE); Star (Nd LOCAL);
                   Star instr]
  | BLOCK_BLOCK =>
      Or (labelled [] "block" [Star instr] (Kw "end")) (labelled [lp] "block" [Star instr] rp)
  | BLOCK_LOOP =>
      Or (labelled [] "loop" [Star instr] (Kw "end")) (labelled [lp] "loop" [Star instr] rp)
  | BLOCK_IF =>
      Or (labelled [] "if" if_body (Kw "end")) (labelled [lp] "if" (Star instr :: if_body) rp)
  | _ => production k
  end.
Definition Ordinary (g : green) : Prop :=
  forall k cs, Sub g (Node k cs) -> Matches (ordinary k) (filter significant cs).

(** Every string literal ends with a double quote. *)
Definition StringsClosed (g : green) : Prop :=
  forall t, In (STRING, t) (gtokens g) -> exists b, StrBody b /\ t = [c_quote] ++ b ++ [c_quote].

(** No comment is the directive [d] that switches formatting off: a line
    comment with [d] as its first word.  [White] is the Unicode property
    White_Space. *)
Definition White (c : char) : Prop :=
  (9 <= c <= 13 \/ 8192 <= c <= 8202)%N
  \/ In c [32; 133; 160; 5760; 8232; 8233; 8239; 8287; 12288]%N.
Definition Directive (d : text) (t : text) : Prop :=
  exists w r, t = T ";;" ++ w ++ d ++ r /\ Forall White w
    /\ (r = [] \/ exists c r', r = c :: r' /\ In c (T " " ++ [c_tab; c_lf; c_ff; c_cr])).
Definition NoDirective (d : text) (g : green) : Prop :=
  forall t, In (LINE_COMMENT, t) (gtokens g) -> ~ Directive d t.

(** ** Comments that are not kept

    Comments before the first instruction of a [then] branch written without
    parentheses, and comments between the parameters and the results of a
    type use without [(type ...)]. *)

Definition trivial (g : green) : bool := negb (significant g).
Fixpoint skip_trivia (l : list green) : list green :=
  match l with
  | g :: r => if trivial g then skip_trivia r else l
  | [] => []
  end.
Definition is_node (k : kind) (g : green) : bool :=
  match g with Node k' _ => kind_eqb k k' | Tok _ _ => false end.
Definition is_token (k : kind) (g : green) : bool :=
  match g with Tok k' _ => kind_eqb k k' | Node _ _ => false end.
(** Without the white space and comments before the first result. *)
Fixpoint join_results (l : list green) : list green :=
  match l with
  | [] => []
  | g :: r =>
      if trivial g then
        match skip_trivia r with
        | x :: _ => if is_node RESULT x then skip_trivia r else g :: join_results r
        | [] => g :: join_results r
        end
      else if is_node RESULT g then l
      else g :: join_results r
  end.
Definition survivors (k : kind) (cs : list green) : list green :=
  match k with
  | BLOCK_IF_THEN => skip_trivia cs
  | TYPE_USE => if existsb (is_token L_PAREN) cs then cs else join_results cs
  | _ => cs
  end.
Fixpoint keep (g : green) : green :=
  match g with
  | Tok _ _ => g
  | Node k cs => Node k (survivors k (map keep cs))
  end.
(** A tree none of whose comments is in such a place. *)
Definition NoLostComments (g : green) : Prop := shown (keep g) = shown g.

(** ** How a token may be printed

    As it is; with [spaced] a comment may get a blank after its opening and
    before its closing delimiter. *)
Inductive Printed (spaced : bool) : kind * text -> text -> Prop :=
| P_same k t : Printed spaced (k, t) t
| P_line r : spaced = true -> Printed spaced (LINE_COMMENT, T ";;" ++ r) (T ";; " ++ r)
| P_block a b r : spaced = true -> In a [[]; T " "] -> In b [[]; T " "] ->
    Printed spaced (BLOCK_COMMENT, T "(;" ++ r ++ T ";)") (T "(;" ++ a ++ r ++ b ++ T ";)").

(** ** Text that is left alone

    [SameLines lb t u]: [u] is [t] with [lb] for each of its line ends (a line
    feed, or a carriage return and a line feed). *)
Inductive SameLines (lb : text) : text -> text -> Prop :=
| SL_nil : SameLines lb [] []
| SL_lf t u : SameLines lb t u -> SameLines lb (c_lf :: t) (lb ++ u)
| SL_crlf t u : SameLines lb t u -> SameLines lb (c_cr :: c_lf :: t) (lb ++ u)
| SL_char c t u : c <> c_lf -> (c = c_cr -> forall r, t <> c_lf :: r) -> SameLines lb t u ->
    SameLines lb (c :: t) (c :: u).
Definition Occurs (u x : text) : Prop := exists a b, x = a ++ u ++ b.

(** ** The tree without white space and comments *)

Fixpoint bare (g : green) : green :=
  match g with
  | Tok _ _ => g
  | Node k cs => Node k (filter significant (map bare cs))
  end.
