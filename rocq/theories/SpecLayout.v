(** Specification of the layout of formatted text: where the blanks, line
    breaks and empty lines of a document are put, how far each line is
    indented, and what becomes of its comments.  Nothing here refers to the
    formatter. *)

From Coq Require Import String List NArith Bool Arith.
From Verif Require Import Text Kind Green SpecSyntax.
Import ListNotations.
Local Open Scope list_scope.

(** ** Pieces of text *)

Inductive lpiece : Type :=
| Word (t : text)            (* a token or comment *)
| Blank                      (* one blank *)
| Line (n : nat)             (* a new line, indented by [n] *)
| EmptyLine                  (* the end of a line; a [Line] follows *)
| BlankOrLine (n : nat).     (* a blank, or a new line if the next words do not fit *)

(** ** The gap in front of a child *)

Definition instruction (g : green) : bool :=
  match g with Node (PLAIN_INSTR | BLOCK_BLOCK | BLOCK_LOOP | BLOCK_IF) _ => true | _ => false end.
Definition token_in (k : kind) (cs : list green) : bool :=
  existsb (fun c => match c with Tok k' _ => kind_eqb k k' | Node _ _ => false end) cs.
Definition node_in (k : kind) (cs : list green) : bool :=
  existsb (fun c => match c with Node k' _ => kind_eqb k k' | Tok _ _ => false end) cs.

Inductive gap : Type :=
| Tight                  (* nothing *)
| OneBlank
| NewLine (deeper : bool)        (* [deeper]: one step deeper than the children of the node *)
| MayBreak (deeper : bool).

(** The gap in front of the child [c] of a node of kind [k], where [before]
    are the children in front of it, the last one first. *)
Definition gap_before (k : kind) (before : list green) (c : green) : gap :=
  if instruction c then (if kind_eqb k OPERAND then Tight else NewLine false)
  else match before with
  | [] => Tight
  | _ =>
      match c with
      | Tok (L_PAREN | R_PAREN | INSTR_NAME) _ => Tight
      | Tok KEYWORD t =>
          if text_eqb t (T "end") then NewLine false
          else if text_eqb t (T "declare") then OneBlank
          else Tight
      | Tok STRING _ => if kind_eqb k MODULE_FIELD_DATA then MayBreak false else OneBlank
      | Tok _ _ => OneBlank
      | Node (MODULE_FIELD_DATA | MODULE_FIELD_ELEM | MODULE_FIELD_EXPORT | MODULE_FIELD_FUNC | MODULE_FIELD_GLOBAL
              | MODULE_FIELD_IMPORT | MODULE_FIELD_MEMORY | MODULE_FIELD_START | MODULE_FIELD_TABLE | MODULE_FIELD_TYPE
              | BLOCK_IF_ELSE) _ => NewLine false
      | Node BLOCK_IF_THEN cs => if token_in L_PAREN cs then NewLine false else Tight
      | Node (OFFSET | ELEM_EXPR) cs => if token_in KEYWORD cs then NewLine true else Tight
      | Node OPERAND cs => if existsb instruction cs then NewLine false else OneBlank
      | Node LOCAL _ => if node_in LOCAL before then OneBlank else MayBreak true
      | Node TYPE_USE cs => if kind_eqb k MODULE_FIELD_FUNC && negb (token_in KEYWORD cs) then MayBreak true else OneBlank
      | Node PARAM _ => if kind_eqb k TYPE_USE && negb (node_in PARAM before) then MayBreak true else OneBlank
      | Node _ _ => OneBlank
      end
  end.

(** Whether the child [c] of a node of kind [k] is indented one step deeper
    than the node; [parenthesised]: the node has an opening parenthesis. *)
Definition inner (k : kind) (parenthesised : bool) (c : green) : bool :=
  match k, c with
  | (PLAIN_INSTR | BLOCK_IF_THEN | BLOCK_IF_ELSE), _ => true
  | MODULE, Node _ _ => true
  | OPERAND, _ => false
  | BLOCK_IF, Node (BLOCK_IF_THEN | BLOCK_IF_ELSE) _ => parenthesised
  | _, _ => instruction c
  end.
(** What is inside an offset or item with a keyword is a step deeper still. *)
Definition deep (c : green) : bool :=
  match c with Node (OFFSET | ELEM_EXPR) cs => token_in KEYWORD cs | _ => false end.

Definition lines (t : text) : nat := length (filter (N.eqb c_lf) t).

(** ** Comments *)

(** With [spaced] a comment gets a blank after its opening and before its
    closing delimiter if there is none. *)
Definition blank_first (t : text) : bool :=
  match t with c :: _ => N.eqb c c_space || N.eqb c c_tab | [] => false end.
Definition pad (t : text) : text := if blank_first t then [] else [c_space].
Definition comment_text (spaced : bool) (k : kind) (t : text) : text :=
  if spaced then
    match k with
    | LINE_COMMENT => let r := skipn 2 t in match r with [] => t | _ => T ";;" ++ pad r ++ r end
    | _ => let r := firstn (length t - 4) (skipn 2 t) in
           match r with [] => t | _ => T "(;" ++ pad r ++ r ++ pad (rev r) ++ T ";)" end
    end
  else t.

Definition a_comment (g : green) : bool :=
  match g with Tok (LINE_COMMENT | BLOCK_COMMENT) _ => true | _ => false end.
Fixpoint from_comment (l : list green) : list green :=
  match l with Tok WHITESPACE _ :: r => from_comment r | _ => l end.

(** Whether some of the white space and comments [ts] after the child [prev]
    are kept: comments are, and an empty line after a child that is a node. *)
Definition kept_between (prev : green) (ts : list green) : bool :=
  existsb (fun g => a_comment g
                    || match prev, g with Node _ _, Tok WHITESPACE t => Nat.leb 2 (lines t) | _, _ => false end) ts.

(** Everything between the last parameter and the first result of a type use
    that does not start with a parenthesis of its own is dropped instead. *)
Definition dropped_before (k : kind) (parenthesised : bool) (before : list green) (c : green) : bool :=
  kind_eqb k TYPE_USE && negb parenthesised
  && match c with Node RESULT _ => negb (node_in RESULT before) | _ => false end.

Section Layout.
  Variables (step : nat)      (* the indentation of a block *)
            (spaced : bool).

  Definition more (b : bool) : nat := if b then step else 0.
  Definition gap_pieces (n : nat) (g : gap) : list lpiece :=
    match g with
    | Tight => []
    | OneBlank => [Blank]
    | NewLine d => [Line (n + more d)]
    | MayBreak d => [BlankOrLine (n + more d)]
    end.

  (** White space that is kept becomes a blank, a new line or an empty line. *)
  Definition trivia_pieces (n : nat) (g : green) : list lpiece :=
    match g with
    | Tok WHITESPACE t => match lines t with 0 => [Blank] | 1 => [Line n] | _ => [EmptyLine; Line n] end
    | Tok k t => [Word (comment_text spaced k t)]
    | Node _ _ => []
    end.
  (** After a token there is a blank before the first comment; a comment right
      after a node may start a new line. *)
  Definition between (n : nat) (prev : green) (ts : list green) : list lpiece :=
    match prev with
    | Tok _ _ => Blank :: flat_map (trivia_pieces n) (from_comment ts)
    | Node _ _ =>
        match ts with g :: _ => if a_comment g then [BlankOrLine n] else [] | [] => [] end
        ++ flat_map (trivia_pieces n) ts
    end.

  (** The layout of the children [l] of a node of kind [k] whose lines are
      indented by [n]; [lay] gives the layout of a child; [ts] are the white
      space and comments since the last child.  Those in front of the first
      child are dropped. *)
  Section Row.
    Variables (lay : nat -> green -> list lpiece) (k : kind) (parenthesised : bool) (n : nat).
    Definition in_front (m : nat) (before ts : list green) (c : green) : list lpiece :=
      match before with
      | prev :: _ =>
          if kept_between prev ts
          then if dropped_before k parenthesised before c then [] else between m prev ts
          else gap_pieces m (gap_before k before c)
      | [] => gap_pieces m (gap_before k before c)
      end.
    Fixpoint lay_row (before ts l : list green) : list lpiece :=
      match l with
      | [] => []
      | c :: r =>
          if significant c then
            let m := n + more (inner k parenthesised c) in
            in_front m before ts c ++ lay (m + more (deep c)) c ++ lay_row (c :: before) [] r
          else lay_row before (ts ++ [c]) r
      end.
  End Row.
  Fixpoint lay (n : nat) (g : green) : list lpiece :=
    match g with
    | Tok _ t => [Word t]
    | Node k cs => lay_row lay k (token_in L_PAREN cs) n [] [] cs
    end.

  (** The layout of a document: white space at its ends is dropped, between
      modules and comments it becomes a blank, a new line or an empty line. *)
  Fixpoint lay_modules (first : bool) (l : list green) : list lpiece :=
    match l with
    | [] => [Line 0]
    | g :: r =>
        match g with
        | Tok WHITESPACE _ => if first then [] else match r with [] => [] | _ => trivia_pieces 0 g end
        | Tok _ _ => trivia_pieces 0 g
        | Node _ _ => lay 0 g
        end ++ lay_modules false r
    end.
  Definition lay_document (tree : green) : list lpiece :=
    match tree with Node _ cs => lay_modules true cs | Tok _ _ => [] end.
End Layout.

(** ** The text *)

(** A line may be as long as [width] bytes: whether the words up to the next
    place where a new line may start fit, when the line is [col] long. *)
Fixpoint room (width col : nat) (l : list lpiece) : bool :=
  match l with
  | [] => true
  | Word t :: r => Nat.leb (col + tlen t) width && room width (col + tlen t) r
  | Blank :: r => Nat.leb (S col) width && room width (S col) r
  | Line _ :: _ | BlankOrLine _ :: _ => true
  | EmptyLine :: r => room width col r
  end.

Section Text.
  Variables (width : nat) (new_line : text) (indentation : nat -> text).

  (** The text of pieces, when the line is [col] long. *)
  Fixpoint text_of (col : nat) (l : list lpiece) : text :=
    match l with
    | [] => []
    | Word t :: r => t ++ text_of (col + tlen t) r
    | Blank :: r => T " " ++ text_of (S col) r
    | Line n :: r => new_line ++ indentation n ++ text_of n r
    | EmptyLine :: r => new_line ++ text_of col r
    | BlankOrLine n :: r =>
        if room width (S col) r then T " " ++ text_of (S col) r
        else new_line ++ indentation n ++ text_of n r
    end.
End Text.

(** Indentation by blanks, or by tabs of [tab] columns as far as possible. *)
Definition blanks (n : nat) : text := repeat c_space n.
Definition tabs_blanks (tab n : nat) : text :=
  repeat c_tab (Nat.div n tab) ++ repeat c_space (Nat.modulo n tab).
