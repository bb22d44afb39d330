(** Specification vocabulary for code actions (property C31). *)

From Coq Require Import String List NArith Bool Arith Lia.
From Verif Require Import Text Kind Green Red LineIndex Cursor Doc Ast Nav ThmPos NavSpec Action.
Import ListNotations.

(** ** Applying edits *)

(** The range [r] is that of the text [old] where [before] comes before it. *)
Definition AtText (r : range) (before old : text) : Prop :=
  PosOf tlen before (fst (fst r)) (snd (fst r)) /\ PosOf tlen (before ++ old) (fst (snd r)) (snd (snd r)).
(** [Edited before rest es out]: making the edits [es], all of them after the
    text [before], turns the rest [rest] of the document into [out]. *)
Inductive Edited : text -> text -> list (range * text) -> text -> Prop :=
| Ed_done before rest : Edited before rest [] rest
| Ed_edit before skip old rest r new es out :
    AtText r (before ++ skip) old -> Edited (before ++ skip ++ old) rest es out ->
    Edited before (skip ++ old ++ rest) ((r, new) :: es) (skip ++ new ++ out).
Definition Applied (src : text) (es : list (range * text)) (out : text) : Prop := Edited [] src es out.

(** ** Tokens *)

Definition texts (l : list (kind * text)) : text := concat (map snd l).
(** White space, comments, errors, parentheses and keywords: what may change.
    All other tokens (types, names, numbers, strings, instructions) are kept. *)
Definition kept (t : kind * text) : bool :=
  negb (is_trivia_kind (fst t)
        || existsb (kind_eqb (fst t)) [ERROR; L_PAREN; R_PAREN; KEYWORD]).
Definition not_space (t : kind * text) : bool := negb (kind_eqb (fst t) WHITESPACE).

(** ** Which actions are offered for a node *)

Fixpoint spaced (l : list text) : text :=
  match l with [] => [] | [x] => x | x :: r => x ++ T " " ++ spaced r end.

(** The node contains the requested range. *)
Definition Encloses (n : elem) (a b : nat) : Prop := estart n <= a /\ b <= eend n.

(** A parameter group inside the requested range without a name. *)
Definition Joinable (a b : nat) (p : elem) : Prop :=
  ekind p = PARAM /\ a <= estart p /\ eend p <= b
  /\ forall c, In c (children_with_tokens p) -> ekind c <> IDENT.
(** The first run of such groups among the sub-nodes of [n]. *)
Definition FirstRun (n : elem) (a b : nat) (ps : list elem) : Prop :=
  exists l r, children n = l ++ ps ++ r
    /\ Forall (fun c => ~ Joinable a b c) l /\ Forall (Joinable a b) ps
    /\ match r with [] => True | c :: _ => ~ Joinable a b c end.

(** A misspelt memory argument among the children of an instruction, with the
    white space that has to go: [offset =8], [offset = 8] and [offset= 8]. *)
Definition IntOperand (x : elem) : Prop :=
  is_node x = true /\ ekind x = OPERAND /\ exists t, In t (children_with_tokens x) /\ is_node t = false /\ ekind t = INT.
Definition IsTok (k : kind) (x : elem) : Prop := is_node x = false /\ ekind x = k.
Inductive Misspelt : list elem -> list elem -> Prop :=
| Mis_two e w q w' i : IsTok ERROR e -> In (etext e) [T "offset"; T "align"] -> IsTok WHITESPACE w ->
    IsTok ERROR q -> (exists d, etext q = T "=" ++ d /\ Forall (fun c => is_ascii_digit c = true) d) ->
    IsTok WHITESPACE w' -> IntOperand i -> Misspelt [e; w; q; w'; i] [w; w']
| Mis_before e w q : IsTok ERROR e -> In (etext e) [T "offset"; T "align"] -> IsTok WHITESPACE w ->
    IsTok ERROR q -> (exists d, etext q = T "=" ++ d /\ Forall (fun c => is_ascii_digit c = true) d) ->
    Misspelt [e; w; q] [w]
| Mis_after e w i : IsTok ERROR e -> In (etext e) [T "offset="; T "align="] -> IsTok WHITESPACE w ->
    IntOperand i -> Misspelt [e; w; i] [w].

Definition splittable : list (kind * (text * text)) :=
  [ (PARAM, (T "param", T "Split parameters")); (RESULT, (T "result", T "Split results"))
  ; (LOCAL, (T "local", T "Split locals")) ].

Inductive Offered (src : text) (w : wanted) (a b : nat) (n : elem) : action -> Prop :=
| Off_split kw title r : w_rewrite w = true -> In (ekind n, (kw, title)) splittable ->
    2 <= length (childs n VAL_TYPE) -> RangeOf src n r ->
    Offered src w a b n
      (mk_action title [(r, spaced (map (fun ty => T "(" ++ kw ++ T " " ++ etext ty ++ T ")") (childs n VAL_TYPE)))])
| Off_join p ps r : w_rewrite w = true -> In (ekind n) [TYPE_USE; FUNC_TYPE] ->
    FirstRun n a b (p :: ps) ->
    let types := flat_map (fun c => childs c VAL_TYPE) (p :: ps) in
    2 <= length types ->
    line_col (new_line_index src) (estart p) = Some (fst r) ->
    line_col (new_line_index src) (eend (last ps p)) = Some (snd r) ->
    Offered src w a b n
      (mk_action (T "Join parameters") [(r, T "(param " ++ spaced (map etext types) ++ T ")")])
| Off_fix l mid rest ws rs : w_quickfix w = true -> ekind n = PLAIN_INSTR ->
    children_with_tokens n = l ++ mid ++ rest -> Misspelt mid ws -> Forall2 (RangeOf src) ws rs ->
    Offered src w a b n (mk_action (T "Fix invalid memory argument") (map (fun r => (r, [])) rs)).

(** A token a rewriting action writes: a type, or punctuation. *)
Definition Plain (t : kind * text) : Prop :=
  kept t = true \/ In t [ (L_PAREN, T "("); (R_PAREN, T ")"); (WHITESPACE, T " "); (KEYWORD, T "param")
                        ; (KEYWORD, T "result"); (KEYWORD, T "local") ].
