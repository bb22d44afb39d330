(** Code actions (crates/service/src/features/code_action.rs and
    crates/service/src/refactorings). *)

From Coq Require Import String List NArith Bool Arith Lia.
From Verif Require Import Text Kind Green Lexer Red LineIndex Cursor Doc Ast Binder Nav.
Import ListNotations.

(** A [CodeAction]: its title and the edits it makes to the document of the
    request.  The kind is determined by the title; the other fields are fixed
    or absent. *)
Record action : Type := mk_action { a_title : text; a_edits : list (range * text) }.

(** ** The nodes visited *)

(** [SyntaxNode::child_or_token_at_range] (rowan 0.15.16): binary search
    among the children for one that the range overlaps; if there is none, the
    child before the place where it would be; then the child has to contain
    the range.  A child lies before the range if it ends at or before its
    start, otherwise after it if it starts at or after its end.  The children
    are in order, so the search yields the first child that does not lie
    before the range, if it does not lie after it; if more than one child
    overlaps the range, none of them contains it, and it does not matter which
    one is found. *)
Definition before_range (a : nat) (c : elem) : bool := Nat.leb (eend c) a.
Fixpoint count_before (a : nat) (l : list elem) : nat :=
  match l with
  | [] => 0
  | c :: r => if before_range a c then S (count_before a r) else 0
  end.
Definition child_index (a b : nat) (l : list elem) : nat :=
  let n := count_before a l in
  match nth_error l n with
  | Some c => if Nat.ltb (estart c) b then n else n - 1
  | None => n - 1
  end.
Definition contains_range (c : elem) (a b : nat) : bool := Nat.leb (estart c) a && Nat.leb b (eend c).
Definition child_at_range (n : elem) (a b : nat) : option elem :=
  match nth_error (children_with_tokens n) (child_index a b (children_with_tokens n)) with
  | Some c => if contains_range c a b then Some c else None
  | None => None
  end.

(** The loop, code_action.rs:26-72: the nodes it visits.  Every step goes to a
    child, so the size of the tree bounds the number of steps. *)
Fixpoint gsize (g : green) : nat :=
  match g with Tok _ _ => 1 | Node _ cs => S (list_sum (map gsize cs)) end.
Fixpoint visited (fuel : nat) (n : elem) (a b : nat) : list elem :=
  match fuel with
  | 0 => []
  | S f =>
      match child_at_range n a b with
      | Some c => if is_node c then c :: visited f c a b else []
      | None => []
      end
  end.

(** ** func_header_split.rs *)

Definition is_val_type (c : elem) : bool := kind_eqb (ekind c) VAL_TYPE.
Definition val_types (n : elem) : list elem := filter is_val_type (children n).

(** [act], func_header_split.rs:7-65. *)
Definition split_keyword (k : kind) : option (text * text) :=
  match k with
  | PARAM => Some (T "param", T "Split parameters")
  | RESULT => Some (T "result", T "Split results")
  | LOCAL => Some (T "local", T "Split locals")
  | _ => None
  end.
Definition split_text (kw : text) (first : elem) (rest : list elem) : text :=
  fold_left (fun acc ty => acc ++ T " (" ++ kw ++ T " " ++ etext ty ++ T ")") rest
    (T "(" ++ kw ++ T " " ++ etext first ++ T ")").
Definition split_act (src : text) (n : elem) (k : kind) : ans (list action) :=
  match val_types n with
  | first :: (_ :: _) as rest =>
      match split_keyword k with
      | Some (kw, title) =>
          abind (range_of src n) (fun r =>
          Ans [mk_action title [(r, split_text kw first rest)]])
      | None => Ans []
      end
  | _ => Ans []
  end.

(** ** params_join.rs *)

(** [is_joinable_param], params_join.rs:71-77. *)
Definition joinable (a b : nat) (c : elem) : bool :=
  kind_eqb (ekind c) PARAM && (Nat.leb a (estart c) && Nat.leb (eend c) b)
  && negb (existsb (fun x => kind_eqb (ekind x) IDENT) (children_with_tokens c)).
Fixpoint take_while {A} (p : A -> bool) (l : list A) : list A :=
  match l with
  | [] => []
  | x :: r => if p x then x :: take_while p r else []
  end.
Fixpoint skip_while {A} (p : A -> bool) (l : list A) : list A :=
  match l with
  | [] => []
  | x :: r => if p x then skip_while p r else x :: r
  end.
Definition joined (n : elem) (a b : nat) : list elem :=
  take_while (joinable a b) (skip_while (fun c => negb (joinable a b c)) (children n)).
Definition join_text (first : elem) (rest : list elem) : text :=
  fold_left (fun acc ty => acc ++ T " " ++ etext ty) rest (T "(param " ++ etext first) ++ T ")".
(** [act], params_join.rs:8-69. *)
Definition join_act (src : text) (n : elem) (a b : nat) : ans (list action) :=
  match joined n a b with
  | [] => Ans []
  | first_node :: others =>
      match flat_map val_types (first_node :: others) with
      | first :: (_ :: _) as rest =>
          abind (amust (lsp_range (new_line_index src) (estart first_node) (eend (last others first_node)))) (fun r =>
          Ans [mk_action (T "Join parameters") [(r, join_text first rest)]])
      | _ => Ans []
      end
  end.

(** ** fix_invalid_mem_arg.rs *)

(** A child that is a token of kind [k]. *)
Definition is_tok (k : kind) (c : elem) : bool := negb (is_node c) && kind_eqb (ekind c) k.
(** [check_after_eq], fix_invalid_mem_arg.rs:93-108, of the two elements it
    takes from the iterator. *)
Definition int_operand (c : elem) : bool :=
  is_node c && kind_eqb (ekind c) OPERAND && match token c INT with Some _ => true | None => false end.
Definition after_eq (w x : elem) : bool := is_tok WHITESPACE w && int_operand x.
(** [strip_prefix], fix_invalid_mem_arg.rs:23-26, when the rest is empty or
    [=]. *)
Definition arg_word (t : text) : bool := text_eqb t (T "offset") || text_eqb t (T "align").
Definition arg_word_eq (t : text) : bool := text_eqb t (T "offset=") || text_eqb t (T "align=").
(** [=] followed by digits only, fix_invalid_mem_arg.rs:38-40. *)
Definition eq_digits (c : elem) : bool :=
  is_tok ERROR c &&
  match etext c with
  | x :: r => N.eqb x c_eq && forallb is_ascii_digit r
  | [] => false
  end.
(** The white space to delete, fix_invalid_mem_arg.rs:17-69.  The iterator is
    shared: elements taken to look ahead are not looked at again. *)
Fixpoint mem_arg_spaces (l : list elem) : list elem :=
  match l with
  | [] => []
  | e :: r =>
      if is_tok ERROR e then
        if arg_word (etext e) then
          match r with
          | w :: x :: r2 =>
              if eq_digits x && is_tok WHITESPACE w then
                w :: match r2 with
                     | w' :: x' :: _ => if after_eq w' x' then [w'] else []
                     | _ => []
                     end
              else mem_arg_spaces r2
          | _ => []
          end
        else if arg_word_eq (etext e) then
          match r with
          | w :: x :: r2 => if after_eq w x then [w] else mem_arg_spaces r2
          | _ => []
          end
        else mem_arg_spaces r
      else mem_arg_spaces r
  end.
(** [act], fix_invalid_mem_arg.rs:8-91. *)
Definition mem_arg_act (src : text) (n : elem) : ans (list action) :=
  match mem_arg_spaces (children_with_tokens n) with
  | [] => Ans []
  | ws =>
      abind (map_ans (fun w => abind (range_of src w) (fun r => Ans (r, []))) ws) (fun es =>
      Ans [mk_action (T "Fix invalid memory argument") es])
  end.

(** ** code_action.rs *)

(** What the client asks for, code_action.rs:11-19: [quickfix] and [rewrite]
    say whether actions of that kind are wanted. *)
Record wanted : Type := mk_wanted { w_quickfix : bool; w_rewrite : bool }.

(** One round of the loop, code_action.rs:27-70. *)
Definition act_on (src : text) (w : wanted) (a b : nat) (n : elem) : ans (list action) :=
  match ekind n with
  | PLAIN_INSTR => if w_quickfix w then mem_arg_act src n else Ans []
  | PARAM => if w_rewrite w then split_act src n PARAM else Ans []
  | RESULT => if w_rewrite w then split_act src n RESULT else Ans []
  | LOCAL => if w_rewrite w then split_act src n LOCAL else Ans []
  | TYPE_USE | FUNC_TYPE => if w_rewrite w then join_act src n a b else Ans []
  | _ => Ans []
  end.
(** [code_action], code_action.rs:7-79.  [NoAns] is [None]. *)
Definition code_action (src : text) (w : wanted) (p q : lsp_pos) : ans (list action) :=
  match rowan_range (new_line_index src) p q with
  | RangePanic => Panics
  | RangeNone => NoAns
  | RangeOk a b =>
      let tree := tree_of src in
      abind (map_ans (act_on src w a b) (visited (gsize tree) (root_of tree) a b)) (fun l =>
      match concat l with [] => NoAns | l => Ans l end)
  end.
