(** WebAssembly's own typing rules (C56): instructions and blocks, without
    jumps, run on a stack of value types. *)

From Coq Require Import String List NArith Bool Arith.
From Verif Require Import Text Kind Green Red Ast Doc SpecBinder NavSpec InstrMeta Types SpecTypes SpecInstr.
Import ListNotations.

(** The type of the local or parameter, or of the global, that the first
    operand of [e] names. *)
Definition LocalType (src : text) (e : elem) (t : valtype) : Prop :=
  exists o w f d, FirstOperand e o /\ Written o w /\ in_func o f /\ InTree (tree_of src) f
    /\ local_target f w = Some d /\ SlotType d t.
Definition GlobalNamed (src : text) (e : elem) (t : valtype) : Prop :=
  exists o g, FirstOperand e o /\ Means src o g /\ GlobalType g t.

(** The instruction [e] has the type [ps] -> [rs].  Most have one type, by
    name (SpecInstr.v); [drop] and [select] have many. *)
Inductive Typed (src : text) (e : elem) : list valtype -> list valtype -> Prop :=
| Ty_name n ps rs : Called e (T n) -> In (n, ps, rs) signatures -> Typed src e ps rs
| Ty_call o f ps rs : Called e (T "call") -> FirstOperand e o -> Means src o f -> FuncType src f ps rs -> Typed src e ps rs
| Ty_local_get t : Called e (T "local.get") -> LocalType src e t -> Typed src e [] [t]
| Ty_local_set t : Called e (T "local.set") -> LocalType src e t -> Typed src e [t] []
| Ty_local_tee t : Called e (T "local.tee") -> LocalType src e t -> Typed src e [t] [t]
| Ty_global_get t : Called e (T "global.get") -> GlobalNamed src e t -> Typed src e [] [t]
| Ty_global_set t : Called e (T "global.set") -> GlobalNamed src e t -> Typed src e [t] []
| Ty_drop t : Called e (T "drop") -> Typed src e [t] []
| Ty_select t : Called e (T "select") -> Typed src e [t; t; VI32] [t].

(** The instructions that [e] takes its operands from, in order: those among
    its operands, or those before [(then] in a parenthesised [if]. *)
Definition arguments (e : elem) : list elem :=
  match ekind e with
  | PLAIN_INSTR => flat_map (fun o => match inside o with Some i => [i] | None => [] end) (childs e OPERAND)
  | BLOCK_IF => body e
  | _ => []
  end.
(** A parenthesised instruction stands for the instructions in it followed by
    itself: [(i32.add (i32.const 1) (i32.const 2))] for [i32.const 1 i32.const
    2 i32.add]. *)
Inductive Unfolds : elem -> list elem -> Prop :=
| Unfolds_i e ls : Forall2 Unfolds (arguments e) ls -> Unfolds e (concat ls ++ [e]).

(** The block [e] takes nothing and gives [rs]. *)
Definition BlockType (e : elem) (rs : list valtype) : Prop :=
  match child e BLOCK_TYPE with
  | None => rs = []
  | Some bt => childs bt TYPE_USE = [] /\ Spells (written_results bt) rs
  end.
(** The instructions of a branch of an [if]; none if it is not written. *)
Definition branch (e : elem) (k : kind) : list elem := match child e k with Some b => body b | None => [] end.

(** Running unparenthesised instructions on a stack of types, whose top is its
    end.  What is in a block runs on a stack of its own, and leaves there what
    the block gives.  After [unreachable] the stack may be anything. *)
Inductive Valid (src : text) : list valtype -> list elem -> list valtype -> Prop :=
| Valid_end st : Valid src st [] st
| Valid_instr low ps rs e l st : Typed src e ps rs -> Valid src (low ++ rs) l st -> Valid src (low ++ ps) (e :: l) st
| Valid_unreachable st e l st1 st' : Called e (T "unreachable") -> Valid src st1 l st' -> Valid src st (e :: l) st'
| Valid_block st e ls rs l st' : In (ekind e) [BLOCK_BLOCK; BLOCK_LOOP] -> BlockType e rs ->
    Forall2 Unfolds (body e) ls -> Valid src [] (concat ls) rs ->
    Valid src (st ++ rs) l st' -> Valid src st (e :: l) st'
| Valid_if low e ls ls' rs l st' : ekind e = BLOCK_IF -> BlockType e rs ->
    Forall2 Unfolds (branch e BLOCK_IF_THEN) ls -> Valid src [] (concat ls) rs ->
    Forall2 Unfolds (branch e BLOCK_IF_ELSE) ls' -> Valid src [] (concat ls') rs ->
    Valid src (low ++ rs) l st' -> Valid src (low ++ [VI32]) (e :: l) st'.

(** The instructions [l], written with or without parentheses, take the stack
    [st] to [st']. *)
Definition ValidCode (src : text) (st : list valtype) (l : list elem) (st' : list valtype) : Prop :=
  exists ls, Forall2 Unfolds l ls /\ Valid src st (concat ls) st'.

(** ** Conditions *)

(** The immediates of [e] are written out: its operands are immediates, as
    many as it has, and then instructions. *)
Definition WrittenOut (e : elem) : Prop :=
  exists k, Immediates e k /\ k <= length (childs e OPERAND)
    /\ (forall o, In o (firstn k (childs e OPERAND)) -> inside o = None)
    /\ (forall o, In o (skipn k (childs e OPERAND)) -> inside o <> None).
(** If [e] is a call, the function declares its parameters itself. *)
Definition OwnParams (src : text) (e : elem) : Prop :=
  forall o f ps rs, Called e (T "call") -> FirstOperand e o -> Means src o f -> FuncType src f ps rs ->
    length (declared_params f) = length ps.
(** Instructions with exactly one type, and [drop]. *)
Definition single : list string := ["call"; "local.get"; "global.get"; "drop"]%string ++ map (fun s => fst (fst s)) signatures.
(** The block [e] takes and gives nothing, and what is in it is well typed; an
    [if] has its condition with it. *)
Definition Block (src : text) (e : elem) : Prop :=
  BlockType e []
  /\ (In (ekind e) [BLOCK_BLOCK; BLOCK_LOOP] /\ ValidCode src [] (body e) []
      \/ ekind e = BLOCK_IF /\ ValidCode src [] (body e) [VI32]
         /\ ValidCode src [] (branch e BLOCK_IF_THEN) [] /\ ValidCode src [] (branch e BLOCK_IF_ELSE) []).
(** [e] and all instructions in it are such instructions, written out, or
    such blocks; those in it are parenthesised, and there are none if [e] is
    not.  (The parser builds no other trees.) *)
Inductive Simple (src : text) : elem -> Prop :=
| Simple_i e n ps rs : ekind e = PLAIN_INSTR -> Called e (T n) -> In n single -> Typed src e ps rs ->
    WrittenOut e -> OwnParams src e -> (token e L_PAREN = None -> arguments e = []) ->
    Forall (fun a => token a L_PAREN <> None) (arguments e) -> Forall (Simple src) (arguments e) -> Simple src e
| Simple_block e : Block src e -> Simple src e.

(** A parenthesised instruction with exactly its own operands: the
    instructions in it give what it takes. *)
Inductive Expr (src : text) : elem -> list valtype -> Prop :=
| Expr_i e tss ps rs : ekind e = PLAIN_INSTR -> token e L_PAREN <> None -> Typed src e ps rs ->
    WrittenOut e -> OwnParams src e ->
    Forall2 (Expr src) (arguments e) tss -> concat tss = ps -> Expr src e rs.
(** Code of parenthesised instructions with exactly their own operands,
    unparenthesised ones, and blocks that take and give nothing. *)
Inductive Line (src : text) : list valtype -> list elem -> list valtype -> Prop :=
| Line_end st : Line src st [] st
| Line_expr st e rs l st' : Expr src e rs -> Line src (st ++ rs) l st' -> Line src st (e :: l) st'
| Line_plain low ps rs e l st' : ekind e = PLAIN_INSTR -> token e L_PAREN = None -> Typed src e ps rs -> OwnParams src e ->
    Line src (low ++ rs) l st' -> Line src (low ++ ps) (e :: l) st'
| Line_block st e l st' : Block src e -> Line src st l st' -> Line src st (e :: l) st'.
(** Instructions without a type of their own, such as [br] and [return]. *)
Definition Untyped (e : elem) : Prop :=
  forall x, Called e x -> ~ In x (map T (["call"]%string ++ map (fun s => fst (fst s)) generic ++ map (fun s => fst (fst s)) signatures)).
