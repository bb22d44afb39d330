(** Specification of the type diagnostics: which messages, and where. *)

From Coq Require Import String List NArith Bool Arith.
From Verif Require Import Text Kind Green Red Ast Doc InstrMeta Types Check SpecTypes.
Import ListNotations.

(** The types that operands give together, each with the operand it is from. *)
Inductive Given (src : text) : list elem -> list (optype * elem) -> Prop :=
| Given_none : Given src [] []
| Given_instr o i l ts rest : inside o = Some i -> Yields src i ts -> Given src l rest ->
    Given src (o :: l) (map (fun t => (t, o)) ts ++ rest)
| Given_other o l rest : inside o = None -> Given src l rest -> Given src (o :: l) rest.

(** Running the instructions [l] turns the stack [st] into [st'].  Each type
    on the stack comes with the instruction that gave it.  Where there are too
    few types, all are taken. *)
Inductive Steps (src : text) : list (optype * elem) -> list elem -> list (optype * elem) -> Prop :=
| Steps_end st : Steps src st [] st
| Steps_block st e l st' : ekind e <> PLAIN_INSTR -> Steps src st l st' -> Steps src st (e :: l) st'
| Steps_unknown st e l st' : ekind e = PLAIN_INSTR -> (forall ps, ~ Takes src e ps) -> Steps src st l st' ->
    Steps src st (e :: l) st'
| Steps_folded st e l ps rs st' : ekind e = PLAIN_INSTR -> token e L_PAREN <> None -> Takes src e ps -> Yields src e rs ->
    Steps src (st ++ map (fun t => (t, e)) rs) l st' -> Steps src st (e :: l) st'
| Steps_plain st e l ps rs st' : ekind e = PLAIN_INSTR -> token e L_PAREN = None -> Takes src e ps -> Yields src e rs ->
    Steps src (firstn (length st - length ps) st ++ map (fun t => (t, e)) rs) l st' -> Steps src st (e :: l) st'.

(** The messages. *)
Definition says_types (expected found : valtype) : text :=
  T "expected type `" ++ show_valtype expected ++ T "`, found `" ++ show_valtype found ++ T "`".
Definition says_count (expected found : nat) : text :=
  T "expected " ++ show_nat expected ++ (if Nat.eqb expected 1 then T " operand" else T " operands")
  ++ T ", found " ++ show_nat found.
(** [o] is from the list [rs] of types found, and its type is not the one
    expected at its place in [ps]. *)
Definition Wrong (ps : list optype) (rs : list (optype * elem)) (o : elem) (a b : valtype) : Prop :=
  exists i, nth_error ps i = Some (OVal a) /\ nth_error rs i = Some (OVal b, o) /\ a <> b.

(** The message [m] is reported on [o], because of the parenthesised
    instruction [e]. *)
Inductive FoldedReport (src : text) (e : elem) : elem -> text -> Prop :=
| FR_instr k x y o : Immediates e k -> Called e x -> Row x y -> In o (skipn k (childs e OPERAND)) -> inside o = None ->
    FoldedReport src e o (T "expected instr")
| FR_count k ps rs n : Immediates e k -> Takes src e ps -> Given src (skipn k (childs e OPERAND)) rs ->
    n = length rs + length (filter (fun o => match inside o with None => true | Some _ => false end) (childs e OPERAND)) ->
    length ps + k <> n -> FoldedReport src e e (says_count (length ps + k) n)
| FR_type k ps rs o a b : Immediates e k -> Takes src e ps -> Given src (skipn k (childs e OPERAND)) rs ->
    Wrong ps rs o a b -> FoldedReport src e o (says_types a b).
(** The same in the body of a function or the value of a global: [st] is the
    stack in front of the instruction [e]. *)
Inductive StackReport (src : text) (e : elem) (st : list (optype * elem)) : elem -> text -> Prop :=
| SR_count ps : Takes src e ps -> length st < length ps -> StackReport src e st e (says_count (length ps) (length st))
| SR_type ps o a b : Takes src e ps -> Wrong ps (skipn (length st - length ps) st) o a b ->
    StackReport src e st o (says_types a b).
Inductive TypeReport (src : text) (o : elem) (m : text) : Prop :=
| TR_folded e : InTree (tree_of src) e -> is_node e = true -> ekind e = PLAIN_INSTR -> token e L_PAREN <> None ->
    FoldedReport src e o m -> TypeReport src o m
| TR_stack f l e r st : InTree (tree_of src) f -> is_node f = true ->
    In (ekind f) [MODULE_FIELD_FUNC; MODULE_FIELD_GLOBAL] ->
    body f = l ++ e :: r -> (exists x, In x (body f) /\ token x L_PAREN = None) ->
    Steps src [] l st -> ekind e = PLAIN_INSTR -> token e L_PAREN = None -> StackReport src e st o m -> TypeReport src o m.
