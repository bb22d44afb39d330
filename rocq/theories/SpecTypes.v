(** Specification of the types of declarations and instructions, read off the
    syntax tree alone, and of the operand stack. *)

From Coq Require Import String List NArith Bool Arith Lia.
From Verif Require Import Text Kind Green Lexer Red Ast Doc SpecBinder NavSpec InstrMeta Types.
Import ListNotations.

(** The value type nodes of the parameters and of the results that a type use
    or function type writes out.  A parameter with a name has one type. *)
Definition written_params (e : elem) : list elem :=
  flat_map (fun p => match token p IDENT with Some _ => firstn 1 (childs p VAL_TYPE) | None => childs p VAL_TYPE end)
    (childs e PARAM).
Definition written_results (e : elem) : list elem :=
  flat_map (fun r => childs r VAL_TYPE) (childs e RESULT).
(** The nodes [l] are written as the types [ts]. *)
Definition Spells (l : list elem) (ts : list valtype) : Prop := map etext l = map show_valtype ts.

(** The definition that a module-level reference means: with a name, the
    first one of that sort and name in the module; with a number, the
    definition with that number, if it is of that sort. *)
Definition module_target (m : elem) (s : sort) (w : wref) : option elem :=
  match w with
  | Named x => find (has_name x) (definitions_of s m)
  | Numbered k =>
      match nth_error (definitions m) (N.to_nat k) with
      | Some d => if has_sort s d then Some d else None
      | None => None
      end
  end.
Definition Means (src : text) (n d : elem) : Prop :=
  exists s m w, Asks n (AModule s) /\ Written n w /\ in_module n m /\ InTree (tree_of src) m
    /\ module_target m s w = Some d.

(** The function [f] takes [ps] and gives [rs]: as written out at [f], or, if
    nothing is, as written in the type that it names. *)
Inductive FuncType (src : text) (f : elem) (ps rs : list valtype) : Prop :=
| FT_written tu : child f TYPE_USE = Some tu -> (childs tu PARAM <> [] \/ childs tu RESULT <> []) ->
    Spells (written_params tu) ps -> Spells (written_results tu) rs -> FuncType src f ps rs
| FT_named tu i d ft : child f TYPE_USE = Some tu -> childs tu PARAM = [] -> childs tu RESULT = [] ->
    child tu INDEX = Some i -> Means src i d -> child d FUNC_TYPE = Some ft ->
    Spells (written_params ft) ps -> Spells (written_results ft) rs -> FuncType src f ps rs.

(** The parameters that a function with a body declares itself. *)
Definition declared_params (f : elem) : list elem :=
  if kind_eqb (ekind f) MODULE_FIELD_FUNC then
    match child f TYPE_USE with Some tu => flat_map entries (childs tu PARAM) | None => [] end
  else [].

(** The type of a parameter or local. *)
Definition SlotType (d : elem) (t : valtype) : Prop :=
  if kind_eqb (ekind d) VAL_TYPE then etext d = show_valtype t
  else exists v, hd_error (childs d VAL_TYPE) = Some v /\ etext v = show_valtype t.
Definition GlobalType (g : elem) (t : valtype) : Prop :=
  exists gt v, child g GLOBAL_TYPE = Some gt /\ hd_error (childs gt VAL_TYPE) = Some v /\ etext v = show_valtype t.

(** The name of an instruction, its first operand, and its row in the table
    of instructions. *)
Definition Called (e : elem) (x : text) : Prop := exists t, token e INSTR_NAME = Some t /\ etext t = x.
Definition FirstOperand (e o : elem) : Prop := hd_error (childs e OPERAND) = Some o.
Definition Row (x : text) (m : instr_meta) : Prop := exists s, In (s, m) instr_table /\ T s = x.

(** What an instruction takes.  For a call, the parameters of the function it
    names, as many as that function declares itself. *)
Inductive Takes (src : text) (e : elem) : list optype -> Prop :=
| Takes_call o f ps rs : Called e (T "call") -> FirstOperand e o -> Means src o f -> FuncType src f ps rs ->
    Takes src e (map OVal (firstn (length (declared_params f)) ps))
| Takes_row x m : Called e x -> x <> T "call" -> Row x m -> Takes src e (m_params m).
(** What an instruction gives. *)
Inductive Gives (src : text) (e : elem) : list optype -> Prop :=
| Gives_call o f ps rs : Called e (T "call") -> FirstOperand e o -> Means src o f -> FuncType src f ps rs ->
    Gives src e (map OVal rs)
| Gives_local o w f d t : Called e (T "local.get") -> FirstOperand e o -> Written o w -> in_func o f ->
    InTree (tree_of src) f -> local_target f w = Some d -> SlotType d t -> Gives src e [OVal t]
| Gives_global o g t : Called e (T "global.get") -> FirstOperand e o -> Means src o g -> GlobalType g t ->
    Gives src e [OVal t]
| Gives_row x m : Called e x -> ~ In x (map T ["call"; "local.get"; "global.get"]%string) -> Row x m ->
    Gives src e (m_results m).
(** An instruction of which nothing is known gives nothing. *)
Definition Yields (src : text) (e : elem) (ts : list optype) : Prop :=
  ekind e = PLAIN_INSTR /\ Gives src e ts \/ (ekind e = PLAIN_INSTR -> forall ts', ~ Gives src e ts') /\ ts = [].

(** A type fits an expected one unless both are known and differ. *)
Definition Fits (expected found : optype) : Prop :=
  forall x y, expected = OVal x -> found = OVal y -> x = y.

(** Running the instructions [l] on the operand stack [st], whose top is its
    end.  Instructions of which nothing is known, and blocks, do nothing; a
    parenthesised instruction has taken its operands already. *)
Inductive Runs (src : text) : list optype -> list elem -> Prop :=
| Runs_end st : Runs src st []
| Runs_block st e l : ekind e <> PLAIN_INSTR -> Runs src st l -> Runs src st (e :: l)
| Runs_unknown st e l : ekind e = PLAIN_INSTR -> (forall ps, ~ Takes src e ps) -> Runs src st l -> Runs src st (e :: l)
| Runs_folded st e l ps rs : ekind e = PLAIN_INSTR -> token e L_PAREN <> None -> Takes src e ps -> Yields src e rs ->
    Runs src (st ++ rs) l -> Runs src st (e :: l)
| Runs_plain low args e l ps rs : ekind e = PLAIN_INSTR -> token e L_PAREN = None -> Takes src e ps ->
    Forall2 Fits ps args -> Yields src e rs ->
    Runs src (low ++ rs) l -> Runs src (low ++ args) (e :: l).

(** The instruction in an operand, if any. *)
Definition is_instruction (e : elem) : bool :=
  existsb (kind_eqb (ekind e)) [PLAIN_INSTR; BLOCK_BLOCK; BLOCK_LOOP; BLOCK_IF].
Definition inside (o : elem) : option elem := find is_instruction (children o).
(** The types that operands give together. *)
Inductive Receives (src : text) : list elem -> list optype -> Prop :=
| Receives_none : Receives src [] []
| Receives_instr o i l ts rest : inside o = Some i -> Yields src i ts -> Receives src l rest ->
    Receives src (o :: l) (ts ++ rest)
| Receives_other o l rest : inside o = None -> Receives src l rest -> Receives src (o :: l) rest.

(** How many immediate operands an instruction has. *)
Definition Immediates (e : elem) (k : nat) : Prop :=
  Called e (T "call") /\ k = 1
  \/ (exists x m, Called e x /\ x <> T "call" /\ Row x m /\ k = m_operands_count m)
  \/ (exists x, Called e x /\ x <> T "call" /\ (forall m, ~ Row x m) /\ k = 0).
(** A parenthesised instruction fits its operands: those after the immediates
    of an instruction in the table are instructions, and together they give
    what it takes, immediates counted as written. *)
Definition FoldedFits (src : text) (e : elem) : Prop :=
  forall k, Immediates e k ->
  let args := skipn k (childs e OPERAND) in
  ((exists x m, Called e x /\ Row x m) -> forall o, In o args -> inside o <> None)
  /\ (forall ps ts, Takes src e ps -> Receives src args ts ->
        length ps + k = length ts + length (filter (fun o => match inside o with None => true | Some _ => false end) (childs e OPERAND))
        /\ forall i p t, nth_error ps i = Some p -> nth_error ts i = Some t -> Fits p t).

(** The instructions of a function body or of the value of a global. *)
Definition body (f : elem) : list elem := filter is_instruction (children f).
