(** Specification of hover: what is shown for a token, read off the tree. *)

From Coq Require Import String List NArith Bool Arith Lia.
From Verif Require Import Text Kind Green Lexer Red Ast Doc SpecBinder NavSpec InstrMeta Types SpecTypes SpecHeader Hover.
Import ListNotations.

Fixpoint sep_by (s : text) (l : list text) : text :=
  match l with
  | [] => []
  | [x] => x
  | x :: r => x ++ s ++ sep_by s r
  end.

(** ** The comments above a declaration *)

(** [l] stands before [d] in its parent. *)
Definition Before (d : elem) (l : list elem) : Prop :=
  exists p r, parent d = Some p /\ children_with_tokens p = l ++ d :: r.
Definition Blank (e : elem) : Prop := ekind e = WHITESPACE.
Definition Comment (e : elem) : Prop := ekind e = LINE_COMMENT.
Definition DocComment (e : elem) : Prop := Comment e /\ exists x, etext e = T ";;;" ++ x.
(** [a] is empty or its last element is not [P]. *)
Definition EndsBefore (P : elem -> Prop) (a : list elem) : Prop :=
  a = [] \/ exists a' x, a = a' ++ [x] /\ ~ P x.
(** The nearest group of lines that start with three semicolons; other line
    comments may stand between it and the declaration. *)
Inductive DocComments (d : elem) : list elem -> Prop :=
| Doc_none a c : Before d (a ++ c) -> Forall (fun e => Blank e \/ Comment e /\ ~ DocComment e) c ->
    EndsBefore (fun e => Blank e \/ Comment e) a -> DocComments d []
| Doc_some a b x c cs : Before d (a ++ b ++ x :: c) -> Forall (fun e => Blank e \/ Comment e /\ ~ DocComment e) c ->
    DocComment x -> Forall (fun e => Blank e \/ DocComment e) b -> EndsBefore (fun e => Blank e \/ DocComment e) a ->
    cs = filter (fun e => kind_eqb (ekind e) LINE_COMMENT) (b ++ [x]) -> DocComments d cs.
(** A comment without the semicolons and at most one space or tab. *)
Inductive Line (t : text) : text -> Prop :=
| Line_space c x : t = T ";;;" ++ c :: x -> c = 32%N \/ c = 9%N -> Line t x
| Line_plain x : t = T ";;;" ++ x -> (forall c y, x = c :: y -> c <> 32%N /\ c <> 9%N) -> Line t x.
(** The lines, in source order, without empty lines at the end. *)
Inductive Docs (d : elem) : text -> Prop :=
| Docs_of cs ls k : DocComments d cs -> Forall2 (fun c l => Line (etext c) l) cs (ls ++ repeat [] k) ->
    (ls = [] \/ last ls [] <> []) -> Docs d (sep_by [10%N] ls).

(** ** Declarations *)

Definition code_block (x : text) : text := T "```wat" ++ [10%N] ++ x ++ [10%N] ++ T "```".
Definition ruler : text := [10%N] ++ T "---" ++ [10%N].
Definition type_text (o : option elem) : text := match o with Some v => spaced (etext v) | None => [] end.

(** The description of a definition of a module. *)
Inductive Describes (src : text) (d : elem) : sort -> text -> Prop :=
| Describes_func h : Header src d h -> Docs d [] -> Describes src d FuncS (code_block h)
| Describes_doc h doc : Header src d h -> Docs d doc -> doc <> [] ->
    Describes src d FuncS (code_block h ++ ruler ++ doc)
| Describes_type : child d FUNC_TYPE = None -> Describes src d TypeS (T "(type" ++ named d ++ T ")")
| Describes_functype ft : child d FUNC_TYPE = Some ft ->
    Describes src d TypeS (T "(type" ++ named d ++ T " (func" ++ concat (map spaced (sig_parts ft)) ++ T "))")
| Describes_untyped : child d GLOBAL_TYPE = None -> Describes src d GlobalS (T "(global" ++ named d ++ T ")")
| Describes_const g : child d GLOBAL_TYPE = Some g -> token g KEYWORD = None ->
    Describes src d GlobalS (T "(global" ++ named d ++ type_text (child g VAL_TYPE) ++ T ")")
| Describes_mut g t : child d GLOBAL_TYPE = Some g -> token g KEYWORD = Some t ->
    Describes src d GlobalS (T "(global" ++ named d ++ T " (mut" ++ type_text (child g VAL_TYPE) ++ T "))").

(** The description of a parameter or local of a function; only a declaration
    with an identifier has a name, a type that stands for itself has none. *)
Definition slot_text (word : text) (d : elem) : text :=
  T "(" ++ word
  ++ (if kind_eqb (ekind d) VAL_TYPE then spaced (etext d) else named d ++ type_text (hd_error (childs d VAL_TYPE)))
  ++ T ")".
Definition param_entries (f : elem) : list elem :=
  match child f TYPE_USE with
  | Some tu => flat_map entries (childs tu PARAM)
  | None => []
  end.
Definition local_entries (f : elem) : list elem := flat_map entries (childs f LOCAL).
Inductive DescribesSlot (f d : elem) : text -> Prop :=
| Describes_param : In d (param_entries f) -> DescribesSlot f d (slot_text (T "param") d)
| Describes_local : In d (local_entries f) -> DescribesSlot f d (slot_text (T "local") d).

(** ** Tokens *)

(** The definitions of sort [s] that a reference written [w] denotes. *)
Definition targets (m : elem) (s : sort) (w : wref) : list elem :=
  match w with
  | Named x => filter (has_name x) (definitions_of s m)
  | Numbered k =>
      match nth_error (definitions m) (N.to_nat k) with
      | Some d => if has_sort s d then [d] else []
      | None => []
      end
  end.

(** What is shown at the reference [n]. *)
Inductive RefShows (src : text) (n : elem) : contents -> Prop :=
| Ref_local w f d x : Asks n ALocal -> Written n w -> in_func n f -> InTree (tree_of src) f ->
    local_target f w = Some d -> DescribesSlot f d x -> RefShows src n (Snippet x)
| Ref_func w m xs : Asks n (AModule FuncS) -> Written n w -> in_module n m -> InTree (tree_of src) m ->
    Forall2 (fun d x => Describes src d FuncS x) (targets m FuncS w) xs -> RefShows src n (Markup (sep_by ruler xs))
| Ref_other s w m xs : s = TypeS \/ s = GlobalS -> Asks n (AModule s) -> Written n w -> in_module n m ->
    InTree (tree_of src) m ->
    Forall2 (fun d x => Describes src d s x) (targets m s w) xs -> RefShows src n (Snippets xs).
(** What is shown at the declaration [n]. *)
Inductive DeclShows (src : text) (n : elem) : contents -> Prop :=
| Decl_slot f x : InTree (tree_of src) f -> is_node f = true -> ekind f = MODULE_FIELD_FUNC ->
    DescribesSlot f n x -> DeclShows src n (Snippet x)
| Decl_func m x : InTree (tree_of src) m -> is_node m = true -> ekind m = MODULE -> In n (definitions_of FuncS m) ->
    Describes src n FuncS x -> DeclShows src n (Markup x)
| Decl_other m s x : s = TypeS \/ s = GlobalS -> InTree (tree_of src) m -> is_node m = true -> ekind m = MODULE ->
    In n (definitions_of s m) -> Describes src n s x -> DeclShows src n (Snippet x).

Inductive TokenShows (src : text) (t : elem) : contents -> Prop :=
| Tok_ref n c : In (ekind t) [IDENT; INT; UNSIGNED_INT] -> parent t = Some n -> RefShows src n c -> TokenShows src t c
| Tok_decl n c : In (ekind t) [IDENT; INT; UNSIGNED_INT; KEYWORD] -> parent t = Some n -> DeclShows src n c ->
    TokenShows src t c
| Tok_type doc : In (ekind t) [NUM_TYPE; VEC_TYPE; REF_TYPE] -> value_type_doc (etext t) = Some doc ->
    TokenShows src t (Markup (code_block (etext t) ++ [10; 10]%N ++ doc))
| Tok_instr m : ekind t = INSTR_NAME -> Row (etext t) m ->
    TokenShows src t (Markup (code_block (etext t) ++ [10%N] ++ T "Binary Opcode: " ++ T (m_bin_op m))).
