(** What the service should answer: everything computed from scratch from the
    documents' current texts. *)

From Coq Require Import String List NArith Bool Arith Lia.
From Verif Require Import Text Kind Green SpecParser Winnow Red LineIndex Cursor Doc Ast Binder Nav InstrMeta Types Check Salsa.
Import ListNotations.

(** The current text of each document, if it has one. *)
Definition docs : Type := uri -> option text.
Definition no_docs : docs := fun _ => None.
Definition set_doc (u : uri) (t : text) (D : docs) : docs := fun u' => if text_eqb u u' then Some t else D u'.

Definition some_or_panic {A} (a : ans A) : option A := match a with Ans x => Some x | _ => None end.

(** The value of a query computed from the current text alone; [None] when
    that computation panics. *)
Definition fresh (D : docs) (q : query) : option value :=
  match q with
  | QSource u => option_map VSource (D u)
  | QLine u => option_map (fun t => VLine (new_line_index t)) (D u)
  | QParse u =>
      match D u with
      | Some t => option_map (VParse (tree_of t)) (some_or_panic (syntax_diags t))
      | None => None
      end
  | QRoot u => option_map (fun t => VRoot (tree_of t)) (D u)
  | QTable u =>
      match D u with
      | Some t => option_map VTable (create_symbol_table (tree_of t))
      | None => None
      end
  | QType g => Some (VType (extract_type g))
  | QGlobal g => Some (VType (extract_global_type g))
  | QSig g => option_map VSig (some_or_panic (extract_sig g))
  | QFuncSig u s =>
      match D u with
      | Some t =>
          match create_symbol_table (tree_of t) with
          | Some tb => option_map VFuncSig (some_or_panic (catch (get_func_sig t tb s)))
          | None => None
          end
      | None => None
      end
  | QHeader u s =>
      match D u with
      | Some t =>
          match create_symbol_table (tree_of t) with
          | Some tb => option_map VText (some_or_panic (render_func_header t tb s))
          | None => None
          end
      | None => None
      end
  end.

(** A program answered from scratch. *)
Fixpoint pure {A} (D : docs) (p : prog A) : option A :=
  match p with
  | Ret a => Some a
  | Fail => None
  | Ask q k => match fresh D q with Some v => pure D (k v) | None => None end
  end.

(** The symbols that signatures and headers are asked for are symbols of the
    document they are asked in: features take them from its symbol table. *)
Definition KnownSymbol (D : docs) (u : uri) (s : symbol) : Prop :=
  exists t tb, D u = Some t /\ create_symbol_table (tree_of t) = Some tb /\ In s (symbols tb).
Definition Proper (D : docs) (q : query) : Prop :=
  match q with
  | QFuncSig u s | QHeader u s => KnownSymbol D u s
  | _ => True
  end.
Fixpoint Sound {A} (D : docs) (p : prog A) : Prop :=
  match p with
  | Ret _ | Fail => True
  | Ask q k => Proper D q /\ forall v, fresh D q = Some v -> Sound D (k v)
  end.
Fixpoint SoundAll {A} (D : docs) (l : list (event A)) : Prop :=
  match l with
  | [] => True
  | Commit u t :: r => SoundAll (set_doc u t D) r
  | Request p :: r => Sound D p /\ SoundAll D r
  end.

(** The answers of a history, each computed from the texts current at that
    moment. *)
Fixpoint expected {A} (D : docs) (l : list (event A)) : list (option A) :=
  match l with
  | [] => []
  | Commit u t :: r => expected (set_doc u t D) r
  | Request p :: r =>
      match pure D p with
      | Some a => Some a :: expected D r
      | None => [None]
      end
  end.

(** The texts after a history. *)
Fixpoint docs_after {A} (D : docs) (l : list (event A)) : docs :=
  match l with
  | [] => D
  | Commit u t :: r => docs_after (set_doc u t D) r
  | Request _ :: r => docs_after D r
  end.
