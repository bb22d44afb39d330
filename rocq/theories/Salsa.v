(** The incremental query engine and the queries the language service defines
    on it (crates/service/src/lib.rs:25-58, files.rs, binder.rs:16-22,
    types_analyzer.rs:25-38).

    The engine is salsa 0.16.1, a dependency.  Its source is not in /repo; this
    is the published algorithm of its derived queries (src/derived/slot.rs) and
    inputs (src/input.rs): a global revision counter that every [set] of an
    input advances, and for each derived query a memo with the value, the
    revision it was last verified in, the revision it last changed in and the
    queries it read.

    Simplifications:
    - Interned values ([uri], [ident]) are the strings themselves: interning is
      injective and nothing is ever un-interned.
    - Durability is left out: every input is set with the lowest durability,
      and a memo that reads no input is verified by the empty check below.
    - No garbage collection and no LRU: the service asks for neither.
    - One thread: the service has no [ParallelDatabase]. *)

From Coq Require Import String List NArith Bool Arith Lia.
From Verif Require Import Text Kind Green SpecParser Winnow Red LineIndex Cursor Doc Ast Binder Nav InstrMeta Types Check.
Import ListNotations.

Definition uri : Type := text.

(** ** Queries and their values *)

(** [source] is the only input, files.rs:12-13.  [InternUri] is the [uri]. *)
Inductive query : Type :=
| QSource (u : uri)                 (* files.rs:12-13 *)
| QLine (u : uri)                   (* files.rs:15-16 *)
| QParse (u : uri)                  (* files.rs:18-19 *)
| QRoot (u : uri)                   (* files.rs:21-22 *)
| QTable (u : uri)                  (* binder.rs:18-20 *)
| QType (g : green)                 (* types_analyzer.rs:27-28 *)
| QGlobal (g : green)               (* types_analyzer.rs:29-30 *)
| QSig (g : green)                  (* types_analyzer.rs:31-32 *)
| QFuncSig (u : uri) (s : symbol)   (* types_analyzer.rs:34-35 *)
| QHeader (u : uri) (s : symbol).   (* types_analyzer.rs:36-37 *)

Inductive value : Type :=
| VSource (t : text)
| VLine (li : line_index)
| VParse (g : green) (ds : list diag)
| VRoot (g : green)
| VTable (tb : table)
| VType (v : option valtype)
| VSig (s : funcsig)
| VFuncSig (s : option funcsig)
| VText (t : text).

(** ** Equality, which decides whether a recomputed value counts as changed *)

(** [GreenNode] compares structurally. *)
Fixpoint green_eqb (a b : green) {struct a} : bool :=
  match a, b with
  | Tok k t, Tok k' t' => kind_eqb k k' && text_eqb t t'
  | Node k l, Node k' l' =>
      kind_eqb k k'
      && (fix go (l l' : list green) {struct l} : bool :=
            match l, l' with
            | [], [] => true
            | x :: r, x' :: r' => green_eqb x x' && go r r'
            | _, _ => false
            end) l l'
  | _, _ => false
  end.
Fixpoint list_eqb {A} (eqb : A -> A -> bool) (l l' : list A) : bool :=
  match l, l' with
  | [], [] => true
  | x :: r, x' :: r' => eqb x x' && list_eqb eqb r r'
  | _, _ => false
  end.
Definition pair_eqb {A B} (e : A -> A -> bool) (f : B -> B -> bool) (p q : A * B) : bool :=
  e (fst p) (fst q) && f (snd p) (snd q).
Definition range_eqb : range -> range -> bool :=
  pair_eqb (pair_eqb Nat.eqb Nat.eqb) (pair_eqb Nat.eqb Nat.eqb).
Definition diag_eqb (a b : diag) : bool :=
  range_eqb (d_range a) (d_range b) && text_eqb (d_message a) (d_message b)
  && opt_eqb (list_eqb (pair_eqb range_eqb text_eqb)) (d_related a) (d_related b).
Definition li_eqb (a b : line_index) : bool :=
  list_eqb Nat.eqb (newlines a) (newlines b) && Nat.eqb (li_len a) (li_len b).
Definition funcsig_eqb (a b : funcsig) : bool :=
  list_eqb (pair_eqb valtype_eqb (opt_eqb text_eqb)) (sig_params a) (sig_params b)
  && list_eqb valtype_eqb (sig_results a) (sig_results b).
(** [SymbolTable] derives [PartialEq] (binder.rs:23), and with it the coarse
    comparison of [SymbolItem] (binder.rs:605-609). *)
Definition table_eqb (a b : table) : bool :=
  list_eqb symbol_eqb (symbols a) (symbols b)
  && list_eqb (pair_eqb (pair_eqb key_eqb key_eqb) idx_eqb) (blocks a) (blocks b).

Definition value_eqb (a b : value) : bool :=
  match a, b with
  | VSource t, VSource t' => text_eqb t t'
  | VLine l, VLine l' => li_eqb l l'
  | VParse g d, VParse g' d' => green_eqb g g' && list_eqb diag_eqb d d'
  | VRoot g, VRoot g' => green_eqb g g'
  | VTable t, VTable t' => table_eqb t t'
  | VType v, VType v' => opt_eqb valtype_eqb v v'
  | VSig s, VSig s' => funcsig_eqb s s'
  | VFuncSig s, VFuncSig s' => opt_eqb funcsig_eqb s s'
  | VText t, VText t' => text_eqb t t'
  | _, _ => false
  end.

(** [SymbolItemWithGreenEq], types_analyzer.rs:250-262: the key under which
    a signature or header is memoized. *)
Definition symbol_key_eqb (a b : symbol) : bool :=
  symbol_eqb a b && green_eqb (s_green a) (s_green b).
Definition query_eqb (a b : query) : bool :=
  match a, b with
  | QSource u, QSource u' | QLine u, QLine u' | QParse u, QParse u'
  | QRoot u, QRoot u' | QTable u, QTable u' => text_eqb u u'
  | QType g, QType g' | QGlobal g, QGlobal g' | QSig g, QSig g' => green_eqb g g'
  | QFuncSig u s, QFuncSig u' s' | QHeader u s, QHeader u' s' => text_eqb u u' && symbol_key_eqb s s'
  | _, _ => false
  end.

(** ** The code of the queries *)

(** A computation that reads queries.  [Fail] is a panic. *)
Inductive prog (A : Type) : Type :=
| Ret (a : A)
| Fail
| Ask (q : query) (k : value -> prog A).
Arguments Ret {A}.
Arguments Fail {A}.
Arguments Ask {A}.

Definition ask_source {A} u (k : text -> prog A) : prog A :=
  Ask (QSource u) (fun v => match v with VSource t => k t | _ => Fail end).
Definition ask_line {A} u (k : line_index -> prog A) : prog A :=
  Ask (QLine u) (fun v => match v with VLine l => k l | _ => Fail end).
Definition ask_parse {A} u (k : green -> list diag -> prog A) : prog A :=
  Ask (QParse u) (fun v => match v with VParse g d => k g d | _ => Fail end).
Definition ask_root {A} u (k : green -> prog A) : prog A :=
  Ask (QRoot u) (fun v => match v with VRoot g => k g | _ => Fail end).
Definition ask_table {A} u (k : table -> prog A) : prog A :=
  Ask (QTable u) (fun v => match v with VTable t => k t | _ => Fail end).
Definition ask_type {A} g (k : option valtype -> prog A) : prog A :=
  Ask (QType g) (fun v => match v with VType t => k t | _ => Fail end).
Definition ask_sig {A} g (k : funcsig -> prog A) : prog A :=
  Ask (QSig g) (fun v => match v with VSig s => k s | _ => Fail end).
Definition ask_func_sig {A} u s (k : option funcsig -> prog A) : prog A :=
  Ask (QFuncSig u s) (fun v => match v with VFuncSig s => k s | _ => Fail end).
Definition ask_header {A} u s (k : text -> prog A) : prog A :=
  Ask (QHeader u s) (fun v => match v with VText t => k t | _ => Fail end).

(** The syntax errors as diagnostics, given the line index, files.rs:37-52. *)
Definition diag_with (li : line_index) (e : err) : ans diag :=
  abind (amust (line_col li (e_start e))) (fun a =>
  abind (amust (line_col li (e_end e))) (fun b =>
  Ans (mk_diag (a, b) (T "syntax error: " ++ show_msg (e_msg e)) None))).

(** [get_func_sig] after [type_use] is known to name neither parameters nor
    results, types_analyzer.rs:101-108. *)
Definition type_of_use (g : green) (tb : table) (s : symbol) : ans green :=
  abind (amust (to_node g (s_key s))) (fun node =>
  abind (aopt (child node TYPE_USE)) (fun tu =>
  abind (aopt (child tu INDEX)) (fun i =>
  abind (aopt (find_defs tb (key_of i))) (fun ds =>
  abind (aopt (hd_error ds)) (fun d =>
  aopt (find_func_type_of_type_def (s_green d))))))).

Definition code (q : query) : prog value :=
  match q with
  | QSource _ => Fail
  | QLine u =>                                              (* files.rs:27-29 *)
      ask_source u (fun t => Ret (VLine (new_line_index t)))
  | QParse u =>                                             (* files.rs:32-56 *)
      ask_source u (fun t =>
      ask_line u (fun li =>
      match map_ans (diag_with li) (errs_of t) with
      | Ans ds => Ret (VParse (tree_of t) ds)
      | _ => Fail
      end))
  | QRoot u =>                                              (* files.rs:58-60 *)
      ask_parse u (fun g _ => Ret (VRoot g))
  | QTable u =>                                             (* binder.rs:28-496 *)
      ask_root u (fun g =>
      match create_symbol_table g with Some tb => Ret (VTable tb) | None => Fail end)
  | QType g => Ret (VType (extract_type g))                 (* types_analyzer.rs:39-48 *)
  | QGlobal g =>                                            (* types_analyzer.rs:50-57 *)
      match green_child GLOBAL_TYPE g with
      | Some t => ask_type t (fun v => Ret (VType v))
      | None => Ret (VType None)
      end
  | QSig g =>                                               (* types_analyzer.rs:59-79 *)
      match extract_sig g with Ans s => Ret (VSig s) | _ => Fail end
  | QFuncSig u s =>                                         (* types_analyzer.rs:81-111 *)
      match green_child TYPE_USE (s_green s) with
      | None => Ret (VFuncSig None)
      | Some tu =>
          if existsb (fun c => kind_eqb (gkind c) PARAM || kind_eqb (gkind c) RESULT) (gchildren tu)
          then ask_sig tu (fun v => Ret (VFuncSig (Some v)))
          else
            ask_root u (fun g =>
            if match to_node g (s_key s) with Some _ => true | None => false end then
              ask_table u (fun tb =>
              match type_of_use g tb s with
              | Ans ft => ask_sig ft (fun v => Ret (VFuncSig (Some v)))
              | NoAns => Ret (VFuncSig None)
              | Panics => Fail
              end)
            else Fail)
      end
  | QHeader u s =>                                          (* types_analyzer.rs:113-137 *)
      let name := match s_kind s, i_name (s_idx s) with SFunc, Some x => T " " ++ x | _, _ => [] end in
      ask_func_sig u s (fun sg =>
      Ret (VText (T "(func" ++ name
        ++ match sg with
           | Some sg => match sig_params sg, sig_results sg with [], [] => [] | _, _ => T " " ++ show_sig sg end
           | None => []
           end
        ++ T ")")))
  end.

(** ** The engine *)

(** [Memo], salsa derived/slot.rs. *)
Record memo : Type := mk_memo { m_value : value; m_verified : nat; m_changed : nat; m_inputs : list query }.
Record db : Type := mk_db { now : nat; sources : list (uri * (text * nat)); memos : list (query * memo) }.

(** [LanguageService::default], lib.rs:25-41.  Revisions start at 1. *)
Definition new_db : db := mk_db 1 [] [].

Definition source_of (d : db) (u : uri) : option (text * nat) :=
  option_map snd (find (fun p => text_eqb (fst p) u) (sources d)).
(** [commit], lib.rs:52-57: [set_source] starts a new revision. *)
Definition commit (u : uri) (t : text) (d : db) : db :=
  mk_db (S (now d)) ((u, (t, S (now d))) :: sources d) (memos d).

(** The stored key and memo of a query: the slot keeps the key it was made
    with. *)
Definition find_memo (q : query) (d : db) : option (query * memo) :=
  find (fun p => query_eqb (fst p) q) (memos d).
Definition put_memo (q : query) (m : memo) (d : db) : db :=
  mk_db (now d) (sources d) ((q, m) :: filter (fun p => negb (query_eqb (fst p) q)) (memos d)).

(** What a call into the engine ends with.  [Dead] is a panic, [NoFuel] the
    model's own bound (never reached: [refresh_ok]). *)
Inductive res (A : Type) : Type :=
| Done (a : A) (d : db)
| Dead
| NoFuel.
Arguments Done {A}.
Arguments Dead {A}.
Arguments NoFuel {A}.

(** Run a program; [ask] brings a query up to date.  Collects the queries
    read and the latest revision in which one of them changed. *)
Fixpoint run {A} (ask : query -> db -> res memo) (p : prog A) (d : db) : res (A * list query * nat) :=
  match p with
  | Ret a => Done (a, [], 1) d
  | Fail => Dead
  | Ask q k =>
      match ask q d with
      | Done m d' =>
          match run ask (k (m_value m)) d' with
          | Done (a, qs, c) d'' => Done (a, q :: qs, max (m_changed m) c) d''
          | Dead => Dead
          | NoFuel => NoFuel
          end
      | Dead => Dead
      | NoFuel => NoFuel
      end
  end.

(** Is none of the inputs of a memo changed since it was last verified?
    Stops at the first that is. *)
Fixpoint unchanged (ask : query -> db -> res memo) (rev : nat) (qs : list query) (d : db) : res bool :=
  match qs with
  | [] => Done true d
  | q :: r =>
      match ask q d with
      | Done m d' => if Nat.ltb rev (m_changed m) then Done false d' else unchanged ask rev r d'
      | Dead => Dead
      | NoFuel => NoFuel
      end
  end.

(** [Slot::read_upgrade] once the old memo is known to be stale: run the
    code; a value equal to the old one keeps the old revision ("backdating"),
    but the new value is stored. *)
Definition execute (ask : query -> db -> res memo) (q : query) (old : option memo) (d : db) : res memo :=
  match run ask (code q) d with
  | Done (v, qs, c) d' =>
      let c' := match old with
                | Some m => if value_eqb (m_value m) v then m_changed m else c
                | None => c
                end in
      let m := mk_memo v (now d') c' qs in
      Done m (put_memo q m d')
  | Dead => Dead
  | NoFuel => NoFuel
  end.

(** Bring a query up to date: [Slot::read] and [Slot::maybe_changed_since] of
    derived queries (both refresh the memo, one looks at its value and the
    other at [changed_at]), and of inputs, which panic when never set. *)
Fixpoint refresh (fuel : nat) (q : query) (d : db) : res memo :=
  match fuel with
  | 0 => NoFuel
  | S n =>
      match q with
      | QSource u =>
          match source_of d u with
          | Some (t, c) => Done (mk_memo (VSource t) (now d) c []) d
          | None => Dead
          end
      | _ =>
          match find_memo q d with
          | None => execute (refresh n) q None d
          | Some (q0, m) =>
              if Nat.eqb (m_verified m) (now d) then Done m d
              else
                match unchanged (refresh n) (m_verified m) (m_inputs m) d with
                | Done true d' =>
                    let m' := mk_memo (m_value m) (now d') (m_changed m) (m_inputs m) in
                    Done m' (put_memo q0 m' d')
                | Done false d' => execute (refresh n) q0 (Some m) d'
                | Dead => Dead
                | NoFuel => NoFuel
                end
          end
      end
  end.

(** Enough fuel for any query: they are nested at most this deep. *)
Definition depth : nat := 8.

(** ** Histories of the service *)

(** A request runs some program over the queries (each feature is one); a
    commit sets the text of a document, lib.rs:52-57. *)
Inductive event (A : Type) : Type :=
| Commit (u : uri) (t : text)
| Request (p : prog A).
Arguments Commit {A}.
Arguments Request {A}.

(** The answers of the requests, in order; [None] at the end if the service
    panicked (nothing is answered afterwards). *)
Fixpoint serve {A} (d : db) (l : list (event A)) : list (option A) :=
  match l with
  | [] => []
  | Commit u t :: r => serve (commit u t d) r
  | Request p :: r =>
      match run (refresh depth) p d with
      | Done (a, _, _) d' => Some a :: serve d' r
      | _ => [None]
      end
  end.
