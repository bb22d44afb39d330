(** Specification of the text that describes a function or type: its
    parameters and results as written. *)

From Coq Require Import String List NArith Bool Arith Lia.
From Verif Require Import Text Kind Green Lexer Red Ast Doc SpecBinder NavSpec InstrMeta Types SpecTypes.
Import ListNotations.

(** One text for every parameter and result that a type use or function type
    writes out; a parameter with a name has one type. *)
Definition param_parts (p : elem) : list text :=
  match token p IDENT with
  | Some i => map (fun v => T "(param " ++ etext i ++ T " " ++ etext v ++ T ")") (firstn 1 (childs p VAL_TYPE))
  | None => map (fun v => T "(param " ++ etext v ++ T ")") (childs p VAL_TYPE)
  end.
Definition result_parts (r : elem) : list text :=
  map (fun v => T "(result " ++ etext v ++ T ")") (childs r VAL_TYPE).
Definition sig_parts (e : elem) : list text :=
  flat_map param_parts (childs e PARAM) ++ flat_map result_parts (childs e RESULT).

(** Where the signature of the function [f] is written: at [f], or, if nothing
    is written there, in the type that it names; or nowhere. *)
Inductive Signed (src : text) (f : elem) : elem -> Prop :=
| Signed_here tu : child f TYPE_USE = Some tu -> (childs tu PARAM <> [] \/ childs tu RESULT <> []) -> Signed src f tu
| Signed_type tu i d ft : child f TYPE_USE = Some tu -> childs tu PARAM = [] -> childs tu RESULT = [] ->
    child tu INDEX = Some i -> Means src i d -> child d FUNC_TYPE = Some ft -> Signed src f ft.

(** " $x" for a declaration named $x. *)
Definition spaced (x : text) : text := T " " ++ x.
Definition named (d : elem) : text := match token d IDENT with Some t => spaced (etext t) | None => [] end.

Inductive Header (src : text) (f : elem) : text -> Prop :=
| Header_sig e : Signed src f e -> Header src f (T "(func" ++ named f ++ concat (map spaced (sig_parts e)) ++ T ")")
| Header_none : (forall e, ~ Signed src f e) -> Header src f (T "(func" ++ named f ++ T ")").
