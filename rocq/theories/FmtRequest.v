(** [format_range] of crates/formatter/src/lib.rs and the requests of
    crates/service/src/features/formatting.rs. *)

From Coq Require Import String List NArith Bool Arith.
From Verif Require Import Text Kind Green Red LineIndex Cursor Doc Nav Action Format.
Import ListNotations.

(** [prev_sibling_or_token] twice: what [should_ignore] (mod.rs:302-323)
    finds for the children of [e] that do not have two siblings before them. *)
Definition two_before (e : elem) : option green :=
  match ups e with
  | u :: _ => match u_idx u with S (S n) => nth_error (gchildren (u_green u)) n | _ => None end
  | [] => None
  end.

(** The loop of [format_range], lib.rs:30-33: the last node it visits. *)
Definition range_node (tree : green) (a b : nat) : elem :=
  List.last (visited (gsize tree) (root_of tree) a b) (root_of tree).

(** [build_options], formatting.rs:43-52, with the defaults of config.rs:23-94.
    The width of a text is its length in bytes (tiny_pretty without the
    feature unicode-width). *)
Definition request_settings (tab : nat) (spaces : bool) : settings :=
  mk_settings (mk_options false (T "fmt-ignore") tab) (negb spaces) false (rest_fits tlen 80) tlen.

Section Requests.
  Variable s : settings.
  Variables (li : line_index) (tree : green).

  (** [format_range], lib.rs:24-44.  [NoAns] is [None]; [line_col] panics for
      an offset after the end of the text. *)
  Definition format_range (a b : nat) : ans (text * (nat * nat)) :=
    let n := range_node tree a b in
    abind (amust (line_col li (estart n))) (fun p =>
    match format_node (f_options s) (two_before n) (el n) with
    | Some d => Ans (print s (DNest (snd p) d), (estart n, eend n))
    | None => NoAns
    end).

  (** [formatting], formatting.rs:12-22. *)
  Definition formatting : ans (list (range * text)) :=
    abind (amust (lsp_range li 0 (glen tree))) (fun r => Ans [(r, format s tree)]).

  (** [range_formatting], formatting.rs:25-40. *)
  Definition range_formatting (r : range) : ans (list (range * text)) :=
    match rowan_range li (fst r) (snd r) with
    | RangePanic => Panics
    | RangeNone => NoAns
    | RangeOk a b =>
        abind (format_range a b) (fun x =>
        abind (amust (lsp_range li (fst (snd x)) (snd (snd x)))) (fun r => Ans [(r, fst x)]))
    end.
End Requests.
