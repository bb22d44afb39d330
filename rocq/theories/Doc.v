(** The tree and the syntax errors of a document as functions of its text
    (crates/service/src/files.rs:32-60, release build: see C04). *)

From Coq Require Import String List NArith Bool Arith Lia.
From Verif Require Import Text Kind Green SpecParser Winnow Grammar Total Red.
Import ListNotations.

Definition tree_of (src : text) : green :=
  match parse false src with Parsed t _ => t | _ => Node ROOT [] end.
Definition errs_of (src : text) : list err :=
  match parse false src with Parsed _ e => e | _ => [] end.

Lemma parse_of src : parse false src = Parsed (tree_of src) (errs_of src).
Proof.
  unfold tree_of, errs_of. destruct (parse_release_total src) as (t & e & ->). reflexivity.
Qed.

(** For examples: find an element by a boolean test. *)
Definition find_elem (src : text) (p : elem -> bool) : option elem :=
  find p (descendants_with_tokens (root_of (tree_of src))).
Lemma find_elem_in src p e : find_elem src p = Some e -> InTree (tree_of src) e /\ p e = true.
Proof. intros H. apply find_some in H as [H1 H2]. split; [now apply desc_spec|exact H2]. Qed.
Lemma find_elem_ex src p :
  match find_elem src p with Some _ => true | None => false end = true ->
  exists e, InTree (tree_of src) e /\ p e = true.
Proof.
  intros H. destruct (find_elem src p) as [e|] eqn:E; [|discriminate].
  exists e. now apply find_elem_in.
Qed.
