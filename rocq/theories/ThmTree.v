(** Properties C08 and C09: nodes of parse trees and their ranges.
    [InTree tree e] ([Red.v]): [e] is a node or token of the tree, reached
    from the root by taking children. *)

From Coq Require Import String List NArith Bool Arith Lia.
From Verif Require Import Text Kind Green SpecParser Winnow Grammar Red Unique Doc ThmParser.
Import ListNotations.

(** ** C08 *)
Theorem C08_node_identity dbg src tree errs a b :
  parse dbg src = Parsed tree errs ->
  InTree tree a -> InTree tree b -> is_node a = true -> is_node b = true ->
  ekind a = ekind b -> estart a = estart b -> eend a = eend b -> a = b.
Proof.
  intros H Ha Hb Na Nb Hk Hs He. unfold estart, eend in *.
  eapply node_unique; eauto. lia.
Qed.
Print Assumptions C08_node_identity.

(** Kinds matter: nodes of different kinds do share ranges, so the range
    alone does not identify a node.  Here MEMORY_TYPE and LIMITS. *)
Definition sample_mem : text := T "(module (memory 1))".
Example C08_sample : exists tree errs a b,
  parse false sample_mem = Parsed tree errs /\ InTree tree a /\ InTree tree b
  /\ is_node a = true /\ is_node b = true
  /\ ekind a = MEMORY_TYPE /\ ekind b = LIMITS /\ estart a = estart b /\ eend a = eend b.
Proof.
  set (p := fun k e => is_node e && kind_eqb (ekind e) k && Nat.eqb (estart e) 16 && Nat.eqb (eend e) 17).
  destruct (find_elem_ex sample_mem (p MEMORY_TYPE)) as (a & Ha & Pa); [vm_compute; reflexivity|].
  destruct (find_elem_ex sample_mem (p LIMITS)) as (b & Hb & Pb); [vm_compute; reflexivity|].
  unfold p in *. rewrite !andb_true_iff, kind_eqb_eq, !Nat.eqb_eq in Pa, Pb.
  exists (tree_of sample_mem), (errs_of sample_mem), a, b. split; [apply parse_of|].
  repeat split; tauto || (destruct Pa as [[[]]], Pb as [[[]]]; congruence).
Qed.

(** ** C09 *)

(** [Tiling a rs b]: the ranges [rs] follow each other without gap or
    overlap from [a] to [b]. *)
Inductive Tiling : nat -> list (nat * nat) -> nat -> Prop :=
| Tiling_nil a : Tiling a [] a
| Tiling_cons a b c rs : a <= b -> Tiling b rs c -> Tiling a ((a, b) :: rs) c.

Lemma kids_tile p po us i o cs :
  Tiling o (map (fun c => (estart c, eend c)) (kids p po us i o cs)) (o + glens cs).
Proof.
  revert i o. induction cs as [|c cs IH]; intros i o; cbn [kids map].
  - replace (o + glens []) with o by (unfold glens; simpl; lia). constructor.
  - unfold estart at 1, eend at 1. simpl. constructor; [lia|].
    replace (o + glens (c :: cs)) with (o + glen c + glens cs) by (rewrite glens_cons; lia).
    apply IH.
Qed.

(** Children tile their parent, in order; the root starts at 0 and is as
    long as the tree's text. *)
Theorem C09_children_tile tree p :
  InTree tree p -> is_node p = true ->
  Tiling (estart p) (map (fun c => (estart c, eend c)) (children_with_tokens p)) (eend p).
Proof.
  intros _ Hn. unfold children_with_tokens, estart, eend, is_node in *.
  destruct (el p) as [k t|k cs]; [discriminate|]. apply kids_tile.
Qed.
Theorem C09_root_range tree :
  estart (root_of tree) = 0 /\ eend (root_of tree) = tlen (gtext tree).
Proof. split; [reflexivity|]. unfold eend. simpl. apply glen_tlen. Qed.

(** The range of an element selects exactly its text from the tree's text. *)
Theorem C09_range_text tree e :
  InTree tree e ->
  exists pre post, gtext tree = pre ++ etext e ++ post
    /\ estart e = tlen pre /\ eend e = tlen (pre ++ etext e).
Proof.
  intros H. enough (Hx : exists pre post, gtext tree = pre ++ etext e ++ post /\ estart e = tlen pre).
  { destruct Hx as (pre & post & H1 & H2). exists pre, post. split; [exact H1|]. split; [exact H2|].
    unfold eend, estart in *. rewrite H2, tlen_app, glen_tlen. reflexivity. }
  induction H as [|p c H (pre & post & H1 & H2) Hc].
  - exists [], []. simpl. now rewrite app_nil_r.
  - apply child_in in Hc as (l & g & r & Heq & ->). unfold etext, estart in *. simpl.
    destruct (el p) as [k t|k cs]; simpl in Heq; [destruct l; discriminate|]. subst cs.
    exists (pre ++ gtexts l), (gtexts r ++ post). split.
    + rewrite H1. simpl. fold (gtexts (l ++ g :: r)). rewrite gtexts_app, gtexts_cons, <- !app_assoc. reflexivity.
    + rewrite H2, tlen_app, glens_tlen. reflexivity.
Qed.

(** So in an error-free document it selects the text in the source. *)
Theorem C09_range_source dbg src tree e :
  parse dbg src = Parsed tree [] -> InTree tree e ->
  exists pre post, src = pre ++ etext e ++ post
    /\ estart e = tlen pre /\ eend e = tlen (pre ++ etext e).
Proof.
  intros H He. rewrite <- (C02_no_errors_lossless _ _ _ H). now apply C09_range_text.
Qed.
Print Assumptions C09_children_tile.
Print Assumptions C09_range_text.
Print Assumptions C09_range_source.

Example C09_sample : exists tree e,
  parse false sample = Parsed tree [] /\ InTree tree e /\ etext e = T "func" /\ estart e = 9.
Proof.
  destruct (find_elem_ex sample (fun e => text_eqb (etext e) (T "func") && Nat.eqb (estart e) 9))
    as (e & He & P); [vm_compute; reflexivity|].
  apply andb_prop in P as [P1 P2]. apply Nat.eqb_eq in P2.
  exists (tree_of sample), e. split.
  - rewrite parse_of. assert (errs_of sample = []) as ->; [vm_compute|]; reflexivity.
  - split; [exact He|]. split; [now apply text_eqb_eq|exact P2].
Qed.
