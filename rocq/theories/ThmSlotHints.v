(** Inlay hints of parameters and locals after a code action (C53). *)

From Coq Require Import String List NArith Bool Arith Lia.
From Verif Require Import Text Kind Green SpecParser Grammar Sem Lossless Total Lang Shape Red Unique LineIndex Cursor ThmPos Doc Ast Preorder
  SpecBinder BinderFacts Nav NavSpec NavFacts ThmNav SpecTypes InstrMeta Types Features ThmStructure CheckFacts SpecAction Action ThmAction SpecRename ThmRenamed SpecRegroup SigFacts ThmRegroup ThmCheck SpecHeader HeaderFacts SpecSlots ThmSlots.
From Verif Require SpecComplete ThmComplete.
Import ListNotations.

Lemma same_slot_type d d' t : el d = el d' -> SlotType d t -> SlotType d' t.
Proof.
  intros E. unfold SlotType, ekind, etext. rewrite <- E. destruct (kind_eqb _ VAL_TYPE); [auto|].
  pose proof (childs_greens d VAL_TYPE) as C. pose proof (childs_greens d' VAL_TYPE) as C'. rewrite <- E, <- C in C'.
  intros (v & V & X). destruct (childs d VAL_TYPE) as [|x xs]; [discriminate|]. injection V as <-.
  destruct (childs d' VAL_TYPE) as [|y ys]; [discriminate|]. injection C' as C1 _. exists y. split; [reflexivity|]. now rewrite C1.
Qed.

Lemma hint_behind src n f w t : InTree (tree_of src) n -> is_node n = true -> Asks n ALocal -> Written n w -> in_func n f -> InTree (tree_of src) f ->
  DeclaredType f w t -> HintBehind src n (show_valtype t).
Proof.
  intros T N A W F Tf (d & D & S) r a b R Ha Hb. destruct (C28_exact src r a b R) as (hs & E & X).
  destruct (eend_in_tree src n T) as (pos & Ep). exists hs, pos. split; [exact E|]. split; [exact Ep|]. apply X.
  exists (eend n). split; [|exact Ep]. now apply Hint_local with (w := w) (f := f) (d := d).
Qed.

(** A parameter or local so written, in the i-th function before and after
    the code action, has the same declared type, and the inlay hint behind a
    use of it shows that type both times. *)
Theorem C53_same_hint tree w p q l act :
  Document tree -> SingleResults tree -> code_action (gtext tree) w p q = Ans l -> In act l ->
  exists tree', Applied (gtext tree) (a_edits act) (gtext tree')
    /\ forall i f f' n n' wr,
         nth_error (nodes_of [MODULE_FIELD_FUNC] tree) i = Some f -> nth_error (nodes_of [MODULE_FIELD_FUNC] tree') i = Some f' ->
         InTree tree n -> is_node n = true -> Asks n ALocal -> Written n wr -> in_func n f ->
         InTree tree' n' -> is_node n' = true -> Asks n' ALocal -> Written n' wr -> in_func n' f' ->
         forall t, (DeclaredType f wr t <-> DeclaredType f' wr t)
           /\ (DeclaredType f wr t -> HintBehind (gtext tree) n (show_valtype t) /\ HintBehind (gtext tree') n' (show_valtype t)).
Proof.
  intros D SR H Hin. destruct (C53_same_declarations tree w p q l act D SR H Hin) as (tree' & HA & D' & _ & HF & _).
  exists tree'. split; [exact HA|]. intros i f f' n n' wr Hi Hi' T N A W F T' N' A' W' F' t.
  destruct (forall2_nth _ _ _ _ _ _ HF Hi Hi') as (_ & S). specialize (S wr).
  assert (G : forall T f, nth_error (nodes_of [MODULE_FIELD_FUNC] T) i = Some f -> InTree T f).
  { clear. intros T f Hf. apply nth_error_In in Hf. unfold nodes_of in Hf. apply filter_In in Hf as (Hf & _). now apply desc_spec in Hf. }
  assert (I : DeclaredType f wr t <-> DeclaredType f' wr t).
  { unfold DeclaredType. destruct (local_target f wr) as [d|], (local_target f' wr) as [d'|]; try discriminate S.
    - cbn [option_map] in S. injection S as S. split; intros (e & E & X); injection E as <-; eexists; (split; [reflexivity|]); (eapply same_slot_type; [|exact X]); congruence.
    - split; intros (e & E & _); discriminate. }
  split; [exact I|]. intros X. split.
  - apply (hint_behind _ n f wr); try assumption; rewrite (document_tree tree D); auto.
  - apply (hint_behind _ n' f' wr); try assumption; try (rewrite (document_tree tree' D'); auto). now apply I.
Qed.
Print Assumptions C53_same_hint.

(** A concrete case: [local.get 1] in [C53_same_case] has the type i64. *)
Example C53_hint_case :
  let n := par (cur slots_ex (0, 52)) in let f := enc MODULE_FIELD_FUNC n in
  let n' := par (cur slots_out (0, 60)) in let f' := enc MODULE_FIELD_FUNC n' in
  DeclaredType f (Numbered 1) VI64 /\ DeclaredType f' (Numbered 1) VI64 /\ is_node n = true /\ is_node n' = true
  /\ rowan_range (new_line_index slots_ex) (0, 0) (0, 55) = RangeOk 0 55
  /\ inlay_hint slots_ex ((0, 0), (0, 55)) = Ans [((0, 53), Text.T "i64")]
  /\ inlay_hint slots_out ((0, 0), (0, 63)) = Ans [((0, 61), Text.T "i64")].
Proof.
  intros n f n' f'. split; [eexists; split; [vm_compute; reflexivity|vm_compute; reflexivity]|].
  split; [eexists; split; [vm_compute; reflexivity|vm_compute; reflexivity]|]. repeat split; vm_compute; reflexivity.
Qed.
