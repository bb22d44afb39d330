(** Line index and position conversion: crate line-index 0.1.1 as used by
    crates/service/src/helpers.rs:1-36 and crates/service/src/files.rs:27-29.

    Simplifications: offsets are natural numbers rather than [u32] (documents
    below 4 GiB, columns sent by the client such that no addition overflows);
    the table of wide characters, which the service never consults, is left
    out. *)

From Coq Require Import String List NArith Bool Arith Lia.
From Verif Require Import Text.
Import ListNotations.

Definition LF : char := 10%N.

(** line-index: [newlines] holds the offset just after every line feed. *)
Fixpoint newlines_from (o : nat) (t : text) : list nat :=
  match t with
  | [] => []
  | c :: r =>
      let o' := o + utf8_len c in
      if N.eqb c LF then o' :: newlines_from o' r else newlines_from o' r
  end.

Record line_index : Type := mk_li { newlines : list nat; li_len : nat }.

(** [LineIndex::new] (crates/service/src/files.rs:27-29). *)
Definition new_line_index (src : text) : line_index :=
  mk_li (newlines_from 0 src) (tlen src).

(** [slice::partition_point(|&it| it <= offset)].  The library uses binary
    search; on the sorted list this is the length of the longest prefix. *)
Fixpoint partition_le (o : nat) (l : list nat) : nat :=
  match l with
  | [] => 0
  | x :: r => if Nat.leb x o then S (partition_le o r) else 0
  end.

(** [LineIndex::start_offset]. *)
Definition start_offset (li : line_index) (line : nat) : option nat :=
  match line with
  | 0 => Some 0
  | S n => nth_error (newlines li) n
  end.

(** [LineIndex::try_line_col]; [line_col], used everywhere in the service,
    panics on [None]. *)
Definition line_col (li : line_index) (o : nat) : option (nat * nat) :=
  if Nat.ltb (li_len li) o then None
  else
    let line := partition_le o (newlines li) in
    match start_offset li line with
    | Some s => Some (line, o - s)
    | None => None
    end.

(** [LineIndex::offset], and so [lsp_pos_to_rowan_pos]
    (helpers.rs:17-22). *)
Definition offset (li : line_index) (p : nat * nat) : option nat :=
  match start_offset li (fst p) with
  | Some s => Some (s + snd p)
  | None => None
  end.

(** [rowan_range_to_lsp_range] (helpers.rs:10-15); [None] is a panic. *)
Definition lsp_range (li : line_index) (a b : nat) : option ((nat * nat) * (nat * nat)) :=
  match line_col li a, line_col li b with
  | Some p, Some q => Some (p, q)
  | _, _ => None
  end.

(** [lsp_range_to_rowan_range] (helpers.rs:24-36).  [TextRange::new] asserts
    [start <= end]. *)
Inductive rr : Type := RangeOk (a b : nat) | RangeNone | RangePanic.
Definition rowan_range (li : line_index) (a b : nat * nat) : rr :=
  match offset li a, offset li b with
  | Some x, Some y => if Nat.leb x y then RangeOk x y else RangePanic
  | _, _ => RangeNone
  end.

(** ** Facts *)

Lemma newlines_gt o t x : In x (newlines_from o t) -> o < x <= o + tlen t.
Proof.
  revert o. induction t as [|c t IH]; intros o; cbn [newlines_from tlen]; [intros []|].
  pose proof (utf8_len_pos c).
  destruct N.eqb; cbn [In]; intros Hx.
  - destruct Hx as [<-|Hx]; [lia|]. apply IH in Hx. lia.
  - apply IH in Hx. lia.
Qed.

Lemma newlines_app o a b :
  newlines_from o (a ++ b) = newlines_from o a ++ newlines_from (o + tlen a) b.
Proof.
  revert o. induction a as [|c a IH]; intros o; cbn [newlines_from tlen app].
  - now rewrite Nat.add_0_r.
  - rewrite IH, Nat.add_assoc. destruct N.eqb; reflexivity.
Qed.

Lemma partition_all o l r :
  (forall x, In x l -> x <= o) -> (forall x, In x r -> o < x) ->
  partition_le o (l ++ r) = length l.
Proof.
  intros Hl Hr. induction l as [|x l IH]; cbn [app partition_le length].
  - destruct r as [|y r]; [reflexivity|]. cbn [partition_le].
    destruct (Nat.leb_spec y o); [|reflexivity]. specialize (Hr y (or_introl eq_refl)). lia.
  - destruct (Nat.leb_spec x o); [|specialize (Hl x (or_introl eq_refl)); lia].
    f_equal. apply IH. intros. apply Hl. now right.
Qed.

(** Sortedness, used for offsets that are not character boundaries. *)
Fixpoint asc (lo : nat) (l : list nat) : Prop :=
  match l with
  | [] => True
  | x :: r => lo < x /\ asc x r
  end.
Lemma newlines_asc o t lo : lo <= o -> asc lo (newlines_from o t).
Proof.
  revert o lo. induction t as [|c t IH]; intros o lo H; cbn [newlines_from]; [exact I|].
  pose proof (utf8_len_pos c). destruct N.eqb.
  - cbn [asc]. split; [lia|]. apply IH. lia.
  - apply IH. lia.
Qed.

(** Where an offset falls: [line_start] is the start of its line. *)
Lemma partition_split o l lo :
  asc lo l -> lo <= o ->
  exists p s r, l = p ++ r /\ partition_le o l = length p
    /\ s = last p lo /\ s <= o
    /\ match length p with 0 => s = lo | S n => nth_error l n = Some s end
    /\ (forall x, In x r -> o < x).
Proof.
  revert lo. induction l as [|x l IH]; intros lo Ha Hlo; cbn [partition_le].
  - exists [], lo, []. cbn. repeat split; auto. intros ? [].
  - cbn [asc] in Ha. destruct Ha as [H1 H2]. destruct (Nat.leb_spec x o).
    + destruct (IH x H2 H) as (p & s & r & -> & Hp & Hs & Hso & Hn & Hr).
      exists (x :: p), s, r. repeat split; auto.
      * cbn [length]. now rewrite Hp.
      * rewrite Hs. destruct p as [|y p]; [reflexivity|]. cbn [last].
        clear. revert y. induction p as [|z p IH]; intros y; [reflexivity|]. cbn [last]. apply (IH z).
      * cbn [length]. destruct (length p) as [|n]; [cbn [nth_error]; now rewrite Hn|]. cbn [nth_error]. exact Hn.
    + exists [], lo, (x :: l). repeat split; auto.
      intros y [<-|Hy]; [lia|].
      assert (forall q m, asc m q -> forall z, In z q -> m < z) as Hasc.
      { clear. induction q as [|w q IH]; intros m Hm z Hz; [destruct Hz|]. cbn in Hm.
        destruct Hz as [<-|Hz]; [tauto|]. destruct Hm as [Hm Hq]. specialize (IH w Hq z Hz). lia. }
      specialize (Hasc _ _ H2 _ Hy). lia.
Qed.

Lemma line_col_total src o :
  o <= tlen src -> exists l c, line_col (new_line_index src) o = Some (l, c)
    /\ offset (new_line_index src) (l, c) = Some o.
Proof.
  intros Ho. unfold line_col, offset, new_line_index. cbn [li_len newlines].
  destruct (Nat.ltb_spec (tlen src) o); [lia|].
  destruct (partition_split o (newlines_from 0 src) 0) as (p & s & r & Heq & Hp & Hs & Hso & Hn & Hr);
    [now apply newlines_asc|lia|].
  unfold start_offset. cbn [newlines]. rewrite Hp.
  destruct (length p) as [|n] eqn:El.
  - exists 0, (o - 0). split; [reflexivity|]. cbn. f_equal; lia.
  - rewrite Hn. exists (S n), (o - s). split; [reflexivity|]. cbn [fst snd]. rewrite Hn. f_equal. lia.
Qed.

Lemma line_col_none src o : line_col (new_line_index src) o = None <-> tlen src < o.
Proof.
  split.
  - intros H. destruct (Nat.le_gt_cases o (tlen src)) as [Ho|Ho]; [|exact Ho].
    apply line_col_total in Ho as (l & c & E & _). congruence.
  - intros H. unfold line_col, new_line_index. cbn [li_len]. destruct (Nat.ltb_spec (tlen src) o); [reflexivity|lia].
Qed.

(** Positions are ordered lexicographically. *)
Definition pos_lt (p q : nat * nat) : Prop :=
  fst p < fst q \/ (fst p = fst q /\ snd p < snd q).

Lemma partition_le_mono o o' l : o <= o' -> partition_le o l <= partition_le o' l.
Proof.
  intros H. induction l as [|x l IH]; cbn [partition_le]; [lia|].
  destruct (Nat.leb_spec x o), (Nat.leb_spec x o'); lia.
Qed.

Lemma line_col_mono src o o' p q :
  line_col (new_line_index src) o = Some p -> line_col (new_line_index src) o' = Some q ->
  o < o' -> pos_lt p q.
Proof.
  intros Hp Hq Ho. unfold pos_lt.
  assert (Ho' : o' <= tlen src).
  { destruct (Nat.le_gt_cases o' (tlen src)); [assumption|].
    apply line_col_none in H. congruence. }
  destruct (line_col_total src o) as (l1 & c1 & E1 & F1); [lia|].
  destruct (line_col_total src o') as (l2 & c2 & E2 & F2); [lia|].
  rewrite E1 in Hp. rewrite E2 in Hq. injection Hp as <-. injection Hq as <-. cbn [fst snd].
  assert (l1 <= l2) as Hl.
  { unfold line_col in E1, E2. destruct Nat.ltb; [discriminate|]. destruct Nat.ltb; [discriminate|].
    destruct start_offset; [|discriminate]. destruct (start_offset _ (partition_le o' _)); [|discriminate].
    injection E1 as <- _. injection E2 as <- _. apply partition_le_mono. lia. }
  destruct (Nat.eq_dec l1 l2) as [->|]; [|lia]. right. split; [reflexivity|].
  unfold offset in F1, F2. cbn [fst snd] in F1, F2. destruct start_offset; [|discriminate].
  injection F1 as F1. injection F2 as F2. lia.
Qed.
