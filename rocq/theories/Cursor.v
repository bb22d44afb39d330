(** Finding the token under the cursor: rowan 0.15.16
    [SyntaxNode::token_at_offset] and [find_meaningful_token]
    (crates/service/src/features/mod.rs:23-47). *)

From Coq Require Import String List NArith Bool Arith Lia.
From Verif Require Import Text Kind Green SpecParser Red LineIndex.
Import ListNotations.

Inductive tao_res : Type :=
| TNone
| TSingle (t : elem)
| TBetween (l r : elem)
| TPanic.

(** The children rowan looks at: non-empty ones whose range contains the
    offset. *)
Definition covers (x : nat) (c : elem) : bool :=
  negb (Nat.eqb (estart c) (eend c)) && Nat.leb (estart c) x && Nat.leb x (eend c).

(** rowan [cursor.rs], [token_at_offset] for nodes and elements.  It asserts
    that the offset lies in the range of the element, that at least one and at
    most two children cover the offset, and is [unreachable!] when two
    children do not give one token each. *)
Fixpoint tao (g : green) (o : nat) (us : list up) (x : nat) : tao_res :=
  if Nat.ltb x o || Nat.ltb (o + glen g) x then TPanic
  else
    match g with
    | Tok _ _ => TSingle (mk_elem g o us)
    | Node _ cs =>
        if Nat.eqb (glen g) 0 then TNone
        else
          match (fix go (i o' : nat) (l : list green) : list tao_res :=
                   match l with
                   | [] => []
                   | c :: r =>
                       let us' := mk_up g o i :: us in
                       if covers x (mk_elem c o' us')
                       then tao c o' us' x :: go (S i) (o' + glen c) r
                       else go (S i) (o' + glen c) r
                   end) 0 o cs with
          | [a] => a
          | [TSingle l; TSingle r] => TBetween l r
          | _ => TPanic
          end
    end.
Definition token_at_offset (e : elem) (x : nat) : tao_res := tao (el e) (off e) (ups e) x.

(** [is_trivia], [is_punc] (crates/syntax/src/lib.rs:28-41). *)
Definition is_trivia (t : elem) : bool :=
  match ekind t with WHITESPACE | LINE_COMMENT | BLOCK_COMMENT => true | _ => false end.
Definition is_punc (t : elem) : bool :=
  match ekind t with L_PAREN | R_PAREN => true | _ => false end.

(** Answers of a handler: a value, nothing, or a panic. *)
Inductive ans (A : Type) : Type := Ans (a : A) | NoAns | Panics.
Arguments Ans {A}. Arguments NoAns {A}. Arguments Panics {A}.
Definition abind {A B} (a : ans A) (f : A -> ans B) : ans B :=
  match a with Ans x => f x | NoAns => NoAns | Panics => Panics end.
Definition aopt {A} (o : option A) : ans A :=
  match o with Some x => Ans x | None => NoAns end.
(** [unwrap]/[expect]. *)
Definition amust {A} (o : option A) : ans A :=
  match o with Some x => Ans x | None => Panics end.

Definition find_meaningful_token (li : line_index) (root : elem) (pos : nat * nat) : ans elem :=
  abind (aopt (offset li pos)) (fun x =>
  match token_at_offset root x with
  | TNone => NoAns
  | TSingle t => Ans t
  | TBetween l r =>
      let lc := is_trivia l || is_punc l in
      let rc := is_trivia r || is_punc r in
      if lc && rc || negb lc && negb rc then NoAns
      else if lc then Ans r else Ans l
  | TPanic => Panics
  end).

(** ** Specification: the tokens that touch an offset *)

Definition touches (x : nat) (t : elem) : bool := negb (is_node t) && covers x t.
Definition touching (e : elem) (x : nat) : list elem :=
  filter (touches x) (descendants_with_tokens e).

Lemma covers_iff x c : covers x c = true <-> estart c < eend c /\ estart c <= x <= eend c.
Proof.
  unfold covers. rewrite !andb_true_iff, negb_true_iff, Nat.eqb_neq, !Nat.leb_le.
  unfold estart, eend. lia.
Qed.

Lemma tao_go g o us x i o' l :
  (fix go (i o' : nat) (l : list green) : list tao_res :=
     match l with
     | [] => []
     | c :: r =>
         let us' := mk_up g o i :: us in
         if covers x (mk_elem c o' us')
         then tao c o' us' x :: go (S i) (o' + glen c) r
         else go (S i) (o' + glen c) r
     end) i o' l
  = map (fun c => token_at_offset c x) (filter (covers x) (kids g o us i o' l)).
Proof.
  revert i o'. induction l as [|c l IH]; intros i o'; cbn [kids filter map]; [reflexivity|].
  cbv zeta. rewrite IH. destruct covers; reflexivity.
Qed.

Lemma desc_kids g o us i o' l :
  (fix go (i o' : nat) (l : list green) : list elem :=
     match l with
     | [] => []
     | c :: r => desc c o' (mk_up g o i :: us) ++ go (S i) (o' + glen c) r
     end) i o' l
  = concat (map descendants_with_tokens (kids g o us i o' l)).
Proof.
  revert i o'. induction l as [|c l IH]; intros i o'; cbn [kids concat map]; [reflexivity|].
  rewrite IH. reflexivity.
Qed.

Lemma descendants_node k cs o us :
  descendants_with_tokens (mk_elem (Node k cs) o us)
  = mk_elem (Node k cs) o us :: concat (map descendants_with_tokens (kids (Node k cs) o us 0 o cs)).
Proof. unfold descendants_with_tokens at 1. cbn [desc el off ups]. now rewrite desc_kids. Qed.

Lemma filter_concat {A} (p : A -> bool) (l : list (list A)) :
  filter p (concat l) = concat (map (filter p) l).
Proof. induction l as [|x l IH]; [reflexivity|]. cbn. now rewrite filter_app, IH. Qed.

Lemma touching_node k cs o us x :
  touching (mk_elem (Node k cs) o us) x
  = concat (map (fun c => touching c x) (kids (Node k cs) o us 0 o cs)).
Proof.
  unfold touching at 1. rewrite descendants_node. cbn [filter].
  unfold touches at 1. cbn [is_node el negb andb]. rewrite filter_concat, map_map. reflexivity.
Qed.

Lemma touching_not_covers c x : covers x c = false -> touching c x = [].
Proof.
  intros H. unfold touching.
  assert (Hf : forall l, (forall t, In t l -> touches x t = false) -> filter (touches x) l = []).
  { induction l as [|a l IH]; intros Hl; [reflexivity|]. cbn. rewrite (Hl a) by now left.
    apply IH. intros. apply Hl. now right. }
  apply Hf. intros t Ht. apply desc_spec in Ht. apply Desc_range in Ht.
  unfold touches. destruct (covers x t) eqn:E; [|apply andb_false_r].
  apply covers_iff in E. assert (covers x c = true); [|congruence]. apply covers_iff. lia.
Qed.

Lemma touching_filter l x :
  concat (map (fun c => touching c x) l) = concat (map (fun c => touching c x) (filter (covers x) l)).
Proof.
  induction l as [|c l IH]; [reflexivity|]. cbn [map concat filter].
  destruct (covers x c) eqn:E; [cbn; now rewrite IH|].
  rewrite touching_not_covers by assumption. exact IH.
Qed.

Lemma kids_covers_none g o us i o' l x : x < o' -> filter (covers x) (kids g o us i o' l) = [].
Proof.
  revert i o'. induction l as [|c l IH]; intros i o' H; cbn [kids filter]; [reflexivity|].
  destruct covers eqn:E; [|apply IH; lia].
  apply covers_iff in E. unfold estart, eend in E. cbn in E. lia.
Qed.
Lemma kids_covers_start g o us i o' l x :
  x = o' -> 0 < glens l ->
  exists c, filter (covers x) (kids g o us i o' l) = [c] /\ estart c = x /\ estart c < eend c
    /\ In (el c) l.
Proof.
  revert i o'. induction l as [|c l IH]; intros i o' -> H; cbn [kids filter]; [unfold glens in H; cbn in H; lia|].
  rewrite glens_cons in H. destruct covers eqn:E.
  - apply covers_iff in E. unfold estart, eend in E. cbn in E.
    rewrite kids_covers_none by lia. eexists. split; [reflexivity|]. unfold estart, eend. cbn. repeat split; auto; lia.
  - assert (glen c = 0) as Hc.
    { destruct (Nat.eq_dec (glen c) 0); [assumption|]. exfalso.
      assert (covers o' (mk_elem c o' (mk_up g o i :: us)) = true); [|congruence].
      apply covers_iff. unfold estart, eend. cbn. lia. }
    destruct (IH (S i) (o' + glen c)) as (d & H1 & H2 & H3 & H4); [lia|lia|].
    exists d. repeat split; auto. now right.
Qed.
Lemma kids_covers_shape g o us i o' l x :
  o' <= x <= o' + glens l -> 0 < glens l ->
  (exists c, filter (covers x) (kids g o us i o' l) = [c] /\ estart c <= x <= eend c /\ estart c < eend c
     /\ In (el c) l /\ (x = o' -> x = estart c) /\ (x = o' + glens l -> x = eend c))
  \/ (exists c d, filter (covers x) (kids g o us i o' l) = [c; d]
        /\ eend c = x /\ estart d = x /\ estart c < eend c /\ estart d < eend d
        /\ In (el c) l /\ In (el d) l /\ o' < x < o' + glens l).
Proof.
  revert i o'. induction l as [|c l IH]; intros i o' Hx H; cbn [kids filter].
  { unfold glens in H. cbn in H. lia. }
  rewrite glens_cons in *. destruct covers eqn:E.
  - apply covers_iff in E. unfold estart, eend in E. cbn in E.
    destruct (Nat.eq_dec x (o' + glen c)) as [Hx2|Hx2].
    + destruct (Nat.eq_dec (glens l) 0) as [Hl|Hl].
      * left. eexists.
        assert (filter (covers x) (kids g o us (S i) (o' + glen c) l) = []) as ->.
        { clear -Hl. revert i. induction l as [|d l IHl]; [reflexivity|]. intros i.
          rewrite glens_cons in Hl. cbn [kids filter]. destruct covers eqn:F.
          - apply covers_iff in F. unfold estart, eend in F. cbn in F. lia.
          - assert (glen d = 0) as Hd by lia. rewrite Hd, Nat.add_0_r. apply IHl. lia. }
        split; [reflexivity|]. unfold estart, eend. cbn. repeat split; auto; lia.
      * right. destruct (kids_covers_start g o us (S i) (o' + glen c) l x) as (d & H1 & H2 & H3 & H4); [lia|lia|].
        eexists; exists d. rewrite H1. split; [reflexivity|].
        unfold estart, eend in *. cbn. repeat split; auto; lia.
    + left. eexists. rewrite kids_covers_none by lia. split; [reflexivity|].
      unfold estart, eend. cbn. repeat split; auto; lia.
  - assert (glen c = 0 \/ o' + glen c < x) as Hc.
    { destruct (Nat.eq_dec (glen c) 0) as [|Hn]; [now left|right].
      destruct (Nat.le_gt_cases x (o' + glen c)); [|assumption]. exfalso.
      assert (covers x (mk_elem c o' (mk_up g o i :: us)) = true); [|congruence].
      apply covers_iff. unfold estart, eend. cbn. lia. }
    destruct (IH (S i) (o' + glen c)) as [(d & H1 & H2 & H3 & H4 & H5 & H6)|(d & f & H1 & H2 & H3 & H4 & H5 & H6 & H7 & H8)]; [lia|lia| |].
    + left. exists d. repeat split; auto; try lia. now right.
    + right. exists d, f. repeat split; auto; try lia; now right.
Qed.

(** The whole specification in one statement. *)
Definition tao_ok (e : elem) (x : nat) : Prop :=
  (exists t, touching e x = [t] /\ token_at_offset e x = TSingle t)
  \/ (exists l r, touching e x = [l; r] /\ token_at_offset e x = TBetween l r
        /\ eend l = x /\ estart r = x /\ estart e < x < eend e).

Lemma kids_el p po us i o cs c :
  In c (kids p po us i o cs) -> In (el c) cs.
Proof. intros H. apply kids_in in H as (l & g & r & -> & ->). cbn. apply in_elt. Qed.

Lemma token_at_offset_ok g : forall o us x,
  o <= x <= o + glen g -> 0 < glen g -> tao_ok (mk_elem g o us) x.
Proof.
  induction g as [k t|k cs IH] using green_ind'; intros o us x Hx Hp.
  - left. exists (mk_elem (Tok k t) o us). unfold touching, descendants_with_tokens, token_at_offset.
    cbn [desc el off ups filter tao].
    assert (touches x (mk_elem (Tok k t) o us) = true) as ->.
    { unfold touches. cbn [is_node el negb andb]. apply covers_iff. unfold estart, eend. cbn [off el]. lia. }
    split; [reflexivity|].
    destruct (Nat.ltb_spec x o); [lia|]. destruct (Nat.ltb_spec (o + glen (Tok k t)) x); [lia|]. reflexivity.
  - rewrite Forall_forall in IH. unfold tao_ok. rewrite touching_node, touching_filter.
    unfold token_at_offset. cbn [el off ups tao]. rewrite tao_go.
    destruct (Nat.ltb_spec x o); [lia|]. destruct (Nat.ltb_spec (o + glen (Node k cs)) x); [lia|].
    destruct (Nat.eqb_spec (glen (Node k cs)) 0); [lia|]. cbn [orb].
    destruct (kids_covers_shape (Node k cs) o us 0 o cs x)
      as [(c & -> & H1 & H2 & H3 & H4 & H5)|(c & d & -> & H1 & H2 & H3 & H4 & H5 & H6 & H7)];
      [rewrite glen_node in Hx; lia|now rewrite glen_node in Hp| |].
    + cbn [map concat]. rewrite app_nil_r.
      destruct (IH _ H3 (off c) (ups c) x) as [(t & E1 & E2)|(l & r & E1 & E2 & E3 & E4 & E5)];
        [unfold estart, eend in *; lia|unfold estart, eend in *; lia| |].
      * left. exists t. destruct c as [cg co cu]. cbn [el off ups] in *. split; [exact E1|rewrite E2; reflexivity].
      * right. exists l, r. destruct c as [cg co cu]. cbn [el off ups] in *. rewrite E2. repeat split; auto.
        -- destruct (Nat.eq_dec x o) as [->|]; [|unfold estart in *; cbn in *; lia].
           specialize (H4 eq_refl). lia.
        -- unfold eend at 1. cbn [el off]. rewrite glen_node.
           destruct (Nat.eq_dec x (o + glens cs)) as [Hx2|]; [|rewrite glen_node in Hx; lia].
           specialize (H5 Hx2). lia.
    + cbn [map concat]. rewrite app_nil_r.
      destruct (IH _ H5 (off c) (ups c) x) as [(t & E1 & E2)|(l & r & E1 & E2 & E3 & E4 & E5)];
        [unfold estart, eend in *; lia|unfold estart, eend in *; lia| |destruct c as [cg co cu]; cbn [el off ups] in *; lia].
      destruct (IH _ H6 (off d) (ups d) x) as [(t' & F1 & F2)|(l & r & F1 & F2 & F3 & F4 & F5)];
        [unfold estart, eend in *; lia|unfold estart, eend in *; lia| |destruct d as [dg do_ du]; cbn [el off ups] in *; lia].
      right. exists t, t'.
      assert (Ht : In t (touching c x)) by (destruct c as [cg co cu]; cbn [el off ups] in E1; rewrite E1; now left).
      assert (Ht' : In t' (touching d x)) by (destruct d as [dg do_ du]; cbn [el off ups] in F1; rewrite F1; now left).
      unfold touching in Ht, Ht'. apply filter_In in Ht as [Ht Tt]. apply filter_In in Ht' as [Ht' Tt'].
      apply desc_spec in Ht. apply desc_spec in Ht'. apply Desc_range in Ht. apply Desc_range in Ht'.
      apply andb_prop in Tt as [_ Tt]. apply andb_prop in Tt' as [_ Tt']. apply covers_iff in Tt, Tt'.
      destruct c as [cg co cu], d as [dg do_ du]. cbn [el off ups] in *. unfold token_at_offset in *. cbn [el off ups] in *.
      rewrite E1, E2, F1, F2. repeat split; try reflexivity; try lia.
      all: unfold estart, eend in *; cbn [el off] in *; rewrite ?glen_node; lia.
Qed.

Lemma touching_empty g o us x : glen g = 0 -> touching (mk_elem g o us) x = [].
Proof.
  intros H. apply touching_not_covers. destruct covers eqn:E; [|reflexivity].
  apply covers_iff in E. unfold estart, eend in E. cbn in E. lia.
Qed.

(** The tokens returned are tokens of the tree. *)
Lemma touching_spec e x t :
  In t (touching e x) <-> Desc e t /\ is_node t = false /\ estart t < eend t /\ estart t <= x <= eend t.
Proof.
  unfold touching. rewrite filter_In, desc_spec. unfold touches. rewrite andb_true_iff, negb_true_iff, covers_iff.
  tauto.
Qed.

Lemma tao_out g o us x : x < o \/ o + glen g < x -> tao g o us x = TPanic.
Proof.
  intros H. destruct g; cbn [tao].
  - destruct (Nat.ltb_spec x o); [reflexivity|]. destruct (Nat.ltb_spec (o + glen (Tok k t)) x); [reflexivity|]. lia.
  - destruct (Nat.ltb_spec x o); [reflexivity|]. destruct (Nat.ltb_spec (o + glen (Node k cs)) x); [reflexivity|]. lia.
Qed.

Lemma tao_empty_node k cs o us : glen (Node k cs) = 0 -> tao (Node k cs) o us o = TNone.
Proof.
  intros H. cbn [tao]. rewrite H. destruct (Nat.ltb_spec o o); [lia|].
  destruct (Nat.ltb_spec (o + 0) o); [lia|]. reflexivity.
Qed.

(** What [find_meaningful_token] returns, for a root node. *)
Lemma meaningful_in li tree pos t :
  find_meaningful_token li (root_of tree) pos = Ans t ->
  exists x, offset li pos = Some x /\ (InTree tree t /\ is_node t = false)
    /\ (estart t <= x <= eend t) /\ x <= glen tree.
Proof.
  unfold find_meaningful_token. destruct (offset li pos) as [x|]; cbn [aopt abind]; [|discriminate].
  destruct (Nat.le_gt_cases x (glen tree)) as [Hx|Hx].
  2:{ unfold token_at_offset. cbn [el off ups root_of]. rewrite tao_out by lia. discriminate. }
  intros H. exists x. split; [reflexivity|].
  destruct (Nat.eq_dec (glen tree) 0) as [H0|H0].
  - destruct tree as [k s|k cs].
    + unfold token_at_offset in H. cbn [root_of el off ups tao] in H.
      destruct (Nat.ltb_spec x 0); [lia|]. destruct (Nat.ltb_spec (0 + glen (Tok k s)) x); [lia|].
      cbn [orb] in H. injection H as <-. split; [split; [constructor|reflexivity]|].
      unfold estart, eend. cbn [off el]. lia.
    + assert (x = 0) as -> by lia. unfold token_at_offset in H. cbn [root_of el off ups] in H.
      rewrite tao_empty_node in H by assumption. discriminate.
  - assert (Hr : touching (root_of tree) x = [t] \/ exists u v, touching (root_of tree) x = [u; v] /\ (t = u \/ t = v)).
    { destruct (token_at_offset_ok tree 0 [] x) as [(t' & E1 & E2)|(l & r & E1 & E2 & _)]; [lia|lia| |];
        fold (root_of tree) in *; rewrite E2 in H.
      - injection H as <-. now left.
      - right. exists l, r. split; [exact E1|].
        destruct (is_trivia l || is_punc l), (is_trivia r || is_punc r); cbn in H; try discriminate;
          injection H as <-; tauto. }
    assert (Ht : In t (touching (root_of tree) x)).
    { destruct Hr as [->|(u & v & -> & [->| ->])]; cbn; tauto. }
    apply touching_spec in Ht as (H1 & H2 & H3 & H4). repeat split; auto; lia.
Qed.
