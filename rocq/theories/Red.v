(** Red trees: rowan's [SyntaxNode] and [SyntaxToken] (rowan 0.15.16,
    re-exported by crates/syntax/src/lib.rs:9-41).

    rowan keeps, for every visited element, a pointer to its green element,
    its absolute offset, and its parent.  An element is modelled by the green
    element, the offset, and the chain of its ancestors with the index of the
    child taken in each. *)

From Coq Require Import String List NArith Bool Arith Lia.
From Verif Require Import Text Kind Green SpecParser.
Import ListNotations.

Record up : Type := mk_up { u_green : green; u_off : nat; u_idx : nat }.
Record elem : Type := mk_elem { el : green; off : nat; ups : list up }.

Definition is_node (e : elem) : bool := match el e with Node _ _ => true | Tok _ _ => false end.
(** [kind()], [text_range().start()/end()], [text()]. *)
Definition ekind (e : elem) : kind := gkind (el e).
Definition estart (e : elem) : nat := off e.
Definition eend (e : elem) : nat := off e + glen (el e).
Definition etext (e : elem) : text := gtext (el e).

(** [SyntaxNode::new_root]. *)
Definition root_of (tree : green) : elem := mk_elem tree 0 [].

(** [parent()]. *)
Definition parent (e : elem) : option elem :=
  match ups e with
  | [] => None
  | u :: r => Some (mk_elem (u_green u) (u_off u) r)
  end.

Fixpoint kids (p : green) (po : nat) (us : list up) (i o : nat) (cs : list green) : list elem :=
  match cs with
  | [] => []
  | c :: r => mk_elem c o (mk_up p po i :: us) :: kids p po us (S i) (o + glen c) r
  end.

Definition gchildren (g : green) : list green :=
  match g with Node _ cs => cs | Tok _ _ => [] end.

(** [children_with_tokens()]. *)
Definition children_with_tokens (e : elem) : list elem :=
  kids (el e) (off e) (ups e) 0 (off e) (gchildren (el e)).
(** [children()]. *)
Definition children (e : elem) : list elem := filter is_node (children_with_tokens e).

(** [ancestors()]: the node itself first. *)
Fixpoint ancestors_of (us : list up) : list elem :=
  match us with
  | [] => []
  | u :: r => mk_elem (u_green u) (u_off u) r :: ancestors_of r
  end.
Definition ancestors (e : elem) : list elem := e :: ancestors_of (ups e).

(** [descendants_with_tokens()], in preorder, the element itself first. *)
Fixpoint desc (g : green) (o : nat) (us : list up) : list elem :=
  mk_elem g o us ::
  match g with
  | Tok _ _ => []
  | Node _ cs =>
      (fix go (i o' : nat) (l : list green) : list elem :=
         match l with
         | [] => []
         | c :: r => desc c o' (mk_up g o i :: us) ++ go (S i) (o' + glen c) r
         end) 0 o cs
  end.
Definition descendants_with_tokens (e : elem) : list elem := desc (el e) (off e) (ups e).
(** [descendants()]. *)
Definition descendants (e : elem) : list elem := filter is_node (descendants_with_tokens e).

(** ** Elements of a tree *)

Inductive Desc (a : elem) : elem -> Prop :=
| Desc_refl : Desc a a
| Desc_step p c : Desc a p -> In c (children_with_tokens p) -> Desc a c.

Definition InTree (tree : green) (e : elem) : Prop := Desc (root_of tree) e.

Lemma kids_in p po us i o cs c :
  In c (kids p po us i o cs) <->
  exists l g r, cs = l ++ g :: r /\ c = mk_elem g (o + glens l) (mk_up p po (i + length l) :: us).
Proof.
  revert i o. induction cs as [|x cs IH]; intros i o; cbn [kids In].
  - split; [intros []|]. intros (l & g & r & H & _). destruct l; discriminate.
  - rewrite IH. split.
    + intros [<-|(l & g & r & -> & ->)].
      * exists [], x, cs. split; [reflexivity|]. f_equal; [unfold glens; simpl; lia|].
        do 2 f_equal. simpl. lia.
      * exists (x :: l), g, r. split; [reflexivity|]. f_equal; [unfold glens; simpl; lia|].
        do 2 f_equal. simpl. lia.
    + intros (l & g & r & Heq & ->). destruct l as [|y l]; injection Heq as -> ->.
      * left. f_equal; [unfold glens; simpl; lia|]. do 2 f_equal. simpl. lia.
      * right. exists l, g, r. split; [reflexivity|]. f_equal; [unfold glens; simpl; lia|].
        do 2 f_equal. simpl. lia.
Qed.

Lemma child_in p c :
  In c (children_with_tokens p) <->
  exists l g r, gchildren (el p) = l ++ g :: r
    /\ c = mk_elem g (off p + glens l) (mk_up (el p) (off p) (length l) :: ups p).
Proof. unfold children_with_tokens. rewrite kids_in. simpl. reflexivity. Qed.

Lemma parent_child p c : In c (children_with_tokens p) -> parent c = Some p.
Proof. intros H. apply child_in in H as (l & g & r & _ & ->). destruct p. reflexivity. Qed.

Lemma ancestors_child p c : In c (children_with_tokens p) -> ancestors c = c :: ancestors p.
Proof. intros H. apply child_in in H as (l & g & r & _ & ->). destruct p. reflexivity. Qed.

Lemma Desc_trans a b c : Desc a b -> Desc b c -> Desc a c.
Proof. intros H1. induction 1; [exact H1|]. econstructor; eauto. Qed.

Lemma Desc_top a b : Desc a b -> a = b \/ exists c, In c (children_with_tokens a) /\ Desc c b.
Proof.
  induction 1 as [|p c H IH Hc]; [now left|]. right. destruct IH as [->|(d & Hd & H2)].
  - exists c. split; [exact Hc|constructor].
  - exists d. split; [exact Hd|]. econstructor; eauto.
Qed.

(** Ancestors of an element of a tree are the elements above it. *)
Lemma Desc_ancestors a b : Desc a b -> In a (ancestors b).
Proof.
  induction 1 as [|p c H IH Hc].
  - now left.
  - rewrite (ancestors_child _ _ Hc). now right.
Qed.
Lemma ancestors_Desc tree a b : InTree tree b -> In a (ancestors b) -> InTree tree a /\ Desc a b.
Proof.
  intros Hb. revert a. induction Hb as [|p c H IH Hc]; intros a Ha.
  - destruct Ha as [<-|[]]. split; constructor.
  - rewrite (ancestors_child _ _ Hc) in Ha. destruct Ha as [<-|Ha].
    + split; [econstructor; eauto|constructor].
    + destruct (IH a Ha) as [H1 H2]. split; [exact H1|]. econstructor; eauto.
Qed.

(** [desc] lists exactly the descendants. *)
Lemma desc_go_in g o us i o' l e :
  In e ((fix go (i o' : nat) (l : list green) : list elem :=
         match l with
         | [] => []
         | c :: r => desc c o' (mk_up g o i :: us) ++ go (S i) (o' + glen c) r
         end) i o' l)
  <-> exists c, In c (kids g o us i o' l) /\ In e (desc (el c) (off c) (ups c)).
Proof.
  revert i o'. induction l as [|x l IH]; intros i o'; cbn [kids].
  - split; [intros []|intros (c & [] & _)].
  - rewrite in_app_iff, IH. split.
    + intros [H|(c & H1 & H2)].
      * eexists. split; [left; reflexivity|exact H].
      * exists c. split; [now right|exact H2].
    + intros (c & [<-|H1] & H2); [now left|]. right. eauto.
Qed.
Lemma desc_spec a e : In e (descendants_with_tokens a) <-> Desc a e.
Proof.
  unfold descendants_with_tokens. destruct a as [g o us]. simpl. revert o us e.
  induction g as [k t|k cs IH] using green_ind'; intros o us e.
  - simpl. split.
    + intros [<-|[]]. constructor.
    + intros H. apply Desc_top in H as [H|(c & Hc & _)]; [now left|destruct Hc].
  - cbn [desc In]. rewrite desc_go_in. split.
    + intros [<-|(c & Hc & He)]; [constructor|].
      change (kids (Node k cs) o us 0 o cs) with (children_with_tokens (mk_elem (Node k cs) o us)) in Hc.
      apply Desc_trans with c; [econstructor; [constructor|exact Hc]|].
      pose proof Hc as Hc2. apply child_in in Hc2 as (l & g & r & Heq & ->). simpl in Heq, He.
      rewrite Forall_forall in IH. apply (IH g) in He; [exact He|]. rewrite Heq. apply in_elt.
    + intros H. apply Desc_top in H as [H|(c & Hc & Hd)]; [now left|]. right.
      exists c. split; [exact Hc|].
      apply child_in in Hc as (l & g & r & Heq & ->). simpl in *.
      rewrite Forall_forall in IH. apply IH; [rewrite Heq; apply in_elt|exact Hd].
Qed.

Lemma in_descendants tree e :
  In e (descendants (root_of tree)) <-> InTree tree e /\ is_node e = true.
Proof. unfold descendants. rewrite filter_In, desc_spec. reflexivity. Qed.

(** Green and red subtrees. *)
Lemma Desc_Sub a b : Desc a b -> Sub (el a) (el b).
Proof.
  assert (Htr : forall x y z, Sub x y -> Sub y z -> Sub x z).
  { induction 1; intros Hz; [exact Hz|]. econstructor; eauto. }
  induction 1 as [|p c H IH Hc]; [constructor|].
  apply (Htr _ _ _ IH). apply child_in in Hc as (l & g & r & Heq & ->). simpl.
  destruct (el p); simpl in Heq; [destruct l; discriminate|]. subst.
  econstructor; [|constructor]. apply in_elt.
Qed.
Lemma Sub_Desc g : forall h o us, Sub g h -> exists b, Desc (mk_elem g o us) b /\ el b = h.
Proof.
  intros h o us H. revert o us. induction H; intros o us.
  - exists (mk_elem g o us). split; [constructor|reflexivity].
  - apply in_split in H as (l & r & ->).
    set (p := mk_elem (Node k (l ++ c :: r)) o us).
    set (d := mk_elem c (o + glens l) (mk_up (el p) o (length l) :: us)).
    assert (Hd : In d (children_with_tokens p)) by (apply child_in; exists l, c, r; auto).
    destruct (IHSub (off d) (ups d)) as (b & Hb & He). exists b. split; [|exact He].
    apply Desc_trans with d; [econstructor; [constructor|exact Hd]|]. exact Hb.
Qed.

(** Ranges. *)
Lemma glens_cons g l : glens (g :: l) = glen g + glens l.
Proof. reflexivity. Qed.
Lemma glen_node k cs : glen (Node k cs) = glens cs.
Proof. reflexivity. Qed.
Lemma glen_children g : is_node (mk_elem g 0 []) = true -> glen g = glens (gchildren g).
Proof. destruct g; [discriminate|reflexivity]. Qed.
Lemma gchildren_glens g : glens (gchildren g) <= glen g.
Proof. destruct g; [apply Nat.le_0_l|apply le_n]. Qed.

Lemma child_range p c : In c (children_with_tokens p) -> estart p <= estart c /\ eend c <= eend p.
Proof.
  intros H. apply child_in in H as (l & g & r & Heq & ->). unfold estart, eend. simpl.
  pose proof (gchildren_glens (el p)) as Hg. rewrite Heq, glens_app, glens_cons in Hg. lia.
Qed.
Lemma Desc_range a b : Desc a b -> estart a <= estart b /\ eend b <= eend a.
Proof.
  induction 1 as [|p c H IH Hc]; [lia|]. apply child_range in Hc. lia.
Qed.

(** Two elements: one above the other, or separated by two siblings. *)
Lemma Desc_cases tree a b : InTree tree a -> InTree tree b ->
  Desc a b \/ Desc b a \/
  exists p l ga m gb r ca cb, InTree tree p /\ gchildren (el p) = l ++ ga :: m ++ gb :: r
    /\ ca = mk_elem ga (off p + glens l) (mk_up (el p) (off p) (length l) :: ups p)
    /\ cb = mk_elem gb (off p + glens (l ++ ga :: m))
              (mk_up (el p) (off p) (length (l ++ ga :: m)) :: ups p)
    /\ (Desc ca a /\ Desc cb b \/ Desc ca b /\ Desc cb a).
Proof.
  intros Ha Hb. induction Ha as [|p c Hp IH Hc]; [now left|].
  destruct IH as [H|[H|H]].
  - apply Desc_top in H as [<-|(d & Hd & Hdb)].
    + right. left. econstructor; [constructor|exact Hc].
    + pose proof Hc as Hc'. pose proof Hd as Hd'.
      apply child_in in Hc' as (l & g & r & Heq & Ec).
      apply child_in in Hd' as (l2 & g2 & r2 & Heq2 & Ed).
      assert (Hcmp : l = l2 \/ (exists m, l2 = l ++ g :: m) \/ (exists m, l = l2 ++ g2 :: m)).
      { rewrite Heq in Heq2. clear -Heq2. revert l2 Heq2.
        induction l as [|x l IHl]; intros [|y l2] H; simpl in H; [now left| | |];
          injection H as Hx H; subst; [right; left; now exists l2|right; right; now exists l|].
        destruct (IHl l2 H) as [->|[(m & ->)|(m & ->)]];
          [now left|right; left; now exists m|right; right; now exists m]. }
      destruct Hcmp as [->|[(m & ->)|(m & ->)]].
      * rewrite Heq in Heq2. apply app_inv_head in Heq2. injection Heq2 as <- <-.
        left. rewrite Ec, <- Ed. exact Hdb.
      * right. right. exists p, l, g, m, g2, r2, c, d.
        rewrite Heq2, <- app_assoc. repeat (split; [first [exact Hp|reflexivity|assumption]|]).
        left. split; [constructor|exact Hdb].
      * right. right. exists p, l2, g2, m, g, r, d, c.
        rewrite Heq, <- app_assoc. repeat (split; [first [exact Hp|reflexivity|assumption]|]).
        right. split; [exact Hdb|constructor].
  - right. left. econstructor; eauto.
  - right. right. destruct H as (q & l & ga & m & gb & r & ca & cb & Hq & Heq & Eca & Ecb & H).
    exists q, l, ga, m, gb, r, ca, cb. repeat (split; [assumption|]).
    destruct H as [[H1 H2]|[H1 H2]]; [left|right]; split; try assumption; econstructor; eauto.
Qed.
