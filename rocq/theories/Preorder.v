(** Facts about the preorder listing of a tree, and which kinds of nodes
    occur below which. *)

From Coq Require Import String List NArith Bool Arith Lia.
From Verif Require Import Text Kind Green SpecParser Lexer LexerFacts Winnow Grammar Sem Lossless Total
  Bounds Lang TokForm Shape Red Unique Cursor Doc Ast.
Import ListNotations.

(** ** Depth *)

Lemma child_depth p c : In c (children_with_tokens p) -> length (ups c) = S (length (ups p)).
Proof. intros H. apply child_in in H as (l & g & r & _ & ->). reflexivity. Qed.
Lemma Desc_depth a b : Desc a b -> a = b \/ length (ups a) < length (ups b).
Proof.
  induction 1 as [|p c H IH Hc]; [now left|]. right. apply child_depth in Hc.
  destruct IH as [->|IH]; lia.
Qed.
Lemma Desc_same_depth a b e : Desc a e -> Desc b e -> length (ups a) = length (ups b) -> a = b.
Proof.
  intros Ha. revert b. induction Ha as [|p c H IH Hc]; intros b Hb Hl.
  - apply Desc_depth in Hb as [->|Hb]; [reflexivity|lia].
  - inversion Hb as [|p' c' Hb' Hc']; subst.
    + apply child_depth in Hc. apply Desc_depth in H as [->|H]; lia.
    + assert (p' = p) as -> by (apply parent_child in Hc, Hc'; congruence).
      now apply IH.
Qed.
Lemma Desc_antisym a b : Desc a b -> Desc b a -> a = b.
Proof.
  intros H1 H2. apply Desc_depth in H1 as [->|H1]; [reflexivity|].
  apply Desc_depth in H2 as [->|H2]; [reflexivity|lia].
Qed.
Lemma Desc_total a b e : Desc a e -> Desc b e -> Desc a b \/ Desc b a.
Proof.
  intros Ha. revert b. induction Ha as [|p c H IH Hc]; intros b Hb; [now right|].
  inversion Hb as [|p' c' Hb' Hc']; subst.
  - left. econstructor; eauto.
  - assert (p' = p) as -> by (apply parent_child in Hc, Hc'; congruence). now apply IH.
Qed.

(** ** No repetition *)

Lemma NoDup_app_r {A} (a b : list A) : NoDup (a ++ b) -> NoDup b.
Proof. induction a as [|x a IH]; [auto|]. cbn. intros H. inversion H; auto. Qed.


Lemma desc_nodup g : forall o us, NoDup (desc g o us).
Proof.
  induction g as [k t|k cs IH] using green_ind'; intros o us.
  - cbn. constructor; [intros []|constructor].
  - cbn [desc]. rewrite desc_kids. constructor.
    + intros H. apply in_concat in H as (l & Hl & Hin). apply in_map_iff in Hl as (c & <- & Hc).
      apply desc_spec, Desc_depth in Hin.
      change (kids (Node k cs) o us 0 o cs) with (children_with_tokens (mk_elem (Node k cs) o us)) in Hc.
      apply child_depth in Hc. destruct Hin as [E|Hin]; [subst c|]; cbn in *; lia.
    + rewrite Forall_forall in IH.
      enough (Hall : forall l, incl l cs -> forall i o', NoDup (concat (map descendants_with_tokens (kids (Node k cs) o us i o' l))))
        by (apply Hall, incl_refl).
      induction l as [|c l IHl]; intros Hcs i o'; cbn [kids map concat]; [constructor|].
      assert (Hd : forall a b : list elem, NoDup a -> NoDup b -> (forall x, In x a -> ~ In x b) -> NoDup (a ++ b)).
      { clear. induction a as [|x a IHa]; intros b Ha Hb Hx; [exact Hb|]. cbn. inversion Ha; subst. constructor.
        - rewrite in_app_iff. intros [H|H]; [auto|]. apply (Hx x); [now left|exact H].
        - apply IHa; auto. intros y Hy. apply Hx. now right. }
      apply Hd.
      * apply IH. apply Hcs. now left.
      * apply IHl. intros x Hx. apply Hcs. now right.
      * intros x Hx Hr. apply in_concat in Hr as (l' & Hl' & Hr). apply in_map_iff in Hl' as (d & <- & Hdin).
        apply desc_spec in Hx, Hr.
        apply kids_in in Hdin as (lx & gx & rx & _ & ->).
        assert (E := Desc_same_depth _ _ _ Hx Hr eq_refl). injection E as _ _ E. lia.
Qed.
Lemma descendants_nodup e : NoDup (descendants e).
Proof. apply NoDup_filter. apply desc_nodup. Qed.

(** ** Subtrees are contiguous *)

Lemma preorder_split a m : Desc a m ->
  exists pre post, descendants_with_tokens a = pre ++ descendants_with_tokens m ++ post.
Proof.
  induction 1 as [|p c H (pre & post & IH) Hc].
  - exists [], []. now rewrite app_nil_r.
  - assert (exists l r, descendants_with_tokens p = l ++ descendants_with_tokens c ++ r) as (l & r & E).
    { unfold children_with_tokens in Hc. destruct p as [g o us]. cbn [el off ups] in Hc.
      destruct g as [k t|k cs]; [destruct Hc|]. cbn [gchildren] in Hc.
      rewrite descendants_node. apply in_split in Hc as (l & r & ->).
      exists (mk_elem (Node k cs) o us :: concat (map descendants_with_tokens l)), (concat (map descendants_with_tokens r)).
      rewrite map_app, concat_app. cbn [map concat]. reflexivity. }
    rewrite IH, E. exists (pre ++ l), (r ++ post). now rewrite <- !app_assoc.
Qed.

Lemma nodes_split a m : Desc a m -> is_node m = true ->
  exists pre post, descendants a = pre ++ descendants m ++ post
    /\ (forall x, In x pre -> ~ Desc m x) /\ (forall x, In x post -> ~ Desc m x).
Proof.
  intros Hd Hm. destruct (preorder_split _ _ Hd) as (pre & post & E).
  exists (filter is_node pre), (filter is_node post). unfold descendants.
  rewrite E, !filter_app. split; [reflexivity|].
  assert (Hn : NoDup (pre ++ descendants_with_tokens m ++ post)) by (rewrite <- E; apply desc_nodup).
  assert (Hdis : forall (A : Type) (a b c : list A) x, NoDup (a ++ b ++ c) -> In x b -> ~ In x a /\ ~ In x c).
  { clear. intros A a b c x H Hx. split; intros Hi.
    - apply in_split in Hi as (l & r & ->). rewrite <- app_assoc in H. apply NoDup_app_r in H.
      cbn in H. inversion H; subst. apply H2. rewrite !in_app_iff. auto.
    - apply NoDup_app_r in H. apply in_split in Hx as (l & r & ->). rewrite <- app_assoc in H.
      apply NoDup_app_r in H. cbn in H. inversion H; subst. apply H2. rewrite !in_app_iff. auto. }
  split; intros x Hx Hdx; apply filter_In in Hx as [Hx _]; apply desc_spec in Hdx;
    destruct (Hdis _ _ _ _ _ Hn Hdx); contradiction.
Qed.

Lemma descendants_head e : is_node e = true ->
  exists l, descendants e = e :: l.
Proof.
  intros H. unfold descendants, descendants_with_tokens. destruct e as [g o us]. cbn [el off ups].
  destruct g as [|k cs]; [discriminate|]. cbn [desc filter]. rewrite H. eauto.
Qed.

Lemma in_descendants_of a e : In e (descendants a) <-> Desc a e /\ is_node e = true.
Proof. unfold descendants. rewrite filter_In, desc_spec. reflexivity. Qed.

(** Ancestors come first. *)
Lemma preorder_ancestor t l1 e l2 a :
  descendants t = l1 ++ e :: l2 -> Desc t a -> Desc a e -> a <> e -> is_node a = true -> In a l1.
Proof.
  intros E Ht Hd Hne Hn.
  destruct (nodes_split _ _ Ht Hn) as (pre & post & E2 & _ & _).
  destruct (descendants_head a Hn) as (l & El). rewrite El in E2.
  assert (Hee : In e (descendants t)) by (rewrite E; apply in_elt).
  assert (He : In e l).
  { assert (In e (descendants a)).
    { apply in_descendants_of. split; [exact Hd|]. now apply in_descendants_of in Hee. }
    rewrite El in H. destruct H as [H|H]; [congruence|exact H]. }
  apply in_split in He as (x & y & ->).
  assert (Hnd : NoDup (descendants t)) by apply descendants_nodup.
  rewrite E in E2. rewrite E in Hnd.
  assert (E3 : l1 ++ e :: l2 = (pre ++ a :: x) ++ e :: (y ++ post)).
  { rewrite E2. cbn. rewrite <- !app_assoc. cbn. reflexivity. }
  assert (l1 = pre ++ a :: x) as ->.
  { revert E3 Hnd. generalize (pre ++ a :: x) (y ++ post). clear. induction l1 as [|z l1 IH]; intros l q H Hn.
    - destruct l as [|w l]; [reflexivity|]. cbn in H. injection H as <- H. inversion Hn; subst.
      exfalso. apply H2. apply in_elt.
    - destruct l as [|w l]; cbn in H; injection H as -> H.
      + inversion Hn; subst. exfalso. apply H2. apply in_elt.
      + f_equal. eapply IH; [exact H|]. now inversion Hn. }
  apply in_elt.
Qed.

(** ** Kinds of children *)

Definition edges : list (kind * kind) :=
  Eval vm_compute in
    (ROOT, MODULE)
    :: flat_map (fun r => map (pair (fst r)) (dkinds (snd r))) all_rules.
Definition parents_of (k : kind) : list kind :=
  map fst (filter (fun e => kind_eqb (snd e) k) edges).
Definition children_of (k : kind) : list kind :=
  map snd (filter (fun e => kind_eqb (fst e) k) edges).

Section Doc.
  Variable src : text.
  Notation tree := (tree_of src).

  Lemma child_edge p c : InTree tree p -> In c (children p) -> In (ekind p, ekind c) edges.
  Proof.
    intros Hp Hc. apply in_children in Hc as [Hc Hn].
    pose proof (Desc_Sub _ _ Hp) as Hs. cbn [root_of el] in Hs.
    apply child_in in Hc as (l & g & r & Heq & ->). unfold ekind. cbn [el].
    destruct g as [k t|k cs']; [discriminate|]. clear Hn.
    destruct (el p) as [kp t|kp cs]; [destruct l; discriminate|]. cbn [gchildren] in Heq. cbn [gkind].
    assert (Hin : In (Node k cs') cs) by (rewrite Heq; apply in_elt).
    destruct (parse_rules _ _ _ _ _ _ (parse_of src) Hs) as [[-> Ht]|(a & Ha & HL)].
    - destruct (parse_lang _ _ _ _ (parse_of src)) as (o1 & o2 & Ht2 & HL & _ & Hf).
      rewrite Ht in Ht2. injection Ht2 as ->. apply in_app_or in Hin as [Hin|Hin].
      + apply (Lang_dkinds _ _ _ _ _ _ ib_dkinds HL) in Hin. destruct Hin as [<-|[]]. now left.
      + rewrite Forall_forall in Hf. destruct (Hf _ Hin) as [[]|[]].
    - apply (Lang_dkinds _ _ _ _ _ _ ib_dkinds HL) in Hin.
      assert (Hx : In (kp, k) (flat_map (fun r => map (pair (fst r)) (dkinds (snd r))) all_rules)).
      { apply in_flat_map. exists (kp, a). split; [exact Ha|]. cbn [fst snd]. now apply in_map. }
      assert (E : edges = (ROOT, MODULE) :: flat_map (fun r => map (pair (fst r)) (dkinds (snd r))) all_rules)
        by (vm_compute; reflexivity).
      rewrite E. now right.
  Qed.

  Lemma parent_kind p c : InTree tree p -> In c (children p) -> In (ekind p) (parents_of (ekind c)).
  Proof.
    intros Hp Hc. apply child_edge in Hc; [|exact Hp]. unfold parents_of.
    apply in_map_iff. eexists. split; [|apply filter_In; split; [exact Hc|]]; [reflexivity|].
    cbn. now apply kind_eqb_eq.
  Qed.
  Lemma child_kind p c : InTree tree p -> In c (children p) -> In (ekind c) (children_of (ekind p)).
  Proof.
    intros Hp Hc. apply child_edge in Hc; [|exact Hp]. unfold children_of.
    apply in_map_iff. eexists. split; [|apply filter_In; split; [exact Hc|]]; [reflexivity|].
    cbn. now apply kind_eqb_eq.
  Qed.

  (** A node other than the root has a parent in the tree. *)
  Lemma parent_ex e : InTree tree e -> is_node e = true ->
    e = root_of tree \/ exists p, InTree tree p /\ is_node p = true /\ In e (children p) /\ parent e = Some p.
  Proof.
    intros H Hn. inversion H as [|p c Hp Hc]; subst; [now left|]. right. exists p.
    split; [exact Hp|]. split; [|split; [now apply in_children|now apply parent_child]].
    unfold is_node. unfold children_with_tokens in Hc. destruct (el p); [destruct Hc|reflexivity].
  Qed.

  (** Only the then branch of an [if] can be empty. *)
  Lemma nek_rules : forallb (fun r => nek (snd r) || kind_eqb (fst r) BLOCK_IF_THEN) all_rules = true.
  Proof. vm_compute. reflexivity. Qed.
  Lemma node_nonempty e : InTree tree e -> is_node e = true ->
    ekind e <> ROOT -> ekind e <> BLOCK_IF_THEN -> estart e < eend e.
  Proof.
    intros H Hn Hr Ht. pose proof (Desc_Sub _ _ H) as Hs. cbn [root_of el] in Hs.
    unfold ekind, is_node, estart, eend in *. destruct (el e) as [k t|k cs]; [discriminate|]. cbn [gkind] in *.
    destruct (parse_rules _ _ _ _ _ _ (parse_of src) Hs) as [[-> _]|(a & Ha & HL)]; [congruence|].
    pose proof nek_rules as Hk. rewrite forallb_forall in Hk. apply Hk in Ha as Hk2. cbn [fst snd] in Hk2.
    apply orb_prop in Hk2 as [Hk2|Hk2]; [|apply kind_eqb_eq in Hk2; congruence].
    pose proof (Lang_nek _ _ _ _ instr_body_wf_tok ib_nek HL (all_rules_wf _ _ Ha) Hk2).
    rewrite glen_node. lia.
  Qed.

  (** Keys identify nodes. *)
  Lemma key_inj a b : InTree tree a -> InTree tree b -> is_node a = true -> is_node b = true ->
    key_of a = key_of b -> a = b.
  Proof.
    intros Ha Hb Na Nb E. injection E as E1 E2 E3. unfold estart, eend in *.
    eapply (node_unique _ _ _ _ (parse_of src)); eauto. lia.
  Qed.

  Lemma to_node_ok e : InTree tree e -> is_node e = true ->
    ekind e <> ROOT -> ekind e <> BLOCK_IF_THEN -> to_node tree (key_of e) = Some e.
  Proof.
    intros H Hn Hr Ht. unfold to_node. apply to_node_from_ok; auto.
    - now apply node_nonempty.
    - intros b Hb Hbn E. now apply key_inj.
  Qed.
End Doc.
