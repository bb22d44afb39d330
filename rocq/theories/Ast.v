(** Helpers over red trees: rowan [ast::support], [SyntaxNodePtr]
    (rowan 0.15.16), as used by crates/syntax/src/ast and crates/service. *)

From Coq Require Import String List NArith Bool Arith Lia.
From Verif Require Import Text Kind Green Red.
Import ListNotations.

(** [support::token(node, kind)]. *)
Definition token (e : elem) (k : kind) : option elem :=
  find (fun c => negb (is_node c) && kind_eqb (ekind c) k) (children_with_tokens e).
(** [support::child::<N>(node)] and [support::children::<N>(node)], for an AST
    type [N] that casts from one kind. *)
Definition child (e : elem) (k : kind) : option elem :=
  find (fun c => kind_eqb (ekind c) k) (children e).
Definition childs (e : elem) (k : kind) : list elem :=
  filter (fun c => kind_eqb (ekind c) k) (children e).
(** [node.children_with_tokens().filter_map(into_token)]. *)
Definition tokens (e : elem) : list elem :=
  filter (fun c => negb (is_node c)) (children_with_tokens e).

(** [SyntaxNodePtr]: kind and range; [SymbolItemKey]
    (crates/service/src/binder.rs:585-595). *)
Record key : Type := mk_key { key_kind : kind; key_start : nat; key_end : nat }.
Definition key_of (e : elem) : key := mk_key (ekind e) (estart e) (eend e).
Definition key_eqb (a b : key) : bool :=
  kind_eqb (key_kind a) (key_kind b) && Nat.eqb (key_start a) (key_start b)
  && Nat.eqb (key_end a) (key_end b).
Lemma key_eqb_eq a b : key_eqb a b = true <-> a = b.
Proof.
  unfold key_eqb. rewrite !andb_true_iff, kind_eqb_eq, !Nat.eqb_eq.
  destruct a, b. cbn. split; [intros [[-> ->] ->]; reflexivity|]. intros H. injection H as -> -> ->. auto.
Qed.
Lemma key_eqb_refl a : key_eqb a a = true.
Proof. now apply key_eqb_eq. Qed.
Lemma key_eqb_neq a b : key_eqb a b = false <-> a <> b.
Proof. rewrite <- key_eqb_eq. destruct (key_eqb a b); split; congruence. Qed.

(** [GreenNode::child_at_range] for a range given by absolute offsets, on the
    children from [i], at offset [o']: the child compared equal by
    [TextRange::ordering], i.e. overlapping the range; otherwise the last child
    ending at or before the start of the range ([saturating_sub(1)]: the
    first child if there is none).  The library uses binary search; children
    are sorted.  Then the child is kept if it contains the range. *)
Fixpoint pick (a b : nat) (best : option elem) (l : list elem) : option elem :=
  match l with
  | [] => best
  | c :: r =>
      if Nat.leb (eend c) a then pick a b (Some c) r            (* Less *)
      else if Nat.leb b (estart c)                              (* Greater *)
      then match best with Some c' => Some c' | None => Some c end
      else Some c                                               (* Equal *)
  end.
Definition child_at_range (e : elem) (a b : nat) : option elem :=
  match pick a b None (children_with_tokens e) with
  | Some c => if Nat.leb (estart c) a && Nat.leb b (eend c) then Some c else None
  | None => None
  end.

(** [SyntaxNodePtr::to_node] (rowan ast.rs, [try_to_node]): walk down from
    the root through the child at the range until kind and range agree.  [None]
    is a panic.  The walk strictly descends, so it takes at most as many steps
    as the tree is deep. *)
Fixpoint gdepth (g : green) : nat :=
  match g with
  | Tok _ _ => 0
  | Node _ cs => S (list_max (map gdepth cs))
  end.
Fixpoint to_node_from (n : nat) (e : elem) (k : key) : option elem :=
  if key_eqb (key_of e) k then Some e
  else
    match n with
    | 0 => None
    | S n' =>
        match child_at_range e (key_start k) (key_end k) with
        | Some c => if is_node c then to_node_from n' c k else None
        | None => None
        end
    end.
Definition to_node (tree : green) (k : key) : option elem :=
  to_node_from (gdepth tree) (root_of tree) k.

(** ** Facts *)

Lemma token_some e k t : token e k = Some t ->
  In t (children_with_tokens e) /\ is_node t = false /\ ekind t = k.
Proof.
  unfold token. intros H. apply find_some in H as [H1 H2]. apply andb_prop in H2 as [H2 H3].
  apply negb_true_iff in H2. apply kind_eqb_eq in H3. auto.
Qed.
Lemma in_children e c : In c (children e) <-> In c (children_with_tokens e) /\ is_node c = true.
Proof. unfold children. apply filter_In. Qed.
Lemma child_some e k c : child e k = Some c -> In c (children e) /\ ekind c = k.
Proof.
  unfold child. intros H. apply find_some in H as [H1 H2]. apply kind_eqb_eq in H2. auto.
Qed.
Lemma in_childs e k c : In c (childs e k) <-> In c (children e) /\ ekind c = k.
Proof. unfold childs. rewrite filter_In, kind_eqb_eq. reflexivity. Qed.

Lemma pick_found l : forall a b best c p q o us i,
  a < b -> kids p o us i q l <> [] -> In c (kids p o us i q l) ->
  estart c <= a -> b <= eend c -> pick a b best (kids p o us i q l) = Some c.
Proof.
  induction l as [|g l IH]; intros a b best c p q o us i Hab Hn Hin Hs He; [now destruct Hn|].
  cbn [kids pick In] in *.
  destruct Hin as [<-|Hin].
  - destruct (Nat.leb_spec (eend (mk_elem g q (mk_up p o i :: us))) a); [lia|].
    destruct (Nat.leb_spec b (estart (mk_elem g q (mk_up p o i :: us)))); [lia|]. reflexivity.
  - assert (Hq : q + glen g <= estart c).
    { apply kids_in in Hin as (x & y & z & -> & ->). unfold estart. cbn. lia. }
    unfold eend at 1. cbn [el off]. destruct (Nat.leb_spec (q + glen g) a); [|lia].
    apply IH; auto. intros E. rewrite E in Hin. destruct Hin.
Qed.

Lemma child_at_range_found p c a b :
  In c (children_with_tokens p) -> a < b -> estart c <= a -> b <= eend c ->
  child_at_range p a b = Some c.
Proof.
  intros Hc Hab Hs He. unfold child_at_range, children_with_tokens in *.
  erewrite pick_found; [|exact Hab| |exact Hc|exact Hs|exact He].
  - destruct (Nat.leb_spec (estart c) a); [|lia]. destruct (Nat.leb_spec b (eend c)); [|lia]. reflexivity.
  - intros E. rewrite E in Hc. destruct Hc.
Qed.

Lemma list_max_in l x : In x l -> x <= list_max l.
Proof. intros H. pose proof (proj1 (list_max_le l (list_max l)) (le_n _)) as Hf. rewrite Forall_forall in Hf. auto. Qed.

Lemma to_node_from_ok a e n :
  Desc a e -> is_node e = true -> estart e < eend e ->
  (forall b, Desc a b -> is_node b = true -> key_of b = key_of e -> b = e) ->
  gdepth (el a) <= n -> to_node_from n a (key_of e) = Some e.
Proof.
  intros Hd Hn Hne. revert a Hd. induction n as [|n IH]; intros a Hd Hu Hg; cbn [to_node_from].
  - destruct (key_eqb (key_of a) (key_of e)) eqn:E.
    + apply key_eqb_eq in E. f_equal. apply Hu; [constructor| |exact E].
      apply Desc_top in Hd as [->|(c & Hc & _)]; [exact Hn|].
      unfold is_node. destruct (el a) eqn:Ea; [|reflexivity].
      unfold children_with_tokens in Hc. rewrite Ea in Hc. destruct Hc.
    + exfalso. apply Desc_top in Hd as [->|(c & Hc & _)]; [now rewrite key_eqb_refl in E|].
      unfold children_with_tokens in Hc. destruct (el a) eqn:Ea; [destruct Hc|cbn in Hg; lia].
  - destruct (key_eqb (key_of a) (key_of e)) eqn:E.
    + apply key_eqb_eq in E. f_equal. apply Hu; [constructor| |exact E].
      apply Desc_top in Hd as [->|(c & Hc & _)]; [exact Hn|].
      unfold is_node. destruct (el a) eqn:Ea; [|reflexivity].
      unfold children_with_tokens in Hc. rewrite Ea in Hc. destruct Hc.
    + apply Desc_top in Hd as [->|(c & Hc & Hce)]; [now rewrite key_eqb_refl in E|].
      pose proof (Desc_range _ _ Hce) as [Hr1 Hr2].
      cbn [key_of key_start key_end].
      rewrite (child_at_range_found a c) by (assumption || lia).
      assert (is_node c = true) as ->.
      { apply Desc_top in Hce as [->|(d & Hd & _)]; [exact Hn|].
        unfold is_node. destruct (el c) eqn:Ec; [|reflexivity].
        unfold children_with_tokens in Hd. rewrite Ec in Hd. destruct Hd. }
      apply IH; [exact Hce| |].
      * intros b Hb. apply Hu. apply Desc_trans with c; [|exact Hb]. econstructor; [constructor|exact Hc].
      * apply child_in in Hc as (l & g & r & Heq & ->). cbn [el].
        destruct (el a) as [k t|k cs]; [destruct l; discriminate|]. cbn in Heq. subst cs. cbn [gdepth] in Hg.
        assert (gdepth g <= list_max (map gdepth (l ++ g :: r))).
        { apply list_max_in. apply in_map, in_elt. }
        lia.
Qed.
