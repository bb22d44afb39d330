(** White space in well-formed documents: where it does not occur. *)

From Coq Require Import String List NArith Bool Arith Lia.
From Verif Require Import Text Kind Green SpecParser SpecSyntax SpecFormat Format FmtLang FmtPieces FmtSteps FmtTrivia FmtRun FmtNode FmtTree FmtDoc FmtEmit FmtPlain FmtFlags
  Respace Relex FmtGap ThmReparse FmtSame FmtAlike.
From Verif Require SpecComplete.
Import ListNotations.
Local Open Scope list_scope.
Notation Reads := SpecComplete.Reads.

(** Expressions for children without parentheses of their own. *)
Fixpoint nolp (e : SpecComplete.rx) : bool :=
  match e with
  | SpecComplete.Kw _ | SpecComplete.Float _ | SpecComplete.Nd _ _ | SpecComplete.Loose _ _ | SpecComplete.Ins _ | SpecComplete.Eps => true
  | SpecComplete.Tk k => negb (kind_eqb k L_PAREN)
  | SpecComplete.Sq a b | SpecComplete.Or a b => nolp a && nolp b
  | SpecComplete.Star a => nolp a
  end.
(** Spaces belong to parenthesised branches, not to others. *)
Fixpoint okrx (e : SpecComplete.rx) : bool :=
  match e with
  | SpecComplete.Kw _ | SpecComplete.Float _ | SpecComplete.Ins _ | SpecComplete.Eps => true
  | SpecComplete.Tk k => negb (is_trivia_kind k)
  | SpecComplete.Nd k a =>
      okrx a && (negb (kind_eqb k BLOCK_IF_THEN)
                 || match a with SpecComplete.Sq (SpecComplete.Tk L_PAREN) _ => true | _ => false end)
  | SpecComplete.Loose k a => okrx a && kind_eqb k BLOCK_IF_THEN && nolp a
  | SpecComplete.Sq a b | SpecComplete.Or a b => okrx a && okrx b
  | SpecComplete.Star a => okrx a
  end.
Lemma instr_nolp i : nolp (SpecComplete.instr_rx i) = true.
Proof. destruct i; reflexivity. Qed.
Lemma instr_okrx i : okrx (SpecComplete.instr_rx i) = true.
Proof. destruct i; reflexivity. Qed.
Lemma module_okrx : okrx SpecComplete.MODULE_ = true.
Proof. vm_compute. reflexivity. Qed.

Lemma trivia_lp tr : SpecComplete.Trivia tr -> existsb (selects (STok L_PAREN)) tr = false.
Proof.
  induction 1 as [|[k t|] tr H _ IH]; [reflexivity| |contradiction]. cbn [existsb selects]. rewrite IH, orb_false_r.
  destruct k; try discriminate H; reflexivity.
Qed.
Lemma reads_nolp e l : Reads e l -> nolp e = true -> existsb (selects (STok L_PAREN)) l = false.
Proof.
  induction 1 as [s tr Ht|k t tr Ht Hk|b t tr Ht _|k e cs tr Ht _ _ _|k e cs _ _|i l _ IH| |a b l m _ IHa _ IHb|a b l _ IH|a b l _ IH|a|a l m _ IHa _ IHb];
    cbn [nolp]; intros H; rewrite ?existsb_app, ?(trivia_lp tr Ht); try reflexivity.
  - cbn [existsb selects orb]. destruct k; try discriminate H; reflexivity.
  - apply IH. apply instr_nolp.
  - apply andb_prop in H as [H1 H2]. now rewrite IHa, IHb.
  - apply andb_prop in H as [H1 H2]. auto.
  - apply andb_prop in H as [H1 H2]. auto.
  - now rewrite IHa, IHb.
Qed.

(** White space is not followed by a branch without parentheses. *)
Definition fit (l : list green) : Prop := forall a x y b, l = a ++ x :: y :: b -> significant x = false -> loose y = false.
Definition ends (l : list green) : Prop := forall a x, l = a ++ [x] -> significant x = true.
Lemma ends_app l m : ends l -> ends m -> ends (l ++ m).
Proof.
  intros H1 H2 a x E. destruct m as [|y m] using rev_ind; [rewrite app_nil_r in E; eauto|].
  rewrite app_assoc in E. apply app_inj_tail in E as [_ ->]. eapply H2. reflexivity.
Qed.
Lemma fit_app l m : fit l -> fit m -> ends l -> fit (l ++ m).
Proof.
  intros H1 H2 H3 a x y b E Hs. revert l H1 H3 E. induction a as [|c a IH]; intros l H1 H3 E.
  - destruct l as [|l1 [|l2 l]]; cbn [app] in E.
    + eapply (H2 []); eauto.
    + injection E as -> _. specialize (H3 [] x eq_refl). congruence.
    + injection E as -> -> _. eapply (H1 []); eauto. reflexivity.
  - destruct l as [|l1 l]; cbn [app] in E; [eapply (H2 (c :: a)); eauto|]. injection E as -> E. apply (IH l); auto.
    + intros a' x' y' b' E'. subst l. apply (H1 (c :: a') x' y' b'). reflexivity.
    + intros a' x' E'. subst l. apply (H3 (c :: a') x'). reflexivity.
Qed.
Lemma ends_one tr x : significant x = true -> ends (tr ++ [x]).
Proof. intros H a y E. apply app_inj_tail in E as [_ ->]. exact H. Qed.
Lemma fit_one tr x : SpecComplete.Trivia tr -> loose x = false -> fit (tr ++ [x]).
Proof.
  intros Ht Hl a u y b E _. assert (In y (tr ++ [x])) as Hy by (rewrite E; apply in_or_app; right; right; now left).
  apply in_app_or in Hy as [Hy|[->|[]]]; [|exact Hl]. unfold SpecComplete.Trivia in Ht. rewrite Forall_forall in Ht. specialize (Ht _ Hy).
  destruct y; [reflexivity|contradiction].
Qed.

Definition Fitted (g : green) : Prop :=
  forall k cs, Sub g (Node k cs) -> fit cs /\ (loose (Node k cs) = false -> nolead_l cs).
Lemma fitted_tok k t : Fitted (Tok k t).
Proof. intros k' cs H. inversion H. Qed.
Lemma fitted_trivia tr : SpecComplete.Trivia tr -> Forall Fitted tr.
Proof. intros H. eapply Forall_impl; [|exact H]. intros [k t|k cs] Hg; [apply fitted_tok|contradiction]. Qed.
Lemma fitted_node k cs : Forall Fitted cs -> fit cs -> (loose (Node k cs) = false -> nolead_l cs) -> Fitted (Node k cs).
Proof.
  intros HF H1 H2 k' cs' Hs. inversion Hs as [|? ? c ? Hc Hs']; subst; [auto|]. rewrite Forall_forall in HF. exact (HF c Hc k' cs' Hs').
Qed.
Lemma reads_fitted e l : Reads e l -> okrx e = true -> fit l /\ ends l /\ Forall Fitted l.
Proof.
  induction 1 as [s tr Ht|k t tr Ht Hk|b t tr Ht _|k e cs tr Ht Hr IH Hti|k e cs Hr IH|i l _ IH| |a b l m _ IHa _ IHb|a b l _ IH|a b l _ IH|a|a l m _ IHa _ IHb];
    cbn [okrx]; intros H.
  - split; [now apply fit_one|]. split; [now apply ends_one|]. apply Forall_app. split; [now apply fitted_trivia|]. constructor; [apply fitted_tok|constructor].
  - split; [now apply fit_one|]. split; [apply ends_one; cbn; now rewrite Hk|]. apply Forall_app. split; [now apply fitted_trivia|]. constructor; [apply fitted_tok|constructor].
  - split; [now apply fit_one|]. split; [now apply ends_one|]. apply Forall_app. split; [now apply fitted_trivia|]. constructor; [apply fitted_tok|constructor].
  - apply andb_prop in H as [H1 H2]. destruct (IH H1) as (I1 & I2 & I3).
    assert (Hl : loose (Node k cs) = false).
    { destruct (kind_eqb k BLOCK_IF_THEN) eqn:Ek.
      - apply kind_eqb_eq in Ek. subst k. cbn [negb orb] in H2. destruct e as [| | | | | | |x y| |]; try discriminate.
        destruct x as [|kk| | | | | | | |]; try discriminate. destruct kk; try discriminate. cbn [loose]. apply negb_false_iff.
        inversion Hr as [| | | | | | |? ? l1 l2 R1 R2| | | |]; subst. inversion R1; subst.
        rewrite !existsb_app. cbn [existsb selects]. rewrite kind_refl. now rewrite orb_true_r.
      - destruct k; try reflexivity. discriminate. }
    split; [now apply fit_one|]. split; [now apply ends_one|]. apply Forall_app. split; [now apply fitted_trivia|].
    constructor; [|constructor]. apply fitted_node; auto. intros _. destruct cs as [|[kk tt|] cs]; cbn in *; auto.
  - apply andb_prop in H as [H H3]. apply andb_prop in H as [H1 H2]. destruct (IH H1) as (I1 & I2 & I3).
    apply kind_eqb_eq in H2. subst k. pose proof (reads_nolp _ _ Hr H3) as Hn.
    split; [|split].
    + intros [|a1 [|a2 a]] x y b E; discriminate E.
    + now apply (ends_one []).
    + constructor; [|constructor]. apply fitted_node; auto. cbn [loose]. rewrite Hn. discriminate.
  - apply IH. apply instr_okrx.
  - split; [intros [|] ? ? ? E; discriminate E|]. split; [intros [|] ? E; discriminate E|constructor].
  - apply andb_prop in H as [H1 H2]. destruct (IHa H1) as (A1 & A2 & A3). destruct (IHb H2) as (B1 & B2 & B3).
    split; [now apply fit_app|]. split; [now apply ends_app|now apply Forall_app].
  - apply andb_prop in H as [H1 H2]. auto.
  - apply andb_prop in H as [H1 H2]. auto.
  - split; [intros [|] ? ? ? E; discriminate E|]. split; [intros [|] ? E; discriminate E|constructor].
  - destruct (IHa H) as (A1 & A2 & A3). destruct (IHb H) as (B1 & B2 & B3).
    split; [now apply fit_app|]. split; [now apply ends_app|now apply Forall_app].
Qed.

Lemma document_fitted tree cs c : Document tree -> tree = Node ROOT cs -> In c cs -> Fitted c.
Proof.
  intros (ms & tl & E & Hr & Ht & _) E2 Hc. rewrite E in E2. injection E2 as <-.
  destruct (reads_fitted _ _ Hr module_okrx) as (_ & _ & H). apply in_app_or in Hc as [Hc|Hc].
  - rewrite Forall_forall in H. auto.
  - pose proof (fitted_trivia _ Ht) as X. rewrite Forall_forall in X. auto.
Qed.

(** Two white space tokens do not meet. *)
Lemma sub_split g h : Sub g h -> exists a b, gtokens g = a ++ gtokens h ++ b.
Proof.
  induction 1 as [g|k cs c h Hc _ (a & b & IH)]; [exists [], []; now rewrite app_nil_r|].
  apply in_split in Hc as (l1 & l2 & ->). exists (gtokenss l1 ++ a), (b ++ gtokenss l2).
  rewrite gtokens_node, gtokenss_app, gtokenss_cons, IH. now rewrite <- !app_assoc.
Qed.
Lemma separated_ws a v w b : SpecComplete.Separated (a ++ (WHITESPACE, v) :: (WHITESPACE, w) :: b) -> False.
Proof.
  induction a as [|[k t] a IH]; cbn [app SpecComplete.Separated].
  - intros (_ & F & ((Hn & Hf) & _) & _). destruct w as [|c w]; [congruence|]. inversion Hf; subst. eapply F; [reflexivity|assumption].
  - intros (_ & _ & H). auto.
Qed.
Lemma meet g k a v w b : SpecComplete.Separated (gtokens g) -> Sub g (Node k (a ++ Tok WHITESPACE v :: Tok WHITESPACE w :: b)) -> False.
Proof.
  intros HS Hs. destruct (sub_split _ _ Hs) as (p & q & E). rewrite E, gtokens_node, gtokenss_app, !gtokenss_cons in HS. cbn [gtokens app] in HS.
  rewrite <- app_assoc in HS. rewrite app_assoc in HS. cbn [app] in HS. now apply separated_ws in HS.
Qed.

Lemma document_calm tree cs c : Document tree -> Plain tree -> tree = Node ROOT cs -> In c cs -> Calm c /\ Led c.
Proof.
  intros Hd Hp E Hc. pose proof (document_fitted _ _ _ Hd E Hc) as HF. split.
  - intros k l Hs _ a x y b El Hx. destruct (HF k l Hs) as [H1 _]. split; [|exact (H1 a x y b El Hx)].
    destruct (significant y) eqn:Ey; [reflexivity|exfalso].
    assert (Hs' : Sub tree (Node k l)) by (subst tree; now apply Sub_child with c).
    assert (Hpl : forall z, In z l -> Plain z).
    { intros z Hz k' t' Hin. destruct (sub_split _ _ Hs') as (p & q & Eq). apply (Hp k' t'). rewrite Eq. apply in_or_app. right. apply in_or_app. left.
      rewrite gtokens_node. unfold gtokenss. apply in_concat. exists (gtokens z). split; [now apply in_map|exact Hin]. }
    destruct (plain_ws x) as (v & ->); [apply Hpl; rewrite El; apply in_elt|exact Hx|].
    destruct (plain_ws y) as (w & ->); [apply Hpl; rewrite El; apply in_or_app; right; right; now left|exact Ey|].
    destruct Hd as (ms & tl & _ & _ & _ & Hsep). rewrite El in Hs'. exact (meet _ _ _ _ _ _ Hsep Hs').
  - intros k l Hs. now destruct (HF k l Hs).
Qed.
