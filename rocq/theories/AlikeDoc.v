(** In a well-formed document every node starts with a token that is not
    white space and not a comment, except the root and the branch of an open
    [if]. *)

From Coq Require Import String List NArith Bool Arith Lia.
From Verif Require Import Text Kind Green SpecParser SpecSyntax Lang Shape Red Doc AlikeCheck.
From Verif Require SpecComplete.
Import ListNotations.
Import SpecComplete.

Fixpoint firm (e : rx) : bool :=
  match e with
  | Kw _ | Tk _ | Float _ | Ins _ => true
  | Nd _ e => okf e
  | Loose _ _ | Eps | Star _ => false
  | Sq a b => firm a
  | Or a b => firm a && firm b
  end
with okf (e : rx) : bool :=
  match e with
  | Kw _ | Tk _ | Float _ | Ins _ | Eps => true
  | Nd _ e | Star e => okf e
  | Loose _ _ => false
  | Sq a b => okf a && (firm a || okf b)
  | Or a b => okf a && okf b
  end.
Fixpoint okall (e : rx) : bool :=
  match e with
  | Nd _ e => okf e && okall e
  | Loose k e => kind_eqb k BLOCK_IF_THEN && okall e
  | Sq a b | Or a b => okall a && okall b
  | Star e => okall e
  | _ => true
  end.

Definition Heads (l : list green) : Prop :=
  exists tr r, l = tr ++ r /\ Trivia tr /\ match r with [] => True | g :: _ => headed g = true end.
Definition HeadsFirm (l : list green) : Prop :=
  exists tr g r, l = tr ++ g :: r /\ Trivia tr /\ headed g = true.
Lemma firm_heads l : HeadsFirm l -> Heads l.
Proof. intros (tr & g & r & -> & H1 & H2). exists tr, (g :: r). auto. Qed.
Lemma heads_app l m : Heads l -> Heads m -> Heads (l ++ m).
Proof.
  intros (tr & [|g r] & -> & H1 & H2) (tr' & r' & -> & H3 & H4).
  - exists (tr ++ tr'), r'. rewrite app_nil_r, app_assoc. split; [reflexivity|]. split; [now apply Forall_app|exact H4].
  - exists tr, (g :: r ++ tr' ++ r'). rewrite <- app_assoc. auto.
Qed.
Lemma firm_app l m : HeadsFirm l -> HeadsFirm (l ++ m).
Proof. intros (tr & g & r & -> & H1 & H2). exists tr, g, (r ++ m). rewrite <- app_assoc. auto. Qed.
Lemma firm_one tr g : Trivia tr -> headed g = true -> HeadsFirm (tr ++ [g]).
Proof. intros H1 H2. exists tr, g, []. auto. Qed.
Lemma tight_headed k cs : Heads cs -> Tight cs -> headed (Node k cs) = true.
Proof.
  intros (tr & r & -> & H1 & H2) HT. destruct tr as [|x tr].
  - destruct r; [reflexivity|exact H2].
  - exfalso. inversion H1 as [|? ? Hx _]; subst. destruct x; [|exact Hx]. cbn in HT. congruence.
Qed.
Lemma ins_firm i : firm (instr_rx i) = true.
Proof. destruct i; vm_compute; reflexivity. Qed.
Lemma ins_okf i : okf (instr_rx i) = true.
Proof. destruct i; vm_compute; reflexivity. Qed.
Lemma ins_okall i : okall (instr_rx i) = true.
Proof. destruct i; vm_compute; reflexivity. Qed.
Lemma module_okall : okall (Star MODULE_) = true.
Proof. vm_compute. reflexivity. Qed.

Lemma reads_heads e l : Reads e l -> (firm e = true -> HeadsFirm l) /\ (okf e = true -> Heads l).
Proof.
  induction 1 as [s tr Ht|k t tr Ht Hk|b t tr Ht Hb|k e cs tr Ht _ IH HT|k e cs _ IH|i l _ IH| |a b l m _ IHa _ IHb
                 |a b l _ IH|a b l _ IH|a|a l m _ IHa _ IHm]; cbn [firm okf].
  - assert (X : HeadsFirm (tr ++ [Tok KEYWORD (T s)])) by (apply firm_one; [exact Ht|reflexivity]).
    split; intros _; [exact X|now apply firm_heads].
  - assert (X : HeadsFirm (tr ++ [Tok k t])) by (apply firm_one; [exact Ht|cbn; now rewrite Hk]).
    split; intros _; [exact X|now apply firm_heads].
  - assert (X : HeadsFirm (tr ++ [Tok FLOAT t])) by (apply firm_one; [exact Ht|reflexivity]).
    split; intros _; [exact X|now apply firm_heads].
  - assert (X : okf e = true -> HeadsFirm (tr ++ [Node k cs])).
    { intros E. apply firm_one; [exact Ht|]. apply tight_headed; [|exact HT]. now apply IH. }
    split; intros E; [auto|apply firm_heads; auto].
  - split; discriminate.
  - destruct IH as [IH1 IH2]. split; intros _; [apply IH1, ins_firm|apply IH2, ins_okf].
  - split; [discriminate|]. intros _. exists [], []. repeat split; constructor.
  - split.
    + intros E. apply firm_app. now apply IHa.
    + intros E. apply andb_prop in E as [E1 E2]. apply orb_prop in E2 as [E2|E2].
      * apply firm_heads, firm_app. now apply IHa.
      * apply heads_app; [now apply IHa|now apply IHb].
  - split; intros E; apply andb_prop in E as [E1 E2]; now apply IH.
  - split; intros E; apply andb_prop in E as [E1 E2]; now apply IH.
  - split; [discriminate|]. intros _. exists [], []. repeat split; constructor.
  - split; [discriminate|]. intros E. apply heads_app; [now apply IHa|now apply IHm].
Qed.

Definition Below (l : list green) : Prop :=
  forall g k cs, In g l -> Sub g (Node k cs) -> k = BLOCK_IF_THEN \/ headed (Node k cs) = true.
Lemma below_app l m : Below l -> Below m -> Below (l ++ m).
Proof. intros H1 H2 g k cs Hin. apply in_app_or in Hin as [Hin|Hin]; eauto. Qed.
Lemma below_tok k t : Below [Tok k t].
Proof. intros g k' cs [<-|[]] H. inversion H. Qed.
Lemma below_trivia l : Trivia l -> Below l.
Proof.
  intros H g k cs Hin Hs. unfold Trivia in H. rewrite Forall_forall in H. specialize (H _ Hin). destruct g; [inversion Hs|destruct H].
Qed.
Lemma below_node k cs : Below cs -> k = BLOCK_IF_THEN \/ headed (Node k cs) = true -> Below [Node k cs].
Proof. intros H1 H2 g k' cs' [<-|[]] H. inversion H; subst; [exact H2|]. eapply H1; eassumption. Qed.
Lemma reads_below e l : Reads e l -> okall e = true -> Below l.
Proof.
  induction 1 as [s tr Ht|k t tr Ht Hk|b t tr Ht Hb|k e cs tr Ht HR IH HT|k e cs _ IH|i l _ IH| |a b l m _ IHa _ IHb
                 |a b l _ IH|a b l _ IH|a|a l m _ IHa _ IHm]; cbn [okall]; intros E;
    try (apply below_app; [now apply below_trivia|apply below_tok]); try (intros ? ? ? []; fail).
  - apply andb_prop in E as [E1 E2]. apply below_app; [now apply below_trivia|]. apply below_node; [now apply IH|right].
    apply tight_headed; [|exact HT]. now apply (reads_heads _ _ HR).
  - apply andb_prop in E as [E1 E2]. apply kind_eqb_eq in E1. apply below_node; [now apply IH|now left].
  - apply IH, ins_okall.
  - apply andb_prop in E as [E1 E2]. apply below_app; auto.
  - apply andb_prop in E as [E1 E2]. auto.
  - apply andb_prop in E as [E1 E2]. auto.
  - apply below_app; auto.
Qed.
Lemma document_headed tree : Document tree -> forall o, InTree tree o -> is_node o = true -> ekind o = OPERAND ->
  headed (el o) = true.
Proof.
  intros (ms & tl & -> & HR & Ht & _) o Ho Hn Hk. pose proof (Desc_Sub _ _ Ho) as Hs. cbn [root_of el] in Hs.
  unfold is_node in Hn. unfold ekind in Hk. destruct (el o) as [|k cs]; [discriminate Hn|]. cbn in Hk. subst k.
  inversion Hs; subst. destruct (below_app ms tl) with (g := c) (k := OPERAND) (cs := cs) as [E|E]; auto; [|now apply below_trivia|discriminate E].
  eapply reads_below; [exact HR|apply module_okall].
Qed.
