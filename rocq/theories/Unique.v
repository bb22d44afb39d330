(** Nodes of parse trees are identified by kind and range. *)

From Coq Require Import String List NArith Bool Arith Lia.
From Verif Require Import Text Kind Green SpecParser Lexer LexerFacts Winnow Grammar Sem Lossless Total
  Bounds Lang TokForm Shape Red.
Import ListNotations.

(** Output always has a nonempty token as a direct child. *)
Fixpoint dtok (g : grammar) : bool :=
  match g with
  | GTok _ _ | GFail => true
  | GTriv | GEmpty | GOpt _ | GRep _ | GNode _ _ | GMust _ | GRParen | GInstr => false
  | GSeq a b => dtok a || dtok b
  | GAlt a b | GIf _ _ a b => dtok a && dtok b
  | GTill _ b => dtok b
  | GRep1 a | GCtx _ a | GRetry a _ | GRetryOnce a _ => dtok a
  end.
(** Output is never empty text. *)
Fixpoint nek (g : grammar) : bool :=
  match g with
  | GTok _ _ | GFail | GInstr => true
  | GTriv | GEmpty | GOpt _ | GRep _ | GMust _ | GRParen => false
  | GSeq a b => nek a || nek b
  | GAlt a b | GIf _ _ a b => nek a && nek b
  | GTill _ b => nek b
  | GRep1 a | GCtx _ a | GRetry a _ | GRetryOnce a _ | GNode _ a => nek a
  end.
(** Kinds of direct node children. *)
Fixpoint dkinds (g : grammar) : list kind :=
  match g with
  | GNode k _ => [k]
  | GInstr => [PLAIN_INSTR; BLOCK_BLOCK; BLOCK_LOOP; BLOCK_IF]
  | GSeq a b | GAlt a b | GIf _ _ a b | GTill a b => dkinds a ++ dkinds b
  | GOpt a | GRep a | GRep1 a | GCtx _ a | GRetry a _ | GRetryOnce a _ | GMust a => dkinds a
  | GTok _ _ | GTriv | GEmpty | GFail | GRParen => []
  end.
(** Every direct node child is nonempty. *)
Fixpoint dne (g : grammar) : bool :=
  match g with
  | GNode _ a => nek a
  | GSeq a b | GAlt a b | GIf _ _ a b | GTill a b => dne a && dne b
  | GOpt a | GRep a | GRep1 a | GCtx _ a | GRetry a _ | GRetryOnce a _ | GMust a => dne a
  | GInstr | GTok _ _ | GTriv | GEmpty | GFail | GRParen => true
  end.
(** Every node below is nonempty. *)
Fixpoint zf (g : grammar) : bool :=
  match g with
  | GNode _ a => nek a && zf a
  | GSeq a b | GAlt a b | GIf _ _ a b | GTill a b => zf a && zf b
  | GOpt a | GRep a | GRep1 a | GCtx _ a | GRetry a _ | GRetryOnce a _ | GMust a => zf a
  | GInstr => false
  | GTok _ _ | GTriv | GEmpty | GFail | GRParen => true
  end.

Definition has_tok (o : list green) : Prop := exists k t, In (Tok k t) o /\ t <> [].

Lemma has_tok_app_l a b : has_tok a -> has_tok (a ++ b).
Proof. intros (k & t & H & Hn). exists k, t. split; [apply in_or_app; now left|exact Hn]. Qed.
Lemma has_tok_app_r a b : has_tok b -> has_tok (a ++ b).
Proof. intros (k & t & H & Hn). exists k, t. split; [apply in_or_app; now right|exact Hn]. Qed.
Lemma junk_has_tok j : junk j -> has_tok j.
Proof. intros [_ (c & H & Hn)]. exists ERROR, c. auto. Qed.
Lemma utf8_len_pos c : 0 < utf8_len c.
Proof. unfold utf8_len. repeat destruct (N.ltb _ _); lia. Qed.
Lemma tlen_pos t : t <> [] -> 0 < tlen t.
Proof. destruct t; [congruence|]. intros _. simpl. pose proof (utf8_len_pos c). lia. Qed.
Lemma glens_in g l : In g l -> glen g <= glens l.
Proof.
  induction l as [|x l IH]; [intros []|]. rewrite glens_cons. intros [->|H]; [lia|].
  apply IH in H. lia.
Qed.
Lemma has_tok_glens o : has_tok o -> 0 < glens o.
Proof.
  intros (k & t & H & Hn). apply glens_in in H. simpl in H. apply tlen_pos in Hn. lia.
Qed.

Ltac split_hyps :=
  repeat match goal with
         | H : _ /\ _ |- _ => destruct H
         | H : _ && _ = true |- _ => apply andb_prop in H as [? ?]
         end.

Lemma Lang_dtok ib st g o : Lang ib st g o -> wf_tok g -> dtok g = true -> has_tok o.
Proof.
  induction 1; cbn [wf_tok dtok]; intros Hw Hd; split_hyps; try discriminate;
    try (apply has_tok_app_l; auto; fail); try (apply has_tok_app_r; auto; fail);
    try (now apply junk_has_tok); auto.
  - exists k, c. split; [now left|]. exact (Hw _ _ _ H).
  - apply orb_prop in Hd as [Hd|Hd]; [apply has_tok_app_l|apply has_tok_app_r]; auto.
  - apply has_tok_app_r. apply IHLang2; [split; assumption|exact Hd].
Qed.

Lemma Lang_nek ib st g o : wf_tok ib -> nek ib = true ->
  Lang ib st g o -> wf_tok g -> nek g = true -> 0 < glens o.
Proof.
  intros Hib1 Hib2. induction 1; cbn [wf_tok nek]; intros Hw Hd; split_hyps; try discriminate;
    try (now apply has_tok_glens, junk_has_tok);
    rewrite ?glens_app; auto.
  - rewrite glens_cons. simpl. pose proof (tlen_pos _ (Hw _ _ _ H)). lia.
  - apply orb_prop in Hd as [Hd|Hd]; [specialize (IHLang1 ltac:(assumption) Hd)|specialize (IHLang2 ltac:(assumption) Hd)]; lia.
  - specialize (IHLang1 Hw Hd). lia.
  - specialize (IHLang2 (conj H1 H2) Hd). lia.
  - rewrite glens_cons. specialize (IHLang Hw Hd). simpl. fold (glens o). lia.
  - specialize (IHLang Hw Hd). lia.
  - specialize (IHLang Hw Hd). lia.
  - specialize (IHLang Hw Hd). lia.
Qed.

Lemma trivia_no_node tr k cs : Forall is_trivia_tok tr -> ~ In (Node k cs) tr.
Proof. intros H Hin. rewrite Forall_forall in H. exact (H _ Hin). Qed.
Lemma junk_no_node j k cs : junk j -> ~ In (Node k cs) j.
Proof. intros [H _] Hin. rewrite Forall_forall in H. destruct (H _ Hin) as [[]|[]]. Qed.

Lemma Lang_dkinds ib st g o k cs : incl (dkinds ib) (dkinds GInstr) ->
  Lang ib st g o -> In (Node k cs) o -> In k (dkinds g).
Proof.
  intros Hib. induction 1; cbn [dkinds]; intros Hin; rewrite ?in_app_iff in *;
    try (match type of Hin with _ \/ _ => destruct Hin as [Hin|Hin] end);
    try (exfalso; eapply trivia_no_node; eassumption);
    try (exfalso; eapply junk_no_node; eassumption);
    try (exfalso; exact Hin); auto.
  - destruct Hin as [Hin|[]]; discriminate.
  - apply in_app_or. exact (IHLang2 Hin).
  - destruct Hin as [Hin|[]]. injection Hin as <- <-. now left.
  - destruct Hin as [Hin|[]]; discriminate.
Qed.

Lemma Lang_dne ib st g o k cs : wf_tok ib -> nek ib = true -> dne ib = true ->
  Lang ib st g o -> wf_tok g -> dne g = true -> In (Node k cs) o -> 0 < glens cs.
Proof.
  intros Hib1 Hib2 Hib3. induction 1; cbn [wf_tok dne]; intros Hw Hd Hin; split_hyps;
    rewrite ?in_app_iff in *;
    try (match type of Hin with _ \/ _ => destruct Hin as [Hin|Hin] end);
    try (exfalso; eapply trivia_no_node; eassumption);
    try (exfalso; eapply junk_no_node; eassumption);
    try (exfalso; exact Hin); auto.
  - destruct Hin as [Hin|[]]; discriminate.
  - apply IHLang2; [split; assumption|cbn [dne]; now apply andb_true_intro|assumption].
  - destruct Hin as [Hin|[]]. injection Hin as <- <-. exact (Lang_nek _ _ _ _ Hib1 Hib2 H Hw Hd).
  - destruct Hin as [Hin|[]]; discriminate.
Qed.

(** No empty node at or below [g]. *)
Definition zfree (g : green) : Prop := forall k cs, Sub g (Node k cs) -> 0 < glens cs.
Lemma zfree_tok k t : zfree (Tok k t).
Proof. intros k' cs H. inversion H. Qed.

Lemma trivia_zfree tr : Forall is_trivia_tok tr -> Forall zfree tr.
Proof. apply Forall_impl. intros [k t|k cs] H; [apply zfree_tok|destruct H]. Qed.
Lemma junk_zfree j : junk j -> Forall zfree j.
Proof. intros [H _]. revert H. apply Forall_impl. intros [k t|k cs] H; [apply zfree_tok|destruct H as [[]|[]]]. Qed.

Lemma Lang_zf ib st g o : wf_tok ib -> nek ib = true ->
  Lang ib st g o -> wf_tok g -> zf g = true -> Forall zfree o.
Proof.
  intros Hib1 Hib2. induction 1; cbn [wf_tok zf]; intros Hw Hd; split_hyps; try discriminate;
    rewrite ?Forall_app; auto using trivia_zfree, junk_zfree.
  - constructor; [apply zfree_tok|constructor].
  - split; auto. apply IHLang2; [split; assumption|cbn [zf]; now apply andb_true_intro].
  - constructor; [|constructor]. intros k' cs' Hs. inversion Hs; subst.
    + exact (Lang_nek _ _ _ _ Hib1 Hib2 H Hw ltac:(assumption)).
    + assert (Hf : Forall zfree o) by auto. rewrite Forall_forall in Hf. eapply Hf; eauto.
  - split; [now apply trivia_zfree|]. constructor; [apply zfree_tok|constructor].
Qed.

(** ** All rules *)

Definition rank (k : kind) : nat :=
  match k with
  | ROOT => 9
  | BLOCK_TYPE | OPERAND => 2
  | TABLE_TYPE | MEMORY_TYPE | GLOBAL_TYPE | TYPE_USE | BLOCK_IF_THEN | ELEM_EXPR | OFFSET | ELEM_LIST => 1
  | _ => 0
  end.

Definition then_rule : grammar :=
  GTill (GRetryOnce GInstr []) (GPeek (la_block_end [T "end"; T "else"])).
Definition if_tail : grammar :=
  seqs [ GOpt (GSeq GTriv
           (GNode BLOCK_IF_ELSE (seqs
               [ keyword "else"; GOpt (tp ident)
               ; GTill (GRetryOnce GInstr []) (GPeek (la_block_end [T "end"])) ])))
       ; GMust (tp (keyword "end")); GOpt (tp ident) ].
Definition if_rule : grammar :=
  GSeq (keyword "if") (GSeq (GOpt (tp ident)) (GSeq (GOpt (tp block_type))
    (GSeq (GNode BLOCK_IF_THEN then_rule) if_tail))).

Lemma node_rules_wf g k a : wf_tok g -> In (k, a) (node_rules g) -> wf_tok a.
Proof.
  induction g; cbn [wf_tok node_rules]; intros Hw Hin; split_hyps; rewrite ?in_app_iff in *;
    try (destruct Hin as [Hin|Hin]; auto; fail); try (destruct Hin; fail); auto.
  destruct Hin as [Hin|Hin]; [injection Hin as <- <-; exact Hw|auto].
Qed.
Lemma all_rules_wf k a : In (k, a) all_rules -> wf_tok a.
Proof.
  unfold all_rules. rewrite in_app_iff. intros [H|H]; eapply node_rules_wf; eauto.
  - apply module_wf_tok.
  - apply instr_body_wf_tok.
Qed.

Definition rank_ok (r : kind * grammar) : bool :=
  dtok (snd r) || forallb (fun k => Nat.ltb (rank k) (rank (fst r))) (dkinds (snd r)).
Lemma all_rank_ok : forallb rank_ok all_rules = true.
Proof. vm_compute. reflexivity. Qed.
Lemma ib_nek : nek instr_body = true. Proof. reflexivity. Qed.
Lemma ib_dne : dne instr_body = true. Proof. reflexivity. Qed.
Lemma ib_dkinds : incl (dkinds instr_body) (dkinds GInstr).
Proof. intros k H. cbn in H. cbn. intuition. Qed.

Lemma all_dne k a : In (k, a) all_rules -> (k, a) = (BLOCK_IF, if_rule) \/ dne a = true.
Proof.
  unfold all_rules. rewrite in_app_iff. intros [H|H].
  - right. revert H. assert (Hf : forallb (fun r => dne (snd r)) (node_rules module) = true) by (vm_compute; reflexivity).
    rewrite forallb_forall in Hf. intros H. exact (Hf _ H).
  - cbn in H. repeat (destruct H as [H|H]; [injection H as <- <-; first [right; reflexivity|left; reflexivity]|]).
    destruct H.
Qed.

Lemma if_rule_spec st cs : Lang instr_body st if_rule cs ->
  exists c l x r, cs = Tok KEYWORD c :: l ++ Node BLOCK_IF_THEN x :: r /\ c <> []
    /\ Forall zfree l /\ (forall k y, In (Node k y) l \/ In (Node k y) r -> 0 < glens y).
Proof.
  intros H. unfold if_rule in H.
  inversion H as [| | |? ? o1 o2 H1 H2| | | | | | | | | | | | | | | | | | | | | | | |]; subst.
  inversion H2 as [| | |? ? o3 o4 H3 H4| | | | | | | | | | | | | | | | | | | | | | | |]; subst.
  inversion H4 as [| | |? ? o5 o6 H5 H6| | | | | | | | | | | | | | | | | | | | | | | |]; subst.
  inversion H6 as [| | |? ? o7 o8 H7 H8| | | | | | | | | | | | | | | | | | | | | | | |]; subst.
  assert (exists c, o1 = [Tok KEYWORD c] /\ c <> []) as (c & -> & Hc).
  { unfold keyword in H1. inversion H1; subst.
    match goal with HL : Lang _ _ (GTok _ _) _ |- _ => inversion HL; subst end.
    eexists. split; [reflexivity|]. eapply l_verify_pos; [apply word_pos|eassumption]. }
  assert (exists x, o7 = [Node BLOCK_IF_THEN x]) as (x & ->) by (inversion H7; eauto).
  assert (Hw : wf_tok if_rule).
  { apply (all_rules_wf BLOCK_IF). unfold all_rules. apply in_or_app. right. left. reflexivity. }
  cbn in Hw. split_hyps.
  assert (Forall zfree o3).
  { eapply Lang_zf; [apply instr_body_wf_tok|apply ib_nek|exact H3| |reflexivity]. cbn. intuition. }
  assert (Forall zfree o5).
  { eapply Lang_zf; [apply instr_body_wf_tok|apply ib_nek|exact H5| |reflexivity]. cbn. intuition. }
  exists c, (o3 ++ o5), x, o8. split; [simpl; now rewrite <- app_assoc|]. split; [exact Hc|].
  split; [now apply Forall_app|]. intros k y [Hin|Hin].
  - assert (Hf : Forall zfree (o3 ++ o5)) by now apply Forall_app.
    rewrite Forall_forall in Hf. eapply Hf; [exact Hin|constructor].
  - eapply Lang_dne; [apply instr_body_wf_tok|apply ib_nek|apply ib_dne|exact H8| |reflexivity|exact Hin].
    cbn. intuition.
Qed.

Section Tree.
  Variables (dbg : bool) (src : text) (tree : green) (errs : list err).
  Hypothesis Hp : parse dbg src = Parsed tree errs.

  Lemma sub_rank k cs : Sub tree (Node k cs) ->
    has_tok cs \/ forall k' cs', In (Node k' cs') cs -> rank k' < rank k.
  Proof.
    intros Hs. destruct (parse_rules _ _ _ _ _ _ Hp Hs) as [[-> Ht]|(a & Ha & HL)].
    - right. intros k' cs' Hin. destruct (parse_lang _ _ _ _ Hp) as (o1 & o2 & Ht2 & HL & _ & Hf).
      rewrite Ht in Ht2. injection Ht2 as ->. apply in_app_or in Hin as [Hin|Hin].
      + apply (Lang_dkinds _ _ _ _ _ _ ib_dkinds HL) in Hin. destruct Hin as [<-|[]]. cbn. lia.
      + rewrite Forall_forall in Hf. destruct (Hf _ Hin) as [[]|[]].
    - pose proof all_rank_ok as Hr. rewrite forallb_forall in Hr. specialize (Hr _ Ha).
      apply orb_prop in Hr as [Hr|Hr]; simpl in Hr.
      + left. eapply Lang_dtok; eauto. eapply all_rules_wf; eauto.
      + right. intros k' cs' Hin. apply (Lang_dkinds _ _ _ _ _ _ ib_dkinds HL) in Hin.
        rewrite forallb_forall in Hr. apply Hr in Hin. now apply Nat.ltb_lt in Hin.
  Qed.

  Lemma sub_empty k cs l z cs' r : Sub tree (Node k cs) -> cs = l ++ Node z cs' :: r ->
    glens cs' = 0 -> Forall zfree l /\ 0 < glens l.
  Proof.
    intros Hs Heq Hz. destruct (parse_rules _ _ _ _ _ _ Hp Hs) as [[-> Ht]|(a & Ha & HL)].
    - exfalso. destruct (parse_lang _ _ _ _ Hp) as (o1 & o2 & Ht2 & HL & _ & Hf).
      rewrite Ht in Ht2. injection Ht2 as Ht2. rewrite Ht2 in Heq.
      assert (Hin : In (Node z cs') (o1 ++ o2)) by (rewrite Heq; apply in_elt).
      apply in_app_or in Hin as [Hin|Hin].
      + assert (0 < glens cs'); [|lia].
        eapply Lang_dne; [apply instr_body_wf_tok|apply ib_nek|apply ib_dne|exact HL|apply module_wf_tok| |exact Hin].
        reflexivity.
      + rewrite Forall_forall in Hf. destruct (Hf _ Hin) as [[]|[]].
    - destruct (all_dne _ _ Ha) as [He|Hd].
      + injection He as -> ->. apply if_rule_spec in HL as (c & l2 & x & r2 & Hcs & Hc & Hf & Hne).
        rewrite Heq in Hcs.
        destruct l as [|y l]; [discriminate Hcs|]. injection Hcs as -> Hcs.
        assert (Hl : l = l2).
        { assert (Hl2 : forall m, l2 <> l ++ Node z cs' :: m).
          { intros m ->. assert (0 < glens cs'); [|lia]. eapply Hne. left. apply in_elt. }
          assert (Hr2 : ~ In (Node z cs') r2).
          { intros Hin. assert (0 < glens cs'); [|lia]. eapply Hne. right. exact Hin. }
          clear - Hcs Hl2 Hr2. revert l2 Hcs Hl2. induction l as [|y l IH]; intros [|y2 l2] H Hl2; simpl in H.
          - reflexivity.
          - injection H as <- H. exfalso. now apply (Hl2 l2).
          - injection H as -> H. exfalso. apply Hr2. rewrite <- H. apply in_elt.
          - injection H as -> H. f_equal. apply IH; [exact H|]. intros m ->. now apply (Hl2 m). }
        subst l2. split; [constructor; [apply zfree_tok|exact Hf]|].
        rewrite glens_cons. simpl. apply tlen_pos in Hc. lia.
      + exfalso. assert (0 < glens cs'); [|lia].
        eapply (Lang_dne _ _ _ _ z cs' instr_body_wf_tok ib_nek ib_dne HL).
        * eapply all_rules_wf; eauto.
        * exact Hd.
        * rewrite Heq. apply in_elt.
  Qed.

  Lemma desc_rank a b : InTree tree a -> Desc a b -> is_node b = true -> a <> b ->
    glen (el a) = glen (el b) -> rank (ekind b) < rank (ekind a).
  Proof.
    intros Ha Hd Hb. revert Ha.
    (* from the top *)
    remember (length (ups b) - length (ups a)) as n eqn:Hn. revert a Hn Hd.
    induction n as [n IH] using lt_wf_ind. intros a Hn Hd Ha Hne Hlen.
    apply Desc_top in Hd as [->|(c & Hc & Hcb)]; [congruence|].
    assert (Hcn : is_node c = true).
    { apply Desc_top in Hcb as [->|(d & Hd & _)]; [exact Hb|].
      unfold is_node. unfold children_with_tokens in Hd. destruct (el c); [destruct Hd|reflexivity]. }
    pose proof (Desc_range _ _ Hcb) as Hr1. pose proof (child_range _ _ Hc) as Hr2.
    assert (HA : InTree tree c) by (econstructor; [exact Ha|exact Hc]).
    assert (Hlc : glen (el c) = glen (el a)) by (unfold estart, eend in *; lia).
    assert (Hk : rank (ekind c) < rank (ekind a)).
    { pose proof Hc as Hc2. apply child_in in Hc2 as (l & g & r & Heq & Ec).
      pose proof (Desc_Sub _ _ Ha) as Hs. unfold ekind in *.
      destruct (el a) as [ka ta|ka ca] eqn:Ea; simpl in Heq; [destruct l; discriminate|].
      rewrite Ec in *. simpl in Hlc, Hcn |- *.
      destruct (sub_rank _ _ Hs) as [Ht|Hr].
      - exfalso. subst ca. fold (glens (l ++ g :: r)) in Hlc. rewrite glens_app, glens_cons in Hlc.
        destruct Ht as (k & t & Hin & Htne). apply tlen_pos in Htne.
        apply in_app_or in Hin as [Hin|[Hin|Hin]].
        + apply glens_in in Hin. simpl in Hin. lia.
        + subst g. discriminate.
        + apply glens_in in Hin. simpl in Hin. lia.
      - destruct g as [kg tg|kg cg]; [discriminate|]. simpl. apply (Hr kg cg). subst ca. apply in_elt. }
    assert (Hup : length (ups c) = S (length (ups a))).
    { apply child_in in Hc as (l & g & r & _ & ->). reflexivity. }
    assert (Hup2 : length (ups c) <= length (ups b)).
    { clear - Hcb. induction Hcb as [|p d H IH Hd]; [lia|].
      apply child_in in Hd as (l & g & r & _ & ->). simpl. lia. }
    destruct (Nat.eq_dec (length (ups c)) (length (ups b))) as [He|He].
    - assert (c = b).
      { apply Desc_top in Hcb as [->|(d & Hd & Hdb)]; [reflexivity|].
        assert (length (ups d) <= length (ups b)).
        { clear - Hdb. induction Hdb as [|p d' H IH Hd']; [lia|].
          apply child_in in Hd' as (l & g & r & _ & ->). simpl. lia. }
        apply child_in in Hd as (l & g & r & _ & ->). simpl in *. lia. }
      subst c. exact Hk.
    - assert (rank (ekind b) < rank (ekind c)); [|lia].
      eapply (IH (length (ups b) - length (ups c))); try lia; try reflexivity; auto.
      + intros ->. congruence.
  Qed.

  Lemma desc_empty a b : InTree tree a -> Desc a b -> a <> b -> is_node b = true ->
    glen (el b) = 0 -> off a < off b.
  Proof.
    intros Ha Hd Hne Hb Hz. inversion Hd as [|p c Hp' Hc]; subst; [congruence|].
    pose proof (Desc_range _ _ Hp') as Hr. unfold estart in Hr.
    assert (Hpt : InTree tree p) by (eapply Desc_trans; eauto).
    apply child_in in Hc as (l & g & r & Heq & ->). simpl in *.
    unfold is_node in Hb. simpl in Hb. destruct g as [k t|k cs]; [discriminate|].
    pose proof (Desc_Sub _ _ Hpt) as Hs. destruct (el p) as [kp tp|kp cp]; [destruct l; discriminate|].
    destruct (sub_empty kp cp l k cs r Hs Heq Hz) as [_ Hl]. lia.
  Qed.

  Theorem node_unique a b : InTree tree a -> InTree tree b ->
    is_node a = true -> is_node b = true -> ekind a = ekind b ->
    off a = off b -> glen (el a) = glen (el b) -> a = b.
  Proof.
    intros Ha Hb Na Nb Hk Ho Hl.
    assert (Hdec : forall a b, Desc a b -> InTree tree a -> is_node b = true ->
      ekind a = ekind b -> glen (el a) = glen (el b) -> a = b).
    { clear a b Ha Hb Na Nb Hk Ho Hl. intros a b Hd Ha Nb Hk Hl.
      apply Desc_top in Hd as Hd'. destruct Hd' as [->|(c & Hc & Hcb)]; [reflexivity|].
      exfalso. assert (Hne : a <> b).
      { intros ->. assert (length (ups c) <= length (ups b)).
        { clear - Hcb. induction Hcb as [|p d H IH Hd]; [lia|].
          apply child_in in Hd as (l & g & r & _ & ->). simpl. lia. }
        apply child_in in Hc as (l & g & r & _ & ->). simpl in *. lia. }
      pose proof (desc_rank _ _ Ha Hd Nb Hne Hl). rewrite Hk in H. lia. }
    assert (Hsep : forall a b p l ga m gb r ca cb, InTree tree p ->
      gchildren (el p) = l ++ ga :: m ++ gb :: r ->
      ca = mk_elem ga (off p + glens l) (mk_up (el p) (off p) (length l) :: ups p) ->
      cb = mk_elem gb (off p + glens (l ++ ga :: m)) (mk_up (el p) (off p) (length (l ++ ga :: m)) :: ups p) ->
      Desc ca a -> Desc cb b -> is_node a = true -> is_node b = true ->
      off a = off b -> glen (el a) = glen (el b) -> False).
    { clear a b Ha Hb Na Nb Hk Ho Hl.
      intros a b p l ga m gb r ca cb Hpt Heq Eca Ecb Da Db Na Nb Ho Hl.
      pose proof (Desc_range _ _ Da) as Ra. pose proof (Desc_range _ _ Db) as Rb.
      unfold estart, eend in *. rewrite Eca in Ra. rewrite Ecb in Rb. simpl in Ra, Rb.
      rewrite glens_app, glens_cons in Rb.
      assert (Hza : glen (el a) = 0) by lia. assert (Hzb : glen (el b) = 0) by lia.
      assert (Hcb : In cb (children_with_tokens p)).
      { apply child_in. exists (l ++ ga :: m), gb, r. rewrite Heq, <- app_assoc. split; [reflexivity|exact Ecb]. }
      assert (Hcbt : InTree tree cb) by (econstructor; eauto).
      assert (Hb : cb = b).
      { apply Desc_top in Db as Db'. destruct Db' as [E|(d & Hd & Hdb)]; [exact E|]. exfalso.
        assert (Hne : cb <> b).
        { intros Eb. rewrite <- Eb in Hdb. apply Desc_range in Hdb as Hx.
          assert (length (ups d) <= length (ups cb)).
          { clear - Hdb. induction Hdb as [|p d' H IH Hd']; [lia|].
            apply child_in in Hd' as (l & g & r & _ & ->). simpl. lia. }
          apply child_in in Hd as (l2 & g2 & r2 & _ & ->). simpl in *. lia. }
        pose proof (desc_empty _ _ Hcbt Db Hne Nb Hzb) as Hlt.
        rewrite Ecb in Hlt. simpl in Hlt. rewrite glens_app, glens_cons in Hlt. lia. }
      rewrite <- Hb, Ecb in Nb, Hzb. unfold is_node in Nb. simpl in Nb, Hzb.
      destruct gb as [kb tb|kb csb]; [discriminate|].
      pose proof (Desc_Sub _ _ Hpt) as Hs. destruct (el p) as [kp tp|kp cp]; [destruct l; discriminate|].
      simpl in Heq. assert (Heq' : cp = (l ++ ga :: m) ++ Node kb csb :: r) by (rewrite Heq, <- app_assoc; reflexivity).
      destruct (sub_empty kp cp _ kb csb r Hs Heq' Hzb) as [Hf _].
      rewrite Forall_forall in Hf. specialize (Hf ga ltac:(apply in_elt)).
      pose proof (Desc_Sub _ _ Da) as Hsa. rewrite Eca in Hsa. simpl in Hsa.
      unfold is_node in Na. destruct (el a) as [ka ta|ka csa]; [discriminate|].
      apply Hf in Hsa. simpl in Hza. unfold glens in Hsa. lia. }
    destruct (Desc_cases tree a b Ha Hb) as [H|[H|H]].
    - now apply Hdec.
    - symmetry. apply Hdec; auto.
    - exfalso. destruct H as (p & l & ga & m & gb & r & ca & cb & Hpt & Heq & Eca & Ecb & [[H1 H2]|[H1 H2]]).
      + eapply Hsep; eauto.
      + eapply (Hsep b a); eauto.
  Qed.
End Tree.
