(** Type diagnostics, one by one: which messages, and where.  Part of
    property C29. *)

From Coq Require Import String List NArith Bool Arith Lia.
From Verif Require Import Text Kind Green SpecParser Lexer LexerFacts Winnow Grammar Sem Lossless Total
  Bounds Lang TokForm Shape ThmParser Red Unique LineIndex Cursor Doc Ast Binder Preorder SpecBinder BinderFacts BinderDefs Blocks
  Nav NavSpec NavFacts ThmNav RefFacts ThmRefs SymCases TokKinds InstrMeta Types Check CheckFacts CheckMsgs ThmCheck SpecTypes SigFacts
  ThmTypeck SpecTypeReport.
Import ListNotations.

Definition Has (ds : list diag) (r : range) (m : text) : Prop := exists d, In d ds /\ d_range d = r /\ d_message d = m.
Lemma has_app a b r m : Has (a ++ b) r m <-> Has a r m \/ Has b r m.
Proof.
  unfold Has. split.
  - intros (d & H & X). apply in_app_or in H as [H|H]; eauto.
  - intros [(d & H & X)|(d & H & X)]; exists d; split; auto; apply in_or_app; auto.
Qed.
Lemma has_nil r m : ~ Has [] r m.
Proof. intros (d & [] & _). Qed.
Lemma has_one d r m : Has [d] r m <-> d_range d = r /\ d_message d = m.
Proof. split; [intros (x & [<-|[]] & H); exact H|intros H; exists d; split; [now left|exact H]]. Qed.

Section Doc.
  Variable src : text.
  Notation tree := (tree_of src).
  Notation tb := (the_table src).

  Definition At (o : elem) (r : range) : Prop := range_of src o = Ans r.
  Lemma has_at o msg d r m : diag_at src o msg = Ans d -> (Has [d] r m <-> At o r /\ m = msg).
  Proof.
    unfold diag_at, At. destruct (range_of src o) as [r'| |]; cbn [abind]; try discriminate. intros H. injection H as <-.
    rewrite has_one. cbn [d_range d_message]. split; intros [A B]; split; congruence.
  Qed.
  Lemma mismatch_has p ds r m : type_mismatch src p = Ans ds ->
    (Has ds r m <-> exists a b, fst (fst p) = OVal a /\ fst (snd p) = OVal b /\ a <> b /\ At (snd (snd p)) r /\ m = says_types a b).
  Proof.
    destruct p as [[x rel] [y e]]. cbn [fst snd]. unfold At. destruct x as [x|], y as [y|]; cbn [type_mismatch].
    2,3,4: intros H; injection H as <-; split; [intros H; now apply has_nil in H|intros (a & b & A & B & _); discriminate].
    destruct (valtype_eqb x y) eqn:E.
    { apply valtype_eqb_eq in E. subst y. intros H. injection H as <-. split; [intros H; now apply has_nil in H|].
      intros (a & b & A & B & N & _). congruence. }
    assert (Nx : x <> y). { intros ->. rewrite (proj2 (valtype_eqb_eq y y) eq_refl) in E. discriminate. }
    destruct (range_of src e) as [r'| |]; cbn [abind]; try discriminate.
    intros H. assert (exists rl, ds = [mk_diag r' (mismatch_msg x y) rl]) as (rl & ->).
    { destruct rel as [k|]; [destruct (key_range src k)|]; cbn [abind] in H; try discriminate; injection H as <-; eauto. }
    rewrite has_one. cbn [d_range d_message]. split.
    - intros [<- <-]. exists x, y. auto.
    - intros (a & b & A & B & _ & C & ->). split; [congruence|]. injection A as <-. injection B as <-. reflexivity.
  Qed.
  Lemma mismatches_has ps : forall rs ds r m, type_mismatches src ps rs = Ans ds ->
    (Has ds r m <-> exists a b o, Wrong (map fst ps) rs o a b /\ At o r /\ m = says_types a b).
  Proof.
    unfold type_mismatches. induction ps as [|p ps IH]; intros rs ds r m H.
    - cbn in H. injection H as <-. split; [intros X; now apply has_nil in X|]. intros (a & b & o & (i & A & _) & _). now destruct i.
    - destruct rs as [|q rs]; cbn [combine map_ans abind] in H.
      { cbn in H. injection H as <-. split; [intros X; now apply has_nil in X|]. intros (a & b & o & (i & _ & A & _) & _). now destruct i. }
      destruct (type_mismatch src (p, q)) as [d| |] eqn:E; cbn [abind] in H; try discriminate.
      destruct (map_ans (type_mismatch src) (combine ps rs)) as [l| |] eqn:El; cbn [abind] in H; try discriminate.
      injection H as <-. specialize (IH rs (concat l) r m). rewrite El in IH. specialize (IH eq_refl).
      cbn [concat]. rewrite has_app, IH, (mismatch_has _ _ r m E). cbn [fst snd map]. split.
      + intros [(a & b & A & B & N & C & D)|(a & b & o & (i & A & B & N) & C & D)].
        * exists a, b, (snd q). split; [|auto]. exists 0. cbn. split; [congruence|]. split; [|exact N]. destruct q; cbn in *. congruence.
        * exists a, b, o. split; [|auto]. exists (S i). auto.
      + intros (a & b & o & ([|i] & A & B & N) & C & D).
        * left. cbn in A, B. injection A as A. injection B as ->. exists a, b. auto.
        * right. exists a, b, o. split; [|auto]. exists i. auto.
  Qed.

  Lemma given_fun l : (forall o, In o l -> InTree tree o) ->
    forall ts ts', Given src l ts -> Given src l ts' -> ts = ts'.
  Proof.
    induction l as [|o l IH]; intros Hl ts ts' A B; inversion A; inversion B; subst; try congruence.
    - match goal with H1 : inside o = Some ?a, H2 : inside o = Some ?b |- _ => assert (a = b) as <- by congruence; pose proof (inside_tree src o a (Hl o (or_introl eq_refl)) H1) as Ti end.
      f_equal; [f_equal; eapply yields_fun; eauto|]. apply IH; auto. intros x Hx. apply Hl. now right.
    - apply IH; auto. intros x Hx. apply Hl. now right.
  Qed.
  Lemma receive_given known l : (forall o, In o l -> InTree tree o) ->
    forall rc r m, map_ans (receive src tb known) l = Ans rc ->
    Given src l (concat (map fst rc))
    /\ (Has (concat (map snd rc)) r m <-> known = true /\ exists o, In o l /\ inside o = None /\ At o r /\ m = Text.T "expected instr").
  Proof.
    induction l as [|o l IH]; intros Hl rc r m H; cbn [map_ans] in H.
    - injection H as <-. split; [constructor|]. cbn. split; [intros X; now apply has_nil in X|intros (_ & o & [] & _)].
    - destruct (receive src tb known o) as [[q d]| |] eqn:R; cbn [abind] in H; try discriminate.
      destruct (map_ans (receive src tb known) l) as [rc'| |] eqn:M; cbn [abind] in H; try discriminate. injection H as <-.
      destruct (IH (fun x Hx => Hl x (or_intror Hx)) rc' r m eq_refl) as [A B]. cbn [map concat fst snd].
      unfold receive in R. change (operand_instr o) with (inside o) in R. destruct (inside o) as [i|] eqn:I.
      + destruct (catch (resolve_type src tb i)) as [t| |] eqn:Er; cbn [abind] in R; try discriminate. injection R as <- <-.
        assert (Y : Yields src i (match t with Some x => x | None => [] end)).
        { apply (yields_iff src i); [eapply inside_tree; [apply Hl; now left|exact I]|eauto]. }
        split.
        * replace (match t with Some ts => map (fun t0 => (t0, o)) ts | None => [] end)
            with (map (fun t0 => (t0, o)) (match t with Some x => x | None => [] end)) by (now destruct t).
          eapply Given_instr; eauto.
        * cbn [app]. rewrite B. split; intros [K (x & Hx & X)]; (split; [exact K|]).
          -- exists x. split; [now right|exact X].
          -- destruct Hx as [<-|Hx]; [destruct X; congruence|]. eauto.
      + destruct known.
        * destruct (diag_at src o (Text.T "expected instr")) as [d'| |] eqn:Ed; cbn [abind] in R; try discriminate. injection R as <- <-. split.
          -- cbn [app]. now apply Given_other.
          -- rewrite has_app, (has_at _ _ _ r m Ed), B. split.
             ++ intros [[X ->]|[_ (x & Hx & X)]]; (split; [reflexivity|]).
                ** exists o. split; [now left|auto].
                ** exists x. split; [now right|auto].
             ++ intros [_ (x & [<-|Hx] & X1 & X2 & X3)]; [left; auto|right]. split; [reflexivity|]. eauto.
        * injection R as <- <-. split; [cbn [app]; now apply Given_other|]. cbn [app]. rewrite B. split; intros [K _]; discriminate.
  Qed.

  Lemma count_eq a b : count_msg a b = says_count a b.
  Proof. unfold count_msg, says_count. destruct (Nat.eqb a 1); reflexivity. Qed.

  Lemma folded_has e ds r m : InTree tree e -> token e L_PAREN <> None -> check_folded src tb e = Ans ds ->
    (Has ds r m <-> exists o, At o r /\ FoldedReport src e o m).
  Proof.
    intros T Lp H. unfold check_folded in H. destruct (token e L_PAREN); [clear Lp|congruence].
    destruct (instr_name_of e) as [nm|] eqn:Nm.
    2:{ injection H as <-. split; [intros X; now apply has_nil in X|]. intros (o & _ & X).
        assert (N : forall x, ~ Called e x) by (intros x X'; apply called_iff in X'; congruence).
        assert (NI : forall k, ~ Immediates e k) by (intros k [[X' _]|[(x & y & X' & _)|(x & X' & _)]]; now apply N in X').
        destruct X; match goal with H : Immediates e _ |- _ => now apply NI in H end. }
    apply called_iff in Nm. pose proof (immediates_iff e nm Nm) as Im.
    set (k := if text_eqb nm (Text.T "call") then 1 else match meta_of nm with Some m => m_operands_count m | None => 0 end) in *.
    assert (Ik : Immediates e k) by now apply Im.
    destruct (map_ans _ _) as [rc| |] eqn:M in H; cbn [abind] in H; try discriminate.
    assert (Ha : forall o, In o (skipn k (childs e OPERAND)) -> InTree tree o).
    { intros o Ho. assert (Hin : In o (childs e OPERAND)).
      { rewrite <- (firstn_skipn k). apply in_or_app. now right. }
      apply (in_tree_childs src e OPERAND o T Hin). }
    destruct (receive_given _ _ Ha rc r m M) as [Rc D1].
    assert (D1' : Has (concat (map snd rc)) r m <-> exists o x y, Called e x /\ Row x y /\ In o (skipn k (childs e OPERAND)) /\ inside o = None /\ At o r /\ m = Text.T "expected instr").
    { rewrite D1. split.
      - intros (K & o & H1 & H2 & H3 & H4). destruct (meta_of nm) as [y|] eqn:E; [|discriminate]. exists o, nm, y. apply meta_row in E. auto 10.
      - intros (o & x & y & H1 & H2 & H3). split; [|eauto]. rewrite (called_fun e _ _ Nm H1). apply meta_row in H2. now rewrite H2. }
    destruct (resolve_expected_types src tb e) as [xs| |] eqn:X; cbn [catch abind] in H; try discriminate.
    2:{ injection H as <-. assert (NT : forall ps, ~ Takes src e ps).
        { intros ps P. apply (takes_iff src e T) in P as (xs & P & _). congruence. }
        rewrite D1'. split.
        - intros (o & x & y & H1 & H2 & H3 & H4 & H5 & ->). exists o. split; [exact H5|]. eapply FR_instr; eauto.
        - intros (o & Ho & FR). destruct FR as [k' x y o Hk Hc Hr Hin Hi|k' ps rs n Hk P|k' ps rs o a b Hk P]; [|now apply NT in P..].
          apply Im in Hk. subst k'. exists o, x, y. auto 10. }
    assert (P : Takes src e (map fst xs)) by (apply (takes_iff src e T); eauto).
    assert (EL : length xs = length (map fst xs)) by (symmetry; apply map_length).
    match type of H with abind ?a _ = _ => destruct a as [da| |] eqn:Ea; cbn [abind] in H; try discriminate end.
    destruct (type_mismatches src xs _) as [db| |] eqn:Eb in H; cbn [abind] in H; try discriminate. injection H as <-.
    pose proof (mismatches_has xs _ db r m Eb) as Mm. rewrite !has_app, D1', Mm.
    set (n := length (concat (map fst rc)) + length (filter (fun o => match operand_instr o with None => true | Some _ => false end) (operands e))) in *.
    assert (Da : Has da r m <-> length xs + k <> n /\ At e r /\ m = says_count (length xs + k) n).
    { destruct (Nat.eqb_spec (length xs + k) n) as [Q|Q].
      - injection Ea as <-. split; [intros Z; now apply has_nil in Z|]. intros [Z _]. congruence.
      - destruct (diag_at src e _) as [d| |] eqn:Ed; cbn [abind] in Ea; try discriminate. injection Ea as <-.
        rewrite (has_at _ _ _ r m Ed), count_eq. tauto. }
    rewrite Da. clear Da. split.
    - intros [(o & x & y & H1 & H2 & H3 & H4 & H5 & ->)|[(H1 & H2 & ->)|(a & b & o & H1 & H2 & ->)]].
      + exists o. split; [exact H5|]. eapply FR_instr; eauto.
      + exists e. split; [exact H2|]. rewrite EL in *. eapply FR_count; eauto.
      + exists o. split; [exact H2|]. eapply FR_type; eauto.
    - intros (o & Ho & FR). destruct FR as [k' x y o Hk Hc Hr Hin Hi|k' ps rs n' Hk P' G Hn Q|k' ps rs o a b Hk P' G W].
      + left. apply Im in Hk. subst k'. exists o, x, y. auto 10.
      + right. left. apply Im in Hk. subst k'. rewrite <- (takes_fun src e _ _ T P P') in *. rewrite (given_fun _ Ha _ _ G Rc) in Hn.
        change (n' = n) in Hn. subst n'. rewrite <- EL in *. auto.
      + right. right. apply Im in Hk. subst k'. rewrite <- (takes_fun src e _ _ T P P') in W. rewrite (given_fun _ Ha _ _ G Rc) in W.
        exists a, b, o. auto.
  Qed.

  Lemma loop_has l : forall st ds r m, (forall e, In e l -> InTree tree e) -> stack_loop src tb st l = Ans ds ->
    (Has ds r m <-> exists l1 e l2 st', l = l1 ++ e :: l2 /\ Steps src st l1 st' /\ ekind e = PLAIN_INSTR /\ token e L_PAREN = None
       /\ exists o, At o r /\ StackReport src e st' o m).
  Proof.
    induction l as [|e l IH]; intros st ds r m Hl H; cbn [stack_loop] in H.
    { injection H as <-. split; [intros Z; now apply has_nil in Z|]. intros (l1 & e & l2 & _ & E & _). now destruct l1. }
    pose proof (Hl e (or_introl eq_refl)) as T. assert (Hl' : forall e, In e l -> InTree tree e) by (intros x Hx; apply Hl; now right).
    destruct (stack_step src tb st e) as [[st' d1]| |] eqn:S; cbn [abind fst snd] in H; try discriminate.
    destruct (stack_loop src tb st' l) as [d2| |] eqn:L; cbn [abind] in H; try discriminate. injection H as <-.
    specialize (IH st' d2 r m Hl' L). rewrite has_app, IH. clear IH L.
    (* the rest of the list, from the stack after [e] *)
    assert (Step : (forall l1 x, Steps src st (e :: l1) x <-> Steps src st' l1 x) ->
       (Has d1 r m <-> ekind e = PLAIN_INSTR /\ token e L_PAREN = None /\ exists o, At o r /\ StackReport src e st o m) ->
       (Has d1 r m \/ (exists l1 x l2 y, l = l1 ++ x :: l2 /\ Steps src st' l1 y /\ ekind x = PLAIN_INSTR /\ token x L_PAREN = None
          /\ exists o, At o r /\ StackReport src x y o m) <->
        exists l1 x l2 y, e :: l = l1 ++ x :: l2 /\ Steps src st l1 y /\ ekind x = PLAIN_INSTR /\ token x L_PAREN = None
          /\ exists o, At o r /\ StackReport src x y o m)).
    { intros HS HD. split.
      - intros [Z|(l1 & x & l2 & y & -> & Hs & Z)].
        + apply HD in Z. exists [], e, l, st. split; [reflexivity|]. split; [constructor|exact Z].
        + exists (e :: l1), x, l2, y. split; [reflexivity|]. split; [now apply HS|exact Z].
      - intros ([|z l1] & x & l2 & y & E & Hs & Z); cbn [app] in E.
        + injection E as <- <-. inversion Hs; subst. left. now apply HD.
        + injection E as <- ->. right. exists l1, x, l2, y. split; [reflexivity|]. split; [now apply HS|exact Z]. }
    apply Step; clear Step; unfold stack_step in S; destruct (kind_eqb (ekind e) PLAIN_INSTR) eqn:K.
    2:{ injection S as <- <-. intros l1 x. assert (K' : ekind e <> PLAIN_INSTR) by (intros X; rewrite X in K; discriminate).
        split; [intros Z; inversion Z; subst; congruence|now apply Steps_block]. }
    3:{ injection S as <- <-. split; [intros Z; now apply has_nil in Z|]. intros [X _]. rewrite X in K. discriminate. }
    - apply kind_eqb_eq in K. intros l1 x.
      destruct (resolve_expected_types src tb e) as [xs| |] eqn:X; cbn [catch abind] in S; try discriminate.
      2:{ injection S as <- <-. assert (Hn : forall ps, ~ Takes src e ps).
          { intros ps P. apply (takes_iff src e T) in P as (xs & P & _). congruence. }
          split; [|now apply Steps_unknown]. intros Z. inversion Z; subst; try congruence; now destruct (Hn ps). }
      assert (P : Takes src e (map fst xs)) by (apply (takes_iff src e T); eauto).
    assert (EL : length xs = length (map fst xs)) by (symmetry; apply map_length).
      match type of S with abind ?a _ = _ => destruct a as [da| |] eqn:Ea; cbn [abind] in S; try discriminate end.
      destruct (type_mismatches src xs _) as [db| |] eqn:Eb in S; cbn [abind] in S; try discriminate.
      destruct (catch (resolve_type src tb e)) as [q| |] eqn:Er; cbn [abind] in S; try discriminate.
      injection S as <- <-.
      assert (Y : Yields src e (match q with Some x => x | None => [] end)) by (apply (yields_iff src e T); eauto).
      replace (match q with Some ts => map (fun t => (t, e)) ts | None => [] end)
        with (map (fun t => (t, e)) (match q with Some x => x | None => [] end)) by (now destruct q).
      set (rs := match q with Some x => x | None => [] end) in *. clearbody rs.
      destruct (token e L_PAREN) as [lp|] eqn:Lp.
      + rewrite Nat.sub_0_r, firstn_all. split.
        * intros Z. inversion Z; subst; try congruence.
          { match goal with H : forall ps, ~ Takes src e ps |- _ => now destruct (H (map fst xs)) end. }
          match goal with H : Yields src e _ |- _ => now rewrite (yields_fun src e _ _ T Y H) end.
        * intros Z. eapply Steps_folded; eauto. congruence.
      + split.
        * intros Z. inversion Z; subst; try congruence.
          { match goal with H : forall ps, ~ Takes src e ps |- _ => now destruct (H (map fst xs)) end. }
          match goal with H : Yields src e _, H2 : Takes src e _ |- _ => rewrite (yields_fun src e _ _ T Y H);
            rewrite EL, (takes_fun src e _ _ T P H2) end. assumption.
        * intros Z. eapply Steps_plain; eauto. now rewrite <- EL.
    - apply kind_eqb_eq in K.
      destruct (resolve_expected_types src tb e) as [xs| |] eqn:X; cbn [catch abind] in S; try discriminate.
      2:{ injection S as <- <-. assert (Hn : forall ps, ~ Takes src e ps).
          { intros ps P. apply (takes_iff src e T) in P as (xs & P & _). congruence. }
          split; [intros Z; now apply has_nil in Z|]. intros (_ & _ & o & _ & Z). destruct Z as [ps Z|ps o a b Z]; now apply Hn in Z. }
      assert (P : Takes src e (map fst xs)) by (apply (takes_iff src e T); eauto).
    assert (EL : length xs = length (map fst xs)) by (symmetry; apply map_length).
      match type of S with abind ?a _ = _ => destruct a as [da| |] eqn:Ea; cbn [abind] in S; try discriminate end.
      destruct (type_mismatches src xs _) as [db| |] eqn:Eb in S; cbn [abind] in S; try discriminate.
      destruct (catch (resolve_type src tb e)) as [q| |] eqn:Er; cbn [abind] in S; try discriminate.
      injection S as _ <-. rewrite has_app, (mismatches_has _ _ _ r m Eb).
      destruct (token e L_PAREN) as [lp|] eqn:Lp.
      + cbn [Nat.leb] in Ea. injection Ea as <-. rewrite Nat.sub_0_r, skipn_all. split.
        * intros [Z|(a & b & o & (i & _ & Z & _) & _)]; [now apply has_nil in Z|now destruct i].
        * intros (_ & Z & _). discriminate Z.
      + assert (Da : Has da r m <-> length st < length xs /\ At e r /\ m = says_count (length xs) (length st)).
        { destruct (Nat.leb_spec (length xs) (length st)) as [Q|Q].
          - injection Ea as <-. split; [intros Z; now apply has_nil in Z|]. unfold expected_type in *. lia.
          - destruct (diag_at src e _) as [d| |] eqn:Ed; cbn [abind] in Ea; try discriminate. injection Ea as <-.
            rewrite (has_at _ _ _ r m Ed), count_eq. tauto. }
        rewrite Da. clear Da. split.
        * intros [(H1 & H2 & ->)|(a & b & o & H1 & H2 & ->)]; (split; [exact K|]); (split; [reflexivity|]).
          -- exists e. split; [exact H2|]. rewrite EL in *. now apply SR_count.
          -- exists o. split; [exact H2|]. rewrite EL in H1. eapply SR_type; eauto.
        * intros (_ & _ & o & Ho & Z). destruct Z as [ps P' Z|ps o a b P' W].
          -- left. rewrite <- (takes_fun src e _ _ T P P') in *. rewrite <- EL in *. auto.
          -- right. rewrite <- (takes_fun src e _ _ T P P') in *. rewrite <- EL in W. exists a, b, o. auto.
  Qed.
  Lemma stacked_has f ds r m : InTree tree f -> check_stacked src tb f = Ans ds ->
    (Has ds r m <-> exists l1 e l2 st, body f = l1 ++ e :: l2 /\ (exists x, In x (body f) /\ token x L_PAREN = None) /\ Steps src [] l1 st
       /\ ekind e = PLAIN_INSTR /\ token e L_PAREN = None /\ exists o, At o r /\ StackReport src e st o m).
  Proof.
    intros T H. unfold check_stacked in H. change (filter is_instr (children f)) with (body f) in H.
    destruct (forallb _ (body f)) eqn:F in H.
    - injection H as <-. split; [intros Z; now apply has_nil in Z|]. intros (l1 & e & l2 & st & _ & (x & Hx & L) & _).
      rewrite forallb_forall in F. specialize (F x Hx). rewrite L in F. discriminate.
    - assert (Hb : forall e, In e (body f) -> InTree tree e).
      { intros e He. apply filter_In in He as [He _]. now apply (in_tree_child src f). }
      rewrite (loop_has (body f) [] ds r m Hb H). split.
      + intros (l1 & e & l2 & st & E & A & B & C & D). exists l1, e, l2, st. split; [exact E|]. split; [|auto].
        exists e. split; [|exact C]. rewrite E. apply in_elt.
      + intros (l1 & e & l2 & st & E & _ & A). exists l1, e, l2, st. auto.
  Qed.

  Lemma given_in l rs : Given src l rs -> forall t o, In (t, o) rs -> In o l.
  Proof.
    induction 1 as [|o i l ts rest _ _ _ IH|o l rest _ _ IH]; intros t x Hin; [destruct Hin| |right; eauto].
    apply in_app_or in Hin as [Hin|Hin]; [|right; eauto]. apply in_map_iff in Hin as (y & E & _). injection E as _ ->. now left.
  Qed.
  Lemma steps_in st l st' : Steps src st l st' -> forall t o, In (t, o) st' -> In (t, o) st \/ In o l.
  Proof.
    induction 1 as [st|st e l st' _ _ IH|st e l st' _ _ _ IH|st e l ps rs st' _ _ _ _ _ IH|st e l ps rs st' _ _ _ _ _ IH]; intros t o Hin; [now left|..];
      destruct (IH _ _ Hin) as [X|X]; try (right; now right); [now left|now left| |].
    - apply in_app_or in X as [X|X]; [now left|]. apply in_map_iff in X as (y & E & _). injection E as _ ->. right. now left.
    - apply in_app_or in X as [X|X].
      + left. rewrite <- (firstn_skipn (length st - length ps)). apply in_or_app. now left.
      + apply in_map_iff in X as (y & E & _). injection E as _ ->. right. now left.
  Qed.
  Lemma wrong_in ps rs o a b : Wrong ps rs o a b -> In (OVal b, o) rs.
  Proof. intros (i & _ & H & _). eapply nth_error_In, H. Qed.
  (** What is reported on is in the document. *)
  Lemma report_tree o m : TypeReport src o m -> InTree tree o.
  Proof.
    assert (Ha : forall e k o, InTree tree e -> In o (skipn k (childs e OPERAND)) -> InTree tree o).
    { intros e k x T Ho. assert (Hin : In x (childs e OPERAND)).
      { rewrite <- (firstn_skipn k). apply in_or_app. now right. }
      apply (in_tree_childs src e OPERAND x T Hin). }
    intros [e T N K L FR|f l e r st T N K E U S Ke Le SR].
    - destruct FR as [k x y o _ _ _ Hin _|k ps rs n _ _ _ _ _|k ps rs o a b _ _ G W]; [eauto|exact T|].
      apply wrong_in in W. eapply given_in in W; eauto.
    - assert (Hb : forall x, In x (body f) -> InTree tree x).
      { intros x Hx. apply filter_In in Hx as [Hx _]. now apply (in_tree_child src f). }
      rewrite E in Hb. destruct SR as [ps _ _|ps o a b _ W]; [apply Hb, in_elt|].
      apply wrong_in in W. assert (X : In (OVal b, o) st).
      { rewrite <- (firstn_skipn (length st - length ps)). apply in_or_app. now right. }
      destruct (steps_in _ _ _ S _ _ X) as [[]|Y]. apply Hb, in_or_app. now left.
  Qed.
  Lemma at_range o r : InTree tree o -> (At o r <-> RangeOf src o r).
  Proof.
    intros T. destruct (range_of_ok src o T) as (r' & E & [R1 R2]). unfold At. rewrite E. split.
    - intros H. injection H as <-. split; assumption.
    - intros [H1 H2]. f_equal. destruct r as [p q], r' as [p' q']. cbn in *. congruence.
  Qed.
End Doc.

(** The type diagnostics of a document, one by one: a message is reported on
    a range exactly when the specification says so for the element there. *)
Theorem C29_reports src ds r m : check src = Ans ds ->
  ((TypeMsg m /\ exists d, In d ds /\ d_range d = r /\ d_message d = m) <->
   exists o, InTree (tree_of src) o /\ RangeOf src o r /\ TypeReport src o m).
Proof.
  intros H. pose proof (fun d => check_types src ds d H) as Ct. split.
  - intros (M & d & Hd & <- & <-). apply type_class in M.
    destruct (proj1 (Ct d) (conj Hd M)) as (n & T & N & [[K (l & E & Hl)]|[K (l & E & Hl)]]).
    + destruct (token n L_PAREN) eqn:L.
      * assert (Ln : token n L_PAREN <> None) by congruence.
        assert (Hs : Has l (d_range d) (d_message d)) by (exists d; auto).
        apply (folded_has src n l _ _ T Ln E) in Hs as (o & Ao & FR).
        assert (TR : TypeReport src o (d_message d)) by (eapply TR_folded; eauto). pose proof (report_tree src o _ TR) as To.
        exists o. split; [exact To|]. split; [now apply at_range|exact TR].
      * unfold check_folded in E. rewrite L in E. destruct instr_name_of; injection E as <-; destruct Hl.
    + assert (Hs : Has l (d_range d) (d_message d)) by (exists d; auto).
      apply (stacked_has src n l _ _ T E) in Hs as (l1 & e & l2 & st & Eb & U & S & Ke & Le & o & Ao & SR).
      assert (TR : TypeReport src o (d_message d)).
      { eapply TR_stack; eauto. cbn. intuition congruence. }
      pose proof (report_tree src o _ TR) as To. exists o. split; [exact To|]. split; [now apply at_range|exact TR].
  - intros (o & To & Ro & TR). apply at_range in Ro; [|exact To].
    assert (X : exists d, (In d ds /\ classify (d_message d) = CType) /\ d_range d = r /\ d_message d = m /\ TypeMsg (d_message d)).
    { destruct TR as [e T N K L FR|f l e q st T N K E U S Ke Le SR].
      - destruct (folded_fine src e T) as (l & El & _).
        assert (Hs : Has l r m) by (apply (folded_has src e l r m T L El); eauto). destruct Hs as (d & Hd & Hr & Hm).
        assert (A : among d (check_folded src (the_table src) e)) by (exists l; auto).
        exists d. split; [apply Ct; exists e; auto|]. split; [exact Hr|]. split; [exact Hm|]. eapply folded_msg; eauto.
      - destruct (stacked_fine src f T) as (ls & El & _).
        assert (Hs : Has ls r m) by (apply (stacked_has src f ls r m T El); exists l, e, q, st; eauto 10). destruct Hs as (d & Hd & Hr & Hm).
        assert (A : among d (check_stacked src (the_table src) f)) by (exists ls; auto).
        exists d. split; [apply Ct; exists f; split; [exact T|]; split; [exact N|]; right; split; [cbn in K; intuition congruence|exact A]|].
        split; [exact Hr|]. split; [exact Hm|]. eapply stacked_msg; eauto. }
    destruct X as (d & [Hd _] & Hr & Hm & M). split; [congruence|]. exists d. auto.
Qed.
Print Assumptions C29_reports.
