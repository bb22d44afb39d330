(** Type diagnostics: property C29. *)

From Coq Require Import String List NArith Bool Arith Lia.
From Verif Require Import Text Kind Green SpecParser Lexer LexerFacts Winnow Grammar Sem Lossless Total
  Bounds Lang TokForm Shape ThmParser Red Unique LineIndex Cursor Doc Ast Binder Preorder SpecBinder BinderFacts BinderDefs Blocks
  Nav NavSpec NavFacts ThmNav RefFacts ThmRefs SymCases TokKinds InstrMeta Types Check CheckFacts CheckMsgs ThmCheck SpecTypes SigFacts.
Import ListNotations.

Lemma valtype_eqb_eq a b : valtype_eqb a b = true <-> a = b.
Proof. destruct a, b; cbn; split; congruence. Qed.
Lemma mismatch_nil src p ds : type_mismatch src p = Ans ds -> (ds = [] <-> Fits (fst (fst p)) (fst (snd p))).
Proof.
  destruct p as [[x rel] [y e]]. cbn [fst snd]. unfold Fits. destruct x as [x|], y as [y|]; cbn [type_mismatch].
  - destruct (valtype_eqb x y) eqn:E.
    + apply valtype_eqb_eq in E. subst y. intros H. injection H as <-. split; [|reflexivity]. intros _ a b A B. congruence.
    + destruct (range_of src e); cbn [abind]; try discriminate.
      intros H. assert (ds <> []) as Hn.
      { destruct rel as [k|]; [destruct (key_range src k)|]; cbn [abind] in H; try discriminate; injection H as <-; discriminate. }
      split; [now intros ->|]. intros F. rewrite (F x y eq_refl eq_refl) in E.
      assert (valtype_eqb y y = true) by now apply valtype_eqb_eq. congruence.
  - intros H. injection H as <-. split; [|reflexivity]. intros _ a b _ B. discriminate.
  - intros H. injection H as <-. split; [|reflexivity]. intros _ a b A _. discriminate.
  - intros H. injection H as <-. split; [|reflexivity]. intros _ a b A _. discriminate.
Qed.
Lemma mismatches_nil src ps : forall rs ds, type_mismatches src ps rs = Ans ds ->
  (ds = [] <-> forall i p t, nth_error (map fst ps) i = Some p -> nth_error (map fst rs) i = Some t -> Fits p t).
Proof.
  unfold type_mismatches. induction ps as [|p ps IH]; intros rs ds H.
  - cbn in H. injection H as <-. split; [|reflexivity]. intros _ [|i] p t; discriminate.
  - destruct rs as [|r rs]; cbn [combine map_ans abind] in H.
    { cbn in H. injection H as <-. split; [|reflexivity]. intros _ i q t _. destruct i; discriminate. }
    destruct (type_mismatch src (p, r)) as [d| |] eqn:E; cbn [abind] in H; try discriminate.
    destruct (map_ans (type_mismatch src) (combine ps rs)) as [l| |] eqn:El; cbn [abind] in H; try discriminate.
    injection H as <-. pose proof (mismatch_nil src (p, r) d E) as M. cbn [fst snd] in M.
    specialize (IH rs (concat l)). rewrite El in IH. specialize (IH eq_refl). cbn [concat]. split.
    + intros X. apply app_eq_nil in X as [X1 X2]. intros [|i] q t; cbn.
      * intros A B. injection A as <-. injection B as <-. now apply M.
      * now apply (proj1 IH X2 i).
    + intros X. rewrite (proj2 M), (proj2 IH); [reflexivity| |].
      * intros i. exact (X (S i)).
      * apply (X 0); reflexivity.
Qed.
Lemma fits_forall2 ps ts : length ps = length ts ->
  ((forall i p t, nth_error ps i = Some p -> nth_error ts i = Some t -> Fits p t) <-> Forall2 Fits ps ts).
Proof.
  revert ts. induction ps as [|p ps IH]; intros [|t ts] L; try discriminate.
  - split; [constructor|]. intros _ [|i]; discriminate.
  - cbn in L. injection L as L. split.
    + intros H. constructor; [apply (H 0); reflexivity|]. apply IH; [exact L|]. intros i. exact (H (S i)).
    + intros H. inversion H as [|? ? ? ? H1 H2]; subst. intros [|i] a b; cbn; [intros A B; injection A as <-; injection B as <-; exact H1|].
      now apply (proj2 (IH ts L) H2 i).
Qed.
Lemma Forall2_length {A B} (R : A -> B -> Prop) l l' : Forall2 R l l' -> length l = length l'.
Proof. induction 1; cbn; congruence. Qed.
Lemma app_split {A} (a b c d : list A) : a ++ b = c ++ d -> length b = length d -> a = c /\ b = d.
Proof.
  intros H L. assert (La : length a = length c) by (apply (f_equal (@length A)) in H; rewrite !app_length in H; lia).
  split; [apply (f_equal (firstn (length a))) in H|apply (f_equal (skipn (length a))) in H].
  - rewrite firstn_app, Nat.sub_diag, firstn_all, firstn_O, app_nil_r in H. rewrite La, firstn_app, Nat.sub_diag, firstn_all, firstn_O, app_nil_r in H. exact H.
  - rewrite skipn_app, Nat.sub_diag, skipn_all in H. rewrite La, skipn_app, Nat.sub_diag, skipn_all in H. exact H.
Qed.

Section Doc.
  Variable src : text.
  Notation tree := (tree_of src).
  Notation tb := (the_table src).

  Lemma takes_fun e ps ps' : InTree tree e -> Takes src e ps -> Takes src e ps' -> ps = ps'.
  Proof. intros T A B. apply (takes_iff src e T) in A as (x & A & ->), B as (y & B & ->). rewrite A in B. now injection B as ->. Qed.
  Lemma yields_fun e ps ps' : InTree tree e -> Yields src e ps -> Yields src e ps' -> ps = ps'.
  Proof. intros T A B. apply (yields_iff src e T) in A as (x & A & ->), B as (y & B & ->). rewrite A in B. now injection B as ->. Qed.

  Lemma loop_iff l : forall st ds, (forall e, In e l -> InTree tree e) -> stack_loop src tb st l = Ans ds ->
    (ds = [] <-> Runs src (map fst st) l).
  Proof.
    induction l as [|e l IH]; intros st ds Hl H; cbn [stack_loop] in H.
    { injection H as <-. split; [constructor|reflexivity]. }
    pose proof (Hl e (or_introl eq_refl)) as T. assert (Hl' : forall e, In e l -> InTree tree e) by (intros x Hx; apply Hl; now right).
    destruct (stack_step src tb st e) as [[st' d1]| |] eqn:S; cbn [abind fst snd] in H; try discriminate.
    destruct (stack_loop src tb st' l) as [d2| |] eqn:L; cbn [abind] in H; try discriminate. injection H as <-.
    specialize (IH st' d2 Hl' L). unfold stack_step in S. destruct (kind_eqb (ekind e) PLAIN_INSTR) eqn:K.
    2:{ injection S as <- <-. cbn [app]. assert (K' : ekind e <> PLAIN_INSTR) by (intros X; rewrite X in K; discriminate).
        rewrite IH. split; [now apply Runs_block|]. intros R. inversion R; subst; congruence. }
    apply kind_eqb_eq in K.
    destruct (resolve_expected_types src tb e) as [xs| |] eqn:X; cbn [catch abind] in S; try discriminate.
    2:{ injection S as <- <-. cbn [app]. assert (Hn : forall ps, ~ Takes src e ps).
        { intros ps P. apply (takes_iff src e T) in P as (xs & P & _). congruence. }
        rewrite IH. split; [now apply Runs_unknown|]. intros R. inversion R; subst; try congruence; now destruct (Hn ps). }
    assert (P : Takes src e (map fst xs)) by (apply (takes_iff src e T); eauto).
    match type of S with abind ?a _ = _ => destruct a as [da| |] eqn:Ea; cbn [abind] in S; try discriminate end.
    destruct (type_mismatches src xs _) as [db| |] eqn:Eb in S; cbn [abind] in S; try discriminate.
    destruct (catch (resolve_type src tb e)) as [r| |] eqn:Er; cbn [abind] in S; try discriminate.
    injection S as <- <-.
    assert (Y : Yields src e (match r with Some x => x | None => [] end)) by (apply (yields_iff src e T); eauto).
    set (rs := match r with Some x => x | None => [] end) in *.
    assert (St : map fst (firstn (length st - match token e L_PAREN with Some _ => 0 | None => length xs end) st
                   ++ match r with Some ts => map (fun t => (t, e)) ts | None => [] end)
                 = firstn (length st - match token e L_PAREN with Some _ => 0 | None => length xs end) (map fst st) ++ rs).
    { rewrite map_app, firstn_map. f_equal. subst rs. destruct r as [ts|]; [|reflexivity]. now rewrite map_map, map_id. }
    rewrite St in IH. clear St.
    destruct (token e L_PAREN) as [lp|] eqn:Lp.
    - cbn [Nat.leb] in Ea. injection Ea as <-. rewrite Nat.sub_0_r, skipn_all in Eb.
      rewrite Nat.sub_0_r in IH. rewrite <- (map_length fst st), firstn_all in IH.
      assert (db = []) as ->. { unfold type_mismatches in Eb. destruct xs; cbn in Eb; injection Eb as <-; reflexivity. }
      cbn [app]. rewrite IH. split.
      + intros R. apply Runs_folded with (map fst xs) rs; auto. congruence.
      + intros R. inversion R; subst; try congruence.
        * now destruct (H3 (map fst xs)).
        * match goal with H : Yields src e _, R : Runs src (_ ++ _) l |- _ => now rewrite (yields_fun e _ _ T Y H) end.
    - destruct (Nat.leb_spec (length xs) (length st)) as [Le|Gt].
      + injection Ea as <-. cbn [app]. pose proof (mismatches_nil src xs _ db Eb) as M.
        rewrite <- skipn_map in M.
        assert (Lk : length (map fst xs) = length (skipn (length st - length xs) (map fst st))).
        { rewrite skipn_length, !map_length. unfold expected_type in *. lia. }
        rewrite (fits_forall2 _ _ Lk) in M.
        assert (Es : map fst st = firstn (length st - length xs) (map fst st) ++ skipn (length st - length xs) (map fst st))
          by (symmetry; apply firstn_skipn).
        split.
        * intros Z. apply app_eq_nil in Z as [Z1 Z2]. rewrite Es. apply Runs_plain with (map fst xs) rs; auto; [now apply M|now apply IH].
        * intros R. inversion R; subst; try congruence.
          { match goal with H : forall ps, ~ Takes src e ps |- _ => now destruct (H (map fst xs)) end. }
          match goal with H1 : Takes src e ps, H2 : Forall2 Fits ps args, H3 : Yields src e rs0, H4 : low ++ args = _, H5 : Runs src _ l |- _ =>
            rewrite <- (takes_fun e _ _ T P H1) in H2; rewrite <- (yields_fun e _ _ T Y H3) in H5; rename H2 into F2; rename H4 into Q; rename H5 into R5 end.
          rewrite Es in Q. apply app_split in Q as [Q1 Q2]; [|rewrite <- Lk; symmetry; eapply Forall2_length; eauto].
          rewrite <- Q1 in IH. rewrite <- Q2 in M. rewrite (proj2 IH R5), (proj2 M F2). reflexivity.
      + assert (da <> []). { destruct diag_at; cbn [abind] in Ea; try discriminate. injection Ea as <-. discriminate. }
        split; [intros Z; apply app_eq_nil in Z as [Z _]; apply app_eq_nil in Z as [Z _]; congruence|].
        intros R. exfalso. inversion R; subst; try congruence.
        * match goal with H : forall ps, ~ Takes src e ps |- _ => now destruct (H (map fst xs)) end.
        * match goal with H1 : Takes src e ps, H2 : Forall2 Fits ps args, H4 : low ++ args = _ |- _ =>
            rewrite <- (takes_fun e _ _ T P H1) in H2; apply Forall2_length in H2; apply (f_equal (@length optype)) in H4;
            rewrite map_length, app_length in H4; rewrite map_length in H2; unfold expected_type in *; lia end.
  Qed.

  Lemma inside_eq o : operand_instr o = inside o.
  Proof. reflexivity. Qed.
  Lemma inside_tree o i : InTree tree o -> inside o = Some i -> InTree tree i.
  Proof. intros T H. apply find_some in H as [H _]. now apply (in_tree_child src o). Qed.
  Lemma receives_fun l : (forall o, In o l -> InTree tree o) ->
    forall ts ts', Receives src l ts -> Receives src l ts' -> ts = ts'.
  Proof.
    induction l as [|o l IH]; intros Hl ts ts' A B; inversion A; inversion B; subst; try congruence.
    - match goal with H1 : inside o = Some ?a, H2 : inside o = Some ?b |- _ => assert (a = b) as <- by congruence; pose proof (inside_tree o a (Hl o (or_introl eq_refl)) H1) as Ti end.
      f_equal; [eapply yields_fun; eauto|]. apply IH; auto. intros x Hx. apply Hl. now right.
    - apply IH; auto. intros x Hx. apply Hl. now right.
  Qed.
  Lemma receive_all known l : (forall o, In o l -> InTree tree o) ->
    forall rc, map_ans (receive src tb known) l = Ans rc ->
    Receives src l (map fst (concat (map fst rc)))
    /\ (concat (map snd rc) = [] <-> (known = true -> forall o, In o l -> inside o <> None)).
  Proof.
    induction l as [|o l IH]; intros Hl rc H; cbn [map_ans] in H.
    - injection H as <-. split; [constructor|]. cbn. split; [intros _ _ o []|reflexivity].
    - destruct (receive src tb known o) as [[r d]| |] eqn:R; cbn [abind] in H; try discriminate.
      destruct (map_ans (receive src tb known) l) as [rc'| |] eqn:M; cbn [abind] in H; try discriminate. injection H as <-.
      destruct (IH (fun x Hx => Hl x (or_intror Hx)) rc' eq_refl) as [A B]. cbn [map concat fst snd].
      unfold receive in R. change (operand_instr o) with (inside o) in R. destruct (inside o) as [i|] eqn:I.
      + destruct (catch (resolve_type src tb i)) as [t| |] eqn:Er; cbn [abind] in R; try discriminate. injection R as <- <-.
        assert (Y : Yields src i (match t with Some x => x | None => [] end)).
        { apply (yields_iff src i); [eapply inside_tree; [apply Hl; now left|exact I]|eauto]. }
        split.
        * rewrite map_app. eapply Receives_instr; [exact I| |exact A].
          destruct t; [|exact Y]. now rewrite map_map, map_id.
        * cbn [app]. rewrite B. split; intros X Kn.
          -- intros x [<-|Hx]; [congruence|now apply X].
          -- intros x Hx. apply X; [exact Kn|now right].
      + destruct known.
        * destruct (diag_at src o (Text.T "expected instr")) as [d'| |]; cbn [abind] in R; try discriminate. injection R as <- <-. split.
          -- cbn [app]. now apply Receives_other.
          -- cbn [app]. split; [discriminate|]. intros X. now destruct (X eq_refl o (or_introl eq_refl)).
        * injection R as <- <-. split; [cbn [app]; now apply Receives_other|]. cbn [app]. rewrite B. split; intros X Kn; discriminate.
  Qed.
  Lemma immediates_iff e nm : Called e nm ->
    forall k, Immediates e k <-> k = (if text_eqb nm (Text.T "call") then 1
                                      else match meta_of nm with Some m => m_operands_count m | None => 0 end).
  Proof.
    intros C k. unfold Immediates. destruct (text_eqb nm (Text.T "call")) eqn:E.
    - apply text_eqb_eq in E. subst nm. split; [|now left].
      intros [[_ ->]|[(x & m & Cx & N & _)|(x & Cx & N & _)]]; [reflexivity|..]; now destruct (N (called_fun e _ _ Cx C)).
    - assert (Hn : nm <> Text.T "call") by (intros ->; rewrite text_eqb_refl in E; discriminate). split.
      + intros [[X _]|[(x & m & Cx & N & R & ->)|(x & Cx & N & R & ->)]].
        * now destruct (Hn (called_fun e _ _ C X)).
        * rewrite (called_fun e _ _ C Cx). apply meta_row in R. now rewrite R.
        * rewrite (called_fun e _ _ C Cx). apply meta_none in R. now rewrite R.
      + intros ->. right. destruct (meta_of nm) as [m|] eqn:M.
        * left. exists nm, m. apply meta_row in M. auto.
        * right. exists nm. split; [exact C|]. split; [exact Hn|]. split; [now apply meta_none|reflexivity].
  Qed.
  Lemma folded_iff e ds : InTree tree e -> token e L_PAREN <> None -> check_folded src tb e = Ans ds ->
    (ds = [] <-> FoldedFits src e).
  Proof.
    intros T Lp H. unfold check_folded in H. destruct (token e L_PAREN); [clear Lp|congruence].
    destruct (instr_name_of e) as [nm|] eqn:Nm.
    2:{ injection H as <-. split; [|reflexivity]. intros _ k [[X _]|[(x & m & X & _)|(x & X & _)]]; apply called_iff in X; congruence. }
    apply called_iff in Nm. pose proof (immediates_iff e nm Nm) as Im.
    set (k := if text_eqb nm (Text.T "call") then 1 else match meta_of nm with Some m => m_operands_count m | None => 0 end) in *.
    destruct (map_ans _ _) as [rc| |] eqn:M in H; cbn [abind] in H; try discriminate.
    assert (Ha : forall o, In o (skipn k (childs e OPERAND)) -> InTree tree o).
    { intros o Ho. assert (Hin : In o (childs e OPERAND)).
      { rewrite <- (firstn_skipn k). apply in_or_app. now right. }
      apply (in_tree_childs src e OPERAND o T Hin). }
    destruct (receive_all _ _ Ha rc M) as [Rc D1].
    assert (D1' : concat (map snd rc) = [] <-> ((exists x m, Called e x /\ Row x m) -> forall o, In o (skipn k (childs e OPERAND)) -> inside o <> None)).
    { rewrite D1. split; intros X Y.
      - apply X. destruct Y as (x & m & Cx & R). rewrite (called_fun e _ _ Nm Cx). apply meta_row in R. now rewrite R.
      - apply X. destruct (meta_of nm) as [m|] eqn:E; [|discriminate]. exists nm, m. split; [exact Nm|now apply meta_row]. }
    unfold FoldedFits.
    assert (FF : FoldedFits src e <->
      ((exists x m, Called e x /\ Row x m) -> forall o, In o (skipn k (childs e OPERAND)) -> inside o <> None)
      /\ (forall ps ts, Takes src e ps -> Receives src (skipn k (childs e OPERAND)) ts ->
            length ps + k = length ts + length (filter (fun o => match inside o with None => true | Some _ => false end) (childs e OPERAND))
            /\ forall i p t, nth_error ps i = Some p -> nth_error ts i = Some t -> Fits p t)).
    { split; [intros X; apply X; now apply Im|]. intros X k' Hk'. apply Im in Hk'. subst k'. exact X. }
    fold (FoldedFits src e). rewrite FF. rewrite <- D1'.
    destruct (resolve_expected_types src tb e) as [xs| |] eqn:X; cbn [catch abind] in H; try discriminate.
    2:{ injection H as <-. split; [intros E; split; [exact E|]|intros [E _]; exact E].
        intros ps ts P. apply (takes_iff src e T) in P as (xs & P & _). congruence. }
    assert (P : Takes src e (map fst xs)) by (apply (takes_iff src e T); eauto).
    match type of H with abind ?a _ = _ => destruct a as [da| |] eqn:Ea; cbn [abind] in H; try discriminate end.
    destruct (type_mismatches src xs _) as [db| |] eqn:Eb in H; cbn [abind] in H; try discriminate. injection H as <-.
    pose proof (mismatches_nil src xs _ db Eb) as Mm.
    assert (Da : da = [] <-> length xs + k = length (concat (map fst rc))
       + length (filter (fun o => match inside o with None => true | Some _ => false end) (childs e OPERAND))).
    { change (filter (fun o => match inside o with None => true | Some _ => false end) (childs e OPERAND))
        with (filter (fun o => match operand_instr o with None => true | Some _ => false end) (operands e)).
      destruct (Nat.eqb_spec (length xs + k) (length (concat (map fst rc)) + length (filter (fun o => match operand_instr o with None => true | Some _ => false end) (operands e)))) as [Q|Q].
      - injection Ea as <-. split; [intros _; exact Q|reflexivity].
      - destruct diag_at; cbn [abind] in Ea; try discriminate. injection Ea as <-. split; [discriminate|]. intros Z. now destruct Q. }
    split.
    - intros Z. apply app_eq_nil in Z as [Z1 Z]. apply app_eq_nil in Z as [Z2 Z3]. split; [exact Z1|].
      intros ps ts P' R'. rewrite <- (takes_fun e _ _ T P P'). rewrite (receives_fun _ Ha _ _ R' Rc). split; [|now apply Mm].
      rewrite !map_length. now apply Da.
    - intros [Z1 Z2]. destruct (Z2 _ _ P Rc) as [Z3 Z4]. rewrite Z1, (proj2 Mm Z4). rewrite !map_length in Z3. rewrite (proj2 Da Z3). reflexivity.
  Qed.
  Lemma stacked_iff f ds : InTree tree f -> check_stacked src tb f = Ans ds ->
    (ds = [] <-> ((exists e, In e (body f) /\ token e L_PAREN = None) -> Runs src [] (body f))).
  Proof.
    intros T H. unfold check_stacked in H. change (filter is_instr (children f)) with (body f) in H.
    destruct (forallb _ (body f)) eqn:F in H.
    - injection H as <-. split; [|reflexivity]. intros _ (e & He & L). rewrite forallb_forall in F. specialize (F e He). rewrite L in F. discriminate.
    - assert (Hb : forall e, In e (body f) -> InTree tree e).
      { intros e He. apply filter_In in He as [He _]. now apply (in_tree_child src f). }
      rewrite (loop_iff (body f) [] ds Hb H). split; [auto|]. intros X. apply X.
      apply not_true_iff_false in F. destruct (existsb (fun e => match token e L_PAREN with Some _ => false | None => true end) (body f)) eqn:E.
      + apply existsb_exists in E as (e & He & E). exists e. split; [exact He|]. now destruct (token e L_PAREN).
      + exfalso. apply F. apply forallb_forall. intros e He. destruct (token e L_PAREN) eqn:L; [reflexivity|].
        apply not_true_iff_false in E. destruct E. apply existsb_exists. exists e. split; [exact He|now rewrite L].
  Qed.
End Doc.

(** No type error is reported exactly when every parenthesised instruction
    fits its operands and every function body and global value that is not
    all parenthesised runs from the empty stack. *)
Theorem C29_exact src ds : check src = Ans ds ->
  ((forall d, In d ds -> ~ TypeMsg (d_message d)) <->
   (forall e, InTree (tree_of src) e -> is_node e = true -> ekind e = PLAIN_INSTR -> token e L_PAREN <> None -> FoldedFits src e)
   /\ (forall f, InTree (tree_of src) f -> is_node f = true -> In (ekind f) [MODULE_FIELD_FUNC; MODULE_FIELD_GLOBAL] ->
        (exists e, In e (body f) /\ token e L_PAREN = None) -> Runs src [] (body f))).
Proof.
  intros H. pose proof (fun d => check_types src ds d H) as Ct. split.
  - intros N. split.
    + intros e T Ne K L. destruct (folded_fine src e T) as (l & E & _). apply (folded_iff src e l T L E).
      destruct l as [|d l]; [reflexivity|exfalso].
      assert (X : among d (check_folded src (the_table src) e)) by (exists (d :: l); split; [exact E|now left]).
      assert (Y : In d ds /\ classify (d_message d) = CType) by (apply Ct; exists e; auto).
      apply (N d (proj1 Y)). eapply folded_msg; eauto.
    + intros f T Nf K. destruct (stacked_fine src f T) as (l & E & _). apply (stacked_iff src f l T E).
      destruct l as [|d l]; [reflexivity|exfalso].
      assert (X : among d (check_stacked src (the_table src) f)) by (exists (d :: l); split; [exact E|now left]).
      assert (Y : In d ds /\ classify (d_message d) = CType).
      { apply Ct. exists f. split; [exact T|]. split; [exact Nf|]. right. split; [|exact X]. cbn in K. intuition congruence. }
      apply (N d (proj1 Y)). eapply stacked_msg; eauto.
  - intros [A B] d Hd M. apply type_class in M. destruct (proj1 (Ct d) (conj Hd M)) as (n & T & N & [[K (l & E & Hl)]|[K (l & E & Hl)]]).
    + destruct (token n L_PAREN) eqn:L.
      * assert (Ln : token n L_PAREN <> None) by congruence. rewrite (proj2 (folded_iff src n l T Ln E) (A n T N K Ln)) in Hl. destruct Hl.
      * unfold check_folded in E. rewrite L in E. destruct instr_name_of; injection E as <-; destruct Hl.
    + rewrite (proj2 (stacked_iff src n l T E)) in Hl; [destruct Hl|]. apply B; auto. cbn. intuition congruence.
Qed.

(** ** Examples and refutations *)

(** A well-typed body that mixes both styles, with a call and a local. *)
Definition ex_typed : text :=
  Text.T "(module (func $f (param $x i32) (param f64) (result i64) local.get $x i32.const 1 i32.add i64.extend_i32_s) (func (result i64) (i32.const 1) f64.const 2 call $f))".
Example C29_example : report ex_typed = Some [].
Proof. vm_compute. reflexivity. Qed.
Example C29_example_runs f : InTree (tree_of ex_typed) f -> is_node f = true -> ekind f = MODULE_FIELD_FUNC ->
  (exists e, In e (body f) /\ token e L_PAREN = None) -> Runs ex_typed [] (body f).
Proof.
  intros T N K. destruct (C38_in_document ex_typed) as (ds & E & _). apply (C29_exact ex_typed ds E); auto.
  - pose proof C29_example as R. unfold report in R. rewrite E in R. destruct ds; [|discriminate]. intros d [].
  - rewrite K. now left.
Qed.
Lemma node_exists src P : existsb P (descendants (root_of (tree_of src))) = true ->
  exists f, InTree (tree_of src) f /\ is_node f = true /\ P f = true.
Proof. intros H. apply existsb_exists in H as (f & A & B). apply in_descendants in A as [A C]. eauto. Qed.
Example C29_example_body :
  exists f, InTree (tree_of ex_typed) f /\ is_node f = true /\ ekind f = MODULE_FIELD_FUNC
    /\ length (body f) = 3 /\ exists e, In e (body f) /\ token e L_PAREN = None.
Proof.
  assert (F : existsb (fun e => kind_eqb (ekind e) MODULE_FIELD_FUNC && Nat.eqb (length (body e)) 3
    && existsb (fun e => match token e L_PAREN with None => true | Some _ => false end) (body e)) (descendants (root_of (tree_of ex_typed))) = true)
    by (vm_compute; reflexivity).
  apply node_exists in F as (f & F1 & F3 & F2). apply andb_prop in F2 as [F2 B].
  apply andb_prop in F2 as [F2 F4]. apply kind_eqb_eq in F2. apply Nat.eqb_eq in F4. exists f. repeat (split; [assumption|]).
  apply existsb_exists in B as (e & He & B). exists e. split; [exact He|]. now destruct (token e L_PAREN).
Qed.
(** Wrong and missing operands. *)
Example C29_example_wrong :
  report (Text.T "(module (func (local f64) (local.get 0) i32.const 1 i32.add i32.add) (func (drop (i32.add (i32.const 1)))))")
  = Some [(((0, 26), (0, 39)), Text.T "expected type `i32`, found `f64`");
          (((0, 60), (0, 67)), Text.T "expected 2 operands, found 1");
          (((0, 81), (0, 104)), Text.T "expected 2 operands, found 1")].
Proof. vm_compute. reflexivity. Qed.

(** What is left on the stack is not compared with the declared results. *)
Theorem C29_results_refuted :
  report (Text.T "(module (func (result i32)) (func (result i32) i64.const 0) (func i32.const 0 nop))") = Some [].
Proof. vm_compute. reflexivity. Qed.
(** A call of a function that does not write its parameters itself, or that is
    imported, is taken to need none: a correct call is reported and a wrong
    one is not. *)
Theorem C29_call_refuted :
  report (Text.T "(module (import ""a"" ""b"" (func $f (param i32))) (func (call $f (i32.const 1))))")
    = Some [(((0, 53), (0, 76)), Text.T "expected 1 operand, found 2")]
  /\ report (Text.T "(module (import ""a"" ""b"" (func $f (param i32))) (func (call $f) call $f))") = Some []
  /\ report (Text.T "(module (type $t (func (param i32))) (func $f (type $t)) (func (call $f (i32.const 1))))")
    = Some [(((0, 63), (0, 86)), Text.T "expected 1 operand, found 2")].
Proof. vm_compute. auto. Qed.
