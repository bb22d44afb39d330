(** Trees that are the same up to white space and agree on blank lines give
    the same document. *)

From Coq Require Import String List NArith Bool Arith Lia.
From Verif Require Import Text Kind Green SpecParser SpecSyntax SpecFormat Format FmtLang FmtPieces FmtSteps FmtTrivia FmtRun FmtNode FmtTree FmtDoc FmtEmit FmtPlain FmtFlags
  Respace Relex FmtGap ThmReparse FmtSame.
Import ListNotations.
Local Open Scope list_scope.

Lemma same_bare : forall g g', Same g g' -> bare g = bare g'.
Proof.
  apply (green_ind' (fun g => forall g', Same g g' -> bare g = bare g')).
  - intros k t g' H. inversion H; subst. reflexivity.
  - intros k cs IH g' H. inversion H as [|? ? cs' HF]; subst. cbn [bare]. f_equal. rewrite !filter_bare.
    assert (K : forall l, map fst (kids l) = filter significant l).
    { induction l as [|c l IHl]; [reflexivity|]. cbn [kids filter]. destruct (significant c); cbn [map fst]; congruence. }
    rewrite <- !K. assert (HI : Forall (fun x => forall g', Same (fst x) g' -> bare (fst x) = bare g') (kids cs)).
    { apply Forall_forall. intros x Hx. rewrite Forall_forall in IH. apply IH.
      assert (In (fst x) (map fst (kids cs))) by now apply in_map. rewrite K in H0. now apply filter_In in H0. }
    clear -HF HI. induction HF as [|x y l l' [H1 _] _ IH]; [reflexivity|]. inversion HI; subst. cbn [map]. f_equal; auto.
Qed.

(** Shapes look at significant children only. *)
Definition step_sel (s : step) : bool := sel_ok (s_sel s).
Definition part_sel (p : part) : bool := match p with One s => step_sel s | Nested _ l => forallb step_sel l end.
Fixpoint shape_sel (s : shape) : bool :=
  match s with
  | Whole => true
  | Choice l _ => forallb sel_ok l
  | Parts l _ _ => forallb part_sel l
  | IfParen a b => shape_sel a && shape_sel b
  end.
Lemma shapes_sel k s : shape_of k = Some s -> shape_sel s = true.
Proof. destruct k; intros E; try discriminate E; injection E as <-; reflexivity. Qed.

Section Opts.
  Variable o : options.

  Record Alike (i j : item) : Prop :=
    { A_head : same_head (i_el i) (i_el j)
    ; A_has : forall s, sel_ok s = true -> has s (i_el i) = has s (i_el j)
    ; A_doc : i_doc i = i_doc j
    ; A_after : after o i = after o j
    ; A_prev : should_ignore o (i_prev i) = false /\ should_ignore o (i_prev j) = false }.
  Definition AlikeL (a b : list item) : Prop := Forall2 Alike (sigs a) (sigs b).

  Lemma sel_sigs s its : sel_ok s = true ->
    filter (fun i => selects s (i_el i)) its = filter (fun i => selects s (i_el i)) (sigs its).
  Proof.
    intros H. unfold sigs. induction its as [|i its IH]; [reflexivity|]. cbn [filter].
    destruct (significant (i_el i)) eqn:E; cbn [filter]; [now rewrite IH|].
    destruct (selects s (i_el i)) eqn:E2; [|exact IH]. rewrite (selects_sig _ _ H E2) in E. discriminate.
  Qed.
  Lemma sel_alike s a b : sel_ok s = true -> AlikeL a b ->
    Forall2 Alike (filter (fun i => selects s (i_el i)) a) (filter (fun i => selects s (i_el i)) b).
  Proof.
    intros H HA. rewrite (sel_sigs s a H), (sel_sigs s b H). unfold AlikeL in HA.
    induction HA as [|i j l l' Hij _ IH]; [constructor|]. cbn [filter].
    rewrite (selects_head s _ _ (A_head _ _ Hij)). destruct (selects s (i_el j)); [now constructor|exact IH].
  Qed.
  Lemma forall2_skipn {A B : Type} (R : A -> B -> Prop) n : forall l l', Forall2 R l l' -> Forall2 R (skipn n l) (skipn n l').
  Proof. induction n as [|n IH]; intros l l' H; [exact H|]. destruct H; [constructor|]. now apply IH. Qed.
  Lemma forall2_firstn {A B : Type} (R : A -> B -> Prop) n : forall l l', Forall2 R l l' -> Forall2 R (firstn n l) (firstn n l').
  Proof. induction n as [|n IH]; intros l l' H; [constructor|]. destruct H; [constructor|]. cbn [firstn]. constructor; auto. Qed.
  Lemma choose_alike s a b : step_sel s = true -> AlikeL a b -> Forall2 Alike (choose s a) (choose s b).
  Proof.
    intros H HA. pose proof (sel_alike _ _ _ H HA) as X. unfold choose. destruct (s_mode s); auto using forall2_firstn, forall2_skipn.
  Qed.
  Lemma has_item_alike s a b : sel_ok s = true -> AlikeL a b -> has_item s a = has_item s b.
  Proof.
    intros H HA. pose proof (sel_alike _ _ _ H HA) as X. unfold has_item.
    assert (E : forall l, existsb (fun i => selects s (i_el i)) l = negb (nilb (filter (fun i => selects s (i_el i)) l))).
    { induction l as [|i l IH]; [reflexivity|]. cbn [existsb filter]. destruct (selects s (i_el i)); [reflexivity|exact IH]. }
    rewrite !E. destruct X; reflexivity.
  Qed.

  Lemma emit_alike s paren first i j st : Alike i j -> emit o s paren first i st = emit o s paren first j st.
  Proof.
    intros [H1 H2 H3 H4 [H5 H6]]. destruct st as [docs tr]. unfold emit. rewrite H4. f_equal. f_equal. f_equal.
    - unfold lead_docs. rewrite (H2 (STok KEYWORD) eq_refl), (H2 (STok L_PAREN) eq_refl), (H2 (SNode instr_kinds) eq_refl). reflexivity.
    - unfold content. rewrite H3, H5, H6, (H2 (STok KEYWORD) eq_refl). reflexivity.
  Qed.
  Lemma emit_all_alike s paren l l' : Forall2 Alike l l' -> forall first st,
    emit_all o s paren first l st = emit_all o s paren first l' st.
  Proof.
    induction 1 as [|i j l l' H _ IH]; intros first st; [reflexivity|]. cbn [emit_all].
    now rewrite (emit_alike s paren first _ _ st H), IH.
  Qed.
  Lemma run_step_alike s a b st : step_sel s = true -> AlikeL a b -> run_step o a s st = run_step o b s st.
  Proof.
    intros H HA. unfold run_step. rewrite (has_item_alike (STok L_PAREN) a b eq_refl HA). apply emit_all_alike. now apply choose_alike.
  Qed.
  Lemma run_steps_alike l a b : forallb step_sel l = true -> AlikeL a b -> forall st, run_steps o a l st = run_steps o b l st.
  Proof.
    intros H HA. unfold run_steps. induction l as [|s l IH]; intros st; [reflexivity|]. cbn [forallb] in H. apply andb_prop in H as [H1 H2].
    cbn [fold_left]. now rewrite (run_step_alike s a b st H1 HA), IH.
  Qed.
  Lemma run_part_alike p a b st : part_sel p = true -> AlikeL a b -> run_part o a p st = run_part o b p st.
  Proof.
    intros H HA. destruct p as [s|f l]; cbn [run_part part_sel] in *; [now apply run_step_alike|].
    destruct st as [docs tr]. rewrite (run_steps_alike l a b H HA). destruct (run_steps o b l ([], tr)).
    now rewrite (has_item_alike (STok L_PAREN) a b eq_refl HA).
  Qed.
  Lemma run_parts_alike l a b : forallb part_sel l = true -> AlikeL a b -> forall st, run_parts o a l st = run_parts o b l st.
  Proof.
    intros H HA. unfold run_parts. induction l as [|s l IH]; intros st; [reflexivity|]. cbn [forallb] in H. apply andb_prop in H as [H1 H2].
    cbn [fold_left]. now rewrite (run_part_alike s a b st H1 HA), IH.
  Qed.

  Lemma shape_alike s a b g g' : AlikeL a b -> shape_sel s = true -> (s = Whole -> gtext g = gtext g') ->
    ((forall l c n, s <> Parts l c n) -> first_leaf (gtokens g) = first_leaf (gtokens g')) -> (forall x y, s = IfParen x y -> x <> Whole /\ y <> Whole /\
      (forall x1 x2, x <> IfParen x1 x2) /\ (forall x1 x2, y <> IfParen x1 x2)) ->
    shape_doc o g a s = shape_doc o g' b s.
  Proof.
    intros HA. 
    assert (P : forall s, shape_sel s = true -> s <> Whole -> ((forall l c n, s <> Parts l c n) -> first_leaf (gtokens g) = first_leaf (gtokens g')) ->
      (forall x1 x2, s <> IfParen x1 x2) -> shape_doc o g a s = shape_doc o g' b s).
    { clear s. intros [|l tok|l c nest|x y] Hs Hw Hf Hi; [congruence| | |exfalso; now apply (Hi x y)].
      - cbn [shape_doc shape_sel] in *. rewrite Hf by discriminate.
        assert (X : Forall2 Alike (flat_map (fun s => filter (fun i => selects s (i_el i)) a) l)
                                  (flat_map (fun s => filter (fun i => selects s (i_el i)) b) l)).
        { clear -HA Hs. induction l as [|s l IH]; [constructor|]. cbn [forallb] in Hs. apply andb_prop in Hs as [H1 H2].
          cbn [flat_map]. apply Forall2_app; [now apply sel_alike|auto]. }
        destruct X as [|i j ? ? X _]; [reflexivity|]. apply X.
      - cbn [shape_doc shape_sel] in *. rewrite (run_parts_alike l a b Hs HA).
        assert (Y : forall st, close a c st = close b c st).
        { intros [docs tr]. unfold close. now rewrite (has_item_alike (STok R_PAREN) a b eq_refl HA). }
        now rewrite Y. }
    intros Hs Hw Hf Hi. destruct s as [|l tok|l c nest|x y].
    - cbn [shape_doc]. f_equal. auto.
    - apply P; auto; discriminate.
    - apply P; auto; discriminate.
    - cbn [shape_doc shape_sel] in *. apply andb_prop in Hs as [H1 H2].
      destruct (Hi x y eq_refl) as (X1 & X2 & X3 & X4).
      rewrite (has_item_alike (STok L_PAREN) a b eq_refl HA). assert (Hf' : first_leaf (gtokens g) = first_leaf (gtokens g')) by (apply Hf; discriminate).
      destruct (has_item (STok L_PAREN) b); auto.
  Qed.

  (** The items of a node and its children. *)
  Definition ItemOf (i : item) (x : green * bool) : Prop :=
    i_el i = fst x /\ after o i = (if snd x then blank_line else []) /\ should_ignore o (i_prev i) = false
    /\ exists q, should_ignore o q = false /\ i_doc i = gdoc o q (fst x).
  Lemma items_kids outer cs : should_ignore o outer = false -> Forall (Good o) cs -> calm cs ->
    forall p1 p2, should_ignore o p1 = false -> should_ignore o p2 = false ->
    Forall2 ItemOf (sigs (items o outer p1 p2 cs)) (kids cs).
  Proof.
    intros Ho. induction cs as [|c cs IH]; intros HG Hc p1 p2 H1 H2; [constructor|]. inversion HG as [|? ? G1 G2]; subst.
    assert (Hi : should_ignore o (Some c) = false).
    { destruct c as [k t|]; [|reflexivity]. apply (WFs_ignore o _ [Tok k t]); [constructor; [apply G1|constructor]|now left]. }
    specialize (IH G2 (calm_suffix [c] cs Hc) (Some c) p1 Hi H1).
    cbn [items kids]. unfold sigs. cbn [filter i_el]. destruct (significant c); [|exact IH]. constructor; [|exact IH].
    split; [reflexivity|]. split; [|split].
    - cbn [snd]. apply (after_wide o (mk_item c (gdoc o p2 c) cs (or_else p2 outer))); cbn [i_next].
      + eapply Forall_impl; [|exact G2]. intros g (A & B & _). auto.
      + exact (calm_suffix [c] cs Hc).
    - cbn [i_prev]. destruct p2; [exact H2|exact Ho].
    - exists p2. auto.
  Qed.

  Lemma whole_same k cs cs' : shape_of k = Some Whole -> Good2 o (Node k cs) -> Good2 o (Node k cs') ->
    bare (Node k cs) = bare (Node k cs') -> gtext (Node k cs) = gtext (Node k cs').
  Proof.
    intros Hsh HG HG' Hb. destruct (bare_children _ _ _ _ Hb) as [_ Em].
    assert (X : exists ys, syms (ordinary k) = Some ys /\ forallb is_token_sym ys = true /\ k <> BLOCK_IF_THEN).
    { destruct k; try discriminate Hsh; eexists; (split; [reflexivity|split; [reflexivity|discriminate]]). }
    destruct X as (ys & Hy & Ht & Hk). rewrite forallb_forall in Ht.
    destruct (one_child o _ _ _ (proj1 (proj1 HG)) Hk Hy) as (x & y & -> & Hin & Hm & Hsig).
    destruct (one_child o _ _ _ (proj1 (proj1 HG')) Hk Hy) as (x' & y' & -> & Hin' & Hm' & Hsig').
    cbn [filter] in Em. rewrite Hsig, Hsig' in Em. cbn [map] in Em. injection Em as Em.
    pose proof (Ht _ Hin) as T1. pose proof (Ht _ Hin') as T2.
    destruct x as [kx tx|]; [|destruct y; try contradiction; discriminate T1].
    destruct x' as [kx' tx'|]; [|destruct y'; try contradiction; discriminate T2].
    cbn [bare] in Em. injection Em as -> ->. reflexivity.
  Qed.

  Theorem same_doc : forall g g', Same g g' -> Good2 o g -> Good2 o g' -> significant g = true ->
    forall p p', should_ignore o p = false -> should_ignore o p' = false -> gdoc o p g = gdoc o p' g'.
  Proof.
    apply (green_ind' (fun g => forall g', Same g g' -> Good2 o g -> Good2 o g' -> significant g = true ->
      forall p p', should_ignore o p = false -> should_ignore o p' = false -> gdoc o p g = gdoc o p' g')).
    - intros k t g' H _ _ _ p p' _ _. inversion H; subst. reflexivity.
    - intros k cs IH g' H HG HG' _ p p' Hp Hp'. pose proof (same_bare _ _ H) as Hb.
      inversion H as [|? ? cs' HF]; subst. rewrite !gdoc_node. unfold node_doc. cbn [gkind].
      destruct (kind_eqb k ROOT) eqn:Ek.
      { exfalso. apply kind_eqb_eq in Ek. subst k. destruct HG as [(HW & _) _]. destruct (proj1 HW _ _ (Sub_here _)) as (X & _).
        now apply X. }
      destruct (shape_of k) as [s|] eqn:Es; [|reflexivity].
      destruct (Good2_node o _ _ HG) as (Hc & _ & _). destruct (Good2_node o _ _ HG') as (Hc' & _ & _).
      pose proof (Good2_all o _ _ HG) as HGs. pose proof (Good2_all o _ _ HG') as HGs'.
      assert (K : forall l x, In x (kids l) -> In (fst x) l /\ significant (fst x) = true).
      { induction l as [|c l IHl]; intros x; [intros []|]. cbn [kids]. destruct (significant c) eqn:Ec.
        - intros [<-|Hx]; [split; [now left|exact Ec]|]. destruct (IHl _ Hx). split; [now right|assumption].
        - intros Hx. destruct (IHl _ Hx). split; [now right|assumption]. }
      apply shape_alike.
      + unfold AlikeL.
        assert (I1 : Forall2 ItemOf (sigs (items o p None None cs)) (kids cs)).
        { apply items_kids; auto. eapply Forall_impl; [|exact HGs]. intros g Z. apply Z. }
        assert (I2 : Forall2 ItemOf (sigs (items o p' None None cs')) (kids cs')).
        { apply items_kids; auto. eapply Forall_impl; [|exact HGs']. intros g Z. apply Z. }
        assert (HK : Forall (fun x => Good2 o (fst x) /\ significant (fst x) = true /\ forall g', Same (fst x) g' -> Good2 o (fst x) -> Good2 o g' -> significant (fst x) = true ->
           forall p p', should_ignore o p = false -> should_ignore o p' = false -> gdoc o p (fst x) = gdoc o p' g') (kids cs)).
        { apply Forall_forall. intros x Hx. destruct (K _ _ Hx) as [Z1 Z2]. rewrite Forall_forall in HGs, IH. split; [auto|]. split; [exact Z2|].
          apply IH. exact Z1. }
        assert (HK' : Forall (fun x => Good2 o (fst x)) (kids cs')).
        { apply Forall_forall. intros x Hx. destruct (K _ _ Hx) as [Z1 Z2]. rewrite Forall_forall in HGs'. auto. }
        clear -HF I1 I2 HK HK'. revert HF I1 I2 HK HK'.
        generalize (sigs (items o p None None cs)) (sigs (items o p' None None cs')) (kids cs) (kids cs').
        intros a b ks ks' HF. revert a b. induction HF as [|x y ks ks' [HS HW] _ IHF]; intros a b I1 I2 HK HK'.
        * inversion I1; inversion I2; subst. constructor.
        * inversion I1 as [|i ? a' ? (A1 & A2 & A3 & q & A4 & A5) I1']; subst.
          inversion I2 as [|j ? b' ? (B1 & B2 & B3 & q' & B4 & B5) I2']; subst.
          inversion HK as [|? ? (X1 & X2 & X3) HKr]; subst. inversion HK' as [|? ? Y1 HKr']; subst.
          constructor; [|now apply IHF]. pose proof (same_bare _ _ HS) as Hxy. split.
          -- rewrite A1, B1. now apply bare_same.
          -- intros s Hs. rewrite A1, B1. now apply has_bare.
          -- rewrite A5, B5. now apply X3.
          -- rewrite A2, B2, HW. reflexivity.
          -- auto.
      + exact (shapes_sel k s Es).
      + intros ->. apply whole_same; auto.
      + intros HnP. destruct (loose (Node k cs)) eqn:El.
        * exfalso. destruct k; try discriminate El. injection Es as <-. eapply HnP. reflexivity.
        * pose proof El as El'. rewrite (loose_bare _ _ Hb) in El'.
          destruct (first_token o _ (Good2_near o _ HG) eq_refl El) as (q & r & r' & T1 & T2 & _).
          destruct (first_token o _ (Good2_near o _ HG') eq_refl El') as (q2 & r2 & r2' & T3 & T4 & _).
          rewrite T1, T3. rewrite Hb, T4 in T2. injection T2 as -> _. reflexivity.
      + intros x y ->. destruct k; try discriminate Es. injection Es as <- <-. repeat split; discriminate.
  Qed.
End Opts.
