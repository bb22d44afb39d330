(** Every node without comments is printed as [Ec] says. *)

From Coq Require Import String List NArith Bool Arith Lia.
From Verif Require Import Text Kind Green SpecParser SpecSyntax SpecFormat Format FmtLang FmtPieces FmtSteps FmtTrivia FmtRun FmtNode FmtTree FmtDoc FmtEmit.
Import ListNotations.

(** No comments; white space only between significant children, and not in
    front of the body of a flat [if]; no blank lines in type uses. *)
Definition Plain (g : green) : Prop :=
  forall k t, In (k, t) (gtokens g) -> k <> LINE_COMMENT /\ k <> BLOCK_COMMENT.
Definition calm (cs : list green) : Prop :=
  forall a x y b, cs = a ++ x :: y :: b -> significant x = false -> significant y = true /\ loose y = false.
Definition Calm (g : green) : Prop := forall k cs, Sub g (Node k cs) -> k <> ROOT -> calm cs.
(** No blank line after a parameter or a result of a type use. *)
Definition Snug (g : green) : Prop :=
  forall cs a k ns w b, Sub g (Node TYPE_USE cs) -> cs = a ++ Node k ns :: Tok WHITESPACE w :: b -> count_lf w < 2.

Lemma Plain_children k cs c : Plain (Node k cs) -> In c cs -> Plain c.
Proof.
  intros H Hc k' t Hin. apply (H k' t). cbn [gtokens]. apply in_concat. exists (gtokens c). split; [now apply in_map|exact Hin].
Qed.
Lemma Calm_children k cs c : Calm (Node k cs) -> In c cs -> Calm c.
Proof. intros H Hc k' cs' Hs. apply H. now apply Sub_child with c. Qed.
Lemma Snug_children k cs c : Snug (Node k cs) -> In c cs -> Snug c.
Proof. intros H Hc cs' a k' ns w b Hs. apply H. now apply Sub_child with c. Qed.
Lemma calm_suffix a b : calm (a ++ b) -> calm b.
Proof. intros H x g h y E. apply (H (a ++ x) g h y). now rewrite E, <- app_assoc. Qed.

(** Whether a blank line follows a child that is a node. *)
Definition wide (c : green) (next : list green) : bool :=
  match c, next with
  | Node _ _, Tok WHITESPACE w :: _ => Nat.leb 2 (count_lf w)
  | _, _ => false
  end.

Definition head_ok (k : kind) (segs : list seg) : bool :=
  match segs with
  | SOne y :: r =>
      negb (in_three y) && (negb (is_instr_sym y) || (nilb r && existsb (kind_eqb k) [ELEM_EXPR; OFFSET]))
  | _ => false
  end
  || match segs with
     | [SMany l] => kind_eqb k BLOCK_IF_THEN && forallb is_instr_sym l
     | _ => false
     end.
Definition kind_ok2 (k : kind) : bool :=
  match shape_of k, alts (ordinary k) with
  | Some (Parts l c _), Some a => forallb (fun segs => form2 (kind_eqb k TYPE_USE) l c segs && head_ok k segs) a
  | _, _ => false
  end.

Section Opts.
  Variable o : options.

  Lemma trail_plain next : Forall (fun g => WF o g /\ Plain g) next -> calm next ->
    (trail next = [] /\ match next with Tok WHITESPACE _ :: _ => False | _ => True end)
    \/ exists w r, next = Tok WHITESPACE w :: r /\ trail next = [Tok WHITESPACE w].
  Proof.
    intros H Hc.
    assert (S : forall g r, significant g = true -> WF o g -> trail (g :: r) = []).
    { intros g r Hs Hw. apply trail_sig; [exact Hs|]. pose proof (WFs_good o [g] ltac:(now constructor)) as X. now inversion X. }
    destruct next as [|g r]; [now left|]. inversion H as [|? ? [Hw Hp] H2]; subst.
    destruct (significant g) eqn:Es.
    - left. split; [now apply S|]. destruct g as [k t|]; [|exact I]. destruct k; try exact I. discriminate Es.
    - right. destruct g as [k t|]; [|discriminate]. pose proof (WF_tok _ _ _ Hw) as (Hne & _).
      destruct (Hp k t ltac:(now left)) as [N1 N2]. cbn [significant] in Es. apply negb_false_iff in Es.
      assert (k = WHITESPACE) as -> by (destruct k; try discriminate; congruence).
      exists t, r. split; [reflexivity|]. rewrite trail_triv by reflexivity. f_equal.
      destruct r as [|h r]; [reflexivity|]. inversion H2 as [|? ? [Hw2 _] _]; subst. apply S; [|exact Hw2].
      destruct (Hc [] (Tok WHITESPACE t) h r eq_refl eq_refl). assumption.
  Qed.

  Lemma after_wide i : Forall (fun g => WF o g /\ Plain g) (i_next i) -> calm (i_next i) ->
    after o i = if wide (i_el i) (i_next i) then blank_line else [].
  Proof.
    intros H Hc. unfold after. destruct (trail_plain _ H Hc) as [[E Hn]|(w & r & En & E)].
    - destruct (i_el i).
      + unfold after_token. rewrite E. reflexivity.
      + unfold after_node. rewrite E. cbn [forallb wide]. destruct (i_next i) as [|[kk t|] r]; try reflexivity.
        destruct kk; try reflexivity. contradiction.
    - destruct (i_el i).
      + unfold after_token. rewrite E. reflexivity.
      + unfold after_node. rewrite E, En. cbn [forallb wide is_ws of_kind].
        replace (kind_eqb WHITESPACE WHITESPACE) with true by reflexivity. cbn [andb gtext].
        rewrite andb_true_r. cbn [flat_map]. rewrite app_nil_r. unfold trivia_docs. cbn [is_ws of_kind gtext].
        replace (kind_eqb WHITESPACE WHITESPACE) with true by reflexivity. unfold gap_docs, blank_line.
        destruct (count_lf w) as [|[|n]] eqn:Ec; reflexivity.
  Qed.

  Definition Good (g : green) : Prop := WF o g /\ Plain g /\ Calm g /\ Snug g.
  Lemma Good_children k cs c : Good (Node k cs) -> In c cs -> Good c.
  Proof.
    intros (A & B & C & D) Hc. split; [|split; [|split]].
    - pose proof (WF_children o _ _ A) as X. unfold WFs in X. rewrite Forall_forall in X. auto.
    - eapply Plain_children; eauto.
    - eapply Calm_children; eauto.
    - eapply Snug_children; eauto.
  Qed.

  (** The first child, if there is one, is not printed with a line break. *)
  Definition headed (g : green) : Prop :=
    match g with
    | Tok _ _ => True
    | Node _ cs => match filter significant cs with [] => loose g = true | x :: _ => special x = false end
    end.
  Definition FrontOK2 (g : green) (p : list piece) : Prop := FrontOK g p /\ headed g.

  Definition Prints2 (g : green) : Prop :=
    Good g -> significant g = true -> forall outer, should_ignore o outer = false ->
    FrontOK2 g (pcs (gdoc o outer g))
    /\ match g with
       | Node k cs => Ec o [] (sigs (items o outer None None cs)) (pcs (gdoc o outer g))
       | Tok _ _ => True
       end.

  Lemma item_rest k cs outer i : WF o (Node k cs) -> Plain (Node k cs) -> calm cs ->
    In i (items o outer None None cs) ->
    Forall (fun g => WF o g /\ Plain g) (i_next i) /\ calm (i_next i)
    /\ (exists pre, cs = pre ++ i_el i :: i_next i)
    /\ exists p, known cs p /\ i_doc i = gdoc o p (i_el i) /\ i_prev i = or_else p outer.
  Proof.
    intros HW HP HC Hi. pose proof (items_spec o cs outer cs [] None None eq_refl (or_introl eq_refl) (or_introl eq_refl)) as HS.
    rewrite Forall_forall in HS. destruct (HS i Hi) as (pre & E & p & Hp & Ed & Ep).
    pose proof (WF_children o _ _ HW) as X. unfold WFs in X. rewrite Forall_forall in X.
    split; [|split; [|split]].
    - apply Forall_forall. intros g Hg. assert (In g cs) by (rewrite E; apply in_or_app; right; now right).
      split; [auto|]. eapply Plain_children; eauto.
    - change (pre ++ i_el i :: i_next i) with (pre ++ [i_el i] ++ i_next i) in E. rewrite app_assoc in E.
      rewrite E in HC. now apply calm_suffix in HC.
    - eauto.
    - exists p. auto.
  Qed.

  Lemma all_prints cs : Forall (Prints o) cs.
  Proof. apply Forall_forall. intros c _. apply all_print. Qed.

  Lemma items2 k cs outer : Good (Node k cs) -> should_ignore o outer = false -> Forall Prints2 cs ->
    Forall (ItemOK2 o) (sigs (items o outer None None cs)).
  Proof.
    intros HG Ho HP. pose proof HG as (HW & Hpl & Hc & _).
    pose proof (items_ok o _ _ _ HW Ho (all_prints cs)) as HI.
    assert (Hcs : calm cs).
    { apply (Hc k cs (Sub_here _)). destruct (proj1 HW k cs (Sub_here _)) as (X & _). exact X. }
    apply Forall_forall. intros i Hi. rewrite Forall_forall in HI. pose proof (HI i Hi) as H1.
    unfold sigs in Hi. apply filter_In in Hi as [Hi Hs].
    destruct (item_rest k cs outer i HW Hpl Hcs Hi) as (A1 & A2 & (pre & E) & p & Hp & Ed & Ep).
    split; [exact H1| |].
    - assert (Hin : In (i_el i) cs) by (rewrite E; apply in_elt).
      rewrite Forall_forall in HP.
      destruct (HP _ Hin (Good_children _ _ _ HG Hin) Hs p) as [X _].
      + apply known_ignore with cs; [exact (WF_children o _ _ HW)|exact Hp].
      + rewrite Ed. exact (proj1 X).
    - rewrite (after_wide i A1 A2). destruct (wide (i_el i) (i_next i)); auto.
  Qed.

  (** ** Nodes printed by a table *)

  Lemma front_node k cs outer segs gs p : Good (Node k cs) ->
    Forall (ItemOK2 o) (sigs (items o outer None None cs)) ->
    Forall2 (SegM (fun g => g)) segs gs -> filter significant cs = concat gs -> head_ok k segs = true ->
    NodeEm o (items o outer None None cs) p -> FrontOK2 (Node k cs) p.
  Proof.
    intros HG HI HS HE Hh [N1 N2]. change (filter (fun i => significant (i_el i)) (items o outer None None cs))
      with (sigs (items o outer None None cs)) in N1, N2.
    set (its := items o outer None None cs) in *.
    assert (Em : map i_el (sigs its) = filter significant cs) by (rewrite sigs_map; unfold its; now rewrite items_el).
    assert (NoTok : forall s, Forall (fun g => exists y, is_instr_sym y = true /\ SymM y g) (filter significant cs) ->
      is_trivia_kind s = false -> existsb (selects (STok s)) cs = false).
    { intros s X Hs. apply not_true_iff_false. intros Z. apply existsb_exists in Z as (x & Hx & Hx2).
      destruct x as [k' t|]; [|discriminate]. cbn [selects] in Hx2. apply kind_eqb_eq in Hx2. subst k'.
      rewrite Forall_forall in X. destruct (X (Tok s t)) as (y & Hy & Hm).
      - apply filter_In. split; [exact Hx|]. cbn [significant]. now rewrite Hs.
      - destruct y; try discriminate. contradiction. }
    assert (First : forall i r, sigs its = i :: r -> special (i_el i) = false -> texts p <> [] /\
      (front p = [] \/ inst i /\ length (front p) <= 1)).
    { intros i r Ei Hsp. rewrite Forall_forall in HI. pose proof (HI i ltac:(rewrite Ei; now left)) as [_ (F1 & F2 & F3) _].
      assert (Ht : texts (pcs (i_doc i)) <> []).
      { destruct F3 as [F3|[F3 _]]; [exact F3|]. unfold special in Hsp. rewrite F3 in Hsp. discriminate. }
      rewrite Ei in N1. inversion N1 as [|? ? ? l p' HL HEc]; subst. split.
      - rewrite !texts_app. intros Z. apply app_eq_nil in Z as [_ Z]. now apply app_eq_nil in Z as [Z _].
      - destruct (N2 i r Ei) as [X|(r' & X)].
        + right. split; [exact X|]. destruct HL as [_ HL]. destruct (HL eq_refl) as [[->|(b & -> & Hb & _)] _].
          * cbn [app]. rewrite front_app by exact Ht. exact F1.
          * rewrite front_blanks by (cbn; now rewrite Hb). rewrite front_app by exact Ht. rewrite (F2 Hsp). cbn. lia.
        + left. rewrite X, front_app by exact Ht. auto. }
    apply orb_prop in Hh as [Hh|Hh].
    - destruct segs as [|[y|] segs]; try discriminate. apply andb_prop in Hh as [H1 H2].
      inversion HS as [|? g0 ? gs' Hg HS']; subst. destruct Hg as (g & -> & Hm). cbn [concat app] in HE.
      rewrite HE in Em. destruct (sigs its) as [|i r] eqn:Ei; [discriminate|]. injection Em as Eg Er.
      assert (Hsp : special (i_el i) = false).
      { apply not_true_iff_false. intros Z. apply special_kind in Z as (k' & cs' & Ek & Hk'). rewrite <- Eg, Ek in Hm.
        destruct y as [w|k2|k2]; cbn [SymM] in Hm; try contradiction. subst k2. unfold in_three, nd_in in H1.
        apply negb_true_iff in H1. rewrite <- not_true_iff_false in H1. apply H1. apply existsb_exists.
        exists k'. split; [exact Hk'|now apply kind_eqb_eq]. }
      destruct (First i r eq_refl Hsp) as [A B]. split; [|cbn [headed]; rewrite HE, <- Eg; exact Hsp]. split; [|split; [|now left]].
      + destruct B as [->|[_ B]]; [cbn; lia|exact B].
      + intros Hns. destruct B as [B|[Hi B]]; [exact B|]. exfalso.
        destruct Hi as (k' & cs' & Ek & Hk'). rewrite <- Eg, Ek in Hm.
        destruct y as [w|k2|k2]; cbn [SymM] in Hm; try contradiction. subst k2.
        cbn [is_instr_sym] in H2. rewrite Hk' in H2. cbn [negb orb] in H2. apply andb_prop in H2 as [H2 H3].
        destruct segs; [|discriminate]. inversion HS'; subst. cbn [concat] in HE.
        assert (X : existsb (selects (STok KEYWORD)) cs = false).
        { apply NoTok; [|reflexivity]. rewrite HE, Ek. constructor; [|constructor]. exists (YNd k'). cbn. auto. }
        apply existsb_exists in H3 as (k2 & Hk2 & E2). apply kind_eqb_eq in E2. subst k2.
        destruct Hk2 as [<-|[<-|[]]]; unfold special in Hns; cbn [loose orb] in Hns; rewrite X in Hns; discriminate.
    - destruct segs as [|[y|l] [|]]; try discriminate. apply andb_prop in Hh as [H1 H2]. apply kind_eqb_eq in H1. subst k.
      inversion HS as [|? g0 ? gs' Hg HS']; subst. inversion HS'; subst. cbn [concat] in HE. rewrite app_nil_r in HE.
      cbn [SegM] in Hg.
      assert (All : Forall (fun g => exists y, is_instr_sym y = true /\ SymM y g) (filter significant cs)).
      { rewrite HE. eapply Forall_impl; [|exact Hg]. intros g (y & Hy & Hm). rewrite forallb_forall in H2. eauto. }
      assert (Hl : loose (Node BLOCK_IF_THEN cs) = true).
      { unfold loose. now rewrite (NoTok L_PAREN All eq_refl). }
      assert (Hsp : special (Node BLOCK_IF_THEN cs) = true) by (unfold special; now rewrite Hl).
      destruct (sigs its) as [|i r] eqn:Ei.
      + inversion N1; subst. split; [|cbn [headed]; rewrite <- Em; exact Hl]. split; [cbn; lia|]. split; [congruence|]. right. auto.
      + rewrite <- Em in All. inversion All as [|? ? (y & Hy & Hm) _]; subst.
        assert (Hspi : special (i_el i) = false).
        { apply not_true_iff_false. intros Z. apply special_kind in Z as (k' & cs' & Ek & Hk'). rewrite Ek in Hm.
          destruct y as [w|k2|k2]; cbn [SymM] in Hm; try contradiction. subst k2.
          destruct Hk' as [<-|[<-|[<-|[]]]]; discriminate. }
        destruct (First i r eq_refl Hspi) as [A B]. split; [|cbn [headed]; rewrite <- Em; exact Hspi]. split; [|split; [congruence|now left]].
        destruct B as [->|[_ B]]; [cbn; lia|exact B].
  Qed.

  Lemma afters_end k cs outer : Good (Node k cs) -> afters o [] (sigs (items o outer None None cs)) = [].
  Proof.
    intros (HW & Hpl & Hc & _). destruct (proj1 HW k cs (Sub_here _)) as (Hk & _ & _ & _ & Ht).
    pose proof (Hc k cs (Sub_here _) Hk) as Hcs.
    set (its := items o outer None None cs). unfold afters. destruct (rev (sigs its)) as [|i r] eqn:E; [reflexivity|].
    assert (Hi : In i its).
    { assert (X : In i (sigs its)) by (apply in_rev; rewrite E; now left). unfold sigs in X. now apply filter_In in X. }
    destruct (item_rest k cs outer i HW Hpl Hcs Hi) as (A1 & A2 & _).
    rewrite (after_wide i A1 A2).
    assert (Hn : i_next i = []).
    { pose proof (items_rows o outer None None cs) as HR. fold its in HR.
      clear -HR Ht E. revert Ht i r E. induction HR as [|g l j rr E1 E2 HR IH]; intros Ht i r E; [discriminate|].
      assert (Es : sigs (j :: rr) = (if significant (i_el j) then [j] else []) ++ sigs rr).
      { unfold sigs. cbn [filter]. destruct (significant (i_el j)); reflexivity. }
      rewrite Es, rev_app_distr in E. destruct (rev (sigs rr)) as [|x y] eqn:Er.
      - cbn [app] in E. destruct (significant (i_el j)) eqn:Ej; [|discriminate]. injection E as <- _.
        rewrite app_nil_r in E2. rewrite E2. destruct l as [|h l]; [reflexivity|]. exfalso.
        assert (Hl : existsb significant (h :: l) = true) by (apply notrail_sig; [exact (notrail_cons _ _ Ht)|discriminate]).
        apply existsb_exists in Hl as (z & Hz & Hz2). rewrite <- (rows_map _ _ _ HR) in Hz.
        apply in_map_iff in Hz as (q & <- & Hq).
        assert (In q (sigs rr)) by (unfold sigs; now apply filter_In). apply in_rev in H. rewrite Er in H. destruct H.
      - injection E as <- _. apply (IH (notrail_cons _ _ Ht) x y eq_refl). }
    rewrite Hn. destruct (i_el i); reflexivity.
  Qed.

  Lemma parts_em k cs outer l c nest segs gs tu :
    Good (Node k cs) -> should_ignore o outer = false -> Forall Prints2 cs ->
    pcs (node_doc o (Node k cs) (items o outer None None cs))
      = pcs (shape_doc o (Node k cs) (items o outer None None cs) (Parts l c nest)) ->
    form2 tu l c segs = true -> (tu = true -> k = TYPE_USE) -> head_ok k segs = true ->
    Forall2 (SegM (fun g => g)) segs gs -> filter significant cs = concat gs ->
    FrontOK2 (Node k cs) (pcs (gdoc o outer (Node k cs)))
    /\ Ec o [] (sigs (items o outer None None cs)) (pcs (gdoc o outer (Node k cs))).
  Proof.
    intros HG Ho HP Hsh Hok Htu Hh HS HE. pose proof (items2 _ _ _ HG Ho HP) as HI. rewrite gdoc_node.
    pose proof HG as (HW & Hpl & Hc & Hsn).
    assert (Hcs : calm cs).
    { apply (Hc k cs (Sub_here _)). destruct (proj1 HW k cs (Sub_here _)) as (X & _). exact X. }
    assert (N : NodeEm o (items o outer None None cs) (pcs (node_doc o (Node k cs) (items o outer None None cs)))).
    { set (its := items o outer None None cs) in *.
      assert (Em : map i_el (sigs its) = concat gs).
      { rewrite sigs_map. unfold its. now rewrite items_el. }
      destruct (parts_lift i_el _ _ _ HS Em) as (parts & HS' & HE').
      rewrite Hsh.
      assert (Ed : pcs (shape_doc o (Node k cs) its (Parts l c nest))
        = pcs (shape_doc o (Node k (map i_el its)) its (Parts l c false))).
      { cbn [shape_doc]. destruct nest; reflexivity. }
      rewrite Ed. apply (form_emits o tu its segs parts HE' HS' HI); [|exact Hok|].
      - intros Et i Hi. rewrite (Htu Et) in *. change (In i (sigs its)) in Hi. unfold sigs in Hi. apply filter_In in Hi as [Hi _].
        destruct (item_rest _ cs outer i HW Hpl Hcs Hi) as (A1 & A2 & (pre & E) & _).
        rewrite (after_wide i A1 A2). unfold wide. destruct (i_el i) as [|ki ci]; [reflexivity|].
        destruct (i_next i) as [|[k' w|] r] eqn:En; try reflexivity. destruct k'; try reflexivity.
        pose proof (Hsn cs pre ki ci w r (Sub_here _) E) as X.
        destruct (Nat.leb_spec 2 (count_lf w)); [lia|reflexivity].
      - intros _. exact (afters_end k cs outer HG). }
    split; [|exact (proj1 N)]. eapply front_node; eauto.
  Qed.

  Lemma kinds_ok2 : forallb kind_ok2 (TYPE_USE :: part_kinds) = true.
  Proof. vm_compute. reflexivity. Qed.

  Lemma table_em k cs outer : In k (TYPE_USE :: part_kinds) -> Good (Node k cs) -> should_ignore o outer = false ->
    Forall Prints2 cs ->
    FrontOK2 (Node k cs) (pcs (gdoc o outer (Node k cs)))
    /\ Ec o [] (sigs (items o outer None None cs)) (pcs (gdoc o outer (Node k cs))).
  Proof.
    intros Hin HG Ho HP. pose proof kinds_ok2 as X. rewrite forallb_forall in X. pose proof (X _ Hin) as Hk.
    unfold kind_ok2 in Hk. destruct (shape_of k) as [[| |l c nest|]|] eqn:Hsh; try discriminate.
    destruct (alts (ordinary k)) as [a|] eqn:Ha; [|discriminate].
    destruct (proj1 (proj1 HG) k cs (Sub_here _)) as (Hk0 & Hm & _).
    destruct (alts_ok _ _ _ Ha Hm) as (segs & gs & H1 & H2 & H3).
    rewrite forallb_forall in Hk. specialize (Hk _ H1). apply andb_prop in Hk as [K1 K2].
    eapply parts_em; eauto.
    - now rewrite (node_shape o _ _ _ _ Hk0 Hsh).
    - intros E. now apply kind_eqb_eq in E.
  Qed.

  (** ** Nodes with a single child *)

  Lemma single_em k x outer : special x = false ->
    pcs (gdoc o outer (Node k [x])) = pcs (gdoc o None x) -> Prints2 x -> Good (Node k [x]) -> significant x = true ->
    FrontOK2 (Node k [x]) (pcs (gdoc o outer (Node k [x])))
    /\ Ec o [] (sigs (items o outer None None [x])) (pcs (gdoc o outer (Node k [x]))).
  Proof.
    intros Hsp Hd HP HG Hs. rewrite Hd. destruct (HP (Good_children _ _ _ HG ltac:(now left)) Hs None eq_refl) as [[(F1 & F2 & F3) _] _].
    split.
    - split; [|cbn [headed filter]; rewrite Hs; exact Hsp]. split; [exact F1|]. split; [intros _; auto|]. left. destruct F3 as [F3|[F3 _]]; [exact F3|].
      unfold special in Hsp. rewrite F3 in Hsp. discriminate.
    - cbn [items sigs filter i_el]. rewrite Hs. set (i := mk_item x (gdoc o None x) [] (or_else None outer)).
      rewrite <- (app_nil_r (pcs (gdoc o None x))). apply (Ec_cons o [] i [] []); [|constructor].
      split; [congruence|]. intros _. split; [now left|reflexivity].
  Qed.

  Lemma tok_special k t : special (Tok k t) = false.
  Proof. reflexivity. Qed.

  Lemma whole_em k cs outer ys : Good (Node k cs) -> plain_kind k -> syms (ordinary k) = Some ys ->
    forallb is_token_sym ys = true -> shape_of k = Some Whole -> Forall Prints2 cs ->
    FrontOK2 (Node k cs) (pcs (gdoc o outer (Node k cs)))
    /\ Ec o [] (sigs (items o outer None None cs)) (pcs (gdoc o outer (Node k cs))).
  Proof.
    intros HG Hp Hs Hy Hsh HP. pose proof HG as (HW & _).
    assert (Hn : k <> BLOCK_IF_THEN /\ k <> TYPE_USE /\ k <> ROOT).
    { repeat split; intros ->; apply Hp; cbn; tauto. }
    destruct Hn as (N1 & N2 & N3).
    destruct (one_child o _ _ _ HW N1 Hs) as (x & y & -> & Hin & Hm & Hsig).
    rewrite forallb_forall in Hy. specialize (Hy _ Hin).
    assert (Ht : exists k' t, x = Tok k' t).
    { destruct x as [k' t|k' c]; [eauto|]. destruct y; try contradiction. discriminate. }
    destruct Ht as (k' & t & ->). inversion HP as [|? ? HP1 _]; subst. apply single_em; auto.
    rewrite gdoc_node. unfold node_doc. cbn [gkind].
    replace (kind_eqb k ROOT) with false by (symmetry; apply not_true_iff_false; intros E; now apply kind_eqb_eq in E).
    rewrite Hsh. cbn [shape_doc gdoc]. cbn [gtext map concat]. now rewrite app_nil_r.
  Qed.

  Lemma choice_em k cs outer ys l tok : Good (Node k cs) -> plain_kind k -> syms (ordinary k) = Some ys ->
    forallb (fun y => negb (in_three y)) ys = true ->
    forallb (fun y => match y with
                      | YNd k' => existsb (fun s => match s with SNode ks => existsb (kind_eqb k') ks | _ => false end) l
                      | _ => tok && forallb (fun s => match s with SNode _ => true | _ => false end) l
                      end) ys = true ->
    Forall Prints2 cs ->
    (forall its, pcs (node_doc o (Node k cs) its) = pcs (shape_doc o (Node k cs) its (Choice l tok))) ->
    FrontOK2 (Node k cs) (pcs (gdoc o outer (Node k cs)))
    /\ Ec o [] (sigs (items o outer None None cs)) (pcs (gdoc o outer (Node k cs))).
  Proof.
    intros HG Hp Hs H3 Hy HP Hsh. pose proof HG as (HW & _).
    assert (Hn : k <> BLOCK_IF_THEN /\ k <> TYPE_USE).
    { split; intros ->; apply Hp; cbn; tauto. }
    destruct Hn as (N1 & N2).
    destruct (one_child o _ _ _ HW N1 Hs) as (x & y & -> & Hin & Hm & Hsig).
    rewrite forallb_forall in Hy, H3. specialize (Hy _ Hin). specialize (H3 _ Hin).
    inversion HP as [|? ? HP1 _]; subst. apply single_em; auto.
    - apply not_true_iff_false. intros Z. apply special_kind in Z as (k' & cs' & -> & Hk').
      destruct y as [w|k2|k2]; cbn [SymM] in Hm; try contradiction. subst k2. unfold in_three, nd_in in H3.
      apply negb_true_iff in H3. rewrite <- not_true_iff_false in H3. apply H3. apply existsb_exists.
      exists k'. split; [exact Hk'|now apply kind_eqb_eq].
    - rewrite gdoc_node, Hsh. cbn [shape_doc items filter i_el].
      destruct x as [k' t|k' c].
      + assert (F : flat_map (fun s => if selects s (Tok k' t) then [mk_item (Tok k' t) (gdoc o None (Tok k' t)) [] (or_else None outer)] else []) l = []
          /\ tok = true).
        { assert (Hy2 : tok && forallb (fun s => match s with SNode _ => true | _ => false end) l = true).
          { destruct y; try contradiction; exact Hy. }
          apply andb_prop in Hy2 as [-> Hy2]. split; [|reflexivity]. clear -Hy2.
          induction l as [|s l IH]; [reflexivity|]. cbn [forallb flat_map] in *. apply andb_prop in Hy2 as [H1 H2].
          rewrite (IH H2). destruct s; discriminate || reflexivity. }
        destruct F as [F ->]. rewrite F. reflexivity.
      + destruct y as [|?|k'']; try contradiction. cbn [SymM] in Hm. subst k''.
        clear -Hy. induction l as [|s l IH]; [discriminate|]. cbn [existsb flat_map] in *.
        destruct (selects s (Node k' c)) eqn:Es; [reflexivity|]. cbn [app]. apply IH.
        apply orb_prop in Hy as [Hy|Hy]; [|exact Hy]. exfalso. destruct s; try discriminate.
        cbn [selects] in Es. congruence.
  Qed.

  Lemma global_em cs outer : Good (Node GLOBAL_TYPE cs) -> should_ignore o outer = false -> Forall Prints2 cs ->
    FrontOK2 (Node GLOBAL_TYPE cs) (pcs (gdoc o outer (Node GLOBAL_TYPE cs)))
    /\ Ec o [] (sigs (items o outer None None cs)) (pcs (gdoc o outer (Node GLOBAL_TYPE cs))).
  Proof.
    intros HG Ho HP. pose proof HG as (HW & _). destruct (proj1 HW _ _ (Sub_here _)) as (_ & Hm & _ & Hl & Ht).
    change (ordinary GLOBAL_TYPE) with (Or (Nd VAL_TYPE) (SpecSyntax.form "mut" [Nd VAL_TYPE])) in Hm.
    inversion Hm as [| | | | |? ? ? H1|? ? ? H1| |]; subst.
    - apply m_nd in H1 as (c1 & E). apply single in E; [|apply Hl; discriminate|exact Ht].
      subst cs. inversion HP as [|? ? HP1 _]; subst. apply single_em; auto.
    - destruct (alts_ok (SpecSyntax.form "mut" [Nd VAL_TYPE]) _ _ eq_refl H1) as (segs & gs & I1 & I2 & I3).
      assert (Hp : has_item (STok L_PAREN) (items o outer None None cs) = true).
      { rewrite has_item_el, items_el. apply m_form in H1 as (t & y & E). apply existsb_exists.
        exists (Tok L_PAREN t). split; [|reflexivity]. assert (In (Tok L_PAREN t) (filter significant cs)) by (rewrite E; now left).
        now apply filter_In in H. }
      assert (A : forallb (fun segs => form2 false (p_paren :: p_kw "mut" :: [p_node [VAL_TYPE]]) CParen segs && head_ok GLOBAL_TYPE segs)
           match alts (SpecSyntax.form "mut" [Nd VAL_TYPE]) with Some a => a | None => [] end = true) by (vm_compute; reflexivity).
      rewrite forallb_forall in A. specialize (A _ I1). apply andb_prop in A as [A1 A2].
      eapply (parts_em GLOBAL_TYPE cs outer (p_paren :: p_kw "mut" :: [p_node [VAL_TYPE]]) CParen false segs gs false); eauto.
      + rewrite (node_shape o GLOBAL_TYPE _ _ _ ltac:(discriminate) eq_refl). cbn [shape_doc Format.form]. rewrite Hp. reflexivity.
      + discriminate.
  Qed.

  Theorem all_prints2 : forall g, Prints2 g.
  Proof.
    apply green_ind'.
    - intros k t HG Hs outer Ho. split; [|exact I]. destruct HG as (HW & _). apply WF_tok in HW as (H1 & H2 & H3 & _).
      cbn [significant] in Hs. apply negb_true_iff in Hs. destruct (token_lex k t H2 H3 H1 Hs) as [L1 L2].
      cbn [gdoc]. rewrite (text_not_space _ L1). split; [|exact I]. split; [cbn; lia|]. split; [reflexivity|]. left. discriminate.
    - intros k cs HP HG _ outer Ho.
      destruct (existsb (kind_eqb k) (TYPE_USE :: part_kinds)) eqn:Ek.
      { apply existsb_exists in Ek as (k' & Hin & E). apply kind_eqb_eq in E. subst k'. now apply table_em. }
      pose proof HG as (HW & _).
      destruct k; try discriminate Ek; try (exfalso; exact (no_production o _ _ HW eq_refl)); clear Ek.
      all: try (exfalso; destruct (proj1 HW _ _ (Sub_here _)) as (X & _); now apply X).
      all: try (eapply whole_em; [exact HG|cbv; intuition discriminate|reflexivity|reflexivity|reflexivity|exact HP]).
      all: try (eapply choice_em; [exact HG|cbv; intuition discriminate|reflexivity|reflexivity| |exact HP|reflexivity]; reflexivity).
      now apply global_em.
  Qed.
End Opts.
