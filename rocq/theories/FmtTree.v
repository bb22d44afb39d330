(** What the formatter prints for the nodes of each kind, and for documents. *)

From Coq Require Import String List NArith Bool Arith Lia.
From Verif Require Import Text Kind Green SpecParser SpecSyntax SpecFormat Format FmtLang FmtPieces FmtSteps FmtTrivia FmtRun FmtNode.
Import ListNotations.

Section Opts.
  Variable o : options.

  Lemma filter_split {A : Type} (f : A -> bool) l a b c : filter f l = a ++ b :: c ->
    exists l1 l2, l = l1 ++ b :: l2 /\ filter f l1 = a /\ filter f l2 = c.
  Proof.
    revert a. induction l as [|x l IH]; intros a E; cbn [filter] in E; [destruct a; discriminate|].
    destruct (f x) eqn:Ef.
    - destruct a as [|y a].
      + injection E as -> E. exists [], l. repeat split. exact E.
      + injection E as -> E. destruct (IH _ E) as (l1 & l2 & -> & H1 & H2). exists (y :: l1), l2.
        repeat split; auto. cbn [filter]. now rewrite Ef, H1.
    - destruct (IH _ E) as (l1 & l2 & -> & H1 & H2). exists (x :: l1), l2. repeat split; auto. cbn [filter]. now rewrite Ef.
  Qed.

  Lemma nolead_trail cs : nolead_l cs -> Forall GoodEl cs -> trail cs = [].
  Proof.
    intros H Hg. destruct cs as [|g cs]; [reflexivity|]. inversion Hg; subst. apply trail_sig; [|assumption].
    cbn [nolead_l] in H. destruct g; [|reflexivity]. cbn [triv_tok significant] in *. now rewrite H.
  Qed.
  Lemma notrail_suffix a b : notrail_l (a ++ b) -> notrail_l b.
  Proof. induction a as [|g a IH]; [auto|]. intros H. apply IH, (notrail_cons g), H. Qed.
  Lemma skip_split l : exists p, l = p ++ skip_trivia l /\ filter significant p = [].
  Proof.
    induction l as [|g l (p & E & Hp)]; [exists []; auto|]. cbn [skip_trivia]. unfold trivial.
    destruct (significant g) eqn:Es; cbn [negb].
    - exists []. auto.
    - exists (g :: p). cbn [app filter]. rewrite Es, <- E. auto.
  Qed.
  Lemma skip_head l : match skip_trivia l with g :: _ => significant g = true | [] => True end.
  Proof.
    induction l as [|g l IH]; [exact I|]. cbn [skip_trivia]. unfold trivial.
    destruct (significant g) eqn:Es; cbn [negb]; auto.
  Qed.
  Lemma skip_keep l : skip_trivia (map keep l) = map keep (skip_trivia l).
  Proof.
    induction l as [|g l IH]; [reflexivity|]. cbn [map skip_trivia]. unfold trivial. rewrite keep_sig.
    destruct (significant g); [reflexivity|exact IH].
  Qed.
  Lemma sigs_app a b : sigs (a ++ b) = sigs a ++ sigs b.
  Proof. apply filter_app. Qed.
  Lemma sigs_nil tail l r : Rows tail l r -> filter significant l = [] -> sigs r = [].
  Proof.
    intros H E. apply map_eq_nil with (f := i_el). now rewrite sigs_map, (rows_map _ _ _ H).
  Qed.

  (** The comments of a node's children, in the two usual cases. *)
  Lemma walk_all tail l r : Rows tail l r -> Forall GoodEl l -> notrail_l l -> nolead_l l ->
    walk o [] (sigs r) = leaves_l o (map keep l).
  Proof.
    intros H Hg Ht Hl. rewrite <- (walk_rows o _ _ _ H Hg Ht), (nolead_trail _ Hl Hg). reflexivity.
  Qed.
  Lemma walk_then l r : Rows [] l r -> Forall GoodEl l -> notrail_l l ->
    walk o [] (sigs r) = leaves_l o (skip_trivia (map keep l)).
  Proof.
    intros H Hg Ht. rewrite skip_keep. destruct (skip_split l) as (p & E & Hp).
    pose proof (skip_head l) as Hh. set (s := skip_trivia l) in *. clearbody s. subst l.
    apply rows_split in H as (r1 & r2 & -> & H1 & H2). rewrite sigs_app, (sigs_nil _ _ _ H1 Hp).
    apply Forall_app in Hg as [_ Hg]. apply notrail_suffix in Ht. cbn [app].
    apply (walk_all [] s); auto. destruct s as [|g s]; [exact I|]. cbn [nolead_l]. destruct g; [|reflexivity].
    cbn [significant triv_tok] in *. now apply negb_true_iff.
  Qed.

  Lemma gapo_rows l r : Rows [] l r -> notrail_l l -> gapo o (sigs r) = [].
  Proof.
    intros H Ht. destruct (rev l) as [|x y] eqn:E.
    - apply (f_equal (@rev _)) in E. rewrite rev_involutive in E. subst l. inversion H; subst. reflexivity.
    - assert (El : l = rev y ++ [x]) by (rewrite <- (rev_involutive l), E; reflexivity).
      unfold notrail_l in Ht. rewrite E in Ht. cbn [nolead_l] in Ht. rewrite El in H.
      apply rows_split in H as (r1 & r2 & -> & _ & H2). inversion H2 as [|? ? i r' E1 E2 H3]; subst. inversion H3; subst.
      rewrite sigs_app. unfold sigs at 2. cbn [filter].
      assert (Es : significant (i_el i) = true).
      { destruct (i_el i); [|reflexivity]. cbn [triv_tok significant] in *. now rewrite Ht. }
      rewrite Es, gapo_snoc. unfold gap. rewrite E2. reflexivity.
  Qed.

  (** ** Nodes printed by a table *)

  Lemma parts_inv0 k cs outer l c nest segs gs :
    WF o (Node k cs) -> should_ignore o outer = false -> Forall (Prints o) cs ->
    pcs (node_doc o (Node k cs) (items o outer None None cs))
      = pcs (shape_doc o (Node k cs) (items o outer None None cs) (Parts l c nest)) ->
    form_ok l c segs = true ->
    Forall2 (SegM (fun g => g)) segs gs -> filter significant cs = concat gs ->
    NodeInv o (items o outer None None cs) (pcs (gdoc o outer (Node k cs))).
  Proof.
    intros HW Ho HP Hsh Hok HS HE.
    destruct (proj1 HW k cs (Sub_here _)) as (Hk & _ & _ & _ & Hnt).
    pose proof (items_ok o _ _ _ HW Ho HP) as HI. rewrite gdoc_node.
    set (its := items o outer None None cs) in *.
    assert (Em : map i_el (sigs its) = concat gs).
    { rewrite sigs_map. unfold its. now rewrite items_el. }
    destruct (parts_lift i_el _ _ _ HS Em) as (parts & HS' & HE').
    pose proof (close_ok o its segs parts HE' HS' HI l c k Hok) as X.
    assert (Hc : c = CAppend -> gapo o (filter (fun i => significant (i_el i)) its) = []).
    { intros _. apply (gapo_rows cs); [apply items_rows|exact Hnt]. }
    specialize (X Hc). rewrite Hsh.
    assert (Ed : pcs (shape_doc o (Node k cs) its (Parts l c nest))
      = pcs (shape_doc o (Node k (map i_el its)) its (Parts l c false))).
    { cbn [shape_doc]. destruct nest; reflexivity. }
    rewrite Ed. exact X.
  Qed.
  Lemma node_shape k cs its s : k <> ROOT -> shape_of k = Some s ->
    node_doc o (Node k cs) its = shape_doc o (Node k cs) its s.
  Proof.
    intros Hk Hs. unfold node_doc. cbn [gkind].
    replace (kind_eqb k ROOT) with false by (symmetry; apply not_true_iff_false; intros E; now apply kind_eqb_eq in E).
    now rewrite Hs.
  Qed.
  Lemma parts_inv k cs outer l c nest a segs gs :
    WF o (Node k cs) -> should_ignore o outer = false -> Forall (Prints o) cs ->
    shape_of k = Some (Parts l c nest) -> In segs a -> forallb (form_ok l c) a = true ->
    Forall2 (SegM (fun g => g)) segs gs -> filter significant cs = concat gs ->
    NodeInv o (items o outer None None cs) (pcs (gdoc o outer (Node k cs))).
  Proof.
    intros HW Ho HP Hsh Ha Hok HS HE.
    destruct (proj1 HW k cs (Sub_here _)) as (Hk & _).
    rewrite forallb_forall in Hok. specialize (Hok _ Ha).
    eapply parts_inv0; eauto. now rewrite (node_shape _ _ _ _ Hk Hsh).
  Qed.

  Lemma inv_walk its p : NodeInv o its p -> texts p = walk o [] (sigs its).
  Proof. intros (_ & _ & H & _). exact H. Qed.

  Lemma keep_leaves k cs : leaves o (keep (Node k cs)) = leaves_l o (survivors k (map keep cs)).
  Proof. cbn [keep]. apply leaves_node. Qed.

  (** First children. *)
  Lemma m_form kw r x : Matches (Sq (Tk L_PAREN) (Sq (Kw kw) r)) x ->
    exists t y, x = Tok L_PAREN t :: Tok KEYWORD (T kw) :: y.
  Proof.
    intros H. inversion H as [| | | |? ? ? ? H1 H2| | | |]; subst. inversion H1; subst.
    inversion H2 as [| | | |? ? ? ? H3 H4| | | |]; subst. inversion H3; subst. eexists _, _. reflexivity.
  Qed.
  Lemma m_nd k x : Matches (Nd k) x -> exists c, x = [Node k c].
  Proof. intros H. inversion H; subst. eauto. Qed.
  Lemma m_instr x : Matches instr x -> exists k cs, x = [Node k cs] /\ existsb (kind_eqb k) instr_kinds = true.
  Proof.
    intros H. destruct (syms_ok instr _ _ eq_refl H) as (g & y & -> & Hy & Hm).
    cbn in Hy. destruct g as [k t|k cs]; [destruct Hy as [<-|[<-|[<-|[<-|[]]]]]; destruct Hm|].
    exists k, cs. split; [reflexivity|]. destruct Hy as [<-|[<-|[<-|[<-|[]]]]]; cbn [SymM] in Hm; subst k; reflexivity.
  Qed.
  Lemma has_in s k cs x : In x (filter significant cs) -> selects s x = true -> has s (Node k cs) = true.
  Proof. intros H Hs. apply filter_In in H as [H _]. cbn [has]. apply existsb_exists. eauto. Qed.

  Lemma starts_ok k cs outer p : WF o (Node k cs) -> NodeInv o (items o outer None None cs) p ->
    forall k' cs', Node k cs = Node k' cs' ->
        (k' = PARAM \/ k' = RESULT -> exists r, p = PT (T "(") :: r)
        /\ (k' = ELEM_EXPR \/ k' = OFFSET -> has (STok KEYWORD) (Node k cs) = false -> p = [] \/ linestart p)
        /\ (k' = BLOCK_IF_THEN -> has (STok L_PAREN) (Node k cs) = false -> p = [] \/ linestart p).
  Proof.
    intros HW (_ & _ & _ & N1 & N2 & N3) k' cs' E. injection E as <- <-.
    destruct (proj1 HW k cs (Sub_here _)) as (_ & Hm & _).
    set (its := items o outer None None cs) in *.
    assert (Em : map i_el (sigs its) = filter significant cs).
    { rewrite sigs_map. unfold its. now rewrite items_el. }
    assert (Lp : forall t y, filter significant cs = Tok L_PAREN t :: y -> exists r, p = PT (T "(") :: r).
    { intros t y E. rewrite E in Em. change (filter (fun i => significant (i_el i)) its) with (sigs its) in *.
      destruct (sigs its) as [|i r] eqn:Ei; [discriminate|].
      injection Em as Ei2 _. apply (N1 i r eq_refl). exists t. exact Ei2. }
    assert (Is : forall k1 c1 y, filter significant cs = Node k1 c1 :: y -> existsb (kind_eqb k1) instr_kinds = true ->
      p = [] \/ linestart p).
    { intros k1 c1 y E Hk. right. rewrite E in Em. change (filter (fun i => significant (i_el i)) its) with (sigs its) in *.
      destruct (sigs its) as [|i r] eqn:Ei; [discriminate|]. injection Em as Ei2 _.
      destruct (N2 i r eq_refl) as (r' & ->); [|exact I]. exists k1, c1. auto. }
    split; [|split].
    - intros [->| ->]; apply m_form in Hm as (t & y & E); eauto.
    - intros [->| ->] Hh.
      + change (ordinary ELEM_EXPR) with (Or (SpecSyntax.form "item" [Star instr]) instr) in Hm.
        inversion Hm as [| | | | |? ? ? H1|? ? ? H1| |]; subst.
        * apply m_form in H1 as (t & y & E). exfalso.
          rewrite (has_in (STok KEYWORD) ELEM_EXPR cs (Tok KEYWORD (T "item"))) in Hh; [discriminate| |reflexivity].
          rewrite E. right. now left.
        * apply m_instr in H1 as (k1 & c1 & E & Hk). eauto.
      + change (ordinary OFFSET) with (Or (SpecSyntax.form "offset" [Star instr]) instr) in Hm.
        inversion Hm as [| | | | |? ? ? H1|? ? ? H1| |]; subst.
        * apply m_form in H1 as (t & y & E). exfalso.
          rewrite (has_in (STok KEYWORD) OFFSET cs (Tok KEYWORD (T "offset"))) in Hh; [discriminate| |reflexivity].
          rewrite E. right. now left.
        * apply m_instr in H1 as (k1 & c1 & E & Hk). eauto.
    - intros -> Hh. change (ordinary BLOCK_IF_THEN) with (Or (Star instr) (SpecSyntax.form "then" [Star instr])) in Hm.
      inversion Hm as [| | | | |? ? ? H1|? ? ? H1| |]; subst.
      + inversion H1 as [| | | | | | |? Hx|? ? ? H2 H3]; subst.
        * left. apply N3. apply map_eq_nil with (f := i_el). change (filter (fun i => significant (i_el i)) its) with (sigs its).
          rewrite Em. congruence.
        * apply m_instr in H2 as (k1 & c1 & -> & Hk). eauto.
      + apply m_form in H1 as (t & y & E). exfalso.
        rewrite (has_in (STok L_PAREN) BLOCK_IF_THEN cs (Tok L_PAREN t)) in Hh; [discriminate| |reflexivity].
        rewrite E. now left.
  Qed.

  Lemma inv_good k cs outer p : WF o (Node k cs) -> NodeInv o (items o outer None None cs) p ->
    walk o [] (sigs (items o outer None None cs)) = leaves o (keep (Node k cs)) -> GoodDoc o (Node k cs) p.
  Proof.
    intros HW HN Hw. pose proof HN as (H1 & H2 & H3 & _). split; [exact H1|]. split; [exact H2|].
    split; [rewrite <- Hw; exact H3|]. eapply starts_ok; eauto.
  Qed.

  Lemma walk_kept k cs outer : WF o (Node k cs) -> k <> TYPE_USE ->
    walk o [] (sigs (items o outer None None cs)) = leaves o (keep (Node k cs)).
  Proof.
    intros HW Hk. destruct (proj1 HW k cs (Sub_here _)) as (_ & _ & _ & Hl & Ht).
    pose proof (WFs_good o _ (WF_children o _ _ HW)) as Hg. rewrite keep_leaves.
    pose proof (items_rows o outer None None cs) as HR.
    assert (D : k = BLOCK_IF_THEN \/ survivors k (map keep cs) = map keep cs /\ k <> BLOCK_IF_THEN).
    { destruct k; try (right; split; [reflexivity|discriminate]); [now left|congruence]. }
    destruct D as [->|[-> Hn]].
    - now apply walk_then.
    - now apply (walk_all [] cs); auto.
  Qed.

  Lemma part_kinds_ok : forallb kind_ok part_kinds = true.
  Proof. vm_compute. reflexivity. Qed.

  Lemma parts_good k cs outer : In k part_kinds -> WF o (Node k cs) -> should_ignore o outer = false ->
    Forall (Prints o) cs -> GoodDoc o (Node k cs) (pcs (gdoc o outer (Node k cs))).
  Proof.
    intros Hin HW Ho HP. pose proof part_kinds_ok as X. rewrite forallb_forall in X. pose proof (X _ Hin) as Hk.
    unfold kind_ok in Hk. destruct (shape_of k) as [[| |l c nest|]|] eqn:Hsh; try discriminate.
    destruct (alts (ordinary k)) as [a|] eqn:Ha; [|discriminate].
    destruct (proj1 HW k cs (Sub_here _)) as (_ & Hm & _).
    destruct (alts_ok _ _ _ Ha Hm) as (segs & gs & H1 & H2 & H3).
    apply inv_good with outer; [exact HW|eapply parts_inv; eauto|].
    apply walk_kept; [exact HW|]. intros ->. cbn in Hin. repeat (destruct Hin as [Hin|Hin]; [discriminate Hin|]). exact Hin.
  Qed.

  (** ** Nodes with a single child *)

  Lemma single cs x : filter significant cs = [x] -> nolead_l cs -> notrail_l cs -> cs = [x].
  Proof.
    intros E Hl Ht. destruct cs as [|g r]; [discriminate|]. cbn [filter nolead_l] in *.
    assert (Es : significant g = true).
    { destruct g; [|reflexivity]. cbn [triv_tok significant] in *. now rewrite Hl. }
    rewrite Es in E. injection E as -> E. destruct r as [|y r]; [reflexivity|]. exfalso.
    pose proof (notrail_sig _ (notrail_cons _ _ Ht) ltac:(discriminate)) as X.
    apply existsb_exists in X as (z & Hz & Hs). assert (In z (filter significant (y :: r))) by now apply filter_In.
    rewrite E in H. exact H.
  Qed.

  Lemma one_child k cs ys : WF o (Node k cs) -> k <> BLOCK_IF_THEN -> syms (ordinary k) = Some ys ->
    exists x y, cs = [x] /\ In y ys /\ SymM y x /\ significant x = true.
  Proof.
    intros HW Hk Hs. destruct (proj1 HW k cs (Sub_here _)) as (_ & Hm & _ & Hl & Ht).
    destruct (syms_ok _ _ _ Hs Hm) as (x & y & E & Hy & Hx). exists x, y. repeat split; auto.
    - now apply single; auto.
    - assert (In x (filter significant cs)) by (rewrite E; now left). now apply filter_In in H.
  Qed.

  Lemma keep_one k x : k <> BLOCK_IF_THEN -> k <> TYPE_USE -> leaves o (keep (Node k [x])) = leaves o (keep x).
  Proof.
    intros H1 H2. rewrite keep_leaves. replace (survivors k (map keep [x])) with [keep x].
    - unfold leaves_l. cbn. now rewrite app_nil_r.
    - destruct k; try reflexivity; congruence.
  Qed.
  Definition plain_kind (k : kind) : Prop :=
    ~ In k [PARAM; RESULT; ELEM_EXPR; OFFSET; BLOCK_IF_THEN; TYPE_USE; ROOT].

  Lemma whole_good k cs outer ys : WF o (Node k cs) -> plain_kind k -> syms (ordinary k) = Some ys ->
    forallb is_token_sym ys = true -> shape_of k = Some Whole ->
    GoodDoc o (Node k cs) (pcs (gdoc o outer (Node k cs))).
  Proof.
    intros HW Hp Hs Hy Hsh.
    assert (Hn : k <> BLOCK_IF_THEN /\ k <> TYPE_USE /\ k <> ROOT).
    { repeat split; intros ->; apply Hp; cbn; tauto. }
    destruct Hn as (N1 & N2 & N3).
    destruct (one_child _ _ _ HW N1 Hs) as (x & y & -> & Hin & Hm & Hsig).
    rewrite forallb_forall in Hy. specialize (Hy _ Hin).
    assert (Ht : exists k' t, x = Tok k' t).
    { destruct x as [k' t|k' c]; [eauto|]. destruct y; try contradiction. discriminate. }
    destruct Ht as (k' & t & ->). pose proof (WF_children o _ _ HW) as HC. inversion HC as [|? ? HC1 _]; subst.
    destruct (Prints_tok o k' t HC1 Hsig None eq_refl) as (P1 & P2 & P3 & _).
    assert (Ed : pcs (gdoc o outer (Node k [Tok k' t])) = pcs (gdoc o None (Tok k' t))).
    { rewrite gdoc_node. unfold node_doc. cbn [gkind].
      replace (kind_eqb k ROOT) with false by (symmetry; apply not_true_iff_false; intros E; now apply kind_eqb_eq in E).
      rewrite Hsh. cbn [shape_doc gdoc]. cbn [gtext map concat]. now rewrite app_nil_r. }
    rewrite Ed. split; [exact P1|]. split; [exact P2|]. split; [rewrite P3; symmetry; now apply keep_one|].
    intros k2 c2 E. injection E as <- <-. repeat split; intros Hx; exfalso; apply Hp; cbn; intuition congruence.
  Qed.

  Lemma choice_good k cs outer ys l tok : WF o (Node k cs) -> plain_kind k -> syms (ordinary k) = Some ys ->
    forallb (fun y => match y with
                      | YNd k' => existsb (fun s => match s with SNode ks => existsb (kind_eqb k') ks | _ => false end) l
                      | _ => tok && forallb (fun s => match s with SNode _ => true | _ => false end) l
                      end) ys = true ->
    Forall (Prints o) cs -> should_ignore o outer = false ->
    (forall its, pcs (node_doc o (Node k cs) its) = pcs (shape_doc o (Node k cs) its (Choice l tok))) ->
    GoodDoc o (Node k cs) (pcs (gdoc o outer (Node k cs))).
  Proof.
    intros HW Hp Hs Hy HP Ho Hsh.
    assert (Hn : k <> BLOCK_IF_THEN /\ k <> TYPE_USE).
    { split; intros ->; apply Hp; cbn; tauto. }
    destruct Hn as (N1 & N2).
    destruct (one_child _ _ _ HW N1 Hs) as (x & y & -> & Hin & Hm & Hsig).
    rewrite forallb_forall in Hy. specialize (Hy _ Hin).
    pose proof (WF_children o _ _ HW) as HC. inversion HC as [|? ? HC1 _]; subst. inversion HP as [|? ? HP1 _]; subst.
    destruct (HP1 HC1 Hsig None eq_refl) as (P1 & P2 & P3 & _).
    assert (Ed : pcs (gdoc o outer (Node k [x])) = pcs (gdoc o None x)).
    { rewrite gdoc_node, Hsh. cbn [shape_doc items filter i_el].
      destruct x as [k' t|k' c].
      - assert (F : flat_map (fun s => if selects s (Tok k' t) then [mk_item (Tok k' t) (gdoc o None (Tok k' t)) [] (or_else None outer)] else []) l = []
          /\ tok = true).
        { assert (Hy2 : tok && forallb (fun s => match s with SNode _ => true | _ => false end) l = true).
          { destruct y; try contradiction; exact Hy. }
          apply andb_prop in Hy2 as [-> Hy2]. split; [|reflexivity]. clear -Hy2.
          induction l as [|s l IH]; [reflexivity|]. cbn [forallb flat_map] in *. apply andb_prop in Hy2 as [H1 H2].
          rewrite (IH H2). destruct s; discriminate || reflexivity. }
        destruct F as [F ->]. rewrite F. reflexivity.
      - destruct y as [|?|k'']; try contradiction. cbn [SymM] in Hm. subst k''.
        clear -Hy. induction l as [|s l IH]; [discriminate|]. cbn [existsb flat_map] in *.
        destruct (selects s (Node k' c)) eqn:Es; [reflexivity|]. cbn [app]. apply IH.
        apply orb_prop in Hy as [Hy|Hy]; [|exact Hy]. exfalso. destruct s; try discriminate.
        cbn [selects] in Es. congruence. }
    rewrite Ed. split; [exact P1|]. split; [exact P2|]. split; [rewrite P3; symmetry; now apply keep_one|].
    intros k2 c2 E. injection E as <- <-. repeat split; intros Hx; exfalso; apply Hp; cbn; intuition congruence.
  Qed.
  (** ** Global types *)

  Lemma has_item_el s its : has_item s its = existsb (selects s) (map i_el its).
  Proof. unfold has_item. induction its as [|i l IH]; [reflexivity|]. cbn. now rewrite IH. Qed.

  Lemma global_good cs outer : WF o (Node GLOBAL_TYPE cs) -> should_ignore o outer = false ->
    Forall (Prints o) cs -> GoodDoc o (Node GLOBAL_TYPE cs) (pcs (gdoc o outer (Node GLOBAL_TYPE cs))).
  Proof.
    intros HW Ho HP. destruct (proj1 HW _ _ (Sub_here _)) as (_ & Hm & _ & Hl & Ht).
    change (ordinary GLOBAL_TYPE) with (Or (Nd VAL_TYPE) (SpecSyntax.form "mut" [Nd VAL_TYPE])) in Hm.
    inversion Hm as [| | | | |? ? ? H1|? ? ? H1| |]; subst.
    - apply m_nd in H1 as (c1 & E). apply single in E; [|apply Hl; discriminate|exact Ht].
      subst cs. inversion HP as [|? ? HP1 _]; subst.
      pose proof (WF_children o _ _ HW) as HC. inversion HC as [|? ? HC1 _]; subst.
      destruct (HP1 HC1 eq_refl None eq_refl) as (P1 & P2 & P3 & _).
      assert (Ed : pcs (gdoc o outer (Node GLOBAL_TYPE [Node VAL_TYPE c1])) = pcs (gdoc o None (Node VAL_TYPE c1))).
      { rewrite gdoc_node, (node_shape GLOBAL_TYPE _ _ _ ltac:(discriminate) eq_refl). reflexivity. }
      rewrite Ed. split; [exact P1|]. split; [exact P2|]. split; [rewrite P3; symmetry; now apply keep_one|].
      intros k2 c2 E. injection E as <- <-. repeat split; intros Hx; intuition discriminate.
    - destruct (alts_ok (SpecSyntax.form "mut" [Nd VAL_TYPE]) _ _ eq_refl H1) as (segs & gs & I1 & I2 & I3).
      assert (Hp : has_item (STok L_PAREN) (items o outer None None cs) = true).
      { rewrite has_item_el, items_el. apply m_form in H1 as (t & y & E). apply existsb_exists.
        exists (Tok L_PAREN t). split; [|reflexivity]. assert (In (Tok L_PAREN t) (filter significant cs)) by (rewrite E; now left).
        now apply filter_In in H. }
      apply inv_good with outer; [exact HW| |now apply walk_kept].
      eapply (parts_inv0 GLOBAL_TYPE cs outer (p_paren :: p_kw "mut" :: [p_node [VAL_TYPE]]) CParen false); eauto.
      + rewrite (node_shape GLOBAL_TYPE _ _ _ ltac:(discriminate) eq_refl). cbn [shape_doc Format.form]. rewrite Hp. reflexivity.
      + assert (A : forallb (form_ok (p_paren :: p_kw "mut" :: [p_node [VAL_TYPE]]) CParen)
           match alts (SpecSyntax.form "mut" [Nd VAL_TYPE]) with Some a => a | None => [] end = true) by (vm_compute; reflexivity).
        rewrite forallb_forall in A. apply A. exact I1.
  Qed.

  (** ** Type uses *)

  Lemma walk_app q x y : walk o q (x ++ y) = walk o q x ++ walk o (if nilb x then q else gapo o x) y.
  Proof.
    revert q. induction x as [|i x IH]; intros q; [reflexivity|]. cbn [app walk nilb]. rewrite IH, <- !app_assoc.
    do 4 f_equal. destruct x as [|j x]; [reflexivity|]. cbn [nilb]. unfold gapo. cbn [rev].
    destruct (rev x) as [|z w]; reflexivity.
  Qed.

  Definition not_result (g : green) : Prop := is_node RESULT g = false.
  Lemma join_none l : Forall not_result l -> join_results l = l.
  Proof.
    induction 1 as [|g l Hg Hl IH]; [reflexivity|]. cbn [join_results]. rewrite IH, Hg.
    destruct (trivial g); [|reflexivity]. destruct (skip_trivia l) as [|x y] eqn:E; [reflexivity|].
    assert (Hx : not_result x).
    { destruct (skip_split l) as (p & E2 & _). rewrite E in E2. rewrite E2 in Hl. apply Forall_app in Hl as [_ Hl]. now inversion Hl. }
    now rewrite Hx.
  Qed.
  Lemma skip_app_sig a x : existsb significant a = true -> exists y z, skip_trivia (a ++ x) = y :: z /\ In y a.
  Proof.
    induction a as [|g a IH]; [discriminate|]. cbn [existsb app skip_trivia]. unfold trivial.
    destruct (significant g) eqn:Es; cbn [negb orb].
    - intros _. exists g, (a ++ x). split; [reflexivity|now left].
    - intros H. destruct (IH H) as (y & z & E & Hy). exists y, z. split; [exact E|now right].
  Qed.
  Lemma skip_triv a x : filter significant a = [] -> skip_trivia (a ++ x) = skip_trivia x.
  Proof.
    induction a as [|g a IH]; [reflexivity|]. cbn [filter app skip_trivia]. unfold trivial.
    destruct (significant g); [discriminate|exact IH].
  Qed.
  Lemma join_split a g b r : Forall not_result a -> notrail_l a -> filter significant g = [] ->
    significant b = true -> is_node RESULT b = true -> join_results (a ++ g ++ b :: r) = a ++ b :: r.
  Proof.
    intros Ha Ht Hg Hb Hr. induction Ha as [|x a Hx Ha IH].
    - cbn [app]. destruct g as [|y g].
      + cbn [app join_results]. unfold trivial. now rewrite Hb, Hr.
      + cbn [filter] in Hg. destruct (significant y) eqn:Es; [discriminate|].
        cbn [app join_results]. unfold trivial at 1. rewrite Es. cbn [negb]. rewrite (skip_triv g) by exact Hg.
        cbn [skip_trivia]. unfold trivial. rewrite Hb. cbn [negb]. now rewrite Hr.
    - cbn [app join_results]. rewrite (IH (notrail_cons _ _ Ht)). destruct (trivial x) eqn:Et.
      + assert (Hs : existsb significant a = true).
        { pose proof (notrail_sig _ Ht ltac:(discriminate)) as Z. cbn [existsb] in Z. unfold trivial in Et.
          apply negb_true_iff in Et. now rewrite Et in Z. }
        destruct (skip_app_sig a (g ++ b :: r) Hs) as (y & z & -> & Hy).
        rewrite Forall_forall in Ha. now rewrite (Ha _ Hy).
      + now rewrite Hx.
  Qed.
  Lemma tail_split l : exists a g, l = a ++ g /\ notrail_l a /\ filter significant g = [].
  Proof.
    induction l as [|x l IH] using rev_ind; [exists [], []; repeat split|].
    destruct (significant x) eqn:Es.
    - exists (l ++ [x]), []. rewrite app_nil_r. repeat split. unfold notrail_l. rewrite rev_app_distr. cbn.
      destruct x; [|reflexivity]. cbn [significant triv_tok] in *. now apply negb_true_iff.
    - destruct IH as (a & g & -> & Ha & Hg). exists a, (g ++ [x]). rewrite <- app_assoc. repeat split; auto.
      rewrite filter_app, Hg. cbn. now rewrite Es.
  Qed.

  (** After the parameters of a type use without [(type ...)] the trivia are
      dropped before the first result. *)
  Lemma result_emit s docs tr d l r1 : s_lead s = LResult -> s_lit s = None ->
    Inv o [] (docs, tr) (d ++ [l]) -> ItemOK o r1 -> significant (i_el r1) = true ->
    (forall i r, d ++ [l] = i :: r -> ~ lpar i /\ ~ inst i) ->
    (exists c, i_el r1 = Node RESULT c) ->
    Inv o [] (emit o s false true r1 (docs, tr))
        ((d ++ [mk_item (i_el l) (i_doc l) [] (i_prev l)]) ++ [r1]).
  Proof.
    intros Hlead Hlit V H Hsig Hfirst (c & Hc).
    destruct (proj1 (IO_start _ _ H _ _ Hc) (or_intror eq_refl)) as (rest & Hstart).
    set (l' := mk_item (i_el l) (i_doc l) [] (i_prev l)).
    assert (Ew : walk o [] (d ++ [l']) = walk o [] (d ++ [l])).
    { rewrite !walk_snoc. reflexivity. }
    pose proof (I_ok _ _ _ _ V) as V1. pose proof (I_closed _ _ _ _ V) as V2. pose proof (I_texts _ _ _ _ V) as V3.
    cbn [fst app] in V1, V2, V3.
    set (ld := lead_docs o (s_lead s) false true docs tr r1).
    assert (L : okp (pcsl ld) /\ freeend (pcsl ld) /\ texts (pcsl ld) = []
      /\ (blankstart (pcsl ld) \/ pcsl ld = [] /\ junction (pcsl docs) (pcs (i_doc r1)))).
    { unfold ld. rewrite Hlead. cbn [lead_docs]. destruct (nilb tr && negb (nilb docs)).
      - cbn. auto.
      - cbn. repeat split; auto. right. split; [reflexivity|]. rewrite Hstart.
        unfold junction, closedp in *. destruct (lastp (pcsl docs)) as [[t| |]|]; auto.
        cbn [adj]. repeat split; [exact V2|discriminate|discriminate]. }
    destruct L as (L1 & L2 & L3 & L4).
    assert (Ec : pcsl (content o s r1) = pcs (i_doc r1)).
    { unfold content. rewrite Hlit, Hlead. apply app_nil_r. }
    assert (E : pcsl (fst (emit o s false true r1 (docs, tr))) = pcsl docs ++ pcsl ld ++ pcs (i_doc r1)).
    { cbn [emit fst]. now rewrite !pcsl_app, Ec. }
    destruct (join_ok _ _ _ V1 V2 L1 L2 (IO_ok _ _ H) (IO_closed _ _ H) L4) as [J1 J2].
    assert (Hf : forall i r, (d ++ [l']) ++ [r1] = i :: r -> ~ lpar i /\ ~ inst i).
    { intros i r Ei. destruct d as [|x d].
      - injection Ei as <- _. exact (Hfirst l [] eq_refl).
      - injection Ei as <- _. exact (Hfirst x (d ++ [l]) eq_refl). }
    split; cbn [app]; rewrite ?E; auto.
    - rewrite !texts_app, L3, (IO_texts _ _ H), walk_snoc, Ew, gapo_snoc. cbn [app].
      replace (nilb (d ++ [l'])) with false by now destruct d. rewrite V3. reflexivity.
    - rewrite gapo_snoc. apply H.
    - intros Z. destruct d; discriminate.
    - intros i Ei Hl. exfalso. now apply (Hf i []) in Ei as [Z _].
    - intros i r Ei Hl. exfalso. now apply Hf in Ei as [Z _].
    - intros i r Ei Hl. exfalso. now apply Hf in Ei as [_ Z].
  Qed.

  Definition tu_parts : list part :=
    [p_paren; p_kw "type"; p_node [INDEX]; p_close; One (Step (SNode [PARAM]) Each LParam None)].
  Definition tu_result : step := Step (SNode [RESULT]) Each LResult None.
  Definition tu_segs : list (list seg) :=
    match alts (ordinary TYPE_USE) with Some a => a | None => [] end.
  Definition seg_ty : list seg :=
    [SOne (YTk L_PAREN); SOne (YKw "type"); SOne (YNd INDEX); SOne (YTk R_PAREN); SMany [YNd PARAM]; SMany [YNd RESULT]].
  Definition seg_pr : list seg := [SOne (YNd PARAM); SMany [YNd PARAM]; SMany [YNd RESULT]].
  Definition seg_rs : list seg := [SOne (YNd RESULT); SMany [YNd RESULT]].
  Lemma tu_segs_eq : alts (ordinary TYPE_USE) = Some [seg_ty; seg_pr; seg_rs].
  Proof. reflexivity. Qed.

  Lemma keep_is_node k g : is_node k (keep g) = is_node k g.
  Proof. destruct g; reflexivity. Qed.
  Lemma keep_is_token k g : is_token k (keep g) = is_token k g.
  Proof. destruct g; reflexivity. Qed.

  Lemma tu_same cs outer p : WF o (Node TYPE_USE cs) -> NodeInv o (items o outer None None cs) p ->
    survivors TYPE_USE (map keep cs) = map keep cs -> GoodDoc o (Node TYPE_USE cs) p.
  Proof.
    intros HW HN HK. apply inv_good with outer; auto. rewrite keep_leaves, HK.
    destruct (proj1 HW _ _ (Sub_here _)) as (_ & _ & _ & Hl & Ht).
    apply (walk_all [] cs); auto.
    - apply items_rows.
    - exact (WFs_good o _ (WF_children o _ _ HW)).
    - apply Hl. discriminate.
  Qed.

  Lemma seg_many k (l : list green) : Forall (fun i => exists y, In y [YNd k] /\ SymM y i) l ->
    Forall (fun g => is_node k g = true) l.
  Proof.
    intros H. eapply Forall_impl; [|exact H]. cbn. intros g (y & [<-|[]] & Hm).
    destruct g; cbn [SymM] in Hm; [contradiction|]. subst k. cbn. now apply kind_eqb_eq.
  Qed.
  Lemma node_not k k' g : k <> k' -> is_node k g = true -> is_node k' g = false.
  Proof.
    intros Hn. destruct g as [|k2 c]; [discriminate|]. cbn. intros E. apply kind_eqb_eq in E. subst k2.
    apply not_true_iff_false. intros E. apply kind_eqb_eq in E. congruence.
  Qed.
  Lemma item_many k (l : list item) : Forall (fun i => exists y, In y [YNd k] /\ SymM y (i_el i)) l ->
    Forall (fun i => exists c, i_el i = Node k c) l.
  Proof.
    intros H. eapply Forall_impl; [|exact H]. cbn. intros g (y & [<-|[]] & Hm).
    destruct (i_el g) as [|k' c]; cbn [SymM] in Hm; [contradiction|]. subst k'. eauto.
  Qed.

  Lemma type_use_good cs outer : WF o (Node TYPE_USE cs) -> should_ignore o outer = false ->
    Forall (Prints o) cs -> GoodDoc o (Node TYPE_USE cs) (pcs (gdoc o outer (Node TYPE_USE cs))).
  Proof.
    intros HW Ho HP. destruct (proj1 HW _ _ (Sub_here _)) as (_ & Hm & _ & Hl & Ht).
    specialize (Hl ltac:(discriminate)).
    pose proof (WFs_good o _ (WF_children o _ _ HW)) as HG.
    destruct (alts_ok _ _ _ tu_segs_eq Hm) as (segs & gs & Hin & HS & HE).
    assert (Hdoc : forall its, pcs (node_doc o (Node TYPE_USE cs) its)
      = pcs (shape_doc o (Node TYPE_USE cs) its (Parts (tu_parts ++ [One tu_result]) CNone false))).
    { intros its. rewrite (node_shape TYPE_USE _ _ _ ltac:(discriminate) eq_refl). reflexivity. }
    destruct Hin as [<-|[<-|[<-|[]]]].
    - (* with [(type ...)] *)
      apply tu_same with outer; [exact HW| |].
      + eapply (parts_inv0 TYPE_USE cs outer (tu_parts ++ [One tu_result]) CNone false seg_ty gs); auto; try reflexivity.
      + cbn [survivors]. replace (existsb (is_token L_PAREN) (map keep cs)) with true; [reflexivity|].
        symmetry. inversion HS as [|? p ? ? Hp0 _]; subst. destruct Hp0 as (g & -> & Hg). cbn [concat app] in HE.
        destruct g as [k t|]; [|contradiction]. cbn [SymM] in Hg. subst k.
        apply existsb_exists. exists (Tok L_PAREN t). split; [|reflexivity].
        change (Tok L_PAREN t) with (keep (Tok L_PAREN t)). apply in_map.
        assert (Hx : In (Tok L_PAREN t) (filter significant cs)) by (rewrite HE; now left).
        now apply filter_In in Hx.
    - (* parameters and results *)
      pose proof (items_ok o _ _ _ HW Ho HP) as HI.
      pose proof (items_rows o outer None None cs) as HR.
      assert (Hnp : existsb (selects (STok L_PAREN)) cs = false).
      { apply not_true_iff_false. intros Z. apply existsb_exists in Z as (x & Hx & Hs).
        assert (Hx2 : In x (filter significant cs)).
        { apply filter_In. split; [exact Hx|]. destruct x as [k t|]; [|discriminate]. cbn [selects] in Hs.
          apply kind_eqb_eq in Hs. subst k. reflexivity. }
        rewrite HE in Hx2. inversion HS as [|? p0 ? ? Hp0 HS2]; subst. destruct Hp0 as (g & -> & Hg).
        inversion HS2 as [|? p2 ? ? H2 HS3]; subst. inversion HS3 as [|? p3 ? ? H3 HS4]; subst. inversion HS4; subst.
        cbn [SegM] in H2, H3. apply seg_many in H2, H3. rewrite Forall_forall in H2, H3.
        cbn [concat app] in Hx2. rewrite app_nil_r in Hx2. destruct Hx2 as [<-|Hx2].
        - destruct g; [contradiction|discriminate].
        - apply in_app_or in Hx2 as [Hx2|Hx2]; [apply H2 in Hx2|apply H3 in Hx2]; destruct x; discriminate. }
      rewrite gdoc_node, Hdoc.
      set (its := items o outer None None cs) in *.
      assert (Em : map i_el (sigs its) = concat gs).
      { rewrite sigs_map. unfold its. now rewrite items_el. }
      destruct (parts_lift i_el _ _ _ HS Em) as (parts & HS' & HE').
      assert (Hpar : has_item (STok L_PAREN) its = false).
      { rewrite has_item_el. unfold its. now rewrite items_el. }
      pose proof (run_parts_ok o its seg_pr parts HE' HS' HI tu_parts [] [0; 1] ([], []) eq_refl (Inv_nil o)) as V.
      assert (Hch : choose tu_result its = cat parts [2]).
      { rewrite (choose_sig its tu_result eq_refl). change (choose tu_result (sigs its) = cat parts [2]). rewrite HE'.
        exact (choose_sym_ok tu_result seg_pr parts [2] HS' eq_refl). }
      inversion HS' as [|? pp ? ? Hp0 HS2]; subst. destruct Hp0 as (p1 & -> & Hp1). inversion HS2 as [|? ps ? ? H2 HS3]; subst.
      inversion HS3 as [|? rs ? ? H3 HS4]; subst. inversion HS4; subst. clear HS2 HS3 HS4.
      cbn [SegM] in H2, H3. apply item_many in H2, H3.
      assert (Hp1' : exists c, i_el p1 = Node PARAM c).
      { destruct (i_el p1); cbn [SymM] in Hp1; [contradiction|]. subst k. eauto. }
      unfold cat in V, Hch. cbn [map nth concat app] in V, Hch, HE'. rewrite ?app_nil_r in V, Hch, HE'.
      cbn [shape_doc pcs]. fold (pcsl (close its CNone (run_parts o its (tu_parts ++ [One tu_result]) ([], [])))).
      unfold run_parts in V |- *. rewrite fold_left_app. cbn [fold_left run_part].
      destruct (fold_left (fun st p => run_part o its p st) tu_parts ([], [])) as [docs tr].
      unfold run_step. rewrite Hch, Hpar.
      assert (Hels : filter significant cs = map i_el (p1 :: ps) ++ map i_el rs).
      { rewrite HE, <- Em, HE'. cbn [map app].
        now rewrite map_app. }
      assert (HI' : forall i, In i (p1 :: ps ++ rs) -> ItemOK o i /\ significant (i_el i) = true).
      { intros i Hi. rewrite <- HE' in Hi. rewrite Forall_forall in HI. split; [now apply HI|]. unfold sigs in Hi. now apply filter_In in Hi. }
      assert (Hsurv : survivors TYPE_USE (map keep cs) = join_results (map keep cs)).
      { cbn [survivors]. replace (existsb (is_token L_PAREN) (map keep cs)) with false; [reflexivity|]. symmetry.
        apply not_true_iff_false. intros Z. apply existsb_exists in Z as (x & Hx & Hs). apply in_map_iff in Hx as (y & <- & Hy).
        rewrite keep_is_token in Hs. rewrite <- not_true_iff_false in Hnp. apply Hnp. apply existsb_exists. exists y.
        split; [exact Hy|]. destruct y; [|discriminate]. exact Hs. }
      assert (Hpn : forall x, In x (map i_el (p1 :: ps)) -> not_result x).
      { intros x Hx. cbn [map] in Hx. unfold not_result. destruct Hx as [<-|Hx].
        - destruct Hp1' as (c & ->). reflexivity.
        - apply in_map_iff in Hx as (i & <- & Hi). rewrite Forall_forall in H2. destruct (H2 _ Hi) as (c & ->). reflexivity. }
      assert (Hnr : forall l, filter significant l = map i_el (p1 :: ps) -> Forall not_result l).
      { intros l El. apply Forall_forall. intros x Hx. destruct (significant x) eqn:Es.
        - apply Hpn. rewrite <- El. now apply filter_In.
        - destruct x; [reflexivity|discriminate]. }
      assert (Hkn : forall l, Forall not_result l -> Forall not_result (map keep l)).
      { intros l Hx. apply Forall_map. eapply Forall_impl; [|exact Hx]. intros g Hg. unfold not_result. now rewrite keep_is_node. }
      destruct rs as [|r1 rs].
      + (* no results *)
        cbn [emit_all close]. cbn [map] in Hels. rewrite !app_nil_r in Hels, HE'.
        apply tu_same with outer; [exact HW| |].
        * apply Inv_node with tr. fold its. change (Inv o [] (docs, tr) (sigs its)). rewrite HE'. exact V.
        * rewrite Hsurv. apply join_none. auto.
      + (* some results *)
        cbn [emit_all].
        destruct (filter_split significant cs _ _ _ Hels) as (l1 & l2 & Ecs & Hf1 & Hf2).
        destruct (tail_split l1) as (A & G & -> & HA & HGt).
        assert (HfA : filter significant A = map i_el (p1 :: ps)) by (rewrite filter_app, HGt, app_nil_r in Hf1; exact Hf1).
        rewrite <- app_assoc in Ecs. cbn [app] in Ecs.
        assert (HR2 : Rows [] (A ++ G ++ i_el r1 :: l2) its) by (rewrite <- Ecs; exact HR).
        apply rows_split in HR2 as (rA & rGB & Eits & RA & RGB). apply rows_split in RGB as (rG & rB & -> & RG & RB).
        assert (Esig : sigs rA = p1 :: ps /\ sigs rB = r1 :: rs).
        { assert (X : sigs its = sigs rA ++ sigs rB).
          { rewrite Eits, !sigs_app, (sigs_nil _ _ _ RG HGt). reflexivity. }
          rewrite HE' in X.
          change (p1 :: ps ++ r1 :: rs) with ((p1 :: ps) ++ r1 :: rs) in X. symmetry in X.
          assert (Len : length (sigs rA) = length (p1 :: ps)).
          { rewrite <- (map_length i_el (sigs rA)), sigs_map, (rows_map _ _ _ RA), HfA. now rewrite map_length. }
          clear -X Len. revert Len X. generalize (p1 :: ps) as u. generalize (sigs rA) as v.
          induction v as [|a v IH]; intros [|b u] Len X; try discriminate; [auto|]. injection X as -> X.
          injection Len as Len. destruct (IH u Len X) as [-> ->]. auto. }
        destruct Esig as [EsA EsB].
        assert (Hr1 : significant (i_el r1) = true /\ exists c, i_el r1 = Node RESULT c).
        { inversion H3 as [|? ? X _]; subst. destruct X as (c & X). rewrite X. split; [reflexivity|eauto]. }
        destruct Hr1 as [Hr1s Hr1n].
        destruct (exists_last (l := p1 :: ps) ltac:(discriminate)) as (d & lp & Edl).
        assert (Hfirst : forall i r, d ++ [lp] = i :: r -> ~ lpar i /\ ~ inst i).
        { intros i r Ei. rewrite <- Edl in Ei. injection Ei as <- _. destruct Hp1' as (c & Ec). split.
          - intros (t & Et). congruence.
          - intros (k & c2 & Et & Hk). rewrite Ec in Et. injection Et as <- _. discriminate Hk. }
        change (p1 :: ps) with ([p1] ++ ps) in Edl. cbn [app] in Edl. rewrite Edl in V.
        destruct (HI' r1 ltac:(right; apply in_or_app; right; now left)) as [Hok1 _].
        pose proof (result_emit tu_result docs tr d lp r1 eq_refl eq_refl V Hok1 Hr1s Hfirst Hr1n) as W.
        set (lp' := mk_item (i_el lp) (i_doc lp) [] (i_prev lp)) in *.
        pose proof (emit_all_ok o [] tu_result false rs false _ _
          ltac:(apply Forall_forall; intros i Hi; apply HI'; right; apply in_or_app; right; right; exact Hi)
          ltac:(intros pre i post E; split;
            [discriminate|apply HI'; right; apply in_or_app; right; right; rewrite E; apply in_elt
            |intros (k & c & Ek & Hk); exfalso; inversion H3 as [|? ? _ H4]; subst; rewrite Forall_forall in H4;
              destruct (H4 i ltac:(apply in_elt)) as (c' & Ec'); rewrite Ec' in Ek; injection Ek as <- _; discriminate Hk
            |intros (t & Et); exfalso; inversion H3 as [|? ? _ H4]; subst; rewrite Forall_forall in H4;
              destruct (H4 i ltac:(apply in_elt)) as (c' & Ec'); congruence
            |split; [reflexivity|discriminate]]) W) as Z.
        destruct (emit_all o tu_result false false rs (emit o tu_result false true r1 (docs, tr))) as [docs' tr'].
        cbn [close]. destruct Z as [Z1 Z2 Z3 _ _ _ _ _]. cbn [fst app] in Z1, Z2, Z3.
        split; [exact Z1|]. split; [exact Z2|]. split.
        * rewrite Z3, keep_leaves, Hsurv, Ecs. rewrite !map_app. cbn [map].
          assert (NA : notrail_l (map keep A)).
          { revert HA. unfold notrail_l. rewrite <- map_rev. destruct (rev A) as [|x y]; [auto|].
            cbn [map nolead_l]. destruct x; auto. }
          rewrite join_split; auto.
          -- rewrite leaves_l_app.
             assert (GA : Forall GoodEl A) by (rewrite Ecs in HG; apply Forall_app in HG; tauto).
             assert (GB : Forall GoodEl (i_el r1 :: l2)).
             { rewrite Ecs in HG. apply Forall_app in HG as [_ HG]. apply Forall_app in HG. tauto. }
             assert (TB : notrail_l (i_el r1 :: l2)).
             { rewrite Ecs, app_assoc in Ht. now apply notrail_suffix in Ht. }
             rewrite <- (walk_all _ A rA RA GA HA).
             2:{ rewrite Ecs in Hl. destruct A as [|a A]; [discriminate HfA|exact Hl]. }
             change (keep (i_el r1) :: map keep l2) with (map keep (i_el r1 :: l2)).
             rewrite <- (walk_all _ _ rB RB GB TB).
             2:{ cbn [nolead_l]. destruct Hr1n as (c & ->). reflexivity. }
             rewrite EsA, EsB, Edl. rewrite <- (app_assoc (d ++ [lp'])). rewrite (walk_app [] (d ++ [lp'])).
             replace (nilb (d ++ [lp'])) with false by now destruct d. rewrite gapo_snoc.
             change (gap o lp') with (@nil text). cbn [app]. f_equal. rewrite !walk_snoc. reflexivity.
          -- revert HGt. clear. induction G as [|g G IH]; [reflexivity|]. cbn [map filter]. rewrite keep_sig.
             destruct (significant g); [discriminate|exact IH].
          -- now rewrite keep_sig.
          -- rewrite keep_is_node. destruct Hr1n as (c & ->). reflexivity.
        * intros k c E. injection E as <- <-. repeat split; intros X; intuition discriminate.
    - (* results *)
      apply tu_same with outer; [exact HW| |].
      + eapply (parts_inv0 TYPE_USE cs outer (tu_parts ++ [One tu_result]) CNone false seg_rs gs); auto; try reflexivity.
      + cbn [survivors]. destruct (existsb (is_token L_PAREN) (map keep cs)); [reflexivity|].
        inversion HS as [|? p ? ? Hp0 _]; subst. destruct Hp0 as (g & -> & Hg). cbn [concat app] in HE.
        destruct g as [|k c]; [contradiction|]. cbn [SymM] in Hg. subst k.
        destruct cs as [|x cs]; [discriminate|].
        assert (x = Node RESULT c).
        { cbn [filter nolead_l] in HE, Hl. replace (significant x) with true in HE.
          - now injection HE.
          - destruct x; [|reflexivity]. cbn [triv_tok significant] in *. now rewrite Hl. }
        subst x. reflexivity.
  Qed.
End Opts.
