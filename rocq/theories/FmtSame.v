(** Two trees that agree up to white space, and in which the same nodes are
    followed by blank lines, are formatted alike. *)

From Coq Require Import String List NArith Bool Arith Lia.
From Verif Require Import Text Kind Green SpecParser SpecSyntax SpecFormat Format FmtLang FmtPieces FmtSteps FmtTrivia FmtRun FmtNode FmtTree FmtDoc FmtEmit FmtPlain FmtFlags
  Respace Relex FmtGap ThmReparse.
Import ListNotations.
Local Open Scope list_scope.

(** Only the body of a flat [if] starts with white space. *)
Definition Led (g : green) : Prop := forall k cs, Sub g (Node k cs) -> loose (Node k cs) = false -> nolead_l cs.
Lemma Led_children k cs c : Led (Node k cs) -> In c cs -> Led c.
Proof. intros H Hc k' cs' Hs. apply H. now apply Sub_child with c. Qed.

(** The significant children, and whether a blank line follows each. *)
Fixpoint kids (cs : list green) : list (green * bool) :=
  match cs with
  | [] => []
  | c :: r => if significant c then (c, wide c r) :: kids r else kids r
  end.
Lemma kids_skip pre r : existsb significant pre = false -> kids (pre ++ r) = kids r.
Proof.
  induction pre as [|c pre IH]; [reflexivity|]. cbn [existsb app kids]. intros H. apply orb_false_elim in H as [H1 H2].
  rewrite H1. auto.
Qed.
Inductive Same : green -> green -> Prop :=
| Same_tok k t : Same (Tok k t) (Tok k t)
| Same_node k cs cs' : Forall2 (fun x y => Same (fst x) (fst y) /\ snd x = snd y) (kids cs) (kids cs') ->
    Same (Node k cs) (Node k cs').

(** ** Selecting children *)

Definition sel_ok (s : sel) : bool := match s with STok k => negb (is_trivia_kind k) | _ => true end.
Lemma selects_sig s g : sel_ok s = true -> selects s g = true -> significant g = true.
Proof.
  intros H. destruct s as [k|w|ks], g as [k' t|k' cs]; cbn [selects sel_ok significant] in *; try discriminate; try reflexivity.
  - intros E. apply kind_eqb_eq in E. now subst.
  - destruct k'; try discriminate. reflexivity.
Qed.
Lemma selects_head s a b : same_head a b -> selects s a = selects s b.
Proof. destruct a, b; cbn; intros H; try contradiction; [destruct H as [-> ->]|subst]; reflexivity. Qed.
Lemma selects_filter s cs : sel_ok s = true -> existsb (selects s) cs = existsb (selects s) (filter significant cs).
Proof.
  intros H. induction cs as [|c cs IH]; [reflexivity|]. cbn [existsb filter]. destruct (significant c) eqn:E; cbn [existsb].
  - now rewrite IH.
  - destruct (selects s c) eqn:E2; [|exact IH]. rewrite (selects_sig _ _ H E2) in E. discriminate.
Qed.
Lemma existsb_heads s l : forall l', Forall2 same_head l l' -> existsb (selects s) l = existsb (selects s) l'.
Proof. induction 1 as [|a b l l' H _ IH]; [reflexivity|]. cbn [existsb]. now rewrite (selects_head s _ _ H), IH. Qed.
Lemma has_bare s g g' : sel_ok s = true -> bare g = bare g' -> has s g = has s g'.
Proof.
  intros H E. destruct g as [k t|k cs], g' as [k' t'|k' cs']; try discriminate E; [reflexivity|].
  destruct (bare_children _ _ _ _ E) as [_ Em]. cbn [has]. rewrite (selects_filter s cs H), (selects_filter s cs' H).
  apply existsb_heads. now apply map_bare_same.
Qed.
Lemma loose_bare g g' : bare g = bare g' -> loose g = loose g'.
Proof.
  intros E. pose proof (has_bare (STok L_PAREN) g g' eq_refl E) as H.
  destruct g as [k t|k cs], g' as [k' t'|k' cs']; try discriminate E; [reflexivity|].
  destruct (bare_children _ _ _ _ E) as [-> _]. cbn [has] in H. destruct k'; try reflexivity. cbn [loose]. now rewrite H.
Qed.

(** ** Tokens *)

Lemma bare_tokens k cs : gtokens (bare (Node k cs)) = gtokenss (map bare (filter significant cs)).
Proof. cbn [bare]. rewrite filter_bare. reflexivity. Qed.
Lemma bare_tokens_cons c r : gtokenss (map bare (filter significant (c :: r)))
  = (if significant c then gtokens (bare c) else []) ++ gtokenss (map bare (filter significant r)).
Proof. cbn [filter]. destruct (significant c); reflexivity. Qed.
Lemma gtokens_node k cs : gtokens (Node k cs) = gtokenss cs.
Proof. reflexivity. Qed.
Lemma gtokenss_cons c r : gtokenss (c :: r) = gtokens c ++ gtokenss r.
Proof. reflexivity. Qed.

Lemma plain_ws g : Plain g -> significant g = false -> exists w, g = Tok WHITESPACE w.
Proof.
  intros HP Hs. destruct g as [k t|]; [|discriminate]. destruct (HP k t ltac:(now left)) as [A B].
  cbn [significant] in Hs. destruct k; try discriminate; try congruence. eauto.
Qed.
Lemma tok_visible k t : significant (Tok k t) = true -> visible (k, t) = true.
Proof. destruct k; try reflexivity; discriminate. Qed.

Lemma visible_count : forall g, Plain g -> significant g = true -> length (filter visible (gtokens g)) = length (gtokens (bare g)).
Proof.
  apply (green_ind' (fun g => Plain g -> significant g = true -> length (filter visible (gtokens g)) = length (gtokens (bare g)))).
  - intros k t _ Hs. cbn [gtokens bare filter]. now rewrite tok_visible.
  - intros k cs IH HP _. rewrite bare_tokens, gtokens_node.
    assert (HPs : Forall Plain cs) by (apply Forall_forall; intros c Hc; eapply Plain_children; eauto).
    clear HP. induction cs as [|c cs IHl]; [reflexivity|]. inversion IH as [|? ? IH1 IH2]; subst. inversion HPs as [|? ? P1 P2]; subst.
    rewrite gtokenss_cons, bare_tokens_cons, filter_app, !app_length, (IHl IH2 P2). f_equal.
    destruct (significant c) eqn:Es; [auto|]. destruct (plain_ws _ P1 Es) as (w & ->). reflexivity.
Qed.
Lemma cfo_count : forall g b, significant g = true -> length (fst (cfo b g)) = length (gtokens (bare g)).
Proof.
  apply (green_ind' (fun g => forall b, significant g = true -> length (fst (cfo b g)) = length (gtokens (bare g)))).
  - reflexivity.
  - intros k cs IH b _. rewrite bare_tokens, cfo_node. revert b. induction cs as [|c cs IHl]; intros b; [reflexivity|].
    inversion IH as [|? ? IH1 IH2]; subst. rewrite bare_tokens_cons, app_length. cbn [cgo].
    destruct (significant c) eqn:Es; [|apply (IHl IH2)]. rewrite <- (IH1 b eq_refl). destruct (cfo b c) as [l1 b1].
    rewrite <- (IHl IH2 (b1 || wide c cs)). destruct (cgo (b1 || wide c cs) cs) as [l2 b2]. cbn [fst]. now rewrite app_length.
Qed.

Lemma tgo_pre pre : forall c, Forall Plain pre -> existsb significant pre = false ->
  tgo c (gtokenss pre) = ([], fold_left (fun c g => more c (count_lf (gtext g))) pre c).
Proof.
  induction pre as [|g pre IH]; intros c HP Hs; [reflexivity|]. cbn [existsb] in Hs. apply orb_false_elim in Hs as [H1 H2].
  inversion HP as [|? ? P1 P2]; subst. destruct (plain_ws _ P1 H1) as (w & ->). cbn [fold_left gtext].
  rewrite gtokenss_cons. cbn [gtokens app tgo]. change (visible (WHITESPACE, w)) with false. cbn [snd]. now apply IH.
Qed.

Lemma app_inj {A : Type} (a b c d : list A) : length a = length c -> a ++ b = c ++ d -> a = c /\ b = d.
Proof.
  revert c. induction a as [|x a IH]; intros [|y c] Hl E; try discriminate; [auto|]. injection Hl as Hl. injection E as <- E.
  destruct (IH c Hl E) as [-> ->]. auto.
Qed.

Section Opts.
  Variable o : options.

  Definition Good2 (g : green) : Prop := Good o g /\ Led g.
  Lemma Good2_children k cs c : Good2 (Node k cs) -> In c cs -> Good2 c.
  Proof. intros [A B] Hc. split; [eapply Good_children; eauto|eapply Led_children; eauto]. Qed.
  Lemma Good2_all k cs : Good2 (Node k cs) -> Forall Good2 cs.
  Proof. intros H. apply Forall_forall. intros c Hc. eapply Good2_children; eauto. Qed.
  Lemma Good2_node k cs : Good2 (Node k cs) -> calm cs /\ notrail_l cs /\ headed (Node k cs).
  Proof.
    intros [HG _]. destruct (all_prints2 o _ HG eq_refl None eq_refl) as [[_ HH] _].
    pose proof HG as (HW & _ & Hc & _). destruct (proj1 HW k cs (Sub_here _)) as (Hk & _ & _ & _ & Ht).
    split; [exact (Hc k cs (Sub_here _) Hk)|auto].
  Qed.
  (** What is needed of the second tree. *)
  Definition Headed (g : green) : Prop := forall k cs, Sub g (Node k cs) -> headed (Node k cs).
  Definition Near (g : green) : Prop := WF o g /\ Plain g /\ Calm g /\ Led g /\ Headed g.
  Lemma Near_children k cs c : Near (Node k cs) -> In c cs -> Near c.
  Proof.
    intros (A & B & C & D & E) Hc. split; [|split; [|split; [|split]]].
    - pose proof (WF_children o _ _ A) as X. unfold WFs in X. rewrite Forall_forall in X. auto.
    - eapply Plain_children; eauto.
    - eapply Calm_children; eauto.
    - eapply Led_children; eauto.
    - intros k' cs' Hs. apply E. now apply Sub_child with c.
  Qed.
  Lemma Near_all k cs : Near (Node k cs) -> Forall Near cs.
  Proof. intros H. apply Forall_forall. intros c Hc. eapply Near_children; eauto. Qed.
  Lemma Near_node k cs : Near (Node k cs) -> calm cs /\ notrail_l cs /\ headed (Node k cs).
  Proof.
    intros (HW & _ & Hc & _ & HH). destruct (proj1 HW k cs (Sub_here _)) as (Hk & _ & _ & _ & Ht).
    split; [exact (Hc k cs (Sub_here _) Hk)|]. split; [exact Ht|]. apply HH. constructor.
  Qed.
  Lemma Good2_sub g h : Sub g h -> Good2 g -> Good2 h.
  Proof. induction 1 as [|k cs c h Hc _ IH]; intros HG; [exact HG|]. apply IH. eapply Good2_children; eauto. Qed.
  Lemma Good2_headed g : Good2 g -> Headed g.
  Proof. intros HG k cs Hs. apply Good2_node. exact (Good2_sub _ _ Hs HG). Qed.
  Lemma Good2_near g : Good2 g -> Near g.
  Proof. intros HG. pose proof (Good2_headed _ HG). destruct HG as [(A & B & C & _) D]. repeat (split; [assumption|]). assumption. Qed.
  Lemma special_bare g g' : bare g = bare g' -> special g = special g'.
  Proof.
    intros E. unfold special. rewrite (loose_bare _ _ E). f_equal.
    pose proof (has_bare (STok KEYWORD) g g' eq_refl E) as H.
    destruct g as [|k cs], g' as [|k' cs']; try reflexivity; try discriminate E.
    destruct (bare_children _ _ _ _ E) as [-> _]. cbn [has] in H. destruct k'; try reflexivity; now rewrite H.
  Qed.
  Lemma headed_bare g g' : bare g = bare g' -> headed g -> headed g'.
  Proof.
    intros E. destruct g as [|k cs], g' as [|k' cs']; try discriminate E; [auto|]. cbn [headed].
    rewrite (loose_bare _ _ E). destruct (bare_children _ _ _ _ E) as [_ Em].
    destruct (filter significant cs) as [|x l], (filter significant cs') as [|y l']; try discriminate Em; [auto|].
    injection Em as Ex _. now rewrite (special_bare _ _ Ex).
  Qed.
  Lemma Headed_bare g g' : bare g' = bare g -> Headed g -> Headed g'.
  Proof.
    intros E H k cs Hs. destruct (sub_bare _ _ _ Hs g (eq_sym E)) as (cs0 & Hs0 & E0). eapply headed_bare; [exact E0|]. now apply H.
  Qed.
  Lemma special_loose g : special g = false -> loose g = false.
  Proof. unfold special. intros H. now apply orb_false_elim in H. Qed.

  (** The first token. *)
  Lemma first_token : forall g, Near g -> significant g = true -> loose g = false ->
    exists p r r', gtokens g = p :: r /\ gtokens (bare g) = p :: r' /\ visible p = true.
  Proof.
    apply (green_ind' (fun g => Near g -> significant g = true -> loose g = false ->
      exists p r r', gtokens g = p :: r /\ gtokens (bare g) = p :: r' /\ visible p = true)).
    - intros k t _ Hs _. exists (k, t), [], []. split; [reflexivity|]. split; [reflexivity|]. now apply tok_visible.
    - intros k cs IH HG _ Hl. destruct (Near_node _ _ HG) as (_ & _ & HH). pose proof (proj1 (proj2 (proj2 (proj2 HG))) k cs (Sub_here _) Hl) as Hn.
      cbn [headed] in HH. destruct cs as [|c r]; [cbn [filter] in HH; congruence|].
      cbn [nolead_l] in Hn. assert (Hs : significant c = true).
      { destruct c as [kc tc|]; [|reflexivity]. cbn [triv_tok] in Hn. cbn [significant]. now rewrite Hn. }
      cbn [filter] in HH. rewrite Hs in HH. inversion IH as [|? ? IH1 _]; subst.
      destruct (IH1 (Near_children _ _ _ HG ltac:(now left)) Hs (special_loose _ HH)) as (p & x & y & A & B & C).
      exists p, (x ++ gtokenss r), (y ++ gtokenss (map bare (filter significant r))).
      rewrite gtokens_node, bare_tokens, gtokenss_cons, bare_tokens_cons, Hs, A, B. auto.
  Qed.

  Lemma pgo_first p : texts p <> [] -> forall acc, exists gs, fst (pgo acc p) = (acc ++ front p) :: gs.
  Proof.
    induction p as [|[t| |] p IH]; intros G3 acc; cbn [pgo front texts] in *.
    - congruence.
    - rewrite app_nil_r. destruct (pgo [] p). cbn [fst]. eauto.
    - destruct (IH G3 (acc ++ [PS])) as (gs & E). exists gs. now rewrite E, <- app_assoc.
    - destruct (IH G3 (acc ++ [PN])) as (gs & E). exists gs. now rewrite E, <- app_assoc.
  Qed.
  Lemma npn_le l : npn l <= length l.
  Proof. unfold npn. induction l as [|[t| |] l IH]; cbn [filter is_pn length]; lia. Qed.

  (** What follows the last token, and what the flags start with. *)
  Lemma cfo_cases g : Good2 g -> significant g = true ->
    (forall b, snd (cfo b g) = false /\ exists l, fst (cfo b g) = b :: l)
    \/ loose g = true /\ gtokens g = [] /\ forall b, cfo b g = ([], b).
  Proof.
    intros HG Hs. pose proof (all_flagged o g (proj1 HG) Hs None eq_refl) as [F1 F2].
    destruct (all_prints2 o g (proj1 HG) Hs None eq_refl) as [[(G1 & _ & G3) _] _].
    set (p := pcs (gdoc o None g)) in *. destruct G3 as [G3|[G3 G4]].
    - left. intros b. set (acc := if b then [PN; PN] else []).
      assert (HN : NG (acc ++ front p) b).
      { unfold acc. destruct b; [left; split; [reflexivity|cbn; lia]|right; auto]. }
      destruct (F1 G3 acc b HN) as (A & B & C). split; [exact C|].
      pose proof (pgo_first p G3 acc) as Hp.
      destruct Hp as (gs & Ep). rewrite Ep in A. inversion A as [|? b' ? l HN' _ E]; subst.
      exists l. f_equal.
      pose proof (npn_le (acc ++ front p)) as L.
      destruct HN as [[-> H1]|[-> H1]], HN' as [[-> H2]|[-> H2]]; try reflexivity; exfalso; lia.
    - right. split; [exact G3|]. pose proof (F2 G4) as Hc. split; [|exact Hc].
      destruct g as [k t|k cs]; [discriminate G3|]. destruct (Good2_node _ _ HG) as (_ & Ht & _).
      pose proof (cfo_count (Node k cs) false eq_refl) as Hn. rewrite Hc in Hn. cbn [fst length] in Hn.
      rewrite <- visible_count in Hn; [|apply HG|reflexivity].
      destruct (first_sig cs) as [[E0 E1]|(pre & y & r & E & Sy & Hpre & Ef)].
      + destruct cs as [|c cs]; [reflexivity|]. exfalso.
        assert (X : existsb significant (c :: cs) = true) by (apply notrail_sig; [exact Ht|discriminate]). congruence.
      + exfalso. destruct (Good2_node _ _ HG) as (_ & _ & HH). cbn [headed] in HH. rewrite Ef in HH.
        destruct (first_token y) as (q & r1 & r2 & A & _ & C); auto.
        * apply Good2_near. eapply Good2_children; [exact HG|]. rewrite E. apply in_elt.
        * now apply special_loose.
        * rewrite gtokens_node, E, gtokenss_app, gtokenss_cons, A, !filter_app, !app_length in Hn.
          cbn [filter] in Hn. rewrite C in Hn. cbn [length] in Hn. lia.
  Qed.
  Lemma calm_prefix x cs pre y r : Forall Plain cs -> calm (x :: cs) -> cs = pre ++ y :: r -> existsb significant pre = false ->
    (pre = [] \/ exists w, pre = [Tok WHITESPACE w] /\ loose y = false).
  Proof.
    intros HP Hc E Hpre. destruct pre as [|g [|h pre]]; [now left| |].
    - right. cbn [existsb] in Hpre. rewrite orb_false_r in Hpre. subst cs. inversion HP as [|? ? P1 _]; subst.
      destruct (plain_ws _ P1 Hpre) as (w & ->). exists w. split; [reflexivity|].
      now destruct (Hc [x] (Tok WHITESPACE w) y r eq_refl eq_refl).
    - exfalso. cbn [existsb] in Hpre. apply orb_false_elim in Hpre as [H1 H2]. apply orb_false_elim in H2 as [H2 _].
      subst cs. destruct (Hc [x] g h (pre ++ y :: r) eq_refl H1). congruence.
  Qed.

  Definition Ends (g : green) : Prop :=
    Near g -> significant g = true -> (loose g = true /\ gtokens g = []) \/ forall c, snd (tgo c (gtokens g)) = None.
  Lemma kids_end : forall n cs, length cs <= n -> forall x, Forall Near cs -> Forall Ends cs -> calm (x :: cs) -> notrail_l (x :: cs) ->
    snd (tgo None (gtokenss cs)) = None.
  Proof.
    induction n as [|n IH]; intros cs Hn x HG HE Hc Ht; [destruct cs; [reflexivity|cbn in Hn; lia]|].
    destruct (first_sig cs) as [[E0 E1]|(pre & y & r & E & Sy & Hpre & Ef)].
    - destruct cs as [|c cs]; [reflexivity|]. exfalso.
      assert (X : existsb significant (c :: cs) = true) by (apply notrail_sig; [exact (notrail_cons _ _ Ht)|discriminate]). congruence.
    - assert (HP : Forall Plain cs) by (eapply Forall_impl; [|exact HG]; intros g (_ & Z & _); exact Z).
      destruct (calm_prefix x cs pre y r HP Hc E Hpre) as [->|(w & -> & Hl)]; subst cs; cbn [app] in *.
      + inversion HG as [|? ? G1 G2]; subst. inversion HE as [|? ? E1 E2]; subst. cbn in Hn.
        rewrite gtokenss_cons, tgo_app.
        assert (Z : snd (tgo None (gtokenss r)) = None).
        { apply (IH r ltac:(lia) y); auto; [exact (calm_suffix [x] _ Hc)|exact (notrail_cons _ _ Ht)]. }
        destruct (E1 G1 Sy) as [[_ F]|F].
        * rewrite F. cbn [tgo]. destruct (tgo None (gtokenss r)). exact Z.
        * specialize (F None). destruct (tgo None (gtokens y)) as [g1 e1]. cbn [snd] in F. subst e1.
          destruct (tgo None (gtokenss r)). exact Z.
      + inversion HG as [|? ? _ HG']; subst. inversion HE as [|? ? _ HE']; subst.
        inversion HG' as [|? ? G1 G2]; subst. inversion HE' as [|? ? E1 E2]; subst. cbn in Hn.
        rewrite !gtokenss_cons. cbn [gtokens app tgo]. change (visible (WHITESPACE, w)) with false. cbn [snd]. rewrite tgo_app.
        assert (Z : snd (tgo None (gtokenss r)) = None).
        { apply (IH r ltac:(lia) y); auto; [exact (calm_suffix [x; _] _ Hc)|exact (notrail_cons _ _ (notrail_cons _ _ Ht))]. }
        destruct (E1 G1 Sy) as [[F _]|F]; [congruence|].
        specialize (F (more None (count_lf w))). destruct (tgo (more None (count_lf w)) (gtokens y)) as [g1 e1]. cbn [snd] in F. subst e1.
        destruct (tgo None (gtokenss r)). exact Z.
  Qed.
  Lemma all_end : forall g, Ends g.
  Proof.
    apply green_ind'.
    - intros k t _ Hs. right. intros c. cbn [gtokens tgo]. now rewrite tok_visible.
    - intros k cs IH HG _. destruct (Near_node _ _ HG) as (Hc & Ht & HH). rewrite gtokens_node.
      destruct (first_sig cs) as [[E0 E1]|(pre & y & r & E & Sy & Hpre & Ef)].
      + left. cbn [headed] in HH. rewrite E0 in HH. split; [exact HH|]. destruct cs as [|c cs]; [reflexivity|]. exfalso.
        assert (X : existsb significant (c :: cs) = true) by (apply notrail_sig; [exact Ht|discriminate]). congruence.
      + right. intros c. cbn [headed] in HH. rewrite Ef in HH. pose proof (Near_all _ _ HG) as HGs.
        assert (HP : Forall Plain cs) by (eapply Forall_impl; [|exact HGs]; intros g (_ & Z & _); exact Z).
        rewrite E in *. rewrite gtokenss_app, gtokenss_cons, tgo_app. apply Forall_app in HP as [HP _].
        rewrite (tgo_pre pre c HP Hpre). apply Forall_app in HGs as [_ HGs]. apply Forall_app in IH as [_ IH].
        inversion HGs as [|? ? G1 G2]; subst. inversion IH as [|? ? E1 E2]; subst. rewrite tgo_app.
        destruct (E1 G1 Sy) as [[F _]|F]; [rewrite (special_loose _ HH) in F; discriminate|].
        set (c' := fold_left _ pre c). specialize (F c'). destruct (tgo c' (gtokens y)) as [g1 e1]. cbn [snd] in F. subst e1.
        assert (Z : snd (tgo None (gtokenss r)) = None).
        { apply (kids_end (length r) r (Nat.le_refl _) y); auto; [exact (calm_suffix pre _ Hc)|exact (notrail_suffix _ _ Ht)]. }
        destruct (tgo None (gtokenss r)). exact Z.
  Qed.

  Lemma hidden_end ts : filter visible ts = [] -> forall n, snd (tgo (Some n) ts) <> None.
  Proof.
    induction ts as [|p ts IH]; intros E n; cbn [filter tgo] in *; [discriminate|].
    destruct (visible p); [discriminate|]. cbn [more]. now apply IH.
  Qed.

  (** ** Blank lines read back *)

  Definition wd (c : option nat) : bool := match c with Some n => Nat.leb 2 n | None => false end.
  Definition Readback (g : green) : Prop :=
    Good2 g -> significant g = true -> forall g', Near g' -> bare g' = bare g ->
    forall c b, map wd (fst (tgo c (gtokens g'))) = fst (cfo b g) -> Same g g'.
  Definition is_node (g : green) : bool := match g with Node _ _ => true | Tok _ _ => false end.
  Lemma node_bare g g' : bare g' = bare g -> is_node g' = is_node g.
  Proof. destruct g, g'; cbn [bare]; intros E; try discriminate; reflexivity. Qed.

  (** One child in both trees. *)
  Lemma one_read y y' r r' c b : Good2 y -> Near y' -> significant y = true -> bare y' = bare y ->
    map wd (fst (tgo c (gtokens y' ++ gtokenss r'))) = fst (cgo b (y :: r)) ->
    map wd (fst (tgo c (gtokens y'))) = fst (cfo b y)
    /\ map wd (fst (tgo (snd (tgo c (gtokens y'))) (gtokenss r'))) = fst (cgo (snd (cfo b y) || wide y r) r).
  Proof.
    intros G G' Hs Hb E. rewrite tgo_app in E. cbn [cgo] in E. rewrite Hs in E.
    assert (Hs' : significant y' = true) by (rewrite <- bare_kind, Hb, bare_kind; exact Hs).
    pose proof (cfo_count y b Hs) as N1. pose proof (tgo_length (gtokens y') c) as N2.
    rewrite visible_count in N2; [|apply G'|exact Hs']. rewrite Hb in N2.
    destruct (tgo c (gtokens y')) as [g1 e1], (cfo b y) as [l1 b1]. cbn [fst snd] in *.
    destruct (tgo e1 (gtokenss r')) as [g2 e2], (cgo (b1 || wide y r) r) as [l2 b2]. cbn [fst snd] in *.
    rewrite map_app in E. apply app_inj in E; [exact E|]. rewrite map_length. congruence.
  Qed.

  Lemma walk_read : forall n cs, length cs <= n -> forall cs' x x',
    Forall Good2 cs -> Forall Near cs' -> Forall Readback cs ->
    calm (x :: cs) -> calm (x' :: cs') -> notrail_l (x :: cs) -> notrail_l (x' :: cs') -> is_node x' = is_node x ->
    map bare (filter significant cs') = map bare (filter significant cs) ->
    map wd (fst (tgo None (gtokenss cs'))) = fst (cgo (wide x cs) cs) ->
    wide x cs = wide x' cs' /\ Forall2 (fun x y => Same (fst x) (fst y) /\ snd x = snd y) (kids cs) (kids cs').
  Proof.
    induction n as [|n IH]; intros cs Hn cs' x x' HG HG' HR Hc Hc' Ht Ht' Hx Hb HF.
    all: destruct (first_sig cs) as [[E0 E1]|(pre & y & r & E & Sy & Hpre & Ef)].
    1,3: assert (cs = []) as ->; [destruct cs as [|c cs]; [reflexivity|exfalso];
         assert (X : existsb significant (c :: cs) = true) by (apply notrail_sig; [exact (notrail_cons _ _ Ht)|discriminate]); congruence|].
    1,2: rewrite E0 in Hb; assert (cs' = []) as ->;
         [destruct cs' as [|c cs']; [reflexivity|exfalso];
          assert (X : existsb significant (c :: cs') = true) by (apply notrail_sig; [exact (notrail_cons _ _ Ht')|discriminate]);
          apply existsb_exists in X as (z & Hz & Hz2);
          assert (Y : In z (filter significant (c :: cs'))) by (now apply filter_In);
          destruct (filter significant (c :: cs')); [exact Y|discriminate Hb]|];
         split; [destruct x, x'; reflexivity|constructor].
    { subst cs. rewrite app_length in Hn. cbn in Hn. lia. }
    destruct (first_sig cs') as [[E0' E1']|(pre' & y' & r' & E' & Sy' & Hpre' & Ef')]; [rewrite Ef, E0' in Hb; discriminate|].
    rewrite Ef, Ef' in Hb. injection Hb as By Br.
    assert (HP : Forall Plain cs) by (eapply Forall_impl; [|exact HG]; intros g [(_ & Z & _) _]; exact Z).
    assert (HP' : Forall Plain cs') by (eapply Forall_impl; [|exact HG']; intros g (_ & Z & _); exact Z).
    pose proof (calm_prefix _ _ _ _ _ HP Hc E Hpre) as Q. pose proof (calm_prefix _ _ _ _ _ HP' Hc' E' Hpre') as Q'.
    assert (HGy : Good2 y /\ Forall Good2 r) by (rewrite E in HG; apply Forall_app in HG as [_ Z]; inversion Z; auto).
    assert (HGy' : Near y' /\ Forall Near r') by (rewrite E' in HG'; apply Forall_app in HG' as [_ Z]; inversion Z; auto).
    assert (HRy : Readback y /\ Forall Readback r) by (rewrite E in HR; apply Forall_app in HR as [_ Z]; inversion Z; auto).
    destruct HGy as [Gy Gr], HGy' as [Gy' Gr'], HRy as [Ry Rr].
    set (b := wide x cs) in *. set (c0 := fold_left (fun c g => more c (count_lf (gtext g))) pre' None).
    assert (HF2 : map wd (fst (tgo c0 (gtokens y' ++ gtokenss r'))) = fst (cgo b (y :: r))).
    { rewrite E', gtokenss_app, gtokenss_cons, tgo_app in HF. rewrite tgo_pre in HF; [|rewrite E' in HP'; now apply Forall_app in HP'|exact Hpre'].
      fold c0 in HF. destruct (tgo c0 (gtokens y' ++ gtokenss r')) as [g2 e2]. cbn [app fst] in *. rewrite HF, E.
      now rewrite cgo_skip. }
    destruct (one_read _ _ _ _ _ _ Gy Gy' Sy By HF2) as [A B].
    pose proof (Ry Gy Sy y' Gy' By c0 b A) as HS.
    assert (Wx : b = wide x' cs' /\ (loose y = true -> b = false /\ c0 = None)).
    { destruct (loose y) eqn:El.
      - assert (pre = []) as -> by (destruct Q as [Q|(w & _ & Q)]; [exact Q|congruence]).
        rewrite (loose_bare _ _ (eq_sym By)) in El.
        assert (pre' = []) as -> by (destruct Q' as [Q'|(w & _ & Q')]; [exact Q'|congruence]).
        assert (Z : forall a c l, significant c = true -> wide a (c :: l) = false).
        { intros a c l Hsig. destruct a; [reflexivity|]. destruct c as [kc tc|]; [|reflexivity]. destruct kc; try reflexivity. discriminate. }
        unfold b. rewrite E, E'. cbn [app]. rewrite !Z by assumption. auto.
      - split; [|discriminate]. destruct (cfo_cases y Gy Sy) as [F|[F _]]; [|congruence].
        destruct (F b) as [_ (l & Fl)]. rewrite Fl in A.
        rewrite (loose_bare _ _ (eq_sym By)) in El. destruct (first_token y' Gy' Sy' El) as (p & q & q' & T1 & _ & T2).
        rewrite T1 in A. cbn [tgo] in A. rewrite T2 in A. destruct (tgo None q) as [g1 e1]. cbn [fst map] in A. injection A as A _.
        rewrite <- A. unfold c0. rewrite E'.
        destruct x' as [kx tx|kx csx].
        + destruct x; [|discriminate Hx]. fold c0. rewrite A. reflexivity.
        + destruct Q' as [->|(w & -> & _)]; cbn [fold_left app wd].
          * cbn [wide]. destruct y' as [ky ty|]; [|reflexivity]. destruct ky; try reflexivity. discriminate Sy'.
          * reflexivity. }
    destruct Wx as [W1 W2]. split; [exact W1|].
    assert (Hst : snd (cfo b y) = false /\ snd (tgo c0 (gtokens y')) = None).
    { destruct (cfo_cases y Gy Sy) as [F|(F1 & F2 & F3)].
      - destruct (F b) as [F1 _]. split; [exact F1|]. destruct (all_end y' Gy' Sy') as [[F2 F3]|F2]; [|apply F2].
        rewrite F3. cbn [tgo snd]. apply W2. rewrite (loose_bare _ _ (eq_sym By)). exact F2.
      - destruct (W2 F1) as [Z1 Z2]. rewrite F3. split; [exact Z1|].
        assert (gtokens y' = []) as ->.
        { pose proof (all_end y' Gy' Sy') as [[_ Z]|Z]; [exact Z|]. exfalso.
          pose proof (cfo_count y false Sy) as N. rewrite F3, <- By in N. cbn [fst length] in N.
          rewrite <- visible_count in N; [|apply Gy'|exact Sy']. symmetry in N. apply length_zero_iff_nil in N.
          exact (hidden_end _ N 0 (Z _)). }
        exact Z2. }
    destruct Hst as [S1 S2]. rewrite S1, S2 in B. cbn [orb] in B.
    destruct (IH r) with (cs' := r') (x := y) (x' := y') as [I1 I2]; auto.
    - rewrite E, app_length in Hn. cbn in Hn. lia.
    - rewrite E in Hc. change (x :: pre ++ y :: r) with ((x :: pre) ++ y :: r) in Hc. exact (calm_suffix _ _ Hc).
    - rewrite E' in Hc'. change (x' :: pre' ++ y' :: r') with ((x' :: pre') ++ y' :: r') in Hc'. exact (calm_suffix _ _ Hc').
    - rewrite E in Ht. change (x :: pre ++ y :: r) with ((x :: pre) ++ y :: r) in Ht. exact (notrail_suffix _ _ Ht).
    - rewrite E' in Ht'. change (x' :: pre' ++ y' :: r') with ((x' :: pre') ++ y' :: r') in Ht'. exact (notrail_suffix _ _ Ht').
    - now apply node_bare.
    - rewrite E, E', !kids_skip by assumption. cbn [kids]. rewrite Sy, Sy'. constructor; [|exact I2]. cbn [fst snd]. auto.
  Qed.

  Theorem all_readback : forall g, Readback g.
  Proof.
    apply green_ind'.
    - intros k t _ _ g' _ Hb c b _. destruct g'; [|discriminate Hb]. cbn in Hb. injection Hb as -> ->. constructor.
    - intros k cs IH HG _ g' HG' Hb c b HF. destruct g' as [|k' cs']; [discriminate Hb|].
      destruct (bare_children _ _ _ _ Hb) as [-> Em]. constructor.
      destruct (Good2_node _ _ HG) as (Hc & Ht & HH). destruct (Near_node _ _ HG') as (Hc' & Ht' & HH').
      pose proof (Good2_all _ _ HG) as HGs. pose proof (Near_all _ _ HG') as HGs'.
      destruct (first_sig cs) as [[E0 E1]|(pre & y & r & E & Sy & Hpre & Ef)].
      + destruct (first_sig cs') as [[E0' E1']|(pre' & y' & r' & E' & Sy' & Hpre' & Ef')]; [|rewrite E0, Ef' in Em; discriminate].
        rewrite <- (app_nil_r cs), <- (app_nil_r cs'), !kids_skip by assumption. constructor.
      + destruct (first_sig cs') as [[E0' E1']|(pre' & y' & r' & E' & Sy' & Hpre' & Ef')]; [rewrite Ef, E0' in Em; discriminate|].
        rewrite Ef, Ef' in Em. injection Em as By Br.
        cbn [headed] in HH. rewrite Ef in HH. apply special_loose in HH.
        assert (HP' : Forall Plain cs') by (eapply Forall_impl; [|exact HGs']; intros g (_ & Z & _); exact Z).
        rewrite E in HGs, IH, Hc, Ht, HF |- *. rewrite E' in HGs', HP', Hc', Ht', HF |- *.
        apply Forall_app in HGs as [_ HGs]. apply Forall_app in HGs' as [_ HGs']. apply Forall_app in IH as [_ IH].
        apply Forall_app in HP' as [HP' _].
        inversion HGs as [|? ? Gy Gr]; subst. inversion HGs' as [|? ? Gy' Gr']; subst. inversion IH as [|? ? Ry Rr]; subst.
        set (c0 := fold_left (fun c g => more c (count_lf (gtext g))) pre' c).
        assert (HF2 : map wd (fst (tgo c0 (gtokens y' ++ gtokenss r'))) = fst (cgo b (y :: r))).
        { rewrite gtokens_node, gtokenss_app, gtokenss_cons, tgo_app in HF. rewrite tgo_pre in HF by assumption.
          fold c0 in HF. destruct (tgo c0 (gtokens y' ++ gtokenss r')) as [g2 e2]. cbn [app fst] in *. rewrite HF, cfo_node.
          now rewrite cgo_skip. }
        destruct (one_read _ _ _ _ _ _ Gy Gy' Sy By HF2) as [A B].
        pose proof (Ry Gy Sy y' Gy' By c0 b A) as HS.
        destruct (cfo_cases y Gy Sy) as [F|[F _]]; [|congruence]. destruct (F b) as [F1 _].
        destruct (all_end y' Gy' Sy') as [[F2 _]|F2]; [rewrite (loose_bare _ _ By) in F2; congruence|].
        rewrite F1, F2 in B. cbn [orb] in B.
        destruct (walk_read (length r) r (Nat.le_refl _) r' y y') as [I1 I2]; auto.
        * exact (calm_suffix _ _ Hc).
        * exact (calm_suffix _ _ Hc').
        * exact (notrail_suffix _ _ Ht).
        * exact (notrail_suffix _ _ Ht').
        * now apply node_bare.
        * rewrite !kids_skip by assumption. cbn [kids]. rewrite Sy, Sy'. constructor; [|exact I2]. cbn [fst snd]. auto.
  Qed.

  (** Trees that are the same agree on type uses. *)
  Lemma kids_split cs x : In x (kids cs) -> exists a r, cs = a ++ fst x :: r /\ snd x = wide (fst x) r.
  Proof.
    induction cs as [|c cs IH]; [intros []|]. cbn [kids]. intros H.
    assert (X : x = (c, wide c cs) \/ In x (kids cs)) by (destruct (significant c); [destruct H as [<-|H]; auto|auto]).
    destruct X as [->|X]; [exists [], cs; auto|]. destruct (IH X) as (a & r & -> & E). exists (c :: a), r. auto.
  Qed.
  Lemma split_kids a c r : significant c = true -> In (c, wide c r) (kids (a ++ c :: r)).
  Proof.
    intros Hs. induction a as [|x a IH]; cbn [app kids]; [rewrite Hs; now left|]. destruct (significant x); [right|]; exact IH.
  Qed.
  Lemma forall2_in {A B : Type} (R : A -> B -> Prop) l l' y : Forall2 R l l' -> In y l' -> exists x, In x l /\ R x y.
  Proof.
    induction 1 as [|a b l l' H _ IH]; [intros []|]. intros [<-|Hy]; [exists a; split; [now left|exact H]|].
    destruct (IH Hy) as (x & A1 & A2). exists x. split; [now right|exact A2].
  Qed.
  Lemma same_sub g' h : Sub g' h -> forall k cs' g, h = Node k cs' -> Same g g' ->
    exists cs, Sub g (Node k cs) /\ Forall2 (fun x y => Same (fst x) (fst y) /\ snd x = snd y) (kids cs) (kids cs').
  Proof.
    induction 1 as [g'|k0 cs0 c h Hc Hs IH]; intros k cs' g E HS; subst.
    - inversion HS as [|? cs ? HF]; subst. exists cs. split; [constructor|exact HF].
    - inversion HS as [|? cs ? HF]; subst.
      assert (Hsig : significant c = true) by (destruct c; [inversion Hs|reflexivity]).
      apply in_split in Hc as (a & r & ->). pose proof (split_kids a c r Hsig) as Hin.
      destruct (forall2_in _ _ _ _ HF Hin) as (x & Hx & Hsx & _). cbn [fst] in Hsx.
      destruct (IH k cs' (fst x) eq_refl Hsx) as (cs2 & A & B). exists cs2. split; [|exact B].
      destruct (kids_split _ _ Hx) as (a' & r' & -> & _). eapply Sub_child; [apply in_elt|exact A].
  Qed.
  Lemma same_snug g g' : Same g g' -> Snug g -> Snug g'.
  Proof.
    intros HS HN cs a k ns w b Hs E. destruct (same_sub _ _ Hs _ _ _ eq_refl HS) as (cs0 & A & HF).
    subst cs. pose proof (split_kids a (Node k ns) (Tok WHITESPACE w :: b) eq_refl) as Hin.
    destruct (forall2_in _ _ _ _ HF Hin) as (x & Hx & Hsx & Hf). cbn [fst snd wide] in Hsx, Hf.
    destruct (kids_split _ _ Hx) as (a' & r' & Ex & Ew). rewrite Ew in Hf. destruct x as [x fx]. cbn [fst snd] in *.
    destruct x as [|k1 cs1]; [inversion Hsx|]. assert (k1 = k) as -> by (now inversion Hsx). cbn [wide] in Hf.
    assert (Z : match r' with Tok WHITESPACE w0 :: _ => Nat.leb 2 (count_lf w0) | _ => false end = false).
    { destruct r' as [|[kk tt|] r']; try reflexivity. destruct kk; try reflexivity.
      pose proof (HN _ a' k cs1 tt r' A Ex) as X. destruct (Nat.leb_spec 2 (count_lf tt)); [lia|reflexivity]. }
    rewrite Z in Hf. symmetry in Hf. apply Nat.leb_gt in Hf. exact Hf.
  Qed.
  Lemma same_good g g' : Good2 g -> Same g g' -> Near g' -> Good2 g'.
  Proof. intros HG HS (A & B & C & D & _). repeat (split; [try assumption|]); try assumption. apply (same_snug g g' HS). apply HG. Qed.
End Opts.
