(** Where the formatter prints blank lines in a tree without comments. *)

From Coq Require Import String List NArith Bool Arith Lia.
From Verif Require Import Text Kind Green SpecParser SpecSyntax SpecFormat Format FmtLang FmtPieces FmtSteps FmtTrivia FmtRun FmtNode FmtTree FmtDoc FmtEmit FmtPlain.
Import ListNotations.

(** The blanks before each text, and after the last. *)
Fixpoint pgo (acc l : list piece) : list (list piece) * list piece :=
  match l with
  | [] => ([], acc)
  | PT _ :: r => let (gs, e) := pgo [] r in (acc :: gs, e)
  | b :: r => pgo (acc ++ [b]) r
  end.
Lemma pgo_app a b : forall acc, pgo acc (a ++ b) =
  let (g1, e1) := pgo acc a in let (g2, e2) := pgo e1 b in (g1 ++ g2, e2).
Proof.
  induction a as [|[t| |] a IH]; intros acc; cbn [app pgo].
  - destruct (pgo acc b); reflexivity.
  - rewrite IH. destruct (pgo [] a) as [g1 e1]. destruct (pgo e1 b). reflexivity.
  - apply IH.
  - apply IH.
Qed.
Lemma pgo_blanks a b : forallb bare_piece a = true -> forall acc, pgo acc (a ++ b) = pgo (acc ++ a) b.
Proof.
  induction a as [|[t| |] a IH]; cbn [forallb bare_piece andb app pgo]; intros H acc; try discriminate.
  - now rewrite app_nil_r.
  - rewrite (IH H), <- app_assoc. reflexivity.
  - rewrite (IH H), <- app_assoc. reflexivity.
Qed.

(** A gap that is a blank line, or at most one blank. *)
Definition is_pn (p : piece) : bool := match p with PN => true | _ => false end.
Definition npn (l : list piece) : nat := length (filter is_pn l).
Definition NG (a : list piece) (b : bool) : Prop := b = true /\ 2 <= npn a \/ b = false /\ length a <= 1.

(** For each token, whether the formatter puts a blank line before it. *)
Fixpoint cfo (b : bool) (g : green) : list bool * bool :=
  match g with
  | Tok _ _ => ([b], false)
  | Node _ cs =>
      (fix go (b : bool) (l : list green) : list bool * bool :=
         match l with
         | [] => ([], b)
         | c :: r =>
             if significant c then
               let (l1, b1) := cfo b c in
               let (l2, b2) := go (b1 || wide c r) r in
               (l1 ++ l2, b2)
             else go b r
         end) b cs
  end.
Fixpoint cgo (b : bool) (l : list green) : list bool * bool :=
  match l with
  | [] => ([], b)
  | c :: r =>
      if significant c then
        let (l1, b1) := cfo b c in
        let (l2, b2) := cgo (b1 || wide c r) r in
        (l1 ++ l2, b2)
      else cgo b r
  end.
Lemma cfo_node b k cs : cfo b (Node k cs) = cgo b cs.
Proof. reflexivity. Qed.
Lemma cgo_skip pre r : forall b, existsb significant pre = false -> cgo b (pre ++ r) = cgo b r.
Proof.
  intros b. induction pre as [|c pre IH]; [reflexivity|]. cbn [existsb app cgo]. intros H. apply orb_false_elim in H as [H1 H2].
  rewrite H1. auto.
Qed.
Lemma first_sig cs : (filter significant cs = [] /\ existsb significant cs = false)
  \/ exists pre y r, cs = pre ++ y :: r /\ significant y = true /\ existsb significant pre = false
     /\ filter significant cs = y :: filter significant r.
Proof.
  induction cs as [|c cs IH]; [now left|]. cbn [filter existsb]. destruct (significant c) eqn:Es.
  - right. exists [], c, cs. auto.
  - destruct IH as [[A B]|(pre & y & r & -> & A & B & C)]; [now left|]. right. exists (c :: pre), y, r.
    cbn [existsb]. rewrite Es. auto.
Qed.

Section Opts.
  Variable o : options.

  Lemma lead_bare tr i l : LeadRel tr i l -> tr = [] \/ tr = blank_line -> forallb bare_piece l = true.
  Proof.
    intros [A B] [->| ->]; [|rewrite A by discriminate; reflexivity].
    destruct (B eq_refl) as [[->|(b & -> & Hb & _)] _]; [reflexivity|]. cbn. now rewrite Hb.
  Qed.

  Lemma items_skip outer pre r : forall p1 p2, Forall (fun c => should_ignore o (Some c) = false) pre ->
    should_ignore o p1 = false -> should_ignore o p2 = false -> existsb significant pre = false ->
    exists p1' p2', should_ignore o p1' = false /\ should_ignore o p2' = false
      /\ sigs (items o outer p1 p2 (pre ++ r)) = sigs (items o outer p1' p2' r).
  Proof.
    induction pre as [|c pre IH]; intros p1 p2 HF H1 H2 Hs; [exists p1, p2; auto|]. cbn [existsb] in Hs.
    apply orb_false_elim in Hs as [Hc Hs]. inversion HF; subst. cbn [app items].
    destruct (IH (Some c) p1) as (q1 & q2 & A & B & C); auto. exists q1, q2. split; [exact A|]. split; [exact B|].
    rewrite <- C. unfold sigs. cbn [filter i_el]. now rewrite Hc.
  Qed.

  Definition Flagged (c : green) : Prop :=
    Good o c -> significant c = true -> forall outer, should_ignore o outer = false ->
    let p := pcs (gdoc o outer c) in
    (texts p <> [] -> forall acc b, NG (acc ++ front p) b ->
       Forall2 NG (fst (pgo acc p)) (fst (cfo b c)) /\ snd (pgo acc p) = [] /\ snd (cfo b c) = false)
    /\ (p = [] -> forall b, cfo b c = ([], b)).

  (** One child. *)
  Lemma child_step outer p1 p2 tr (b : bool) y r p :
    Good o y -> Flagged y -> significant y = true -> should_ignore o p2 = false ->
    Ec o tr (sigs (items o outer p1 p2 (y :: r))) p ->
    tr = (if b then blank_line else []) -> (loose y = true -> b = false) ->
    exists p', Ec o (after o (mk_item y (gdoc o p2 y) r (or_else p2 outer))) (sigs (items o outer (Some y) p1 r)) p'
      /\ forall L, (Forall2 NG (fst (pgo [] p')) (fst (cgo L r)) /\ snd (pgo [] p') = [] /\ snd (cgo L r) = false) ->
         L = wide y r ->
         Forall2 NG (fst (pgo [] p)) (fst (cgo b (y :: r))) /\ snd (pgo [] p) = [] /\ snd (cgo b (y :: r)) = false.
  Proof.
    intros HG HF Hs Hp HE Ht Hl. cbn [items] in HE. set (i := mk_item y (gdoc o p2 y) r (or_else p2 outer)) in *.
    unfold sigs in HE. cbn [filter i i_el] in HE. rewrite Hs in HE. fold i in HE.
    inversion HE as [|? ? ? l p' HL HE']; subst tr0 i0 r0 p. exists p'. split; [exact HE'|].
    intros L (A1 & A2 & A3) EL. destruct (HF HG Hs p2 Hp) as [F1 F2].
    destruct (all_prints2 o y HG Hs p2 Hp) as [[(G1 & G2 & G3) _] _].
    assert (Hbl : forallb bare_piece l = true) by (eapply lead_bare; [exact HL|]; rewrite Ht; destruct b; auto).
    cbn [i_doc i] in *. set (C := pcs (gdoc o p2 y)) in *.
    rewrite pgo_blanks by exact Hbl. cbn [app cgo]. rewrite Hs.
    destruct G3 as [G3|[G3 G4]].
    - assert (N : NG (l ++ front C) b).
      { destruct HL as [L1 L2]. destruct b.
        - left. split; [reflexivity|]. rewrite L1 by (subst tr; discriminate). subst tr. cbn. lia.
        - right. split; [reflexivity|]. destruct (L2 Ht) as [[->|(q & -> & _ & Z)] _]; [exact G1|].
          cbn [i_doc i] in Z. fold C in Z. rewrite Z. cbn. lia. }
      destruct (F1 G3 l b N) as (B1 & B2 & B3). rewrite pgo_app.
      destruct (pgo l C) as [g1 e1], (cfo b y) as [l1 b1]. cbn [fst snd] in *. subst e1 b1 L. cbn [orb].
      destruct (pgo [] p') as [g2 e2], (cgo (wide y r) r) as [l2 b2]. cbn [fst snd] in *.
      split; [now apply Forall2_app|auto].
    - rewrite (Hl G3) in *. subst tr. destruct HL as [_ L2]. destruct (L2 eq_refl) as [_ L3]. cbn [i_el i] in L3.
      rewrite (L3 G3), G4. cbn [app]. rewrite (F2 G4). cbn [orb]. subst L.
      destruct (cgo (wide y r) r) as [l2 b2]. cbn [fst snd app] in *. auto.
  Qed.

  Lemma wide_loose x cs : calm (x :: cs) -> (match cs with Tok WHITESPACE w :: y :: _ => loose y = true | _ => False end) -> False.
  Proof.
    intros H. destruct cs as [|[k w|] [|y r]]; try easy; destruct k; try easy.
    intros Hy. destruct (H [x] (Tok WHITESPACE w) y r eq_refl eq_refl). congruence.
  Qed.

  Lemma kids_flags : forall n cs, length cs <= n -> forall outer p1 p2 x p,
    Forall (Good o) cs -> Forall Flagged cs -> calm (x :: cs) -> notrail_l (x :: cs) ->
    should_ignore o p1 = false -> should_ignore o p2 = false ->
    Ec o (if wide x cs then blank_line else []) (sigs (items o outer p1 p2 cs)) p ->
    Forall2 NG (fst (pgo [] p)) (fst (cgo (wide x cs) cs)) /\ snd (pgo [] p) = [] /\ snd (cgo (wide x cs) cs) = false.
  Proof.
    induction n as [|n IH]; intros cs Hn outer p1 p2 x p HG HF Hc Ht H1 H2 HE.
    { destruct cs; [|cbn in Hn; lia]. cbn in HE. inversion HE; subst.
      replace (wide x []) with false by (destruct x; reflexivity). cbn. auto. }
    assert (Main : forall q1 q2 y r, length r <= n -> should_ignore o q1 = false -> should_ignore o q2 = false ->
      Good o y -> Flagged y -> significant y = true -> Forall (Good o) r -> Forall Flagged r -> calm (y :: r) -> notrail_l (y :: r) ->
      forall b, (loose y = true -> b = false) -> Ec o (if b then blank_line else []) (sigs (items o outer q1 q2 (y :: r))) p ->
      Forall2 NG (fst (pgo [] p)) (fst (cgo b (y :: r))) /\ snd (pgo [] p) = [] /\ snd (cgo b (y :: r)) = false).
    { intros q1 q2 y r Hl Q1 Q2 Gy Fy Sy Gr Fr Cy Ty b Hb HE'.
      destruct (child_step _ _ _ _ b _ _ _ Gy Fy Sy Q2 HE' eq_refl Hb) as (p' & E' & K). apply (K (wide y r)); [|reflexivity].
      apply (IH r Hl outer (Some y) q1 y p'); auto.
      - destruct y as [k t|]; [|reflexivity].
        apply (WFs_ignore o _ [Tok k t]); [constructor; [apply Gy|constructor]|now left].
      - rewrite after_wide in E'; [exact E'| |].
        + cbn [i_next]. eapply Forall_impl; [|exact Gr]. intros g (A & B & _). auto.
        + cbn [i_next]. exact (calm_suffix [y] r Cy). }
    destruct cs as [|c r].
    { cbn in HE. inversion HE; subst. replace (wide x []) with false by (destruct x; reflexivity). cbn. auto. }
    inversion HG as [|? ? Gc Gr]; subst. inversion HF as [|? ? Fc Fr]; subst. cbn in Hn.
    destruct (significant c) eqn:Es.
    - apply (Main p1 p2 c r); auto; try lia.
      + exact (calm_suffix [x] (c :: r) Hc).
      + exact (notrail_cons _ _ Ht).
      + intros _. destruct x; [reflexivity|]. destruct c as [kk tt|]; [|reflexivity]. destruct kk; try reflexivity. discriminate Es.
    - destruct r as [|y r].
      { exfalso. unfold notrail_l in Ht. cbn [rev app] in Ht. destruct c as [k t|]; [|discriminate Es].
        cbn [nolead_l triv_tok significant] in Ht, Es. rewrite Ht in Es. discriminate. }
      destruct (Hc [x] c y r eq_refl Es) as [Sy Ly]. inversion Gr as [|? ? Gy Gr']; subst. inversion Fr as [|? ? Fy Fr']; subst.
      assert (X : Forall2 NG (fst (pgo [] p)) (fst (cgo (wide x (c :: y :: r)) (y :: r))) /\ snd (pgo [] p) = []
        /\ snd (cgo (wide x (c :: y :: r)) (y :: r)) = false).
      { apply (Main (Some c) p1 y r); auto; try (cbn in Hn; lia).
        - destruct c as [k t|]; [|reflexivity].
          apply (WFs_ignore o _ [Tok k t]); [constructor; [apply Gc|constructor]|now left].
        - exact (calm_suffix [x; c] (y :: r) Hc).
        - exact (notrail_cons _ _ (notrail_cons _ _ Ht)).
        - intros Z. congruence.
        - cbn [items] in HE. unfold sigs in HE. cbn [filter i_el] in HE. rewrite Es in HE. exact HE. }
      replace (cgo (wide x (c :: y :: r)) (c :: y :: r)) with (cgo (wide x (c :: y :: r)) (y :: r)); [exact X|].
      cbn [cgo]. now rewrite Es.
  Qed.

  Theorem all_flagged : forall g, Flagged g.
  Proof.
    apply green_ind'.
    - intros k t HG Hs outer Ho p. pose proof HG as (HW & _). apply WF_tok in HW as (H1 & H2 & H3 & _).
      cbn [significant] in Hs. apply negb_true_iff in Hs. destruct (token_lex k t H2 H3 H1 Hs) as [L1 L2].
      assert (Ep : p = [PT t]) by (unfold p; cbn [gdoc]; now apply text_not_space).
      rewrite Ep. split; [|discriminate]. intros _ acc b HN. cbn [front] in HN. rewrite app_nil_r in HN.
      cbn. auto.
    - intros k cs HP HG _ outer Ho p. destruct (all_prints2 o _ HG eq_refl outer Ho) as [[(_ & _ & G3) HH] HE].
      fold p in G3, HE. clearbody p. cbn [headed] in HH. pose proof HG as (HW & Hpl & Hc & _).
      destruct (proj1 HW k cs (Sub_here _)) as (Hk & _ & _ & _ & Ht).
      pose proof (Hc k cs (Sub_here _) Hk) as Hcs.
      assert (HGs : Forall (Good o) cs) by (apply Forall_forall; intros c Hin; eapply Good_children; eauto).
      destruct (first_sig cs) as [[E0 E1]|(pre & y & r & E & Sy & Hpre & Ef)].
      + assert (X : sigs (items o outer None None cs) = []).
        { assert (Y : map i_el (sigs (items o outer None None cs)) = []) by (rewrite sigs_map; now rewrite items_el).
          destruct (sigs (items o outer None None cs)); [reflexivity|discriminate]. }
        rewrite X in HE. inversion HE as [? Z|]; subst. split; [intros Z; exfalso; now apply Z|].
        intros _ b. rewrite cfo_node. rewrite <- (app_nil_r cs). rewrite cgo_skip; auto.
      + rewrite Ef in HH.
        assert (HGy : Good o y /\ Forall (Good o) r).
        { rewrite E in HGs. apply Forall_app in HGs as [_ X]. inversion X; auto. }
        destruct HGy as [HGy HGr].
        assert (HFy : Flagged y /\ Forall Flagged r).
        { rewrite E in HP. apply Forall_app in HP as [_ X]. inversion X; auto. }
        destruct HFy as [HFy HFr].
        assert (HI : Forall (fun c => should_ignore o (Some c) = false) pre).
        { apply Forall_forall. intros c Hin. apply (WFs_ignore o c cs); [exact (WF_children o _ _ HW)|].
          rewrite E. apply in_or_app. now left. }
        destruct (items_skip outer pre (y :: r) None None HI eq_refl eq_refl Hpre) as (p1 & p2 & I1 & I2 & Ei).
        rewrite E, Ei in HE. cbn [items] in HE. set (i := mk_item y (gdoc o p2 y) r (or_else p2 outer)) in *.
        unfold sigs in HE. cbn [filter i i_el] in HE. rewrite Sy in HE. fold i in HE.
        inversion HE as [|? ? ? l p' HL HE' Ea Eb Ec]; subst tr i0 r0. 
        destruct (HFy HGy Sy p2 I2) as [F1 _].
        destruct (all_prints2 o y HGy Sy p2 I2) as [[(G1 & _ & G4) _] _].
        cbn [i_doc i] in Ec.
        assert (TC : texts (pcs (gdoc o p2 y)) <> []).
        { destruct G4 as [G4|[G4 _]]; [exact G4|]. unfold special in HH. rewrite G4 in HH. discriminate. }
        specialize (F1 TC).
        pose proof (lead_bare _ _ _ HL (or_introl eq_refl)) as Hbl.
        assert (Hcy : calm (y :: r)) by (rewrite E in Hcs; exact (calm_suffix _ _ Hcs)).
        assert (Hty : notrail_l (y :: r)) by (rewrite E in Ht; exact (notrail_suffix _ _ Ht)).
        split.
        * intros _ acc b HN. cbn [i_doc i] in HN |- *. rewrite front_blanks in HN by exact Hbl.
          rewrite front_app in HN by exact TC. rewrite app_assoc in HN. destruct (F1 _ _ HN) as (B1 & B2 & B3).
          rewrite pgo_blanks by exact Hbl. rewrite pgo_app, cfo_node, E, cgo_skip; auto.
          cbn [cgo]. rewrite Sy. destruct (pgo (acc ++ l) (pcs (gdoc o p2 y))) as [g1 e1], (cfo b y) as [l1 b1].
          cbn [fst snd] in *. subst e1 b1. cbn [orb].
          destruct (kids_flags (length r) r (Nat.le_refl _) outer (Some y) p1 y p' HGr HFr Hcy Hty) as (A1 & A2 & A3).
          -- destruct y as [ky ty|]; [|reflexivity].
             apply (WFs_ignore o _ [Tok ky ty]); [constructor; [apply HGy|constructor]|now left].
          -- exact I1.
          -- rewrite after_wide in HE'; [exact HE'| |].
             ++ cbn [i_next i]. eapply Forall_impl; [|exact HGr]. intros g (A & B & _). auto.
             ++ cbn [i_next i]. exact (calm_suffix [y] r Hcy).
          -- destruct (pgo [] p') as [g2 e2], (cgo (wide y r) r) as [l2 b2]. cbn [fst snd] in *.
             split; [now apply Forall2_app|auto].
        * intros Z. exfalso. apply app_eq_nil in Z as [_ Z]. apply app_eq_nil in Z as [Z _].
          cbn [i_doc i] in Z. rewrite Z in TC. now apply TC.
  Qed.
End Opts.
