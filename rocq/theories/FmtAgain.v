(** The modules of a document and of the formatted document. *)

From Coq Require Import String List NArith Bool Arith Lia.
From Verif Require Import Text Kind Green SpecParser SpecSyntax SpecFormat Format FmtLang FmtPieces FmtSteps FmtTrivia FmtRun FmtNode FmtTree FmtDoc FmtEmit FmtPlain FmtFlags
  Respace Relex FmtGap ThmReparse FmtSame FmtAlike FmtTidy.
From Verif Require SpecComplete.
Import ListNotations.
Local Open Scope list_scope.

Lemma Forall2_length {A B : Type} (R : A -> B -> Prop) l l' : Forall2 R l l' -> length l = length l'.
Proof. induction 1; cbn; congruence. Qed.

(** ** Gaps of fine and coarse pieces *)

Lemma pgo_fgo l : forall acc, pgo (map coarse acc) (map coarse l) = (map (map coarse) (fst (fgo acc l)), map coarse (snd (fgo acc l))).
Proof.
  induction l as [|p l IH]; intros acc; [reflexivity|].
  destruct p; cbn [map coarse fgo pgo].
  - specialize (IH []). cbn [map] in IH. rewrite IH. destruct (fgo [] l). reflexivity.
  - specialize (IH (acc ++ [FH])). rewrite map_app in IH. exact IH.
  - specialize (IH (acc ++ [FS])). rewrite map_app in IH. exact IH.
  - specialize (IH (acc ++ [FN])). rewrite map_app in IH. exact IH.
Qed.
Lemma lows_npn g : lows g = npn (map coarse g).
Proof. unfold lows, npn. induction g as [|[] g IH]; cbn; auto. Qed.
Lemma lows_softs g : lows g + softs g <= length g.
Proof. unfold lows, softs. induction g as [|[] g IH]; cbn; lia. Qed.
Lemma fit_flag g c b : Fit g c -> NG (map coarse g) b -> wd c = b.
Proof.
  unfold Fit, NG. intros HF HN. rewrite <- lows_npn, map_length in HN. pose proof (lows_softs g) as L. destruct c as [n|]; cbn [wd].
  - destruct HF as [_ HF]. destruct HN as [[-> HN]|[-> HN]]; [apply Nat.leb_le|apply Nat.leb_gt]; lia.
  - subst g. destruct HN as [[_ HN]|[-> _]]; [cbn in HN; lia|reflexivity].
Qed.
Lemma fit_flags gs : forall cs bs, Forall2 Fit gs cs -> Forall2 NG (map (map coarse) gs) bs -> map wd cs = bs.
Proof.
  induction gs as [|g gs IH]; intros cs bs H1 H2; inversion H1; inversion H2; subst; [reflexivity|]. cbn [map]. f_equal; eauto using fit_flag.
Qed.

(** ** Rows of modules *)

Inductive Row (P : green -> Prop) : list green -> Prop :=
| Row_nil : Row P []
| Row_ws w : Row P [Tok WHITESPACE w]
| Row_mod c r : P (Node MODULE c) -> Row P r -> Row P (Node MODULE c :: r)
| Row_both w c r : P (Node MODULE c) -> Row P r -> Row P (Tok WHITESPACE w :: Node MODULE c :: r).

Lemma row_of P : forall n l, length l <= n -> Forall (fun g => (exists w, g = Tok WHITESPACE w) \/ (exists c, g = Node MODULE c /\ P g)) l ->
  (forall a v w b, l <> a ++ Tok WHITESPACE v :: Tok WHITESPACE w :: b) -> Row P l.
Proof.
  induction n as [|n IH]; intros l Hn HF Hm; [destruct l; [constructor|cbn in Hn; lia]|].
  destruct l as [|g l]; [constructor|]. cbn in Hn. inversion HF as [|? ? Hg HF']; subst.
  assert (Hm' : forall a v w b, l <> a ++ Tok WHITESPACE v :: Tok WHITESPACE w :: b).
  { intros a v w b E. apply (Hm (g :: a) v w b). now rewrite E. }
  destruct Hg as [(w & ->)|(c & -> & Hc)]; [|constructor; [exact Hc|apply IH; auto; lia]].
  destruct l as [|h l]; [constructor|]. cbn in Hn. inversion HF' as [|? ? Hh HF'']; subst.
  destruct Hh as [(v & ->)|(c & -> & Hc)]; [exfalso; now apply (Hm [] w v l)|].
  constructor; [exact Hc|]. apply IH; [lia|exact HF''|]. intros a v u b E. apply (Hm' (Node MODULE c :: a) v u b). now rewrite E.
Qed.

Section Opts.
  Variable o : options.

  (** The blanks between two modules. *)
  Definition sep (w : text) : list doc := match count_lf w with 0 => [space] | _ => gap_docs w end.
  Definition sepo (pre : option text) : list doc := match pre with Some w => sep w | None => [] end.
  Definition toks (pre : option text) : list green := match pre with Some w => [Tok WHITESPACE w] | None => [] end.
  Definition cnt (pre : option text) : option nat := match pre with Some w => Some (count_lf w) | None => None end.

  Lemma sep_gap w : sep w = gap_docs w.
  Proof. unfold sep, gap_docs. destruct (count_lf w); reflexivity. Qed.
  Lemma sep_flag pre : NG (map coarse (finel (sepo pre))) (wd (cnt pre)).
  Proof.
    destruct pre as [w|]; cbn [sepo cnt wd]; [|right; cbn; auto]. rewrite sep_gap. unfold gap_docs.
    destruct (count_lf w) as [|[|n]]; [right|right|left]; cbn; auto.
  Qed.
  Lemma sep_fit pre pre' : Fit (finel (sepo pre)) (cnt pre') -> sepo pre = sepo pre'.
  Proof.
    destruct pre as [w|], pre' as [w'|]; cbn [sepo cnt]; rewrite ?sep_gap; unfold gap_docs, Fit.
    - destruct (count_lf w) as [|[|n]]; cbn; intros [_ H]; destruct (count_lf w') as [|[|[|m]]]; try reflexivity; lia.
    - destruct (count_lf w) as [|[|n]]; discriminate.
    - intros [H _]. now contradiction H.
    - reflexivity.
  Qed.
  Lemma sep_blank pre l : fgo [] (finel (sepo pre) ++ l) = fgo (finel (sepo pre)) l.
  Proof. destruct pre as [w|]; [|reflexivity]. cbn [sepo]. rewrite sep_gap. unfold gap_docs. destruct (count_lf w) as [|[|n]]; reflexivity. Qed.
  Lemma tgo_toks pre ts : tgo None (gtokenss (toks pre) ++ ts) = tgo (cnt pre) ts.
  Proof. destruct pre; reflexivity. Qed.

  (** One module. *)
  Lemma module_read m c' pre pre' q rest rest' :
    Good2 o (Node MODULE m) -> Near o (Node MODULE c') -> bare (Node MODULE c') = bare (Node MODULE m) ->
    should_ignore o q = false ->
    Fits (fgo (finel (sepo pre)) (fine (gdoc o q (Node MODULE m)) ++ rest)) (tgo (cnt pre') (gtokens (Node MODULE c') ++ rest')) ->
    Same (Node MODULE m) (Node MODULE c') /\ sepo pre = sepo pre' /\ Fits (fgo [] rest) (tgo None rest').
  Proof.
    intros G G' Hb Hq HF. set (g := Node MODULE m) in *. set (g' := Node MODULE c') in *. set (d := gdoc o q g) in *.
    destruct (module_starts o m q (proj1 (proj1 G)) Hq) as (r0 & Er). fold g in Er. fold d in Er.
    destruct (all_flagged o g (proj1 G) eq_refl q Hq) as [F1 _]. fold d in F1.
    assert (Hfr : front (pcs d) = []) by (rewrite Er; reflexivity).
    destruct (F1 ltac:(rewrite Er; discriminate) (map coarse (finel (sepo pre))) (wd (cnt pre))) as (A1 & A2 & _).
    { rewrite Hfr, app_nil_r. apply sep_flag. }
    rewrite <- coarse_fine, pgo_fgo in A1, A2. cbn [fst snd] in A1, A2.
    rewrite fgo_app, tgo_app in HF.
    assert (E' : snd (tgo (cnt pre') (gtokens g')) = None).
    { destruct (all_end o g' G' eq_refl) as [[Z _]|Z]; [discriminate Z|apply Z]. }
    assert (Nn : length (fst (fgo (finel (sepo pre)) (fine d))) = length (fst (tgo (cnt pre') (gtokens g')))).
    { rewrite tgo_length, visible_count by (try apply G'; reflexivity). rewrite Hb, <- (cfo_count g (wd (cnt pre)) eq_refl).
      apply Forall2_length in A1. now rewrite map_length in A1. }
    assert (Hd0 : exists gs, fst (fgo (finel (sepo pre)) (fine d)) = finel (sepo pre) :: gs).
    { rewrite <- coarse_fine in Er. destruct (fine d) as [|p l]; [discriminate Er|]. cbn [map] in Er. injection Er as Ep _.
      destruct p; try discriminate Ep. cbn [fgo]. destruct (fgo [] l). cbn [fst]. eauto. }
    destruct (fgo (finel (sepo pre)) (fine d)) as [g1 e1], (tgo (cnt pre') (gtokens g')) as [h1 k1] eqn:Et. cbn [fst snd] in *.
    apply map_eq_nil in A2. subst e1 k1.
    destruct (fgo [] rest) as [g2 e2], (tgo None rest') as [h2 k2]. destruct HF as [HF1 HF2]. cbn [fst snd] in *.
    apply Forall2_app_inv_l in HF1 as (x1 & x2 & X1 & X2 & Ex).
    apply app_inj in Ex as [<- <-]; [|apply Forall2_length in X1; congruence].
    split; [|split; [|split; assumption]].
    - apply (all_readback o g G eq_refl g' G' Hb (cnt pre') (wd (cnt pre))). rewrite Et. cbn [fst]. eapply fit_flags; eauto.
    - destruct Hd0 as (gs & ->). destruct (first_token o g' G' eq_refl eq_refl) as (p & r & r' & T1 & _ & T2).
      rewrite T1 in Et. cbn [tgo] in Et. rewrite T2 in Et. destruct (tgo None r) as [y1 y2]. injection Et as <- _.
      inversion X1; subst. now apply sep_fit.
  Qed.

  Lemma should_or p : should_ignore o p = false -> should_ignore o (or_else p None) = false.
  Proof. now destruct p. Qed.
  Lemma ws_ignore w : should_ignore o (Some (Tok WHITESPACE w)) = false.
  Proof. reflexivity. Qed.

  (** Documents of a row. *)
  Lemma row_module prev first p1 p2 c r : should_ignore o p2 = false ->
    root_docs o prev first (items o None p1 p2 (Node MODULE c :: r))
    = gdoc o p2 (Node MODULE c) :: root_docs o MODULE false (items o None (Some (Node MODULE c)) p1 r).
  Proof.
    intros H. cbn [items root_docs i_el i_prev i_doc gkind]. rewrite (should_or _ H).
    rewrite (proj2 (kind_eqb_eq MODULE MODULE) eq_refl). reflexivity.
  Qed.
  Lemma row_space prev first p1 p2 w c r : kind_eqb prev LINE_COMMENT = false ->
    root_docs o prev first (items o None p1 p2 (Tok WHITESPACE w :: Node MODULE c :: r))
    = (if first then [] else sep w) ++ root_docs o WHITESPACE false (items o None (Some (Tok WHITESPACE w)) p1 (Node MODULE c :: r)).
  Proof.
    intros H. cbn [items]. cbn [root_docs i_el i_prev i_doc gkind nilb]. rewrite orb_false_r, H.
    destruct first; [reflexivity|]. unfold sep. destruct (count_lf w); reflexivity.
  Qed.
  Lemma row_end prev first p1 p2 w : root_docs o prev first (items o None p1 p2 [Tok WHITESPACE w]) = [].
  Proof. cbn. now rewrite orb_true_r. Qed.

  (** The first module of a row, if there is one. *)
  Lemma row_cases P l : Row P l ->
    (filter significant l = [] /\ forall prev first p1 p2, root_docs o prev first (items o None p1 p2 l) = [])
    \/ exists pre c r, l = toks pre ++ Node MODULE c :: r /\ P (Node MODULE c) /\ Row P r /\ length r < length l
       /\ filter significant l = Node MODULE c :: filter significant r
       /\ forall prev first p1 p2, kind_eqb prev LINE_COMMENT = false -> should_ignore o p1 = false -> should_ignore o p2 = false ->
          exists q p2', should_ignore o q = false /\ should_ignore o p2' = false /\
          root_docs o prev first (items o None p1 p2 l)
          = (if first then [] else sepo pre) ++ gdoc o q (Node MODULE c)
            :: root_docs o MODULE false (items o None (Some (Node MODULE c)) p2' r).
  Proof.
    intros H. destruct H as [|w|c r Hc Hr|w c r Hc Hr].
    - left. auto.
    - left. split; [reflexivity|]. intros. apply row_end.
    - right. exists None, c, r. split; [reflexivity|]. split; [exact Hc|]. split; [exact Hr|]. split; [cbn; lia|]. split; [reflexivity|].
      intros prev first p1 p2 H H1 H2. exists p2, p1. rewrite row_module by assumption. split; [exact H2|]. split; [exact H1|]. now destruct first.
    - right. exists (Some w), c, r. split; [reflexivity|]. split; [exact Hc|]. split; [exact Hr|]. split; [cbn; lia|]. split; [reflexivity|].
      intros prev first p1 p2 H H1 H2. exists p1, (Some (Tok WHITESPACE w)). rewrite row_space by assumption. rewrite row_module by assumption.
      split; [exact H1|]. split; [reflexivity|]. reflexivity.
  Qed.

  Lemma rows_again : forall n l l', length l <= n -> Row (Good2 o) l -> Row (Near o) l' ->
    map bare (filter significant l') = map bare (filter significant l) ->
    forall (first : bool) prev prev' p1 p2 p1' p2',
    kind_eqb prev LINE_COMMENT = false -> kind_eqb prev' LINE_COMMENT = false ->
    should_ignore o p1 = false -> should_ignore o p2 = false -> should_ignore o p1' = false -> should_ignore o p2' = false ->
    Fits (fgo [] (finel (root_docs o prev first (items o None p1 p2 l) ++ [DNewLine]))) (tgo None (gtokenss l')) ->
    root_docs o prev' first (items o None p1' p2' l') = root_docs o prev first (items o None p1 p2 l).
  Proof.
    induction n as [|n IH]; intros l l' Hn HR HR' Hb first prev prev' p1 p2 p1' p2' K K' H1 H2 H1' H2' HF.
    all: destruct (row_cases _ _ HR) as [[E0 E1]|(pre & c & r & E & Hc & Hr & Hlen & Ef & Ed)].
    all: destruct (row_cases _ _ HR') as [[E0' E1']|(pre' & c' & r' & E' & Hc' & Hr' & _ & Ef' & Ed')].
    all: rewrite ?E0, ?E0', ?Ef, ?Ef' in Hb; try discriminate Hb; try lia.
    all: try (now rewrite E1, E1').
    cbn [map] in Hb. injection Hb as Hb1 Hb2. assert (Hb : bare (Node MODULE c') = bare (Node MODULE c)) by (cbn [bare]; now rewrite Hb1).
    destruct (Ed prev first p1 p2 K H1 H2) as (q & p3 & Hq & Hp3 & ED). destruct (Ed' prev' first p1' p2' K' H1' H2') as (q' & p3' & Hq' & Hp3' & ED').
    rewrite ED in HF |- *. rewrite ED'.
    set (pre0 := if first then None else pre).
    assert (X : (if first then [] else sepo pre) = sepo pre0) by (unfold pre0; now destruct first).
    rewrite X in *. rewrite E', gtokenss_app, gtokenss_cons, tgo_toks in HF.
    rewrite <- app_assoc, finel_app, sep_blank in HF. cbn [app] in HF. 
    change (finel (?d :: ?l)) with (fine d ++ finel l) in HF.
    destruct (module_read _ _ _ _ _ _ _ Hc Hc' Hb Hq HF) as (HS & Hsep & HF').
    f_equal; [|f_equal].
    - unfold pre0 in *. destruct first; [reflexivity|]. now symmetry.
    - symmetry. apply same_doc; auto. now apply same_good with (Node MODULE c).
    - apply (IH r r'); auto. lia.
  Qed.
End Opts.
