(** Property C55, lines: writing other names moves nothing to another line, so
    the document folds the same way. *)

From Coq Require Import String List NArith Bool Arith Lia.
From Verif Require Import Text Kind Green SpecParser SpecSyntax Lexer LexerFacts Red LineIndex Cursor Doc Ast Binder Nav NavSpec NavFacts
  Features ThmPos SpecAction ThmAction ThmRename ThmRenamed SpecRename SpecAlike Alike ThmAlike ThmAlpha.
From Verif Require SpecComplete ThmComplete ThmReparse.
Import ListNotations.

(** Both ends of the two ranges are on the same lines. *)
Definition SameLines (r r' : (nat * nat) * (nat * nat)) : Prop :=
  fst (fst r) = fst (fst r') /\ fst (snd r) = fst (snd r').

Lemma lfs_app a b : line_feeds (a ++ b) = line_feeds a + line_feeds b.
Proof. unfold line_feeds. now rewrite filter_app, app_length. Qed.
Lemma line_is src before after p : src = before ++ after ->
  line_col (new_line_index src) (tlen before) = Some p -> fst p = line_feeds before.
Proof.
  intros E H. destruct p as [l c]. apply (C10_position src before after l c E) in H.
  destruct H as (head & line & _ & _ & _ & H & _). exact H.
Qed.

Lemma id_no_lf x : Forall (fun c => is_id_char c = true) x -> line_feeds x = 0.
Proof.
  unfold line_feeds. induction 1 as [|c x Hc _ IH]; [reflexivity|]. cbn [filter].
  destruct (N.eqb LF c) eqn:E; [|exact IH]. apply N.eqb_eq in E. subst c. vm_compute in Hc. discriminate.
Qed.
Lemma valid_no_lf x : ValidName x -> line_feeds x = 0.
Proof.
  intros (c & r & -> & F). change (c_dollar :: c :: r) with ([c_dollar] ++ (c :: r)). rewrite lfs_app.
  rewrite (id_no_lf (c :: r)) by exact F. reflexivity.
Qed.

Section Lines.
  Variables (f : text -> text) (a : green).
  Hypothesis (Da : SpecComplete.Document a) (Hf : forall x, Occurs a x -> ValidName (f x)).
  Notation wn := (with_names f).
  Notation b := (wn a).

  Lemma own_no_lf x : In (IDENT, x) (gtokens a) -> line_feeds x = 0.
  Proof.
    intros H. destruct (ThmReparse.document_form _ Da _ _ H) as [(r & -> & _ & F) _].
    change (c_dollar :: r) with ([c_dollar] ++ r). rewrite lfs_app, (id_no_lf r) by exact F. reflexivity.
  Qed.
  (** Every piece of the tree has as many line feeds as before. *)
  Lemma wn_lfs g : (forall x, In (IDENT, x) (gtokens g) -> In (IDENT, x) (gtokens a)) ->
    line_feeds (gtext (wn g)) = line_feeds (gtext g).
  Proof.
    induction g as [k t|k cs IH] using green_ind'; intros H; cbn [with_names].
    - destruct (kind_eqb k IDENT) eqn:K; [|reflexivity]. apply kind_eqb_eq in K. subst k. cbn [gtext].
      assert (X : In (IDENT, t) (gtokens a)) by (apply H; now left).
      rewrite (own_no_lf _ X). apply valid_no_lf, Hf. exact X.
    - cbn [gtext gtokens] in *. induction IH as [|c cs Hc _ IHc]; [reflexivity|]. cbn [map concat] in *.
      rewrite !lfs_app. f_equal.
      + apply Hc. intros x Hx. apply H. apply in_or_app. now left.
      + apply IHc. intros x Hx. apply H. apply in_or_app. now right.
  Qed.
  Lemma wn_lfs_list l : (forall x, In (IDENT, x) (concat (map gtokens l)) -> In (IDENT, x) (gtokens a)) ->
    line_feeds (gtexts (map wn l)) = line_feeds (gtexts l).
  Proof.
    unfold gtexts. induction l as [|c l IH]; intros H; [reflexivity|]. cbn [map concat] in *. rewrite !lfs_app. f_equal.
    - apply wn_lfs. intros x Hx. apply H. apply in_or_app. now left.
    - apply IH. intros x Hx. apply H. apply in_or_app. now right.
  Qed.
  Lemma wn_sig g : significant (wn g) = significant g.
  Proof. destruct g; cbn; [destruct kind_eqb|]; reflexivity. Qed.
  Lemma wn_rank g o i : rank (mk_up (wn g) o i) = rank (mk_up g 0 i).
  Proof.
    unfold rank. cbn [u_idx u_green].
    assert (E : gchildren (wn g) = map wn (gchildren g)) by (destruct g; cbn; [destruct kind_eqb|]; reflexivity).
    now rewrite E, firstn_map, filter_wn, map_length.
  Qed.

  (** The element in the same place: it has the same line feeds before it. *)
  Lemma facing e : InTree a e -> exists e', InTree b e' /\ el e' = wn (el e) /\ place e' = place e
    /\ (forall x, In (IDENT, x) (gtokens (el e)) -> In (IDENT, x) (gtokens a))
    /\ exists pre post pre' post', gtext a = pre ++ gtext (el e) ++ post /\ gtext b = pre' ++ gtext (wn (el e)) ++ post'
         /\ tlen pre = off e /\ tlen pre' = off e' /\ line_feeds pre = line_feeds pre'.
  Proof.
    induction 1 as [|p c Hp (p' & Tp & Ep & Pp & Op & pre & post & pre' & post' & G & G' & L & L' & N) Hc].
    - exists (root_of b). split; [constructor|]. split; [reflexivity|]. split; [reflexivity|]. split; [auto|].
      exists [], [], [], []. rewrite !app_nil_r. repeat split; reflexivity.
    - unfold children_with_tokens in Hc. apply kids_in in Hc as (l & g & r & Ek & ->).
      destruct (el p) as [k t|k cs] eqn:Elp; [destruct l; discriminate|]. cbn [gchildren] in Ek. subst cs.
      exists (mk_elem (wn g) (off p' + glens (map wn l)) (mk_up (el p') (off p') (length l) :: ups p')).
      assert (Oc : forall x, In (IDENT, x) (concat (map gtokens (l ++ g :: r))) -> In (IDENT, x) (gtokens a)) by exact Op.
      rewrite map_app, concat_app in Oc. cbn [map concat] in Oc.
      split; [|split; [reflexivity|split; [|split]]].
      + eapply Desc_step; [exact Tp|]. unfold children_with_tokens. apply kids_in. rewrite Ep. cbn [with_names gchildren].
        exists (map wn l), (wn g), (map wn r). split; [now rewrite map_app|]. now rewrite map_length.
      + unfold place in *. cbn [ups map]. f_equal; [|exact Pp]. rewrite Ep. rewrite wn_rank. unfold rank. reflexivity.
      + cbn [el]. intros x Hx. apply Oc. apply in_or_app. right. apply in_or_app. now left.
      + cbn [el off]. exists (pre ++ gtexts l), (gtexts r ++ post), (pre' ++ gtexts (map wn l)), (gtexts (map wn r) ++ post').
        split; [|split; [|split; [|split]]].
        * rewrite G. unfold gtexts. cbn [gtext]. rewrite map_app, concat_app. cbn [map concat]. now rewrite <- !app_assoc.
        * rewrite G'. unfold gtexts. cbn [with_names gtext]. rewrite !map_app, concat_app. cbn [map concat]. now rewrite <- !app_assoc.
        * rewrite tlen_app, L, <- glens_tlen. reflexivity.
        * rewrite tlen_app, L', <- glens_tlen. reflexivity.
        * rewrite !lfs_app, N. f_equal. symmetry. apply wn_lfs_list. intros x Hx. apply Oc. apply in_or_app. now left.
  Qed.

  Lemma lines e e' r r' : Counterpart a b e e' -> RangeOf (gtext a) e r -> RangeOf (gtext b) e' r' -> SameLines r r'.
  Proof.
    intros (T1 & T2 & S1 & S2 & P) [A1 A2] [B1 B2].
    destruct (facing e T1) as (e2 & T3 & E & P' & O & pre & post & pre' & post' & G & G' & L & L' & N).
    assert (S3 : significant (el e2) = true) by now rewrite E, wn_sig.
    assert (e' = e2) by (apply (place_inj b b); auto; congruence). subst e2.
    unfold estart, eend in *. rewrite <- L in A1, A2. rewrite <- L' in B1, B2. rewrite glen_tlen, <- tlen_app in A2, B2. rewrite E in B2. split.
    - rewrite (line_is _ _ _ _ G A1), (line_is _ _ _ _ G' B1). exact N.
    - rewrite app_assoc in G, G'. rewrite (line_is _ _ _ _ G A2), (line_is _ _ _ _ G' B2), !lfs_app, N.
      now rewrite wn_lfs.
  Qed.
End Lines.

(** Elements in the same place are on the same lines. *)
Theorem C55_lines f a e e' r r' :
  Document a -> (forall x, Occurs a x -> ValidName (f x)) ->
  Counterpart a (with_names f a) e e' -> RangeOf (gtext a) e r -> RangeOf (gtext (with_names f a)) e' r' ->
  SameLines r r'.
Proof. intros D V C A B. eapply lines; eauto. Qed.
Print Assumptions C55_lines.

(** The same elements fold, over the same lines. *)
Theorem C55_folding f a :
  Document a -> Renames f a ->
  AnsR (Forall2 (fun r r' => SamePlace (gtext a) (gtext (with_names f a)) r r' /\ SameLines r r'))
    (folding_range (gtext a)) (folding_range (gtext (with_names f a))).
Proof.
  intros D Hf. pose proof (Db f a D Hf) as D'. pose proof (two_sim f a D Hf) as S.
  destruct (ThmAlike.document_tree _ D) as [Ta _]. destruct (ThmAlike.document_tree _ D') as [Tb _].
  unfold folding_range.
  assert (F : Forall2 (R (Called f a) (tree_of (gtext a)) (tree_of (gtext (with_names f a))))
    (descendants (root_of (tree_of (gtext a)))) (descendants (root_of (tree_of (gtext (with_names f a)))))).
  { apply R_descendants; [|].
    - now apply R_root.
    - rewrite Ta. destruct D as (ms & tl & -> & _). reflexivity. }
  assert (G : AnsR (Forall2 (Forall2 (fun r r' => SamePlace (gtext a) (gtext (with_names f a)) r r' /\ SameLines r r')))
    (map_ans (folding_of (gtext a)) (descendants (root_of (tree_of (gtext a)))))
    (map_ans (folding_of (gtext (with_names f a))) (descendants (root_of (tree_of (gtext (with_names f a))))))).
  { induction F as [|n n' l l' Rn F IH]; cbn [map_ans]; [constructor; constructor|].
    assert (H : AnsR (Forall2 (fun r r' => SamePlace (gtext a) (gtext (with_names f a)) r r' /\ SameLines r r'))
      (folding_of (gtext a) n) (folding_of (gtext (with_names f a)) n')).
    { pose proof (R_counterpart _ _ _ _ _ Rn) as Cn. pose proof Cn as (T1 & T2 & _).
      destruct (range_of_ok _ _ T1) as (r & E1 & R1). destruct (range_of_ok _ _ T2) as (r' & E2 & R2).
      assert (L : SameLines r r').
      { rewrite Ta, Tb in Cn. exact (C55_lines f a n n' r r' D (proj1 Hf) Cn R1 R2). }
      assert (O : forall k, is_trivia_kind k = false -> match token n k, token n' k with Some _, Some _ | None, None => True | _, _ => False end).
      { intros k Hk. destruct (R_token _ _ _ k _ _ Hk Rn); exact I. }
      unfold folding_of. rewrite E1, E2. cbn [abind].
      assert (Q : AnsR (Forall2 (fun r r' => SamePlace (gtext a) (gtext (with_names f a)) r r' /\ SameLines r r'))
        (Ans (if Nat.eqb (fst (fst r)) (fst (snd r)) then [] else [r])) (Ans (if Nat.eqb (fst (fst r')) (fst (snd r')) then [] else [r']))).
      { assert (E : Nat.eqb (fst (fst r)) (fst (snd r)) = Nat.eqb (fst (fst r')) (fst (snd r'))).
        { destruct r as [[? ?] [? ?]], r' as [[? ?] [? ?]], L as [L1 L2]. cbn [fst snd] in *. congruence. }
        rewrite E. clear E. destruct (Nat.eqb (fst (fst r')) (fst (snd r'))); constructor; [constructor|]. constructor; [|constructor].
        split; [|exact L]. exists n, n'. auto. }
      pose proof (O KEYWORD eq_refl) as O1. pose proof (O L_PAREN eq_refl) as O2.
      destruct (token n KEYWORD), (token n' KEYWORD); try (destruct O1; fail); [exact Q|].
      destruct (token n L_PAREN), (token n' L_PAREN); try (destruct O2; fail); [exact Q|]. constructor. constructor. }
    destruct H as [| |x y H]; cbn [abind]; try constructor. destruct IH as [| |xs ys IH]; cbn [abind]; constructor. now constructor. }
  destruct G as [| |x y G]; cbn [abind]; constructor. now apply F2_concat.
Qed.
Print Assumptions C55_folding.

(** A document in which the function folds, with a longer name for it. *)
Definition lines_ex : text := Text.T "(module" ++ [LF] ++ Text.T "  (func $f" ++ [LF] ++ Text.T "    call $f))".
Definition lines_new (x : text) : text := Text.T "$another".
Example C55_folding_example :
  Document (ex_tree lines_ex) /\ Renames lines_new (ex_tree lines_ex) /\ gtext (ex_tree lines_ex) = lines_ex
  /\ folding_range lines_ex = Ans [((0, 0), (2, 13)); ((1, 2), (2, 12))]
  /\ folding_range (gtext (with_names lines_new (ex_tree lines_ex))) = Ans [((0, 0), (2, 19)); ((1, 2), (2, 18))].
Proof.
  split; [apply ThmComplete.documentb_ok; vm_compute; reflexivity|].
  split; [apply renames_by; vm_compute; reflexivity|]. vm_compute. auto.
Qed.
