(** Folding ranges (C24), selection ranges (C25), inlay hints (C28). *)

From Coq Require Import String List NArith Bool Arith Lia Sorted.
From Verif Require Import Text Kind Green SpecParser Lexer LexerFacts Winnow Grammar Sem Lossless Total
  Bounds Lang TokForm Shape ThmParser Red Unique LineIndex ThmTree Cursor ThmPos Doc Ast Binder Preorder SpecBinder BinderFacts
  BinderDefs Blocks Nav NavSpec NavFacts ThmNav RefFacts ThmRefs SymCases TokKinds InstrMeta Types Check CheckFacts
  CheckMsgs ThmDup SpecTypes SigFacts Features.
Import ListNotations.

Lemma F2_in_r {A B} (R : A -> B -> Prop) l l' y : Forall2 R l l' -> In y l' -> exists x, In x l /\ R x y.
Proof.
  induction 1 as [|x z l l' Hxz _ IH]; intros Hy; [destruct Hy|]. destruct Hy as [<-|Hy]; [exists x; cbn; auto|].
  destruct (IH Hy) as (x' & Hx & H'). exists x'. cbn. auto.
Qed.
Lemma F2_in_l {A B} (R : A -> B -> Prop) l l' x : Forall2 R l l' -> In x l -> exists y, In y l' /\ R x y.
Proof.
  induction 1 as [|z y l l' Hxz _ IH]; intros Hx; [destruct Hx|]. destruct Hx as [<-|Hx]; [exists y; cbn; auto|].
  destruct (IH Hx) as (y' & Hy & H'). exists y'. cbn. auto.
Qed.

Lemma token_nonempty src t : InTree (tree_of src) t -> is_node t = false -> estart t < eend t.
Proof.
  intros H N. unfold estart, eend. unfold is_node in N. destruct (el t) as [k x|k cs] eqn:E; [|discriminate].
  assert (x <> []).
  { apply (C07_tokens_nonempty _ _ _ _ k x (parse_of src)). apply Sub_token. apply Desc_Sub in H. cbn [el root_of] in H. now rewrite E in H. }
  cbn [glen]. apply tlen_pos in H0. lia.
Qed.

Lemma range_fun src e r r' : RangeOf src e r -> RangeOf src e r' -> r = r'.
Proof. intros [A B] [A' B']. destruct r, r'. cbn in *. congruence. Qed.
Lemma line_col_inj src a b p : line_col (new_line_index src) a = Some p -> line_col (new_line_index src) b = Some p -> a = b.
Proof.
  intros A B. destruct (Nat.lt_trichotomy a b) as [H|[H|H]]; [|exact H|];
    apply (line_col_mono src _ _ p p) in H; try assumption; unfold pos_lt in H; lia.
Qed.
Lemma range_inj src a b r : RangeOf src a r -> RangeOf src b r -> estart a = estart b /\ eend a = eend b.
Proof. intros [A B] [A' B']. split; eapply line_col_inj; eauto. Qed.
Definition pos_le (p q : nat * nat) : Prop := pos_lt p q \/ p = q.
Lemma line_col_le src a b p q : line_col (new_line_index src) a = Some p -> line_col (new_line_index src) b = Some q ->
  (a <= b <-> pos_le p q).
Proof.
  intros A B. unfold pos_le. split.
  - intros H. apply Nat.lt_eq_cases in H as [H|H]; [left; eapply line_col_mono; eauto|right; congruence].
  - intros [H|H]; [|subst; pose proof (line_col_inj _ _ _ _ A B); lia].
    apply (C10_monotone src a b p q A B) in H. lia.
Qed.

(** Elements of a tree are nested or apart. *)
Lemma sib_range tree p l ga m gb r : InTree tree p -> gchildren (el p) = l ++ ga :: m ++ gb :: r ->
  eend (mk_elem ga (off p + glens l) (mk_up (el p) (off p) (length l) :: ups p))
  <= estart (mk_elem gb (off p + glens (l ++ ga :: m)) (mk_up (el p) (off p) (length (l ++ ga :: m)) :: ups p)).
Proof. intros _ _. unfold eend, estart. cbn. rewrite glens_app, glens_cons. lia. Qed.
Lemma nested_or_apart tree a b : InTree tree a -> InTree tree b ->
  Desc a b \/ Desc b a \/ eend a <= estart b \/ eend b <= estart a.
Proof.
  intros Ha Hb. destruct (Desc_cases tree a b Ha Hb) as [H|[H|H]]; [now left|right; now left|].
  destruct H as (p & l & ga & m & gb & r & ca & cb & Tp & E & -> & -> & [[D1 D2]|[D1 D2]]);
    pose proof (sib_range tree p l ga m gb r Tp E); apply Desc_range in D1, D2; right; right; lia.
Qed.

(** ** C24 *)

(** The node starts with its own keyword or parenthesis. *)
Definition opens (n : elem) : Prop :=
  exists t, In t (children_with_tokens n) /\ is_node t = false /\ (ekind t = KEYWORD \/ ekind t = L_PAREN).
Definition lines_differ (r : range) : Prop := fst (fst r) <> fst (snd r).
(** One range is inside the other, or they are apart. *)
Definition encloses (a b : range) : Prop := pos_le (fst a) (fst b) /\ pos_le (snd b) (snd a).
Definition apart (a b : range) : Prop := pos_le (snd a) (fst b) \/ pos_le (snd b) (fst a).

Definition opensb (n : elem) : bool :=
  match token n KEYWORD, token n L_PAREN with None, None => false | _, _ => true end.
Lemma token_ex n k : token n k <> None <-> exists t, In t (children_with_tokens n) /\ is_node t = false /\ ekind t = k.
Proof.
  split.
  - destruct (token n k) as [t|] eqn:E; [|congruence]. intros _. apply token_some in E as (A & B & C). eauto.
  - intros (t & A & B & C) E. unfold token in E. pose proof (find_none _ _ E t A) as H. cbn in H.
    rewrite B, C, kind_eqb_refl in H. discriminate.
Qed.
Lemma opens_iff n : opensb n = true <-> opens n.
Proof.
  unfold opensb, opens. split.
  - destruct (token n KEYWORD) as [t|] eqn:E.
    + intros _. apply token_some in E as (A & B & C). eauto 6.
    + destruct (token n L_PAREN) as [t|] eqn:E2; [|discriminate]. intros _. apply token_some in E2 as (A & B & C). eauto 6.
  - intros (t & A & B & [C|C]).
    + destruct (token n KEYWORD) eqn:E; [reflexivity|]. exfalso.
      apply (proj2 (token_ex n KEYWORD)); [eauto|exact E].
    + destruct (token n KEYWORD); [reflexivity|]. destruct (token n L_PAREN) eqn:E; [reflexivity|]. exfalso.
      apply (proj2 (token_ex n L_PAREN)); [eauto|exact E].
Qed.

Definition multi (src : text) (n : elem) : bool :=
  match range_of src n with Ans r => negb (Nat.eqb (fst (fst r)) (fst (snd r))) | _ => false end.

Lemma folding_nodes src l : (forall n, In n l -> InTree (tree_of src) n) ->
  exists ls, map_ans (folding_of src) l = Ans ls
    /\ Forall2 (RangeOf src) (filter (fun n => opensb n && multi src n) l) (concat ls).
Proof.
  induction l as [|n l IH]; intros H; [exists []; split; [reflexivity|constructor]|].
  destruct IH as (ls & E & F); [intros; apply H; now right|].
  destruct (range_of_ok src n) as (r & Er & Hr); [apply H; now left|].
  cbn [map_ans filter]. rewrite E. unfold folding_of, opensb, multi. rewrite Er.
  destruct (token n KEYWORD); [|destruct (token n L_PAREN)]; cbn [abind andb].
  all: try (destruct (Nat.eqb (fst (fst r)) (fst (snd r))) eqn:Eq; cbn [negb]; eexists; (split; [reflexivity|]); cbn [concat app]; [exact F|constructor; [exact Hr|exact F]]).
  eexists. split; [reflexivity|]. cbn [concat app]. exact F.
Qed.

(** Two nodes with tokens of their own have different ranges. *)
Lemma opens_range_inj src a b : InTree (tree_of src) a -> InTree (tree_of src) b -> is_node a = true -> is_node b = true ->
  opens a -> opens b -> estart a = estart b -> eend a = eend b -> a = b.
Proof.
  assert (Hone : forall a b, InTree (tree_of src) a -> Desc a b -> opens a -> is_node b = true ->
            estart a = estart b -> eend a = eend b -> a = b).
  { clear a b. intros a b Ta D (t & Ht & Nt & _) Nb Es Ee. apply Desc_top in D as [D|(c & Hc & D)]; [exact D|]. exfalso.
    assert (Tt : InTree (tree_of src) t) by exact (Desc_step _ _ _ Ta Ht).
    pose proof (token_nonempty src t Tt Nt) as L.
    assert (Tc : InTree (tree_of src) c) by exact (Desc_step _ _ _ Ta Hc).
    destruct (nested_or_apart (tree_of src) t c Tt Tc) as [H|[H|H]].
    - apply Desc_top in H as [H|(d & Hd & _)].
      + subst. apply Desc_top in D as [D|(d & Hd & _)]; [congruence|].
        unfold children_with_tokens in Hd. unfold is_node in Nt. destruct (el c); [destruct Hd|discriminate].
      + unfold children_with_tokens in Hd. unfold is_node in Nt. destruct (el t); [destruct Hd|discriminate].
    - apply Desc_top in H as [H|(d & Hd & Dd)].
      + subst. apply Desc_top in D as [D|(d & Hd & _)]; [congruence|].
        unfold children_with_tokens in Hd. unfold is_node in Nt. destruct (el t); [destruct Hd|discriminate].
      + apply Desc_ancestors in Dd. pose proof (ancestors_child _ _ Ht) as E. rewrite E in Dd.
        destruct Dd as [<-|Dd].
        * pose proof (parent_child _ _ Hd) as P1. pose proof (parent_child _ _ Ht) as P2. rewrite P1 in P2. injection P2 as ->.
          pose proof (parent_child _ _ Hc) as P3. unfold parent in P3. destruct a as [g o us]. cbn in P3.
          destruct us as [|u us]; [discriminate|]. injection P3 as _ _ E3.
          assert (length us = length (u :: us)) by (rewrite E3 at 1; reflexivity). cbn in H. lia.
        * destruct (ancestors_Desc (tree_of src) _ _ Ta Dd) as [_ D2].
          assert (D3 : Desc c a) by (eapply Desc_trans; [econstructor; [constructor|exact Hd]|exact D2]).
          apply Desc_ancestors in D3. pose proof (ancestors_child _ _ Hc) as E2.
          pose proof (ancestors_nodup c) as ND. rewrite E2 in ND. inversion ND; subst. contradiction.
    - apply child_range in Ht, Hc. apply Desc_range in D. lia. }
  intros Ta Tb Na Nb Oa Ob Es Ee. destruct (nested_or_apart (tree_of src) a b Ta Tb) as [H|[H|H]].
  - now apply Hone.
  - symmetry. now apply Hone.
  - destruct Oa as (t & Ht & Nt & _). assert (Tt : InTree (tree_of src) t) by exact (Desc_step _ _ _ Ta Ht).
    pose proof (token_nonempty src t Tt Nt). apply child_range in Ht. lia.
Qed.

Theorem C24_folding src :
  exists rs, folding_range src = Ans rs
    /\ (forall r, In r rs <-> exists n, InTree (tree_of src) n /\ is_node n = true /\ opens n
                                /\ RangeOf src n r /\ lines_differ r)
    /\ NoDup rs
    /\ (forall r r', In r rs -> In r' rs -> encloses r r' \/ encloses r' r \/ apart r r').
Proof.
  destruct (folding_nodes src (descendants (root_of (tree_of src)))) as (ls & E & F).
  { intros n Hn. now apply in_descendants in Hn. }
  exists (concat ls). unfold folding_range. rewrite E. split; [reflexivity|].
  set (ns := filter (fun n => opensb n && multi src n) (descendants (root_of (tree_of src)))) in *.
  assert (Hns : forall n, In n ns <-> InTree (tree_of src) n /\ is_node n = true /\ opens n /\ multi src n = true).
  { intros n. unfold ns. rewrite filter_In, in_descendants, andb_true_iff, opens_iff. tauto. }
  assert (Hin : forall r, In r (concat ls) <-> exists n, InTree (tree_of src) n /\ is_node n = true /\ opens n
                                /\ RangeOf src n r /\ lines_differ r).
  { intros r. split.
    - intros H. destruct (F2_in_r _ _ _ _ F H) as (n & Hn & Hr). apply Hns in Hn as (T & N & O & M).
      exists n. repeat (split; [assumption|]). unfold multi in M. destruct (range_of_ok src n T) as (r' & Er & Hr').
      rewrite Er in M. assert (r' = r) by (eapply range_fun; eauto). subst.
      apply negb_true_iff, Nat.eqb_neq in M. exact M.
    - intros (n & T & N & O & Hr & L).
      assert (Hn : In n ns).
      { apply Hns. repeat (split; [assumption|]). unfold multi. destruct (range_of_ok src n T) as (r' & -> & Hr').
        assert (r' = r) by (eapply range_fun; eauto). subst. now apply negb_true_iff, Nat.eqb_neq. }
      destruct (F2_in_l _ _ _ _ F Hn) as (r' & H & Hr'). assert (r' = r) by (eapply range_fun; eauto). now subst. }
  split; [exact Hin|]. split.
  - assert (ND : NoDup ns) by (unfold ns; apply NoDup_filter, descendants_nodup).
    clear Hin. clearbody ns. revert Hns ND. generalize (concat ls) as rs, F. clear. 
    intros rs F Hns ND. assert (Hns' : forall n, In n ns -> InTree (tree_of src) n /\ is_node n = true /\ opens n) by (intros n Hn; apply Hns in Hn; tauto).
    clear Hns. revert Hns' ND. induction F as [|n r ns rs Hr F IH]; intros Hns ND; constructor.
    + intros Hin. destruct (F2_in_r _ _ _ _ F Hin) as (n' & Hn' & Hr').
      destruct (range_inj _ _ _ _ Hr Hr') as [E1 E2]. inversion ND; subst.
      destruct (Hns n) as (T & N & O); [now left|]. destruct (Hns n') as (T' & N' & O'); [now right|].
      assert (n = n') by (eapply opens_range_inj; eauto). subst. contradiction.
    + inversion ND; subst. apply IH; [intros; apply Hns; now right|assumption].
  - intros r r' Hr Hr'. apply Hin in Hr as (n & T & N & O & [A B] & L). apply Hin in Hr' as (n' & T' & N' & O' & [A' B'] & L').
    unfold encloses, apart.
    destruct (nested_or_apart (tree_of src) n n' T T') as [H|[H|[H|H]]].
    + apply Desc_range in H. left. split; [eapply (line_col_le src (estart n) (estart n'))|eapply (line_col_le src (eend n') (eend n))]; eauto; lia.
    + apply Desc_range in H. right. left. split; [eapply (line_col_le src (estart n') (estart n))|eapply (line_col_le src (eend n) (eend n'))]; eauto; lia.
    + right. right. left. eapply (line_col_le src (eend n) (estart n')); eauto.
    + right. right. right. eapply (line_col_le src (eend n') (estart n)); eauto.
Qed.
Print Assumptions C24_folding.

(** ** C25 *)

(** The selection at a token: the range of the token, then of every node
    around it. *)
Definition SelectionOf (src : text) (t : elem) (sel : list range) : Prop :=
  Forall2 (RangeOf src) (ancestors t) sel.
(** What the cursor is on at a position, if anything. *)
Definition Found (src : text) (p : nat * nat) (o : option elem) : Prop :=
  match o with
  | Some t => CursorOn src p t
  | None => find_meaningful_token (new_line_index src) (root_of (tree_of src)) p = NoAns
  end.
Definition present {A} (l : list (option A)) : list A :=
  flat_map (fun o => match o with Some x => [x] | None => [] end) l.

Lemma parent_ranges_ok src e : InTree (tree_of src) e ->
  exists rs, parent_ranges src (ups e) = Ans rs /\ Forall2 (RangeOf src) (ancestors_of (ups e)) rs.
Proof.
  intros H. induction H as [|p c Hp IH Hc].
  - exists []. split; [reflexivity|constructor].
  - apply child_in in Hc as (l & g & r & _ & ->). cbn [ups]. destruct IH as (rs & E & F).
    cbn [parent_ranges ancestors_of]. cbn [u_green u_off].
    assert (Ep : mk_elem (el p) (off p) (ups p) = p) by (destruct p; reflexivity). rewrite Ep.
    destruct (range_of_ok src p Hp) as (r0 & -> & Hr). cbn [abind]. rewrite E. cbn [abind].
    eexists. split; [reflexivity|]. constructor; assumption.
Qed.
Lemma cursor_in src pos t : CursorOn src pos t -> InTree (tree_of src) t /\ is_node t = false.
Proof. intros H. apply meaningful_in in H as (x & _ & (T & N) & _). auto. Qed.

Lemma selection_at_spec src p : (exists o, Found src p o) ->
  forall sels, selection_at src p = Ans sels <->
    exists o, Found src p o /\ Forall2 (SelectionOf src) (present [o]) sels.
Proof.
  intros Hex sels. unfold selection_at, cursor_token.
  destruct (find_meaningful_token (new_line_index src) (root_of (tree_of src)) p) as [t| |] eqn:E.
  - destruct (cursor_in src p t E) as [T N]. destruct (range_of_ok src t T) as (r & -> & Hr).
    destruct (parent_ranges_ok src t T) as (rs & -> & Hrs). cbn [abind]. split.
    + intros H. injection H as <-. exists (Some t). split; [exact E|]. cbn. constructor; [|constructor].
      unfold SelectionOf, ancestors. now constructor.
    + intros (o & Ho & F). unfold Found in Ho. destruct o as [t'|]; [|congruence].
      unfold CursorOn in Ho. rewrite E in Ho. injection Ho as <-. cbn in F.
      inversion F as [|a b c d F1 F2]; subst. inversion F2; subst.
      unfold SelectionOf, ancestors in F1. inversion F1 as [|a b' c d' G1 G2]; subst.
      assert (b' = r) as -> by (eapply range_fun; eauto). do 3 f_equal.
      clear -G2 Hrs. revert rs Hrs. induction G2; intros rs Hrs; inversion Hrs; subst; [reflexivity|]. f_equal; [eapply range_fun; eauto|auto].
  - split.
    + intros H. injection H as <-. exists None. split; [exact E|constructor].
    + intros (o & Ho & F). unfold Found in Ho. destruct o as [t'|]; [unfold CursorOn in Ho; congruence|]. now inversion F.
  - destruct Hex as (o & Ho). unfold Found in Ho. destruct o; [unfold CursorOn in Ho|]; congruence.
Qed.

(** The answer lists the selections at those positions where the cursor is on
    a token, in the order of the positions; there is an answer unless looking
    up a position panics (C39). *)
Theorem C25_exact src ps sels :
  selection_range src ps = Ans sels <->
  exists os, Forall2 (Found src) ps os /\ Forall2 (SelectionOf src) (present os) sels.
Proof.
  unfold selection_range. revert sels. induction ps as [|p ps IH]; intros sels.
  - cbn [map_ans abind concat]. split.
    + intros H. injection H as <-. exists []. split; constructor.
    + intros (os & F & G). inversion F; subst. inversion G; subst. reflexivity.
  - cbn [map_ans]. split.
    + intros H. destruct (selection_at src p) as [s| |] eqn:E; cbn [abind] in H; try discriminate.
      destruct (map_ans (selection_at src) ps) as [ss| |] eqn:E2; cbn [abind concat] in H; try discriminate. injection H as <-.
      assert (Hex : exists o, Found src p o).
      { unfold selection_at, cursor_token in E. destruct find_meaningful_token as [t| |] eqn:C; [exists (Some t)|exists None|discriminate]; exact C. }
      apply (selection_at_spec src p Hex) in E as (o & Ho & F).
      destruct (proj1 (IH (concat ss))) as (os & G1 & G2); [reflexivity|].
      exists (o :: os). split; [now constructor|]. change (present (o :: os)) with (present ([o] ++ os)).
      unfold present. rewrite flat_map_app. apply Forall2_app; assumption.
    + intros (os & F & G). inversion F as [|a o b os' F1 F2]; subst.
      change (present (o :: os')) with (present ([o] ++ os')) in G. unfold present in G. rewrite flat_map_app in G.
      apply Forall2_app_inv_l in G as (s1 & s2 & G1 & G2 & ->).
      assert (E : selection_at src p = Ans s1) by (apply selection_at_spec; eauto).
      rewrite E. cbn [abind]. assert (X : abind (map_ans (selection_at src) ps) (fun l => Ans (concat l)) = Ans s2) by (apply IH; eauto).
      destruct (map_ans (selection_at src) ps) as [ss| |]; cbn [abind] in X |- *; try discriminate. injection X as <-. reflexivity.
Qed.

Lemma ancestors_of_in src e : InTree (tree_of src) e -> forall a, In a (ancestors e) -> InTree (tree_of src) a /\ Desc a e.
Proof. intros T a H. now apply (ancestors_Desc (tree_of src)). Qed.

(** A selection: every range is inside the next one, the last one starts at
    the start of the document and, if there are no syntax errors, ends at its
    end, and all of them contain the place the cursor is at. *)
Theorem C25_nested src pos t sel x :
  CursorOn src pos t -> SelectionOf src t sel -> offset (new_line_index src) pos = Some x ->
  (forall i r r', nth_error sel i = Some r -> nth_error sel (S i) = Some r' -> encloses r' r)
  /\ (exists r, nth_error sel (pred (length sel)) = Some r /\ fst r = (0, 0)
        /\ (errs_of src = [] -> line_col (new_line_index src) (tlen src) = Some (snd r)))
  /\ (forall r, In r sel -> exists a b, offset (new_line_index src) (fst r) = Some a
        /\ offset (new_line_index src) (snd r) = Some b /\ a <= x <= b).
Proof.
  intros C S X. destruct (cursor_in src pos t C) as [T N].
  split; [|split].
  - unfold SelectionOf in S. revert sel S. clear C N. unfold InTree in T. induction T as [|p c Tp IH Hc]; intros sel S i r r' E E'.
    + cbn in S. inversion S as [|? ? ? ? ? S2]; subst. inversion S2; subst. destruct i as [|[|i]]; cbn in E'; discriminate.
    + rewrite (ancestors_child _ _ Hc) in S. inversion S as [|? r0 ? sel' R0 S']; subst.
      destruct i as [|i].
      * cbn in E, E'. injection E as <-. unfold ancestors in S'. inversion S' as [|? r1 ? sel'' R1 S'']; subst. cbn in E'. injection E' as <-.
        destruct R0 as [A B], R1 as [A' B']. apply child_range in Hc. unfold encloses.
        split; [eapply (line_col_le src (estart p) (estart c))|eapply (line_col_le src (eend c) (eend p))]; eauto; lia.
      * cbn in E, E'. exact (IH sel' S' i r r' E E').
  - assert (L : exists l, ancestors t = l ++ [root_of (tree_of src)]).
    { clear -T. induction T as [|p c Tp (l & E) Hc]; [now exists []|]. exists (c :: l). rewrite (ancestors_child _ _ Hc), E. reflexivity. }
    destruct L as (l & E). unfold SelectionOf in S. rewrite E in S. apply Forall2_app_inv_l in S as (s1 & s2 & S1 & S2 & ->).
    inversion S2 as [|? r ? ? R S3]; subst. inversion S3; subst. exists r.
    split; [|split].
    + rewrite app_length. cbn [length]. rewrite nth_error_app2 by lia. replace (pred (length s1 + 1) - length s1) with 0 by lia. reflexivity.
    + destruct R as [A _]. unfold estart in A. cbn in A. unfold line_col, new_line_index in A. cbn [li_len newlines] in A.
      destruct (Nat.ltb_spec (tlen src) 0); [lia|].
      assert (P : partition_le 0 (newlines_from 0 src) = 0).
      { destruct (newlines_from 0 src) as [|y ys] eqn:Ey; [reflexivity|]. cbn.
        assert (0 < y) by (apply (newlines_gt 0 src y); rewrite Ey; now left). destruct (Nat.leb_spec y 0); [lia|reflexivity]. }
      rewrite P in A. cbn in A. now injection A.
    + intros Er. destruct R as [_ B]. unfold eend in B. cbn in B.
      pose proof (parse_of src) as P. rewrite Er in P. apply C02_no_errors_lossless in P. rewrite glen_tlen, P in B. exact B.
  - intros r Hr. destruct (F2_in_r _ _ _ _ S Hr) as (a & Ha & A & B).
    destruct (ancestors_of_in src t T a Ha) as [Ta D]. apply in_tree_range in Ta as Ra.
    destruct (line_col_total src (estart a)) as (l1 & c1 & E1 & F1); [lia|].
    destruct (line_col_total src (eend a)) as (l2 & c2 & E2 & F2); [lia|].
    rewrite E1 in A. rewrite E2 in B. destruct r as [r1 r2]. cbn [fst snd] in *. injection A as A. injection B as B. exists (estart a), (eend a).
    split; [now rewrite <- A|]. split; [now rewrite <- B|].
    apply meaningful_in in C as (x' & X' & _ & Hx & _). rewrite X in X'. injection X' as <-.
    apply Desc_range in D. lia.
Qed.

(** One selection for every position, as the protocol asks: not so. *)
Theorem C25_one_per_position_refuted :
  ~ forall src ps sels, selection_range src ps = Ans sels -> length sels = length ps.
Proof.
  intros H. specialize (H (Text.T "( module)") [(0, 1); (0, 3)]).
  assert (X : exists sels, selection_range (Text.T "( module)") [(0, 1); (0, 3)] = Ans sels /\ length sels = 1).
  { eexists. split; [vm_compute; reflexivity|reflexivity]. }
  destruct X as (sels & E & L). apply H in E. rewrite L in E. discriminate.
Qed.
Print Assumptions C25_exact.
Print Assumptions C25_nested.
Print Assumptions C25_one_per_position_refuted.

(** ** C28 *)

(** A hint for offset [o] that reads [x], in the part of the document from
    [a] to [b]: the type of the local or global that an index names, and the
    name of a function at its end. *)
Inductive HintAt (src : text) (a b : nat) : nat -> text -> Prop :=
| Hint_local n w f d t :
    InTree (tree_of src) n -> is_node n = true -> a <= estart n -> eend n <= b ->
    Asks n ALocal -> Written n w -> in_func n f -> InTree (tree_of src) f ->
    local_target f w = Some d -> SlotType d t -> HintAt src a b (eend n) (show_valtype t)
| Hint_global n g t :
    InTree (tree_of src) n -> is_node n = true -> a <= estart n -> eend n <= b ->
    Asks n (AModule GlobalS) -> Means src n g -> GlobalType g t -> HintAt src a b (eend n) (show_valtype t)
| Hint_func m f c l t :
    InTree (tree_of src) m -> is_node m = true -> ekind m = MODULE -> In f (definitions_of FuncS m) ->
    token f IDENT = Some t -> children_with_tokens f = c ++ [l] -> a <= estart l -> eend l <= b ->
    HintAt src a b (eend l) (Text.T "(func " ++ etext t ++ Text.T ")").

Lemma line_col_inv src o p : line_col (new_line_index src) o = Some p -> offset (new_line_index src) p = Some o.
Proof.
  intros H. destruct (Nat.le_gt_cases o (tlen src)) as [Ho|Ho].
  - destruct (line_col_total src o Ho) as (l & c & E & F). rewrite E in H. now injection H as <-.
  - apply line_col_none in Ho. congruence.
Qed.
Lemma eend_in_tree src e : InTree (tree_of src) e -> exists p, line_col (new_line_index src) (eend e) = Some p.
Proof. intros T. destruct (range_of_ok src e T) as (r & _ & _ & B). eauto. Qed.

Lemma type_hint_spec src n s t : InTree (tree_of src) n -> s_key s = key_of n ->
  exists l, type_hint src s t = Ans l
    /\ forall h, In h l <-> exists v, t = Some v /\ line_col (new_line_index src) (eend n) = Some (fst h) /\ snd h = show_valtype v.
Proof.
  intros T K. unfold type_hint. destruct t as [v|].
  - destruct (eend_in_tree src n T) as (p & E). rewrite K. unfold pos_at. change (key_end (key_of n)) with (eend n). rewrite E. cbn [amust abind].
    eexists. split; [reflexivity|]. intros (p', x). cbn [In fst snd]. split.
    + intros [H|[]]. injection H as <- <-. exists v. auto.
    + intros (v' & H & H1 & ->). injection H as <-. injection H1 as <-. now left.
  - eexists. split; [reflexivity|]. intros h. split; [intros []|]. intros (v & H & _). discriminate.
Qed.

Lemma within_spec a b x y : within a b x y = true <-> a <= x /\ y <= b.
Proof. unfold within. rewrite andb_true_iff, !Nat.leb_le. tauto. Qed.

Lemma hd_rev {A} (l : list A) x : hd_error (rev l) = Some x <-> exists c, l = c ++ [x].
Proof.
  split.
  - intros H. destruct (rev l) as [|y r] eqn:E; [discriminate|]. injection H as ->.
    exists (rev r). rewrite <- (rev_involutive l), E. reflexivity.
  - intros (c & ->). now rewrite rev_app_distr.
Qed.

Lemma local_def_some src n s : InTree (tree_of src) n -> is_node n = true -> Asks n ALocal ->
  find_param_or_local_def (the_table src) (key_of n) = Some s ->
  exists w f, Written n w /\ enclosing [MODULE_FIELD_FUNC] n = Some f.
Proof.
  intros To No A Fd. unfold find_param_or_local_def in Fd. destruct (find_local_ref _ (key_of n)) as [r|] eqn:Fr; [|discriminate].
  unfold find_local_ref in Fr. apply find_some in Fr as [R1 R2]. apply andb_prop in R2 as [R2 R3].
  assert (R4 : is_ref_kind r = true) by (unfold is_ref_kind; destruct (s_kind r); try discriminate; reflexivity).
  apply key_eqb_eq in R3. destruct (ref_found src n r To No R1 R3 R4) as (a & w & f & A' & W & E & ->).
  pose proof (asks_fun n _ _ A A') as <-. eauto.
Qed.

(** The type shown for a use of a local. *)
Lemma local_hint_type src n t : InTree (tree_of src) n -> is_node n = true -> Asks n ALocal ->
  (match find_param_or_local_def (the_table src) (key_of n) with Some d => extract_type (s_green d) | None => None end = Some t
   <-> exists w f d, Written n w /\ in_func n f /\ InTree (tree_of src) f /\ local_target f w = Some d /\ SlotType d t).
Proof.
  intros To No A. split.
  - intros H. destruct (find_param_or_local_def _ _) as [s|] eqn:Fd; [|discriminate].
    destruct (local_def_some src n s To No A Fd) as (w & f & W & E).
    destruct (enclosing_kind src MODULE_FIELD_FUNC n f To No E) as (Tf & Nf & Kf & Df).
    rewrite (find_local_def_spec src n w f To No A W E) in Fd.
    destruct (find (slot_matches w) (enum 0 (locals_space f))) as [p|] eqn:Fp; [|discriminate]. injection Fd as <-.
    exists w, f, (snd p). cbn [slot_symbol s_green] in H.
    split; [exact W|]. split; [split; [exact Kf|split; [exact Nf|exact Df]]|]. split; [exact Tf|].
    split; [rewrite <- slot_find_target, Fp; reflexivity|].
    pose proof (find_enum_in w f p Fp) as Hp. rewrite locals_space_slots in Hp.
    destruct (slot_facts src f (snd p) Tf Kf Hp) as (Td & Nd & Kd & _). apply (slot_type src); auto. cbn in Kd |- *. intuition congruence.
  - intros (w & f & d & W & F & Tf & D & S).
    rewrite (find_local_def_spec src n w f To No A W (enclosing_func src n f To No F Tf)).
    rewrite <- slot_find_target in D. destruct (find (slot_matches w) (enum 0 (locals_space f))) as [p|] eqn:Fp; [|discriminate].
    cbn in D. injection D as <-. cbn [option_map slot_symbol s_green].
    pose proof (find_enum_in w f p Fp) as Hp. rewrite locals_space_slots in Hp.
    destruct (slot_facts src f (snd p) Tf (proj1 F) Hp) as (Td & Nd & Kd & _).
    apply (slot_type src); auto. cbn in Kd |- *. intuition congruence.
Qed.
(** The type shown for a use of a global. *)
Lemma global_hint_type src n t : InTree (tree_of src) n -> is_node n = true ->
  (match find_defs (the_table src) (key_of n) with Some (d :: _) => extract_global_type (s_green d) | _ => None end = Some t
   <-> exists g, Means src n g /\ GlobalType g t).
Proof.
  intros To No. assert (X : match find_defs (the_table src) (key_of n) with Some (d :: _) => extract_global_type (s_green d) | _ => None end
                          = match first_def (the_table src) n with Some d => extract_global_type (s_green d) | None => None end).
  { unfold first_def. destruct (find_defs _ _) as [[|? ?]|]; reflexivity. }
  rewrite X. clear X. split.
  - intros H. destruct (first_def _ n) as [s|] eqn:Fd; [|discriminate].
    destruct (first_def_some src n s To No Fd) as (g & M).
    destruct (first_def_means src n g To No M) as (s' & Fd' & Hs & Ks & Gs & Tg & _ & _). rewrite Fd in Fd'. injection Fd' as <-.
    exists g. split; [exact M|]. apply (global_type src g Tg). congruence.
  - intros (g & M & G). destruct (first_def_means src n g To No M) as (s & -> & Hs & Ks & Gs & Tg & _ & _).
    rewrite Gs. now apply (global_type src g Tg).
Qed.

Lemma hint_of_spec src a b s : In s (symbols (the_table src)) ->
  exists l, hint_of src (the_table src) a b s = Ans l
    /\ forall h, In h l -> exists o x, HintAt src a b o x /\ line_col (new_line_index src) o = Some (fst h) /\ snd h = x.
Proof.
  intros Hs. cbn [the_table symbols] in Hs. destruct (raw_cases src s Hs) as [m T N K ->|m so i d T N K Hd So ->|f i d T N K Hd ->|bl p T N B P ->|n q w e T N A W E ->];
    unfold hint_of.
  - cbn. eexists. split; [reflexivity|intros h []].
  - destruct so; cbn [def_symbol s_kind sort_kind s_key s_idx snd i_name]; try (eexists; split; [reflexivity|intros h []]).
    assert (Hin : In d (definitions m)).
    { apply in_enum in Hd as (j & Hj & _). cbn in Hj. now apply nth_error_In in Hj. }
    destruct (def_pointable src m d T Hin) as (Td & Nd & K1 & K2). rewrite (to_node_ok src d Td Nd K1 K2). cbn [amust abind].
    destruct (hd_error (rev (children_with_tokens d))) as [l|] eqn:L; [|eexists; split; [reflexivity|intros h []]].
    unfold ident_of. destruct (token d IDENT) as [t|] eqn:Tk; cbn [option_map]; [|eexists; split; [reflexivity|intros h []]].
    destruct (within a b (estart l) (eend l)) eqn:Wi; [|eexists; split; [reflexivity|intros h []]].
    apply within_spec in Wi as [W1 W2]. apply hd_rev in L as (c & L).
    assert (Tl : InTree (tree_of src) l). { apply (Desc_step _ d l Td). rewrite L. apply in_or_app. right. now left. }
    destruct (eend_in_tree src l Tl) as (p & Ep). unfold pos_at. rewrite Ep. cbn [amust abind].
    eexists. split; [reflexivity|]. intros h [<-|[]]. eexists _, _. split; [|cbn [fst snd]; split; [exact Ep|reflexivity]].
    apply (Hint_func src a b m d c l t); auto. unfold definitions_of. apply filter_In. split; [|exact So]. unfold definitions in Hin. now apply filter_In in Hin.
  - cbn [local_symbol slot_symbol s_kind fst]. unfold slot_kind. destruct (N.ltb i (N.of_nat (length (param_slots f)))); eexists; (split; [reflexivity|intros h []]).
  - cbn. eexists. split; [reflexivity|intros h []].
  - destruct q as [so| |]; [destruct so|..]; cbn [ref_sym s_kind ref_kind s_key]; try (eexists; split; [reflexivity|intros h []]);
      change (key_start (key_of n)) with (estart n); change (key_end (key_of n)) with (eend n).
    + destruct (within a b (estart n) (eend n)) eqn:Wi; [|eexists; split; [reflexivity|intros h []]]. apply within_spec in Wi as [W1 W2].
      destruct (find_defs (the_table src) (key_of n)) as [[|d l]|] eqn:FD; try (eexists; split; [reflexivity|intros h []]; fail).
      destruct (type_hint_spec src n (ref_sym n e (AModule GlobalS) w) (extract_global_type (s_green d)) T eq_refl) as (l' & E' & H').
      exists l'. split; [exact E'|]. intros h Hh. apply H' in Hh as (v & Hv & H1 & H2).
      exists (eend n), (show_valtype v). split; [|split; assumption].
      assert (X : match find_defs (the_table src) (key_of n) with Some (d :: _) => extract_global_type (s_green d) | _ => None end = Some v) by now rewrite FD.
      apply (global_hint_type src n v T N) in X as (g & M & G). eapply Hint_global; eauto.
    + destruct (within a b (estart n) (eend n)) eqn:Wi; [|eexists; split; [reflexivity|intros h []]]. apply within_spec in Wi as [W1 W2].
      destruct (find_param_or_local_def (the_table src) (key_of n)) as [d|] eqn:FD; try (eexists; split; [reflexivity|intros h []]; fail).
      destruct (type_hint_spec src n (ref_sym n e ALocal w) (extract_type (s_green d)) T eq_refl) as (l' & E' & H').
      exists l'. split; [exact E'|]. intros h Hh. apply H' in Hh as (v & Hv & H1 & H2).
      exists (eend n), (show_valtype v). split; [|split; assumption].
      assert (X : match find_param_or_local_def (the_table src) (key_of n) with Some d => extract_type (s_green d) | None => None end = Some v) by now rewrite FD.
      apply (local_hint_type src n v T N A) in X as (w' & f & d' & W' & F & Tf & D & S). eapply Hint_local; eauto.
Qed.

(** The hints for a range are those of the part of the document it
    delimits, and there always is an answer for a range that is one. *)
Theorem C28_exact src r a b :
  rowan_range (new_line_index src) (fst r) (snd r) = RangeOk a b ->
  exists hs, inlay_hint src r = Ans hs
    /\ forall p x, In (p, x) hs <-> exists o, HintAt src a b o x /\ line_col (new_line_index src) o = Some p.
Proof.
  intros R. unfold inlay_hint. destruct r as [r1 r2]. cbn [fst snd] in *. rewrite R, symbols_spec. cbn [abind].
  destruct (map_ans_total (hint_of src (the_table src) a b) (symbols (the_table src))) as (ls & E).
  { intros s Hs. destruct (hint_of_spec src a b s Hs) as (l & El & _). eauto. }
  rewrite E. cbn [abind]. eexists. split; [reflexivity|]. intros p x. rewrite (concat_among _ _ _ _ E). split.
  - intros (s & Hs & l & El & Hl). destruct (hint_of_spec src a b s Hs) as (l' & El' & H). rewrite El in El'. injection El' as <-.
    apply H in Hl as (o & x' & H1 & H2 & <-). eauto.
  - intros (o & H & Ep). destruct H as [n w f d t T N W1 W2 A W F Tf D S|n g t T N W1 W2 A M G|m f c l t T N K Hf Tk L W1 W2].
    + exists (ref_sym n f ALocal w). pose proof (enclosing_func src n f T N F Tf) as En. split; [cbn [the_table symbols]; apply raw_ref_in; assumption|].
      unfold among, hint_of. cbn [ref_sym s_kind ref_kind s_key]. change (key_start (key_of n)) with (estart n). change (key_end (key_of n)) with (eend n).
      rewrite (proj2 (within_spec a b (estart n) (eend n))) by auto.
      assert (X := proj2 (local_hint_type src n t T N A) (ex_intro _ w (ex_intro _ f (ex_intro _ d (conj W (conj F (conj Tf (conj D S)))))))).
      destruct (find_param_or_local_def _ _) as [s|]; [|discriminate]. rewrite X.
      destruct (type_hint_spec src n (mk_symbol (key_of n) (el n) (key_of f) SLocalRef (widx w)) (Some t) T eq_refl) as (l & El & Hl).
      exists l. split; [exact El|]. apply Hl. eauto.
    + pose proof M as (so & m & w & A' & W & Mi & Tm & _). pose proof (asks_fun n _ _ A A') as X. injection X as <-.
      exists (ref_sym n m (AModule GlobalS) w). pose proof (enclosing_module src n m T N Tm (proj1 (proj2 Mi)) (proj1 Mi) (proj2 (proj2 Mi))) as En. split; [cbn [the_table symbols]; apply raw_ref_in; assumption|].
      unfold among, hint_of. cbn [ref_sym s_kind ref_kind s_key]. change (key_start (key_of n)) with (estart n). change (key_end (key_of n)) with (eend n).
      rewrite (proj2 (within_spec a b (estart n) (eend n))) by auto.
      assert (X := proj2 (global_hint_type src n t T N) (ex_intro _ g (conj M G))).
      destruct (find_defs _ _) as [[|s l0]|]; try discriminate. rewrite X.
      destruct (type_hint_spec src n (mk_symbol (key_of n) (el n) (key_of m) SGlobalRef (widx w)) (Some t) T eq_refl) as (l & El & Hl).
      exists l. split; [exact El|]. apply Hl. eauto.
    + destruct (def_found src m FuncS f T N K Hf) as (i & Hi & So & Hs).
      exists (def_symbol m SFunc (i, f)). split; [exact Hs|]. unfold among, hint_of. cbn [def_symbol s_kind s_key s_idx snd i_name].
      assert (Hin : In f (definitions m)).
      { apply in_enum in Hi as (j & Hj & _). cbn in Hj. now apply nth_error_In in Hj. }
      destruct (def_pointable src m f T Hin) as (Td & Nd & K1 & K2). rewrite (to_node_ok src f Td Nd K1 K2). cbn [amust abind].
      rewrite (proj2 (hd_rev _ l)) by eauto. unfold ident_of. rewrite Tk. cbn [option_map].
      rewrite (proj2 (within_spec a b (estart l) (eend l))) by auto. unfold pos_at. rewrite Ep. cbn [amust abind].
      eexists. split; [reflexivity|now left].
Qed.

(** In particular, every hint is for a place in the range asked for. *)
Theorem C28_inside src r a b hs p x :
  rowan_range (new_line_index src) (fst r) (snd r) = RangeOk a b -> inlay_hint src r = Ans hs -> In (p, x) hs ->
  exists o, offset (new_line_index src) p = Some o /\ a <= o <= b.
Proof.
  intros R H Hin. destruct (C28_exact src r a b R) as (hs' & H' & X). rewrite H in H'. injection H' as <-.
  apply X in Hin as (o & Ho & E). exists o. split.
  - apply line_col_inv. exact E.
  - destruct Ho as [n w f d t T N W1 W2|n g t T N W1 W2|m f c l t T N K Hf Tk L W1 W2].
    + pose proof (in_tree_range src n T). lia.
    + pose proof (in_tree_range src n T). lia.
    + unfold definitions_of in Hf. apply filter_In in Hf as [Hf _]. apply in_descendants_of in Hf as [D _].
      assert (Tl : InTree (tree_of src) l).
      { apply (Desc_step _ f l). { eapply Desc_trans; eassumption. } rewrite L. apply in_or_app. right. now left. }
      pose proof (in_tree_range src l Tl). lia.
Qed.
Print Assumptions C28_exact.
Print Assumptions C28_inside.

(** Concrete cases. *)
Definition lines (l : list text) : text := concat (map (fun x => x ++ [LF]) l).
Definition ex_structure : text :=
  lines [Text.T "(module"; Text.T "  (global $g i64 (i64.const 0))"; Text.T "  (func $f (param $x i32)";
         Text.T "    (drop (local.get $x))"; Text.T "    (drop (global.get 0))))"].
Example C24_example :
  folding_range ex_structure = Ans [((0, 0), (4, 27)); ((2, 2), (4, 26))].
Proof. vm_compute. reflexivity. Qed.
Example C25_example :
  exists t sel, CursorOn ex_structure (3, 23) t /\ SelectionOf ex_structure t sel /\ length sel = 8
    /\ selection_range ex_structure [(3, 23)] = Ans [sel]
    /\ offset (new_line_index ex_structure) (3, 23) = Some 89.
Proof.
  assert (X : exists sel, selection_range ex_structure [(3, 23)] = Ans [sel] /\ length sel = 8).
  { eexists. split; [vm_compute; reflexivity|reflexivity]. }
  destruct X as (sel & E & L). pose proof (proj1 (C25_exact ex_structure [(3, 23)] [sel]) E) as (os & F & G).
  inversion F as [|? o ? os' F1 F2]; subst. inversion F2; subst. destruct o as [t|]; [|inversion G].
  cbn in G. inversion G; subst. exists t, sel. repeat (split; [assumption|]). vm_compute. reflexivity.
Qed.
Example C28_example :
  rowan_range (new_line_index ex_structure) (0, 0) (5, 0) = RangeOk 0 120
  /\ inlay_hint ex_structure ((0, 0), (5, 0))
     = Ans [((4, 26), Text.T "(func $f)"); ((3, 23), Text.T "i32"); ((4, 23), Text.T "i64")].
Proof. split; vm_compute; reflexivity. Qed.
