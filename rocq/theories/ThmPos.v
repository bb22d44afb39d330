(** Properties C10, C11, C39, C40: positions and the token under the cursor. *)

From Coq Require Import String List NArith Bool Arith Lia.
From Verif Require Import Text Kind Green SpecParser Winnow Grammar Red Doc LineIndex Cursor ThmParser ThmTree.
Import ListNotations.

(** ** Specification of positions *)

(** Number of line feeds of a text. *)
Definition line_feeds (t : text) : nat := length (filter (N.eqb LF) t).

(** [PosOf width before l c]: the position after the text [before] is line
    [l], column [c]: [l] is the number of line feeds in [before], and [c] the
    width of what follows the last of them. *)
Definition PosOf (width : text -> nat) (before : text) (l c : nat) : Prop :=
  exists head line, before = head ++ line
    /\ ~ In LF line /\ (head = [] \/ exists h, head = h ++ [LF])
    /\ l = line_feeds before /\ c = width line.

Lemma newlines_count o t : length (newlines_from o t) = line_feeds t.
Proof.
  unfold line_feeds. revert o. induction t as [|c t IH]; intros o; cbn [newlines_from filter]; [reflexivity|].
  rewrite N.eqb_sym. destruct (N.eqb LF c); cbn [length]; now rewrite IH.
Qed.
Lemma line_feeds_app a b : line_feeds (a ++ b) = line_feeds a + line_feeds b.
Proof. unfold line_feeds. now rewrite filter_app, app_length. Qed.
Lemma line_feeds_none t : ~ In LF t -> line_feeds t = 0.
Proof.
  unfold line_feeds. induction t as [|c t IH]; intros H; cbn [filter]; [reflexivity|].
  destruct (N.eqb_spec LF c) as [<-|Hc]; [destruct H; now left|]. apply IH. intros Hi. apply H. now right.
Qed.

Lemma newlines_none o t : ~ In LF t -> newlines_from o t = [].
Proof.
  revert o. induction t as [|c t IH]; intros o H; cbn [newlines_from]; [reflexivity|].
  destruct (N.eqb_spec c LF) as [->|Hc]; [destruct H; now left|].
  apply IH. intros Hi. apply H. now right.
Qed.

Lemma posof_fun w before l c l' c' : PosOf w before l c -> PosOf w before l' c' -> l = l' /\ c = c'.
Proof.
  intros (h & t & E & Ht & Hh & -> & ->) (h' & t' & E' & Ht' & Hh' & -> & ->).
  split; [reflexivity|]. f_equal.
  assert (Hx : forall a b x y, a ++ x = b ++ y -> ~ In LF x -> ~ In LF y ->
    (a = [] \/ exists a', a = a' ++ [LF]) -> (b = [] \/ exists b', b = b' ++ [LF]) -> x = y).
  { clear. intros a b x y H Hx Hy Ha Hb. apply (f_equal (@rev N)) in H. rewrite !rev_app_distr in H.
    assert (rev x = rev y) as E; [|now rewrite <- (rev_involutive x), E, rev_involutive].
    assert (Hx' : ~ In LF (rev x)) by (now rewrite <- in_rev).
    assert (Hy' : ~ In LF (rev y)) by (now rewrite <- in_rev).
    assert (Ha' : rev a = [] \/ exists a', rev a = LF :: a').
    { destruct Ha as [->|(a' & ->)]; [now left|right]. rewrite rev_app_distr. cbn. eauto. }
    assert (Hb' : rev b = [] \/ exists b', rev b = LF :: b').
    { destruct Hb as [->|(b' & ->)]; [now left|right]. rewrite rev_app_distr. cbn. eauto. }
    revert H Hx' Hy' Ha' Hb'. generalize (rev x) (rev y) (rev a) (rev b). clear.
    induction l as [|c x IH]; intros [|d y] a b H Hx Hy Ha Hb; cbn [app] in H; auto.
    - exfalso. destruct Ha as [->|(a' & ->)]; [discriminate|]. injection H as <- _. apply Hy. now left.
    - exfalso. destruct Hb as [->|(b' & ->)]; [discriminate|]. injection H as -> _. apply Hx. now left.
    - injection H as -> H. f_equal. eapply IH; eauto; intros Hi; [apply Hx|apply Hy]; now right. }
  eapply Hx; [rewrite <- E; exact E'|..]; assumption.
Qed.

Lemma posof_ex w before : exists l c, PosOf w before l c.
Proof.
  exists (line_feeds before).
  induction before as [|c t IH] using rev_ind.
  - exists (w []), [], []. cbn. repeat split; auto.
  - destruct (N.eq_dec c LF) as [->|Hc].
    + exists (w []), (t ++ [LF]), []. rewrite app_nil_r. repeat split; auto. right. eauto.
    + destruct IH as (k & h & line & -> & Hl & Hh & _ & _).
      exists (w (line ++ [c])), h, (line ++ [c]). rewrite app_assoc. repeat split; auto.
      rewrite in_app_iff. intros [H|[H|[]]]; [now apply Hl|congruence].
Qed.

Lemma line_col_posof a b l c :
  PosOf tlen a l c -> line_col (new_line_index (a ++ b)) (tlen a) = Some (l, c).
Proof.
  intros (h & t & -> & Ht & Hh & -> & ->). unfold line_col, new_line_index. cbn [li_len newlines].
  rewrite (tlen_app (h ++ t) b). destruct (Nat.ltb_spec (tlen (h ++ t) + tlen b) (tlen (h ++ t))); [lia|].
  rewrite newlines_app, Nat.add_0_l.
  rewrite partition_all; cycle 1.
  { intros x Hx. apply newlines_gt in Hx. lia. }
  { intros x Hx. apply newlines_gt in Hx. lia. }
  rewrite newlines_count. unfold start_offset. cbn [newlines].
  destruct Hh as [->|(h' & ->)].
  - cbn [app]. assert (E : line_feeds t = 0) by (now apply line_feeds_none).
    rewrite E. now rewrite Nat.sub_0_r.
  - rewrite newlines_app, (newlines_none _ t) by assumption. rewrite app_nil_r.
    rewrite newlines_app. cbn [newlines_from]. rewrite N.eqb_refl.
    rewrite !line_feeds_app. assert (line_feeds t = 0) as -> by (now apply line_feeds_none).
    assert (line_feeds [LF] = 1) as -> by reflexivity.
    replace (line_feeds h' + 1 + 0) with (S (line_feeds h')) by lia.
    rewrite <- app_assoc. rewrite nth_error_app2 by (rewrite newlines_count; lia).
    rewrite newlines_count, Nat.sub_diag. cbn [nth_error app].
    f_equal. f_equal. rewrite !tlen_app. cbn [tlen]. lia.
Qed.

(** ** C10 *)

(** The position reported for an offset is its line and (byte) column. *)
Theorem C10_position src before after l c :
  src = before ++ after ->
  (line_col (new_line_index src) (tlen before) = Some (l, c) <-> PosOf tlen before l c).
Proof.
  intros ->. split.
  - intros H. destruct (posof_ex tlen before) as (l' & c' & H'). pose proof (line_col_posof _ after _ _ H') as E.
    rewrite E in H. injection H as <- <-. exact H'.
  - apply line_col_posof.
Qed.

(** Offset to position and back; conversion fails only past the end. *)
Theorem C10_offset_roundtrip src o :
  o <= tlen src ->
  exists p, line_col (new_line_index src) o = Some p /\ offset (new_line_index src) p = Some o.
Proof. intros H. destruct (line_col_total src o H) as (l & c & H1 & H2). eauto. Qed.

Theorem C10_fails_only_past_end src o :
  line_col (new_line_index src) o = None <-> tlen src < o.
Proof. apply line_col_none. Qed.

(** Positions that exist in the document: position to offset and back. *)
Theorem C10_position_roundtrip src before after p :
  src = before ++ after -> PosOf tlen before (fst p) (snd p) ->
  offset (new_line_index src) p = Some (tlen before)
  /\ line_col (new_line_index src) (tlen before) = Some p.
Proof.
  intros -> H. destruct p as [l c]. cbn [fst snd] in H. apply (line_col_posof _ after) in H. split; [|exact H].
  destruct (line_col_total (before ++ after) (tlen before)) as (l' & c' & E & F).
  - rewrite tlen_app. lia.
  - rewrite E in H. injection H as <- <-. exact F.
Qed.

Theorem C10_monotone src o1 o2 p1 p2 :
  line_col (new_line_index src) o1 = Some p1 -> line_col (new_line_index src) o2 = Some p2 ->
  (o1 < o2 <-> pos_lt p1 p2).
Proof.
  intros H1 H2. split; [now apply (line_col_mono src)|].
  intros H. destruct (Nat.lt_trichotomy o1 o2) as [Ho|[->|Ho]]; [exact Ho| |].
  - rewrite H1 in H2. injection H2 as <-. unfold pos_lt in H. lia.
  - apply (line_col_mono _ _ _ _ _ H2 H1) in Ho. unfold pos_lt in *. lia.
Qed.
Print Assumptions C10_position.
Print Assumptions C10_offset_roundtrip.
Print Assumptions C10_fails_only_past_end.
Print Assumptions C10_position_roundtrip.
Print Assumptions C10_monotone.

(** A column past the end of its line does not stay on the line: the result
    is an offset on a later line (the protocol asks for the end of the line). *)
Theorem C10_column_past_end_refuted :
  ~ forall src l c o p, offset (new_line_index src) (l, c) = Some o ->
      line_col (new_line_index src) o = Some p -> fst p = l.
Proof.
  intros H. specialize (H [LF; LF] 0 1 1 (1, 0) eq_refl eq_refl). discriminate.
Qed.
Print Assumptions C10_column_past_end_refuted.

Definition two_lines : text := T "(module" ++ [LF] ++ T "  (func))".
Example C10_sample :
  two_lines = (T "(module" ++ [LF] ++ T "  (") ++ T "func))"
  /\ PosOf tlen (T "(module" ++ [LF] ++ T "  (") 1 3
  /\ line_col (new_line_index two_lines) 11 = Some (1, 3)
  /\ offset (new_line_index two_lines) (1, 3) = Some 11.
Proof.
  split; [reflexivity|]. split; [|split; vm_compute; reflexivity].
  exists (T "(module" ++ [LF]), (T "  ("). split; [reflexivity|]. split.
  - cbn. intros [H|[H|[H|[]]]]; discriminate.
  - split; [right; eexists; reflexivity|]. split; reflexivity.
Qed.

(** ** C11 *)

Definition ascii_char (c : char) : Prop := (c < 128)%N.

Lemma utf_len_le c : utf16_len c <= utf8_len c /\ (utf16_len c = utf8_len c <-> ascii_char c).
Proof.
  unfold utf16_len, utf8_len, ascii_char.
  destruct (N.ltb_spec c 128), (N.ltb_spec c 2048), (N.ltb_spec c 65536); split; try lia; split; try lia.
Qed.
Lemma tlen16_le t : tlen16 t <= tlen t /\ (tlen16 t = tlen t <-> Forall ascii_char t).
Proof.
  induction t as [|c t [IH1 IH2]]; cbn [tlen tlen16].
  - repeat split; auto.
  - destruct (utf_len_le c) as [H1 H2]. split; [lia|]. split.
    + intros H. constructor; [apply H2; lia|apply IH2; lia].
    + intros H. inversion H; subst. apply H2 in H4. apply IH2 in H5. lia.
Qed.

(** The reported line is always the protocol's line; the reported column is
    the protocol's column (UTF-16 code units) exactly when the characters
    before it on its line are all ASCII, and otherwise it is too large. *)
Theorem C11_reported_column src before after l c l16 c16 :
  src = before ++ after ->
  line_col (new_line_index src) (tlen before) = Some (l, c) ->
  PosOf tlen16 before l16 c16 ->
  l = l16 /\ c16 <= c
  /\ forall head line, before = head ++ line -> ~ In LF line ->
       (head = [] \/ exists h, head = h ++ [LF]) ->
       (c = c16 <-> Forall ascii_char line).
Proof.
  intros E H H16. rewrite (C10_position src before after l c E) in H.
  pose proof H as (h & t & Eb & Ht & Hh & -> & ->).
  assert (H16' : PosOf tlen16 before (line_feeds before) (tlen16 t)).
  { exists h, t. repeat split; auto. }
  destruct (posof_fun _ _ _ _ _ _ H16 H16') as [-> ->].
  split; [reflexivity|]. split; [apply tlen16_le|].
  intros h2 t2 Eb2 Ht2 Hh2.
  assert (t2 = t) as ->.
  { assert (A : PosOf (@length N) before (line_feeds before) (length t)) by (exists h, t; repeat split; auto).
    assert (B : PosOf (@length N) before (line_feeds before) (length t2)) by (exists h2, t2; repeat split; auto).
    destruct (posof_fun _ _ _ _ _ _ A B) as [_ L].
    rewrite Eb in Eb2. assert (length h = length h2) by (apply (f_equal (@length N)) in Eb2; rewrite !app_length in Eb2; lia).
    clear -Eb2 L H0. revert h2 Eb2 H0. induction h as [|x h IH]; intros [|y h2] E H; cbn in *; try lia; auto.
    injection E as _ E. apply (IH h2); auto. }
  split; intros X; [apply tlen16_le; lia|]. symmetry. now apply tlen16_le.
Qed.
Print Assumptions C11_reported_column.

Theorem C11_utf16_refuted :
  ~ forall src before after l c, src = before ++ after ->
      line_col (new_line_index src) (tlen before) = Some (l, c) -> PosOf tlen16 before l c.
Proof.
  intros H. specialize (H [233%N] [233%N] [] 0 2 eq_refl eq_refl).
  assert (H1 : PosOf tlen16 [233%N] 0 1).
  { exists [], [233%N]. repeat split; auto. intros [E|[]]. discriminate. }
  destruct (posof_fun _ _ _ _ _ _ H H1) as [_ E]. discriminate.
Qed.
Print Assumptions C11_utf16_refuted.

Example C11_sample : exists before after,
  [233%N; 40%N] = before ++ after
  /\ line_col (new_line_index [233%N; 40%N]) (tlen before) = Some (0, 2) /\ PosOf tlen16 before 0 1.
Proof.
  exists [233%N], [40%N]. split; [reflexivity|]. split; [reflexivity|].
  exists [], [233%N]. repeat split; auto. intros [E|[]]. discriminate.
Qed.

(** ** C40: the token under the cursor *)

(** [Touch tree x t]: token [t] of the tree is not empty and the offset [x]
    lies in it or at one of its ends. *)
Definition Touch (tree : green) (x : nat) (t : elem) : Prop :=
  InTree tree t /\ is_node t = false /\ estart t < eend t /\ estart t <= x <= eend t.
(** White space, comments and parentheses. *)
Definition Insignificant (t : elem) : Prop :=
  In (ekind t) [WHITESPACE; LINE_COMMENT; BLOCK_COMMENT; L_PAREN; R_PAREN].

Lemma insignificant_spec t : is_trivia t || is_punc t = true <-> Insignificant t.
Proof.
  unfold Insignificant, is_trivia, is_punc.
  destruct (ekind t); cbn; split; intros H; try discriminate; try tauto; intuition discriminate.
Qed.
Lemma insignificant_spec_f t : is_trivia t || is_punc t = false <-> ~ Insignificant t.
Proof.
  rewrite <- insignificant_spec. destruct (is_trivia t || is_punc t); split; intros H; try discriminate; auto.
  destruct H; reflexivity.
Qed.

Lemma root_node src : exists cs, tree_of src = Node ROOT cs.
Proof.
  unfold tree_of, parse. destruct (root false _); eauto.
Qed.

Theorem C40_token_at_offset src pos x t :
  offset (new_line_index src) pos = Some x -> x <= tlen (gtext (tree_of src)) ->
  (find_meaningful_token (new_line_index src) (root_of (tree_of src)) pos = Ans t
   <-> Touch (tree_of src) x t
       /\ (forall t', Touch (tree_of src) x t' -> t' <> t -> Insignificant t')
       /\ ((exists t', Touch (tree_of src) x t' /\ t' <> t) -> ~ Insignificant t)).
Proof.
  intros Hx Hl. set (tree := tree_of src) in *.
  destruct (root_node src) as (cs & Hroot). fold tree in Hroot.
  unfold find_meaningful_token. rewrite Hx. cbn [aopt abind].
  rewrite <- glen_tlen in Hl.
  assert (HT : forall t', Touch tree x t' <-> In t' (touching (root_of tree) x)).
  { intros t'. rewrite touching_spec. reflexivity. }
  destruct (Nat.eq_dec (glen tree) 0) as [H0|H0].
  - assert (x = 0) as -> by lia.
    unfold token_at_offset. cbn [root_of el off ups]. assert (tao tree 0 [] 0 = TNone) as -> by (rewrite Hroot; apply tao_empty_node; now rewrite <- Hroot).
    split; [discriminate|]. intros [H _]. apply HT in H.
    unfold root_of in H. rewrite touching_empty in H by assumption. destruct H.
  - destruct (token_at_offset_ok tree 0 [] x) as [(t' & E1 & E2)|(l & r & E1 & E2 & E3 & E4 & E5)]; [lia|lia| |];
      fold (root_of tree) in *; rewrite E2.
    + split.
      * intros H. injection H as ->. split; [|split].
        -- apply HT. rewrite E1. now left.
        -- intros u Hu. apply HT in Hu. rewrite E1 in Hu. destruct Hu as [->|[]]. congruence.
        -- intros (u & Hu & Hn). apply HT in Hu. rewrite E1 in Hu. destruct Hu as [->|[]]. congruence.
      * intros [H _]. apply HT in H. rewrite E1 in H. destruct H as [->|[]]. reflexivity.
    + assert (Hlr : l <> r).
      { intros ->. assert (Hr : In r (touching (root_of tree) x)) by (rewrite E1; now left).
        apply touching_spec in Hr. lia. }
      assert (Tl : Touch tree x l) by (apply HT; rewrite E1; now left).
      assert (Tr : Touch tree x r) by (apply HT; rewrite E1; right; now left).
      split.
      * intros H. destruct (is_trivia l || is_punc l) eqn:El; destruct (is_trivia r || is_punc r) eqn:Er;
          cbn in H; try discriminate; injection H as <-.
        -- apply insignificant_spec in El. apply insignificant_spec_f in Er. split; [exact Tr|]. split.
           ++ intros u Hu Hn. apply HT in Hu. rewrite E1 in Hu. destruct Hu as [<-|[<-|[]]]; [exact El|congruence].
           ++ intros _. exact Er.
        -- apply insignificant_spec_f in El. apply insignificant_spec in Er. split; [exact Tl|]. split.
           ++ intros u Hu Hn. apply HT in Hu. rewrite E1 in Hu. destruct Hu as [<-|[<-|[]]]; [congruence|exact Er].
           ++ intros _. exact El.
      * intros (H1 & H2 & H3). apply HT in H1. rewrite E1 in H1. destruct H1 as [->|[->|[]]].
        -- specialize (H2 r Tr (not_eq_sym Hlr)). apply insignificant_spec in H2. rewrite H2.
           assert (H4 : ~ Insignificant t) by (apply H3; exists r; split; auto).
           apply insignificant_spec_f in H4. rewrite H4. reflexivity.
        -- specialize (H2 l Tl Hlr). apply insignificant_spec in H2. rewrite H2.
           assert (H4 : ~ Insignificant t) by (apply H3; exists l; split; auto).
           apply insignificant_spec_f in H4. rewrite H4. reflexivity.
Qed.
Print Assumptions C40_token_at_offset.

(** ** C39: positions sent by the client *)

(** Looking up the token at a position panics exactly when the position's
    offset lies past the end of the tree. *)
Theorem C39_lookup_panics_iff src pos :
  find_meaningful_token (new_line_index src) (root_of (tree_of src)) pos = Panics
  <-> exists x, offset (new_line_index src) pos = Some x /\ tlen (gtext (tree_of src)) < x.
Proof.
  set (tree := tree_of src). destruct (root_node src) as (cs & Hroot). fold tree in Hroot.
  unfold find_meaningful_token. rewrite <- glen_tlen.
  destruct (offset (new_line_index src) pos) as [x|]; cbn [aopt abind];
    [|split; [discriminate|intros (? & ? & _); discriminate]].
  destruct (Nat.le_gt_cases x (glen tree)) as [Hx|Hx].
  2:{ unfold token_at_offset. cbn [el off ups root_of]. rewrite tao_out by lia. split; eauto. }
  split.
  2:{ intros (x' & H & Hx'). injection H as <-. lia. }
  intros H. exfalso. destruct (Nat.eq_dec (glen tree) 0) as [H0|H0].
  - assert (x = 0) as -> by lia. unfold token_at_offset in H. cbn [root_of el off ups] in H.
    assert (E : tao tree 0 [] 0 = TNone) by (rewrite Hroot; apply tao_empty_node; now rewrite <- Hroot). rewrite E in H. discriminate.
  - destruct (token_at_offset_ok tree 0 [] x) as [(t & _ & E2)|(l & r & _ & E2 & _)]; [lia|lia| |];
      fold (root_of tree) in *; rewrite E2 in H; [discriminate|].
    destruct (is_trivia l || is_punc l), (is_trivia r || is_punc r); discriminate.
Qed.

(** So no position of a document without syntax errors makes it panic. *)
Theorem C39_safe_positions src before after l c :
  errs_of src = [] -> src = before ++ after -> PosOf tlen before l c ->
  find_meaningful_token (new_line_index src) (root_of (tree_of src)) (l, c) <> Panics.
Proof.
  intros He -> Hp H. apply C39_lookup_panics_iff in H as (x & Hx & Hl).
  destruct (C10_position_roundtrip (before ++ after) before after (l, c) eq_refl Hp) as [E _].
  rewrite E in Hx. injection Hx as <-.
  pose proof (parse_of (before ++ after)) as P. rewrite He in P.
  rewrite (C02_no_errors_lossless _ _ _ P), tlen_app in Hl. lia.
Qed.

(** In general it does: with a column past the end of the last line, and even
    with a position inside the document, in text the parser dropped (C03). *)
Theorem C39_no_panic_refuted :
  ~ forall src pos, find_meaningful_token (new_line_index src) (root_of (tree_of src)) pos <> Panics.
Proof.
  intros H. apply (H (T "(module)") (0, 9)). vm_compute. reflexivity.
Qed.
Theorem C39_document_positions_refuted :
  ~ forall src before after l c, src = before ++ after -> PosOf tlen before l c ->
      find_meaningful_token (new_line_index src) (root_of (tree_of src)) (l, c) <> Panics.
Proof.
  intros H. set (s := T "(module)" ++ [c_ff] ++ T "(module)").
  apply (H s s [] 0 (tlen s)); [now rewrite app_nil_r| |vm_compute; reflexivity].
  exists [], s. split; [reflexivity|]. split.
  - assert (N : existsb (N.eqb LF) s = false) by (vm_compute; reflexivity).
    intros Hi. assert (existsb (N.eqb LF) s = true); [|congruence].
    apply existsb_exists. exists LF. split; [exact Hi|apply N.eqb_refl].
  - split; [now left|]. split; [vm_compute|]; reflexivity.
Qed.

(** A reversed range sent by the client panics too; a correctly ordered range
    never does. *)
Theorem C39_range_panics_iff src a b :
  rowan_range (new_line_index src) a b = RangePanic
  <-> exists x y, offset (new_line_index src) a = Some x /\ offset (new_line_index src) b = Some y /\ y < x.
Proof.
  unfold rowan_range. destruct (offset _ a) as [x|].
  - destruct (offset _ b) as [y|].
    + destruct (Nat.leb_spec x y).
      * split; [discriminate|]. intros (x' & y' & H1 & H2 & H3). injection H1 as <-. injection H2 as <-. lia.
      * split; [eauto|reflexivity].
    + split; [discriminate|]. intros (? & ? & _ & ? & _). discriminate.
  - split; [destruct (offset _ b); discriminate|]. intros (? & ? & ? & _). discriminate.
Qed.
Print Assumptions C39_lookup_panics_iff.
Print Assumptions C39_safe_positions.
Print Assumptions C39_no_panic_refuted.
Print Assumptions C39_document_positions_refuted.
Print Assumptions C39_range_panics_iff.

Example C40_sample :
  match find_meaningful_token (new_line_index two_lines) (root_of (tree_of two_lines)) (1, 3) with
  | Ans t => text_eqb (etext t) (T "func") | _ => false end = true
  /\ errs_of two_lines = [].
Proof. split; vm_compute; reflexivity. Qed.
