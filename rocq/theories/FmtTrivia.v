(** Pieces put after one another, and the pieces printed for the white space
    and comments after a child. *)

From Coq Require Import String List NArith Bool Arith Lia.
From Verif Require Import Text Kind Green SpecParser SpecSyntax SpecFormat Format FmtLang FmtPieces.
Import ListNotations.

(** ** Pieces *)

Definition lastp (l : list piece) : option piece := match rev l with p :: _ => Some p | [] => None end.
(** The last piece is not a line comment; it is no text but a block comment. *)
Definition closedp (l : list piece) : Prop :=
  match lastp l with Some (PT t) => cls_of t <> KLine | _ => True end.
Definition freeend (l : list piece) : Prop :=
  match lastp l with Some (PT t) => cls_of t = KBlock | _ => True end.
Definition blankstart (l : list piece) : Prop :=
  match l with PS :: _ | PN :: _ => True | _ => False end.
Definition linestart (l : list piece) : Prop := match l with PN :: _ => True | _ => False end.
Definition junction (a b : list piece) : Prop :=
  match lastp a with Some (PT t) => adj t b | _ => True end.

Lemma lastp_app a b : lastp (a ++ b) = match lastp b with Some p => Some p | None => lastp a end.
Proof.
  unfold lastp. rewrite rev_app_distr. destruct (rev b); reflexivity.
Qed.
Lemma lastp_nil l : lastp l = None -> l = [].
Proof.
  unfold lastp. destruct (rev l) eqn:E; [|discriminate]. intros _.
  rewrite <- (rev_involutive l), E. reflexivity.
Qed.
Lemma lastp_cons p l : lastp (p :: l) = match lastp l with Some q => Some q | None => Some p end.
Proof. change (p :: l) with ([p] ++ l). now rewrite lastp_app. Qed.

Lemma closedp_app a b : closedp b -> (b = [] -> closedp a) -> closedp (a ++ b).
Proof.
  unfold closedp. rewrite lastp_app. destruct (lastp b) eqn:E; [auto|]. intros _ H. apply H, lastp_nil, E.
Qed.
Lemma freeend_app a b : freeend b -> (b = [] -> freeend a) -> freeend (a ++ b).
Proof.
  unfold freeend. rewrite lastp_app. destruct (lastp b) eqn:E; [auto|]. intros _ H. apply H, lastp_nil, E.
Qed.
Lemma free_closed l : freeend l -> closedp l.
Proof. unfold freeend, closedp. destruct (lastp l) as [[t| |]|]; auto. congruence. Qed.
Lemma okp_app a b : okp a -> okp b -> junction a b -> okp (a ++ b).
Proof.
  intros Ha Hb. induction a as [|p a IH]; [auto|]. unfold junction. rewrite lastp_cons.
  intros Hj. destruct a as [|q a].
  - cbn [lastp rev app] in Hj. destruct p as [t| |]; cbn [okp app] in *; [|auto|auto].
    destruct Ha as (H1 & _ & _). auto.
  - assert (Hj' : junction (q :: a) b).
    { unfold junction. destruct (lastp (q :: a)) eqn:E; [exact Hj|]. apply lastp_nil in E. discriminate. }
    destruct p as [t| |]; cbn [okp app] in Ha |- *.
    + destruct Ha as (H1 & H2 & H3). split; [exact H1|]. split; [exact H2|]. exact (IH H3 Hj').
    + exact (IH Ha Hj').
    + exact (IH Ha Hj').
Qed.
Lemma junction_nil a : junction a [].
Proof. unfold junction. destruct (lastp a) as [[t| |]|]; exact I. Qed.
Lemma junction_line a b : linestart b -> junction a b.
Proof. unfold junction. destruct (lastp a) as [[t| |]|]; auto. destruct b as [|[u| |] b]; cbn; auto; contradiction. Qed.
Lemma junction_blank a b : closedp a -> blankstart b -> junction a b.
Proof.
  unfold junction, closedp. destruct (lastp a) as [[t| |]|]; auto. destruct b as [|[u| |] b]; cbn; tauto.
Qed.
Lemma junction_free a b : freeend a -> junction a b.
Proof.
  unfold junction, freeend. destruct (lastp a) as [[t| |]|]; auto. intros E.
  destruct b as [|[u| |] b]; cbn [adj]; rewrite ?E; auto; try discriminate.
  repeat split; discriminate.
Qed.
Lemma junction_app a b c : junction (b ++ c) [] -> junction a b -> (b = [] -> junction a c) -> junction a (b ++ c).
Proof.
  intros _ H1 H2. destruct b as [|p b]; [exact (H2 eq_refl)|]. unfold junction in *.
  destruct (lastp a) as [[t| |]|]; auto.
Qed.
Lemma junction_close a t : closedp a -> cls_of t = KClose -> junction a [PT t].
Proof.
  unfold junction, closedp. destruct (lastp a) as [[u| |]|]; auto. intros H E. cbn [adj]. rewrite E.
  repeat split; auto; discriminate.
Qed.

(** ** The texts of leaves *)

Section Opts.
  Variable o : options.

  Definition leaf_texts (p : kind * text) : list text :=
    match fst p with
    | WHITESPACE => []
    | LINE_COMMENT => [line_comment_text o (snd p)]
    | BLOCK_COMMENT => [block_comment_text o (snd p)]
    | _ => [snd p]
    end.
  Definition leaves (g : green) : list text := flat_map leaf_texts (gtokens g).
  Definition leaves_l (l : list green) : list text := flat_map leaves l.
  Lemma leaves_node k cs : leaves (Node k cs) = leaves_l cs.
  Proof.
    unfold leaves, leaves_l. cbn [gtokens]. induction cs as [|c cs IH]; [reflexivity|].
    cbn [map concat flat_map]. now rewrite flat_map_app, IH.
  Qed.
  Lemma leaves_l_app a b : leaves_l (a ++ b) = leaves_l a ++ leaves_l b.
  Proof. apply flat_map_app. Qed.

  Lemma line_text_ok t : LexForm LINE_COMMENT t ->
    LexOK (line_comment_text o t) /\ cls_of (line_comment_text o t) = KLine.
  Proof.
    intros (r & -> & Hr). unfold line_comment_text.
    assert (A : forall r, Forall (fun c => c <> c_lf /\ c <> c_cr) r ->
      LexOK (T ";;" ++ r) /\ cls_of (T ";;" ++ r) = KLine).
    { intros r' H. split; [|reflexivity]. exists r'. auto. }
    destruct (fix_comments o); [|auto].
    change (strip_prefix (T ";;") (T ";;" ++ r)) with (Some r). cbv iota.
    destruct r as [|c r]; [now apply A|]. destruct (starts_blank (c :: r)); [now apply A|].
    change (T ";; " ++ c :: r) with (T ";;" ++ c_space :: c :: r). apply A. constructor; [|exact Hr].
    split; discriminate.
  Qed.

  Lemma body_snoc m : CommentBody m -> CommentBody (m ++ [c_space]).
  Proof.
    induction 1 as [|c m Hd Hm IH|a b Ha _ Hb IHb].
    - cbn [app]. constructor; [|constructor]. intros d r [<-|[<-|[]]] E; discriminate.
    - cbn [app]. constructor; [|exact IH]. intros d r Hin E. rewrite <- app_assoc in E.
      destruct m as [|x m].
      + destruct Hin as [<-|[<-|[]]]; discriminate.
      + destruct Hin as [<-|[<-|[]]]; injection E as -> -> _.
        * apply (Hd (T "(;") (m ++ T ";)")); [now left|reflexivity].
        * apply (Hd (T ";)") (m ++ T ";)")); [right; now left|reflexivity].
    - rewrite <- !app_assoc. now constructor.
  Qed.
  Lemma body_cons m : CommentBody m -> CommentBody (c_space :: m).
  Proof. constructor; [|assumption]. intros d r [<-|[<-|[]]] E; discriminate. Qed.

  Lemma strip_suffix_app s t : strip_suffix s (t ++ s) = Some t.
  Proof.
    unfold strip_suffix. rewrite rev_app_distr.
    assert (A : forall a b, strip_prefix a (a ++ b) = Some b).
    { induction a as [|c a IH]; intros b; [reflexivity|]. cbn [app strip_prefix]. rewrite N.eqb_refl. apply IH. }
    rewrite A, rev_involutive. reflexivity.
  Qed.
  Lemma block_text_ok t : LexForm BLOCK_COMMENT t ->
    LexOK (block_comment_text o t) /\ cls_of (block_comment_text o t) = KBlock.
  Proof.
    intros (m & -> & Hm). unfold block_comment_text.
    assert (A : forall m, CommentBody m ->
      LexOK (T "(;" ++ m ++ T ";)") /\ cls_of (T "(;" ++ m ++ T ";)") = KBlock).
    { intros r' H. split; [|reflexivity]. exists r'. auto. }
    destruct (fix_comments o); [|auto].
    change (strip_prefix (T "(;") (T "(;" ++ m ++ T ";)")) with (Some (m ++ T ";)")). cbv iota.
    rewrite strip_suffix_app.
    destruct (nilb m || starts_blank m && ends_blank m); [auto|].
    destruct (starts_blank m); [|destruct (ends_blank m)].
    - replace (T "(;" ++ m ++ T " ;)") with (T "(;" ++ (m ++ [c_space]) ++ T ";)")
        by (rewrite <- app_assoc; reflexivity). apply A. now apply body_snoc.
    - change (T "(; " ++ m ++ T ";)") with (T "(;" ++ (c_space :: m) ++ T ";)"). apply A. now apply body_cons.
    - replace (T "(; " ++ m ++ T " ;)") with (T "(;" ++ (c_space :: m ++ [c_space]) ++ T ";)")
        by (cbn [app]; rewrite <- app_assoc; reflexivity). apply A. now apply body_cons, body_snoc.
  Qed.

  (** ** Runs of trivia *)

  Definition GoodTriv (g : green) : Prop :=
    match g with Tok k t => is_trivia_kind k = true /\ k <> ERROR /\ LexForm k t | Node _ _ => False end.
  (** Elements of a children list: no ERROR tokens, trivia tokens as the
      parser makes them. *)
  Definition GoodEl (g : green) : Prop :=
    match g with Tok k t => k <> ERROR /\ (is_trivia_kind k = true -> LexForm k t) | Node _ _ => True end.

  Lemma text_not_space t : LexOK t -> pcs (DText t) = [PT t].
  Proof.
    intros H. cbn [pcs]. destruct (text_eqb t (T " ")) eqn:E; [|reflexivity].
    apply text_eqb_eq in E as ->. destruct H as [_ H]. inversion H as [|? ? B _]. discriminate B.
  Qed.

  Lemma trail_good l : Forall GoodEl l -> Forall GoodTriv (trail l).
  Proof.
    induction 1 as [|g l Hg _ IH]; [constructor|]. cbn [trail].
    destruct (is_ws g || is_comment g || of_kind ERROR g) eqn:E; [|constructor].
    constructor; [|exact IH]. destruct g as [k t|k cs]; [|discriminate E].
    destruct Hg as [Hn Hf]. unfold is_comment, is_ws, of_kind in E.
    destruct k; try discriminate E; cbn [GoodTriv]; try (split; [reflexivity|]); try congruence;
      (split; [discriminate|now apply Hf]).
  Qed.
  Lemma trail_run l : run_ok l = true -> run_ok (trail l) = true.
  Proof.
    induction l as [|g l IH]; [auto|]. cbn [run_ok trail]. intros H. apply andb_prop in H as [H1 H2].
    destruct (is_ws g || is_comment g || of_kind ERROR g); [|reflexivity]. cbn [run_ok].
    rewrite (IH H2), andb_true_r. destruct g as [k t|]; [|reflexivity]. destruct k; try reflexivity.
    destruct l as [|[k2 t2|] l]; try discriminate. destruct k2; try discriminate. exact H1.
  Qed.
  Lemma skip_run l : run_ok l = true -> run_ok (skip_ws l) = true.
  Proof.
    induction l as [|g l IH]; [auto|]. cbn [skip_ws]. intros H. destruct (is_ws g); [|exact H].
    cbn [run_ok] in H. apply andb_prop in H as [_ H]. auto.
  Qed.
  Lemma skip_good l : Forall GoodTriv l -> Forall GoodTriv (skip_ws l).
  Proof. induction 1 as [|g l Hg H IH]; [constructor|]. cbn [skip_ws]. destruct (is_ws g); [exact IH|]. now constructor. Qed.
  Lemma skip_leaves l : leaves_l (skip_ws l) = leaves_l l.
  Proof.
    induction l as [|g l IH]; [reflexivity|]. cbn [skip_ws]. destruct (is_ws g) eqn:E; [|reflexivity].
    rewrite IH. destruct g as [k t|]; [|discriminate]. destruct k; discriminate || reflexivity.
  Qed.

  Lemma ws_no_leaves l : forallb is_ws l = true -> leaves_l l = [].
  Proof.
    induction l as [|g l IH]; [reflexivity|]. cbn [forallb]. intros H. apply andb_prop in H as [H1 H2].
    unfold leaves_l. cbn [flat_map]. fold (leaves_l l). rewrite (IH H2).
    destruct g as [k t|]; [|discriminate]. destruct k; discriminate || reflexivity.
  Qed.

  Lemma gap_pieces t : Forall (fun p => p = PS \/ p = PN) (pcsl (gap_docs t)) /\ pcsl (gap_docs t) <> []
    /\ (has_lf t = true -> linestart (pcsl (gap_docs t))).
  Proof.
    assert (E : has_lf t = negb (Nat.eqb (count_lf t) 0)).
    { unfold has_lf, count_lf. induction t as [|c t IH]; [reflexivity|]. cbn [existsb filter].
      destruct (N.eqb c_lf c); [reflexivity|exact IH]. }
    unfold gap_docs. rewrite E.
    destruct (count_lf t) as [|[|n]]; cbn;
      (split; [repeat (apply Forall_cons; [auto|]); apply Forall_nil|split; [discriminate|intros H; exact I || discriminate H]]).
  Qed.
  Lemma blanks_ok l : Forall (fun p => p = PS \/ p = PN) l -> okp l /\ texts l = [] /\ freeend l.
  Proof.
    intros H. split; [|split].
    - induction H as [|p l [->| ->] _ IH]; cbn; auto.
    - induction H as [|p l [->| ->] _ IH]; cbn; auto.
    - unfold freeend. destruct (lastp l) as [[t| |]|] eqn:E; auto. unfold lastp in E.
      destruct (rev l) as [|q r] eqn:Er; [discriminate|]. injection E as ->.
      assert (In (PT t) l) by (apply in_rev; rewrite Er; now left).
      rewrite Forall_forall in H. destruct (H _ H0); discriminate.
  Qed.

  Lemma run_pieces l : Forall GoodTriv l -> run_ok l = true ->
    let q := pcsl (flat_map (trivia_docs o) l) in
    okp q /\ freeend q /\ texts q = leaves_l l /\ (ws_lf l = true -> linestart q) /\ (l <> [] -> q <> []).
  Proof.
    intros H. induction H as [|g l Hg Hl IH]; intros Hr; [cbn; repeat split; congruence|].
    cbn [run_ok] in Hr. apply andb_prop in Hr as [H1 H2]. destruct (IH H2) as (I1 & I2 & I3 & I4 & I5).
    cbv zeta in *. cbn [flat_map]. rewrite pcsl_app.
    set (q := pcsl (flat_map (trivia_docs o) l)) in *.
    change (leaves_l (g :: l)) with (leaves g ++ leaves_l l).
    destruct g as [k t|]; [|contradiction]. destruct Hg as (Ht & He & Hf).
    destruct k; try discriminate Ht; try congruence; cbn [trivia_docs].
    - (* white space *)
      destruct (gap_pieces t) as (G1 & G2 & G3). destruct (blanks_ok _ G1) as (G4 & G5 & G6).
      split; [|split; [|split; [|split]]].
      + apply okp_app; auto. now apply junction_free.
      + apply freeend_app; auto.
      + rewrite texts_app, G5, I3. reflexivity.
      + cbn [ws_lf]. intros E. specialize (G3 E). destruct (pcsl (gap_docs t)); [contradiction|exact G3].
      + intros _ E. apply app_eq_nil in E as [E _]. contradiction.
    - (* line comment *)
      destruct (line_text_ok t Hf) as [L1 L2].
      change (pcsl [DText (line_comment_text o t)]) with (pcs (DText (line_comment_text o t)) ++ []).
      rewrite app_nil_r, (text_not_space _ L1). specialize (I4 H1).
      split; [|split; [|split; [|split]]].
      + cbn [app okp]. split; [exact L1|]. split; [|exact I1]. destruct q as [|[u| |] q]; try contradiction. exact I.
      + apply freeend_app; auto. intros ->. contradiction.
      + rewrite texts_app, I3. reflexivity.
      + discriminate.
      + discriminate.
    - (* block comment *)
      destruct (block_text_ok t Hf) as [L1 L2].
      change (pcsl [DText (block_comment_text o t)]) with (pcs (DText (block_comment_text o t)) ++ []).
      rewrite app_nil_r, (text_not_space _ L1).
      split; [|split; [|split; [|split]]].
      + apply okp_app; [cbn; auto|exact I1|]. apply junction_free. exact L2.
      + apply freeend_app; auto.
      + rewrite texts_app, I3. reflexivity.
      + discriminate.
      + discriminate.
  Qed.

  (** What is remembered after a child. *)
  Definition AfterOK (tr : list doc) (gap : list text) : Prop :=
    (tr = [] /\ gap = [])
    \/ (tr <> [] /\ blankstart (pcsl tr) /\ okp (pcsl tr) /\ freeend (pcsl tr) /\ texts (pcsl tr) = gap).

  Lemma after_token_ok next : Forall GoodEl next -> run_ok next = true ->
    AfterOK (after_token o next) (leaves_l (trail next)).
  Proof.
    intros Hg Hr. apply trail_good in Hg. apply trail_run in Hr. unfold after_token.
    rewrite <- (skip_leaves (trail next)).
    apply skip_good in Hg. apply skip_run in Hr. set (l := skip_ws (trail next)) in *.
    destruct (forallb is_ws l) eqn:E.
    - left. split; [reflexivity|]. now apply ws_no_leaves.
    - right. destruct (run_pieces l Hg Hr) as (I1 & I2 & I3 & I4 & I5).
      split; [discriminate|]. change (pcsl (space :: flat_map (trivia_docs o) l)) with (PS :: pcsl (flat_map (trivia_docs o) l)).
      split; [exact I|]. split; [exact I1|]. split; [|exact I3].
      change (PS :: pcsl (flat_map (trivia_docs o) l)) with ([PS] ++ pcsl (flat_map (trivia_docs o) l)).
      apply freeend_app; [exact I2|]. intros _. exact I.
  Qed.

  Lemma after_node_ok next : Forall GoodEl next -> run_ok next = true ->
    AfterOK (after_node o next) (leaves_l (trail next)).
  Proof.
    intros Hg Hr. apply trail_good in Hg. apply trail_run in Hr. unfold after_node.
    set (l := trail next) in *.
    destruct (forallb (fun g => is_ws g && Nat.ltb (count_lf (gtext g)) 2) l) eqn:E.
    - left. split; [reflexivity|]. apply ws_no_leaves. rewrite forallb_forall in *. intros x Hx.
      apply E, andb_prop in Hx. tauto.
    - right. destruct (run_pieces l Hg Hr) as (I1 & I2 & I3 & I4 & I5).
      destruct l as [|g l]; [discriminate|].
      destruct (is_comment g) eqn:Ec.
      + split; [discriminate|]. cbn [app].
        change (pcsl (DSoft :: flat_map (trivia_docs o) (g :: l))) with ([PS] ++ pcsl (flat_map (trivia_docs o) (g :: l))).
        split; [exact I|]. split; [exact I1|]. split; [|exact I3]. apply freeend_app; [exact I2|]. intros _. exact I.
      + cbn [app]. split.
        { intros Ez. apply (I5 ltac:(discriminate)). now rewrite Ez. }
        split; [|auto]. inversion Hg as [|? ? Hg1 _]; subst. destruct g as [k t|]; [|contradiction].
        destruct Hg1 as (Ht & He & _). destruct k; try discriminate; try congruence.
        cbn [flat_map trivia_docs]. rewrite pcsl_app.
        destruct (gap_pieces t) as (G1 & G2 & _). destruct (pcsl (gap_docs t)) as [|p q]; [contradiction|].
        inversion G1 as [|? ? [->| ->] _]; exact I.
  Qed.
End Opts.
