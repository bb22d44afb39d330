(** A rename is undone by a rename (C55). *)

From Coq Require Import String List NArith Bool Arith Lia Permutation.
From Verif Require Import Text Kind Green SpecParser SpecSyntax Lexer LexerFacts Winnow Grammar Sem Lossless Total
  Bounds Lang TokForm Shape ThmParser ThmSyntax Red Unique LineIndex Cursor Doc Ast Binder SpecBinder Nav NavSpec NavFacts Preorder BinderFacts BinderDefs ThmNav
  ThmRename ThmRenamed Types Check SemTok Hover SpecAction SpecRename SpecAlike SpecAlikeMore Alike AlikeNav AlikeCheck AlikeDoc AlikeMore ThmAlike ThmAlpha ThmAlikeMore ThmAlikeHover.
From Verif Require SpecComplete ThmComplete ThmStructure ThmReparse.
Import ListNotations.
Notation Document := SpecComplete.Document.

Section Undo.
  Variables (f : text -> text) (a : green).
  Notation wn := (with_names f).
  Lemma wn_onto e' : InTree (wn a) e' -> exists e, InTree a e /\ Wn f e e'.
  Proof.
    induction 1 as [|p' c' Hp' (p & Hp & W) Hc'].
    - exists (root_of a). split; [constructor|]. split; [reflexivity|constructor].
    - pose proof (wn_children f _ _ W) as HF. destruct (F2_in_r _ _ _ _ HF Hc') as (c & Hc & Wc). exists c. split; [econstructor; eauto|exact Wc].
  Qed.
  Lemma wn_counter e e' : InTree a e -> InTree (wn a) e' -> Wn f e e' -> significant (el e) = true -> Counterpart a (wn a) e e'.
  Proof.
    intros H H' W S. split; [exact H|]. split; [exact H'|]. split; [exact S|]. split; [now rewrite (proj1 W), wn_significant|].
    now apply (wn_place f).
  Qed.
End Undo.
Lemma wn_inverse old new g : ~ In (IDENT, new) (gtokens g) -> with_names (instead new old) (with_names (instead old new) g) = g.
Proof.
  induction g as [k t|k cs IH] using green_ind'; intros H.
  - cbn [with_names]. destruct (kind_eqb k IDENT) eqn:K; [|cbn [with_names]; now rewrite K]. cbn [with_names]. rewrite K. f_equal.
    apply kind_eqb_eq in K. subst k. unfold instead. destruct (text_eqb t old) eqn:E.
    + rewrite text_eqb_refl. apply text_eqb_eq in E. congruence.
    + destruct (text_eqb t new) eqn:E'; [|reflexivity]. apply text_eqb_eq in E'. subst t. exfalso. apply H. now left.
  - cbn [with_names]. f_equal. rewrite map_map. rewrite <- (map_id cs) at 2. apply map_ext_in. intros c Hc. rewrite Forall_forall in IH.
    apply (IH c Hc). intros X. apply H. cbn [gtokens]. apply in_concat. exists (gtokens c). split; [now apply in_map|exact X].
Qed.
Lemma wn_occurs f g y : Occurs (with_names f g) y -> exists x, Occurs g x /\ y = f x.
Proof.
  unfold Occurs. induction g as [k t|k cs IH] using green_ind'; cbn [with_names].
  - destruct (kind_eqb k IDENT) eqn:K; cbn [gtokens]; intros [E|[]]; injection E as E1 E2; [|subst k; discriminate K].
    exists t. split; [left; congruence|congruence].
  - cbn [gtokens]. rewrite map_map. rewrite in_concat. intros (l & Hl & Hy). apply in_map_iff in Hl as (c & <- & Hc). rewrite Forall_forall in IH.
    destruct (IH c Hc Hy) as (x & Hx & E). exists x. split; [|exact E]. apply in_concat. exists (gtokens c). split; [now apply in_map|exact Hx].
Qed.
Lemma tree_occurs a t : InTree a t -> is_node t = false -> ekind t = IDENT -> Occurs a (etext t).
Proof. intros H N K. unfold Occurs. rewrite <- K. now apply tok_in_tokens. Qed.

(** After a rename from [old] to a name that does not occur, which edits exactly
    the identifiers spelled [old] (as in C55_rename), the request to rename the
    same token to [old] is answered by edits that restore the document. *)
Theorem C55_rename_undone a pos old new es t pos' t' :
  Document a -> rename (gtext a) pos new = Edits es -> ~ Occurs a new -> Occurs a old ->
  (forall u r, InTree a u -> is_node u = false -> ekind u = IDENT -> RangeOf (gtext a) u r ->
     (etext u = old <-> exists e, In e es /\ fst e = r)) ->
  CursorOn (gtext a) pos t -> CursorOn (gtext (with_names (instead old new) a)) pos' t' ->
  Counterpart a (with_names (instead old new) a) t t' ->
  exists back back', rename (gtext (with_names (instead old new) a)) pos' old = Edits back
    /\ Permutation back back' /\ Applied (gtext (with_names (instead old new) a)) back' (gtext a).
Proof.
  intros D H Hnew Hold Hex C C' Ht. destruct (C22_valid_edits _ _ _ _ H) as (V & _).
  destruct (C55_rename false a pos old new es D H Hnew Hex) as (_ & _ & _ & _ & Rn & _).
  assert (Vo : ValidName old).
  { destruct (ThmReparse.document_form _ D _ _ Hold) as [(r & -> & Hr & Hc) _]. destruct r as [|c r]; [congruence|]. exists c, r. auto. }
  pose proof (C55_rename_places (instead old new) a pos pos' t t' new old D Rn C C' Ht V Vo) as S. rewrite H in S.
  pose proof (Db _ a D Rn) as D'. destruct (ThmAlike.document_tree _ D) as [Ta _]. destruct (ThmAlike.document_tree _ D') as [Tb _].
  set (b := with_names (instead old new) a) in *.
  inversion S as [| | | |l back F E1 E2]; subst l. symmetry in E2.
  assert (No : ~ Occurs b old).
  { intros X. apply wn_occurs in X as (x & Ox & E). unfold instead in E. destruct (text_eqb x old) eqn:Ex; [now subst new|].
    subst x. rewrite text_eqb_refl in Ex. discriminate. }
  assert (U : forall x u v r, InTree (tree_of x) u -> InTree (tree_of x) v -> is_node u = false -> is_node v = false -> RangeOf x u r -> RangeOf x v r -> u = v).
  { intros x u v r Tu Tv Nu Nv Ru Rv. destruct (ThmStructure.range_inj _ _ _ _ Ru Rv) as [E _].
    destruct (earlier_total _ u v Tu Tv Nu Nv) as [X|[X|X]]; [exact X| |]; apply earlier_start in X; auto; lia. }
  destruct (C55_rename false b pos' new old back D' E2 No) as (back' & P & A & _).
  { intros u r Tu Nu Ku Ru. destruct (wn_onto _ _ _ Tu) as (v & Tv & W).
    assert (Sv : significant (el v) = true).
    { rewrite <- (wn_significant (instead old new)), <- (proj1 W). unfold ekind, is_node in *. destruct (el u); cbn in *; [|discriminate]. now rewrite Ku. }
    assert (Nv : is_node v = false /\ ekind v = IDENT /\ etext u = instead old new (etext v)).
    { destruct W as [W _]. unfold ekind, is_node, etext in *. destruct (el v) as [k x|]; cbn [with_names] in W; [|rewrite W in Nu; discriminate Nu].
      destruct (kind_eqb k IDENT) eqn:K; rewrite W in *; cbn in *; subst; auto. discriminate K. }
    destruct Nv as (Nv & Kv & Ev). pose proof (wn_counter _ _ _ _ Tv Tu W Sv) as Cv.
    assert (Hr : exists q, RangeOf (gtext a) v q).
    { pose proof Tv as Tv'. rewrite <- Ta in Tv'. destruct (range_of_ok _ _ Tv') as (q & _ & Hq). eauto. }
    destruct Hr as (q & Hq). pose proof (Hex v q Tv Nv Kv Hq) as X.
    assert (Y : etext u = new <-> etext v = old).
    { rewrite Ev. unfold instead. destruct (text_eqb (etext v) old) eqn:E; [apply text_eqb_eq in E; tauto|]. split.
      - intros Z. exfalso. apply Hnew. rewrite <- Z. now apply tree_occurs.
      - intros Z. rewrite Z, text_eqb_refl in E. discriminate. }
    rewrite Y, X. clear X Y. split.
    - intros (e & He & Eq). destruct (F2_in_l _ _ _ _ F He) as (e' & He' & (x & x' & Cx & Nx & Kx & R1 & R2) & _). exists e'. split; [exact He'|].
      pose proof (eq_ind _ (fun z => RangeOf (gtext a) x z) R1 _ Eq) as R1'. rewrite Ta, Tb in Cx.
      assert (x = v) as -> by (apply (U (gtext a) x v q); rewrite ?Ta; auto; apply Cx).
      assert (x' = u) as -> by (apply (place_inj a b); try apply Cx; try apply Cv; [destruct Cx as (_ & _ & _ & _ & <-); destruct Cv as (_ & _ & _ & _ & <-); reflexivity]).
      eapply ThmStructure.range_fun; eassumption.
    - intros (e' & He' & Eq). destruct (F2_in_r _ _ _ _ F He') as (e & He & (x & x' & Cx & Nx & Kx & R1 & R2) & _). exists e. split; [exact He|].
      pose proof (eq_ind _ (fun z => RangeOf (gtext b) x' z) R2 _ Eq) as R2'. rewrite Ta, Tb in Cx.
      assert (Nx' : is_node x' = false).
      { pose proof (two_counter _ a D Rn x x' Cx) as RR. now rewrite <- (R_is_node _ _ _ _ _ RR). }
      assert (x' = u) as -> by (apply (U (gtext b) x' u r); rewrite ?Tb; auto; apply Cx).
      assert (x = v) as -> by (apply (place_inj a a); try apply Cx; try apply Cv; [destruct Cx as (_ & _ & _ & _ & ->); destruct Cv as (_ & _ & _ & _ & ->); reflexivity]).
      eapply ThmStructure.range_fun; eassumption. }
  exists back, back'. split; [reflexivity|]. split; [exact P|]. unfold b in A at 2. rewrite wn_inverse in A by exact Hnew. exact A.
Qed.
Print Assumptions C55_rename_undone.

(** The document and request of C55_rename_example, and the cursor after it. *)
Example C55_undone_example :
  let b := with_names (instead (Text.T "$f") (Text.T "$main")) renamed_tree in
  let t := cur renamed_ex (0, 15) in let t' := cur (gtext b) (0, 15) in
  Occurs renamed_tree (Text.T "$f") /\ CursorOn renamed_ex (0, 15) t /\ CursorOn (gtext b) (0, 15) t'
  /\ Counterpart renamed_tree b t t'
  /\ exists es, rename (gtext b) (0, 15) (Text.T "$f") = Edits es /\ length es = 2.
Proof.
  intros b. set (x := gtext b). assert (E : tree_of x = b) by (vm_compute; reflexivity).
  assert (E0 : tree_of renamed_ex = renamed_tree) by (vm_compute; reflexivity).
  cursor_at renamed_ex (0, 15) C P. cursor_at x (0, 15) C' P'.
  destruct (cursor_node _ _ _ _ C P) as (T & _). destruct (cursor_node _ _ _ _ C' P') as (T' & _). rewrite E in T'. rewrite E0 in T.
  intros t t'. split; [apply occurs_names; vm_compute; auto|]. split; [exact C|]. split; [exact C'|]. split.
  - split; [exact T|]. split; [exact T'|]. split; [|split]; vm_compute; reflexivity.
  - eexists. split; vm_compute; reflexivity.
Qed.
