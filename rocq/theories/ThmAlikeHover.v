(** Properties C54 and C55 for hover. *)

From Coq Require Import String List NArith Bool Arith Lia.
From Verif Require Import Text Kind Green SpecParser SpecSyntax Lexer LexerFacts Winnow Grammar Sem Lossless Total
  Bounds Lang TokForm Shape ThmParser ThmSyntax Red Unique LineIndex Cursor Doc Ast Binder SpecBinder Nav NavSpec NavFacts Preorder BinderFacts BinderDefs ThmNav Types Check SemTok
  Hover SpecHover HoverFacts SpecRename SpecAlike SpecAlikeMore SpecAlikeHover Alike AlikeNav AlikeCheck AlikeDoc AlikeMore AlikeHover ThmAlike ThmAlpha ThmAlikeMore.
From Verif Require SpecComplete ThmComplete ThmStructure ThmCalls.
From Verif Require Import ThmFormat.
Import ListNotations.
Notation Document := SpecComplete.Document.

Lemma docs_equal Name src src' d d' : RN Name src src' d d' -> SameDocs (tree_of src) (tree_of src') -> has_sort FuncS d = true ->
  doc_of d = doc_of d'.
Proof.
  intros [H N] D S. pose proof (R_parent Name _ _ _ _ H) as HP.
  assert (Hc : forall x e p, InTree (tree_of x) e -> parent e = Some p -> InTree (tree_of x) p /\ In e (children_with_tokens p)).
  { intros x e p Te Hp. destruct Te as [|q c Hq Hc]; [discriminate Hp|]. rewrite (parent_child _ _ Hc) in Hp. injection Hp as <-. auto. }
  destruct (parent d) as [p|] eqn:P; inversion HP as [|? p' Hp P1 P2]; subst.
  - destruct (Hc src d p) as [A B]; [apply H|exact P|]. destruct (Hc src' d' p') as [A' B']; [apply H|congruence|].
    assert (X : Docs d (doc_of d)) by exact (proj2 (docs_spec src d p A P B _) eq_refl).
    apply (D d d' _ (R_counterpart Name _ _ _ _ H) N S) in X. apply (docs_spec src' d' p' A' (eq_sym P2) B') in X. exact X.
  - unfold doc_of, doc_comments, prev_siblings. rewrite P. unfold parent in *. now destruct (ups d), (ups d').
Qed.

(** ** White space and comments (C54) *)

(** Texts whose trees differ in white space and comments only, with the
    comments above functions saying the same: with the cursors on the same
    token the same texts are shown, for tokens in the same place. *)
Theorem C54_hover src src' pos pos' t t' :
  bare (tree_of src) = bare (tree_of src') -> SameDocs (tree_of src) (tree_of src') ->
  CursorOn src pos t -> CursorOn src' pos' t' -> Counterpart (tree_of src) (tree_of src') t t' ->
  AnsR (fun h h' => fst h = fst h' /\ SamePlace src src' (snd h) (snd h')) (hover src pos) (hover src' pos').
Proof.
  intros Hb D C C' Ht. pose proof (tree_sim _ _ Hb) as HS.
  assert (E : forall x x', SameTexts eq x x' -> x = x') by (induction 1; congruence).
  eapply AR_imp; [|eapply (A_hover eq eq_names src src' HS); [|exact C|exact C'|now apply counterpart_R|now apply (ThmStructure.cursor_in src pos)]].
  - intros [h r] [h' r'] [X Y]. cbn [fst snd] in *. split; [|exact Y]. destruct X as [x x' X|x x' X|l l' X]; f_equal; auto. apply F2_eq. eapply F2_imp; [exact E|exact X].
  - intros d d' Hd S. now apply (docs_equal eq src src').
Qed.
Print Assumptions C54_hover.

(** ** Names (C55) *)

Section Names.
  Variables (f : text -> text) (a : green).
  Notation wn := (with_names f).
  (** The same element before and after. *)
  Definition Wn (e e' : elem) : Prop :=
    el e' = wn (el e) /\ Forall2 (fun u u' => u_idx u' = u_idx u /\ u_green u' = wn (u_green u)) (ups e) (ups e').
  Lemma wn_gchildren g : gchildren (wn g) = map wn (gchildren g).
  Proof. destruct g as [k t|k cs]; cbn; [destruct (kind_eqb k IDENT)|]; reflexivity. Qed.
  Lemma wn_significant g : significant (wn g) = significant g.
  Proof. destruct g as [k t|k cs]; cbn; [destruct (kind_eqb k IDENT)|]; reflexivity. Qed.
  Lemma wn_gkind g : gkind (wn g) = gkind g.
  Proof. destruct g as [k t|k cs]; cbn; [destruct (kind_eqb k IDENT)|]; reflexivity. Qed.
  Lemma wn_kids p p' po po' us us' : p' = wn p -> Forall2 (fun u u' => u_idx u' = u_idx u /\ u_green u' = wn (u_green u)) us us' ->
    forall cs i o o', Forall2 Wn (kids p po us i o cs) (kids p' po' us' i o' (map wn cs)).
  Proof.
    intros -> Hu. induction cs as [|c cs IH]; intros i o o'; cbn [kids map]; constructor; [|apply IH].
    split; [reflexivity|]. constructor; [|exact Hu]. cbn. auto.
  Qed.
  Lemma wn_children e e' : Wn e e' -> Forall2 Wn (children_with_tokens e) (children_with_tokens e').
  Proof. intros [H U]. unfold children_with_tokens. rewrite H, wn_gchildren. now apply wn_kids. Qed.
  Lemma wn_total e : InTree a e -> exists e', InTree (wn a) e' /\ Wn e e'.
  Proof.
    induction 1 as [|p c Hp (p' & Hp' & W) Hc].
    - exists (root_of (wn a)). split; [constructor|]. split; [reflexivity|constructor].
    - pose proof (wn_children _ _ W) as HF. destruct (F2_in_l _ _ _ _ HF Hc) as (c' & Hc' & Wc). exists c'. split; [econstructor; eauto|exact Wc].
  Qed.
  Lemma wn_place e e' : Wn e e' -> place e = place e'.
  Proof.
    intros [_ U]. unfold place. induction U as [|u u' l l' [E G] _ IH]; [reflexivity|]. cbn [map]. f_equal; [|exact IH].
    unfold rank. rewrite E, G, wn_gchildren, firstn_map. generalize (firstn (u_idx u) (gchildren (u_green u))). clear.
    induction l as [|g l IH]; [reflexivity|]. cbn [map filter]. rewrite wn_significant. destruct (significant g); cbn [length]; congruence.
  Qed.
  Lemma wn_doc e e' : Wn e e' -> doc_of e = doc_of e'.
  Proof.
    intros [_ U]. unfold doc_of. f_equal. unfold doc_comments. do 2 f_equal.
    assert (HF : Forall2 Wn (prev_siblings e) (prev_siblings e')).
    { unfold prev_siblings, parent. destruct U as [|u u' l l' [E G] U]; [constructor|]. rewrite E. apply F2_rev, F2_firstn. apply wn_children. split; auto. }
    assert (K : forall x x', Wn x x' -> ekind x = ekind x' /\ is_node x = is_node x' /\ (is_node x = false -> ekind x = LINE_COMMENT -> etext x = etext x')).
    { intros x x' [E _]. unfold ekind, is_node, etext. rewrite E. destruct (el x) as [k t|k cs]; cbn [with_names gkind].
      - destruct (kind_eqb k IDENT) eqn:Ek; repeat split; auto. cbn. intros _ ->. discriminate Ek.
      - cbn. repeat split; auto. discriminate. }
    induction HF as [|x x' l l' Hx HF IH]; [reflexivity|]. destruct (K _ _ Hx) as (Kx & Nx & Tx). cbn [take_while]. rewrite <- Kx.
    destruct (kind_eqb (ekind x) LINE_COMMENT) eqn:E1; cbn [orb].
    - cbn [filter map]. rewrite <- Nx, <- Kx, E1. destruct (is_node x); cbn [negb andb]; [exact IH|]. cbn [map]. rewrite IH, Tx; [reflexivity|reflexivity|now apply kind_eqb_eq].
    - destruct (kind_eqb (ekind x) WHITESPACE); [|reflexivity]. cbn [filter]. rewrite <- Nx, <- Kx, E1, andb_false_r. exact IH.
  Qed.
End Names.

(** After a consistent renaming the same texts are shown up to names. *)
Theorem C55_hover f a pos pos' t t' :
  Document a -> Renames f a ->
  CursorOn (gtext a) pos t -> CursorOn (gtext (with_names f a)) pos' t' -> Counterpart a (with_names f a) t t' ->
  AnsR (SameHover (written_as f) (gtext a) (gtext (with_names f a))) (hover (gtext a) pos) (hover (gtext (with_names f a)) pos').
Proof.
  intros Da Hf C C' Ht. pose proof (Db f a Da Hf) as D. destruct (ThmAlike.document_tree _ Da) as [Ta _]. destruct (ThmAlike.document_tree _ D) as [Tb _].
  eapply AR_imp; [|eapply (A_hover (Called f a) (called_eqb f a Hf) _ _ (two_sim f a Da Hf)); [|exact C|exact C'|now apply two_counter|now apply (ThmStructure.cursor_in (gtext a) pos)]].
  - assert (M : forall x x', SameTexts (Called f a) x x' -> SameTexts (written_as f) x x') by (intros x x'; apply sts_imp, called_written).
    intros [h r] [h' r'] [X Y]. cbn [fst snd] in *. split; [|exact Y]. cbn [fst]. destruct X as [x x' X|x x' X|l l' X]; constructor; auto. eapply F2_imp; eauto.
  - intros d d' [Hd Nd] _. pose proof Hd as Hd'. apply R_counterpart in Hd'. rewrite Ta, Tb in Hd'. destruct Hd' as (I1 & I2 & S1 & S2 & E).
    destruct (wn_total f a d I1) as (e & Ie & We). rewrite (wn_doc f d e We). f_equal. apply (place_inj a (with_names f a)); auto.
    + unfold sigE. rewrite (proj1 We), wn_significant. exact S1.
    + rewrite <- (wn_place f d e We). exact E.
Qed.
Print Assumptions C55_hover.

(** ** A case *)

(** To compare the documentation it is enough to do so function by function. *)
Lemma same_docs_by src src' : bare (tree_of src) = bare (tree_of src') ->
  map doc_of (filter (has_sort FuncS) (descendants (root_of (tree_of src)))) = map doc_of (filter (has_sort FuncS) (descendants (root_of (tree_of src')))) ->
  SameDocs (tree_of src) (tree_of src').
Proof.
  intros Hb E. pose proof (tree_sim _ _ Hb) as HS. intros d d' x C N S X. apply (counterpart_R eq _ _ HS) in C.
  assert (HF : Forall2 (RN eq src src') (filter (has_sort FuncS) (descendants (root_of (tree_of src)))) (filter (has_sort FuncS) (descendants (root_of (tree_of src'))))).
  { apply F2_filter; [|now apply RN_nodes]. intros e e' [He _]. unfold has_sort, def_sort. now rewrite (R_kind eq _ _ _ _ He). }
  assert (Hin : In d (filter (has_sort FuncS) (descendants (root_of (tree_of src))))).
  { apply filter_In. split; [apply in_descendants_of; split; [apply C|exact N]|exact S]. }
  assert (Ed : doc_of d = doc_of d').
  { revert E Hin. induction HF as [|e e' l l' [He _] _ IH]; intros E Hin; [destruct Hin|]. cbn [map] in E. injection E as E1 E2.
    destruct Hin as [->|Hin]; [|now apply IH]. rewrite E1. f_equal. eapply R_fun; eauto. }
  clear E Hin HF.
  assert (Hc : forall y e p, InTree (tree_of y) e -> parent e = Some p -> InTree (tree_of y) p /\ In e (children_with_tokens p)).
  { intros y e p Te Hp. destruct Te as [|q c Hq Hc]; [discriminate Hp|]. rewrite (parent_child _ _ Hc) in Hp. injection Hp as <-. auto. }
  pose proof (R_parent eq _ _ _ _ C) as HP.
  destruct (parent d) as [p|] eqn:P; inversion HP as [|? p' Hp P1 P2]; subst.
  - destruct (Hc src d p) as [A B]; [apply C|exact P|]. destruct (Hc src' d' p') as [A' B']; [apply C|congruence|].
    apply (docs_spec src' d' p' A' (eq_sym P2) B'). apply (docs_spec src d p A P B) in X. congruence.
  - destruct X as [cs ls k [a c (p & r & Z & _) _ _|a b y c cs' (p & r & Z & _) _ _ _ _ _] _ _]; congruence.
Qed.
Definition doc_a : text := unlines ["(module"; ";;; adds one"; "(func $f (result i32) i32.const 1)"; "(func (result i32) call $f))"]%string.
Definition doc_b : text := unlines ["(module ;; two functions"; "  (; here ;)"; "  ;;;adds one"; "  ;; not shown"; "  (func $f (result i32)"; "    i32.const 1)"; "  (func (result i32) call (; it ;) $f)"; ")"]%string.
Definition shown (a : ans hover_answer) : option contents := match a with Ans (c, _) => Some c | _ => None end.
Example C54_hover_example :
  let t := cur doc_a (3, 26) in let t' := cur doc_b (6, 36) in
  bare (tree_of doc_a) = bare (tree_of doc_b) /\ SameDocs (tree_of doc_a) (tree_of doc_b)
  /\ CursorOn doc_a (3, 26) t /\ CursorOn doc_b (6, 36) t' /\ Counterpart (tree_of doc_a) (tree_of doc_b) t t'
  /\ shown (hover doc_a (3, 26)) = Some (Markup (code_block (Text.T "(func $f (result i32))") ++ ruler ++ Text.T "adds one")).
Proof.
  cursor_at doc_a (3, 26) C P. cursor_at doc_b (6, 36) C' P'.
  destruct (cursor_node _ _ _ _ C P) as (T & _). destruct (cursor_node _ _ _ _ C' P') as (T' & _).
  intros t t'. split; [vm_compute; reflexivity|]. split; [apply same_docs_by; vm_compute; reflexivity|].
  split; [exact C|]. split; [exact C'|]. split; [|vm_compute; reflexivity].
  split; [exact T|]. split; [exact T'|]. split; [|split]; vm_compute; reflexivity.
Qed.
