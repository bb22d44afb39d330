(** Renaming back (C55). *)

From Coq Require Import String List NArith Bool Arith Lia Permutation.
From Verif Require Import Text Kind Green SpecParser SpecSyntax Lexer LexerFacts Winnow Grammar Sem Lossless Total
  Bounds Lang TokForm Shape ThmParser ThmSyntax Red Unique LineIndex Cursor ThmPos Doc Ast Binder SpecBinder Nav NavSpec NavFacts ThmNav Types Check Features ThmRename
  SpecAction SpecRename ThmRenamed SpecAlike SpecAlikeMore Alike AlikeNav AlikeCheck AlikeDoc AlikeMore ThmAlike ThmAlpha ThmAlikeMore ThmUndo.
From Verif Require SpecComplete ThmComplete ThmReparse ThmStructure.
Import ListNotations.

(** Every identifier can be pointed at. *)
Lemma cursor_ident src t : InTree (tree_of src) t -> is_node t = false -> ekind t = IDENT ->
  1 < glen (el t) -> tlen (gtext (tree_of src)) <= tlen src -> exists pos, CursorOn src pos t.
Proof.
  intros T N K L Ls. pose proof (Desc_range _ _ T) as (_ & Rt). unfold eend at 2 in Rt. cbn [root_of off el] in Rt. rewrite glen_tlen in Rt.
  unfold eend in Rt. cbn [Nat.add] in Rt.
  destruct (line_col_total src (estart t + 1)) as (l & c & _ & O); [unfold estart; lia|].
  exists (l, c). unfold CursorOn. assert (Tt : Touch (tree_of src) (estart t + 1) t).
  { split; [exact T|]. split; [exact N|]. unfold eend, estart. lia. }
  assert (U : forall u, Touch (tree_of src) (estart t + 1) u -> u = t).
  { intros u (Tu & Nu & Lu & Ru). destruct (earlier_total src u t Tu T Nu N) as [X|[X|X]]; [exact X| |]; exfalso.
    - destruct X as (p & l' & ga & m & gb & r & ca & cb & _ & _ & -> & -> & D1 & D2).
      apply Desc_range in D1, D2. unfold estart, eend in *. cbn [off el] in *. rewrite glens_app, glens_cons in *. lia.
    - destruct X as (p & l' & ga & m & gb & r & ca & cb & _ & _ & -> & -> & D1 & D2).
      apply Desc_range in D1, D2. unfold estart, eend in *. cbn [off el] in *. rewrite glens_app, glens_cons in *. lia. }
  apply (C40_token_at_offset src (l, c) (estart t + 1) t O); [unfold estart; lia|]. split; [exact Tt|]. split.
  - intros u Hu Nu. now apply U in Hu.
  - intros (u & Hu & Nu). now apply U in Hu.
Qed.

(** ** Back *)

(** An identifier is renamed to a name that does not occur, and this edits
    exactly the identifiers with its name.  Then at the renamed identifier it
    can be renamed back, and this gives the text as it was. *)
Theorem C55_rename_back a pos t new es :
  Document a -> CursorOn (gtext a) pos t -> rename (gtext a) pos new = Edits es -> ~ Occurs a new ->
  (forall u r, InTree a u -> is_node u = false -> ekind u = IDENT -> RangeOf (gtext a) u r ->
     (etext u = etext t <-> exists e, In e es /\ fst e = r)) ->
  exists es1 b t', Permutation es es1 /\ Applied (gtext a) es1 (gtext b)
    /\ Counterpart a b t t' /\ etext t' = new
    /\ (exists pos', CursorOn (gtext b) pos' t')
    /\ forall pos', CursorOn (gtext b) pos' t' ->
         exists es2 es3, rename (gtext b) pos' (etext t) = Edits es2 /\ Permutation es2 es3 /\ Applied (gtext b) es3 (gtext a).
Proof.
  intros D Hc H Hnew Hold. set (old := etext t) in *. set (f := instead old new). set (b := with_names f a).
  destruct (C55_rename false a pos old new es D H Hnew Hold) as (es1 & P1 & A1 & _ & Rn & _). fold f in A1, Rn. fold b in A1.
  destruct (ThmAlike.document_tree _ D) as [Ta _].
  assert (Db : Document b) by (apply (C55_document false); [exact D|apply Rn]).
  destruct (ThmAlike.document_tree _ Db) as [Tb _].
  assert (Tt : InTree a t /\ is_node t = false).
  { pose proof Hc as Hm. apply meaningful_in in Hm as (x & _ & (T & N) & _). rewrite Ta in T. auto. }
  destruct Tt as (Tt & Nt).
  assert (Kt : ekind t = IDENT /\ ValidName new).
  { unfold rename, cursor_token in H. unfold CursorOn in Hc. destruct (valid_name new) eqn:V; [|discriminate]. rewrite Hc in H.
    destruct (kind_eqb (ekind t) IDENT) eqn:K; [|discriminate]. apply kind_eqb_eq in K. split; [exact K|now apply valid_name_iff]. }
  destruct Kt as (Kt & Vnew).
  assert (Occ : forall c u, InTree c u -> is_node u = false -> ekind u = IDENT -> Occurs c (etext u)).
  { intros c u Tu Nu Ku. pose proof (tok_in_tokens c u Tu Nu) as Hi. now rewrite Ku in Hi. }
  pose proof (Occ a t Tt Nt Kt) as Oold. fold old in Oold.
  pose proof (two_sim f a D Rn) as S1. fold b in S1. rewrite Ta, Tb in S1.
  assert (Sig : forall u, is_node u = false -> ekind u = IDENT -> sigE u = true).
  { intros u Nu Ku. unfold sigE, is_node, ekind in *. destruct (el u); [|discriminate]. cbn in Ku. rewrite Ku. reflexivity. }
  destruct (R_total _ _ _ S1 t Tt (Sig t Nt Kt)) as (t' & Rt).
  pose proof (R_counterpart _ _ _ _ _ Rt) as Ct.
  assert (Nt' : is_node t' = false) by (now rewrite <- (R_is_node _ _ _ _ _ Rt)).
  assert (Kt' : ekind t' = IDENT) by (now rewrite <- (R_kind _ _ _ _ _ Rt)).
  assert (Et' : etext t' = new).
  { destruct (R_name _ _ _ _ _ Rt Nt Kt) as [_ E]. rewrite E. unfold f, instead. fold old. now rewrite text_eqb_refl. }
  assert (Tt' : InTree b t') by apply Ct.
  exists es1, b, t'. split; [exact P1|]. split; [exact A1|]. split; [exact Ct|]. split; [exact Et'|]. split.
  { apply cursor_ident; auto; [now rewrite Tb| |now rewrite Tb].
    rewrite glen_tlen. fold (etext t'). rewrite Et'. destruct Vnew as (c & r & E & _). rewrite E. cbn [tlen app].
    pose proof (utf8_len_pos c). change (utf8_len c_dollar) with 1. lia. }
  intros pos' Hc'. destruct (C55_rename_undone a pos old new es t pos' t' D H Hnew Oold Hold Hc Hc' Ct) as (es2 & es3 & X). eauto.
Qed.
Print Assumptions C55_rename_back.

(** The hypotheses are met: [$f] becomes [$main]. *)
Example C55_rename_back_case :
  Document renamed_tree /\ gtext renamed_tree = renamed_ex
  /\ exists t es, CursorOn renamed_ex (0, 15) t /\ etext t = Text.T "$f"
    /\ rename renamed_ex (0, 15) (Text.T "$main") = Edits es /\ length es = 2
    /\ ~ Occurs renamed_tree (Text.T "$main")
    /\ forall u r, InTree renamed_tree u -> is_node u = false -> ekind u = IDENT -> RangeOf renamed_ex u r ->
         (etext u = etext t <-> exists e, In e es /\ fst e = r).
Proof.
  split; [apply ThmComplete.documentb_ok; vm_compute; reflexivity|]. split; [vm_compute; reflexivity|].
  destruct C55_rename_example as (es & H1 & H2 & H3 & H4).
  assert (X : exists t, CursorOn renamed_ex (0, 15) t /\ etext t = Text.T "$f").
  { unfold CursorOn. destruct (find_meaningful_token _ _ _) as [t| |] eqn:E; [|vm_compute in E; discriminate E|vm_compute in E; discriminate E].
    exists t. split; [reflexivity|]. vm_compute in E. injection E as <-. vm_compute. reflexivity. }
  destruct X as (t & X1 & X2). exists t, es. rewrite X2. split; [exact X1|]. split; [exact eq_refl|]. repeat (split; [assumption|]). exact H4.
Qed.
