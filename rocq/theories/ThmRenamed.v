(** The effect of renaming (C52). *)

From Coq Require Import String List NArith Bool Arith Lia Permutation.
From Verif Require Import Text Kind Green SpecParser Lexer LexerFacts Winnow Grammar Sem Lossless Total
  Bounds Lang TokForm Shape Red Unique LineIndex Cursor ThmPos Doc Ast Binder Preorder SpecBinder BinderFacts BinderDefs Blocks
  Nav NavSpec NavFacts ThmNav RefFacts SymCases TokKinds ThmRename SpecAction Action ThmAction ThmPrepare SpecRename.
From Verif Require SpecComplete ThmComplete.
Import ListNotations.
Notation Document := SpecComplete.Document.

Section Replace.
  Variables (at_ : nat -> bool) (new : text).
  Fixpoint rs (o : nat) (l : list green) : list green :=
    match l with [] => [] | c :: r => replaced at_ new o c :: rs (o + glen c) r end.
  Lemma replaced_node k cs o : replaced at_ new o (Node k cs) = Node k (rs o cs).
  Proof. reflexivity. Qed.
  Lemma rs_app a : forall o b, rs o (a ++ b) = rs o a ++ rs (o + glens a) b.
  Proof.
    induction a as [|c a IH]; intros o b; cbn [app rs].
    - unfold glens. cbn. now rewrite Nat.add_0_r.
    - rewrite IH. unfold glens. cbn [map list_sum fold_right]. now rewrite Nat.add_assoc.
  Qed.
  Lemma replaced_kind g o : gkind (replaced at_ new o g) = gkind g.
  Proof. destruct g as [k t|k cs]; cbn; [|reflexivity]. destruct (_ && _); reflexivity. Qed.
  Lemma replaced_tok k t o : k <> IDENT -> replaced at_ new o (Tok k t) = Tok k t.
  Proof. intros H. cbn. destruct (kind_eqb k IDENT) eqn:E; [apply kind_eqb_eq in E; congruence|reflexivity]. Qed.

  Lemma trivia_rs l : SpecComplete.Trivia l -> forall o, SpecComplete.Trivia (rs o l).
  Proof.
    induction 1 as [|g l H _ IH]; intros o; cbn [rs]; constructor; [|apply IH].
    destruct g as [k t|]; [|destruct H]. rewrite replaced_tok; [exact H|]. intros ->. discriminate.
  Qed.
  Lemma tight_rs l o : SpecComplete.Tight l -> SpecComplete.Tight (rs o l).
  Proof.
    destruct l as [|[k t|k cs] l]; cbn [rs]; intros H; [exact I| |exact I].
    cbn [replaced]. destruct (_ && _); exact H.
  Qed.
  Lemma reads_rs e l : SpecComplete.Reads e l -> forall o, SpecComplete.Reads e (rs o l).
  Proof.
    induction 1 as [s tr Ht|k t tr Ht Hk|b t tr Ht Hb|k e cs tr Ht _ IH Hc|k e cs _ IH|i l _ IH| |a b l m _ IHa _ IHb|a b l _ IH|a b l _ IH|a|a l m _ IHa _ IHb];
      intros o; rewrite ?rs_app; cbn [rs]; try (constructor; auto; fail).
    - rewrite replaced_tok by discriminate. constructor. now apply trivia_rs.
    - cbn [replaced]. destruct (_ && _); constructor; auto; now apply trivia_rs.
    - rewrite replaced_tok by discriminate. constructor; auto. now apply trivia_rs.
    - rewrite replaced_node. constructor; auto; [now apply trivia_rs|now apply tight_rs].
  Qed.

  (** *** Tokens *)

  Hypothesis Vnew : ValidName new.
  Inductive Tsim : kind * text -> kind * text -> Prop :=
  | Ts_same p : Tsim p p
  | Ts_new t : Tsim (IDENT, t) (IDENT, new).
  Lemma rs_tokens l : Forall (fun g => forall o, Forall2 Tsim (gtokens g) (gtokens (replaced at_ new o g))) l ->
    forall o, Forall2 Tsim (gtokenss l) (gtokenss (rs o l)).
  Proof.
    induction 1 as [|g l H _ IH]; intros o; [constructor|]. unfold gtokenss in *. cbn [rs map concat]. apply Forall2_app; auto.
  Qed.
  Lemma replaced_tokens g : forall o, Forall2 Tsim (gtokens g) (gtokens (replaced at_ new o g)).
  Proof.
    induction g as [k t|k cs IH] using green_ind'; intros o.
    - cbn [replaced]. destruct (kind_eqb k IDENT && at_ o) eqn:E; cbn [gtokens].
      + apply andb_prop in E as (E & _). apply kind_eqb_eq in E. subst k. constructor; constructor.
      + constructor; constructor.
    - rewrite replaced_node. cbn [gtokens]. now apply rs_tokens.
  Qed.

  Definition IdentForm (p : kind * text) : Prop := fst p = IDENT -> exists r, snd p = c_dollar :: r.
  Lemma new_dollar : exists r, new = c_dollar :: r.
  Proof. destruct Vnew as (c & r & -> & _). eauto. Qed.
  Lemma sim_sym_head l l' : Forall2 Tsim l l' -> Forall IdentForm l ->
    forall c x, SpecComplete.texts l' = c :: x -> exists x', SpecComplete.texts l = c :: x'.
  Proof.
    unfold SpecComplete.texts. induction 1 as [|p q l l' H _ IH]; intros F c x E; [discriminate|]. inversion F as [|? ? F1 F2]; subst.
    cbn [map concat] in *. destruct H as [[k t]|t]; cbn [snd] in *.
    - destruct t as [|a t]; cbn [app] in *; [now apply (IH F2 c x)|]. injection E as <- _. eauto.
    - destruct (F1 eq_refl) as (r & Er). cbn [snd] in Er. subst t. destruct new_dollar as (r' & Er'). rewrite Er' in E. cbn [app] in *. injection E as <- _. eauto.
  Qed.
  Lemma sim_prefix l l' : Forall2 Tsim l l' -> Forall IdentForm l ->
    forall p, ~ In c_dollar p -> SpecComplete.Prefix p (SpecComplete.texts l) -> SpecComplete.Prefix p (SpecComplete.texts l').
  Proof.
    unfold SpecComplete.texts. induction 1 as [|x y l l' H _ IH]; intros F p Np Hp; [exact Hp|]. inversion F as [|? ? F1 F2]; subst.
    cbn [map concat] in *. destruct H as [[k t]|t]; cbn [snd] in *.
    - destruct Hp as (r & E). clear F1 F. revert p r Np E. induction t as [|a t IHt]; intros p r Np E; cbn [app] in *.
      + apply IH; auto. now exists r.
      + destruct p as [|b p]; [exists (a :: t ++ concat (map snd l')); reflexivity|]. cbn [app] in E. injection E as -> E.
        destruct (IHt p r) as (r' & Hr'); [intros Hin; apply Np; now right|exact E|].
        exists r'. cbn [app]. now rewrite Hr'.
    - destruct (F1 eq_refl) as (r & Er). cbn [snd] in Er. subst t. destruct p as [|b p]; [eexists; reflexivity|].
      destruct Hp as (r0 & E). cbn [app] in E. injection E as E _. exfalso. apply Np. left. congruence.
  Qed.
  Lemma sim_nil l l' : Forall2 Tsim l l' -> Forall IdentForm l -> SpecComplete.texts l = [] -> SpecComplete.texts l' = [].
  Proof.
    intros H F E. destruct (SpecComplete.texts l') as [|c x] eqn:E'; [reflexivity|].
    destruct (sim_sym_head l l' H F c x E') as (x' & E''). congruence.
  Qed.
  Lemma new_form : SpecComplete.TokenForm IDENT new.
  Proof.
    destruct Vnew as (c & r & E & F). split; [|exact I]. cbn. exists (c :: r). split; [exact E|]. split; [discriminate|exact F].
  Qed.
  Lemma separated_sim l l' : Forall2 Tsim l l' -> Forall IdentForm l -> SpecComplete.Separated l -> SpecComplete.Separated l'.
  Proof.
    induction 1 as [|p q l l' H Hl IH]; intros F S; [exact I|]. inversion F as [|? ? F1 F2]; subst. destruct p as [k t], q as [k' t'].
    cbn [SpecComplete.Separated] in *. destruct S as (S1 & S2 & S3).
    assert (Hk : k' = k) by (inversion H; reflexivity). subst k'. split; [|split; [|auto]].
    - inversion H; subst; [exact S1|apply new_form].
    - pose proof (sim_sym_head l l' Hl F2) as Hh. pose proof (sim_prefix l l' Hl F2) as Hp. pose proof (sim_nil l l' Hl F2) as Hn.
      assert (G : (forall c x, SpecComplete.texts l = c :: x -> is_id_char c = false) -> forall c x, SpecComplete.texts l' = c :: x -> is_id_char c = false)
        by (intros A c x E; destruct (Hh c x E) as (x' & E'); eapply A; exact E').
      destruct k; cbn [SpecComplete.Follows] in *; try exact I; try (now apply G).
      + intros c x E. destruct (Hh c x E) as (x' & E'). eapply S2; exact E'.
      + destruct S2 as [S2|[S2|S2]]; [left; auto|right; left|right; right]; apply Hp; auto; intros Hin; vm_compute in Hin; intuition discriminate.
      + intros (r & E). destruct (Hh _ _ E) as (x' & E'). apply S2. now exists x'.
  Qed.
End Replace.

(** ** Applying the edits *)

Lemma edited_skip s : forall before rest es out, Edited (before ++ s) rest es out -> Edited before (s ++ rest) es (s ++ out).
Proof.
  intros before rest es out H. inversion H as [? ?|? skip old rest' r nw es' out' A B]; subst.
  - constructor.
  - rewrite !(app_assoc s). rewrite <- !app_assoc. rewrite (app_assoc s skip), (app_assoc s skip (nw ++ out')). apply Ed_edit.
    + now rewrite app_assoc.
    + rewrite <- !app_assoc. rewrite <- app_assoc in B. exact B.
Qed.

Section Edits.
  Variables (src new : text) (at_ : nat -> bool).
  Definition chosen (t : elem) : bool := negb (is_node t) && kind_eqb (ekind t) IDENT && at_ (estart t).
  Definition Goes (e : range * text) (t : elem) : Prop := RangeOf src t (fst e) /\ snd e = new.

  Lemma edited_tree g : forall o us before after es es2 out2,
    src = before ++ gtext g ++ after -> tlen before = o ->
    Forall2 Goes es (filter chosen (desc g o us)) ->
    Edited (before ++ gtext g) after es2 out2 ->
    Edited before (gtext g ++ after) (es ++ es2) (gtext (replaced at_ new o g) ++ out2).
  Proof.
    induction g as [k t|k cs IH] using green_ind'; intros o us before after es es2 out2 Hs Ho F H.
    - cbn [desc filter] in F. unfold chosen in F at 1. cbn [is_node el ekind gkind negb estart off andb] in F.
      cbn [replaced]. destruct (kind_eqb k IDENT && at_ o) eqn:C.
      + inversion F as [|[r x] ? es' ? [[R1 R2] E] F']; subst. inversion F'; subst. cbn [fst snd app gtext] in *. rewrite E. clear E.
        apply (Ed_edit before [] t after r new es2 out2); cbn [app]; [|now rewrite <- ?app_assoc in *].
        rewrite app_nil_r. eapply at_text; [exact Hs|exact R1|]. unfold eend in R2. cbn [off el glen] in R2. now rewrite tlen_app.
      + inversion F; subst. cbn [app gtext]. now apply edited_skip.
    - cbn [desc filter] in F. unfold chosen in F at 1. cbn [is_node el negb andb] in F. rewrite desc_kids in F.
      rewrite replaced_node. cbn [gtext] in *. revert F.
      enough (G : forall l, incl l cs -> forall i o' before es es2 out2, src = before ++ gtexts l ++ after -> tlen before = o' ->
        Forall2 Goes es (filter chosen (concat (map descendants_with_tokens (kids (Node k cs) o us i o' l)))) ->
        Edited (before ++ gtexts l) after es2 out2 ->
        Edited before (gtexts l ++ after) (es ++ es2) (gtexts (rs at_ new o' l) ++ out2))
        by (intros F; eapply G; eauto using incl_refl).
      rewrite Forall_forall in IH. clear Hs Ho H before es es2 out2. induction l as [|c l IHl]; intros Hc i o' before es es2 out2 Hs Ho F H.
      + cbn in F. inversion F; subst. unfold gtexts in *. cbn in *. now rewrite app_nil_r in H.
      + unfold gtexts in Hs, H. cbn [map concat] in Hs, H. fold (gtexts l) in Hs, H.
        cbn [kids map concat] in F. rewrite filter_app in F. apply Forall2_app_inv_r in F as (e1 & e2 & F1 & F2 & ->).
        unfold gtexts. cbn [map concat rs]. fold (gtexts l) (gtexts (rs at_ new (o' + glen c) l)). rewrite <- !app_assoc.
        refine (IH c _ o' _ before (gtexts l ++ after) e1 (e2 ++ es2) _ _ Ho F1 _); [apply Hc; now left|rewrite Hs; now rewrite <- app_assoc|].
        apply (IHl ltac:(intros z Hz; apply Hc; now right) (S i) (o' + glen c)); auto.
        * rewrite Hs, <- !app_assoc. reflexivity.
        * rewrite tlen_app, glen_tlen. lia.
        * now rewrite <- app_assoc.
  Qed.
End Edits.

Lemma perm_forall2 {A B} (R : A -> B -> Prop) l m m' : Permutation m m' -> Forall2 R l m -> exists l', Permutation l l' /\ Forall2 R l' m'.
Proof.
  intros P. revert l. induction P as [|x m m' P IH|x y m|m1 m2 m3 P1 IH1 P2 IH2]; intros l F.
  - inversion F; subst. exists []. split; constructor.
  - inversion F as [|a ? l' ? Ra F']; subst. destruct (IH l' F') as (l2 & P2 & F2). exists (a :: l2). split; constructor; auto.
  - inversion F as [|a ? l' ? Ra F']; subst. inversion F' as [|b ? l2 ? Rb F2]; subst. exists (b :: a :: l2). split; [apply perm_swap|]. repeat constructor; auto.
  - destruct (IH1 l F) as (l1 & Q1 & F1). destruct (IH2 l1 F1) as (l2 & Q2 & F2). exists l2. split; [eapply perm_trans; eauto|exact F2].
Qed.

(** ** C52 *)

Lemma document_tree tree : Document tree -> tree_of (gtext tree) = tree.
Proof. intros D. unfold tree_of. now rewrite (ThmComplete.C48_complete false tree D). Qed.
Lemma tok_in_tokens tree t : InTree tree t -> is_node t = false -> In (ekind t, etext t) (gtokens tree).
Proof.
  intros H N. enough (G : forall p, In p (gtokens (el t)) -> In p (gtokens tree)).
  { apply G. unfold is_node, ekind, etext in *. destruct (el t); [now left|discriminate]. }
  clear N. induction H as [|q c H IH Hc]; [auto|]. intros p Hp. apply IH. apply child_in in Hc as (l & g & r & E & ->). cbn [el] in Hp.
  destruct (el q) as [|k cs]; [destruct l; discriminate|]. cbn [gchildren] in E. subst cs. cbn [gtokens]. rewrite map_app, concat_app.
  apply in_or_app. right. cbn [map concat]. apply in_or_app. now left.
Qed.

(** Making the edits of a rename on a well-formed document gives a well-formed
    document: the one in which exactly the edited identifiers are replaced by
    the new name. *)
Theorem C52_renamed dbg tree pos new es :
  Document tree -> rename (gtext tree) pos new = Edits es ->
  exists ts es' tree',
    Forall (fun t => InTree tree t /\ is_node t = false /\ ekind t = IDENT) ts
    /\ Forall2 (fun e t => RangeOf (gtext tree) t (fst e) /\ snd e = new) es ts
    /\ tree' = replaced (starts_in (map estart ts)) new 0 tree
    /\ Permutation es es' /\ Applied (gtext tree) es' (gtext tree')
    /\ Document tree' /\ parse dbg (gtext tree') = Parsed tree' [].
Proof.
  intros D H. destruct (C22_valid_edits _ _ _ _ H) as (V & ts & ND & F & F2 & Dj). rewrite (document_tree tree D) in F.
  pose proof D as (ms & tl & Et & Rd & Tl & Sp).
  set (at_ := starts_in (map estart ts)). set (tree' := replaced at_ new 0 tree).
  assert (Id : Forall IdentForm (gtokens tree)).
  { apply Forall_forall. intros [k t] Hin Hk. cbn [fst snd] in *. subst k.
    assert (X : SpecComplete.TokenForm IDENT t).
    { clear - Sp Hin. induction (gtokens tree) as [|[k x] l IH]; [destruct Hin|]. destruct Sp as (S1 & _ & S3). destruct Hin as [E|Hin]; [now injection E as -> ->|auto]. }
    destruct X as ((r & X & _) & _). eauto. }
  assert (D' : Document tree').
  { unfold tree'. rewrite Et. rewrite replaced_node, rs_app. exists (rs at_ new 0 ms), (rs at_ new (0 + glens ms) tl).
    split; [reflexivity|]. split; [now apply reads_rs|]. split; [now apply trivia_rs|].
    rewrite <- rs_app, <- replaced_node, <- Et. eapply (separated_sim new V); [apply replaced_tokens|exact Id|exact Sp]. }
  set (sel := filter (chosen at_) (desc tree 0 [])).
  assert (Hin : forall t, In t ts <-> In t sel).
  { intros t. unfold sel. rewrite filter_In. unfold chosen. rewrite !andb_true_iff, negb_true_iff, kind_eqb_eq.
    change (desc tree 0 []) with (descendants_with_tokens (root_of tree)). rewrite desc_spec. fold (InTree tree t).
    rewrite Forall_forall in F. split.
    - intros Ht. destruct (F t Ht) as (A & B & C). repeat split; auto. unfold at_, starts_in. apply existsb_exists. exists (estart t).
      split; [now apply in_map|apply Nat.eqb_refl].
    - intros (A & (B & C) & E). unfold at_, starts_in in E. apply existsb_exists in E as (o & Ho & E). apply Nat.eqb_eq in E.
      apply in_map_iff in Ho as (t' & Eo & Ht'). destruct (F t' Ht') as (A' & B' & C').
      assert (Pos : forall z, InTree tree z -> is_node z = false -> ekind z = IDENT -> estart z < eend z).
      { intros z Hz Nz Kz. pose proof (tok_in_tokens tree z Hz Nz) as Z. rewrite Forall_forall in Id. apply Id in Z. destruct (Z Kz) as (r & Er). cbn [snd] in Er.
        unfold estart, eend. rewrite glen_tlen. unfold etext in Er. rewrite Er. unfold tlen. cbn. lia. }
      assert (Leaf : forall a b, is_node a = false -> Desc a b -> a = b).
      { intros a b Na Db. apply Desc_top in Db as [Db|(c & Hc & _)]; [exact Db|]. exfalso.
        unfold children_with_tokens in Hc. unfold is_node in Na. destruct (el a); [destruct Hc|discriminate]. }
      replace t with t'; [exact Ht'|]. pose proof (Pos t A B C). pose proof (Pos t' A' B' C').
      destruct (Desc_cases _ _ _ A A') as [Q|[Q|Q]]; [symmetry; now apply Leaf|now apply Leaf|]. exfalso.
      destruct Q as (q & l & ga & m & gb & r & ca & cb & _ & _ & Ea & Eb & [[D1 D2]|[D1 D2]]);
        apply Desc_range in D1, D2; subst ca cb; unfold estart, eend in *; cbn [off el] in *;
        rewrite ?glens_app, ?glens_cons in *; lia. }
  assert (P : Permutation ts sel).
  { apply NoDup_Permutation; [exact ND|apply NoDup_filter, desc_nodup|exact Hin]. }
  destruct (perm_forall2 _ es ts sel P F2) as (es' & Pe & F3).
  exists ts, es', tree'. split; [exact F|]. split; [exact F2|]. split; [reflexivity|]. split; [exact Pe|]. split; [|split; [exact D'|]].
  - unfold Applied. pose proof (edited_tree (gtext tree) new at_ tree 0 [] [] [] es' [] []) as E.
    rewrite !app_nil_r in E. cbn [app] in E. apply E; [reflexivity|reflexivity|exact F3|constructor].
  - now apply ThmComplete.C48_complete.
Qed.

(** ** Example *)

Definition renamed_ex : text := Text.T "(module (func $f (param $x i32) local.get $x) (start $f))".
Definition renamed_tree : green := tree_of renamed_ex.
(** The name of the function is changed at both places. *)
Example C52_case :
  Document renamed_tree /\ gtext renamed_tree = renamed_ex
  /\ (exists es, rename renamed_ex (0, 15) (Text.T "$main") = Edits es /\ length es = 2)
  /\ gtext (replaced (starts_in [14; 53]) (Text.T "$main") 0 renamed_tree)
     = Text.T "(module (func $main (param $x i32) local.get $x) (start $main))".
Proof.
  split; [apply ThmComplete.documentb_ok; vm_compute; reflexivity|]. split; [vm_compute; reflexivity|]. split; [|vm_compute; reflexivity].
  assert (E : match rename renamed_ex (0, 15) (Text.T "$main") with Edits es => length es =? 2 | _ => false end = true) by (vm_compute; reflexivity).
  destruct (rename renamed_ex (0, 15) (Text.T "$main")) as [| | |es|]; try discriminate E. exists es. split; [reflexivity|now apply Nat.eqb_eq].
Qed.
