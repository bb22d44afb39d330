(** Property C59: accepting a completion. *)

From Coq Require Import String List NArith Bool Arith Lia Permutation.
From Verif Require Import Text Kind Green SpecParser SpecSyntax Lexer LexerFacts Winnow Grammar Sem Lossless Total
  Bounds Lang TokForm Shape ThmParser ThmSyntax Red Unique LineIndex Cursor ThmPos Doc Ast Binder SpecBinder Nav NavSpec NavFacts Preorder BinderFacts BinderDefs TokKinds ThmNav
  ThmRename Types Check ThmCheck SemTok Hover SpecAction Action ThmAction ThmPrepare SpecRename ThmRenamed Completion SpecCompletion ThmCompletion SpecAlike Alike.
From Verif Require SpecComplete ThmComplete.
Import ListNotations.
Notation Document := SpecComplete.Document.

(** The document where the identifier that starts at [o] is written [x]. *)
Definition written_at (o : nat) (x : text) (tree : green) : green := replaced (starts_in [o]) x 0 tree.

Section Replaced.
  Variables (at_ : nat -> bool) (x : text).
  Notation rp := (replaced at_ x).
  Notation rsx := (rs at_ x).
  Definition Any (_ _ : text) : Prop := True.

  Lemma rp_significant o g : significant (rp o g) = significant g.
  Proof. destruct g as [k t|]; [|reflexivity]. cbn. destruct (_ && _) eqn:E; [|reflexivity]. reflexivity. Qed.
  Lemma rs_length : forall l o, length (rsx o l) = length l.
  Proof. induction l as [|c l IH]; intros o; [reflexivity|]. cbn [rs length]. now rewrite IH. Qed.
  Lemma rs_filter_length : forall l o, length (filter significant (rsx o l)) = length (filter significant l).
  Proof.
    induction l as [|c l IH]; intros o; [reflexivity|]. cbn [rs filter]. rewrite rp_significant.
    destruct (significant c); cbn [length]; now rewrite IH.
  Qed.
  Lemma rp_sim : forall g o, significant g = true -> Sim Any g (rp o g).
  Proof.
    induction g as [k t|k cs IH] using green_ind'; intros o S.
    - cbn [replaced]. cbn in S. apply negb_true_iff in S. destruct (kind_eqb k IDENT && at_ o) eqn:E; constructor; auto.
      + apply andb_prop in E as [E _]. rewrite E. exact I.
      + destruct (kind_eqb k IDENT); [exact I|reflexivity].
    - rewrite replaced_node. constructor. clear S. revert o. induction IH as [|c cs Hc _ IHl]; intros o; [constructor|].
      cbn [rs filter]. rewrite rp_significant. destruct (significant c) eqn:S; [constructor; [now apply Hc|]|]; apply IHl.
  Qed.

  Variable T : green.
  Notation R := (R Any T (rp 0 T)).

  Lemma R_replaced e e' : R e e' -> el e' = rp (off e) (el e).
  Proof.
    intros H. pose proof (R_in _ _ _ _ _ H) as HT. revert e' H. induction HT as [|p c Hp IH Hc]; intros e' H.
    - pose proof (R_ups _ _ _ _ _ H) as U. cbn [ups root_of] in U. inversion U as [E|]. pose proof (R_in' _ _ _ _ _ H) as I'.
      inversion I' as [|q d Hq Hd]; subst; [reflexivity|]. destruct (kids_ups _ _ Hd) as (u & E' & _). rewrite E' in *. discriminate.
    - pose proof (R_parent _ _ _ _ _ H) as Hpar. rewrite (parent_child _ _ Hc) in Hpar. inversion Hpar as [|? p' Rp E1 E2].
      subst a. symmetry in E2. pose proof (IH p' Rp) as Ep.
      pose proof (R_in' _ _ _ _ _ H) as I'. inversion I' as [|q d Hq Hd]; subst; [discriminate E2|].
      rewrite (parent_child _ _ Hd) in E2. injection E2 as ->.
      pose proof (R_place _ _ _ _ _ H) as Pl. pose proof (R_sig _ _ _ _ _ H) as [S1 S2].
      apply child_in in Hc as (l & g & r & G & ->). apply child_in in Hd as (l2 & g2 & r2 & G2 & ->).
      cbn [el off ups] in *. unfold place in Pl. cbn [map] in Pl. injection Pl as Pl _. unfold rank in Pl. cbn [u_idx u_green] in Pl.
      destruct (el p) as [|k cs]; [destruct l; discriminate G|]. rewrite Ep in *. rewrite replaced_node in *. cbn [gchildren] in *.
      rewrite G in *. rewrite rs_app in G2, Pl. cbn [rs] in G2, Pl.
      rewrite G2 in Pl.
      rewrite !firstn_app, !Nat.sub_diag, !firstn_all, !firstn_O, !app_nil_r in Pl.
      destruct (app_sig_inj (rsx (off p) l) l2 (rp (off p + glens l) g) g2 (rsx (off p + glens l + glen g) r) r2) as [_ E]; auto.
      + rewrite rp_significant. exact S1.
      + rewrite rs_filter_length. exact Pl.
  Qed.
End Replaced.

Section Accept.
  Variables (tree : green) (D : Document tree) (t n : elem) (x : text).
  Hypothesis Hn : InTree tree n.
  Hypothesis Ht : token n IDENT = Some t.
  Hypothesis Vx : ValidName x.
  Notation new := (written_at (estart t) x tree).
  Notation R := (R Any tree new).

  Lemma identform : Forall IdentForm (gtokens tree).
  Proof.
    pose proof D as (ms & tl & Et & Rd & Tl & Sp).
    apply Forall_forall. intros [k t0] Hin Hk. cbn [fst snd] in *. subst k.
    assert (X : SpecComplete.TokenForm IDENT t0).
    { clear - Sp Hin. induction (gtokens tree) as [|[k x] l IH]; [destruct Hin|]. destruct Sp as (S1 & _ & S3). destruct Hin as [E|Hin]; [now injection E as -> ->|auto]. }
    destruct X as ((r & X & _) & _). eauto.
  Qed.
  Lemma new_document : Document new.
  Proof.
    pose proof D as (ms & tl & Et & Rd & Tl & Sp). pose proof identform as Id. unfold written_at. rewrite Et.
    rewrite replaced_node, rs_app. eexists _, _.
    split; [reflexivity|]. split; [now apply reads_rs|]. split; [now apply trivia_rs|].
    rewrite <- rs_app, <- replaced_node, <- Et. eapply (separated_sim x Vx); [apply replaced_tokens|exact Id|exact Sp].
  Qed.
  Lemma token_facts e k : InTree tree e -> forall u, token e k = Some u ->
    InTree tree u /\ is_node u = false /\ ekind u = k /\ parent u = Some e.
  Proof.
    intros He u Hu. apply find_some in Hu as [Hc Hu]. apply andb_prop in Hu as [N K]. apply negb_true_iff in N. apply kind_eqb_eq in K.
    split; [econstructor; eauto|]. repeat split; auto. now apply parent_child.
  Qed.
  Lemma ident_long z : InTree tree z -> is_node z = false -> ekind z = IDENT -> estart z < eend z.
  Proof.
    intros Hz Nz Kz. pose proof (tok_in_tokens tree z Hz Nz) as Z. pose proof identform as Id.
    rewrite Forall_forall in Id. apply Id in Z. destruct (Z Kz) as (r & Er). cbn [snd] in Er.
    unfold estart, eend. rewrite glen_tlen. unfold etext in Er. rewrite Er. unfold tlen. cbn. lia.
  Qed.
  Lemma ident_unique a b : InTree tree a -> is_node a = false -> ekind a = IDENT ->
    InTree tree b -> is_node b = false -> ekind b = IDENT -> estart a = estart b -> a = b.
  Proof.
    intros A Na Ka B Nb Kb E.
    assert (Leaf : forall a b, is_node a = false -> Desc a b -> a = b).
    { intros u v Nu Duv. apply Desc_top in Duv as [Duv|(c & Hc & _)]; [exact Duv|]. exfalso.
      unfold children_with_tokens in Hc. unfold is_node in Nu. destruct (el u); [destruct Hc|discriminate]. }
    pose proof (ident_long a A Na Ka). pose proof (ident_long b B Nb Kb).
    destruct (Desc_cases _ _ _ A B) as [Q|[Q|Q]]; [now apply Leaf|symmetry; now apply Leaf|]. exfalso.
    destruct Q as (q & l & ga & m & gb & r & ca & cb & _ & _ & Ea & Eb & [[D1 D2]|[D1 D2]]);
      apply Desc_range in D1, D2; subst ca cb; unfold estart, eend in *; cbn [off el] in *;
      rewrite ?glens_app, ?glens_cons in *; lia.
  Qed.

  Lemma sim_new : Sim Any tree new.
  Proof. apply rp_sim. destruct D as (ms & tl & -> & _). reflexivity. Qed.

  Lemma t_facts : InTree tree t /\ is_node t = false /\ ekind t = IDENT /\ parent t = Some n.
  Proof. apply token_facts with (k := IDENT); auto. Qed.
  Lemma text_at e e' : R e e' -> is_node e = false -> ekind e = IDENT -> etext e' = if Nat.eqb (estart e) (estart t) then x else etext e.
  Proof.
    intros H N K. pose proof (R_replaced _ _ _ _ _ H) as E. unfold etext. rewrite E. unfold is_node, ekind, estart in *.
    destruct (el e) as [k u|]; [|discriminate N]. cbn [gkind] in K. subst k. cbn [replaced].
    rewrite (proj2 (kind_eqb_eq IDENT IDENT) eq_refl). cbn [andb starts_in existsb]. rewrite orb_false_r.
    destruct (Nat.eqb (off e) (off t)); reflexivity.
  Qed.
  Lemma text_there t' : R t t' -> etext t' = x.
  Proof. destruct t_facts as (_ & N & K & _). intros H. rewrite (text_at t t' H N K), Nat.eqb_refl. reflexivity. Qed.
  Lemma text_else e e' : R e e' -> is_node e = false -> ekind e = IDENT -> e <> t -> etext e' = etext e.
  Proof.
    intros H N K Ne. destruct t_facts as (Tt & Nt & Kt & _). rewrite (text_at e e' H N K).
    destruct (Nat.eqb_spec (estart e) (estart t)) as [E|]; [|reflexivity]. exfalso. apply Ne. apply ident_unique; auto. apply H.
  Qed.

  (** Names of nodes other than the reference stay. *)
  Lemma name_else d d' : R d d' -> d <> n -> OptR (fun u v => R u v /\ etext v = etext u) (token d IDENT) (token d' IDENT).
  Proof.
    intros H Ne. pose proof (R_token _ _ _ IDENT _ _ eq_refl H) as Ho. destruct (token d IDENT) as [u|] eqn:E; inversion Ho as [|? v Huv]; subst; constructor.
    split; [exact Huv|]. destruct (token_facts d IDENT (R_in _ _ _ _ _ H) u E) as (_ & N & K & P). apply text_else; auto.
    intros ->. destruct t_facts as (_ & _ & _ & P'). congruence.
  Qed.
  Lemma has_name_else y d d' : R d d' -> d <> n -> has_name y d = has_name y d'.
  Proof. intros H Ne. unfold has_name. destruct (name_else d d' H Ne) as [|u v [_ E]]; [reflexivity|]. now rewrite E. Qed.
  Lemma slot_has_name_else y d d' : R d d' -> d <> n -> slot_has_name y d = slot_has_name y d'.
  Proof.
    intros H Ne. unfold slot_has_name, slot_name. rewrite (R_kind _ _ _ _ _ H). destruct (kind_eqb _ _); [reflexivity|].
    destruct (name_else d d' H Ne) as [|u v [_ E]]; [reflexivity|]. cbn [option_map]. now rewrite E.
  Qed.

  (** ** The reference *)

  Lemma named_instr_R p p' l : R p p' -> named_instr p l -> named_instr p' l.
  Proof.
    intros H (K & u & Hu & Hin). split; [now rewrite <- (R_kind _ _ _ _ _ H)|].
    pose proof (R_token _ _ _ INSTR_NAME _ _ eq_refl H) as Ho. rewrite Hu in Ho. inversion Ho as [|? v Huv]; subst.
    exists v. split; [reflexivity|]. destruct (token_facts p INSTR_NAME (R_in _ _ _ _ _ H) u Hu) as (_ & N & Ku & _).
    rewrite <- (R_text _ _ _ _ _ Huv); auto. congruence.
  Qed.
  Lemma asks_R n' a : R n n' -> Asks n a -> Asks n' a.
  Proof.
    intros H A. assert (P : forall p, parent n = Some p -> exists p', parent n' = Some p' /\ R p p').
    { intros p Hp. pose proof (R_parent _ _ _ _ _ H) as Ho. rewrite Hp in Ho. inversion Ho as [|? p' Hpp]; subst. eauto. }
    assert (C : forall p p' k, R p p' -> child p k = Some n -> child p' k = Some n').
    { intros p p' k Hp Hc. pose proof (R_child _ _ _ k _ _ Hp) as Ho. rewrite Hc in Ho. inversion Ho as [|? c' Hcc]; subst. f_equal.
      eapply R_fun; eauto. }
    destruct A as [p Hp Hi|p Hp Hi|p Hp Hi|p r Hp Hi Hc|p Hp Hi|p Hp Hi|p Hp Hk Hc|p Hp Hk Hc|p Hp Hk Hc|p Hp Hk Hc];
      destruct (P p Hp) as (p' & Hp' & Hpp).
    - eapply Asks_call; eauto using named_instr_R.
    - eapply Asks_global; eauto using named_instr_R.
    - eapply Asks_table; eauto using named_instr_R.
    - pose proof (R_children _ _ _ _ _ Hpp) as HF. rewrite Hc in HF. inversion HF as [|? c' ? r' Hcc HF' E1 E2]; subst.
      assert (c' = n') as -> by (eapply R_fun; eauto). eapply Asks_init; eauto using named_instr_R.
    - eapply Asks_local; eauto using named_instr_R.
    - eapply Asks_label; eauto using named_instr_R.
    - eapply Asks_func_index; eauto. now rewrite <- (R_kind _ _ _ _ _ Hpp).
    - eapply Asks_type_index; eauto. now rewrite <- (R_kind _ _ _ _ _ Hpp).
    - eapply Asks_mem_index; eauto. now rewrite <- (R_kind _ _ _ _ _ Hpp).
    - eapply Asks_table_index; eauto. now rewrite <- (R_kind _ _ _ _ _ Hpp).
  Qed.
  Lemma written_R n' t' : R n n' -> R t t' -> Written n' (Named x).
  Proof.
    intros H H'. pose proof (R_token _ _ _ IDENT _ _ eq_refl H) as Ho. rewrite Ht in Ho. inversion Ho as [|? v Huv E1 E2]; subst.
    rewrite <- (text_there v Huv). now constructor.
  Qed.
  Lemma around_R n' m k : R n n' -> InTree tree m -> Desc m n -> is_node m = true -> ekind m = k ->
    exists m', R m m' /\ InTree new m' /\ Desc m' n' /\ is_node m' = true /\ ekind m' = k.
  Proof.
    intros H Tm Dm Nm Km. pose proof (R_ancestors _ _ _ _ _ H) as HF. apply Desc_ancestors in Dm.
    destruct (F2_in_l _ _ _ m HF Dm) as (m' & Hin & Hm). exists m'. split; [exact Hm|].
    destruct (ancestors_Desc new m' n' (R_in' _ _ _ _ _ H) Hin) as [I1 I2]. repeat split; auto.
    - now rewrite <- (R_is_node _ _ _ _ _ Hm).
    - now rewrite <- (R_kind _ _ _ _ _ Hm).
  Qed.

  (** ** What the reference means afterwards *)

  Definition ShownAt (r : (nat * nat) * (nat * nat)) (d : elem) : Prop :=
    exists d', Counterpart tree new d d' /\ Shows (gtext new) r d'.

  Lemma shown_at rs ds ds' : Forall2 R ds ds' -> Forall2 (Shows (gtext new)) rs ds' -> Forall2 ShownAt rs ds.
  Proof.
    intros H. revert rs. induction H as [|d d' ds ds' Hd _ IH]; intros rs HS; inversion HS as [|r ? rs' ? Hr HS']; subst; constructor; auto.
    exists d'. split; [now apply R_counterpart in Hd|exact Hr].
  Qed.
  Lemma F2_filter_in {A B} (P : A -> B -> Prop) f g : forall l l', Forall2 P l l' ->
    (forall a b, In a l -> P a b -> f a = g b) -> Forall2 P (filter f l) (filter g l').
  Proof.
    induction 1 as [|a b l l' H HF IH]; intros E; [constructor|]. cbn [filter]. rewrite (E a b (or_introl eq_refl) H).
    destruct (g b); [constructor; [exact H|]|]; apply IH; intros; apply E; auto; now right.
  Qed.
  Lemma F2_find_in {A B} (P : A -> B -> Prop) f g : forall l l', Forall2 P l l' ->
    (forall a b, In a l -> P a b -> f a = g b) -> OptR P (find f l) (find g l').
  Proof.
    induction 1 as [|a b l l' H HF IH]; intros E; [constructor|]. cbn [find]. rewrite (E a b (or_introl eq_refl) H).
    destruct (g b); [now constructor|]; apply IH; intros; apply E; auto; now right.
  Qed.

  Hypothesis Nn : is_node n = true.
  Variable a : asked.
  Hypothesis Ha : Asks n a.
  Lemma n_kind : ekind n = OPERAND \/ ekind n = INDEX.
  Proof.
    pose proof (document_tree tree D) as E. pose proof Hn as Hn'. rewrite <- E in Hn'. pose proof (asks_operand (gtext tree) n a Hn' Nn Ha) as K.
    apply orb_prop in K as [K|K]; apply kind_eqb_eq in K; auto.
  Qed.
  Lemma def_not_n s m d : In d (definitions_of s m) -> d <> n.
  Proof.
    intros Hd ->. apply filter_In in Hd as [_ Hd]. unfold has_sort, def_sort in Hd. destruct n_kind as [K|K]; rewrite K in Hd; discriminate.
  Qed.
  Lemma definitions_R s m m' : R m m' -> is_node m = true -> Forall2 R (definitions_of s m) (definitions_of s m').
  Proof.
    intros H N. apply F2_filter; [|now apply R_descendants]. intros u v Huv. unfold has_sort, def_sort. now rewrite (R_kind _ _ _ _ _ Huv).
  Qed.
  Lemma entries_R e e' : R e e' -> Forall2 R (entries e) (entries e').
  Proof.
    intros H. unfold entries. pose proof (R_token _ _ _ IDENT _ _ eq_refl H) as Ho. inversion Ho as [|u v Huv]; subst.
    - now apply R_childs.
    - constructor; [exact H|constructor].
  Qed.
  Lemma locals_R f f' : R f f' -> Forall2 R (locals_space f) (locals_space f').
  Proof.
    intros H. unfold locals_space. apply Forall2_app.
    - pose proof (R_child _ _ _ TYPE_USE _ _ H) as Ho. inversion Ho as [|u v Huv]; subst; [constructor|].
      eapply F2_flat_map; [apply entries_R|now apply R_childs].
    - eapply F2_flat_map; [apply entries_R|now apply R_childs].
  Qed.
  Lemma slot_not_n f d : In d (locals_space f) -> d <> n.
  Proof.
    intros Hd ->. assert (E : forall e k, In e (childs f k) \/ (exists u, In e (childs u k)) -> ekind e = k).
    { intros e k [H|(u & H)]; apply filter_In in H as [_ H]; now apply kind_eqb_eq in H. }
    assert (G : forall e, In n (entries e) -> ekind e = PARAM \/ ekind e = LOCAL -> False).
    { intros e He Ke. unfold entries in He. destruct (token e IDENT).
      - destruct He as [->|[]]. destruct n_kind as [K|K]; rewrite K in Ke; destruct Ke; discriminate.
      - apply filter_In in He as [_ He]. apply kind_eqb_eq in He. destruct n_kind as [K|K]; rewrite K in He; discriminate. }
    unfold locals_space in Hd. apply in_app_or in Hd as [Hd|Hd].
    - destruct (child f TYPE_USE) as [tu|]; [|destruct Hd]. apply in_flat_map in Hd as (e & He & Hd). apply (G e Hd). left. apply E. eauto.
    - apply in_flat_map in Hd as (e & He & Hd). apply (G e Hd). right. apply E. eauto.
  Qed.
  Lemma while_block_R : forall l l', Forall2 R l l' -> Forall2 R (while_block l) (while_block l').
  Proof.
    induction 1 as [|u v l l' H _ IH]; cbn [while_block]; [constructor|]. unfold is_block. rewrite (R_kind _ _ _ _ _ H).
    destruct (existsb _ _); constructor; auto.
  Qed.
  Lemma blocks_R n' : R n n' -> Forall2 R (direct_blocks n) (direct_blocks n').
  Proof.
    intros H. unfold direct_blocks. pose proof (R_ancestors _ _ _ _ _ H) as HF.
    assert (Ho : OptR R (find is_block (ancestors n)) (find is_block (ancestors n'))).
    { apply F2_find; [|exact HF]. intros u v Huv. unfold is_block. now rewrite (R_kind _ _ _ _ _ Huv). }
    destruct Ho as [|u v Huv]; [constructor|]. now apply while_block_R, R_ancestors.
  Qed.
  Lemma block_not_n d : In d (direct_blocks n) -> d <> n.
  Proof.
    intros Hd ->. assert (B : is_block n = true).
    { unfold direct_blocks in Hd. destruct (find is_block (ancestors n)) as [b|]; [|destruct Hd]. revert Hd. generalize (ancestors b).
      induction l as [|u l IH]; cbn [while_block]; [intros []|]. destruct (is_block u) eqn:E; [|intros []]. intros [->|Hd]; auto. }
    unfold is_block in B. destruct n_kind as [K|K]; rewrite K in B; discriminate.
  Qed.

  Variables (t' : elem) (pos' : nat * nat).
  Hypothesis Hc : Counterpart tree new t t'.
  Hypothesis Hpos : CursorOn (gtext new) pos' t'.
  Lemma new_tree : tree_of (gtext new) = new.
  Proof. apply document_tree, new_document. Qed.
  Lemma there : exists n', R t t' /\ R n n' /\ parent t' = Some n' /\ Asks n' a /\ Written n' (Named x).
  Proof.
    pose proof (counterpart_R _ _ _ sim_new t t' Hc) as Rt. destruct t_facts as (_ & _ & _ & Pt).
    pose proof (R_parent _ _ _ _ _ Rt) as Ho. rewrite Pt in Ho. inversion Ho as [|? n' Rn E1 E2]; subst. exists n'.
    split; [exact Rt|]. split; [exact Rn|]. split; [reflexivity|]. split; [now apply asks_R|]. eapply written_R; eauto.
  Qed.
End Accept.

(** Writing another name into a reference: the edit gives a document. *)
Theorem C59_document dbg tree n t x :
  Document tree -> InTree tree n -> token n IDENT = Some t -> ValidName x ->
  let new := written_at (estart t) x tree in
  exists r, RangeOf (gtext tree) t r /\ Applied (gtext tree) [(r, x)] (gtext new)
    /\ Document new /\ parse dbg (gtext new) = Parsed new [].
Proof.
  intros D Hn Ht Vx new. pose proof (document_tree tree D) as Et. pose proof (new_document tree D t x Vx) as Dn.
  destruct (t_facts tree t n Hn Ht) as (Tt & Nt & Kt & _).
  assert (Hr : exists r, RangeOf (gtext tree) t r).
  { pose proof Tt as Tt'. rewrite <- Et in Tt'. destruct (range_of_ok _ _ Tt') as (r & _ & Hr). exists r. exact Hr. }
  destruct Hr as (r & Hr). exists r. split; [exact Hr|]. split; [|split; [exact Dn|now apply ThmComplete.C48_complete]].
  unfold Applied. pose proof (edited_tree (gtext tree) x (starts_in [estart t]) tree 0 [] [] [] [(r, x)] [] []) as E.
  rewrite !app_nil_r in E. cbn [app] in E. apply E; [reflexivity|reflexivity| |constructor].
  assert (P : Permutation [t] (filter (chosen (starts_in [estart t])) (desc tree 0 []))).
  { apply NoDup_Permutation; [repeat constructor; intros []|apply NoDup_filter, desc_nodup|].
    intros z. rewrite filter_In. unfold chosen. rewrite !andb_true_iff, negb_true_iff, kind_eqb_eq.
    change (desc tree 0 []) with (descendants_with_tokens (root_of tree)). rewrite desc_spec. fold (InTree tree z).
    unfold starts_in. cbn [existsb]. rewrite orb_false_r, Nat.eqb_eq. split.
    - intros [<-|[]]. repeat split; auto.
    - intros (A & (B & C) & E'). left. apply (ident_unique tree D); auto. }
  apply Permutation_length_1_inv in P. rewrite P. constructor; [|constructor]. split; [exact Hr|reflexivity].
Qed.
Print Assumptions C59_document.

(** What a module-level reference means after that: the definitions of the
    asked sort that have the name. *)
Theorem C59_module tree n t x s m t' pos' :
  Document tree -> InTree tree n -> is_node n = true -> token n IDENT = Some t -> ValidName x ->
  Asks n (AModule s) -> in_module n m -> InTree tree m ->
  let new := written_at (estart t) x tree in
  Counterpart tree new t t' -> CursorOn (gtext new) pos' t' ->
  exists rs, goto_definition (gtext new) pos' = Ans (Array rs)
    /\ Forall2 (ShownAt tree t x) rs (filter (has_name x) (definitions_of s m)).
Proof.
  intros D Hn Nn Ht Vx A (Km & Nm & Dm) Tm new Hc Hpos.
  destruct (there tree D t n x Hn Ht _ A t' Hc) as (n' & Rt & Rn & Pt & A' & W').
  destruct (around_R tree t n x n' m MODULE Rn Tm Dm Nm Km) as (m' & Rm & Tm' & Dm' & Nm' & Km').
  pose proof (new_tree tree D t x Vx) as En. fold new in En, Tm'. rewrite <- En in Tm'.
  destruct (C13_named_definitions (gtext new) pos' t' n' s x m' Hpos Pt A' W' (conj Km' (conj Nm' Dm')) Tm') as (rs & G & F).
  exists rs. split; [exact G|]. eapply shown_at; [|exact F]. apply F2_filter_in; [now apply definitions_R|].
  intros d d' Hd Rd. apply (has_name_else tree D t n x Hn Ht); [exact Rd|]. eapply def_not_n; eauto.
Qed.
Print Assumptions C59_module.

(** A reference to a parameter or local: the first one that has the name. *)
Theorem C59_local tree n t x f t' pos' :
  Document tree -> InTree tree n -> is_node n = true -> token n IDENT = Some t -> ValidName x ->
  Asks n ALocal -> in_func n f -> InTree tree f ->
  let new := written_at (estart t) x tree in
  Counterpart tree new t t' -> CursorOn (gtext new) pos' t' ->
  match find (slot_has_name x) (locals_space f) with
  | Some d => exists r, goto_definition (gtext new) pos' = Ans (Scalar r) /\ ShownAt tree t x r d
  | None => goto_definition (gtext new) pos' = NoAns
  end.
Proof.
  intros D Hn Nn Ht Vx A (Km & Nm & Dm) Tm new Hc Hpos.
  destruct (there tree D t n x Hn Ht _ A t' Hc) as (n' & Rt & Rn & Pt & A' & W').
  destruct (around_R tree t n x n' f MODULE_FIELD_FUNC Rn Tm Dm Nm Km) as (m' & Rm & Tm' & Dm' & Nm' & Km').
  pose proof (new_tree tree D t x Vx) as En. fold new in En, Tm'. rewrite <- En in Tm'.
  pose proof (C15_locals (gtext new) pos' t' n' (Named x) m' Hpos Pt A' W' (conj Km' (conj Nm' Dm')) Tm') as G.
  assert (Ho : OptR (Alike.R Any tree new) (find (slot_has_name x) (locals_space f)) (find (slot_has_name x) (locals_space m'))).
  { apply F2_find_in; [now apply locals_R|]. intros d d' Hd Rd. apply (slot_has_name_else tree D t n x Hn Ht); [exact Rd|]. eapply slot_not_n; eauto. }
  cbn [local_target] in G. destruct Ho as [|d d' Rd]; [exact G|]. destruct G as (r & G & S). exists r. split; [exact G|].
  exists d'. split; [now apply R_counterpart in Rd|exact S].
Qed.
Print Assumptions C59_local.

(** A label: the innermost of the directly enclosing blocks that has it. *)
Theorem C59_label tree n t x t' pos' :
  Document tree -> InTree tree n -> is_node n = true -> token n IDENT = Some t -> ValidName x ->
  Asks n ALabel ->
  let new := written_at (estart t) x tree in
  Counterpart tree new t t' -> CursorOn (gtext new) pos' t' ->
  match find (has_name x) (direct_blocks n) with
  | Some d => exists r, goto_definition (gtext new) pos' = Ans (Scalar r) /\ ShownAt tree t x r d
  | None => goto_definition (gtext new) pos' = NoAns
  end.
Proof.
  intros D Hn Nn Ht Vx A new Hc Hpos.
  destruct (there tree D t n x Hn Ht _ A t' Hc) as (n' & Rt & Rn & Pt & A' & W').
  pose proof (C16_labels (gtext new) pos' t' n' (Named x) Hpos Pt A' W') as G.
  assert (Ho : OptR (Alike.R Any tree new) (find (has_name x) (direct_blocks n)) (find (has_name x) (direct_blocks n'))).
  { apply F2_find_in; [now apply blocks_R|]. intros d d' Hd Rd. apply (has_name_else tree D t n x Hn Ht); [exact Rd|]. eapply block_not_n; eauto. }
  cbn [label_target] in G. destruct Ho as [|d d' Rd]; [exact G|]. destruct G as (r & G & S). exists r. split; [exact G|].
  exists d'. split; [now apply R_counterpart in Rd|exact S].
Qed.
Print Assumptions C59_label.

(** ** Accepting a completion *)

Lemma ident_valid tree n t : Document tree -> InTree tree n -> token n IDENT = Some t -> ValidName (etext t).
Proof.
  intros D Hn Ht. destruct (t_facts tree t n Hn Ht) as (Tt & Nt & Kt & _). pose proof (tok_in_tokens tree t Tt Nt) as Hin. rewrite Kt in Hin.
  pose proof D as (ms & tl & Et & Rd & Tl & Sp).
  assert (X : SpecComplete.TokenForm IDENT (etext t)).
  { clear - Sp Hin. induction (gtokens tree) as [|[k x] l IH]; [destruct Hin|]. destruct Sp as (S1 & _ & S3). destruct Hin as [E|Hin]; [now injection E as -> ->|auto]. }
  destruct X as [(r & -> & Hr & Hc) _]. destruct r as [|c r]; [congruence|]. exists c, r. auto.
Qed.
Lemma in_numbered : forall l i j d, In (j, d) (numbered i l) -> In d l.
Proof. induction l as [|e l IH]; intros i j d H; [destruct H|]. destruct H as [H|H]; [injection H as _ ->; now left|right; eapply IH; exact H]. Qed.
Lemma not_ref_mem n a : Asks n a -> (forall p, parent n = Some p -> ekind p <> MEM_USE) ->
  forall t, parent t = Some n -> AsksAt t a.
Proof. intros A H t P. now apply At_reference with n. Qed.

(** What is offered at an identifier: entries of the scope that have a name,
    which the accepted item puts after the dollar sign. *)
Lemma offered_name tree pos n t a l its it :
  Document tree -> CursorAfter (gtext tree) pos t -> InTree tree n -> token n IDENT = Some t ->
  Asks n a -> (forall p, parent n = Some p -> ekind p <> MEM_USE) -> InScopeAt (gtext tree) t a l ->
  completion (gtext tree) pos = Ans its -> In it its ->
  exists i d u r, In (i, d) l /\ token d IDENT = Some u /\ c_label it = etext u /\ c_label it = 36%N :: r /\ c_insert it = Some r.
Proof.
  intros D C Hn Ht A Hm S E Hi. destruct (t_facts tree t n Hn Ht) as (Tt & Nt & Kt & Pt).
  pose proof (not_ref_mem n a A Hm t Pt) as At.
  assert (Dl : at_dollar t = true).
  { destruct (ident_valid tree n t D Hn Ht) as (c & r & Ex & _). unfold at_dollar. rewrite Ex. reflexivity. }
  destruct (C36_references_exact (gtext tree) pos t a l C At S) as (its' & E' & F). rewrite E in E'. injection E' as <-. rewrite Dl in F.
  assert (G : exists p, In p (filter named_entry l) /\ Offered (gtext tree) true a p it).
  { clear -F Hi. induction F as [|p i l' its' H _ IH]; [destruct Hi|]. destruct Hi as [->|Hi]; [exists p; split; [now left|exact H]|].
    destruct (IH Hi) as (q & Hq & Oq). exists q. split; [now right|exact Oq]. }
  destruct G as ([i d] & Hp & (L & _)). apply filter_In in Hp as [Hp Np]. unfold named_entry in Np. unfold Labelled in L. cbn [snd fst] in *.
  destruct (token d IDENT) as [u|] eqn:Eu; [|discriminate]. destruct L as (L1 & r & L2 & L3). exists i, d, u, r. repeat split; auto. congruence.
Qed.

(** Accepting a definition of the module: the reference then leads to the
    definition offered, and is not reported as undefined. *)
Theorem C59_accepted tree pos n t s m its it :
  Document tree -> CursorAfter (gtext tree) pos t -> InTree tree n -> is_node n = true -> token n IDENT = Some t ->
  Asks n (AModule s) -> (forall p, parent n = Some p -> ekind p <> MEM_USE) -> in_module n m -> InTree tree m ->
  completion (gtext tree) pos = Ans its -> In it its ->
  exists r d, c_label it = 36%N :: r /\ c_insert it = Some r /\ ValidName (c_label it)
    /\ In d (definitions_of s m) /\ has_name (c_label it) d = true
    /\ let new := written_at (estart t) (c_label it) tree in
       forall t' pos', Counterpart tree new t t' -> CursorOn (gtext new) pos' t' ->
       (exists rs rg, goto_definition (gtext new) pos' = Ans (Array rs) /\ In rg rs /\ ShownAt tree t (c_label it) rg d)
       /\ forall n', parent t' = Some n' -> ~ Unresolved (gtext new) n' (Named (c_label it)).
Proof.
  intros D C Hn Nn Ht A Hm M Tm E Hi. pose proof (document_tree tree D) as Et.
  destruct (t_facts tree t n Hn Ht) as (Tt & Nt & Kt & Pt).
  assert (S : InScopeAt (gtext tree) t (AModule s) (filter (fun p => has_sort s (snd p)) (numbered 0 (definitions m)))).
  { constructor; [|now rewrite Et]. destruct M as (K & N & Dm). split; [exact K|]. split; [exact N|].
    apply find_some in Ht as [Hc _]. econstructor; eauto. }
  destruct (offered_name tree pos n t _ _ its it D C Hn Ht A Hm S E Hi) as (i & d & u & r & Hl & Hu & L1 & L2 & L3).
  apply filter_In in Hl as [Hl Hs]. cbn [snd] in Hs. apply in_numbered in Hl.
  assert (Hd : In d (definitions_of s m)).
  { unfold definitions in Hl. apply filter_In in Hl as [Hl _]. now apply filter_In. }
  assert (Td : InTree tree d).
  { unfold definitions in Hl. apply filter_In in Hl as [Hl _]. apply filter_In in Hl as [Hl _]. apply desc_spec in Hl. exact (Desc_trans _ _ _ Tm Hl). }
  assert (Vx : ValidName (c_label it)) by (rewrite L1; eapply ident_valid; eauto).
  assert (Hx : has_name (c_label it) d = true) by (unfold has_name; rewrite Hu, L1; apply text_eqb_refl).
  exists r, d. repeat (split; [assumption|]). intros new t' pos' Hc Hpos.
  destruct (C59_module tree n t (c_label it) s m t' pos' D Hn Nn Ht Vx A M Tm Hc Hpos) as (rs & G & F). fold new in G.
  assert (Hf : In d (filter (has_name (c_label it)) (definitions_of s m))) by now apply filter_In.
  destruct (F2_in_r _ _ _ d F Hf) as (rg & Hrg & Sh). split; [exists rs, rg; auto|].
  intros n' Pn'. destruct (there tree D t n (c_label it) Hn Ht _ A t' Hc) as (n2 & Rt & Rn & Pt' & A' & W').
  assert (n2 = n') as -> by congruence. destruct M as (Km & Nm & Dm).
  destruct (around_R tree t n (c_label it) n' m MODULE Rn Tm Dm Nm Km) as (m' & Rm & Tm' & Dm' & Nm' & Km').
  pose proof (new_tree tree D t (c_label it) Vx) as En. fold new in En, Tm'. rewrite <- En in Tm'.
  intros U. apply (proj1 (C19_goto_definition (gtext new) pos' t' n' (Named (c_label it)) Hpos Pt' W'
    (IS_module _ _ s m' A' (conj Km' (conj Nm' Dm')) Tm'))) in U.
  rewrite G in U. destruct U as [U|U]; [discriminate|]. injection U as ->. destruct Hrg.
Qed.
Print Assumptions C59_accepted.

(** Accepting a parameter or local: the reference then leads to the first one
    of that name. *)
Theorem C59_accepted_local tree pos n t f its it :
  Document tree -> CursorAfter (gtext tree) pos t -> InTree tree n -> is_node n = true -> token n IDENT = Some t ->
  Asks n ALocal -> in_func n f -> InTree tree f ->
  completion (gtext tree) pos = Ans its -> In it its ->
  exists r d, c_label it = 36%N :: r /\ c_insert it = Some r /\ ValidName (c_label it)
    /\ find (slot_has_name (c_label it)) (locals_space f) = Some d
    /\ let new := written_at (estart t) (c_label it) tree in
       forall t' pos', Counterpart tree new t t' -> CursorOn (gtext new) pos' t' ->
       exists rg, goto_definition (gtext new) pos' = Ans (Scalar rg) /\ ShownAt tree t (c_label it) rg d.
Proof.
  intros D C Hn Nn Ht A M Tm E Hi. pose proof (document_tree tree D) as Et.
  destruct (t_facts tree t n Hn Ht) as (Tt & Nt & Kt & Pt).
  assert (Hm : forall p, parent n = Some p -> ekind p <> MEM_USE).
  { intros p Hp Kp. inversion A as [| | | |p' Hp' (Ki & _)| | | | |]; subst. rewrite Hp in Hp'. injection Hp' as <-. congruence. }
  assert (S : InScopeAt (gtext tree) t ALocal (numbered 0 (locals_space f))).
  { apply Scope_func; [|now rewrite Et]. destruct M as (K & N & Dm). split; [exact K|]. split; [exact N|].
    apply find_some in Ht as [Hc _]. econstructor; eauto. }
  destruct (offered_name tree pos n t _ _ its it D C Hn Ht A Hm S E Hi) as (i & d0 & u & r & Hl & Hu & L1 & L2 & L3).
  apply in_numbered in Hl.
  assert (X : slot_has_name (c_label it) d0 = true /\ InTree tree d0).
  { destruct M as (Kf & Nf & Df). pose proof Hl as Hj. rewrite locals_space_slots in Hj. rewrite <- Et in Tm.
    destruct (slot_facts (gtext tree) f d0 Tm Kf Hj) as (Td & Nd & Kd & _). split; [|now rewrite <- Et].
    unfold slot_has_name, slot_name. destruct (kind_eqb (ekind d0) VAL_TYPE) eqn:V.
    - apply kind_eqb_eq in V. exfalso. rewrite (no_token (gtext tree) d0 IDENT Td) in Hu; [discriminate|congruence| |reflexivity].
      rewrite V. vm_compute. reflexivity.
    - rewrite Hu. cbn [option_map]. rewrite L1. apply text_eqb_refl. }
  destruct X as [X Td]. assert (Vx : ValidName (c_label it)) by (rewrite L1; eapply ident_valid; eauto).
  destruct (find (slot_has_name (c_label it)) (locals_space f)) as [d|] eqn:Fd.
  2:{ exfalso. pose proof (find_none _ _ Fd d0 Hl) as Z. congruence. }
  exists r, d. repeat (split; [assumption || reflexivity|]). intros new t' pos' Hc Hpos.
  pose proof (C59_local tree n t (c_label it) f t' pos' D Hn Nn Ht Vx A M Tm Hc Hpos) as G. rewrite Fd in G. exact G.
Qed.
Print Assumptions C59_accepted_local.

(** Accepting a label where every block around the branch is directly in the
    next: the branch then leads to the innermost of that name. *)
Theorem C59_accepted_label tree pos n t its it :
  Document tree -> CursorAfter (gtext tree) pos t -> InTree tree n -> is_node n = true -> token n IDENT = Some t ->
  Asks n ALabel -> direct_blocks n = enclosing_blocks n ->
  completion (gtext tree) pos = Ans its -> In it its ->
  exists r d, c_label it = 36%N :: r /\ c_insert it = Some r /\ ValidName (c_label it)
    /\ find (has_name (c_label it)) (enclosing_blocks n) = Some d
    /\ let new := written_at (estart t) (c_label it) tree in
       forall t' pos', Counterpart tree new t t' -> CursorOn (gtext new) pos' t' ->
       exists rg, goto_definition (gtext new) pos' = Ans (Scalar rg) /\ ShownAt tree t (c_label it) rg d.
Proof.
  intros D C Hn Nn Ht A B E Hi. pose proof (document_tree tree D) as Et.
  destruct (t_facts tree t n Hn Ht) as (Tt & Nt & Kt & Pt).
  assert (Hm : forall p, parent n = Some p -> ekind p <> MEM_USE).
  { intros p Hp Kp. inversion A as [| | | | |p' Hp' (Ki & _)| | | |]; subst. rewrite Hp in Hp'. injection Hp' as <-. congruence. }
  destruct (offered_name tree pos n t _ _ its it D C Hn Ht A Hm (Scope_label (gtext tree) t) E Hi) as (i & d0 & u & r & Hl & Hu & L1 & L2 & L3).
  apply in_numbered in Hl.
  assert (Eb : enclosing_blocks t = enclosing_blocks n).
  { unfold enclosing_blocks. pose proof Ht as Ht'. apply find_some in Ht' as [Hc _]. rewrite (ancestors_child n t Hc). cbn [filter].
    unfold is_block at 1. rewrite Kt. reflexivity. }
  rewrite Eb in Hl.
  assert (Td : InTree tree d0).
  { unfold enclosing_blocks in Hl. apply filter_In in Hl as [Hl _]. now apply (ancestors_Desc tree d0 n Hn Hl). }
  assert (X : has_name (c_label it) d0 = true) by (unfold has_name; rewrite Hu, L1; apply text_eqb_refl).
  assert (Vx : ValidName (c_label it)) by (rewrite L1; eapply ident_valid; eauto).
  destruct (find (has_name (c_label it)) (enclosing_blocks n)) as [d|] eqn:Fd.
  2:{ exfalso. pose proof (find_none _ _ Fd d0 Hl) as Z. congruence. }
  exists r, d. repeat (split; [assumption || reflexivity|]). intros new t' pos' Hc Hpos.
  pose proof (C59_label tree n t (c_label it) t' pos' D Hn Nn Ht Vx A Hc Hpos) as G. rewrite B, Fd in G. exact G.
Qed.
Print Assumptions C59_accepted_label.

(** ** Examples *)

Definition accept_ex : text :=
  Text.T "(module (func $first (param $x i32) (call $second (local.get $y))) (func $second (param i32)) (func $first))".
Definition hasb {A} (f : A -> bool) (o : option A) : bool := match o with Some x => f x | None => false end.
(** At [call $second|] three named functions are offered, two of them called
    [$first]; accepting one leads to both. *)
Example C59_case : let pos := (0, 49) in let t := left_of accept_ex pos in let n := par t in
  let new := written_at (estart t) (Text.T "$first") (tree_of accept_ex) in
  Document (tree_of accept_ex) /\ gtext (tree_of accept_ex) = accept_ex
  /\ CursorAfter accept_ex pos t /\ InTree (tree_of accept_ex) n /\ token n IDENT = Some t /\ Asks n (AModule FuncS)
  /\ map fst (labels (completion accept_ex pos)) = map Text.T ["$first"; "$second"; "$first"]%string
  /\ gtext new = Text.T "(module (func $first (param $x i32) (call $first (local.get $y))) (func $second (param i32)) (func $first))"
  /\ (exists t', Counterpart (tree_of accept_ex) new t t' /\ CursorOn (gtext new) (0, 45) t')
  /\ goto_definition (gtext new) (0, 45) = Ans (Array [((0, 14), (0, 20)); ((0, 99), (0, 105))]).
Proof.
  intros pos t n new. split; [apply ThmComplete.documentb_ok; vm_compute; reflexivity|]. split; [vm_compute; reflexivity|].
  assert (C : CursorAfter accept_ex pos t) by (apply left_cursor; vm_compute; reflexivity). split; [exact C|].
  destruct (cursor_after_tok _ _ _ C) as (T & N & _). destruct (token_parent _ t T N) as (p & P & Tp & _).
  assert (Ep : p = n) by (unfold n, par; now rewrite P). subst p.
  split; [exact Tp|]. split; [vm_compute; reflexivity|]. split; [by_instr Asks_call n|].
  split; [vm_compute; reflexivity|]. split; [vm_compute; reflexivity|]. split; [|vm_compute; reflexivity].
  assert (En : tree_of (gtext new) = new) by (vm_compute; reflexivity).
  exists (cur (gtext new) (0, 45)).
  assert (Cn : CursorOn (gtext new) (0, 45) (cur (gtext new) (0, 45))) by (vm_compute; reflexivity). split; [|exact Cn].
  split; [exact T|]. apply meaningful_in in Cn as (x & _ & (T' & N') & _). rewrite En in T'. split; [exact T'|].
  repeat split; vm_compute; reflexivity.
Qed.

(** An offered label may lead nowhere: the branch of an [if] hides the blocks
    around it from go to definition, but not from completion. *)
Definition label_ex : text := Text.T "(module (func (block $a (if (then (block $b (br $b)))))))".
Theorem C59_label_refuted : let pos := (0, 50) in let t := left_of label_ex pos in
  let new := written_at (estart t) (Text.T "$a") (tree_of label_ex) in
  Document (tree_of label_ex) /\ gtext (tree_of label_ex) = label_ex
  /\ CursorAfter label_ex pos t /\ Asks (par t) ALabel
  /\ (exists its it, completion label_ex pos = Ans its /\ In it its /\ c_label it = Text.T "$a" /\ c_insert it = Some (Text.T "a"))
  /\ gtext new = hidden_by_if /\ CursorOn (gtext new) (0, 48) (cur (gtext new) (0, 48)) /\ goto_definition (gtext new) (0, 48) = NoAns.
Proof.
  intros pos t new. split; [apply ThmComplete.documentb_ok; vm_compute; reflexivity|]. split; [vm_compute; reflexivity|].
  split; [apply left_cursor; vm_compute; reflexivity|]. split; [by_instr Asks_label (par t)|].
  split; [|split; [vm_compute; reflexivity|split; vm_compute; reflexivity]].
  assert (E : match completion label_ex pos with Ans its => hasb (fun it => text_eqb (c_label it) (Text.T "$a")
      && match c_insert it with Some r => text_eqb r (Text.T "a") | None => false end) (find (fun it => text_eqb (c_label it) (Text.T "$a")) its) | _ => false end = true)
    by (vm_compute; reflexivity).
  destruct (completion label_ex pos) as [its| |]; try discriminate E. destruct (find _ its) as [it|] eqn:F; [|discriminate E]. cbn [hasb] in E.
  apply find_some in F as [F _]. apply andb_prop in E as [E1 E2]. exists its, it. split; [reflexivity|]. split; [exact F|].
  split; [now apply text_eqb_eq|]. destruct (c_insert it) as [r|]; [|discriminate E2]. apply text_eqb_eq in E2. congruence.
Qed.
Print Assumptions C59_label_refuted.
