(** Completion in documents that are alike (C54, C55). *)

From Coq Require Import String List NArith Bool Arith Lia.
From Verif Require Import Text Kind Green SpecParser SpecSyntax Lexer LexerFacts Winnow Grammar Sem Lossless Total
  Bounds Lang TokForm Shape ThmParser Red Unique LineIndex ThmTree Cursor ThmPos Doc Ast Binder Preorder SpecBinder BinderFacts
  BinderDefs Blocks Nav NavSpec NavFacts ThmNav RefFacts InstrMeta Types Check CheckFacts SemTok Hover HoverFacts SpecAlike SpecAlikeMore
  Alike AlikeNav AlikeCheck AlikeMore InstrNames Completion SpecCompletion ThmCompletion SpecKeyword ThmKeyword SpecAlikeComp.
Import ListNotations.

Lemma filter_rank {A} (f : A -> bool) n l : filter f (firstn n l) = firstn (length (filter f (firstn n l))) (filter f l).
Proof.
  revert n. induction l as [|x l IH]; intros [|n]; cbn [firstn filter length]; try reflexivity.
  destruct (f x); cbn [length firstn]; [f_equal|]; apply IH.
Qed.
Lemma filter_rank_skip {A} (f : A -> bool) n l : filter f (skipn n l) = skipn (length (filter f (firstn n l))) (filter f l).
Proof.
  revert n. induction l as [|x l IH]; intros [|n]; cbn [firstn skipn filter length]; try reflexivity.
  destruct (f x); cbn [length skipn]; apply IH.
Qed.
Lemma F2_firstn' {A B} (P : A -> B -> Prop) l l' : Forall2 P l l' -> forall n, Forall2 P (firstn n l) (firstn n l').
Proof. induction 1; intros [|n]; cbn; constructor; auto. Qed.
Lemma F2_skipn {A B} (P : A -> B -> Prop) l l' : Forall2 P l l' -> forall n, Forall2 P (skipn n l) (skipn n l').
Proof. induction 1; intros [|n]; cbn; try constructor; auto. Qed.
Lemma F2_rev' {A B} (P : A -> B -> Prop) l l' : Forall2 P l l' -> Forall2 P (rev l) (rev l').
Proof. induction 1; cbn; [constructor|]. apply Forall2_app; auto. Qed.
Lemma filter_rev' {A} (f : A -> bool) l : filter f (rev l) = rev (filter f l).
Proof.
  induction l as [|x l IH]; [reflexivity|]. cbn [rev filter]. rewrite filter_app, IH. cbn [filter]. destruct (f x); [reflexivity|]. apply app_nil_r.
Qed.
Lemma kids_filter_el g po us : forall cs i o, map el (filter sigE (kids g po us i o cs)) = filter significant cs.
Proof. exact (kids_el g po us). Qed.

Lemma kids_len g po us : forall cs i o, length (kids g po us i o cs) = length cs.
Proof. induction cs as [|c cs IH]; intros i o; cbn [kids length]; [reflexivity|]. now rewrite IH. Qed.

(** ** White space and comments are tokens *)

Lemma trivia_tok x e : InTree (tree_of x) e -> is_trivia e = negb (sigE e).
Proof.
  intros T. unfold is_trivia, sigE, ekind. destruct (el e) as [k t|k cs] eqn:E; cbn; [now destruct k|].
  destruct T as [|p c Hp Hc].
  - cbn [root_of el] in E. pose proof (root_kind x) as K. rewrite E in K. cbn in K. now rewrite K.
  - assert (N : is_node c = true) by (unfold is_node; now rewrite E).
    assert (X : In c (children p)) by (apply in_children; auto).
    pose proof (parent_kind x p c Hp X) as Y. unfold ekind in Y. rewrite E in Y. cbn [gkind] in Y.
    destruct k; try reflexivity; vm_compute in Y; destruct Y.
Qed.
Lemma prev_in x d e : InTree (tree_of x) d -> In e (prev_siblings d) -> InTree (tree_of x) e.
Proof.
  intros T H. unfold prev_siblings in H. destruct T as [|p c Hp Hc]; [destruct H|]. rewrite (parent_child _ _ Hc) in H.
  destruct (ups c); [destruct H|]. apply in_rev in H. rewrite <- (firstn_skipn (u_idx u) (children_with_tokens p)) in Hc.
  econstructor; [exact Hp|]. rewrite <- (firstn_skipn (u_idx u) (children_with_tokens p)). apply in_or_app. now left.
Qed.
Lemma first_sig l q r : (forall e, In e l -> is_trivia e = negb (sigE e)) -> Forall (fun e => is_trivia e = true) l -> sigE q = true ->
  hd_error (filter sigE (l ++ q :: r)) = Some q.
Proof.
  intros H F S. induction F as [|e l He F IH]; cbn [app filter]; [now rewrite S|].
  rewrite (H e) in He by now left. apply negb_true_iff in He. rewrite He. apply IH. intros; apply H; now right.
Qed.
Lemma hd_filter_split {A} (f : A -> bool) l q : hd_error (filter f l) = Some q ->
  exists a b, l = a ++ q :: b /\ f q = true /\ Forall (fun e => f e = false) a.
Proof.
  induction l as [|x l IH]; cbn [filter]; intros H; [discriminate|]. destruct (f x) eqn:Hx.
  - injection H as ->. exists [], l. auto.
  - destruct (IH H) as (a & b & -> & Hq & F). exists (x :: a), b. auto.
Qed.
Lemma open_tok_sig x q : InTree (tree_of x) q -> OpenParen q -> sigE q = true.
Proof. intros T O. pose proof (open_not_trivia q O) as X. rewrite (trivia_tok x q T) in X. now apply negb_false_iff. Qed.
Lemma after_iff x t : InTree (tree_of x) t -> AfterParen t <->
  (OpenParen t \/ exists q, hd_error (filter sigE (prev_siblings t)) = Some q /\ is_node q = false /\ OpenParen q).
Proof.
  intros T. assert (HT : forall e, In e (prev_siblings t) -> is_trivia e = negb (sigE e)) by (intros e He; apply (trivia_tok x); now apply (prev_in x t)).
  split; (intros [H|H]; [now left|right]).
  - destruct H as (l & q & r & E & F & N & O). exists q. split; [|auto]. rewrite E. apply first_sig; [|exact F|].
    + intros e He. apply HT. rewrite E. apply in_or_app. now left.
    + apply (open_tok_sig x); [|exact O]. apply (prev_in x t _ T). rewrite E. apply in_elt.
  - destruct H as (q & H & N & O). apply hd_filter_split in H as (a & b & E & _ & F). exists a, q, b. split; [exact E|]. split; [|auto].
    rewrite Forall_forall in *. intros e He. rewrite HT; [rewrite (F e He); reflexivity|]. rewrite E. apply in_or_app. now left.
Qed.
Lemma behind_iff x t : InTree (tree_of x) t -> BehindParen t <->
  (OpenParen t \/ exists q, find (fun e => negb (is_node e)) (filter sigE (prev_siblings t)) = Some q /\ OpenParen q).
Proof.
  intros T. assert (HT : forall e, In e (prev_siblings t) -> is_trivia e = negb (sigE e)) by (intros e He; apply (trivia_tok x); now apply (prev_in x t)).
  split; (intros [H|H]; [now left|right]).
  - destruct H as (l & q & r & E & F & N & O). exists q. split; [|exact O]. 
    assert (S : sigE q = true) by (apply (open_tok_sig x); [apply (prev_in x t _ T); rewrite E; apply in_elt|exact O]).
    assert (HL : forall e, In e l -> is_trivia e = negb (sigE e)) by (intros e He; apply HT; rewrite E; apply in_or_app; now left).
    rewrite E. clear E HT T. induction F as [|e l He F IH]; cbn [app filter find].
    + rewrite S. cbn [find]. now rewrite N.
    + destruct (sigE e) eqn:Se; [|apply IH; intros; apply HL; now right]. cbn [find].
      rewrite (HL e), Se in He by now left. destruct He as [He|He]; [discriminate He|]. rewrite He. cbn [negb]. apply IH; intros; apply HL; now right.
  - destruct H as (q & H & O). revert HT H. generalize (prev_siblings t) as l. intros l HT H.
    induction l as [|e l IH]; [discriminate H|]. cbn [filter] in H. pose proof (HT e (or_introl eq_refl)) as He.
    assert (HT' : forall e, In e l -> is_trivia e = negb (sigE e)) by (intros; apply HT; now right).
    destruct (sigE e) eqn:Se; cbn [find] in H.
    + destruct (is_node e) eqn:Ne; cbn [negb] in H.
      * destruct (IH HT' H) as (a & q' & r & -> & F & X). exists (e :: a), q', r. split; [reflexivity|]. split; [constructor; auto|exact X].
      * injection H as ->. exists [], q, l. auto.
    + destruct (IH HT' H) as (a & q' & r & -> & F & X). exists (e :: a), q', r. split; [reflexivity|]. split; [constructor; auto|exact X].
Qed.

Section Alike.
  Variable Name : text -> text -> Prop.
  Hypothesis HN : forall x x' y y', Name x x' -> Name y y' -> text_eqb x y = text_eqb x' y'.
  (** Names that differ both start with a dollar sign. *)
  Hypothesis HD : forall x x', Name x x' -> x = x' \/ exists r r', x = 36%N :: r /\ x' = 36%N :: r'.
  Variable src src' : text.
  Notation tree := (tree_of src).
  Notation tree' := (tree_of src').
  Hypothesis HS : Sim Name tree tree'.
  Notation R := (R Name tree tree').
  Notation RN := (RN Name src src').
  Notation KM := (KM Name src src').
  Notation SymM := (SymM Name src src').
  Notation SymT := (SymT Name src src').
  Notation tb := (the_table src).
  Notation tb' := (the_table src').
  Notation STs := (SameTexts Name).
  Notation SO := (SameOffer Name).

  (** ** Siblings *)

  Lemma rank_prev e u us : ups e = u :: us ->
    rank u = length (filter sigE (firstn (u_idx u) (children_with_tokens (mk_elem (u_green u) (u_off u) us)))).
  Proof.
    intros E. unfold rank, children_with_tokens. cbn [el off ups]. rewrite kids_firstn. rewrite <- (map_length el).
    now rewrite kids_el.
  Qed.
  Lemma up_parent e u us : ups e = u :: us -> parent e = Some (mk_elem (u_green u) (u_off u) us).
  Proof. intros E. unfold parent. now rewrite E. Qed.
  Lemma up_pair e e' : R e e' -> (ups e = [] /\ ups e' = [])
    \/ exists u us u' us', ups e = u :: us /\ ups e' = u' :: us' /\ rank u = rank u'
       /\ RN (mk_elem (u_green u) (u_off u) us) (mk_elem (u_green u') (u_off u') us').
  Proof.
    intros H. pose proof (RN_parent Name src src' _ _ H) as HP. pose proof (R_ups _ _ _ _ _ H) as HU.
    destruct (ups e) as [|u us] eqn:E; inversion HU as [|? u' ? us' [Er _] _ X Y]; subst; [left; auto|]. right.
    symmetry in Y. exists u, us, u', us'. repeat split; auto. all: rewrite (up_parent _ _ _ E), (up_parent _ _ _ Y) in HP; inversion HP as [|? ? Hp]; apply Hp.
  Qed.
  Lemma R_prev e e' : R e e' -> Forall2 R (filter sigE (prev_siblings e)) (filter sigE (prev_siblings e')).
  Proof.
    intros H. unfold prev_siblings. destruct (up_pair e e' H) as [[-> ->]|(u & us & u' & us' & E & E' & Er & Hp)]; [constructor|].
    rewrite (up_parent _ _ _ E), (up_parent _ _ _ E'), E, E'. rewrite !filter_rev'. apply F2_rev'.
    rewrite filter_rank, <- (rank_prev e u us E). rewrite (filter_rank sigE (u_idx u')), <- (rank_prev e' u' us' E'), <- Er.
    apply F2_firstn'. apply (R_kids Name tree tree'). apply Hp.
  Qed.
  Lemma sig_at t e u us : InTree t e -> sigE e = true -> ups e = u :: us ->
    exists l r, children_with_tokens (mk_elem (u_green u) (u_off u) us) = l ++ e :: r /\ length l = u_idx u.
  Proof.
    intros T S E. destruct T as [|p c Hp Hc]; [discriminate E|]. pose proof (parent_child _ _ Hc) as P.
    rewrite (up_parent _ _ _ E) in P. injection P as ->. pose proof Hc as Hc'.
    apply child_in in Hc as (l & g & r & Eg & Ec). subst c. cbn [ups] in E. injection E as <- <-.
    unfold children_with_tokens. rewrite Eg, kids_app. cbn [kids u_idx].
    eexists _, _. split; [reflexivity|]. now rewrite kids_len.
  Qed.
  Lemma R_next e e' : R e e' -> Forall2 R (filter sigE (next_siblings e)) (filter sigE (next_siblings e')).
  Proof.
    intros H. unfold next_siblings. destruct (up_pair e e' H) as [[-> ->]|(u & us & u' & us' & E & E' & Er & Hp)]; [constructor|].
    rewrite (up_parent _ _ _ E), (up_parent _ _ _ E'), E, E'.
    assert (X : forall t e u us, InTree t e -> sigE e = true -> ups e = u :: us ->
      filter sigE (skipn (S (u_idx u)) (children_with_tokens (mk_elem (u_green u) (u_off u) us)))
      = skipn (S (rank u)) (filter sigE (children_with_tokens (mk_elem (u_green u) (u_off u) us)))).
    { clear - src src'. intros t e u us T S E. rewrite filter_rank_skip. f_equal. rewrite (rank_prev e u us E).
      destruct (sig_at t e u us T S E) as (l & r & -> & <-). rewrite !firstn_app, Nat.sub_diag, firstn_all.
      replace (Datatypes.S (length l) - length l) with 1 by lia. rewrite firstn_all2 by lia. cbn [firstn]. rewrite app_nil_r, filter_app, app_length.
      cbn [filter]. rewrite S. cbn [length]. lia. }
    destruct (R_sig Name _ _ _ _ H) as [S S'].
    rewrite (X tree e u us), (X tree' e' u' us') by (auto; apply H). rewrite <- Er. apply F2_skipn. apply (R_kids Name tree tree'). apply Hp.
  Qed.
  Lemma find_node_sig l : find is_node (filter sigE l) = find is_node l.
  Proof. apply find_filter_sub. apply node_sig. Qed.
  Lemma R_kind_of l l' : Forall2 R (filter sigE l) (filter sigE l') -> node_kind_of l = node_kind_of l'.
  Proof.
    intros H. unfold node_kind_of. rewrite <- (find_node_sig l), <- (find_node_sig l').
    assert (X : OptR R (find is_node (filter sigE l)) (find is_node (filter sigE l'))).
    { apply F2_find; [|exact H]. apply R_is_node. }
    destruct X as [|a b Hab]; [reflexivity|]. cbn. f_equal. now apply (R_kind Name tree tree').
  Qed.
  Lemma R_prev_node e e' : R e e' -> OptR R (prev_node e) (prev_node e').
  Proof.
    intros H. unfold prev_node. rewrite <- (find_node_sig (prev_siblings e)), <- (find_node_sig (prev_siblings e')).
    apply F2_find; [apply R_is_node|now apply R_prev].
  Qed.

  (** ** Parentheses *)

  Lemma R_open e e' : R e e' -> is_node e = false -> OpenParen e <-> OpenParen e'.
  Proof.
    intros H N. unfold OpenParen. rewrite <- (R_kind Name _ _ _ _ H). split; (intros [K|[K T]]; [now left|right; split; [exact K|]]).
    - rewrite <- (R_text Name _ _ _ _ H N); [exact T|]. rewrite K. discriminate.
    - rewrite (R_text Name _ _ _ _ H N); [exact T|]. rewrite K. discriminate.
  Qed.
  Lemma R_after e e' : R e e' -> is_node e = false -> AfterParen e <-> AfterParen e'.
  Proof.
    intros H N. rewrite (after_iff src e), (after_iff src' e') by apply H. rewrite (R_open e e' H N).
    pose proof (R_prev _ _ H) as X. destruct X as [|q q' l l' Hq _]; cbn [hd_error]; [split; (intros [O|(x & E & _)]; [now left|discriminate E])|].
    split; (intros [O|(x & E & Nx & O)]; [now left|right]); injection E as <-.
    - exists q'. split; [reflexivity|]. split; [rewrite <- (R_is_node Name _ _ _ _ Hq); exact Nx|]. now apply (R_open q q').
    - exists q. rewrite <- (R_is_node Name _ _ _ _ Hq) in Nx. split; [reflexivity|]. split; [exact Nx|]. now apply (R_open q q').
  Qed.
  Lemma R_behind e e' : R e e' -> is_node e = false -> BehindParen e <-> BehindParen e'.
  Proof.
    intros H N. rewrite (behind_iff src e), (behind_iff src' e') by apply H. rewrite (R_open e e' H N).
    assert (X : OptR R (find (fun e => negb (is_node e)) (filter sigE (prev_siblings e))) (find (fun e => negb (is_node e)) (filter sigE (prev_siblings e')))).
    { apply F2_find; [|now apply R_prev]. intros a b Hab. now rewrite (R_is_node Name _ _ _ _ Hab). }
    destruct (find _ (filter sigE (prev_siblings e))) as [q|] eqn:F; inversion X as [|? q' Hq]; subst; [|split; (intros [O|(x & E & _)]; [now left|discriminate E])].
    apply find_some in F as [_ Nq]. apply negb_true_iff in Nq.
    split; (intros [O|(x & E & O)]; [now left|right]); injection E as <-; eexists; (split; [reflexivity|]); now apply (R_open q q').
  Qed.
  Lemma R_leading e e' : R e e' -> is_node e = false -> PlainlyBehind e -> leading_l_paren e = leading_l_paren e'.
  Proof.
    intros H N HB. apply Bool.eq_iff_eq_true. split; intros L; apply behind_paren in L; apply after_paren.
    - apply (R_after e e' H N). now apply HB.
    - apply HB. now apply (R_behind e e' H N).
  Qed.

  (** ** Contexts *)

  Lemma R_dollar e e' : R e e' -> is_node e = false -> starts_with (T "$") (etext e) = starts_with (T "$") (etext e').
  Proof.
    intros H N. destruct (kind_eqb (ekind e) IDENT) eqn:K.
    - apply kind_eqb_eq in K. destruct (HD _ _ (R_name Name _ _ _ _ H N K)) as [->|(r & r' & -> & ->)]; reflexivity.
    - rewrite (R_text Name _ _ _ _ H N); [reflexivity|]. intros E. rewrite E in K. discriminate K.
  Qed.
  Lemma R_word w e e' : hd_error w <> Some 36%N -> w <> [] -> R e e' -> is_node e = false -> text_eqb (etext e) w = text_eqb (etext e') w.
  Proof.
    intros Hw Hn H N. destruct (kind_eqb (ekind e) IDENT) eqn:K.
    - apply kind_eqb_eq in K. destruct (HD _ _ (R_name Name _ _ _ _ H N K)) as [->|(r & r' & -> & ->)]; [reflexivity|].
      destruct w as [|c w]; [congruence|]. apply Bool.eq_iff_eq_true. rewrite !text_eqb_eq. cbn [hd_error] in Hw. split; congruence.
    - rewrite (R_text Name _ _ _ _ H N); [reflexivity|]. intros E. rewrite E in K. discriminate K.
  Qed.
  Lemma R_operand_ctx x n n' : R n n' -> operand_ctx x n = operand_ctx x n'.
  Proof.
    intros H. unfold operand_ctx. destruct (split_dot x) as [[a b]|]; [|reflexivity]. rewrite (R_kind Name _ _ _ _ H).
    assert (match prev_node n with Some p => kind_eqb (ekind p) OPERAND | None => false end
          = match prev_node n' with Some p => kind_eqb (ekind p) OPERAND | None => false end) as ->; [|reflexivity].
    destruct (R_prev_node n n' H) as [|p p' Hp]; [reflexivity|]. now rewrite (R_kind Name _ _ _ _ Hp).
  Qed.
  Lemma R_header t t' b b' : R t t' -> is_node t = false -> PlainlyBehind t -> R b b' -> header_ctx t b = header_ctx t' b'.
  Proof.
    intros H N HB Hb. unfold header_ctx. now rewrite (R_leading t t' H N HB), (R_kind_of _ _ (R_prev b b' Hb)).
  Qed.
  Lemma R_has_child p p' k : R p p' -> has_child p k = has_child p' k.
  Proof.
    intros H. unfold has_child. apply (F2_existsb _ _ _ (fun a b (Hab : R a b) => f_equal (fun x => kind_eqb x k) (R_kind Name _ _ _ _ Hab)) _ _ (R_children Name _ _ _ _ H)).
  Qed.
  Lemma R_prev_nodes p p' : R p p' -> is_node p = true -> Forall2 R (prev_nodes p) (prev_nodes p').
  Proof.
    intros H N. unfold prev_nodes. constructor; [exact H|].
    rewrite <- (filter_filter_sub is_node sigE (prev_siblings p)), <- (filter_filter_sub is_node sigE (prev_siblings p')) by apply node_sig.
    apply F2_filter; [apply R_is_node|now apply R_prev].
  Qed.
  Lemma R_instr_ctx t t' p p' : R t t' -> is_node t = false -> PlainlyBehind t -> RN p p' -> instr_name_ctx t p = instr_name_ctx t' p'.
  Proof.
    intros H N HB Hp. unfold instr_name_ctx. f_equal. destruct (RN_parent Name src src' p p') as [|g g' Hg]; [apply Hp|reflexivity|].
    rewrite <- (RN_kind Name src src' _ _ Hg). destruct (ekind g); try reflexivity.
    - destruct (R_token Name _ _ KEYWORD _ _ eq_refl (proj1 Hg)); [|reflexivity]. f_equal.
      destruct (RN_parent Name src src' g g') as [|h h' Hh]; [apply Hg|reflexivity|]. cbn [option_map]. rewrite <- (RN_kind Name src src' _ _ Hh).
      destruct (ekind h); try reflexivity.
      assert (existsb (fun c => kind_eqb (ekind c) TABLE_USE) (prev_nodes g) = existsb (fun c => kind_eqb (ekind c) TABLE_USE) (prev_nodes g')) as ->; [|reflexivity].
      eapply F2_existsb; [|apply R_prev_nodes; apply Hg]. intros a b Hab. now rewrite (R_kind Name _ _ _ _ Hab).
    - apply R_header; auto. apply Hp.
  Qed.
  Lemma declare_sig x p : InTree (tree_of x) p ->
    existsb (fun e => negb (is_node e) && text_eqb (etext e) (T "declare")) (children_with_tokens p)
    = existsb (fun e => negb (is_node e) && text_eqb (etext e) (T "declare")) (scwt p).
  Proof.
    intros Hp. unfold scwt. assert (Hin : forall e, In e (children_with_tokens p) -> InTree (tree_of x) e) by (intros; econstructor; eauto).
    revert Hin. generalize (children_with_tokens p). induction l as [|e l IH]; intros Hin; [reflexivity|]. cbn [existsb filter].
    rewrite IH by (intros; apply Hin; now right). destruct (sigE e) eqn:S; [reflexivity|]. 
    replace (negb (is_node e) && text_eqb (etext e) (T "declare")) with false; [reflexivity|]. symmetry. apply andb_false_iff.
    destruct (is_node e) eqn:N; [now left|right]. destruct (text_eqb (etext e) (T "declare")) eqn:E; [|reflexivity]. exfalso.
    apply text_eqb_eq in E. pose proof (token_form x e (Hin e (or_introl eq_refl)) N) as F. rewrite E in F.
    pose proof (trivia_tok x e (Hin e (or_introl eq_refl))) as X. rewrite S in X. unfold is_trivia in X.
    destruct (ekind e); try discriminate X; revert F; clear; intros F.
    - destruct F as (_ & F). inversion F as [|? ? C _]. cbn in C. repeat (destruct C as [C|C]; [discriminate C|]). destruct C.
    - destruct F as (r & F & _). discriminate F.
    - destruct F as (r & F & _). discriminate F.
  Qed.
  Lemma R_contexts t t' p p' : R t t' -> is_node t = false -> PlainlyBehind t -> RN p p' -> AnsR eq (contexts t p) (contexts t' p').
  Proof.
    intros H N HB Hp. pose proof (RN_kind Name src src' _ _ Hp) as K. pose proof (R_leading t t' H N HB) as L.
    unfold contexts. rewrite <- K, <- L. rewrite <- (R_dollar t t' H N).
    destruct (ekind p) eqn:Kp; try (constructor; reflexivity).
    - (* PLAIN_INSTR *) rewrite <- (R_kind Name _ _ _ _ H). destruct (kind_eqb (ekind t) INSTR_NAME).
      + constructor. now apply R_instr_ctx.
      + pose proof (R_token Name tree tree' INSTR_NAME _ _ eq_refl (proj1 Hp)) as X.
        destruct (token p INSTR_NAME) as [nm|] eqn:En; inversion X as [|? nm' Hnm]; subst; cbn [aopt abind]; constructor.
        apply token_not_node in En as [Nn Kn]. rewrite (R_text Name _ _ _ _ Hnm Nn) by (rewrite Kn; discriminate). apply R_operand_ctx, Hp.
    - (* OPERAND *) assert (X : OptR RN (find (fun n => kind_eqb (ekind n) PLAIN_INSTR) (ancestors p)) (find (fun n => kind_eqb (ekind n) PLAIN_INSTR) (ancestors p'))).
      { apply F2_find; [|now apply RN_ancestors]. intros a b Hab. now rewrite (RN_kind Name src src' _ _ Hab). }
      destruct X as [|i i' Hi]; cbn [aopt abind]; [constructor|].
      pose proof (R_token Name tree tree' INSTR_NAME _ _ eq_refl (proj1 Hi)) as X.
      destruct (token i INSTR_NAME) as [nm|] eqn:En; inversion X as [|? nm' Hnm]; subst; cbn [aopt abind]; constructor.
      apply token_not_node in En as [Nn Kn]. rewrite (R_text Name _ _ _ _ Hnm Nn) by (rewrite Kn; discriminate). apply R_operand_ctx, Hp.
    - (* INDEX *) destruct (RN_parent Name src src' p p') as [|g g' Hg]; [apply Hp|constructor|]. cbn [aopt abind]. constructor.
      now rewrite (RN_kind Name src src' _ _ Hg).
    - (* MODULE_FIELD_ELEM *) rewrite (R_has_child p p' OFFSET), (R_has_child p p' TABLE_USE) by apply Hp. constructor.
      destruct (leading_l_paren t); [reflexivity|].
      rewrite (declare_sig src p), (declare_sig src' p') by apply Hp.
      replace (existsb (fun e => negb (is_node e) && text_eqb (etext e) (T "declare")) (scwt p'))
        with (existsb (fun e => negb (is_node e) && text_eqb (etext e) (T "declare")) (scwt p)).
      2:{ eapply F2_existsb; [|apply (R_kids Name tree tree'), Hp]. intros a b Hab. rewrite <- (R_is_node Name _ _ _ _ Hab).
          destruct (is_node a) eqn:Na; [reflexivity|]. cbn [negb andb]. apply (R_word (T "declare")); auto; discriminate. }
      assert (X : OptR RN (find (fun c => kind_eqb (ekind c) ELEM_LIST) (children p)) (find (fun c => kind_eqb (ekind c) ELEM_LIST) (children p'))).
      { apply F2_find; [|apply RN_children, Hp]. intros a b Hab. now rewrite (RN_kind Name src src' _ _ Hab). }
      destruct X as [|l l' Hl]; [reflexivity|]. pose proof (R_token Name tree tree' KEYWORD _ _ eq_refl (proj1 Hl)) as X.
      destruct (token l KEYWORD) as [k|] eqn:En; inversion X as [|? k' Hk]; subst; [|reflexivity].
      apply token_not_node in En as [Nn Kn]. now rewrite (R_text Name _ _ _ _ Hk Nn) by (rewrite Kn; discriminate).
    - (* MODULE_FIELD_FUNC *) constructor. rewrite (R_header t t' t t'), (R_kind_of _ _ (R_next t t' H)) by auto. reflexivity.
    - (* MODULE_FIELD_GLOBAL *) constructor. rewrite (R_has_child p p' GLOBAL_TYPE) by apply Hp. reflexivity.
  Qed.

  (** ** Items *)

  Lemma SO_refl i : c_insert i = None -> SO i i.
  Proof. intros E. constructor; auto. Qed.
  Lemma R_name_item t t' k det det' doc doc' i i' : R t t' -> is_node t = false -> idxM Name i i' -> det = det' ->
    OptR STs doc doc' -> Forall2 SO (name_item t k det doc i) (name_item t' k det' doc' i').
  Proof.
    intros H N [En Nm] -> Hd. unfold name_item, has_dollar. rewrite <- (R_dollar t t' H N). unfold idx_text. rewrite <- En.
    assert (HDoc : doc = doc' \/ exists d d', doc = Some d /\ doc' = Some d' /\ STs d d') by (destruct Hd; [now left|right; eauto 6]).
    destruct (starts_with (T "$") (etext t)).
    - destruct Nm as [|x x' Hx]; [constructor|]. destruct (HD _ _ Hx) as [->|(r & r' & -> & ->)].
      + destruct x' as [|c r]; [constructor|]. destruct (N.eqb c 36) eqn:C; [|constructor]. apply N.eqb_eq in C. subst c.
        constructor; [|constructor]. constructor; cbn [c_kind c_label c_insert c_detail c_doc]; auto. right. exists r, r. auto.
      + cbn [N.eqb Pos.eqb]. constructor; [|constructor]. constructor; cbn [c_kind c_label c_insert c_detail c_doc]; auto. right. exists r, r'. auto.
    - destruct Nm as [|x x' Hx]; (constructor; [|constructor]); constructor; cbn [c_kind c_label c_insert c_detail c_doc]; auto.
  Qed.
  Lemma RN_ancestor t t' k : R t t' -> is_node t = false -> OptR RN (ancestor t k) (ancestor t' k).
  Proof.
    intros H N. unfold ancestor.
    assert (X : Forall2 RN (tl (ancestors t)) (tl (ancestors t'))).
    { pose proof (R_is_node Name _ _ _ _ H) as N'. rewrite N in N'. symmetry in N'.
      destruct (token_parent src t (R_in _ _ _ _ _ H) N) as (p & P & _ & _ & _ & ->).
      destruct (token_parent src' t' (R_in' _ _ _ _ _ H) N') as (p' & P' & _ & _ & _ & ->).
      apply RN_ancestors. pose proof (RN_parent Name src src' _ _ H) as X. rewrite P, P' in X. now inversion X. }
    apply F2_find; [|exact X]. intros a b Hab. now rewrite (RN_kind Name src src' _ _ Hab).
  Qed.
  Lemma T_fields t t' k : R t t' -> is_node t = false -> Forall2 SymT (fields tb t k) (fields tb' t' k).
  Proof.
    intros H N. unfold fields. destruct (RN_ancestor t t' MODULE H N) as [|m m' Hm]; [constructor|].
    apply F2_filter; [|exact (T_table Name src src' HS)]. intros s s' (Hs & _). rewrite (SM_kind _ _ _ _ _ Hs). f_equal.
    apply (KM_eqb Name src src'); [apply Hs|now apply RN_key].
  Qed.
  Lemma R_enclosing_blocks t t' : R t t' -> is_node t = false -> Forall2 RN (enclosing_blocks t) (enclosing_blocks t').
  Proof.
    intros H N. unfold enclosing_blocks.
    pose proof (R_is_node Name _ _ _ _ H) as N'. rewrite N in N'. symmetry in N'.
    replace (filter is_block (ancestors t)) with (filter is_block (tl (ancestors t))) by (unfold ancestors at 2; cbn [filter]; now rewrite (token_not_block src t (R_in _ _ _ _ _ H) N)).
    replace (filter is_block (ancestors t')) with (filter is_block (tl (ancestors t'))) by (unfold ancestors at 2; cbn [filter]; now rewrite (token_not_block src' t' (R_in' _ _ _ _ _ H) N')).
    destruct (token_parent src t (R_in _ _ _ _ _ H) N) as (p & P & _ & _ & _ & ->).
    destruct (token_parent src' t' (R_in' _ _ _ _ _ H) N') as (p' & P' & _ & _ & _ & ->).
    assert (Hp : RN p p') by (pose proof (RN_parent Name src src' _ _ H) as X; rewrite P, P' in X; now inversion X).
    apply F2_filter; [|now apply RN_ancestors]. intros a b Hab. unfold is_block. now rewrite (RN_kind Name src src' _ _ Hab).
  Qed.
  Lemma F2_enum l l' : Forall2 RN l l' -> forall i, Forall2 (fun p p' => fst p = fst p' /\ RN (snd p) (snd p')) (enum i l) (enum i l').
  Proof. induction 1; intros i; cbn [enum]; constructor; auto. Qed.
  Lemma plain_same k l : Forall2 SO (map (plain k) l) (map (plain k) l).
  Proof. induction l; constructor; [|assumption]. now apply SO_refl. Qed.
  Lemma type_same l : Forall2 SO (map type_item l) (map type_item l).
  Proof. induction l; constructor; [|assumption]. now apply SO_refl. Qed.
  Lemma A_items t t' c : R t t' -> is_node t = false -> estart t < eend t -> estart t' < eend t' ->
    AnsR (Forall2 SO) (ctx_items src tb t c) (ctx_items src' tb' t' c).
  Proof.
    intros H N Ne Ne'. pose proof (R_is_node Name _ _ _ _ H) as N'. rewrite N in N'. symmetry in N'.
    assert (W : forall k l, AnsR (Forall2 SO) (Ans (map (plain k) l)) (Ans (map (plain k) l))) by (intros; constructor; apply plain_same).
    destruct c; cbn [ctx_items]; try apply (W IKeyword); try apply W; try (constructor; apply type_same).
    all: try (constructor; apply (plain_same IKeyword [_])).
    - constructor. destruct (RN_ancestor t t' MODULE_FIELD_FUNC H N) as [|f f' Hf]; [constructor|].
      apply (F2_flat_map SymT).
      + intros s s' (Hs & _). apply R_name_item; auto; [apply Hs| |constructor]. now rewrite (G_extract Name _ _ (SM_green _ _ _ _ _ Hs)).
      + apply F2_filter; [|exact (T_table Name src src' HS)]. intros s s' (Hs & _). rewrite (SM_kind _ _ _ _ _ Hs). f_equal.
        apply (KM_eqb Name src src'); [apply Hs|now apply RN_key].
    - eapply AR_bind; [eapply AR_map; [|apply (T_fields t t' SFunc H N)]|].
      + intros s s' Hs. pose proof Hs as (HM & _). instantiate (1 := Forall2 SO). unfold has_dollar. rewrite <- (R_dollar t t' H N).
        pose proof (SM_idx _ _ _ _ _ HM) as HI.
        assert (X : idx_text (s_idx s) (starts_with (T "$") (etext t)) = None <-> idx_text (s_idx s') (starts_with (T "$") (etext t)) = None).
        { destruct HI as [_ O]. unfold idx_text. destruct (starts_with _ _); [|split; discriminate].
          destruct O as [|x x' Hx]; [reflexivity|]. destruct (HD _ _ Hx) as [->|(r & r' & -> & ->)]; [reflexivity|]. cbn. split; discriminate. }
        destruct (idx_text (s_idx s) _) as [p|]; destruct (idx_text (s_idx s') _) as [p'|];
          [|discriminate (proj2 X eq_refl)|discriminate (proj1 X eq_refl)|constructor; constructor].
        eapply AR_bind; [exact (A_header Name HN src src' HS _ _ Hs)|]. intros h h' Hh. constructor. apply R_name_item; auto. constructor.
        unfold code. apply STs_same, STs_same. apply sts_app; [exact Hh|apply sts_refl].
      + intros l l' Hl. constructor. clear - Hl. induction Hl; cbn [concat]; [constructor|]. now apply Forall2_app.
    - constructor. apply (F2_flat_map SymT); [|apply T_fields; auto]. intros s s' (Hs & _). apply R_name_item; auto; [apply Hs|constructor].
    - constructor. apply (F2_flat_map SymT); [|apply T_fields; auto]. intros s s' (Hs & _). apply R_name_item; auto; [apply Hs| |constructor].
      now rewrite (G_global Name _ _ (SM_green _ _ _ _ _ Hs)).
    - constructor. apply (F2_flat_map SymT); [|apply T_fields; auto]. intros s s' (Hs & _). apply R_name_item; auto; [apply Hs|constructor].
    - constructor. apply (F2_flat_map SymT); [|apply T_fields; auto]. intros s s' (Hs & _). apply R_name_item; auto; [apply Hs|constructor].
    - constructor. rewrite (blocks_spec src t), (blocks_spec src' t') by (auto; apply H).
      apply (F2_flat_map (idxM Name)); [intros i i' Hi; apply R_name_item; auto; constructor|].
      eapply F2_map; [|apply F2_enum; now apply R_enclosing_blocks]. intros p p' [E Hp]. split; cbn [i_num i_name]; [congruence|]. apply (R_ident Name src src'), Hp.
  Qed.
  Lemma A_completion pos pos' t t' : CursorAfter src pos t -> CursorAfter src' pos' t' -> R t t' -> PlainlyBehind t ->
    AnsR (Forall2 SO) (completion src pos) (completion src' pos').
  Proof.
    intros C C' H HB. destruct (cursor_after_tok src pos t C) as (_ & N & Ne). destruct (cursor_after_tok src' pos' t' C') as (_ & N' & Ne').
    unfold completion. rewrite (proj2 (find_token_spec src pos t) C), (proj2 (find_token_spec src' pos' t') C'). cbn [abind].
    destruct (RN_parent Name src src' t t' H) as [|p p' Hp]; cbn [aopt abind]; [constructor|].
    eapply AR_bind; [now apply R_contexts|]. intros cs ? <-. destruct cs as [|c cs]; [constructor|].
    rewrite !the_symbols_eq. cbn [abind]. eapply AR_bind.
    - apply (AR_map eq (Forall2 SO)); [|apply F2_refl; reflexivity]. intros x ? <-. now apply A_items.
    - intros l l' Hl. constructor. clear - Hl. induction Hl; cbn [concat]; [constructor|]. now apply Forall2_app.
  Qed.
End Alike.
