(** Hover texts meet their specification: comments and descriptions. *)

From Coq Require Import String List NArith Bool Arith Lia Sorted.
From Verif Require Import Text Kind Green SpecParser Lexer LexerFacts Winnow Grammar Sem Lossless Total
  Bounds Lang TokForm Shape ThmParser Red Unique LineIndex ThmTree Cursor ThmPos Doc Ast Binder Preorder SpecBinder BinderFacts
  BinderDefs Blocks Nav NavSpec NavFacts ThmNav RefFacts ThmRefs SymCases TokKinds InstrMeta Types Check CheckFacts
  CheckMsgs ThmDup SpecTypes SigFacts SpecHeader HeaderFacts SemTok Hover SpecHover.
Import ListNotations.

(** ** Lists *)

Lemma take_while_app {A} (p : A -> bool) a b : forallb p a = true -> take_while p (a ++ b) = a ++ take_while p b.
Proof. induction a as [|x a IH]; cbn; [reflexivity|]. intros H. apply andb_prop in H as [-> H]. now rewrite IH. Qed.
Lemma skip_while_app {A} (p : A -> bool) a b : forallb p a = true -> skip_while p (a ++ b) = skip_while p b.
Proof. induction a as [|x a IH]; cbn; [reflexivity|]. intros H. apply andb_prop in H as [-> H]. now rewrite IH. Qed.
Lemma while_split {A} (p : A -> bool) l : l = take_while p l ++ skip_while p l.
Proof. induction l as [|x l IH]; cbn; [reflexivity|]. destruct (p x); cbn; [now rewrite <- IH|reflexivity]. Qed.
Lemma take_while_all {A} (p : A -> bool) l : forallb p (take_while p l) = true.
Proof. induction l as [|x l IH]; cbn; [reflexivity|]. destruct (p x) eqn:E; cbn; [now rewrite E|reflexivity]. Qed.
Lemma skip_while_head {A} (p : A -> bool) l : skip_while p l = [] \/ exists x r, skip_while p l = x :: r /\ p x = false.
Proof. induction l as [|x l IH]; cbn; [auto|]. destruct (p x) eqn:E; [exact IH|right; eauto]. Qed.
Lemma starts_with_iff p t : starts_with p t = true <-> exists x, t = p ++ x.
Proof.
  revert t. induction p as [|c p IH]; intros t; cbn.
  - split; [eauto|reflexivity].
  - destruct t as [|d t]; [split; [discriminate|intros (x & H); discriminate]|].
    rewrite andb_true_iff, N.eqb_eq, IH. split.
    + intros [-> (x & ->)]. eauto.
    + intros (x & H). injection H as -> ->. eauto.
Qed.

(** ** Comments *)

Definition b_blank (e : elem) : bool := kind_eqb (ekind e) WHITESPACE.
Definition b_comment (e : elem) : bool := kind_eqb (ekind e) LINE_COMMENT.
Definition b_doc (e : elem) : bool := b_comment e && starts_with (Text.T ";;;") (etext e).
Lemma b_blank_iff e : b_blank e = true <-> Blank e.
Proof. apply kind_eqb_eq. Qed.
Lemma b_comment_iff e : b_comment e = true <-> Comment e.
Proof. apply kind_eqb_eq. Qed.
Lemma b_doc_iff e : b_doc e = true <-> DocComment e.
Proof. unfold b_doc, DocComment. now rewrite andb_true_iff, b_comment_iff, starts_with_iff. Qed.
Definition b_plain (e : elem) : bool := b_blank e || b_comment e && negb (b_doc e).
Lemma b_plain_iff e : b_plain e = true <-> Blank e \/ Comment e /\ ~ DocComment e.
Proof. unfold b_plain. rewrite orb_true_iff, andb_true_iff, negb_true_iff, b_blank_iff, b_comment_iff, <- b_doc_iff, not_true_iff_false. reflexivity. Qed.
Definition b_part (e : elem) : bool := b_blank e || b_doc e.
Lemma b_part_iff e : b_part e = true <-> Blank e \/ DocComment e.
Proof. unfold b_part. now rewrite orb_true_iff, b_blank_iff, b_doc_iff. Qed.
Definition b_trivia (e : elem) : bool := kind_eqb (ekind e) LINE_COMMENT || kind_eqb (ekind e) WHITESPACE.
Lemma b_trivia_iff e : b_trivia e = true <-> Blank e \/ Comment e.
Proof. unfold b_trivia. rewrite orb_true_iff, !kind_eqb_eq. unfold Blank, Comment. tauto. Qed.

Lemma forall_forallb {A} (p : A -> bool) P l : (forall x, p x = true <-> P x) -> (Forall P l <-> forallb p l = true).
Proof. intros H. rewrite Forall_forall, forallb_forall. split; intros X x Hx; apply H; auto. Qed.
Lemma forallb_rev {A} (p : A -> bool) l : forallb p (rev l) = forallb p l.
Proof.
  destruct (forallb p l) eqn:E.
  - rewrite forallb_forall in *. intros x Hx. apply E. now apply in_rev.
  - apply not_true_iff_false. intros H. apply not_true_iff_false in E. apply E. rewrite forallb_forall in *. intros x Hx.
    apply H. now apply -> in_rev.
Qed.

Lemma filter_rev' {A} (p : A -> bool) l : filter p (rev l) = rev (filter p l).
Proof.
  induction l as [|x l IH]; cbn; [reflexivity|]. rewrite filter_app, IH. cbn. destruct (p x); cbn; [reflexivity|apply app_nil_r].
Qed.
(** The comments found, on the reversed list of what stands before. *)
Definition near (l : list elem) : list elem :=
  take_while (fun e => starts_with (Text.T ";;;") (etext e))
    (skip_while (fun e => negb (starts_with (Text.T ";;;") (etext e)))
      (filter b_comment (take_while b_trivia l))).
Lemma take_while_map {A B} (f : A -> B) p l : take_while p (map f l) = map f (take_while (fun x => p (f x)) l).
Proof. induction l as [|x l IH]; cbn; [reflexivity|]. destruct (p (f x)); cbn; [now rewrite IH|reflexivity]. Qed.
Lemma skip_while_map {A B} (f : A -> B) p l : skip_while p (map f l) = map f (skip_while (fun x => p (f x)) l).
Proof. induction l as [|x l IH]; cbn; [reflexivity|]. destruct (p (f x)); cbn; [now rewrite IH|reflexivity]. Qed.

Lemma forallb_imp {A} (p q : A -> bool) l : (forall x, p x = true -> q x = true) -> forallb p l = true -> forallb q l = true.
Proof. rewrite !forallb_forall. auto. Qed.
Lemma plain_trivia x : b_plain x = true -> b_trivia x = true.
Proof. rewrite b_plain_iff, b_trivia_iff. tauto. Qed.
Lemma part_trivia x : b_part x = true -> b_trivia x = true.
Proof. rewrite b_part_iff, b_trivia_iff. unfold DocComment. tauto. Qed.
Lemma doc_comment x : b_doc x = true -> b_comment x = true.
Proof. rewrite b_doc_iff, b_comment_iff. unfold DocComment. tauto. Qed.
Lemma doc_trivia x : b_doc x = true -> b_trivia x = true.
Proof. rewrite b_doc_iff, b_trivia_iff. unfold DocComment. tauto. Qed.
Lemma plain_filter c : forallb b_plain c = true -> forallb (fun e => negb (starts_with (Text.T ";;;") (etext e))) (filter b_comment c) = true.
Proof.
  rewrite !forallb_forall. intros H x Hx. apply filter_In in Hx as [Hx K]. apply H in Hx. unfold b_plain, b_doc in Hx.
  rewrite K in Hx. cbn in Hx. apply orb_prop in Hx as [Hx|Hx]; [|exact Hx].
  unfold b_blank, b_comment in *. apply kind_eqb_eq in Hx, K. congruence.
Qed.
Lemma part_filter c : forallb b_part c = true -> forallb (fun e => starts_with (Text.T ";;;") (etext e)) (filter b_comment c) = true.
Proof.
  rewrite !forallb_forall. intros H x Hx. apply filter_In in Hx as [Hx K]. apply H in Hx. unfold b_part, b_doc in Hx.
  rewrite K in Hx. cbn in Hx. apply orb_prop in Hx as [Hx|Hx]; [|exact Hx].
  unfold b_blank, b_comment in *. apply kind_eqb_eq in Hx, K. congruence.
Qed.

Lemma ends_rev p P a : (forall x, p x = true <-> P x) -> EndsBefore P a -> rev a = [] \/ exists x r, rev a = x :: r /\ p x = false.
Proof.
  intros H [->|(a' & x & -> & X)]; [auto|]. right. exists x, (rev a'). rewrite rev_app_distr. split; [reflexivity|].
  apply not_true_iff_false. now rewrite H.
Qed.
Lemma rev_ends p P z : (forall x, p x = true <-> P x) -> (z = [] \/ exists x r, z = x :: r /\ p x = false) -> EndsBefore P (rev z).
Proof.
  intros H [->|(x & r & -> & X)]; [now left|]. right. exists (rev r), x. split; [reflexivity|].
  rewrite <- H. now rewrite X.
Qed.

Lemma near_none a c : Forall (fun e => Blank e \/ Comment e /\ ~ DocComment e) c ->
  EndsBefore (fun e => Blank e \/ Comment e) a -> near (rev (a ++ c)) = [].
Proof.
  intros Hc Ha. unfold near. apply (forall_forallb _ _ _ b_plain_iff) in Hc. rewrite <- forallb_rev in Hc.
  rewrite rev_app_distr, take_while_app by exact (forallb_imp _ _ _ plain_trivia Hc).
  assert (E : take_while b_trivia (rev a) = []).
  { destruct (ends_rev _ _ _ b_trivia_iff Ha) as [->|(x & r & -> & X)]; cbn; [reflexivity|now rewrite X]. }
  rewrite E, app_nil_r. rewrite <- (app_nil_r (filter b_comment (rev c))), skip_while_app by now apply plain_filter. reflexivity.
Qed.
Lemma near_some a b x c : Forall (fun e => Blank e \/ Comment e /\ ~ DocComment e) c ->
  DocComment x -> Forall (fun e => Blank e \/ DocComment e) b -> EndsBefore (fun e => Blank e \/ DocComment e) a ->
  near (rev (a ++ b ++ x :: c)) = rev (filter b_comment (b ++ [x])).
Proof.
  intros Hc Hx Hb Ha. unfold near. apply (forall_forallb _ _ _ b_plain_iff) in Hc. rewrite <- forallb_rev in Hc.
  apply b_doc_iff in Hx. apply (forall_forallb _ _ _ b_part_iff) in Hb. rewrite <- forallb_rev in Hb.
  replace (rev (a ++ b ++ x :: c)) with (rev c ++ (x :: rev b) ++ rev a).
  2:{ rewrite !rev_app_distr. cbn [rev]. rewrite <- !app_assoc. reflexivity. }
  rewrite take_while_app by exact (forallb_imp _ _ _ plain_trivia Hc).
  rewrite (take_while_app b_trivia (x :: rev b)).
  2:{ cbn. rewrite (doc_trivia x Hx). exact (forallb_imp _ _ _ part_trivia Hb). }
  rewrite !filter_app. rewrite skip_while_app by now apply plain_filter.
  cbn [filter]. rewrite (doc_comment x Hx). pose proof Hx as Hx'. unfold b_doc in Hx'. apply andb_prop in Hx' as [_ Hx'].
  cbn [app skip_while]. rewrite Hx'. cbn [negb].
  change (x :: filter b_comment (rev b) ++ filter b_comment (take_while b_trivia (rev a)))
    with ((x :: filter b_comment (rev b)) ++ filter b_comment (take_while b_trivia (rev a))).
  rewrite take_while_app.
  2:{ cbn [forallb]. rewrite Hx'. now apply part_filter. }
  assert (E : take_while (fun e => starts_with (Text.T ";;;") (etext e)) (filter b_comment (take_while b_trivia (rev a))) = []).
  { destruct (ends_rev _ _ _ b_part_iff Ha) as [->|(y & r & -> & Y)]; [reflexivity|]. cbn [take_while].
    unfold b_part, b_doc in Y. apply orb_false_iff in Y as [Y1 Y2].
    destruct (b_trivia y) eqn:Z; [|reflexivity]. cbn [filter].
    assert (K : b_comment y = true).
    { unfold b_trivia in Z. unfold b_blank in Y1. unfold b_comment. rewrite Y1, orb_false_r in Z. exact Z. }
    rewrite K in *. cbn [take_while]. cbn [andb] in Y2. now rewrite Y2. }
  rewrite E, app_nil_r, rev_app_distr. cbn [rev filter app].
  now rewrite filter_rev'.
Qed.

(** What stands before an element. *)
Lemma kids_firstn p po us i o cs n : firstn n (kids p po us i o cs) = kids p po us i o (firstn n cs).
Proof. revert i o n. induction cs as [|c cs IH]; intros i o [|n]; cbn; try reflexivity. now rewrite IH. Qed.
Lemma kids_app p po us i o l r : kids p po us i o (l ++ r) = kids p po us i o l ++ kids p po us (i + length l) (o + glens l) r.
Proof.
  revert i o. induction l as [|c l IH]; intros i o; cbn.
  - now rewrite !Nat.add_0_r.
  - rewrite IH. rewrite <- plus_n_Sm. cbn [plus]. change (glens (c :: l)) with (glen c + glens l). now rewrite Nat.add_assoc.
Qed.
Lemma before_ex d p : parent d = Some p -> In d (children_with_tokens p) -> Before d (rev (prev_siblings d)).
Proof.
  intros P H. apply child_in in H as (l & g & r & E & ->). unfold prev_siblings. cbn [ups] in *. rewrite P. rewrite rev_involutive. cbn [u_idx].
  exists p, (kids (el p) (off p) (ups p) (S (length l)) (off p + glens l + glen g) r). split; [exact P|].
  unfold children_with_tokens. rewrite kids_firstn, E, firstn_app, Nat.sub_diag, firstn_all, app_nil_r, kids_app.
  cbn [firstn kids]. reflexivity.
Qed.
Lemma split_unique {A} (l1 l2 r1 r2 : list A) x : NoDup (l1 ++ x :: r1) -> l1 ++ x :: r1 = l2 ++ x :: r2 -> l1 = l2.
Proof.
  revert l2. induction l1 as [|a l1 IH]; intros [|b l2] D E; cbn in *; [reflexivity| | |].
  - injection E as -> E. inversion D as [|? ? N _]; subst. exfalso. apply N. apply in_elt.
  - injection E as -> E. inversion D as [|? ? N _]; subst. exfalso. apply N. apply in_elt.
  - injection E as -> E. inversion D; subst. f_equal. now apply IH.
Qed.
Lemma before_prev d l : Before d l -> rev l = prev_siblings d.
Proof.
  intros (p & r & P & E). assert (H : In d (children_with_tokens p)) by (rewrite E; apply in_elt).
  destruct (before_ex d p P H) as (p' & r' & P' & E'). rewrite P in P'. injection P' as <-.
  rewrite E in E'. assert (l = rev (prev_siblings d)) as ->; [|apply rev_involutive].
  apply (split_unique _ _ r r' d); [rewrite <- E; apply children_nodup|exact E'].
Qed.

Section Doc.
  Variable src : text.
  Notation tree := (tree_of src).
  Notation tb := (the_table src).

  Lemma prev_tokens d p e : InTree tree p -> parent d = Some p -> In d (children_with_tokens p) ->
    In e (prev_siblings d) -> b_comment e = true -> is_node e = false.
  Proof.
    intros T P H He K. destruct (is_node e) eqn:N; [|reflexivity]. exfalso.
    destruct (before_ex d p P H) as (p' & r & P' & E). rewrite P in P'. injection P' as <-.
    assert (He' : In e (children p)).
    { apply in_children. split; [|exact N]. rewrite E. apply in_or_app. left. now apply -> in_rev. }
    pose proof (parent_kind src p e T He') as X. apply kind_eqb_eq in K. rewrite K in X. vm_compute in X. destruct X.
  Qed.
  Lemma take_while_in {A} (p : A -> bool) l x : In x (take_while p l) -> In x l.
  Proof. induction l as [|y l IH]; cbn; [auto|]. destruct (p y); [intros [->|H]; auto|intros []]. Qed.
  Lemma doc_comments_near d p : InTree tree p -> parent d = Some p -> In d (children_with_tokens p) ->
    doc_comments d = map etext (near (prev_siblings d)).
  Proof.
    intros T P H. unfold doc_comments, near. rewrite skip_while_map, take_while_map.
    rewrite (filter_ext_in (fun e => negb (is_node e) && kind_eqb (ekind e) LINE_COMMENT) b_comment).
    - reflexivity.
    - intros e He. apply take_while_in in He. fold (b_comment e). destruct (b_comment e) eqn:K; [|apply andb_false_r].
      now rewrite (prev_tokens d p e T P H He K).
  Qed.
  Lemma doc_comments_spec d p cs : InTree tree p -> parent d = Some p -> In d (children_with_tokens p) ->
    DocComments d cs -> doc_comments d = rev (map etext cs).
  Proof.
    intros T P H D. rewrite (doc_comments_near d p T P H). rewrite <- map_rev. f_equal. destruct D as [a c B C A|a b x c cs B C X Bb A ->].
    - rewrite <- (before_prev _ _ B). now apply near_none.
    - rewrite <- (before_prev _ _ B). now apply near_some.
  Qed.
  Lemma doc_comments_ex d p : parent d = Some p -> In d (children_with_tokens p) -> exists cs, DocComments d cs.
  Proof.
    intros P H. pose proof (before_ex d p P H) as B. revert B. generalize (prev_siblings d). intros z B.
    rewrite (while_split b_plain z) in B. rewrite rev_app_distr in B.
    pose proof (take_while_all b_plain z) as Hc. rewrite <- forallb_rev in Hc. apply (forall_forallb _ _ _ b_plain_iff) in Hc.
    destruct (skip_while_head b_plain z) as [E|(x & r & E & X)]; rewrite E in B.
    - exists []. eapply Doc_none; [exact B|exact Hc|now left].
    - cbn [rev] in B. destruct (b_doc x) eqn:Dx.
      + rewrite (while_split b_part r) in B. rewrite rev_app_distr in B. rewrite <- !app_assoc in B. cbn [app] in B.
        eexists. eapply Doc_some; [exact B|exact Hc|now apply b_doc_iff| | |reflexivity].
        * apply (forall_forallb _ _ _ b_part_iff). rewrite forallb_rev. apply take_while_all.
        * apply (rev_ends _ _ _ b_part_iff). apply skip_while_head.
      + exists []. eapply Doc_none; [exact B|exact Hc|]. right. eexists. exists x. split; [reflexivity|].
        rewrite <- b_trivia_iff. unfold b_plain in X. unfold b_trivia. fold (b_blank x) (b_comment x). rewrite Dx in X.
        apply orb_false_iff in X as [-> X]. cbn in X. rewrite andb_true_r in X. now rewrite X.
  Qed.
End Doc.

(** ** Lines *)

Lemma line_fun t x : Line t x <-> starts_with (Text.T ";;;") t = true /\ x = doc_line t.
Proof.
  split.
  - intros [c y -> Hc|y -> Hy]; (split; [apply starts_with_iff; eauto|]).
    + unfold doc_line. cbn. destruct Hc as [-> | ->]; reflexivity.
    + unfold doc_line. cbn. destruct y as [|c y]; [reflexivity|]. destruct (Hy c y eq_refl) as [A B].
      apply N.eqb_neq in A, B. now rewrite A, B.
  - intros [H ->]. apply starts_with_iff in H as (y & ->). unfold doc_line. cbn [Text.T skipn app]. 
    destruct y as [|c y]; [apply Line_plain; [reflexivity|discriminate]|].
    change (skipn 3 (Text.T ";;;" ++ c :: y)) with (c :: y). cbv beta iota.
    destruct (N.eqb c 32 || N.eqb c 9) eqn:E.
    + apply orb_prop in E. rewrite !N.eqb_eq in E. now apply (Line_space _ c y).
    + apply orb_false_iff in E as [A B]. apply N.eqb_neq in A, B. apply Line_plain; [reflexivity|].
      intros c' y' X. injection X as <- <-. auto.
Qed.

Definition above (x doc : text) : text := x ++ match doc with [] => [] | _ => LF :: doc end.
Lemma above_nil k : fold_right above [] (repeat [] k) = [].
Proof. induction k as [|k IH]; cbn; [reflexivity|]. rewrite IH. reflexivity. Qed.
Lemma last_cons {A} (x y : A) l d : last (x :: y :: l) d = last (y :: l) d.
Proof. reflexivity. Qed.
Lemma above_sep ls k : ls = [] \/ last ls [] <> [] -> fold_right above [] (ls ++ repeat [] k) = sep_by [10%N] ls /\ (ls <> [] -> sep_by [10%N] ls <> []).
Proof.
  intros H. rewrite fold_right_app, above_nil. induction ls as [|x ls IH]; [split; [reflexivity|congruence]|].
  destruct H as [H|H]; [discriminate|]. destruct ls as [|y ls].
  - cbn [fold_right sep_by]. cbn in H. unfold above. rewrite app_nil_r. auto.
  - rewrite last_cons in H. destruct (IH (or_intror H)) as [E N]. specialize (N ltac:(discriminate)).
    cbn [fold_right] in E |- *. rewrite E.
    change (sep_by [10%N] (x :: y :: ls)) with (x ++ [10%N] ++ sep_by [10%N] (y :: ls)).
    unfold above. destruct (sep_by [10%N] (y :: ls)) as [|c z] eqn:S; [congruence|]. split; [reflexivity|]. destruct x; discriminate.
Qed.
(** Empty lines at the end. *)
Lemma trailing (l : list text) : exists ls k, l = ls ++ repeat [] k /\ (ls = [] \/ last ls [] <> []).
Proof.
  induction l as [|x l (ls & k & -> & H)]; [exists [], 0; auto|]. destruct ls as [|y ls].
  - destruct x as [|c x].
    + exists [], (S k). auto.
    + exists [c :: x], k. split; [reflexivity|right; discriminate].
  - exists (x :: y :: ls), k. split; [reflexivity|]. right. destruct H as [H|H]; [discriminate|exact H].
Qed.

Section Doc2.
  Variable src : text.
  Notation tree := (tree_of src).
  Notation tb := (the_table src).

  Lemma fold_doc l : fold_left add_doc (rev l) [] = fold_right above [] (map doc_line l).
  Proof.
    rewrite <- fold_left_rev_right, rev_involutive. induction l as [|x l IH]; cbn; [reflexivity|].
    rewrite IH. reflexivity.
  Qed.
  Lemma docs_spec d p : InTree tree p -> parent d = Some p -> In d (children_with_tokens p) ->
    forall x, Docs d x <-> x = doc_of d.
  Proof.
    intros T P H. assert (S : forall x, Docs d x -> x = doc_of d).
    { intros x [cs ls k C F L]. unfold doc_of. rewrite (doc_comments_spec src d p cs T P H C), fold_doc.
      assert (E : map doc_line (map etext cs) = ls ++ repeat [] k).
      { revert F. generalize (ls ++ repeat [] k). clear. induction cs as [|c cs IH]; intros l F; inversion F; subst; [reflexivity|].
        cbn. f_equal; [|now apply IH]. symmetry. now apply line_fun. }
      rewrite E. symmetry. now apply above_sep. }
    intros x. split; [apply S|]. intros ->. destruct (doc_comments_ex d p P H) as (cs & C).
    destruct (trailing (map doc_line (map etext cs))) as (ls & k & E & L).
    assert (D : Docs d (sep_by [10%N] ls)).
    { eapply (Docs_of d cs ls k C); [|exact L]. rewrite <- E.
      assert (Hd : Forall DocComment cs).
      { destruct C as [|a b y c cs B Hc Hy Hb A ->]; [constructor|]. rewrite Forall_forall in *. intros e He. apply filter_In in He as [He K].
        apply in_app_or in He as [He|[<-|[]]]; [|exact Hy]. apply Hb in He as [He|He]; [|exact He].
        apply kind_eqb_eq in K. unfold Blank in He. congruence. }
      clear -Hd. induction Hd as [|c cs Hc _ IH]; cbn; [constructor|]. constructor; [|exact IH].
      apply line_fun. split; [|reflexivity]. destruct Hc as [_ Hc]. now apply starts_with_iff. }
    now rewrite <- (S _ D).
  Qed.
End Doc2.
