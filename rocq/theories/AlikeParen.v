(** In a well-formed document no form follows an opening parenthesis
    directly: there is a keyword or the name of an instruction between. *)

From Coq Require Import String List NArith Bool Arith Lia.
From Verif Require Import Text Kind Green SpecParser SpecSyntax Lang Shape Red Cursor Doc Hover HoverFacts Alike AlikeDoc
  Completion SpecKeyword ThmKeyword SpecAlikeComp AlikeComp.
From Verif Require SpecComplete.
Import ListNotations.
Import SpecComplete.

Definition parenK (k : kind) : bool := kind_eqb k L_PAREN || kind_eqb k ERROR.
Definition parenG (g : green) : bool := match g with Tok k _ => parenK k | Node _ _ => false end.
Definition nodeG (g : green) : bool := match g with Node _ _ => true | Tok _ _ => false end.

(** What an expression may be: empty, starting with a node, ending with an
    opening parenthesis. *)
Fixpoint nul (e : rx) : bool :=
  match e with
  | Eps | Star _ => true
  | Sq a b => nul a && nul b
  | Or a b => nul a || nul b
  | _ => false
  end.
Fixpoint fn (e : rx) : bool :=
  match e with
  | Nd _ _ | Loose _ _ | Ins _ => true
  | Sq a b => fn a || nul a && fn b
  | Or a b => fn a || fn b
  | Star a => fn a
  | _ => false
  end.
Fixpoint lastp (e : rx) : bool :=
  match e with
  | Tk k => parenK k
  | Sq a b => lastp b || nul b && lastp a
  | Or a b => lastp a || lastp b
  | Star a => lastp a
  | _ => false
  end.
Fixpoint apart (e : rx) : bool :=
  match e with
  | Nd _ e | Loose _ e => apart e
  | Sq a b => apart a && apart b && negb (lastp a && fn b)
  | Or a b => apart a && apart b
  | Star a => apart a && negb (lastp a && fn a)
  | _ => true
  end.
Lemma ins_apart i : apart (instr_rx i) = true /\ nul (instr_rx i) = false /\ lastp (instr_rx i) = false.
Proof. destruct i; vm_compute; auto. Qed.
Lemma module_apart : apart (Star MODULE_) = true.
Proof. vm_compute. reflexivity. Qed.

Notation sg := (filter significant).
Definition NoPN (l : list green) : Prop :=
  forall a q n b, sg l = a ++ q :: n :: b -> parenG q = true -> nodeG n = true -> False.
Definition LastP (l : list green) : Prop := exists a q, sg l = a ++ [q] /\ parenG q = true.
Definition FirstN (l : list green) : Prop := exists n b, sg l = n :: b /\ nodeG n = true.
Lemma trivia_sg l : Trivia l -> sg l = [].
Proof.
  induction 1 as [|g l Hg _ IH]; [reflexivity|]. cbn [filter]. destruct g as [k t|]; [|destruct Hg]. cbn. rewrite Hg. exact IH.
Qed.
Lemma nopn_app l m : NoPN l -> NoPN m -> ~ (LastP l /\ FirstN m) -> NoPN (l ++ m).
Proof.
  intros Hl Hm H a q n b E Q N. rewrite filter_app in E. apply app_eq_app in E as (z & [[E1 E2]|[E1 E2]]).
  - destruct z as [|x z]; cbn [app] in E2.
    + apply (Hm [] q n b); auto.
    + injection E2 as <- E2. destruct z as [|y z]; cbn [app] in E2.
      * apply H. split; [exists a, q; auto|]. exists n, b. auto.
      * injection E2 as <- E2. apply (Hl a q n z); auto.
  - apply (Hm z q n b); auto.
Qed.
Lemma nopn_one tr g : Trivia tr -> NoPN (tr ++ [g]).
Proof.
  intros Ht a q n b E. rewrite filter_app, (trivia_sg _ Ht) in E. cbn [app filter] in E.
  destruct (significant g); destruct a as [|x [|y a]]; discriminate E.
Qed.
Lemma sg_one tr g : Trivia tr -> significant g = true -> sg (tr ++ [g]) = [g].
Proof. intros Ht S. rewrite filter_app, (trivia_sg _ Ht). cbn. now rewrite S. Qed.
Lemma last_app l m : LastP (l ++ m) -> LastP m \/ (sg m = [] /\ LastP l).
Proof.
  intros (a & q & E & Q). rewrite filter_app in E. destruct (sg m) as [|x s] eqn:M using rev_ind.
  - right. split; [reflexivity|]. exists a, q. rewrite app_nil_r in E. auto.
  - left. rewrite app_assoc in E. apply app_inj_tail in E as [_ ->]. exists s, q. auto.
Qed.
Lemma first_app l m : FirstN (l ++ m) -> FirstN l \/ (sg l = [] /\ FirstN m).
Proof.
  intros (n & b & E & N). rewrite filter_app in E. destruct (sg l) as [|x s] eqn:L; cbn [app] in E.
  - right. split; [reflexivity|]. exists n, b. auto.
  - left. injection E as -> E. exists n, s. auto.
Qed.
Lemma last_nil : ~ LastP [].
Proof. intros (a & q & E & _). now destruct a. Qed.
Lemma first_nil : ~ FirstN [].
Proof. intros (n & b & E & _). discriminate E. Qed.

Lemma reads_ends_kinds e l : Reads e l ->
  (sg l = [] -> nul e = true) /\ (FirstN l -> fn e = true) /\ (LastP l -> lastp e = true).
Proof.
  assert (Tokc : forall tr k t, Trivia tr -> is_trivia_kind k = false ->
    (sg (tr ++ [Tok k t]) = [] -> False) /\ (FirstN (tr ++ [Tok k t]) -> False) /\ (LastP (tr ++ [Tok k t]) -> parenK k = true)).
  { intros tr k t Ht Hk. assert (S : significant (Tok k t) = true) by (cbn; now rewrite Hk).
    unfold FirstN, LastP. rewrite (sg_one _ _ Ht S). split; [discriminate|]. split.
    - intros (n & b & E & N). injection E as <- _. discriminate N.
    - intros (a & q & E & Q). destruct a as [|x a]; [injection E as <-; exact Q|]. destruct a; discriminate E. }
  assert (Nodc : forall tr k cs, Trivia tr -> (sg (tr ++ [Node k cs]) = [] -> False) /\ (LastP (tr ++ [Node k cs]) -> False)).
  { intros tr k cs Ht. unfold LastP. rewrite (sg_one _ (Node k cs) Ht eq_refl). split; [discriminate|].
    intros (a & q & E & Q). destruct a as [|x a]; [injection E as <-; discriminate Q|]. destruct a; discriminate E. }
  induction 1 as [s tr Ht|k t tr Ht Hk|b t tr Ht Hb|k e cs tr Ht _ IH HT|k e cs _ IH|i l _ IH| |a b l m _ IHa _ IHb
                 |a b l _ IH|a b l _ IH|a|a l m _ IHa _ IHm]; cbn [nul fn lastp].
  - destruct (Tokc tr KEYWORD (T s) Ht eq_refl) as (A & B & C). split; [|split]; intros X; [destruct (A X)|destruct (B X)|exact (C X)].
  - destruct (Tokc tr k t Ht Hk) as (A & B & C). split; [|split]; intros X; [destruct (A X)|destruct (B X)|exact (C X)].
  - destruct (Tokc tr FLOAT t Ht eq_refl) as (A & B & C). split; [|split]; intros X; [destruct (A X)|destruct (B X)|exact (C X)].
  - destruct (Nodc tr k cs Ht) as (A & C). split; [|split]; intros X; [destruct (A X)|reflexivity|destruct (C X)].
  - destruct (Nodc [] k cs (Forall_nil _)) as (A & C). split; [|split]; intros X; [destruct (A X)|reflexivity|destruct (C X)].
  - destruct (ins_apart i) as (_ & N & P). rewrite N, P in IH. destruct IH as (A & B & C). split; [|split]; intros X; [exact (A X)|reflexivity|exact (C X)].
  - split; [reflexivity|]. split; intros X; [destruct (first_nil X)|destruct (last_nil X)].
  - destruct IHa as (A1 & A2 & A3), IHb as (B1 & B2 & B3). split; [|split]; intros X.
    + rewrite filter_app in X. apply app_eq_nil in X as [X Y]. now rewrite A1, B1.
    + apply first_app in X as [X|[E X]]; [now rewrite A2|]. rewrite (A1 E), (B2 X). apply orb_true_r.
    + apply last_app in X as [X|[E X]]; [now rewrite B3|]. rewrite (B1 E), (A3 X). apply orb_true_r.
  - destruct IH as (A & B & C). split; [|split]; intros X; [rewrite (A X)|rewrite (B X)|rewrite (C X)]; reflexivity.
  - destruct IH as (A & B & C). split; [|split]; intros X; [rewrite (A X)|rewrite (B X)|rewrite (C X)]; apply orb_true_r.
  - split; [reflexivity|]. split; intros X; [destruct (first_nil X)|destruct (last_nil X)].
  - destruct IHa as (A1 & A2 & A3), IHm as (B1 & B2 & B3). cbn [nul fn lastp] in *. split; [reflexivity|]. split; intros X.
    + apply first_app in X as [X|[E X]]; auto.
    + apply last_app in X as [X|[E X]]; auto.
Qed.

Definition ApartBelow (l : list green) : Prop := forall g k cs, In g l -> Sub g (Node k cs) -> NoPN cs.
Lemma ab_app l m : ApartBelow l -> ApartBelow m -> ApartBelow (l ++ m).
Proof. intros H1 H2 g k cs Hin. apply in_app_or in Hin as [Hin|Hin]; eauto. Qed.
Lemma ab_tok k t : ApartBelow [Tok k t].
Proof. intros g k' cs [<-|[]] H. inversion H. Qed.
Lemma ab_trivia l : Trivia l -> ApartBelow l.
Proof.
  intros H g k cs Hin Hs. unfold Trivia in H. rewrite Forall_forall in H. specialize (H _ Hin). destruct g; [inversion Hs|destruct H].
Qed.
Lemma ab_node k cs : ApartBelow cs -> NoPN cs -> ApartBelow [Node k cs].
Proof. intros H1 H2 g k' cs' [<-|[]] H. inversion H; subst; [exact H2|]. eapply H1; eassumption. Qed.
Lemma nopn_nil : NoPN [].
Proof. intros a q n b E. destruct a; discriminate E. Qed.
Lemma reads_apart e l : Reads e l -> apart e = true -> NoPN l /\ ApartBelow l.
Proof.
  induction 1 as [s tr Ht|k t tr Ht Hk|b t tr Ht Hb|k e cs tr Ht HR IH HT|k e cs HR IH|i l _ IH| |a b l m Ha IHa Hb IHb
                 |a b l _ IH|a b l _ IH|a|a l m Ha IHa Hm IHm]; cbn [apart]; intros E;
    try (split; [now apply nopn_one|apply ab_app; [now apply ab_trivia|apply ab_tok]]); try (split; [apply nopn_nil|intros ? ? ? []]; fail).
  - destruct (IH E) as [A B]. split; [now apply nopn_one|]. apply ab_app; [now apply ab_trivia|]. now apply ab_node.
  - destruct (IH E) as [A B]. split; [apply (nopn_one [] _ (Forall_nil _))|]. now apply ab_node.
  - apply IH, ins_apart.
  - apply andb_prop in E as [E E3]. apply andb_prop in E as [E1 E2]. destruct (IHa E1) as [A1 A2], (IHb E2) as [B1 B2].
    split; [|now apply ab_app]. apply nopn_app; auto. intros [X Y]. apply (reads_ends_kinds _ _ Ha) in X. apply (reads_ends_kinds _ _ Hb) in Y.
    rewrite X, Y in E3. discriminate E3.
  - apply andb_prop in E as [E1 E2]. auto.
  - apply andb_prop in E as [E1 E2]. auto.
  - pose proof E as E'. apply andb_prop in E as [E1 E3]. destruct (IHa E1) as [A1 A2], (IHm E') as [B1 B2].
    split; [|now apply ab_app]. apply nopn_app; auto. intros [X Y]. apply (reads_ends_kinds _ _ Ha) in X. apply (reads_ends_kinds _ _ Hm) in Y.
    cbn [fn] in Y. rewrite X, Y in E3. discriminate E3.
Qed.
Lemma document_apart tree : Document tree -> forall p, InTree tree p -> NoPN (gchildren (el p)).
Proof.
  intros (ms & tl & -> & HR & Ht & _) p Hp. pose proof (Desc_Sub _ _ Hp) as Hs. cbn [root_of el] in Hs.
  destruct (reads_apart _ _ HR module_apart) as [A B].
  destruct (el p) as [k t|k cs] eqn:E; cbn [gchildren]; [apply nopn_nil|].
  inversion Hs; subst.
  - apply nopn_app; [exact A| |].
    + intros a q n b X. rewrite (trivia_sg _ Ht) in X. destruct a; discriminate X.
    + intros [_ (n & b & X & _)]. rewrite (trivia_sg _ Ht) in X. discriminate X.
  - eapply (ab_app ms tl); eauto. now apply ab_trivia.
Qed.

(** So the condition of C54 on the token before the cursor is met in every
    well-formed document. *)
Lemma document_plainly src t : Document (tree_of src) -> InTree (tree_of src) t -> is_node t = false -> PlainlyBehind t.
Proof.
  intros D T N H. apply (behind_iff src t T) in H. apply (after_iff src t T). destruct H as [H|(q & F & O)]; [now left|right].
  destruct (filter sigE (prev_siblings t)) as [|e l] eqn:E; [discriminate F|]. cbn [find] in F. destruct (is_node e) eqn:Ne; cbn [negb] in F.
  2:{ injection F as ->. exists q. auto. }
  exfalso. destruct T as [|p c Hp Hc].
  { destruct D as (ms & tl & E0 & _). rewrite E0 in N. discriminate N. }
  pose proof (document_apart _ D p Hp) as A.
  destruct (before_ex c p (parent_child _ _ Hc) Hc) as (p' & r & P' & Ep). rewrite (parent_child _ _ Hc) in P'. injection P' as <-.
  pose proof (scwt_el p) as X. unfold scwt in X. rewrite Ep, filter_app in X.
  assert (Er : rev (filter sigE (rev (prev_siblings c))) = e :: l) by now rewrite filter_rev', rev_involutive.
  apply (f_equal (@rev elem)) in Er. rewrite rev_involutive in Er. rewrite Er in X.
  assert (Z : exists q' n l1 l2, e :: l = l1 ++ n :: q' :: l2 /\ is_node n = true /\ is_node q' = false /\ OpenParen q').
  { clear - F O Ne. revert e Ne. induction l as [|x l IH]; intros e Ne; [discriminate F|]. cbn [find] in F. destruct (is_node x) eqn:Nx; cbn [negb] in F.
    - destruct (IH F x Nx) as (q' & n & l1 & l2 & E & H). exists q', n, (e :: l1), l2. split; [now rewrite E|exact H].
    - injection F as ->. exists q, e, [], l. auto. }
  destruct Z as (q' & n & l1 & l2 & El & Nn & Nq & Oq). rewrite El in X. rewrite rev_app_distr in X. cbn [rev] in X.
  rewrite !map_app, <- !app_assoc in X. cbn [map app] in X. symmetry in X. refine (A _ _ _ _ X _ _).
  - unfold is_node in Nq. unfold OpenParen, ekind in Oq. destruct (el q') as [k t|]; [|discriminate Nq]. cbn in Oq. unfold parenG, parenK.
    destruct Oq as [-> |[-> _]]; reflexivity.
  - unfold is_node in Nn. destruct (el n); [discriminate Nn|reflexivity].
Qed.
