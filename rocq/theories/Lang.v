(** The tree language of a grammar term: which child lists it can produce.
    [Lang true] describes output produced without recording an error,
    [Lang false] any output. *)

From Coq Require Import String List NArith Bool Arith Lia.
From Verif Require Import Text Kind Green SpecParser Lexer LexerFacts Winnow Grammar Sem Lossless Total.
Import ListNotations.

Definition junk (o : list green) : Prop :=
  Forall (fun g => is_trivia_tok g \/ is_error_tok g) o /\ exists c, In (Tok ERROR c) o /\ c <> [].

Lemma junk_app_l a b :
  Forall (fun g => is_trivia_tok g \/ is_error_tok g) a -> junk b -> junk (a ++ b).
Proof.
  intros Ha [Hb (c & Hc & Hn)]. split; [now apply Forall_app|]. exists c.
  split; [apply in_or_app; now right|exact Hn].
Qed.
Lemma junk_app_r a b :
  junk a -> Forall (fun g => is_trivia_tok g \/ is_error_tok g) b -> junk (a ++ b).
Proof.
  intros [Ha (c & Hc & Hn)] Hb. split; [now apply Forall_app|]. exists c.
  split; [apply in_or_app; now left|exact Hn].
Qed.
Lemma junk_tok c : c <> [] -> junk [Tok ERROR c].
Proof.
  intros H. split; [|exists c; simpl; auto]. constructor; [|constructor]. right. simpl. auto.
Qed.
Lemma trivia_junk tr :
  Forall is_trivia_tok tr -> Forall (fun g => is_trivia_tok g \/ is_error_tok g) tr.
Proof. apply Forall_impl. auto. Qed.

Section Lang.
  Variable ib : grammar.
  Variable strict : bool.

  Inductive Lang : grammar -> list green -> Prop :=
  | LTok k (l : lex) t c r : l t = LOk c r -> Lang (GTok k l) [Tok k c]
  | LTriv tr : Forall is_trivia_tok tr -> Lang GTriv tr
  | LEmpty : Lang GEmpty []
  | LSeq a b o1 o2 : Lang a o1 -> Lang b o2 -> Lang (GSeq a b) (o1 ++ o2)
  | LAlt1 a b o : Lang a o -> Lang (GAlt a b) o
  | LAlt2 a b o : Lang b o -> Lang (GAlt a b) o
  | LOpt1 a o : Lang a o -> Lang (GOpt a) o
  | LOpt0 a : Lang (GOpt a) []
  | LRep0 a : Lang (GRep a) []
  | LRepS a o1 o2 : Lang a o1 -> Lang (GRep a) o2 -> Lang (GRep a) (o1 ++ o2)
  | LRep1 a o1 o2 : Lang a o1 -> Lang (GRep a) o2 -> Lang (GRep1 a) (o1 ++ o2)
  | LTill0 f g o : Lang g o -> Lang (GTill f g) o
  | LTillS f g o1 o2 : Lang f o1 -> Lang (GTill f g) o2 -> Lang (GTill f g) (o1 ++ o2)
  | LIf1 l p a b o : Lang a o -> Lang (GIf l p a b) o
  | LIf2 l p a b o : Lang b o -> Lang (GIf l p a b) o
  | LNode k a o : Lang a o -> Lang (GNode k a) [Node k o]
  | LCtx m a o : Lang a o -> Lang (GCtx m a) o
  | LRetry a ns tr o : Forall is_trivia_tok tr -> Lang a o -> Lang (GRetry a ns) (tr ++ o)
  | LRetryS a ns j o : strict = false -> junk j -> Lang (GRetry a ns) o -> Lang (GRetry a ns) (j ++ o)
  | LRetryE a ns j : strict = false -> junk j -> Lang (GRetry a ns) j
  | LOnce a ns tr o : Forall is_trivia_tok tr -> Lang a o -> Lang (GRetryOnce a ns) (tr ++ o)
  | LOnceE a ns j : strict = false -> junk j -> Lang (GRetryOnce a ns) j
  | LMust1 a o : Lang a o -> Lang (GMust a) o
  | LMust0 a : strict = false -> Lang (GMust a) []
  | LRParen tr : Forall is_trivia_tok tr -> Lang GRParen (tr ++ [Tok R_PAREN (T ")")])
  | LRParenS j o : strict = false -> junk j -> Lang GRParen o -> Lang GRParen (j ++ o)
  | LRParen0 : strict = false -> Lang GRParen []
  | LInstr o : Lang ib o -> Lang GInstr o.
End Lang.

Lemma recover_junk dbg ns e ts o s :
  recover dbg ns e ts = RecTok o s \/ recover dbg ns e ts = RecTerm o s ->
  junk o /\ LogExt ts s /\ log s <> log ts.
Proof.
  intros H. pose proof (Inv_recover _ _ _ _ _ _ H) as Hi.
  split; [|split; [apply Hi|]].
  - destruct H as [H|H].
    + apply recover_tok in H as (c & r & _ & _ & Hne & -> & _). now apply junk_tok.
    + apply recover_term in H as (c & r & r2 & _ & _ & Het & _).
      apply error_term_spec in Het as (_ & Hf & l' & ->).
      split; [exact Hf|]. exists (T "("). split; [now left|discriminate].
  - intros Hl. destruct H as [H|H].
    + apply recover_tok in H as (c & r & _ & _ & _ & _ & ->). simpl in Hl.
      apply (f_equal (@length _)) in Hl. simpl in Hl. lia.
    + apply recover_term in H as (c & r & r2 & _ & _ & _ & ->). simpl in Hl.
      apply (f_equal (@length _)) in Hl. simpl in Hl. lia.
Qed.

Lemma RP_lang ib strict dbg s0 acc s r : RP dbg s0 acc s r ->
  Inv s0 (ROk acc s) ->
  (acc = [] /\ s = s0 \/ junk acc /\ log s <> log s0) ->
  match r with
  | ROk o s1 => (strict = true -> log s1 = log s0) ->
     exists o', Lang ib strict GRParen o' /\ o = o'
  | _ => True
  end.
Proof.
  induction 1 as [acc s tr r r2 H1 H2|acc s tr r c r2 res H1 H2 H3 H4 IH|acc s tr r c r2 H1 H2 H3];
    intros Hi Hacc; apply trivias_spec in H1 as (H1 & Ht & _).
  - simpl. intros Hstr. eexists. split; [|reflexivity].
    destruct Hacc as [[-> ->]|[Hj Hl]].
    + now apply LRParen.
    + apply LRParenS; [|exact Hj|now apply LRParen].
      destruct strict; [|reflexivity]. exfalso. now apply Hl, Hstr.
  - pose proof (error_token_split false r) as Hsp. rewrite H3 in Hsp.
    apply error_token_pos in H3. apply IH.
    + destruct Hi as (L & c0 & (A & P) & C & E). split; [|].
      * apply LogExt_record. eapply LogExt_trans; [exact L|apply LogExt_refl; reflexivity].
      * exists (c0 ++ gtexts tr ++ c). split; [split|split].
        -- simpl. rewrite A, H1, Hsp, <- !app_assoc. reflexivity.
        -- simpl. rewrite P, !tlen_app, glens_tlen. lia.
        -- assert (Hg : gtexts [Tok ERROR c] = c) by (unfold gtexts; simpl; apply app_nil_r).
           rewrite !gtexts_app, Hg.
           apply Cov_app; [exact C|apply Cov_refl].
        -- intros H'. exfalso. eapply LogExt_record_neq; [|exact H'].
           eapply LogExt_trans; [exact L|apply LogExt_refl; reflexivity].
    + right. split.
      * apply junk_app_l; [destruct Hacc as [[-> _]|[Hj _]]; [constructor|apply Hj]|].
        apply junk_app_l; [now apply trivia_junk|now apply junk_tok].
      * apply LogExt_record_neq. destruct Hi as (L & _).
        eapply LogExt_trans; [exact L|apply LogExt_refl; reflexivity].
  - intros Hstr. eexists. split; [|reflexivity]. apply LRParen0.
    destruct strict; [|reflexivity]. exfalso. specialize (Hstr eq_refl). simpl in Hstr.
    destruct Hi as ((l & L) & _). rewrite L in Hstr.
    apply (f_equal (@length _)) in Hstr. simpl in Hstr. rewrite app_length in Hstr. lia.
Qed.

Theorem Ev_lang dbg ib strict g s r :
  wf_lex ib -> Ev dbg ib g s r -> wf_lex g ->
  match r with
  | ROk o s1 => (strict = true -> log s1 = log s) -> Lang ib strict g o
  | _ => True
  end.
Proof.
  intros Hib.
  assert (LX : forall g s r, Ev dbg ib g s r -> wf_lex g ->
     match r with ROk _ s1 | RErr _ s1 => LogExt s s1 | _ => True end).
  { intros g0 s0 r0 He Hw. pose proof (Ev_inv _ _ _ _ _ Hib He Hw) as Hi.
    destruct r0; simpl in Hi; auto; apply Hi. }
  induction 1; cbn [wf_lex]; intros Hwf; repeat match goal with H : _ /\ _ |- _ => destruct H end;
    try exact I; try (intros Hs).
  - eapply LTok; eauto.
  - apply trivias_spec in H as (_ & H & _). now apply LTriv.
  - constructor.
  - destruct r as [o2 s2| | |]; simpl; try exact I. intros Hs.
    pose proof (LX _ _ _ H ltac:(assumption)) as L1. pose proof (LX _ _ _ H0 ltac:(assumption)) as L2.
    assert (strict = true -> log s1 = log s /\ log s2 = log s1)
      by (intros; apply LogExt_eq_mid; auto).
    apply LSeq; [apply IHEv1|apply IHEv2]; auto; intros; now apply H3.
  - apply LAlt1; auto.
  - destruct r as [o2 s2| | |]; try exact I. intros Hs. apply LAlt2. apply IHEv2; [assumption|].
    intros Hst. specialize (Hs Hst).
    pose proof (LX _ _ _ H ltac:(assumption)) as L1. pose proof (LX _ _ _ H0 ltac:(assumption)) as L2.
    simpl in *. destruct (LogExt_eq_mid _ _ _ (LogExt_reset _ _ L1) L2 Hs). assumption.
  - apply LOpt1; auto.
  - apply LOpt0.
  - apply LRep0.
  - destruct r as [o2 s2| | |]; simpl; try exact I. intros Hs.
    pose proof (LX _ _ _ H ltac:(assumption)) as L1. pose proof (LX (GRep a) _ _ H1 Hwf) as L2.
    assert (strict = true -> log s1 = log s /\ log s2 = log s1)
      by (intros; apply LogExt_eq_mid; auto).
    apply LRepS; [apply IHEv1|apply IHEv2]; auto; intros; now apply H2.
  - destruct r as [o2 s2| | |]; simpl; try exact I. intros Hs.
    pose proof (LX _ _ _ H ltac:(assumption)) as L1. pose proof (LX (GRep a) _ _ H0 Hwf) as L2.
    assert (strict = true -> log s1 = log s /\ log s2 = log s1)
      by (intros; apply LogExt_eq_mid; auto).
    apply LRep1; [apply IHEv1|apply IHEv2]; auto; intros; now apply H1.
  - apply LTill0; auto.
  - destruct r as [o2 s3| | |]; simpl; try exact I. intros Hs.
    pose proof (LX _ _ _ H ltac:(assumption)) as L1. pose proof (LX _ _ _ H0 ltac:(assumption)) as L2.
    pose proof (LX (GTill f g) _ _ H2 ltac:(split; assumption)) as L3. simpl in L1, L2, L3.
    assert (strict = true -> log s2 = log (reset s s1) /\ log s3 = log s2).
    { intros Hst. specialize (Hs Hst).
      destruct (LogExt_eq_mid _ _ _ (LogExt_trans _ _ _ (LogExt_reset _ _ L1) L2) L3 Hs) as [Ha Hb].
      destruct (LogExt_eq_mid _ _ _ (LogExt_reset _ _ L1) L2 Ha) as [Hc Hd]. auto. }
    apply LTillS; [apply IHEv2|apply IHEv3]; auto; try (split; assumption); intros; now apply H5.
  - destruct r; try exact I. intros Hs. apply LIf1. apply IHEv; assumption.
  - destruct r; try exact I. intros Hs. apply LIf2. apply IHEv; assumption.
  - apply LNode; auto.
  - apply LCtx; auto.
  - apply trivias_spec in H as (_ & Ht & _). apply LRetry; [exact Ht|]. apply IHEv; [assumption|exact Hs].
  - destruct x as [o2 s3| | |]; simpl; try exact I. intros Hs.
    pose proof (LX _ _ _ H0 ltac:(assumption)) as L1.
    pose proof (LX (GRetry a ns) _ _ H2 Hwf) as L3. simpl in L1, L3.
    apply trivias_spec in H as (_ & Ht & _).
    apply (or_introl (B := recover dbg ns e (reset (tadv s tr r) s1) = RecTerm o s2)) in H1.
    apply recover_junk in H1 as (Hj & L2 & Hne).
    assert (Hst : strict = false).
    { destruct strict; [|reflexivity]. specialize (Hs eq_refl). exfalso. apply Hne.
      assert (L1' : LogExt s (reset (tadv s tr r) s1)) by exact L1.
      destruct (LogExt_eq_mid _ _ _ (LogExt_trans _ _ _ L1' L2) L3 Hs) as [Ha _].
      now destruct (LogExt_eq_mid _ _ _ L1' L2 Ha). }
    apply LRetryS; auto; [apply junk_app_l; [now apply trivia_junk|exact Hj]|].
    apply IHEv2; auto. congruence.
  - pose proof (LX _ _ _ H0 ltac:(assumption)) as L1. simpl in L1.
    apply trivias_spec in H as (_ & Ht & _).
    apply (or_intror (A := recover dbg ns e (reset (tadv s tr r) s1) = RecTok o s2)) in H1.
    apply recover_junk in H1 as (Hj & L2 & Hne).
    apply LRetryE; [|apply junk_app_l; [now apply trivia_junk|exact Hj]].
    destruct strict; [|reflexivity]. specialize (Hs eq_refl). exfalso. apply Hne.
    assert (L1' : LogExt s (reset (tadv s tr r) s1)) by exact L1.
    now destruct (LogExt_eq_mid _ _ _ L1' L2 Hs).
  - apply trivias_spec in H as (_ & Ht & _). apply LOnce; [exact Ht|]. apply IHEv; [assumption|exact Hs].
  - pose proof (LX _ _ _ H0 ltac:(assumption)) as L1. simpl in L1.
    apply trivias_spec in H as (_ & Ht & _).
    apply recover_junk in H1 as (Hj & L2 & Hne).
    apply LOnceE; [|apply junk_app_l; [now apply trivia_junk|exact Hj]].
    destruct strict; [|reflexivity]. specialize (Hs eq_refl). exfalso. apply Hne.
    assert (L1' : LogExt s (reset (tadv s tr r) s1)) by exact L1.
    now destruct (LogExt_eq_mid _ _ _ L1' L2 Hs).
  - apply LMust1; auto.
  - apply LMust0. destruct strict; [|reflexivity]. specialize (Hs eq_refl).
    pose proof (LX _ _ _ H ltac:(assumption)) as L1. simpl in L1.
    exfalso. exact (LogExt_record_neq _ _ e L1 Hs).
  - pose proof (RP_lang ib strict _ _ _ _ _ H (Inv_here s) (or_introl (conj eq_refl eq_refl))) as Hr.
    destruct r as [o s1| | |]; try exact I. intros Hs. destruct (Hr Hs) as (o' & Ho & ->). exact Ho.
  - destruct r as [o s1| | |]; try exact I. intros Hs. apply LInstr. apply IHEv; assumption.
Qed.
