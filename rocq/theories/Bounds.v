(** Positions of recorded errors, and what is dropped at the end. *)

From Coq Require Import String List NArith Bool Arith Lia.
From Verif Require Import Text Kind Green SpecParser Lexer LexerFacts Winnow Grammar Sem Lossless Total.
Import ListNotations.

Definition EB (src : text) (e : err) : Prop :=
  Boundary src (e_start e) /\ Boundary src (e_end e).

Definition At (src : text) (s : st) : Prop :=
  (exists p, src = p ++ rest s /\ pos s = tlen p) /\ Forall (EB src) (log s).

Lemma Boundary_0 src : Boundary src 0.
Proof. exists [], src. auto. Qed.
Lemma At_pos src s : At src s -> Boundary src (pos s).
Proof. intros [(p & H & H2) _]. exists p, (rest s). auto. Qed.
Lemma EB_new src : EB src err_new.
Proof. split; apply Boundary_0. Qed.
Lemma EB_ctx src e n m : EB src e -> Boundary src n -> EB src (err_ctx e n m).
Proof. intros [? ?] ?. split; assumption. Qed.
Lemma EB_end src e n : EB src e -> Boundary src n -> EB src (err_at_end e n).
Proof. intros [? ?] ?. split; assumption. Qed.
Lemma At_move src s c r n :
  At src s -> rest s = c ++ r -> n = pos s + tlen c -> At src (mk_st r n (log s)).
Proof.
  intros [(p & H & H2) HL] Hr ->. split; [|exact HL].
  exists (p ++ c). simpl. rewrite H, Hr, app_assoc, tlen_app. split; [reflexivity|lia].
Qed.
Lemma At_adv src s c r : At src s -> rest s = c ++ r -> At src (advance s c r).
Proof. intros H Hr. eapply At_move; eauto. Qed.
Lemma At_reset src s s1 : At src s -> At src s1 -> At src (reset s s1).
Proof. intros [H _] [_ H2]. split; assumption. Qed.
Lemma At_record src s e : At src s -> EB src e -> At src (record s e).
Proof.
  intros H He. destruct H as [H HL]. split; [exact H|]. simpl. constructor; [|exact HL].
  apply EB_end; [exact He|]. apply (At_pos src s). split; assumption.
Qed.
Lemma At_tadv src dbg s tr r : At src s -> trivias dbg (rest s) = POk tr r -> At src (tadv s tr r).
Proof.
  intros H Ht. apply trivias_spec in Ht as (Ht & _). eapply At_move; eauto. now rewrite glens_tlen.
Qed.

Lemma At_recover src dbg ns e ts o s :
  At src ts -> EB src e ->
  recover dbg ns e ts = RecTok o s \/ recover dbg ns e ts = RecTerm o s -> At src s.
Proof.
  intros Ha He [H|H].
  - apply recover_tok in H as (c & r & _ & Hr & _ & _ & ->). apply At_record; auto. now apply At_adv.
  - apply recover_term in H as (c & r & r2 & _ & Hr & Het & ->). apply At_record; auto.
    apply error_term_spec in Het as (Hr2 & _). eapply (At_move src ts (c ++ gtexts o)); auto.
    + rewrite Hr, Hr2, app_assoc. reflexivity.
    + rewrite tlen_app, glens_tlen. lia.
Qed.

Lemma At_recover_none src dbg ns e ts s :
  At src ts -> recover dbg ns e ts = RecNone s -> At src s.
Proof.
  intros Ha H. apply recover_none in H as (_ & c & r & _ & Hr & _ & ->). now apply At_adv.
Qed.

Definition RAt (src : text) (r : res) : Prop :=
  match r with ROk _ s => At src s | RErr e s => At src s /\ EB src e | _ => True end.

Lemma RAt_rprep src o r : RAt src r -> RAt src (rprep o r).
Proof. destruct r; auto. Qed.

Lemma RP_at src dbg s0 acc s r : RP dbg s0 acc s r -> At src s0 -> At src s -> RAt src r.
Proof.
  induction 1 as [acc s tr r r2 H1 H2|acc s tr r c r2 res H1 H2 H3 H4 IH|acc s tr r c r2 H1 H2 H3];
    intros H0 Hs; pose proof (At_tadv _ _ _ _ _ Hs H1) as Ht.
  - simpl. apply At_adv; auto. now apply strip_prefix_spec in H2.
  - apply IH; auto. pose proof (error_token_split false r) as Hsp. rewrite H3 in Hsp.
    apply At_record; [now apply At_adv|]. apply EB_ctx; [apply EB_new|now apply At_pos].
  - pose proof (error_token_split false r) as Hsp. rewrite H3 in Hsp.
    simpl. apply At_reset; auto. apply At_record; [now apply At_adv|].
    apply EB_ctx; [apply EB_new|exact (At_pos _ _ Ht)].
Qed.

Theorem Ev_at src dbg ib g s r :
  wf_lex ib -> Ev dbg ib g s r -> wf_lex g -> At src s -> RAt src r.
Proof.
  intros Hib. induction 1; cbn [wf_lex]; intros Hwf Hs;
    repeat match goal with H : _ /\ _ |- _ => destruct H end;
    repeat match goal with
    | IH : ?w -> At _ ?s -> RAt _ _, Hw : ?w, Ha : At _ ?s |- _ => specialize (IH Hw Ha); simpl in IH
    | H : trivias _ (rest ?s) = POk _ _, Ha : At _ ?s |- _ =>
        lazymatch goal with
        | _ : At _ (tadv s _ _) |- _ => fail
        | _ => pose proof (At_tadv _ _ _ _ _ Ha H) end
    | IH : _ -> At _ (reset ?s ?s1) -> _, H1 : At _ ?s, H2 : At _ ?s1 /\ _ |- _ =>
        lazymatch goal with
        | _ : At _ (reset s s1) |- _ => fail
        | _ => pose proof (At_reset _ _ _ H1 (proj1 H2)) end
    end; simpl;
    try assumption; try (apply RAt_rprep; auto; fail).
  - specialize (Hwf (rest s)). rewrite H in Hwf. now apply At_adv.
  - specialize (Hwf (rest s)). rewrite H in Hwf. split; [now apply At_adv|apply EB_new].
  - split; [assumption|apply EB_new].
  - apply At_reset; [assumption|apply IHEv].
  - apply At_reset; [assumption|apply IHEv].
  - split; [assumption|apply EB_new].
  - split; [assumption|apply EB_new].
  - apply RAt_rprep. apply IHEv3; [split|]; assumption.
  - split; [assumption|apply EB_new].
  - destruct IHEv. split; [assumption|]. apply EB_ctx; [assumption|now apply At_pos].
  - apply RAt_rprep. apply IHEv2; [assumption|]. destruct IHEv1.
    eapply At_recover; [|eassumption|left; eassumption]. now apply At_reset.
  - destruct IHEv. eapply At_recover; [|eassumption|right; eassumption]. now apply At_reset.
  - destruct IHEv. split; [apply At_reset; [assumption|]|apply EB_end; [assumption|now apply At_pos]].
    eapply At_recover_none; [|eassumption]. now apply At_reset.
  - destruct IHEv. eapply At_recover; [|eassumption|eassumption]. now apply At_reset.
  - destruct IHEv. split; [apply At_reset; [assumption|]|apply EB_end; [assumption|now apply At_pos]].
    eapply At_recover_none; [|eassumption]. now apply At_reset.
  - destruct IHEv. apply At_reset; [assumption|]. now apply At_record.
  - eapply RP_at; eauto.
Qed.

(** ** What is left out at the end *)

Lemma string_l_bad t c r : string_l (c_quote :: t) = LErr c r -> BadString (c_quote :: t).
Proof.
  unfold string_l, l_seq. cbn [l_lit strip_prefix]. unfold l_lit at 1. cbn [strip_prefix].
  rewrite N.eqb_refl.
  pose proof (str_scan_pre t SNorm [] SB_nil) as Hs.
  pose proof (str_scan_split SNorm t) as Hsp.
  destruct (str_scan SNorm t) as [c1 r1|c1 r1]; simpl in Hs.
  - destruct Hs as [Hb Hr]. intros H. exists c1. split; [exact Hb|]. right. right. right.
    destruct r1 as [|x r1]; [cbn in H; congruence|].
    destruct Hr as [->|[->| ->]]; [cbn in H; congruence|cbn in H; congruence|].
    exists r1. split; [rewrite Hsp; reflexivity|]. intros r' ->. cbn in H. congruence.
  - intros _. destruct Hs as (m' & Hm & Hstop). simpl in Hm. destruct m'; simpl in Hstop.
    + contradiction.
    + destruct Hm as (p & Hp & ->). exists p. split; [exact Hp|]. left. subst r1.
      rewrite app_nil_r in Hsp. rewrite Hsp. reflexivity.
    + destruct Hm as (p & Hp & ->). exists p. split; [exact Hp|]. right. left. exists r1.
      split; [|exact Hstop]. rewrite Hsp, <- app_assoc. reflexivity.
    + destruct Hm as (p & h & Hp & Hh & ->). exists p. split; [exact Hp|]. right. right. left.
      exists h, r1. split; [|split; assumption]. rewrite Hsp, <- !app_assoc. reflexivity.
Qed.

Lemma root_item_stuck dbg s e s1 : root_item dbg s = RErr e s1 -> Droppable (rest s).
Proof.
  unfold root_item. destruct (trivia1 dbg (rest s)) as [g t| | |] eqn:Et; try congruence.
  destruct (error_token true (rest s)) as [c r|c r] eqn:Ee; [congruence|]. intros _.
  destruct (rest s) as [|x t]; [left; reflexivity|]. right.
  revert Ee. unfold error_token.
  destruct (N.eqb_spec x c_dollar) as [->|Hd].
  { unfold l_seq, l_lit. cbn [strip_prefix]. rewrite N.eqb_refl. unfold l_while.
    destruct (span is_id_char t). simpl. congruence. }
  destruct (N.eqb_spec x c_lparen) as [->|Hl]; [cbn; congruence|].
  destruct (N.eqb_spec x c_rparen) as [->|Hr]; [cbn; congruence|].
  cbn [orb]. destruct (N.eqb_spec x c_quote) as [->|Hq].
  { intros H. right. eapply string_l_bad; eauto. }
  destruct (is_id_char x) eqn:Ei.
  { unfold l_while1. cbn [span]. rewrite Ei. destruct (span is_id_char t). congruence. }
  unfold l_while1. cbn [span].
  destruct (is_ascii_whitespace x) eqn:Ew.
  2:{ destruct (N.eqb_spec x c_lparen); [congruence|]. destruct (N.eqb_spec x c_rparen); [congruence|].
      cbn [orb negb]. destruct (span _ t). congruence. }
  intros _. left. exists t. f_equal.
  unfold is_ascii_whitespace in Ew.
  unfold trivia1, ws, l_while1 in Et. cbn [span] in Et.
  destruct (is_multispace x) eqn:Em.
  { exfalso. destruct (span is_multispace t). congruence. }
  clear Et. unfold is_multispace in Em.
  repeat match goal with
  | H : _ || _ = true |- _ => apply orb_prop in H as [H|H]
  | H : _ || _ = false |- _ => apply orb_false_elim in H as [? ?]
  | H : N.eqb _ _ = true |- _ => apply N.eqb_eq in H
  end; subst; try reflexivity; cbn in *; discriminate.
Qed.

(** The end of [parse]: where the trailing loop stopped. *)
Lemma parse_end dbg src tree errs :
  parse dbg src = Parsed tree errs ->
  exists o c d s1, tree = Node ROOT o /\ src = c ++ d /\ Cov c (gtexts o)
    /\ Droppable d /\ (d <> [] -> errs <> [])
    /\ (log s1 = [] -> c = gtexts o) /\ (errs = [] -> log s1 = [] /\ d = [])
    /\ Forall (EB src) errs.
Proof.
  intros H. apply parse_spec in H as (o1 & s1 & o2 & s2 & -> & Hev & Hl & ->).
  pose proof (Ev_inv _ _ _ _ _ instr_body_wf Hev module_wf) as I1.
  assert (A0 : At src (mk_st src 0 [])) by (split; [exists []; auto|constructor]).
  pose proof (Ev_at src _ _ _ _ _ instr_body_wf Hev module_wf A0) as A1. simpl in A1.
  apply root_loop_spec in Hl as (o2' & s2' & Heq & I2 & Hlog & _ & (e & s3 & Hstuck)); [|exact I].
  injection Heq as <- <-.
  pose proof (Inv_seq _ _ _ _ I1 I2) as (_ & c & (Hc & Hp) & Hcov & Hex). simpl in *.
  exists (o1 ++ o2), c, (rest s2), s2.
  assert (A2 : Boundary src (pos s2) /\ Forall (EB src) (log s2)).
  { split; [|rewrite Hlog; apply A1]. exists c, (rest s2). split; [exact Hc|]. simpl in Hp. exact Hp. }
  split; [reflexivity|]. split; [exact Hc|]. split; [exact Hcov|].
  split; [eapply root_item_stuck; eauto|].
  split; [|split; [exact Hex|split]].
  - destruct (rest s2); [congruence|]. intros _ Hn. simpl in Hn.
    apply (f_equal (@length _)) in Hn. rewrite app_length in Hn. simpl in Hn. lia.
  - destruct (rest s2).
    + intros Hn. split; [|reflexivity]. rewrite <- (rev_involutive (log s2)), Hn. reflexivity.
    + intros Hn. simpl in Hn. apply (f_equal (@length _)) in Hn. rewrite app_length in Hn. simpl in Hn. lia.
  - apply Forall_rev. destruct (rest s2) as [|x d] eqn:Ed; [apply A2|].
    constructor; [|apply A2]. split; [apply Boundary_0|]. simpl.
    exists src, []. rewrite app_nil_r. split; [reflexivity|].
    destruct A2 as [_ _]. rewrite Hc, Hp, tlen_app. simpl. lia.
Qed.
