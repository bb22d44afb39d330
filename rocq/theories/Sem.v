(** Fuel-free big-step semantics of grammar terms, sound for the
    interpreter [run]; used by all later proofs about the parser. *)

From Coq Require Import String List NArith Bool Arith Lia.
From Verif Require Import Text Kind Green Lexer LexerFacts Winnow.
Import ListNotations.

Definition rprep (o : list green) (r : res) : res :=
  match r with ROk o' s => ROk (o ++ o') s | x => x end.

Definition tadv (s : st) (tr : list green) (r : text) : st :=
  mk_st r (pos s + glens tr) (log s).

(** Results that are neither a panic nor out of fuel. *)
Definition proper (r : res) : Prop :=
  match r with ROk _ _ | RErr _ _ => True | _ => False end.

Section Sem.
  Variable dbg : bool.
  Variable ib : grammar.    (* the definition of [GInstr] *)

  Definition rp_err (p : nat) : err := err_ctx err_new p (MExpChar c_rparen).

  Inductive RP (s0 : st) : list green -> st -> res -> Prop :=
  | RPOk acc s tr r r2 :
      trivias dbg (rest s) = POk tr r -> strip_prefix (T ")") r = Some r2 ->
      RP s0 acc s (ROk (acc ++ tr ++ [Tok R_PAREN (T ")")]) (advance (tadv s tr r) (T ")") r2))
  | RPTok acc s tr r c r2 res :
      trivias dbg (rest s) = POk tr r -> strip_prefix (T ")") r = None ->
      error_token false r = LOk c r2 ->
      RP s0 (acc ++ tr ++ [Tok ERROR c])
         (record (advance (tadv s tr r) c r2) (rp_err (pos (tadv s tr r)))) res ->
      RP s0 acc s res
  | RPNone acc s tr r c r2 :
      trivias dbg (rest s) = POk tr r -> strip_prefix (T ")") r = None ->
      error_token false r = LErr c r2 ->
      RP s0 acc s
         (ROk [] (reset s0 (record (advance (tadv s tr r) c r2) (rp_err (pos (tadv s tr r)))))).

  Inductive Ev : grammar -> st -> res -> Prop :=
  | ETok k l s c r : l (rest s) = LOk c r -> Ev (GTok k l) s (ROk [Tok k c] (advance s c r))
  | ETokE k l s c r : l (rest s) = LErr c r -> Ev (GTok k l) s (RErr err_new (advance s c r))
  | ETriv s tr r : trivias dbg (rest s) = POk tr r -> Ev GTriv s (ROk tr (tadv s tr r))
  | EEmpty s : Ev GEmpty s (ROk [] s)
  | EFail s : Ev GFail s (RErr err_new s)
  | ESeqE a b s e s1 : Ev a s (RErr e s1) -> Ev (GSeq a b) s (RErr e s1)
  | ESeq a b s o s1 r : Ev a s (ROk o s1) -> Ev b s1 r -> Ev (GSeq a b) s (rprep o r)
  | EAlt1 a b s o s1 : Ev a s (ROk o s1) -> Ev (GAlt a b) s (ROk o s1)
  | EAlt2 a b s e s1 r : Ev a s (RErr e s1) -> Ev b (reset s s1) r -> Ev (GAlt a b) s r
  | EOpt1 a s o s1 : Ev a s (ROk o s1) -> Ev (GOpt a) s (ROk o s1)
  | EOpt2 a s e s1 : Ev a s (RErr e s1) -> Ev (GOpt a) s (ROk [] (reset s s1))
  | ERepEnd a s e s1 : Ev a s (RErr e s1) -> Ev (GRep a) s (ROk [] (reset s s1))
  | ERepAssert a s o s1 :
      Ev a s (ROk o s1) -> length (rest s1) = length (rest s) ->
      Ev (GRep a) s (RErr err_new s1)
  | ERepStep a s o s1 r :
      Ev a s (ROk o s1) -> length (rest s1) <> length (rest s) ->
      Ev (GRep a) s1 r -> Ev (GRep a) s (rprep o r)
  | ERep1E a s e s1 : Ev a s (RErr e s1) -> Ev (GRep1 a) s (RErr e s1)
  | ERep1 a s o s1 r : Ev a s (ROk o s1) -> Ev (GRep a) s1 r -> Ev (GRep1 a) s (rprep o r)
  | ETillEnd f g s o s1 : Ev g s (ROk o s1) -> Ev (GTill f g) s (ROk o s1)
  | ETillE f g s e s1 e2 s2 :
      Ev g s (RErr e s1) -> Ev f (reset s s1) (RErr e2 s2) -> Ev (GTill f g) s (RErr e2 s2)
  | ETillAssert f g s e s1 o s2 :
      Ev g s (RErr e s1) -> Ev f (reset s s1) (ROk o s2) ->
      length (rest s2) = length (rest s) -> Ev (GTill f g) s (RErr err_new s2)
  | ETillStep f g s e s1 o s2 r :
      Ev g s (RErr e s1) -> Ev f (reset s s1) (ROk o s2) ->
      length (rest s2) <> length (rest s) ->
      Ev (GTill f g) s2 r -> Ev (GTill f g) s (rprep o r)
  | EIfT (l : look) p a b s w r :
      l dbg (rest s) = AOk w -> p w = true -> Ev a s r -> Ev (GIf l p a b) s r
  | EIfF (l : look) p a b s w r :
      l dbg (rest s) = AOk w -> p w = false -> Ev b s r -> Ev (GIf l p a b) s r
  | EIfE (l : look) p a b s : l dbg (rest s) = AFail -> Ev (GIf l p a b) s (RErr err_new s)
  | ENode k a s o s1 : Ev a s (ROk o s1) -> Ev (GNode k a) s (ROk [Node k o] s1)
  | ENodeE k a s e s1 : Ev a s (RErr e s1) -> Ev (GNode k a) s (RErr e s1)
  | ECtx m a s o s1 : Ev a s (ROk o s1) -> Ev (GCtx m a) s (ROk o s1)
  | ECtxE m a s e s1 : Ev a s (RErr e s1) -> Ev (GCtx m a) s (RErr (err_ctx e (pos s1) m) s1)
  | ERetryOk a ns s tr r o s1 :
      trivias dbg (rest s) = POk tr r -> Ev a (tadv s tr r) (ROk o s1) ->
      Ev (GRetry a ns) s (ROk (tr ++ o) s1)
  | ERetryTok a ns s tr r e s1 o s2 x :
      trivias dbg (rest s) = POk tr r -> Ev a (tadv s tr r) (RErr e s1) ->
      recover dbg ns e (reset (tadv s tr r) s1) = RecTok o s2 ->
      Ev (GRetry a ns) s2 x -> Ev (GRetry a ns) s (rprep (tr ++ o) x)
  | ERetryTerm a ns s tr r e s1 o s2 :
      trivias dbg (rest s) = POk tr r -> Ev a (tadv s tr r) (RErr e s1) ->
      recover dbg ns e (reset (tadv s tr r) s1) = RecTerm o s2 ->
      Ev (GRetry a ns) s (ROk (tr ++ o) s2)
  | ERetryNone a ns s tr r e s1 s2 :
      trivias dbg (rest s) = POk tr r -> Ev a (tadv s tr r) (RErr e s1) ->
      recover dbg ns e (reset (tadv s tr r) s1) = RecNone s2 ->
      Ev (GRetry a ns) s (RErr (err_at_end e (pos s)) (reset s s2))
  | EOnceOk a ns s tr r o s1 :
      trivias dbg (rest s) = POk tr r -> Ev a (tadv s tr r) (ROk o s1) ->
      Ev (GRetryOnce a ns) s (ROk (tr ++ o) s1)
  | EOnceRec a ns s tr r e s1 o s2 :
      trivias dbg (rest s) = POk tr r -> Ev a (tadv s tr r) (RErr e s1) ->
      (recover dbg ns e (reset (tadv s tr r) s1) = RecTok o s2
       \/ recover dbg ns e (reset (tadv s tr r) s1) = RecTerm o s2) ->
      Ev (GRetryOnce a ns) s (ROk (tr ++ o) s2)
  | EOnceNone a ns s tr r e s1 s2 :
      trivias dbg (rest s) = POk tr r -> Ev a (tadv s tr r) (RErr e s1) ->
      recover dbg ns e (reset (tadv s tr r) s1) = RecNone s2 ->
      Ev (GRetryOnce a ns) s (RErr (err_at_end e (pos s)) (reset s s2))
  | EMust1 a s o s1 : Ev a s (ROk o s1) -> Ev (GMust a) s (ROk o s1)
  | EMust2 a s e s1 : Ev a s (RErr e s1) -> Ev (GMust a) s (ROk [] (reset s (record s1 e)))
  | ERParen s r : RP s [] s r -> Ev GRParen s r
  | EInstr s r : Ev ib s r -> Ev GInstr s r.

  (** ** Soundness of the interpreter *)

  Lemma rparen_loop_sound s0 n acc s r :
    rparen_loop dbg s0 acc n s = r -> proper r -> RP s0 acc s r.
  Proof.
    revert acc s r. induction n as [|n IH]; intros acc s r; cbn [rparen_loop].
    { intros <-. simpl. contradiction. }
    destruct (trivias dbg (rest s)) as [tr t| | |] eqn:E.
    - destruct (strip_prefix (T ")") t) as [r2|] eqn:E1.
      + intros <- _. now apply RPOk.
      + destruct (error_token false t) as [c r2|c r2] eqn:E2.
        * assert (Hlen : length r2 <> length t).
          { pose proof (error_token_split false t) as Hs. rewrite E2 in Hs.
            apply error_token_pos in E2. subst t. rewrite app_length.
            destruct c; [congruence|simpl; lia]. }
          apply Nat.eqb_neq in Hlen. rewrite Hlen.
          intros H Hp. eapply RPTok; eauto.
        * intros <- _. now apply RPNone.
    - exfalso. eapply trivias_not_err; eauto.
    - intros <-. simpl. contradiction.
    - intros <-. simpl. contradiction.
  Qed.

  Lemma rep_loop_sound self a n s r :
    (forall s r, run dbg self a s = r -> proper r -> Ev a s r) ->
    rep_loop dbg (run dbg self a) n s = r -> proper r -> Ev (GRep a) s r.
  Proof.
    intros Ha. revert s r. induction n as [|n IH]; intros s r; cbn [rep_loop].
    { intros <-. simpl. contradiction. }
    destruct (run dbg self a s) as [o s1|e s1| |] eqn:E.
    - apply Ha in E; [|exact I].
      destruct (Nat.eqb_spec (length (rest s1)) (length (rest s))) as [Hl|Hl].
      + unfold assert_fail. destruct dbg; intros <-; simpl; [contradiction|intros _].
        eapply ERepAssert; eauto.
      + destruct (rep_loop dbg (run dbg self a) n s1) as [o' s2|e' s2| |] eqn:E2;
          intros <-; simpl; try contradiction; intros _.
        * eapply (ERepStep a s o s1 (ROk o' s2)); eauto. apply IH; [exact E2|exact I].
        * eapply (ERepStep a s o s1 (RErr e' s2)); eauto. apply IH; [exact E2|exact I].
    - apply Ha in E; [|exact I]. intros <- _. eapply ERepEnd; eauto.
    - intros <-. simpl. contradiction.
    - intros <-. simpl. contradiction.
  Qed.

  Lemma till_loop_sound self f g n s r :
    (forall s r, run dbg self f s = r -> proper r -> Ev f s r) ->
    (forall s r, run dbg self g s = r -> proper r -> Ev g s r) ->
    till_loop dbg (run dbg self f) (run dbg self g) n s = r -> proper r -> Ev (GTill f g) s r.
  Proof.
    intros Hf Hg. revert s r. induction n as [|n IH]; intros s r; cbn [till_loop].
    { intros <-. simpl. contradiction. }
    destruct (run dbg self g s) as [o s1|e s1| |] eqn:E.
    - apply Hg in E; [|exact I]. intros <- _. now apply ETillEnd.
    - apply Hg in E; [|exact I].
      destruct (run dbg self f (reset s s1)) as [o s2|e2 s2| |] eqn:E1.
      + apply Hf in E1; [|exact I].
        destruct (Nat.eqb_spec (length (rest s2)) (length (rest s))) as [Hl|Hl].
        * unfold assert_fail. destruct dbg; intros <-; simpl; [contradiction|intros _].
          eapply ETillAssert; eauto.
        * destruct (till_loop _ _ _ n s2) as [o' s3|e' s3| |] eqn:E2;
            intros <-; simpl; try contradiction; intros _.
          -- eapply (ETillStep f g s e s1 o s2 (ROk o' s3)); eauto. apply IH; [exact E2|exact I].
          -- eapply (ETillStep f g s e s1 o s2 (RErr e' s3)); eauto. apply IH; [exact E2|exact I].
      + apply Hf in E1; [|exact I]. intros <- _. eapply ETillE; eauto.
      + intros <-. simpl. contradiction.
      + intros <-. simpl. contradiction.
    - intros <-. simpl. contradiction.
    - intros <-. simpl. contradiction.
  Qed.

  Lemma retry_loop_sound self a ns n s r :
    (forall s r, run dbg self a s = r -> proper r -> Ev a s r) ->
    retry_loop dbg (run dbg self a) ns n s = r -> proper r -> Ev (GRetry a ns) s r.
  Proof.
    intros Ha. revert s r. induction n as [|n IH]; intros s r; cbn [retry_loop].
    { intros <-. simpl. contradiction. }
    destruct (trivias dbg (rest s)) as [tr t| | |] eqn:E.
    - cbv zeta. fold (tadv s tr t).
      destruct (run dbg self a (tadv s tr t)) as [o s1|e s1| |] eqn:E1.
      + apply Ha in E1; [|exact I]. intros <- _. eapply ERetryOk; eauto.
      + apply Ha in E1; [|exact I].
        destruct (recover dbg ns e (reset (tadv s tr t) s1)) as [o s2|o s2|s2| |] eqn:E2.
        * destruct (retry_loop _ _ ns n s2) as [o' s3|e' s3| |] eqn:E3;
            intros <-; simpl; try contradiction; intros _.
          -- rewrite app_assoc. eapply (ERetryTok a ns s tr t e s1 o s2 (ROk o' s3)); eauto.
             apply IH; [exact E3|exact I].
          -- eapply (ERetryTok a ns s tr t e s1 o s2 (RErr e' s3)); eauto.
             apply IH; [exact E3|exact I].
        * intros <- _. eapply ERetryTerm; eauto.
        * intros <- _. eapply ERetryNone; eauto.
        * intros <-. simpl. contradiction.
        * intros <-. simpl. contradiction.
      + intros <-. simpl. contradiction.
      + intros <-. simpl. contradiction.
    - exfalso. eapply trivias_not_err; eauto.
    - intros <-. simpl. contradiction.
    - intros <-. simpl. contradiction.
  Qed.

  Lemma run_sound self g :
    (forall s r, self s = r -> proper r -> Ev GInstr s r) ->
    forall s r, run dbg self g s = r -> proper r -> Ev g s r.
  Proof.
    intros Hself. induction g; intros s r; cbn [run].
    - destruct (l (rest s)) eqn:E; intros <- _; [now apply ETok|now apply ETokE].
    - destruct (trivias dbg (rest s)) eqn:E; intros <-; simpl; try contradiction; intros _.
      + now apply ETriv.
      + exfalso. eapply trivias_not_err; eauto.
    - intros <- _. constructor.
    - intros <- _. constructor.
    - destruct (run dbg self g1 s) as [o s1|e s1| |] eqn:E; try (intros <-; simpl; contradiction).
      + apply IHg1 in E; [|exact I].
        destruct (run dbg self g2 s1) as [o' s2|e' s2| |] eqn:E2;
          intros <-; simpl; try contradiction; intros _.
        * eapply (ESeq g1 g2 s o s1 (ROk o' s2)); eauto. apply IHg2; [exact E2|exact I].
        * eapply (ESeq g1 g2 s o s1 (RErr e' s2)); eauto. apply IHg2; [exact E2|exact I].
      + apply IHg1 in E; [|exact I]. intros <- _. now apply ESeqE.
    - destruct (run dbg self g1 s) as [o s1|e s1| |] eqn:E; try (intros <-; simpl; contradiction).
      + apply IHg1 in E; [|exact I]. intros <- _. now apply EAlt1.
      + apply IHg1 in E; [|exact I]. intros H Hp. eapply EAlt2; eauto.
    - destruct (run dbg self g s) as [o s1|e s1| |] eqn:E; try (intros <-; simpl; contradiction).
      + apply IHg in E; [|exact I]. intros <- _. now apply EOpt1.
      + apply IHg in E; [|exact I]. intros <- _. eapply EOpt2; eauto.
    - now apply rep_loop_sound.
    - destruct (run dbg self g s) as [o s1|e s1| |] eqn:E; try (intros <-; simpl; contradiction).
      + apply IHg in E; [|exact I].
        destruct (rep_loop dbg (run dbg self g) (S (length (rest s1))) s1)
          as [o' s2|e' s2| |] eqn:E2; intros <-; simpl; try contradiction; intros _.
        * eapply (ERep1 g s o s1 (ROk o' s2)); eauto. eapply rep_loop_sound; eauto. exact I.
        * eapply (ERep1 g s o s1 (RErr e' s2)); eauto. eapply rep_loop_sound; eauto. exact I.
      + apply IHg in E; [|exact I]. intros <- _. now apply ERep1E.
    - now apply till_loop_sound.
    - destruct (l dbg (rest s)) as [w| | |] eqn:E; try (intros <-; simpl; contradiction).
      + destruct (p w) eqn:Ep; intros H Hp; [eapply EIfT|eapply EIfF]; eauto.
      + intros <- _. now apply EIfE.
    - destruct (run dbg self g s) as [o s1|e s1| |] eqn:E; try (intros <-; simpl; contradiction).
      + apply IHg in E; [|exact I]. intros <- _. now apply ENode.
      + apply IHg in E; [|exact I]. intros <- _. now apply ENodeE.
    - destruct (run dbg self g s) as [o s1|e s1| |] eqn:E; try (intros <-; simpl; contradiction).
      + apply IHg in E; [|exact I]. intros <- _. now apply ECtx.
      + apply IHg in E; [|exact I]. intros <- _. now apply ECtxE.
    - now apply retry_loop_sound.
    - unfold retry_once.
      destruct (trivias dbg (rest s)) as [tr t| | |] eqn:E.
      + cbv zeta. fold (tadv s tr t).
        destruct (run dbg self g (tadv s tr t)) as [o s1|e s1| |] eqn:E1;
          try (intros <-; simpl; contradiction).
        * apply IHg in E1; [|exact I]. intros <- _. eapply EOnceOk; eauto.
        * apply IHg in E1; [|exact I].
          destruct (recover dbg names e (reset (tadv s tr t) s1)) eqn:E2;
            intros <-; simpl; try contradiction; intros _.
          -- eapply EOnceRec; eauto.
          -- eapply EOnceRec; eauto.
          -- eapply EOnceNone; eauto.
      + exfalso. eapply trivias_not_err; eauto.
      + intros <-. simpl. contradiction.
      + intros <-. simpl. contradiction.
    - unfold must.
      destruct (run dbg self g s) as [o s1|e s1| |] eqn:E; try (intros <-; simpl; contradiction).
      + apply IHg in E; [|exact I]. intros <- _. now apply EMust1.
      + apply IHg in E; [|exact I]. intros <- _. now apply EMust2.
    - intros H Hp. apply ERParen. eapply rparen_loop_sound; eauto.
    - apply Hself.
  Qed.
End Sem.

(** What [recover] does: one error token, or an error term, possibly after a
    skipped piece of malformed string. *)
Lemma recover_tok dbg ns e ts o s :
  recover dbg ns e ts = RecTok o s ->
  exists c r, error_token false (rest ts) = LOk c r /\ rest ts = c ++ r /\ c <> []
    /\ o = [Tok ERROR c] /\ s = record (advance ts c r) e.
Proof.
  unfold recover. pose proof (error_token_split false (rest ts)) as Hs.
  destruct (error_token false (rest ts)) as [c r|c r] eqn:E.
  - destruct (Nat.eqb (length r) (length (rest ts))); [congruence|].
    intros H. injection H as <- <-. apply error_token_pos in E as Hp. eauto 10.
  - destruct (error_term dbg ns r); try congruence. destruct (Nat.eqb _ _); congruence.
Qed.

Lemma recover_term dbg ns e ts o s :
  recover dbg ns e ts = RecTerm o s ->
  exists c r r2, error_token false (rest ts) = LErr c r /\ rest ts = c ++ r
    /\ error_term dbg ns r = POk o r2
    /\ s = record (mk_st r2 (pos ts + tlen c + glens o) (log ts)) e.
Proof.
  unfold recover. pose proof (error_token_split false (rest ts)) as Hs.
  destruct (error_token false (rest ts)) as [c r|c r] eqn:E.
  - destruct (Nat.eqb (length r) (length (rest ts))); congruence.
  - destruct (error_term dbg ns r) as [out r2| | |] eqn:E2; try congruence.
    destruct (Nat.eqb _ _); [congruence|].
    intros H. injection H as <- <-. eauto 10.
Qed.

Lemma recover_none dbg ns e ts s :
  recover dbg ns e ts = RecNone s ->
  log s = log ts /\ (exists c r, error_token false (rest ts) = LErr c r /\ rest ts = c ++ r
                                 /\ error_term dbg ns r = PErr /\ s = advance ts c r).
Proof.
  unfold recover. pose proof (error_token_split false (rest ts)) as Hs.
  destruct (error_token false (rest ts)) as [c r|c r] eqn:E.
  - destruct (Nat.eqb_spec (length r) (length (rest ts))) as [Hl|_]; [|congruence].
    apply error_token_pos in E. rewrite Hs, app_length in Hl. destruct c; [congruence|simpl in Hl; lia].
  - destruct (error_term dbg ns r) as [out r2| | |] eqn:E2; try congruence.
    + apply error_term_spec in E2 as (-> & _ & l' & ->).
      destruct (Nat.eqb_spec (length r2) (length (rest ts))) as [Hl|_]; [|congruence].
      rewrite Hs, gtexts_cons, !app_length in Hl. cbn in Hl. lia.
    + intros H. injection H as <-. split; [reflexivity|]. eauto 10.
Qed.
