(** Soundness of the check on descriptions. *)

From Coq Require Import String List NArith Bool Arith Lia.
From Verif Require Import Text Kind Green SpecParser Lexer LexerFacts Winnow Grammar SpecComplete LexAccept TokAccept Streams Describe.
Import ListNotations.
Local Open Scope list_scope.

(** The parser reads [l] in front of [r]. *)
Definition accepts (f : st -> res) (l : list green) (r : list (kind * text)) : Prop :=
  forall p lg, f (mk_st (texts (gtokenss l ++ r)) p lg) = ROk l (mk_st (texts r) (p + glens l) lg).
(** The parser fails, and records nothing. *)
Definition fails (f : st -> res) (ts : list (kind * text)) : Prop :=
  forall p lg, exists e s1, f (mk_st (texts ts) p lg) = RErr e s1 /\ Winnow.log s1 = lg.

Section Sound.
  Variable dbg : bool.
  Variable self : st -> res.
  Variable m : nat.
  Hypothesis Hacc : forall i l r, Reads (Ins i) l -> Separated (gtokenss l ++ r) -> tight (gtokenss l ++ r) ->
    follow i (cls r) = true -> length (texts (gtokenss l ++ r)) < m -> accepts self l r.
  Hypothesis Hrej : forall ts, Separated ts -> tight ts -> (first ts = SR \/ first ts = SEnd) ->
    length (texts ts) < m -> fails self ts.

  Definition room (d : dg) (ts : list (kind * text)) : Prop :=
    length (texts ts) + (if grd d then 0 else 1) <= m.
  Lemma room_weak d a x y : (grd d = true -> grd a = true) -> length (texts y) <= length (texts x) ->
    room d x -> room a y.
  Proof. unfold room. destruct (grd d), (grd a); intros H; try lia; specialize (H eq_refl); discriminate. Qed.

  Lemma recover_none ns ts h e p lg : Separated ts -> tight ts -> sees ts h -> norec ns h = true ->
    exists s2, recover dbg (map T ns) e (mk_st (texts ts) p lg) = RecNone s2 /\ Winnow.log s2 = lg.
  Proof.
    intros Hs Ht Hh Hn.
    assert (G : forall t, error_token false t = LErr [] t -> error_term dbg (map T ns) t = PErr ->
      exists s2, recover dbg (map T ns) e (mk_st t p lg) = RecNone s2 /\ Winnow.log s2 = lg).
    { intros t E1 E2. unfold recover. cbn [rest]. rewrite E1, E2. eexists. split; reflexivity. }
    assert (NL : first ts <> SL -> error_term dbg (map T ns) (texts ts) = PErr).
    { intros Hf. unfold error_term. rewrite la_triv_skip by exact Hs. rewrite Ht.
      rewrite strip_lp_none by assumption. unfold error_term_inner. now rewrite strip_lp_none by assumption. }
    destruct h as [[]|[]]; try discriminate Hn; cbn [sees] in Hh.
    - apply G; [|apply NL; congruence]. rewrite first_tight in Hh by exact Ht.
      destruct ts as [|[k t] ts]; [reflexivity|]. now apply sym_end in Hh.
    - apply G; [|apply NL; congruence]. rewrite first_tight in Hh by exact Ht.
      destruct (tight_head ts Ht) as [->|(k & t & r & -> & Hk)]; [discriminate|].
      apply sym_sr in Hh as ->; [|exact Hk]. destruct Hs as ([Ef _] & _ & _). cbn in Ef. subst t. reflexivity.
    - destruct Hh as [Hf H2]. destruct (tight_lp ts Ht Hs Hf) as (r & Er & E & Hr). rewrite E.
      apply G; [reflexivity|]. rewrite <- E. unfold error_term. rewrite la_triv_skip by exact Hs. rewrite Ht.
      rewrite (strip_lp_some _ _ E). rewrite la_triv_skip by exact Hr.
      assert (Es : first (skip r) = SW w).
      { rewrite first_skip, <- H2, Er. reflexivity. }
      destruct (tight_word (skip r) w (tight_skip r) (sep_skip _ Hr) Es) as (k & r2 & _ & -> & Hw & Hst & _).
      unfold l_verify. rewrite word_exact by assumption. cbn [norec] in Hn. unfold mem_text in Hn. now rewrite Hn.
  Qed.

  Lemma tok_fails c ts : Separated ts -> tight ts -> rejt c (first ts) = true ->
    fails (run dbg self (GTok (ckind c) (clex c))) ts.
  Proof.
    intros Hs Ht H p lg. cbn [run rest].
    assert (R : Rejects (clex c) (texts ts)).
    { rewrite first_tight in H by exact Ht. destruct (tight_head ts Ht) as [->|(k & t & r & -> & Hk)].
      - apply clex_rej_nil.
      - destruct Hs as (Hf & Hr & _). rewrite texts_cons. now apply (rejt_ok c k t). }
    destruct R as (x & y & ->). eexists _, _. split; reflexivity.
  Qed.
  Lemma lp_accepts r : accepts (run dbg self (GTok L_PAREN (l_lit (T "(")))) [Tok L_PAREN (T "(")] r.
  Proof. intros p lg. reflexivity. Qed.
  Lemma isLp_accepts a r : isLp a = true -> accepts (run dbg self (erase a)) [Tok L_PAREN (T "(")] r.
  Proof.
    intros H. destruct a as [c| | | | | | | | | | | | | | |ms a| | | | | | | | |]; try discriminate H.
    - destruct c; try discriminate H. apply lp_accepts.
    - destruct a as [c| | | | | | | | | | | | | | | | | | | | | | | |]; try discriminate H.
      destruct c; try discriminate H. intros p lg. cbn [erase run ckind clex]. pose proof (lp_accepts r p lg) as E.
      cbn [run] in E. now rewrite E.
  Qed.
  Lemma isLp_sol a : isLp a = true -> sol a = true.
  Proof.
    intros H. destruct a as [c| | | | | | | | | | | | | | |ms a| | | | | | | | |]; try discriminate H; [reflexivity|].
    destruct a as [c| | | | | | | | | | | | | | | | | | | | | | | |]; try discriminate H. reflexivity.
  Qed.

  Lemma reset_eq t p lg s1 : Winnow.log s1 = lg -> reset (mk_st t p lg) s1 = mk_st t p lg.
  Proof. intros <-. reflexivity. Qed.
  Ltac fl H p lg := let e := fresh "e" in let s1 := fresh "s1" in let E := fresh "E" in let El := fresh "El" in
    destruct (H p lg) as (e & s1 & E & El).

  Lemma skip_le ts : length (texts (skip ts)) <= length (texts ts).
  Proof. rewrite (lead_skip ts) at 2. apply texts_le. Qed.
  Lemma retry_fails f ns n ts h : Separated ts -> sees ts h -> norec ns h = true -> fails f (skip ts) ->
    fails (fun s => retry_loop dbg f (map T ns) (S n) s) ts.
  Proof.
    intros Hs Hh Hn Hf p lg. cbn [retry_loop rest]. rewrite trivias_exact by exact Hs. cbn [pos Winnow.log].
    fl Hf (p + glens (lead ts)) lg. rewrite E, (reset_eq _ _ _ _ El).
    destruct (recover_none ns (skip ts) h e (p + glens (lead ts)) lg) as (s2 & -> & E2);
      auto using sep_skip, tight_skip, sees_skip.
    eexists _, _. split; [reflexivity|]. exact E2.
  Qed.
  Lemma once_fails f ns ts h : Separated ts -> sees ts h -> norec ns h = true -> fails f (skip ts) ->
    fails (retry_once dbg f (map T ns)) ts.
  Proof.
    intros Hs Hh Hn Hf p lg. unfold retry_once. cbn [rest]. rewrite trivias_exact by exact Hs. cbn [pos Winnow.log].
    fl Hf (p + glens (lead ts)) lg. rewrite E, (reset_eq _ _ _ _ El).
    destruct (recover_none ns (skip ts) h e (p + glens (lead ts)) lg) as (s2 & -> & E2);
      auto using sep_skip, tight_skip, sees_skip.
    eexists _, _. split; [reflexivity|]. exact E2.
  Qed.

  Lemma rej_sound d : forall ts h, rej d h = true -> Separated ts -> (sol d = true -> tight ts) -> sees ts h ->
    room d ts -> fails (run dbg self (erase d)) ts.
  Proof.
    induction d; intros ts h H Hs Ht Hh Hm; cbn [rej] in H; try discriminate H; cbn [erase].
    - apply tok_fails; auto. now rewrite (sees_hsym _ _ Hh).
    - intros p lg. eexists _, _. split; reflexivity.
    - apply orb_prop in H as [H|H].
      + assert (Hf : fails (run dbg self (erase d1)) ts).
        { eapply IHd1; eauto. eapply room_weak; [|apply le_n|exact Hm]. cbn [grd]. intros Hg.
          now apply andb_prop in Hg. }
        intros p lg. fl Hf p lg. cbn [run]. rewrite E. eauto.
      + apply andb_prop in H as [H Hr]. apply andb_prop in H as [Hl Hb]. apply negb_true_iff in Hb.
        destruct h as [|s]; [discriminate|]. destruct Hh as [Hf H2].
        cbn [sol] in Ht. rewrite (isLp_sol d1 Hl) in Ht. specialize (Ht eq_refl).
        destruct (tight_lp ts Ht Hs Hf) as (r & -> & _ & Hr').
        assert (Hf2 : fails (run dbg self (erase d2)) r).
        { eapply (IHd2 r (H1 s)); eauto.
          - rewrite Hb. discriminate.
          - unfold room in *. rewrite texts_cons in Hm. cbn [app length] in Hm.
            change (length (T "(" ++ texts r)) with (S (length (texts r))) in Hm. destruct (grd d2), (grd (DSeq d1 d2)); lia. }
        intros p lg. cbn [run]. pose proof (isLp_accepts d1 r Hl p lg) as E.
        change (gtokenss [Tok L_PAREN (T "(")] ++ r) with ((L_PAREN, T "(") :: r) in E. rewrite E.
        fl Hf2 (p + glens [Tok L_PAREN (T "(")]) lg. rewrite E0. eauto.
    - apply andb_prop in H as [Ha Hb].
      assert (Hf1 : fails (run dbg self (erase d1)) ts).
      { eapply IHd1; eauto; [intros E; apply Ht; cbn [sol]; now rewrite E|].
        eapply room_weak; [|apply le_n|exact Hm]. cbn [grd]. intros Hg. now apply andb_prop in Hg. }
      assert (Hf2 : fails (run dbg self (erase d2)) ts).
      { eapply IHd2; eauto; [intros E; apply Ht; cbn [sol]; rewrite E; apply orb_true_r|].
        eapply room_weak; [|apply le_n|exact Hm]. cbn [grd]. intros Hg. now apply andb_prop in Hg. }
      intros p lg. cbn [run]. fl Hf1 p lg. rewrite E, (reset_eq _ _ _ _ El). apply Hf2.
    - assert (Hf : fails (run dbg self (erase d)) ts) by (eapply IHd; eauto).
      intros p lg. cbn [run]. fl Hf p lg. rewrite E. eauto.
    - pose proof (lsel_ok dbg l w ts h Hs) as Hl.
      assert (Hm1 : room d1 ts)
        by (eapply room_weak; [|apply le_n|exact Hm]; cbn [grd]; intros Hg; now apply andb_prop in Hg).
      assert (Hm2 : room d2 ts)
        by (eapply room_weak; [|apply le_n|exact Hm]; cbn [grd]; intros Hg; now apply andb_prop in Hg).
      assert (Hl' : (l <> LTrivAny -> tight ts)) by (intros Hn; apply Ht; destruct l; auto; congruence).
      assert (Ht1 : sol d1 = true -> tight ts)
        by (intros E; apply Ht; cbn [sol]; destruct l; auto; now rewrite E).
      assert (Ht2 : sol d2 = true -> tight ts)
        by (intros E; apply Ht; cbn [sol]; destruct l; auto; rewrite E; apply orb_true_r).
      specialize (Hl Hl' Hh). intros p lg. cbn [run rest].
      destruct (lsel l w h) as [[]| |]; try discriminate H.
      + destruct Hl as (w' & -> & ->). eapply IHd1; eauto.
      + destruct Hl as (w' & -> & ->). eapply IHd2; eauto.
      + rewrite Hl. eexists _, _. split; reflexivity.
    - specialize (Ht eq_refl). pose proof (csel_ok f ts Ht Hs) as Hl. rewrite (sees_hsym _ _ Hh) in Hl.
      assert (Hm1 : room d1 ts)
        by (eapply room_weak; [|apply le_n|exact Hm]; cbn [grd]; intros Hg; now apply andb_prop in Hg).
      assert (Hm2 : room d2 ts)
        by (eapply room_weak; [|apply le_n|exact Hm]; cbn [grd]; intros Hg; now apply andb_prop in Hg).
      intros p lg. cbn [run rest]. unfold la_any, la_any_t.
      destruct (csel f (hsym h)) as [[]| |].
      + destruct Hl as (c & x & E & Hc). rewrite E. cbn [first_char]. rewrite Hc, <- E. eapply IHd1; eauto.
      + destruct Hl as (c & x & E & Hc). rewrite E. cbn [first_char]. rewrite Hc, <- E. eapply IHd2; eauto.
      + rewrite Hl. eexists _, _. split; reflexivity.
      + apply andb_prop in H as [H1 H2]. destruct (texts ts) as [|c x] eqn:E; [eexists _, _; split; reflexivity|].
        cbn [first_char]. rewrite <- E. destruct (f c); [eapply IHd1|eapply IHd2]; eauto.
    - assert (Hf : fails (run dbg self (erase d)) ts) by (eapply IHd; eauto).
      intros p lg. cbn [run]. fl Hf p lg. rewrite E. eauto.
    - assert (Hf : fails (run dbg self (erase d)) ts) by (eapply IHd; eauto).
      intros p lg. cbn [run]. fl Hf p lg. rewrite E. eauto.
    - assert (Hf : fails (run dbg self (erase d)) ts) by (eapply IHd; eauto).
      intros q lg. cbn [run]. fl Hf q lg. rewrite E. eauto.
    - assert (Hf : fails (run dbg self (erase d)) (skip ts)).
      { eapply IHd; eauto using sep_skip, sees_skip; [intros _; apply tight_skip|].
        eapply room_weak; [|apply skip_le|exact Hm]. auto. }
      intros p lg. cbn [tp run rest]. rewrite trivias_exact by exact Hs. cbn [pos Winnow.log].
      fl Hf (p + glens (lead ts)) lg. rewrite E. eauto.
    - apply andb_prop in H as [H Hn]. intros p lg. cbn [run]. apply (retry_fails _ _ _ ts h); auto.
      eapply IHd; eauto using sep_skip, sees_skip; [intros _; apply tight_skip|].
      eapply room_weak; [|apply skip_le|exact Hm]. auto.
    - apply andb_prop in H as [H Hn]. intros p lg. cbn [run]. apply (once_fails _ _ ts h); auto.
      eapply IHd; eauto using sep_skip, sees_skip; [intros _; apply tight_skip|].
      eapply room_weak; [|apply skip_le|exact Hm]. auto.
    - specialize (Ht eq_refl). intros p lg. cbn [run GPeek rest]. unfold la_lparen.
      rewrite strip_lp_none; auto; [|rewrite (sees_hsym _ _ Hh); intros E; rewrite E in H; discriminate].
      eexists _, _. split; reflexivity.
    - cbn [run]. unfold room in Hm. cbn [grd] in Hm. apply Hrej; auto; [|lia].
      destruct h as [[]|]; try discriminate H; [now right|now left].
    - eapply IHd; eauto.
    - eapply IHd; eauto.
  Qed.

  (** ** Acceptance *)
  Lemma in_with_heads e F P l r X : Reads e l -> Separated (gtokenss l ++ r) -> In (cls r) F ->
    heads e F = Some X -> forallb P X = true -> P (cls (gtokenss l ++ r)) = true.
  Proof. intros Hr Hs HF HX HP. rewrite forallb_forall in HP. apply HP. eapply heads_ok; eauto. Qed.

  Lemma not_end r F : In (cls r) F -> hmem (H1 SEnd) F = false -> Separated r -> texts r <> [].
  Proof.
    intros HF Hn Hs E. apply sep_texts_nil in E; [|exact Hs]. subst r.
    apply hmem_in in HF. change (cls []) with (H1 SEnd) in HF. congruence.
  Qed.
  Lemma tight_trivia tr g x : Trivia tr -> tight (gtokenss (tr ++ [g]) ++ x) -> tr = [].
  Proof.
    intros H Ht. destruct H as [|y tr Hy _]; [reflexivity|]. destruct y as [k t|]; [|destruct Hy].
    apply tight_inv in Ht. congruence.
  Qed.
  Lemma reads_tok c l : Reads (crx c) l ->
    exists tr t, l = tr ++ [Tok (ckind c) t] /\ Trivia tr /\ (forall s, c = CKw s -> t = T s).
  Proof.
    intros H. destruct c; cbn [crx ckind] in *; inversion H; subst; eexists _, _;
      (split; [reflexivity|split; [assumption|intros ? E; congruence]]).
  Qed.

  Lemma split_tight e l r : Reads e l -> front e = true -> nonnull e = true ->
    exists tr l', l = tr ++ l' /\ Trivia tr /\ Reads e l' /\ tight (gtokenss l' ++ r)
      /\ lead (gtokenss l ++ r) = tr /\ skip (gtokenss l ++ r) = gtokenss l' ++ r.
  Proof.
    intros H Hf Hn. destruct (reads_split e l H) as (tr & l' & -> & Ht & Hl & Hg).
    assert (Hx : tight (gtokenss l' ++ r)) by (eapply front_ok; eauto; eapply nonnull_ok; eauto).
    exists tr, l'. rewrite gtokenss_app, <- app_assoc. repeat split; auto.
    - now apply lead_trivia_app.
    - rewrite skip_trivia_app by exact Ht. exact Hx.
  Qed.

  Lemma rep_accepts f ea F X B r ls :
    (forall l r, Reads ea l -> Separated (gtokenss l ++ r) -> In (cls r) X ->
       length (texts (gtokenss l ++ r)) <= B -> accepts f l r) ->
    (forall ts, Separated ts -> In (cls ts) F -> length (texts ts) <= B -> fails f ts) ->
    nonnull ea = true -> heads (Star ea) F = Some X -> Forall (Reads ea) ls ->
    Separated (gtokenss (concat ls) ++ r) -> In (cls r) F -> length (texts (gtokenss (concat ls) ++ r)) <= B ->
    forall n, length (texts (gtokenss (concat ls) ++ r)) < n -> accepts (rep_loop dbg f n) (concat ls) r.
  Proof.
    intros Ha Hf Hn HX Hl. induction Hl as [|l ls Hl Hls IH]; intros Hs HF HB n Hlen p lg.
    - destruct n as [|n]; [lia|]. cbn [concat gtokenss map app] in *. cbn [rep_loop].
      fl (Hf r Hs HF HB) p lg. rewrite E, (reset_eq _ _ _ _ El). cbn [glens map list_sum fold_right].
      now rewrite Nat.add_0_r.
    - destruct n as [|n]; [lia|]. cbn [concat] in *. rewrite gtokenss_app, <- app_assoc in *.
      cbn [rep_loop].
      pose proof (sep_app _ _ Hs) as Hs'.
      rewrite Ha; auto.
      + cbn [rest]. assert (Hlt : length (texts (gtokenss (concat ls) ++ r)) < length (texts (gtokenss l ++ gtokenss (concat ls) ++ r))).
        { apply texts_shorter; [exact Hs|]. eapply nonnull_ok; eauto. }
        destruct (Nat.eqb_spec (length (texts (gtokenss (concat ls) ++ r))) (length (texts (gtokenss l ++ gtokenss (concat ls) ++ r)))) as [E|_]; [lia|].
        rewrite IH; auto; try lia. rewrite glens_app, Nat.add_assoc. reflexivity.
      + eapply (heads_ok (Star ea)); eauto. now apply list_star.
  Qed.

  Lemma rep_gen f r ls :
    fails f r ->
    (forall pre l post, ls = pre ++ l :: post -> accepts f l (gtokenss (concat post) ++ r) /\ gtokenss l <> []) ->
    Separated (gtokenss (concat ls) ++ r) ->
    forall n, length (texts (gtokenss (concat ls) ++ r)) < n -> accepts (rep_loop dbg f n) (concat ls) r.
  Proof.
    intros Hf. induction ls as [|l ls IH]; intros Ha Hs n Hlen p lg.
    - destruct n as [|n]; [lia|]. cbn [concat gtokenss map app] in *. cbn [rep_loop].
      fl Hf p lg. rewrite E, (reset_eq _ _ _ _ El). cbn [glens map list_sum fold_right].
      now rewrite Nat.add_0_r.
    - destruct n as [|n]; [lia|]. cbn [concat] in *. rewrite gtokenss_app, <- app_assoc in *.
      cbn [rep_loop]. pose proof (sep_app _ _ Hs) as Hs'.
      destruct (Ha [] l ls eq_refl) as [A Hn]. rewrite A. cbn [rest].
      pose proof (texts_shorter _ _ Hs Hn) as Hlt.
      destruct (Nat.eqb_spec (length (texts (gtokenss (concat ls) ++ r))) (length (texts (gtokenss l ++ gtokenss (concat ls) ++ r)))) as [E|_]; [lia|].
      rewrite IH; auto; try lia; [rewrite glens_app, Nat.add_assoc; reflexivity|].
      intros pre l' post ->. apply (Ha (l :: pre)). reflexivity.
  Qed.
  Lemma cut_app {A} (a b pre post : list A) x : a ++ b = pre ++ x :: post ->
    (exists q, a = pre ++ x :: q /\ post = q ++ b) \/ (exists q, b = q ++ x :: post /\ pre = a ++ q).
  Proof.
    revert pre. induction a as [|y a IH]; intros pre E; cbn [app] in E; [right; now exists pre|].
    destruct pre as [|z pre]; cbn [app] in E; injection E as -> E; [left; now exists a|].
    destruct (IH _ E) as [(q & -> & ->)|(q & -> & ->)]; [left|right]; now exists q.
  Qed.

  Lemma till_accepts f g ea X B l2 r ls :
    (forall l r, Reads ea l -> Separated (gtokenss l ++ r) -> In (cls r) X ->
       length (texts (gtokenss l ++ r)) <= B -> accepts f l r /\ fails g (gtokenss l ++ r)) ->
    nonnull ea = true -> Forall (Reads ea) ls ->
    (forall l', Reads (Star ea) l' -> Separated (gtokenss l' ++ gtokenss l2 ++ r) ->
       In (cls (gtokenss l' ++ gtokenss l2 ++ r)) X) ->
    accepts g l2 r ->
    Separated (gtokenss (concat ls) ++ gtokenss l2 ++ r) ->
    length (texts (gtokenss (concat ls) ++ gtokenss l2 ++ r)) <= B ->
    forall n, length (texts (gtokenss (concat ls) ++ gtokenss l2 ++ r)) < n ->
    accepts (till_loop dbg f g n) (concat ls ++ l2) r.
  Proof.
    intros Ha Hn Hl HX Hg. induction Hl as [|l ls Hl Hls IH]; intros Hs HB n Hlen p lg.
    - destruct n as [|n]; [lia|]. cbn [concat app] in *. cbn [till_loop]. now rewrite Hg.
    - destruct n as [|n]; [lia|]. cbn [concat] in *. rewrite !gtokenss_app, <- !app_assoc in *.
      pose proof (sep_app _ _ Hs) as Hs'.
      destruct (Ha l (gtokenss (concat ls) ++ gtokenss l2 ++ r)) as [Hal Hfl]; auto.
      { apply HX; [now apply list_star|exact Hs']. }
      cbn [till_loop]. fl Hfl p lg. rewrite E, (reset_eq _ _ _ _ El), Hal. cbn [rest].
      assert (Hlt : length (texts (gtokenss (concat ls) ++ gtokenss l2 ++ r))
                    < length (texts (gtokenss l ++ gtokenss (concat ls) ++ gtokenss l2 ++ r))).
      { apply texts_shorter; [exact Hs|]. eapply nonnull_ok; eauto. }
      destruct (Nat.eqb_spec (length (texts (gtokenss (concat ls) ++ gtokenss l2 ++ r)))
                  (length (texts (gtokenss l ++ gtokenss (concat ls) ++ gtokenss l2 ++ r)))) as [E0|_]; [lia|].
      assert (IH' : accepts (till_loop dbg f g n) (concat ls ++ l2) r) by (apply IH; auto; lia).
      unfold accepts in IH'. rewrite gtokenss_app, <- app_assoc in IH'. rewrite IH'.
      rewrite !glens_app, !Nat.add_assoc. reflexivity.
  Qed.

  Lemma peek_end_ok ns F r : all_sel (bsel ns) true F = true -> Separated r -> In (cls r) F ->
    accepts (run dbg self (GPeek (la_block_end (map T ns)))) [] r.
  Proof.
    intros H Hs HF p lg. cbn [gtokenss map concat app]. unfold all_sel in H. rewrite forallb_forall in H. apply H in HF.
    pose proof (bsel_ok dbg ns r (cls r) Hs (sees_cls r)) as Hb.
    destruct (bsel ns (cls r)) as [[]| |]; try discriminate HF. destruct Hb as (w & E).
    cbn [GPeek run rest]. rewrite E. cbn [glens map list_sum fold_right]. now rewrite Nat.add_0_r.
  Qed.
  Lemma peek_end_fails ns ts X : all_sel (bsel ns) false X = true -> Separated ts -> In (cls ts) X ->
    fails (run dbg self (GPeek (la_block_end (map T ns)))) ts.
  Proof.
    intros H Hs HF p lg. unfold all_sel in H. rewrite forallb_forall in H. apply H in HF.
    pose proof (bsel_ok dbg ns ts (cls ts) Hs (sees_cls ts)) as Hb.
    destruct (bsel ns (cls ts)) as [[]| |]; try discriminate HF.
    cbn [GPeek run rest]. rewrite Hb. eexists _, _. split; reflexivity.
  Qed.

  Ltac andbs := repeat match goal with H : _ && _ = true |- _ => apply andb_prop in H as [? ?] end.
  Ltac wh H := unfold with_heads in H.

  Lemma or_opt_inv a b e l : or_opt a b = Some e -> Reads e l ->
    (exists x, a = Some x /\ Reads x l) \/ (exists y, b = Some y /\ Reads y l).
  Proof.
    destruct a as [x|], b as [y|]; cbn [or_opt]; intros E H; try discriminate E; injection E as <-; eauto.
    inversion H; subst; eauto.
  Qed.

  Lemma ok_sound d : wf d -> forall F e l r, lang d = Some e -> ok d F = true -> Reads e l ->
    Separated (gtokenss l ++ r) -> (sol d = true -> tight (gtokenss l ++ r)) -> In (cls r) F ->
    room d (gtokenss l ++ r) -> accepts (run dbg self (erase d)) l r.
  Proof.
    induction d; intros Hwf F e0 ll r HL HO HR HS HT HF HM; cbn [lang] in HL; cbn [ok] in HO; cbn [wf] in Hwf;
      try discriminate HL; cbn [erase].
    - (* DTok *) injection HL as <-. andbs. destruct (reads_tok c ll HR) as (tr & t & -> & Htr & Hkw).
      specialize (HT eq_refl). pose proof (tight_trivia _ _ _ Htr HT) as ->. cbn [app] in *.
      change (gtokenss [Tok (ckind c) t] ++ r) with ((ckind c, t) :: r) in *. destruct HS as (Hf & Hfo & Hs).
      intros p lg. change (gtokenss [Tok (ckind c) t] ++ r) with ((ckind c, t) :: r). cbn [run rest]. rewrite texts_cons.
      rewrite clex_exact; auto.
      + cbn. unfold advance. cbn. now rewrite Nat.add_0_r.
      + intros Hnum. rewrite Hnum in H0. cbn [negb orb] in H0. apply negb_true_iff in H0. eapply not_end; eauto.
    - (* DEmpty *) injection HL as <-. inversion HR; subst. intros p lg. cbn. now rewrite Nat.add_0_r.
    - (* DSeq *) destruct Hwf as [W1 W2]. andbs. apply negb_true_iff in H0.
      destruct (lang d1) as [ea|] eqn:La; [|discriminate]. destruct (lang d2) as [eb|] eqn:Lb; [|discriminate].
      injection HL as <-. inversion HR as [| | | | | | |? ? l1 l2 R1 R2| | | |]; subst. wh H.
      destruct (heads eb F) as [X|] eqn:EX; [|discriminate].
      rewrite gtokenss_app, <- app_assoc in *. pose proof (sep_app _ _ HS) as HS2.
      assert (A1 : accepts (run dbg self (erase d1)) l1 (gtokenss l2 ++ r)).
      { eapply (IHd1 W1 X ea); eauto; [eapply heads_ok; eauto|].
        eapply room_weak; [|apply le_n|exact HM]. cbn [grd]. intros Hg. now apply andb_prop in Hg. }
      assert (A2 : accepts (run dbg self (erase d2)) l2 r).
      { eapply (IHd2 W2 F eb); eauto; [rewrite H0; discriminate|].
        unfold room in *. cbn [grd] in HM. rewrite La in HM. pose proof (texts_le (gtokenss l1) (gtokenss l2 ++ r)).
        destruct (grd d1); cbn [andb] in HM; [|destruct (grd d2); lia].
        destruct (nonnull ea) eqn:En; cbn [orb] in HM; [|destruct (grd d2); lia].
        pose proof (texts_shorter (gtokenss l1) (gtokenss l2 ++ r) HS (nonnull_ok _ _ R1 En)). destruct (grd d2); lia. }
      intros p lg. cbn [run]. rewrite gtokenss_app, <- app_assoc, A1, A2, glens_app, Nat.add_assoc. reflexivity.
    - (* DAlt *) destruct Hwf as [W1 W2]. andbs.
      assert (M1 : forall ts, room (DAlt d1 d2) ts -> room d1 ts)
        by (intros ts; apply room_weak; [cbn [grd]; intros Hg; now apply andb_prop in Hg|apply le_n]).
      assert (M2 : forall ts, room (DAlt d1 d2) ts -> room d2 ts)
        by (intros ts; apply room_weak; [cbn [grd]; intros Hg; now apply andb_prop in Hg|apply le_n]).
      destruct (or_opt_inv _ _ _ _ HL HR) as [(x & Lx & Rx)|(y & Ly & Ry)].
      + assert (A : accepts (run dbg self (erase d1)) ll r).
        { eapply (IHd1 W1 F x); eauto. intros E. apply HT. cbn [sol]. now rewrite E. }
        intros p lg. cbn [run]. now rewrite A.
      + assert (A : accepts (run dbg self (erase d2)) ll r).
        { eapply (IHd2 W2 F y); eauto. intros E. apply HT. cbn [sol]. rewrite E. apply orb_true_r. }
        wh H0. rewrite Ly in H0. destruct (heads y F) as [X|] eqn:EX; [|discriminate].
        assert (Hf : fails (run dbg self (erase d1)) (gtokenss ll ++ r)).
        { eapply rej_sound; [|exact HS| |apply sees_cls|auto].
          - eapply in_with_heads; eauto.
          - intros E. apply HT. cbn [sol]. now rewrite E. }
        intros p lg. cbn [run]. fl Hf p lg. rewrite E, (reset_eq _ _ _ _ El). apply A.
    - (* DOpt *) andbs. apply negb_true_iff in H.
      destruct (or_opt_inv _ _ _ _ HL HR) as [(x & Lx & Rx)|(y & Ly & Ry)].
      + assert (A : accepts (run dbg self (erase d)) ll r) by (eapply (IHd Hwf F x); eauto).
        intros p lg. cbn [run]. now rewrite A.
      + injection Ly as <-. inversion Ry; subst. cbn [gtokenss map concat app] in *.
        assert (Hf : fails (run dbg self (erase d)) r).
        { eapply rej_sound; [|exact HS|rewrite H; discriminate|apply sees_cls|exact HM].
          rewrite forallb_forall in H0. auto. }
        intros p lg. cbn [run gtokenss map concat app]. fl Hf p lg. rewrite E, (reset_eq _ _ _ _ El).
        cbn. now rewrite Nat.add_0_r.
    - (* DRep *) andbs. apply negb_true_iff in H. destruct (lang d) as [ea|] eqn:La; [|discriminate].
      injection HL as <-. cbn [map_opt] in H0. wh H0. destruct (heads (Star ea) F) as [X|] eqn:EX; [|discriminate].
      cbn [front_ok'] in H2. andbs. destruct (star_list _ _ HR) as (ls & -> & Hls).
      intros p lg. cbn [run rest].
      apply (rep_accepts _ ea F X (length (texts (gtokenss (concat ls) ++ r)))); auto.
      + intros l' r' R' S' F' B'. eapply (IHd Hwf X ea); eauto; [rewrite H; discriminate|].
        eapply room_weak; [|exact B'|exact HM]. auto.
      + intros ts S' F' B'. eapply rej_sound; [|exact S'|rewrite H; discriminate|apply sees_cls|].
        * rewrite forallb_forall in H1. auto.
        * eapply room_weak; [|exact B'|exact HM]. auto.
    - (* DRep1 *) andbs. apply negb_true_iff in H. destruct (lang d) as [ea|] eqn:La; [|discriminate].
      injection HL as <-. cbn [map_opt] in H0. wh H0. destruct (heads (Star ea) F) as [X|] eqn:EX; [|discriminate].
      cbn [front_ok'] in H2. andbs.
      unfold Plus in HR. inversion HR as [| | | | | | |? ? l1 l2 R1 R2| | | |]; subst.
      destruct (star_list _ _ R2) as (ls & -> & Hls). rewrite gtokenss_app, <- app_assoc in *.
      pose proof (sep_app _ _ HS) as HS2.
      assert (A : accepts (run dbg self (erase d)) l1 (gtokenss (concat ls) ++ r)).
      { eapply (IHd Hwf X ea); eauto. eapply (heads_ok (Star ea)); eauto. }
      intros p lg. cbn [run]. rewrite gtokenss_app, <- app_assoc, A.
      cbn [rest].
      rewrite (rep_accepts (run dbg self (erase d)) ea F X (length (texts (gtokenss (concat ls) ++ r))) r ls); auto.
      + rewrite glens_app, Nat.add_assoc. reflexivity.
      + intros l' r' R' S' F' B'. eapply (IHd Hwf X ea); eauto; [rewrite H; discriminate|].
        eapply room_weak; [| |exact HM]; [auto|]. pose proof (texts_le (gtokenss l1) (gtokenss (concat ls) ++ r)). lia.
      + intros ts S' F' B'. eapply rej_sound; [|exact S'|rewrite H; discriminate|apply sees_cls|].
        * rewrite forallb_forall in H1. auto.
        * eapply room_weak; [| |exact HM]; [auto|]. pose proof (texts_le (gtokenss l1) (gtokenss (concat ls) ++ r)). lia.
    - (* DRep2 *) destruct Hwf as (W1 & W2 & HE). andbs. apply negb_true_iff in H, H4.
      destruct (lang d1) as [ea|] eqn:La; [|discriminate]. destruct (lang d2) as [eb|] eqn:Lb; [|discriminate].
      cbn [map_opt seq_opt] in HL. injection HL as <-. cbn [map_opt] in H0. wh H0.
      destruct (heads (Star eb) F) as [X|] eqn:EX; [|discriminate]. andbs.
      cbn [map_opt] in *. destruct (heads (Star ea) X) as [Y|] eqn:EY; [|discriminate].
      cbn [front_ok'] in H2, H3. andbs.
      assert (M1 : forall ts, length (texts ts) <= length (texts (gtokenss ll ++ r)) -> room d1 ts)
        by (intros ts Hl; eapply room_weak; [|exact Hl|exact HM]; cbn [grd]; intros Hg; now apply andb_prop in Hg).
      assert (M2 : forall ts, length (texts ts) <= length (texts (gtokenss ll ++ r)) -> room d2 ts)
        by (intros ts Hl; eapply room_weak; [|exact Hl|exact HM]; cbn [grd]; intros Hg; now apply andb_prop in Hg).
      inversion HR as [| | | | | | |? ? l1 l2 R1 R2| | | |]; subst.
      destruct (star_list _ _ R1) as (la & -> & Hla). destruct (star_list _ _ R2) as (lb & -> & Hlb).
      rewrite <- concat_app in *. intros p lg. cbn [run rest].
      assert (Sf : forall pre post, la ++ lb = pre ++ post -> Separated (gtokenss (concat post) ++ r)
        /\ length (texts (gtokenss (concat post) ++ r)) <= length (texts (gtokenss (concat (la ++ lb)) ++ r))).
      { intros pre post E. rewrite E in *. rewrite concat_app, gtokenss_app, <- app_assoc in *. split.
        - now apply sep_app in HS.
        - apply texts_le. }
      assert (Sr : Separated r) by (now apply sep_app in HS).
      apply rep_gen; auto.
      + eapply rej_sound; [|exact Sr|rewrite H; discriminate|apply sees_cls|].
        * rewrite forallb_forall in H1. auto.
        * apply M1. apply texts_le.
      + intros pre l post E. destruct (Sf _ _ E) as [S' B']. cbn [concat] in S', B'.
        rewrite gtokenss_app, <- app_assoc in S', B'.
        assert (S'' : Separated (gtokenss (concat post) ++ r)) by (now apply sep_app in S').
        destruct (cut_app _ _ _ _ _ E) as [(q & E1 & E2)|(q & E1 & E2)]; subst.
        * apply Forall_app in Hla as [_ Hla]. inversion Hla as [|? ? Rl Rq]; subst. split; [|eapply nonnull_ok; eauto].
          eapply (IHd1 W1 Y ea); eauto; [rewrite H; discriminate|].
          rewrite concat_app, gtokenss_app, <- app_assoc in *.
          eapply (heads_ok (Star ea)); [now apply list_star|exact S''|exact EY|].
          eapply (heads_ok (Star eb)); [now apply list_star|now apply sep_app in S''|exact EX|exact HF].
        * apply Forall_app in Hlb as [_ Hlb]. inversion Hlb as [|? ? Rl Rq]; subst. split; [|eapply nonnull_ok; eauto].
          rewrite HE. eapply (IHd2 W2 X eb); eauto; [rewrite H4; discriminate|].
          eapply (heads_ok (Star eb)); [now apply list_star|exact S''|exact EX|exact HF].
    - (* DTill *) andbs. apply negb_true_iff in H. destruct (lang d) as [ea|] eqn:La; [|discriminate].
      injection HL as <-. cbn [map_opt] in H0. wh H0. destruct (heads (Star ea) F) as [X|] eqn:EX; [|discriminate].
      andbs. destruct (heads ea X) as [Y|] eqn:EY; [|discriminate].
      cbn [front_ok'] in H2. andbs. destruct (star_list _ _ HR) as (ls & -> & Hls).
      intros p lg. cbn [run rest].
      pose proof (till_accepts (run dbg self (erase d)) (run dbg self (GPeek (la_block_end (map T names)))) ea X
        (length (texts (gtokenss (concat ls) ++ r))) [] r ls) as TA.
      cbn [gtokenss map concat app] in TA. fold (gtokenss (concat ls)) in TA. rewrite app_nil_r in TA.
      apply TA; auto.
      + intros l' r' R' S' F' B'. split.
        * eapply (IHd Hwf X ea); eauto; [rewrite H; discriminate|].
          eapply room_weak; [|exact B'|exact HM]. auto.
        * eapply peek_end_fails; eauto. eapply heads_ok; eauto.
      + intros l' R' S'. eapply (heads_ok (Star ea)); eauto.
      + eapply peek_end_ok; eauto. now apply sep_app in HS.
    - (* DTillN *) destruct Hwf as [W1 W2]. andbs. apply negb_true_iff in H, H3.
      destruct (lang d1) as [ea|] eqn:La; [|discriminate]. destruct (lang d2) as [eb|] eqn:Lb; [|discriminate].
      injection HL as <-. cbn [map_opt seq_opt] in H0. wh H0.
      destruct (heads (Sq (Star ea) eb) F) as [X|] eqn:EX; [|discriminate].
      andbs. destruct (heads ea X) as [Y|] eqn:EY; [|discriminate].
      cbn [front_ok'] in H2. andbs.
      assert (M1 : forall ts, length (texts ts) <= length (texts (gtokenss ll ++ r)) -> room d1 ts)
        by (intros ts Hl; eapply room_weak; [|exact Hl|exact HM]; cbn [grd]; intros Hg; now apply andb_prop in Hg).
      assert (M2 : forall ts, length (texts ts) <= length (texts (gtokenss ll ++ r)) -> room d2 ts)
        by (intros ts Hl; eapply room_weak; [|exact Hl|exact HM]; cbn [grd]; intros Hg; now apply andb_prop in Hg).
      inversion HR as [| | | | | | |? ? l1 l2 R1 R2| | | |]; subst.
      destruct (star_list _ _ R1) as (ls & -> & Hls).
      intros p lg. cbn [run rest].
      pose proof HS as HS0. rewrite gtokenss_app, <- app_assoc in HS0. pose proof (sep_app _ _ HS0) as HS2.
      assert (HL' : length (texts (gtokenss (concat ls) ++ gtokenss l2 ++ r)) = length (texts (gtokenss (concat ls ++ l2) ++ r)))
        by now rewrite gtokenss_app, <- app_assoc.
      apply (till_accepts _ _ ea X (length (texts (gtokenss (concat ls ++ l2) ++ r)))); auto; try lia.
      + intros l' r' R' S' F' B'. split.
        * eapply (IHd1 W1 X ea); eauto. rewrite H; discriminate.
        * eapply rej_sound; [|exact S'|rewrite H3; discriminate|apply sees_cls|auto].
          eapply in_with_heads; eauto.
      + intros l' R' S'. pose proof (R_Sq _ _ _ _ R' R2) as R''.
        pose proof (heads_ok _ _ R'' r F X) as HH. rewrite gtokenss_app, <- app_assoc in HH. auto.
      + eapply (IHd2 W2 F eb); eauto; [rewrite H3; discriminate|]. apply M2.
        rewrite gtokenss_app, <- app_assoc. apply texts_le.
    - (* DIf *) destruct Hwf as [W1 W2]. andbs.
      assert (M1 : room d1 (gtokenss ll ++ r))
        by (eapply room_weak; [|apply le_n|exact HM]; cbn [grd]; intros Hg; now apply andb_prop in Hg).
      assert (M2 : room d2 (gtokenss ll ++ r))
        by (eapply room_weak; [|apply le_n|exact HM]; cbn [grd]; intros Hg; now apply andb_prop in Hg).
      assert (T1 : sol d1 = true -> tight (gtokenss ll ++ r))
        by (intros E; apply HT; cbn [sol]; destruct l; auto; now rewrite E).
      assert (T2 : sol d2 = true -> tight (gtokenss ll ++ r))
        by (intros E; apply HT; cbn [sol]; destruct l; auto; rewrite E; apply orb_true_r).
      assert (TL : l <> LTrivAny -> tight (gtokenss ll ++ r)) by (intros Hn; apply HT; destruct l; auto; congruence).
      pose proof (lsel_ok dbg l w (gtokenss ll ++ r) _ HS TL (sees_cls _)) as Hl.
      intros p lg. cbn [run rest].
      destruct (or_opt_inv _ _ _ _ HL HR) as [(x & Lx & Rx)|(y & Ly & Ry)].
      + wh H1. rewrite Lx in H1. destruct (heads x F) as [X|] eqn:EX; [|discriminate]. unfold all_sel in H1.
        pose proof (in_with_heads _ _ _ _ _ _ Rx HS HF EX H1) as HP. cbn beta in HP.
        destruct (lsel l w (cls (gtokenss ll ++ r))) as [[]| |]; try discriminate HP.
        destruct Hl as (w' & -> & ->). eapply (IHd1 W1 F x); eauto.
      + wh H0. rewrite Ly in H0. destruct (heads y F) as [X|] eqn:EX; [|discriminate]. unfold all_sel in H0.
        pose proof (in_with_heads _ _ _ _ _ _ Ry HS HF EX H0) as HP. cbn beta in HP.
        destruct (lsel l w (cls (gtokenss ll ++ r))) as [[]| |]; try discriminate HP.
        destruct Hl as (w' & -> & ->). eapply (IHd2 W2 F y); eauto.
    - (* DFirst *) destruct Hwf as [W1 W2]. andbs. specialize (HT eq_refl).
      assert (M1 : room d1 (gtokenss ll ++ r))
        by (eapply room_weak; [|apply le_n|exact HM]; cbn [grd]; intros Hg; now apply andb_prop in Hg).
      assert (M2 : room d2 (gtokenss ll ++ r))
        by (eapply room_weak; [|apply le_n|exact HM]; cbn [grd]; intros Hg; now apply andb_prop in Hg).
      pose proof (csel_ok f (gtokenss ll ++ r) HT HS) as Hl. rewrite <- hsym_cls in Hl.
      intros p lg. cbn [run rest]. unfold la_any, la_any_t.
      destruct (or_opt_inv _ _ _ _ HL HR) as [(x & Lx & Rx)|(y & Ly & Ry)].
      + wh H1. rewrite Lx in H1. destruct (heads x F) as [X|] eqn:EX; [|discriminate]. unfold all_sel in H1.
        pose proof (in_with_heads _ _ _ _ _ _ Rx HS HF EX H1) as HP. cbn beta in HP.
        destruct (csel f (hsym (cls (gtokenss ll ++ r)))) as [[]| |]; try discriminate HP.
        destruct Hl as (c & z & E & Hc). rewrite E. cbn [first_char]. rewrite Hc, <- E. eapply (IHd1 W1 F x); eauto.
      + wh H0. rewrite Ly in H0. destruct (heads y F) as [X|] eqn:EX; [|discriminate]. unfold all_sel in H0.
        pose proof (in_with_heads _ _ _ _ _ _ Ry HS HF EX H0) as HP. cbn beta in HP.
        destruct (csel f (hsym (cls (gtokenss ll ++ r)))) as [[]| |]; try discriminate HP.
        destruct Hl as (c & z & E & Hc). rewrite E. cbn [first_char]. rewrite Hc, <- E. eapply (IHd2 W2 F y); eauto.
    - (* DNode *) andbs. destruct (lang d) as [ea|] eqn:La; [|discriminate]. injection HL as <-.
      inversion HR as [| | |? ? cs tr Htr Rcs Tcs| | | | | | | |]; subst. specialize (HT eq_refl).
      pose proof (tight_trivia _ _ _ Htr HT) as ->. cbn [app] in *. rewrite gtokenss_node in *.
      assert (A : accepts (run dbg self (erase d)) cs r) by (eapply (IHd Hwf F ea); eauto).
      intros p lg. rewrite gtokenss_node. cbn [run]. rewrite A. unfold glens. cbn. now rewrite Nat.add_0_r.
    - (* DLoose *) andbs. destruct (lang d) as [ea|] eqn:La; [|discriminate]. injection HL as <-.
      inversion HR as [| | | |? ? cs Rcs| | | | | | |]; subst. rewrite gtokenss_node in *.
      assert (A : accepts (run dbg self (erase d)) cs r) by (eapply (IHd Hwf F ea); eauto).
      intros p lg. rewrite gtokenss_node. cbn [run]. rewrite A. unfold glens. cbn. now rewrite Nat.add_0_r.
    - (* DCtx *) assert (A : accepts (run dbg self (erase d)) ll r) by (eapply (IHd Hwf F e0); eauto).
      intros p lg. cbn [run]. now rewrite A.
    - (* DTp *) andbs. rewrite HL in H0. cbn [front_ok'] in H0. andbs.
      destruct (split_tight e0 ll r HR) as (tr & l' & -> & Htr & R' & T' & EL & ES); auto.
      assert (A : accepts (run dbg self (erase d)) l' r).
      { pose proof (sep_skip _ HS) as S'. rewrite ES in S'. eapply (IHd Hwf F e0); eauto.
        eapply room_weak; [| |exact HM]; [auto|]. rewrite <- ES. apply skip_le. }
      intros p lg. cbn [tp run rest]. rewrite trivias_exact by exact HS. rewrite EL, ES. cbn [pos Winnow.log].
      rewrite A, glens_app, Nat.add_assoc. reflexivity.
    - (* DRetry *) andbs. rewrite HL in H0. cbn [front_ok'] in H0. andbs.
      destruct (split_tight e0 ll r HR) as (tr & l' & -> & Htr & R' & T' & EL & ES); auto.
      assert (A : accepts (run dbg self (erase d)) l' r).
      { pose proof (sep_skip _ HS) as S'. rewrite ES in S'. eapply (IHd Hwf F e0); eauto.
        eapply room_weak; [| |exact HM]; [auto|]. rewrite <- ES. apply skip_le. }
      intros p lg. cbn [run retry_loop rest]. rewrite trivias_exact by exact HS. rewrite EL, ES. cbn [pos Winnow.log].
      rewrite A, glens_app, Nat.add_assoc. reflexivity.
    - (* DOnce *) andbs. rewrite HL in H0. cbn [front_ok'] in H0. andbs.
      destruct (split_tight e0 ll r HR) as (tr & l' & -> & Htr & R' & T' & EL & ES); auto.
      assert (A : accepts (run dbg self (erase d)) l' r).
      { pose proof (sep_skip _ HS) as S'. rewrite ES in S'. eapply (IHd Hwf F e0); eauto.
        eapply room_weak; [| |exact HM]; [auto|]. rewrite <- ES. apply skip_le. }
      intros p lg. cbn [run]. unfold retry_once. cbn [rest]. rewrite trivias_exact by exact HS.
      rewrite EL, ES. cbn [pos Winnow.log]. rewrite A, glens_app, Nat.add_assoc. reflexivity.
    - (* DMust *) assert (A : accepts (run dbg self (erase d)) ll r) by (eapply (IHd Hwf F e0); eauto).
      intros p lg. cbn [run]. unfold must. now rewrite A.
    - (* DRParen *) injection HL as <-. inversion HR as [|? t tr Htr| | | | | | | | | |]; subst.
      assert (Tx : tight ((R_PAREN, t) :: r)) by now apply tight_cons.
      intros p lg. rewrite gtokenss_app, <- app_assoc in *. change (gtokenss [Tok R_PAREN t] ++ r) with ((R_PAREN, t) :: r) in *.
      pose proof (sep_app _ _ HS) as ([Ef _] & _). change (t = T ")") in Ef. subst t.
      assert (Tx' : skip ((R_PAREN, T ")") :: r) = (R_PAREN, T ")") :: r) by exact Tx.
      cbn [run rparen_loop rest]. rewrite trivias_exact by exact HS.
      rewrite lead_trivia_app, skip_trivia_app by assumption. rewrite Tx'. cbn [pos Winnow.log].
      rewrite texts_cons.
      assert (E : strip_prefix (T ")") (T ")" ++ texts r) = Some (texts r)) by now apply strip_prefix_spec.
      rewrite E. unfold advance. cbn [pos Winnow.log app]. rewrite glens_app, Nat.add_assoc. reflexivity.
    - (* DPeekLp *) andbs. specialize (HT eq_refl). wh H0. rewrite HL in H0.
      destruct (heads e0 F) as [X|] eqn:EX; [|discriminate].
      pose proof (in_with_heads _ _ _ _ _ _ HR HS HF EX H0) as HP. cbn beta in HP.
      assert (Hf : first (gtokenss ll ++ r) = SL).
      { rewrite <- hsym_cls. destruct (cls (gtokenss ll ++ r)); [discriminate|reflexivity]. }
      destruct (tight_lp _ HT HS Hf) as (x & _ & E & _).
      assert (A : accepts (run dbg self (erase d)) ll r) by (eapply (IHd Hwf F e0); eauto).
      intros p lg. cbn [run GPeek rest]. unfold la_lparen. rewrite (strip_lp_some _ _ E). now rewrite A.
    - (* DInstr *) injection HL as <-. specialize (HT eq_refl). unfold room in HM. cbn [grd] in HM. cbn [run].
      apply (Hacc i); auto; [|lia]. rewrite forallb_forall in HO. auto.
    - (* DSub *) destruct Hwf as [W HW]. destruct (lang d) as [e'|] eqn:La; [|discriminate]. injection HL as <-.
      eapply (IHd W F e'); eauto.
  Qed.
End Sound.
