(** The parser of instructions, modules and documents reads the trees of
    [SpecComplete.v]. *)

From Coq Require Import String List NArith Bool Arith Lia.
From Verif Require Import Text Kind Green SpecParser Lexer LexerFacts Winnow Grammar SpecComplete LexAccept TokAccept
  Streams Describe DescribeSound Descriptions.
Import ListNotations.
Local Open Scope list_scope.

Lemma sub_or a b a' b' l : (forall l, Reads a l -> Reads a' l) -> (forall l, Reads b l -> Reads b' l) ->
  Reads (Or a b) l -> Reads (Or a' b') l.
Proof. intros Ha Hb H. inversion H; subst; [apply R_OrL|apply R_OrR]; auto. Qed.
Lemma sub_nd k a a' l : (forall l, Reads a l -> Reads a' l) -> Reads (Nd k a) l -> Reads (Nd k a') l.
Proof. intros Ha H. inversion H; subst. constructor; auto. Qed.
Lemma sub_sq a b a' b' l : (forall l, Reads a l -> Reads a' l) -> (forall l, Reads b l -> Reads b' l) ->
  Reads (Sq a b) l -> Reads (Sq a' b') l.
Proof. intros Ha Hb H. inversion H; subst. constructor; auto. Qed.

Lemma wf_body i : wf (d_body i).
Proof. destruct i; cbn; repeat split. Qed.
Lemma wf_module : wf (DRep (DOnce d_module [])).
Proof.
  cbn; repeat split; intros e' l E; injection E as <-; intros H.
  - inversion H; subst. now constructor.
  - inversion H; subst. now constructor.
  - rewrite <- (app_nil_r l). constructor; [exact H|constructor].
  - revert H. apply sub_or; intros l'; [|auto]. apply sub_nd. intros l2. apply sub_sq; [|auto].
    intros l3 H3. now apply R_OrL.
Qed.

Lemma grd_body i : grd (d_body i) = true.
Proof. destruct i; reflexivity. Qed.
Lemma sol_body i : sol (d_body i) = true.
Proof. destruct i; reflexivity. Qed.
Lemma rej_body i : rej (d_body i) (H1 SR) = true /\ rej (d_body i) (H1 SEnd) = true.
Proof. destruct i; split; reflexivity. Qed.

(** [instr] reads every instruction, and fails in front of a closing
    parenthesis and at the end. *)
Lemma instr_sound dbg m :
  (forall i l r, Reads (Ins i) l -> Separated (gtokenss l ++ r) -> tight (gtokenss l ++ r) ->
     follow i (cls r) = true -> length (texts (gtokenss l ++ r)) < m -> accepts (run_instr dbg m) l r)
  /\ (forall ts, Separated ts -> tight ts -> (first ts = SR \/ first ts = SEnd) ->
        length (texts ts) < m -> fails (run_instr dbg m) ts).
Proof.
  induction m as [|m [IHa IHr]]; [split; intros; lia|]. split.
  - intros i l r HR HS HT HF HL. cbn [run_instr]. rewrite <- (erase_body i).
    inversion HR as [| | | | |? ? HR'| | | | | |]; subst.
    assert (HM : room m (d_body i) (gtokenss l ++ r)) by (unfold room; rewrite grd_body; lia).
    destruct i.
    + eapply (ok_sound dbg _ m IHa IHr (d_body IAny) (wf_body IAny) fany); eauto using lang_body, ok_body_any.
      now apply hmem_in.
    + eapply (ok_sound dbg _ m IHa IHr (d_body IFold) (wf_body IFold) fany); eauto using lang_body, ok_body_fold.
      now apply hmem_in.
    + eapply (ok_sound dbg _ m IHa IHr (d_body IPlain) (wf_body IPlain) [cls r]); eauto using lang_body, ok_body_plain.
      now left.
  - intros ts HS HT HF HL. cbn [run_instr]. rewrite <- (erase_body IAny).
    assert (HM : room m (d_body IAny) ts) by (unfold room; rewrite grd_body; lia).
    destruct (rej_body IAny) as [R1 R2].
    destruct HF as [HF|HF].
    + eapply (rej_sound dbg _ m IHr); [exact R1|exact HS|auto|exact HF|exact HM].
    + eapply (rej_sound dbg _ m IHr); [exact R2|exact HS|auto|exact HF|exact HM].
Qed.

Lemma root_trivia dbg tl : forall n p lg, Trivia tl -> Separated (gtokenss tl) ->
  length (texts (gtokenss tl)) < n ->
  rep_loop dbg (root_item dbg) n (mk_st (texts (gtokenss tl)) p lg) = ROk tl (mk_st [] (p + glens tl) lg).
Proof.
  induction tl as [|g tl IH]; intros n p lg Ht Hs Hn; (destruct n as [|n]; [lia|]).
  - cbn. now rewrite Nat.add_0_r.
  - inversion Ht as [|? ? Hg Ht']; subst. destruct g as [k t|]; [|destruct Hg].
    change (gtokenss (Tok k t :: tl)) with ((k, t) :: gtokenss tl) in *.
    pose proof (sep_nonempty _ _ _ Hs) as Hne. destruct Hs as (Hf & Hr & Hs). rewrite texts_cons in *.
    cbn [rep_loop]. unfold root_item at 1. cbn [rest]. rewrite (trivia_exact dbg k t) by assumption.
    cbn [rest pos Winnow.log]. rewrite app_length in *.
    destruct (Nat.eqb_spec (length (texts (gtokenss tl))) (length t + length (texts (gtokenss tl)))) as [E|_];
      [destruct t; [congruence|cbn [length] in E; lia]|].
    rewrite IH; auto; [|destruct t; [congruence|cbn [length] in Hn; lia]].
    unfold glens. cbn [map list_sum fold_right]. rewrite Nat.add_assoc. reflexivity.
Qed.

Lemma trivia_cls tl : Trivia tl -> cls (gtokenss tl) = H1 SEnd.
Proof.
  intros H. pose proof (cls_trivia_app tl [] H) as E. rewrite app_nil_r in E. exact E.
Qed.

Lemma texts_gtext g : texts (gtokens g) = gtext g.
Proof. symmetry. apply gtext_tokens. Qed.

Lemma parse_complete dbg tree : Document tree -> parse dbg (gtext tree) = Parsed tree [].
Proof.
  intros (ms & tl & -> & HR & Ht & HS). rewrite <- texts_gtext.
  change (gtokens (Node ROOT (ms ++ tl))) with (gtokenss (ms ++ tl)) in *. rewrite gtokenss_app in *.
  unfold parse, root. cbn [rest].
  destruct (instr_sound dbg (S (length (texts (gtokenss ms ++ gtokenss tl))))) as [Ha Hr].
  pose proof (ok_sound dbg _ _ Ha Hr (DRep (DOnce d_module [])) wf_module [H1 SEnd] (Star MODULE_) ms (gtokenss tl)
    eq_refl ok_module HR HS) as A.
  assert (A' : accepts (run dbg (run_instr dbg (S (length (texts (gtokenss ms ++ gtokenss tl)))))
                 (GRep (GRetryOnce module []))) ms (gtokenss tl)).
  { apply A; [discriminate|left; symmetry; now apply trivia_cls|]. unfold room.
    destruct (grd _); lia. }
  rewrite A'. cbn [rest]. rewrite root_trivia; [reflexivity|exact Ht|now apply sep_app in HS|apply Nat.lt_succ_diag_r].
Qed.
