(** Changing the white space and comments of a well-formed document gives a
    well-formed document with the same tree otherwise, as long as the tokens
    stay apart. *)

From Coq Require Import String List NArith Bool Arith Lia.
From Verif Require Import Text Kind Green SpecParser SpecSyntax SpecFormat.
From Verif Require SpecComplete.
Import ListNotations.
Local Open Scope list_scope.

Notation toks := (list (kind * text)).
Definition solid (p : kind * text) : bool := negb (is_trivia_kind (fst p)).
Definition ntok (ts : toks) : toks := filter solid ts.
Lemma ntok_app a b : ntok (a ++ b) = ntok a ++ ntok b.
Proof. apply filter_app. Qed.
Definition ends_ok (ts : toks) : Prop := forall a p, ts = a ++ [p] -> solid p = true.
Lemma ends_suffix a b : ends_ok (a ++ b) -> ends_ok b.
Proof. intros H x p E. apply (H (a ++ x) p). now rewrite E, app_assoc. Qed.
Lemma ends_none ts : ends_ok ts -> ntok ts = [] -> ts = [].
Proof.
  intros He Hn. destruct ts as [|q ts]; [reflexivity|].
  assert (N : q :: ts <> []) by discriminate. destruct (exists_last N) as (a & p & E). rewrite E in *.
  specialize (He a p eq_refl). rewrite ntok_app in Hn. cbn [ntok filter] in Hn. rewrite He in Hn.
  exfalso. now apply app_eq_nil in Hn as [_ Hn].
Qed.
Lemma split_at ts : forall A B, ntok ts = A ++ B ->
  exists x y, ts = x ++ y /\ ntok x = A /\ ntok y = B /\ ends_ok x.
Proof.
  induction ts as [|p ts IH]; intros A B H.
  - symmetry in H. apply app_eq_nil in H as [-> ->]. exists [], []. repeat split. intros a q E. destruct a; discriminate.
  - destruct A as [|q A].
    + exists [], (p :: ts). repeat split; [exact H|]. intros a q E. destruct a; discriminate.
    + cbn [ntok filter] in H. destruct (solid p) eqn:Ep.
      * injection H as -> H. destruct (IH A B H) as (x & y & -> & Hx & Hy & He).
        exists (q :: x), y. cbn [ntok filter]. rewrite Ep. unfold ntok in Hx. rewrite Hx. repeat split; auto.
        intros a r E. destruct a as [|a0 a]; [injection E as -> ->; exact Ep|]. injection E as -> E. now apply (He a).
      * destruct (IH (q :: A) B H) as (x & y & -> & Hx & Hy & He).
        exists (p :: x), y. cbn [ntok filter]. rewrite Ep. repeat split; auto.
        intros a r E. destruct a as [|a0 a]; [|injection E as -> E; now apply (He a)].
        injection E as -> ->. discriminate Hx.
Qed.
Definition tok (p : kind * text) : green := Tok (fst p) (snd p).
Lemma tokens_map ts : gtokenss (map tok ts) = ts.
Proof. induction ts as [|[k t] ts IH]; [reflexivity|]. cbn [map]. change (gtokenss (tok (k, t) :: map tok ts)) with ((k, t) :: gtokenss (map tok ts)). now rewrite IH. Qed.
Lemma trivia_map ts : ntok ts = [] -> SpecComplete.Trivia (map tok ts).
Proof.
  induction ts as [|[k t] ts IH]; [constructor|]. cbn [ntok filter]. destruct (solid (k, t)) eqn:E; [discriminate|].
  intros H. constructor; [|now apply IH]. unfold solid in E. cbn [fst] in E. now apply negb_false_iff in E.
Qed.
(** The leading trivia. *)
Lemma split_front ts : exists x y, ts = x ++ y /\ ntok x = [] /\ (y = [] \/ exists p r, y = p :: r /\ solid p = true).
Proof.
  induction ts as [|p ts (x & y & -> & Hx & Hy)]; [exists [], []; auto|].
  destruct (solid p) eqn:E; [exists [], (p :: x ++ y); repeat split; auto; right; eauto|].
  exists (p :: x), y. cbn [ntok filter]. rewrite E. auto.
Qed.

Definition core (l : list green) : list green := filter significant (map bare l).
Lemma core_app a b : core (a ++ b) = core a ++ core b.
Proof. unfold core. now rewrite map_app, filter_app. Qed.
Lemma core_trivia l : SpecComplete.Trivia l -> core l = [].
Proof.
  induction 1 as [|[k t|k cs] l Hg _ IH]; [reflexivity| |contradiction]. unfold core in *. cbn [map bare filter significant].
  now rewrite Hg.
Qed.
Lemma trivia_ntok l : SpecComplete.Trivia l -> ntok (gtokenss l) = [].
Proof.
  induction 1 as [|[k t|k cs] l Hg _ IH]; [reflexivity| |contradiction].
  change (gtokenss (Tok k t :: l)) with ((k, t) :: gtokenss l). cbn [ntok filter]. unfold solid at 1. cbn [fst].
  now rewrite Hg.
Qed.
Lemma gtokenss_one k cs : gtokenss [Node k cs] = gtokenss cs.
Proof. unfold gtokenss at 1. cbn [map concat gtokens]. apply app_nil_r. Qed.

Lemma respace e l : SpecComplete.Reads e l ->
  forall ts, ntok ts = ntok (gtokenss l) -> ends_ok ts ->
  exists l', SpecComplete.Reads e l' /\ gtokenss l' = ts /\ core l' = core l.
Proof.
  assert (Tk : forall tr k t ts, SpecComplete.Trivia tr -> is_trivia_kind k = false ->
    ntok ts = ntok (gtokenss (tr ++ [Tok k t])) -> ends_ok ts ->
    exists tr', SpecComplete.Trivia tr' /\ gtokenss (tr' ++ [Tok k t]) = ts
      /\ core (tr' ++ [Tok k t]) = core (tr ++ [Tok k t])).
  { intros tr k t ts Ht Hk Hn He. rewrite gtokenss_app, ntok_app, trivia_ntok in Hn by exact Ht. cbn [app] in Hn.
    change (gtokenss [Tok k t]) with [(k, t)] in Hn.
    assert (Hone : ntok [(k, t)] = [(k, t)]) by (unfold ntok, solid; cbn [filter fst]; now rewrite Hk).
    rewrite Hone in Hn. clear Hone.
    destruct (split_front ts) as (x & y & -> & Hx & [->|(p & r & -> & Hp)]).
    - rewrite app_nil_r in Hn. rewrite Hn in Hx. discriminate.
    - rewrite ntok_app, Hx in Hn. cbn [app ntok filter] in Hn. rewrite Hp in Hn. injection Hn as -> Hr.
      assert (r = []) as ->.
      { apply ends_none; [|exact Hr]. apply (ends_suffix (x ++ [(k, t)])). now rewrite <- app_assoc. }
      exists (map tok x). split; [now apply trivia_map|]. split.
      + rewrite gtokenss_app, tokens_map. reflexivity.
      + rewrite !core_app, (core_trivia tr Ht), core_trivia by now apply trivia_map. reflexivity. }
  induction 1 as [s tr Ht|k t tr Ht Hk|b t tr Ht Hb|k e cs tr Ht _ IH Htight|k e cs _ IH|i l _ IH| |a b l m _ IHa _ IHb
    |a b l _ IH|a b l _ IH|a|a l m _ IHa _ IHb]; intros ts Hn He.
  - destruct (Tk _ _ _ _ Ht (eq_refl : is_trivia_kind KEYWORD = false) Hn He) as (tr' & A & B & C).
    exists (tr' ++ [Tok KEYWORD (T s)]). split; [now apply SpecComplete.R_Kw|auto].
  - destruct (Tk _ _ _ _ Ht Hk Hn He) as (tr' & A & B & C). exists (tr' ++ [Tok k t]).
    split; [now apply SpecComplete.R_Tk|auto].
  - destruct (Tk _ _ _ _ Ht (eq_refl : is_trivia_kind FLOAT = false) Hn He) as (tr' & A & B & C).
    exists (tr' ++ [Tok FLOAT t]). split; [now apply SpecComplete.R_Float|auto].
  - rewrite gtokenss_app, ntok_app, trivia_ntok, gtokenss_one in Hn by exact Ht. cbn [app] in Hn.
    destruct (split_front ts) as (x & y & -> & Hx & Hy). rewrite ntok_app, Hx in Hn. cbn [app] in Hn.
    destruct (IH y Hn (ends_suffix _ _ He)) as (cs' & A & B & C).
    exists (map tok x ++ [Node k cs']). split; [|split].
    + apply SpecComplete.R_Nd; [now apply trivia_map|exact A|].
      destruct cs' as [|[k' t'|] cs']; try exact I. cbn [SpecComplete.Tight].
      change (gtokenss (Tok k' t' :: cs')) with ((k', t') :: gtokenss cs') in B.
      destruct Hy as [->|(p & r & -> & Hp)]; [discriminate|]. injection B as <- _. unfold solid in Hp. cbn [fst] in Hp.
      now apply negb_true_iff.
    + rewrite gtokenss_app, tokens_map, gtokenss_one. now rewrite B.
    + rewrite !core_app, (core_trivia tr Ht), core_trivia by now apply trivia_map. cbn [app]. unfold core in *. cbn [map bare filter significant].
      now rewrite C.
  - rewrite gtokenss_one in Hn. destruct (IH ts Hn He) as (cs' & A & B & C). exists [Node k cs']. split; [now constructor|].
    split; [now rewrite gtokenss_one|]. unfold core in *. cbn [map bare filter significant]. now rewrite C.
  - destruct (IH ts Hn He) as (l' & A & B & C). exists l'. split; [now constructor|auto].
  - apply ends_none in Hn; [|exact He]. subst ts. exists []. split; [constructor|auto].
  - rewrite gtokenss_app, ntok_app in Hn. destruct (split_at _ _ _ Hn) as (x & y & -> & Hx & Hy & Hex).
    destruct (IHa x Hx Hex) as (l1 & A1 & B1 & C1). destruct (IHb y Hy (ends_suffix _ _ He)) as (l2 & A2 & B2 & C2).
    exists (l1 ++ l2). split; [now constructor|]. rewrite gtokenss_app, !core_app. split; congruence.
  - destruct (IH ts Hn He) as (l' & A & B & C). exists l'. split; [now apply SpecComplete.R_OrL|auto].
  - destruct (IH ts Hn He) as (l' & A & B & C). exists l'. split; [now apply SpecComplete.R_OrR|auto].
  - apply ends_none in Hn; [|exact He]. subst ts. exists []. split; [constructor|auto].
  - rewrite gtokenss_app, ntok_app in Hn. destruct (split_at _ _ _ Hn) as (x & y & -> & Hx & Hy & Hex).
    destruct (IHa x Hx Hex) as (l1 & A1 & B1 & C1). destruct (IHb y Hy (ends_suffix _ _ He)) as (l2 & A2 & B2 & C2).
    exists (l1 ++ l2). split; [now constructor|]. rewrite gtokenss_app, !core_app. split; congruence.
Qed.

Theorem respace_document tree ts :
  SpecComplete.Document tree -> ntok ts = ntok (gtokens tree) -> SpecComplete.Separated ts ->
  exists tree', SpecComplete.Document tree' /\ gtokens tree' = ts /\ bare tree' = bare tree.
Proof.
  intros (ms & tl & -> & Hr & Ht & _) Hn Hs.
  change (gtokens (Node ROOT (ms ++ tl))) with (gtokenss (ms ++ tl)) in Hn.
  rewrite gtokenss_app, ntok_app, (trivia_ntok tl Ht) in Hn. destruct (split_at _ _ _ Hn) as (x & y & -> & Hx & Hy & He).
  destruct (respace _ _ Hr x Hx He) as (ms' & A & B & C).
  assert (G : gtokens (Node ROOT (ms' ++ map tok y)) = x ++ y).
  { change (gtokens (Node ROOT (ms' ++ map tok y))) with (gtokenss (ms' ++ map tok y)).
    now rewrite gtokenss_app, tokens_map, B. }
  exists (Node ROOT (ms' ++ map tok y)). split; [|split; [exact G|]].
  - exists ms', (map tok y). repeat split; auto; [now apply trivia_map|now rewrite G].
  - cbn [bare]. f_equal. change (core (ms' ++ map tok y) = core (ms ++ tl)). rewrite !core_app, C.
    rewrite (core_trivia tl Ht), (core_trivia (map tok y)) by (now apply trivia_map). reflexivity.
Qed.
