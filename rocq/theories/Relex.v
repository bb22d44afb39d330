(** Reading printed pieces as tokens: if the texts of the pieces are tokens,
    the printed text is made of these tokens, kept apart, with white space
    between them. *)

From Coq Require Import String List NArith Bool Arith Lia.
From Verif Require Import Text Kind Green SpecParser SpecSyntax SpecFormat Format FmtPieces FmtNode Respace.
From Verif Require SpecComplete.
Import ListNotations.
Local Open Scope list_scope.

(** The class of a token's text, by kind. *)
Definition kcls (k : kind) : cls :=
  match k with
  | STRING => KStr | L_PAREN => KOpen | R_PAREN => KClose | LINE_COMMENT => KLine | BLOCK_COMMENT => KBlock
  | _ => KAtom
  end.
Lemma token_cls k t : SpecComplete.TokenForm k t -> k <> WHITESPACE -> cls_of t = kcls k.
Proof.
  intros [H Hx] Hw.
  assert (A : Atoms t /\ t <> [] -> cls_of t = KAtom) by (intros [A1 A2]; now apply atoms_lex).
  destruct k; cbn [LexForm] in H; cbn [kcls]; try contradiction; try congruence;
    try (apply A; revert H; apply oneof_atoms; reflexivity).
  - destruct H as (r & -> & _). reflexivity.
  - destruct H as (r & -> & _). reflexivity.
  - subst t. reflexivity.
  - subst t. reflexivity.
  - apply A. now apply word_atoms.
  - apply A. destruct H as (r & -> & _ & Hr). split; [|discriminate]. constructor; [reflexivity|].
    eapply Forall_impl; [|exact Hr]. exact id_atom.
  - destruct Hx as (b & Hb & ->). reflexivity.
  - apply A. split.
    + apply (fun A B => cat_atoms _ _ _ A B H); [exact sign_atoms| ]. intros a Ha. apply (uint_atoms _ Ha).
    + apply (fun A => cat_ne _ _ _ A H). intros a Ha. apply (uint_atoms _ Ha).
  - apply A. now apply uint_atoms.
  - apply A. now apply float_atoms.
  - apply A. destruct H as (n & [->| ->] & Hn); apply uint_atoms in Hn as [Hn _]; (split; [|discriminate]);
      (apply atoms_app; [repeat constructor|exact Hn]).
Qed.

Definition visible (p : kind * text) : bool := negb (kind_eqb (fst p) WHITESPACE).
Lemma kind_refl k : kind_eqb k k = true.
Proof. now apply kind_eqb_eq. Qed.

Lemma token_lexok k t : SpecComplete.TokenForm k t -> k <> WHITESPACE -> LexOK t.
Proof.
  intros Hf Hk. pose proof (token_cls _ _ Hf Hk) as Hc. destruct (is_trivia_kind k) eqn:Et.
  - unfold LexOK. rewrite Hc. destruct Hf as [Hf _].
    destruct k; try discriminate Et; [congruence|exact Hf|exact Hf].
  - destruct Hf as [Hf Hy]. apply (token_lex k t); auto; [intros ->; exact Hy|intros ->; exact Hy].
Qed.
Lemma lexok_first t : LexOK t -> exists c r, t = c :: r /\ is_blank c = false.
Proof.
  intros H. destruct t as [|c r]; [exfalso; now apply (LexOK_ne [])|]. exists c, r. split; [reflexivity|].
  unfold LexOK, cls_of in H.
  destruct (N.eqb_spec c c_quote) as [->|]; [reflexivity|]. destruct (N.eqb_spec c c_rparen) as [->|]; [reflexivity|].
  destruct (N.eqb_spec c c_semi) as [->|]; [reflexivity|]. destruct (N.eqb_spec c c_lparen) as [->|]; [reflexivity|].
  destruct H as [_ H]. inversion H as [|? ? Hd _]; subst. unfold is_atom in Hd. apply negb_true_iff in Hd.
  apply orb_false_elim in Hd as [Hd _]. apply orb_false_elim in Hd as [Hd _]. apply orb_false_elim in Hd as [Hd _].
  now apply orb_false_elim in Hd as [Hd _].
Qed.

(** White space in front. *)
Lemma add_blank w ts x : w <> [] -> blankt w -> SpecComplete.texts ts = x -> SpecComplete.Separated ts ->
  exists ts', SpecComplete.texts ts' = w ++ x /\ filter visible ts' = filter visible ts /\ SpecComplete.Separated ts'.
Proof.
  intros Hw Hb Hx Hs.
  assert (Bl : Forall (fun c => In c (T " " ++ [c_tab; c_lf; c_cr])) w).
  { eapply Forall_impl; [|exact Hb]. intros c Hc. unfold is_blank in Hc.
    apply orb_prop in Hc as [Hc|Hc]; [apply orb_prop in Hc as [Hc|Hc]; [apply orb_prop in Hc as [Hc|Hc]|]|];
      apply N.eqb_eq in Hc; subst c; cbn; tauto. }
  destruct ts as [|[k t] ts].
  - exists [(WHITESPACE, w)]. split; [|split; [reflexivity|]].
    + subst x. unfold SpecComplete.texts. reflexivity.
    + split; [split; [split; assumption|exact I]|]. split; [|exact I]. intros c y E. discriminate.
  - destruct (kind_eqb k WHITESPACE) eqn:Ek.
    + apply kind_eqb_eq in Ek. subst k. destruct Hs as (((Hn & Hf) & _) & Hl & Hs).
      exists ((WHITESPACE, w ++ t) :: ts). split; [|split; [reflexivity|]].
      * subst x. unfold SpecComplete.texts. cbn [map snd concat]. now rewrite app_assoc.
      * split; [|split; [exact Hl|exact Hs]]. split; [|exact I]. split; [now destruct w|]. now apply Forall_app.
    + exists ((WHITESPACE, w) :: (k, t) :: ts). split; [|split; [reflexivity|]].
      * subst x. reflexivity.
      * split; [split; [split; assumption|exact I]|]. split; [|exact Hs].
        destruct Hs as (Hf & _). assert (Hk : k <> WHITESPACE) by (intros ->; now rewrite kind_refl in Ek).
        intros c y E. unfold SpecComplete.texts in E. cbn [map snd concat] in E.
        destruct (lexok_first t (token_lexok _ _ Hf Hk)) as (d & r & -> & B). injection E as -> _.
        intros Hin. assert (is_blank c = true); [|congruence].
        cbn in Hin. unfold is_blank. destruct Hin as [<-|[<-|[<-|[<-|[]]]]]; reflexivity.
Qed.

(** A token in front. *)
Lemma follows_ok k t l x : SpecComplete.TokenForm k t -> k <> WHITESPACE ->
  adj t l -> okp l -> Rend l x -> SpecComplete.Follows k x.
Proof.
  intros Hf Hk Ha Ho Hr. pose proof (token_cls _ _ Hf Hk) as Hc. pose proof (rend_first _ _ Ho Hr) as Hx.
  assert (W : kcls k = KAtom -> forall c y, x = c :: y -> is_id_char c = false).
  { intros Hk' c y ->. rewrite Hk' in Hc. destruct (is_id_char c) eqn:E; [|reflexivity]. exfalso. apply id_atom in E.
    destruct l as [|[u| |] l]; cbn [first_ok adj] in *.
    - discriminate.
    - destruct Hx as (d & r & E1 & Hx). injection E1 as <- <-. destruct Ha as (_ & Ha & _). specialize (Ha Hc).
      destruct (cls_of u); try congruence; try (destruct Hx; congruence). subst c. discriminate E.
    - destruct Hx as (d & r & E1 & Hx). injection E1 as <- <-. unfold is_atom in E. rewrite Hx in E. discriminate.
    - destruct Hx as (d & r & E1 & Hx). injection E1 as <- <-. destruct Hx as [<-|[<-|[]]]; discriminate E. }
  destruct k; try (exact (W eq_refl)); try exact I; [congruence| |].
  - (* line comment *)
    cbn [kcls] in Hc. cbn [SpecComplete.Follows]. destruct Hr as [|u l x Hr|w l x H1 H2 Hr|c w l x H1 H2 H3 Hr].
    + now left.
    + exfalso. now destruct Ha as [Ha _].
    + exfalso. now apply Ha.
    + right. destruct H1 as [<-|[<-|[]]]; [left; now exists (w ++ x)|].
      right. destruct (H2 eq_refl) as (r & ->). now exists (r ++ x).
  - (* opening parenthesis *)
    cbn [kcls] in Hc. intros (r & E). subst x. cbn [app] in Hx.
    destruct l as [|[u| |] l]; cbn [first_ok adj] in *.
    + discriminate.
    + destruct Hx as (d & y & E1 & Hx). injection E1 as <- <-. destruct Ha as (_ & _ & Ha). specialize (Ha Hc).
      destruct (cls_of u); try (discriminate Hx); try congruence; destruct Hx as [_ Hx]; now apply Hx.
    + destruct Hx as (d & y & E1 & Hx). injection E1 as <- <-. discriminate.
    + destruct Hx as (d & y & E1 & Hx). injection E1 as <- <-. destruct Hx as [Hx|[Hx|[]]]; discriminate.
Qed.

Theorem relex l x : okp l -> Rend l x -> forall ks, Forall2 SpecComplete.TokenForm ks (texts l) -> ~ In WHITESPACE ks ->
  exists ts, SpecComplete.texts ts = x /\ filter visible ts = combine ks (texts l) /\ SpecComplete.Separated ts.
Proof.
  intros Ho Hr. induction Hr as [|t l x Hr IH|w l x Hw Hb Hr IH|c w l x H1 H2 H3 Hr IH]; intros ks Hks Hn.
  - inversion Hks; subst. exists []. repeat split.
  - cbn [texts] in *. inversion Hks as [|k ? ks' ? Hf Hks']; subst. destruct Ho as (_ & Ha & Ho).
    destruct (IH Ho ks' Hks') as (ts & E1 & E2 & E3); [intros H; apply Hn; now right|].
    assert (Hk : k <> WHITESPACE) by (intros ->; apply Hn; now left).
    exists ((k, t) :: ts). split; [|split].
    + unfold SpecComplete.texts in *. cbn [map snd concat]. now rewrite E1.
    + cbn [filter combine]. unfold visible at 1. cbn [fst].
      destruct (kind_eqb k WHITESPACE) eqn:Ek; [apply kind_eqb_eq in Ek; contradiction|]. cbn [negb]. now rewrite E2.
    + split; [exact Hf|]. split; [|exact E3]. rewrite E1. now apply follows_ok with t l.
  - cbn [texts] in *. destruct (IH Ho ks Hks Hn) as (ts & E1 & E2 & E3).
    destruct (add_blank w ts x Hw Hb E1 E3) as (ts' & A & B & C). exists ts'. split; [exact A|]. split; [congruence|exact C].
  - cbn [texts] in *. destruct (IH Ho ks Hks Hn) as (ts & E1 & E2 & E3).
    assert (Hb : blankt (c :: w)) by (constructor; [destruct H1 as [<-|[<-|[]]]; reflexivity|exact H3]).
    destruct (add_blank (c :: w) ts x ltac:(discriminate) Hb E1 E3) as (ts' & A & B & C).
    exists ts'. split; [exact A|]. split; [congruence|exact C].
Qed.
