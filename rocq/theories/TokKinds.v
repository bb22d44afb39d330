(** Which kinds of tokens occur as children of which kinds of nodes. *)

From Coq Require Import String List NArith Bool Arith Lia.
From Verif Require Import Text Kind Green SpecParser Lexer LexerFacts Winnow Grammar Sem Lossless Total
  Bounds Lang TokForm Shape Red Unique LineIndex Cursor Doc Ast Preorder.
Import ListNotations.

(** Kinds of direct token children, apart from trivia, closing parentheses
    and error tokens. *)
Fixpoint tkinds (g : grammar) : list kind :=
  match g with
  | GTok k _ => [k]
  | GSeq a b | GAlt a b | GIf _ _ a b | GTill a b => tkinds a ++ tkinds b
  | GOpt a | GRep a | GRep1 a | GCtx _ a | GRetry a _ | GRetryOnce a _ | GMust a => tkinds a
  | GNode _ _ | GInstr | GTriv | GEmpty | GFail | GRParen => []
  end.
Definition common_kind (k : kind) : Prop := is_trivia_kind k = true \/ k = R_PAREN \/ k = ERROR.

Lemma trivia_common tr k t : Forall is_trivia_tok tr -> In (Tok k t) tr -> common_kind k.
Proof. intros H Hin. rewrite Forall_forall in H. destruct (H _ Hin) as (E & _). now left. Qed.
Lemma junk_common j k t : junk j -> In (Tok k t) j -> common_kind k.
Proof.
  intros [H _] Hin. rewrite Forall_forall in H. destruct (H _ Hin) as [(E & _)|(E & _)]; [now left|right; right; exact E].
Qed.

Lemma Lang_tkinds ib st g o k t : tkinds ib = [] ->
  Lang ib st g o -> In (Tok k t) o -> In k (tkinds g) \/ common_kind k.
Proof.
  intros Hib. induction 1; cbn [tkinds]; intros Hin; rewrite ?in_app_iff in *;
    try (match type of Hin with _ \/ _ => destruct Hin as [Hin|Hin] end);
    try (right; eapply trivia_common; eassumption);
    try (right; eapply junk_common; eassumption);
    try (exfalso; exact Hin); try tauto.
  - destruct Hin as [Hin|[]]. injection Hin as <- _. left. now left.
  - destruct (IHLang2 Hin) as [X|X]; [|tauto]. apply in_app_or in X. tauto.
  - destruct Hin as [Hin|[]]; discriminate.
  - destruct Hin as [Hin|[]]. injection Hin as <- _. right. unfold common_kind. tauto.
  - rewrite Hib in *. cbn in *. tauto.
Qed.

Lemma ib_tkinds : tkinds instr_body = [].
Proof. reflexivity. Qed.

Definition tok_edges : list (kind * kind) :=
  Eval vm_compute in flat_map (fun r => map (pair (fst r)) (tkinds (snd r))) all_rules.
Definition tokens_of_kind (k : kind) : list kind := map snd (filter (fun e => kind_eqb (fst e) k) tok_edges).

Lemma token_kind src p c : InTree (tree_of src) p -> In c (children_with_tokens p) -> is_node c = false -> ekind p <> ROOT ->
  In (ekind c) (tokens_of_kind (ekind p)) \/ common_kind (ekind c).
Proof.
  intros Hp Hc Hn Hr. pose proof (Desc_Sub _ _ Hp) as Hs. cbn [root_of el] in Hs.
  apply child_in in Hc as (l & g & r & Heq & ->). unfold ekind in *. cbn [el] in *.
  destruct g as [k t|k cs']; [|discriminate]. clear Hn.
  destruct (el p) as [kp t'|kp cs]; [destruct l; discriminate|]. cbn [gchildren gkind] in *.
  assert (Hin : In (Tok k t) cs) by (rewrite Heq; apply in_elt).
  destruct (parse_rules _ _ _ _ _ _ (parse_of src) Hs) as [[-> _]|(a & Ha & HL)]; [now destruct Hr|].
  destruct (Lang_tkinds _ _ _ _ _ _ ib_tkinds HL Hin) as [H|H]; [left|now right].
  assert (Hx : In (kp, k) tok_edges).
  { assert (E : tok_edges = flat_map (fun r => map (pair (fst r)) (tkinds (snd r))) all_rules) by (vm_compute; reflexivity).
    rewrite E. apply in_flat_map. exists (kp, a). split; [exact Ha|]. cbn [fst snd]. now apply in_map. }
  unfold tokens_of_kind. apply in_map_iff. exists (kp, k). split; [reflexivity|].
  apply filter_In. split; [exact Hx|]. cbn. now apply kind_eqb_eq.
Qed.

Lemma no_token src p k : InTree (tree_of src) p -> ekind p <> ROOT ->
  existsb (kind_eqb k) (tokens_of_kind (ekind p)) = false ->
  is_trivia_kind k || kind_eqb k R_PAREN || kind_eqb k ERROR = false -> token p k = None.
Proof.
  intros T R H C. destruct (token p k) as [t|] eqn:E; [|reflexivity]. exfalso.
  apply token_some in E as (Hc & Hn & Hk). destruct (token_kind src p t T Hc Hn R) as [X|X].
  - rewrite Hk in X. apply not_true_iff_false in H. apply H. apply existsb_exists. exists k. split; [exact X|]. now apply kind_eqb_eq.
  - rewrite Hk in X. rewrite !orb_false_iff in C. destruct C as [[C1 C2] C3]. destruct X as [X|[->| ->]]; try discriminate. congruence.
Qed.
