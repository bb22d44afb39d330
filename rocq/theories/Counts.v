(** How many children of one kind a node can have. *)

From Coq Require Import String List NArith Bool Arith Lia.
From Verif Require Import Text Kind Green SpecParser Lexer LexerFacts Winnow Grammar Sem Lossless Total
  Bounds Lang TokForm Shape Red Unique LineIndex Cursor Doc Ast Preorder TokKinds SymCases InstrMeta Types SpecTypes SigFacts.
Import ListNotations.

(** [None] is no bound. *)
Definition oadd (a b : option nat) : option nat := match a, b with Some x, Some y => Some (x + y) | _, _ => None end.
Definition omax (a b : option nat) : option nat := match a, b with Some x, Some y => Some (Nat.max x y) | _, _ => None end.
Definition omany (a : option nat) : option nat := match a with Some 0 => Some 0 | _ => None end.
Definition ole (n : nat) (a : option nat) : Prop := match a with Some x => n <= x | None => True end.

Section Count.
  Variable k : kind.
  Variable ci : option nat.
  (** A bound for the number of children of kind [k]; [ci] is one for
      instructions. *)
  Fixpoint cnt (g : grammar) : option nat :=
    match g with
    | GTok k' _ => Some (if kind_eqb k' k then 1 else 0)
    | GNode k' _ => Some (if kind_eqb k' k then 1 else 0)
    | GSeq a b => oadd (cnt a) (cnt b)
    | GAlt a b | GIf _ _ a b => omax (cnt a) (cnt b)
    | GTill f g => oadd (omany (cnt f)) (cnt g)
    | GRep a | GRep1 a => omany (cnt a)
    | GOpt a | GCtx _ a | GRetry a _ | GRetryOnce a _ | GMust a => cnt a
    | GInstr => ci
    | GTriv | GEmpty | GFail | GRParen => Some 0
    end.

  Definition of_kind (o : list green) : nat := length (filter (fun c => kind_eqb (gkind c) k) o).
  Lemma of_kind_app a b : of_kind (a ++ b) = of_kind a + of_kind b.
  Proof. unfold of_kind. now rewrite filter_app, app_length. Qed.

  Definition plain_kind : bool := negb (is_trivia_kind k || kind_eqb k R_PAREN || kind_eqb k ERROR).
  Hypothesis Hk : plain_kind = true.
  Lemma plain_out k' : common_kind k' -> kind_eqb k' k = false.
  Proof.
    intros H. apply not_true_iff_false. intros E. apply kind_eqb_eq in E. subst k'. unfold plain_kind in Hk.
    apply negb_true_iff in Hk. rewrite !orb_false_iff in Hk. destruct Hk as [[A B] C].
    destruct H as [H|[->| ->]]; [congruence|discriminate|discriminate].
  Qed.
  Lemma of_kind_trivia tr : Forall is_trivia_tok tr -> of_kind tr = 0.
  Proof.
    induction 1 as [|g tr H _ IH]; [reflexivity|]. unfold of_kind in *. cbn [filter].
    rewrite plain_out; [exact IH|]. left. destruct g; cbn in H; tauto.
  Qed.
  Lemma of_kind_junk j : junk j -> of_kind j = 0.
  Proof.
    intros [H _]. induction H as [|g j H _ IH]; [reflexivity|]. unfold of_kind in *. cbn [filter].
    rewrite plain_out; [exact IH|]. unfold common_kind. destruct g; cbn in H; tauto.
  Qed.

  Lemma ole_many n a : ole n (omany a) -> omany a = Some 0 -> n = 0.
  Proof. intros H E. rewrite E in H. cbn in H. lia. Qed.

  Lemma Lang_cnt ib st g o : (forall o, Lang ib st ib o -> ole (of_kind o) ci) ->
    Lang ib st g o -> ole (of_kind o) (cnt g).
  Proof.
    intros Hib. induction 1; cbn [cnt]; rewrite ?of_kind_app;
      try (rewrite of_kind_trivia by assumption); try (rewrite of_kind_junk by assumption); auto.
    - unfold of_kind. cbn [filter gkind]. destruct (kind_eqb k0 k); cbn; lia.
    - cbn. lia.
    - cbn. lia.
    - destruct (cnt a), (cnt b); cbn in *; auto. lia.
    - destruct (cnt a), (cnt b); cbn in *; auto. lia.
    - destruct (cnt a), (cnt b); cbn in *; auto. lia.
    - destruct (cnt a); cbn in *; auto. lia.
    - destruct (cnt a) as [[|?]|]; cbn in *; auto.
    - cbn [cnt] in IHLang2. destruct (cnt a) as [[|?]|]; cbn in *; auto. lia.
    - cbn [cnt] in IHLang2. destruct (cnt a) as [[|?]|]; cbn in *; auto. lia.
    - destruct (cnt f) as [[|?]|], (cnt g); cbn in *; auto.
    - cbn [cnt] in IHLang2. destruct (cnt f) as [[|?]|], (cnt g); cbn in *; auto. lia.
    - destruct (cnt a), (cnt b); cbn in *; auto. lia.
    - destruct (cnt a), (cnt b); cbn in *; auto. lia.
    - unfold of_kind. cbn [filter gkind]. destruct (kind_eqb k0 k); cbn; lia.
    - destruct (cnt a); cbn; auto. lia.
    - destruct (cnt a); cbn; auto. lia.
    - destruct (cnt a); cbn; auto. lia.
    - unfold of_kind. cbn [filter gkind length]. rewrite plain_out; [cbn; lia|]. right. now left.
    - cbn. lia.
  Qed.
End Count.

Definition ole1 (a : option nat) : bool := match a with Some x => Nat.leb x 1 | None => false end.

(** At most one child of kind [k] below nodes of kind [kp], as far as the
    grammar tells. *)
Definition at_most_one (kp k : kind) : bool :=
  plain_kind k &&
  forallb (fun r => negb (kind_eqb (fst r) kp) || ole1 (cnt k (cnt k None instr_body) (snd r))) all_rules.

Lemma length_le1 {A} (l : list A) x y : length l <= 1 -> In x l -> In y l -> x = y.
Proof. destruct l as [|a [|b l]]; cbn; intros H; try lia; intuition congruence. Qed.

Lemma at_most_one_ok src p k : InTree (tree_of src) p -> ekind p <> ROOT -> at_most_one (ekind p) k = true ->
  forall a b, In a (children_with_tokens p) -> In b (children_with_tokens p) -> ekind a = k -> ekind b = k -> a = b.
Proof.
  intros T R H a b Ha Hb Ka Kb. unfold at_most_one in H. apply andb_prop in H as [Hk Hf].
  assert (L : length (filter (fun c => kind_eqb (gkind c) k) (gchildren (el p))) <= 1).
  { pose proof (Desc_Sub _ _ T) as Hs. cbn [root_of el] in Hs. unfold ekind in *. destruct (el p) as [kp t|kp cs]; [cbn; lia|]. cbn [gchildren gkind] in *.
    destruct (parse_rules _ _ _ _ _ _ (parse_of src) Hs) as [[-> _]|(g & Hg & HL)]; [now destruct R|].
    rewrite forallb_forall in Hf. specialize (Hf _ Hg). cbn [fst snd] in Hf. rewrite kind_eqb_refl in Hf. cbn [negb orb] in Hf.
    assert (X : ole (of_kind k cs) (cnt k (cnt k None instr_body) g)).
    { apply (Lang_cnt k _ Hk instr_body false); [|exact HL]. intros o Ho. apply (Lang_cnt k None Hk instr_body false); [|exact Ho]. intros; exact I. }
    destruct (cnt k (cnt k None instr_body) g); [|discriminate]. cbn in Hf, X. apply Nat.leb_le in Hf. unfold of_kind in X. lia. }
  assert (L2 : length (filter (fun c => kind_eqb (ekind c) k) (children_with_tokens p)) <= 1).
  { assert (E : map el (filter (fun c => kind_eqb (ekind c) k) (children_with_tokens p)) = filter (fun c => kind_eqb (gkind c) k) (gchildren (el p))).
    { rewrite <- (greens_all p). generalize (children_with_tokens p). intros l. induction l as [|c l IH]; cbn [filter map]; [reflexivity|].
      change (ekind c) with (gkind (el c)). destruct (kind_eqb (gkind (el c)) k); cbn [map]; congruence. }
    rewrite <- (map_length el), E. exact L. }
  apply (length_le1 _ a b L2); apply filter_In; (split; [assumption|]); apply kind_eqb_eq; assumption.
Qed.
