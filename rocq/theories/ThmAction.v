(** Property C31: code actions. *)

From Coq Require Import String List NArith Bool Arith Lia.
From Verif Require Import Text Kind Green SpecParser Lexer LexerFacts Winnow Grammar Sem Lossless Total
  Bounds Lang TokForm Shape ThmParser Red Unique LineIndex ThmTree Cursor ThmPos Doc Ast Binder Preorder
  SpecBinder BinderFacts BinderDefs Blocks Nav NavSpec NavFacts SymCases TokKinds InstrMeta Types Check
  CheckFacts SpecTypes SigFacts Counts.
From Verif Require Import Action SpecAction.
Import ListNotations.

(** ** The nodes visited *)

Lemma kids_before p po us i o cs l c r :
  kids p po us i o cs = l ++ c :: r -> forall x, In x l -> eend x <= estart c.
Proof.
  revert i o l. induction cs as [|g cs IH]; intros i o l; cbn [kids].
  - destruct l; discriminate.
  - intros H x Hx. destruct l as [|y l]; [destruct Hx|]. injection H as <- H.
    destruct Hx as [<-|Hx]; [|exact (IH _ _ _ H x Hx)].
    assert (Hc : In c (kids p po us (S i) (o + glen g) cs)) by (rewrite H; apply in_elt).
    apply kids_in in Hc as (l' & g' & r' & _ & ->). unfold eend, estart. cbn. lia.
Qed.
Lemma children_before n l c r :
  children_with_tokens n = l ++ c :: r -> forall x, In x l -> eend x <= estart c.
Proof. apply kids_before. Qed.

Lemma count_before_app a l r :
  (forall x, In x l -> eend x <= a) -> count_before a (l ++ r) = length l + count_before a r.
Proof.
  induction l as [|x l IH]; intros H; [reflexivity|]. cbn [app count_before length].
  unfold before_range at 1. destruct (Nat.leb_spec (eend x) a) as [_|L].
  - rewrite IH; [reflexivity|]. intros y Hy. apply H. now right.
  - specialize (H x (or_introl eq_refl)). lia.
Qed.

(** The range is inside, and not an empty one at an end. *)
Definition Within (a b : nat) (n : elem) : Prop :=
  Encloses n a b /\ (a < b \/ estart n < a /\ b < eend n).

Lemma child_at_range_found n c a b : a <= b -> In c (children_with_tokens n) -> Within a b c ->
  child_at_range n a b = Some c.
Proof.
  intros Hab Hc [[H1 H2] H3]. apply in_split in Hc as (l & r & E).
  pose proof (children_before _ _ _ _ E) as B. unfold child_at_range, child_index. rewrite E.
  rewrite count_before_app by (intros x Hx; specialize (B x Hx); lia).
  cbn [count_before]. unfold before_range. destruct (Nat.leb_spec (eend c) a) as [L|_]; [lia|].
  assert (X : nth_error (l ++ c :: r) (length l) = Some c)
    by (rewrite nth_error_app2, Nat.sub_diag by lia; reflexivity).
  rewrite Nat.add_0_r, X. destruct (Nat.ltb_spec (estart c) b) as [_|L]; [|lia]. rewrite X.
  unfold contains_range. destruct (Nat.leb_spec (estart c) a); [|lia]. destruct (Nat.leb_spec b (eend c)); [|lia].
  reflexivity.
Qed.
Lemma child_at_range_sound n c a b : child_at_range n a b = Some c ->
  In c (children_with_tokens n) /\ Encloses c a b.
Proof.
  unfold child_at_range. destruct (nth_error _ _) as [x|] eqn:E; [|discriminate].
  destruct (contains_range x a b) eqn:C; [|discriminate]. intros H. injection H as ->.
  split; [now apply nth_error_In in E|]. unfold contains_range in C. apply andb_prop in C as [C1 C2].
  split; now apply Nat.leb_le.
Qed.

Lemma visited_sound f : forall n a b x, In x (visited f n a b) -> Desc n x /\ x <> n /\ is_node x = true /\ Encloses x a b.
Proof.
  induction f as [|f IH]; intros n a b x; cbn [visited]; [intros []|].
  destruct (child_at_range n a b) as [c|] eqn:E; [|intros []].
  apply child_at_range_sound in E as [Hc He]. destruct (is_node c) eqn:N; [|intros []].
  assert (D : Desc n c) by (econstructor; [constructor|exact Hc]).
  assert (U : length (ups c) = S (length (ups n))).
  { apply child_in in Hc as (l & g & r & _ & ->). reflexivity. }
  assert (G : forall y z, Desc y z -> length (ups y) <= length (ups z)).
  { intros y z H. induction H as [|p q H IH' Hq]; [lia|]. apply child_in in Hq as (l & g & r & _ & ->). cbn. lia. }
  intros [<-|H].
  - repeat split; [exact D|intros ->; lia|exact N|apply He|apply He].
  - destruct (IH _ _ _ _ H) as (H1 & H2 & H3 & H4). repeat split; [now apply Desc_trans with c| |exact H3|apply H4|apply H4].
    intros ->. apply G in H1. lia.
Qed.

Lemma gsize_child c k cs : In c cs -> gsize c < gsize (Node k cs).
Proof.
  intros H. cbn [gsize]. induction cs as [|x cs IH]; [destruct H|]. cbn [map list_sum fold_right].
  unfold list_sum in IH. destruct H as [->|H]; [lia|]. specialize (IH H). unfold list_sum. cbn. lia.
Qed.
Lemma visited_complete f : forall n a b x, gsize (el n) <= f -> a <= b -> Desc n x -> x <> n ->
  is_node x = true -> Within a b x -> In x (visited f n a b).
Proof.
  induction f as [|f IH]; intros n a b x F Hab D Hx N W.
  - destruct (el n); cbn in F; lia.
  - apply Desc_top in D as [->|(c & Hc & D)]; [now destruct Hx|]. cbn [visited].
    assert (Wc : Within a b c).
    { destruct (Desc_range _ _ D) as [R1 R2]. destruct W as [[W1 W2] W3]. split; [split; lia|].
      destruct W3 as [?|[? ?]]; [now left|right; lia]. }
    rewrite (child_at_range_found _ _ _ _ Hab Hc Wc).
    assert (S : gsize (el c) < gsize (el n) /\ is_node n = true).
    { apply child_in in Hc as (l & g & r & E & ->). unfold is_node. destruct (el n) as [k t|k cs]; [destruct l; discriminate|].
      cbn [gchildren] in E. split; [|reflexivity]. cbn [el]. apply gsize_child. rewrite E. apply in_elt. }
    destruct S as [S _].
    assert (Nc : is_node c = true).
    { apply Desc_top in D as [->|(d & Hd & _)]; [exact N|].
      apply child_in in Hd as (l & g & r & E & _). unfold is_node. destruct (el c); [destruct l; discriminate|reflexivity]. }
    rewrite Nc.
    destruct (Nat.eq_dec (length (ups x)) (length (ups c))) as [L|L].
    + left. apply Desc_top in D as [->|(d & Hd & D)]; [reflexivity|].
      assert (G : forall y z, Desc y z -> length (ups y) <= length (ups z)).
      { intros y z H. induction H as [|p q H IH' Hq]; [lia|]. apply child_in in Hq as (l & g & r & _ & ->). cbn. lia. }
      apply G in D. apply child_in in Hd as (l & g & r & _ & ->). cbn in D. lia.
    + right. apply IH; [lia|exact Hab|exact D| |exact N|exact W]. intros ->. now apply L.
Qed.

(** ** The actions of a node *)

Lemma val_types_childs n : val_types n = childs n VAL_TYPE.
Proof. reflexivity. Qed.

Lemma split_text_spaced kw first rest :
  split_text kw first rest
  = spaced (map (fun ty => Text.T "(" ++ kw ++ Text.T " " ++ etext ty ++ Text.T ")") (first :: rest)).
Proof.
  unfold split_text. cbn [map].
  assert (H : forall l acc, fold_left (fun acc ty => acc ++ Text.T " (" ++ kw ++ Text.T " " ++ etext ty ++ Text.T ")") l acc
    = match l with [] => acc | _ => acc ++ Text.T " " ++ spaced (map (fun ty => Text.T "(" ++ kw ++ Text.T " " ++ etext ty ++ Text.T ")") l) end).
  { induction l as [|x l IH]; intros acc; [reflexivity|]. cbn [fold_left map]. rewrite IH.
    change (Text.T " (") with (Text.T " " ++ Text.T "("). destruct l as [|y l].
    - cbn [map spaced]. rewrite <- !app_assoc. reflexivity.
    - cbn [map spaced]. rewrite <- !app_assoc. reflexivity. }
  rewrite H. destruct rest as [|y rest]; [reflexivity|]. cbn [map spaced]. reflexivity.
Qed.
Lemma join_text_spaced first rest :
  join_text first rest = Text.T "(param " ++ spaced (map etext (first :: rest)) ++ Text.T ")".
Proof.
  unfold join_text.
  assert (H : forall l acc, fold_left (fun acc ty => acc ++ Text.T " " ++ etext ty) l acc
    = match l with [] => acc | _ => acc ++ Text.T " " ++ spaced (map etext l) end).
  { induction l as [|x l IH]; intros acc; [reflexivity|]. cbn [fold_left map]. rewrite IH. destruct l as [|y l].
    - reflexivity.
    - cbn [map spaced]. rewrite <- !app_assoc. reflexivity. }
  rewrite H. destruct rest as [|y rest]; cbn [map spaced]; rewrite <- !app_assoc; reflexivity.
Qed.

Lemma joinable_iff a b c : joinable a b c = true <-> Joinable a b c.
Proof.
  unfold joinable, Joinable. rewrite !andb_true_iff, negb_true_iff, !Nat.leb_le, kind_eqb_eq.
  split.
  - intros [[K [A B]] I]. repeat split; auto. intros x Hx E.
    enough (existsb (fun x => kind_eqb (ekind x) IDENT) (children_with_tokens c) = true) by congruence.
    apply existsb_exists. exists x. split; [exact Hx|]. now apply kind_eqb_eq.
  - intros (K & A & B & I). repeat split; auto. apply not_true_iff_false. intros E.
    apply existsb_exists in E as (x & Hx & E). apply kind_eqb_eq in E. now apply (I x).
Qed.
Lemma joinable_false a b c : joinable a b c = false <-> ~ Joinable a b c.
Proof. rewrite <- joinable_iff. destruct (joinable a b c); split; congruence. Qed.

Lemma run_spec (p : elem -> bool) l :
  exists x y, l = x ++ take_while p (skip_while (fun c => negb (p c)) l) ++ y
    /\ Forall (fun c => p c = false) x
    /\ Forall (fun c => p c = true) (take_while p (skip_while (fun c => negb (p c)) l))
    /\ match y with [] => True | c :: _ => p c = false end.
Proof.
  induction l as [|c l IH]; cbn [skip_while take_while].
  - exists [], []. repeat split; constructor.
  - destruct (p c) eqn:E; cbn [negb].
    + assert (H : forall m, exists y, m = take_while p m ++ y /\ Forall (fun c => p c = true) (take_while p m)
          /\ match y with [] => True | c :: _ => p c = false end).
      { induction m as [|d m (y & H1 & H2 & H3)]; cbn [take_while]; [exists []; repeat split; constructor|].
        destruct (p d) eqn:Ed.
        - exists y. split; [cbn [app]; congruence|]. split; [now constructor|exact H3].
        - exists (d :: m). split; [reflexivity|]. split; [constructor|exact Ed]. }
      destruct (H l) as (y & H1 & H2 & H3). exists [], y. cbn [take_while]. rewrite E. cbn [app].
      split; [congruence|]. split; [constructor|]. split; [now constructor|exact H3].
    + destruct IH as (x & y & H1 & H2 & H3 & H4). exists (c :: x), y. cbn [app].
      split; [congruence|]. split; [now constructor|]. split; [exact H3|exact H4].
Qed.
Lemma run_unique (p : elem -> bool) l x ps y :
  l = x ++ ps ++ y -> Forall (fun c => p c = false) x -> Forall (fun c => p c = true) ps -> ps <> [] ->
  match y with [] => True | c :: _ => p c = false end ->
  take_while p (skip_while (fun c => negb (p c)) l) = ps.
Proof.
  intros -> Hx Hp Hn Hy. induction Hx as [|c x E _ IH]; cbn [app skip_while].
  - destruct ps as [|c ps]; [now destruct Hn|]. inversion Hp as [|? ? E Hp']; subst. cbn [app skip_while]. rewrite E. cbn [negb].
    change (c :: ps ++ y) with ((c :: ps) ++ y). revert Hp. generalize (c :: ps). intros q Hq.
    induction Hq as [|d q Ed _ IHq]; cbn [app take_while].
    + destruct y as [|d y]; [reflexivity|]. cbn [take_while]. now rewrite Hy.
    + rewrite Ed. now f_equal.
  - rewrite E. cbn [negb]. exact IH.
Qed.

Lemma is_tok_iff k c : is_tok k c = true <-> IsTok k c.
Proof. unfold is_tok, IsTok. rewrite andb_true_iff, negb_true_iff, kind_eqb_eq. reflexivity. Qed.
Lemma int_operand_iff c : int_operand c = true <-> IntOperand c.
Proof.
  unfold int_operand, IntOperand. rewrite !andb_true_iff, kind_eqb_eq. split.
  - intros [[N K] H]. split; [exact N|]. split; [exact K|]. destruct (token c INT) as [t|] eqn:E; [|discriminate].
    apply token_some in E as (A & B & C). eauto.
  - intros (N & K & t & A & B & C). repeat split; auto. destruct (token c INT) eqn:E; [reflexivity|].
    unfold token in E. apply (find_none _ _ E) in A. rewrite B, C in A. discriminate.
Qed.
Lemma eq_digits_iff c : eq_digits c = true -> IsTok ERROR c /\
  exists d, etext c = Text.T "=" ++ d /\ Forall (fun c => is_ascii_digit c = true) d.
Proof.
  unfold eq_digits. intros H. apply andb_prop in H as [H1 H2]. split; [now apply is_tok_iff|].
  destruct (etext c) as [|x r]; [discriminate|]. apply andb_prop in H2 as [H2 H3]. apply N.eqb_eq in H2 as ->.
  exists r. split; [reflexivity|]. apply Forall_forall. now apply forallb_forall.
Qed.
Lemma arg_word_in t : arg_word t = true -> In t [Text.T "offset"; Text.T "align"].
Proof. unfold arg_word. rewrite orb_true_iff, !text_eqb_eq. intros [->| ->]; cbn [In]; auto. Qed.
Lemma arg_word_eq_in t : arg_word_eq t = true -> In t [Text.T "offset="; Text.T "align="].
Proof. unfold arg_word_eq. rewrite orb_true_iff, !text_eqb_eq. intros [->| ->]; cbn [In]; auto. Qed.

Lemma mem_arg_sound n : forall l, length l <= n -> mem_arg_spaces l <> [] ->
  exists x mid y, l = x ++ mid ++ y /\ Misspelt mid (mem_arg_spaces l).
Proof.
  induction n as [|n IH]; intros l Hl H; [destruct l; [now destruct H|cbn in Hl; lia]|].
  destruct l as [|e r]; [now destruct H|]. cbn [mem_arg_spaces] in *. cbn [length] in Hl.
  assert (Skip : forall k, length k <= n -> mem_arg_spaces k <> [] -> forall p, e :: r = p ++ k ->
     exists x mid y, e :: r = x ++ mid ++ y /\ Misspelt mid (mem_arg_spaces k)).
  { intros k Hk Hne p Hp. destruct (IH k Hk Hne) as (x & mid & y & E & M). exists (p ++ x), mid, y.
    split; [|exact M]. rewrite Hp, <- app_assoc. congruence. }
  destruct (is_tok ERROR e) eqn:Ee; [|apply (Skip r ltac:(lia) H [e]); reflexivity].
  apply is_tok_iff in Ee.
  destruct (arg_word (etext e)) eqn:Ew.
  - apply arg_word_in in Ew. destruct r as [|w [|x r2]]; [now destruct H|now destruct H|]. cbn [length] in Hl.
    destruct (eq_digits x && is_tok WHITESPACE w) eqn:Ex.
    + apply andb_prop in Ex as [Ex Ws]. apply eq_digits_iff in Ex as [Ex1 Ex2]. apply is_tok_iff in Ws.
      assert (B : Misspelt [e; w; x] [w]) by (now apply Mis_before).
      destruct r2 as [|w' [|x' r3]]; [exists [], [e; w; x], []; auto|exists [], [e; w; x], [w']; auto|].
      destruct (after_eq w' x') eqn:Ea; [|exists [], [e; w; x], (w' :: x' :: r3); auto].
      unfold after_eq in Ea. apply andb_prop in Ea as [A1 A2]. apply is_tok_iff in A1. apply int_operand_iff in A2.
      exists [], [e; w; x; w'; x'], r3. split; [reflexivity|]. now apply Mis_two.
    + apply (Skip r2 ltac:(lia) H [e; w; x]). reflexivity.
  - destruct (arg_word_eq (etext e)) eqn:Eq; [|apply (Skip r ltac:(lia) H [e]); reflexivity].
    apply arg_word_eq_in in Eq. destruct r as [|w [|x r2]]; [now destruct H|now destruct H|]. cbn [length] in Hl.
    destruct (after_eq w x) eqn:Ea; [|apply (Skip r2 ltac:(lia) H [e; w; x]); reflexivity].
    unfold after_eq in Ea. apply andb_prop in Ea as [A1 A2]. apply is_tok_iff in A1. apply int_operand_iff in A2.
    exists [], [e; w; x], r2. split; [reflexivity|]. now apply Mis_after.
Qed.

(** ** What is offered *)

Section Doc.
  Variable src : text.
  Notation tree := (tree_of src).

  Lemma range_iff n r : RangeOf src n r <-> range_of src n = Ans r.
  Proof.
    unfold RangeOf, range_of, lsp_range. destruct r as [p q]. cbn [fst snd].
    split.
    - intros [-> ->]. reflexivity.
    - destruct (line_col _ (estart n)) as [x|]; [|discriminate].
      destruct (line_col _ (eend n)) as [y|]; [|discriminate]. cbn [amust]. intros H. injection H as -> ->. auto.
  Qed.

  Lemma joined_spec n a b ps : ps <> [] -> (joined n a b = ps <-> FirstRun n a b ps).
  Proof.
    intros Hn. unfold joined. split.
    - intros H. destruct (run_spec (joinable a b) (children n)) as (x & y & H1 & H2 & H3 & H4).
      rewrite H in *. exists x, y. split; [exact H1|]. split; [|split].
      + eapply Forall_impl; [|exact H2]. intros c. now apply joinable_false.
      + eapply Forall_impl; [|exact H3]. intros c. now apply joinable_iff.
      + destruct y; [exact I|]. now apply joinable_false.
    - intros (x & y & H1 & H2 & H3 & H4). apply (run_unique _ _ x ps y); auto.
      + eapply Forall_impl; [|exact H2]. intros c. now apply joinable_false.
      + eapply Forall_impl; [|exact H3]. intros c. now apply joinable_iff.
      + destruct y; [exact I|]. now apply joinable_false.
  Qed.

  Lemma split_sound n k l act w a b : InTree tree n -> w_rewrite w = true -> ekind n = k ->
    split_act src n k = Ans l -> In act l -> Offered src w a b n act.
  Proof.
    intros T W <- H Hin. unfold split_act in H. rewrite val_types_childs in H.
    destruct (childs n VAL_TYPE) as [|x [|y r]] eqn:E;
      [injection H as <-; destruct Hin|injection H as <-; destruct Hin|].
    destruct (split_keyword (ekind n)) as [[kw title]|] eqn:K; [|injection H as <-; destruct Hin].
    destruct (range_of src n) as [rg| |] eqn:R; try discriminate. injection H as <-. destruct Hin as [<-|[]].
    rewrite split_text_spaced, <- E. apply Off_split; [exact W| |rewrite E; cbn; lia|now apply range_iff].
    destruct (ekind n); try discriminate; injection K as <- <-; unfold splittable; cbn [In]; auto.
  Qed.
  Lemma split_total n k : InTree tree n -> exists l, split_act src n k = Ans l.
  Proof.
    intros T. unfold split_act. destruct (range_of_ok src n T) as (r & -> & _).
    destruct (val_types n) as [|x [|y l]]; eauto. destruct (split_keyword k) as [[? ?]|]; cbn [abind]; eauto.
  Qed.
  Lemma span_ok x y : InTree tree x -> InTree tree y ->
    exists r, lsp_range (new_line_index src) (estart x) (eend y) = Some r.
  Proof.
    intros Tx Ty. destruct (range_of_ok src x Tx) as (rx & _ & Rx & _).
    destruct (range_of_ok src y Ty) as (ry & _ & _ & Ry). unfold lsp_range. rewrite Rx, Ry. eauto.
  Qed.
  Lemma joined_in n a b c : In c (joined n a b) -> In c (children n).
  Proof.
    intros H. destruct (run_spec (joinable a b) (children n)) as (x & y & E & _). rewrite E.
    apply in_or_app. right. apply in_or_app. now left.
  Qed.
  Lemma join_total n a b : InTree tree n -> exists l, join_act src n a b = Ans l.
  Proof.
    intros T. unfold join_act. destruct (joined n a b) as [|p ps] eqn:J; [eauto|].
    destruct (flat_map val_types (p :: ps)) as [|x [|y l]]; eauto.
    assert (C : forall c, In c (p :: ps) -> InTree tree c).
    { intros c Hc. rewrite <- J in Hc. apply joined_in in Hc. now apply (in_tree_child src n). }
    destruct (span_ok p (last ps p)) as (r & ->); cbn [amust abind]; eauto.
    - apply C. now left.
    - apply C. destruct ps as [|q ps]; [now left|]. right. clear. revert q. induction ps as [|z ps IH]; intros q; [now left|].
      right. exact (IH z).
  Qed.
  Lemma join_sound n l act w a b : w_rewrite w = true -> In (ekind n) [TYPE_USE; FUNC_TYPE] ->
    join_act src n a b = Ans l -> In act l -> Offered src w a b n act.
  Proof.
    intros W K H Hin. unfold join_act in H. destruct (joined n a b) as [|p ps] eqn:J; [injection H as <-; destruct Hin|].
    destruct (flat_map val_types (p :: ps)) as [|x [|y r]] eqn:E; try (injection H as <-; destruct Hin).
    destruct (lsp_range _ _ _) as [rg|] eqn:R; try discriminate. injection H as <-. destruct Hin as [<-|[]].
    rewrite join_text_spaced, <- E.
    unfold lsp_range in R. destruct (line_col _ (estart p)) as [u|] eqn:Eu; [|discriminate].
    destruct (line_col _ (eend (last ps p))) as [v|] eqn:Ev; [|discriminate]. injection R as <-.
    apply Off_join; auto.
    - apply joined_spec; [discriminate|exact J].
    - change (2 <= length (flat_map val_types (p :: ps))). rewrite E. cbn. lia.
  Qed.

  Lemma mem_total n : InTree tree n -> exists l, mem_arg_act src n = Ans l.
  Proof.
    intros T. unfold mem_arg_act. destruct (mem_arg_spaces (children_with_tokens n)) as [|w ws] eqn:E; [eauto|].
    assert (H : exists es, map_ans (fun w => abind (range_of src w) (fun r => Ans (r, @nil char))) (w :: ws) = Ans es).
    { assert (C : forall c, In c (w :: ws) -> InTree tree c).
      { assert (Hne : mem_arg_spaces (children_with_tokens n) <> []) by (rewrite E; discriminate).
        destruct (mem_arg_sound _ _ (le_n _) Hne) as (x & mid & y & E2 & M). rewrite E in M.
        assert (Hmid : forall c, In c mid -> InTree tree c).
        { intros c Hc. econstructor; [exact T|]. rewrite E2. apply in_or_app. right. apply in_or_app. now left. }
        intros c Hc. apply Hmid. inversion M; subst; cbn [In] in *; tauto. }
      revert C. generalize (w :: ws). intros q C. induction q as [|c q IH]; [exists []; reflexivity|].
      cbn [map_ans]. destruct (range_of_ok src c (C c (or_introl eq_refl))) as (r & -> & _).
      destruct IH as (es & ->); [intros d Hd; apply C; now right|]. cbn [abind]. eauto. }
    destruct H as (es & H). rewrite H. cbn [abind]. eauto.
  Qed.
  Lemma mem_sound n l act w a b : w_quickfix w = true -> ekind n = PLAIN_INSTR ->
    mem_arg_act src n = Ans l -> In act l -> Offered src w a b n act.
  Proof.
    intros W K H Hin. unfold mem_arg_act in H.
    destruct (mem_arg_spaces (children_with_tokens n)) as [|x xs] eqn:E; [injection H as <-; destruct Hin|].
    assert (Hne : mem_arg_spaces (children_with_tokens n) <> []) by (rewrite E; discriminate).
    destruct (mem_arg_sound _ _ (le_n _) Hne) as (p & mid & y & E2 & M). rewrite E in M. clear E Hne.
    set (ws := x :: xs) in *. clearbody ws.
    destruct (map_ans _ ws) as [es| |] eqn:Es; try discriminate. injection H as <-. destruct Hin as [<-|[]].
    assert (R : exists rs, es = map (fun r => (r, [])) rs /\ Forall2 (RangeOf src) ws rs).
    { clear M. revert es Es. induction ws as [|c ws IH]; intros es Es; cbn [map_ans] in Es.
      - injection Es as <-. exists []. split; [reflexivity|constructor].
      - destruct (range_of src c) as [r| |] eqn:Er; try discriminate. cbn [abind] in Es.
        destruct (map_ans _ ws) as [es'| |]; try discriminate. injection Es as <-.
        destruct (IH es' eq_refl) as (rs & -> & F). exists (r :: rs). split; [reflexivity|].
        constructor; [now apply range_iff|exact F]. }
    destruct R as (rs & -> & F). eapply Off_fix; eauto.
  Qed.

  Lemma act_on_total w a b n : InTree tree n -> exists l, act_on src w a b n = Ans l.
  Proof.
    intros T. unfold act_on. destruct (ekind n); eauto;
      first [destruct (w_quickfix w); [now apply mem_total|eauto]
            |destruct (w_rewrite w); [first [now apply split_total|now apply join_total]|eauto]].
  Qed.
  Lemma act_on_sound w a b n l act : InTree tree n -> act_on src w a b n = Ans l -> In act l ->
    Offered src w a b n act.
  Proof.
    intros T H Hin. unfold act_on in H.
    destruct (ekind n) eqn:K; try (injection H as <-; destruct Hin);
      try (destruct (w_rewrite w) eqn:W; [|injection H as <-; destruct Hin]);
      try (destruct (w_quickfix w) eqn:W; [|injection H as <-; destruct Hin]);
      first [ solve [eapply split_sound; eauto] | solve [eapply mem_sound; eauto]
            | solve [eapply join_sound; eauto; rewrite K; cbn [In]; auto] ].
  Qed.

  (** The rewriting actions are all found. *)
  Definition Rewrite (act : action) : Prop :=
    a_title act <> Text.T "Fix invalid memory argument".
  Lemma act_on_complete w a b n act : InTree tree n -> Offered src w a b n act -> Rewrite act ->
    exists l, act_on src w a b n = Ans l /\ In act l.
  Proof.
    intros T [kw title r W K L R|p ps r W K J types L R1 R2|? ? ? ? ? ? ? ? ? ?] Hr; [| |now destruct Hr].
    - assert (S : split_act src n (ekind n) = Ans [mk_action title [(r, spaced (map (fun ty => Text.T "(" ++ kw ++ Text.T " " ++ etext ty ++ Text.T ")") (childs n VAL_TYPE)))]]).
      { unfold split_act. rewrite val_types_childs. destruct (childs n VAL_TYPE) as [|x [|y q]]; [cbn in L; lia|cbn in L; lia|].
        apply range_iff in R. rewrite R.
        replace (split_keyword (ekind n)) with (Some (kw, title)).
        - cbn [abind]. now rewrite split_text_spaced.
        - unfold splittable in K. cbn [In] in K. destruct K as [K|[K|[K|[]]]]; injection K as <- <- <-; reflexivity. }
      unfold act_on. unfold splittable in K. cbn [In] in K.
      destruct K as [K|[K|[K|[]]]]; injection K as K1 <- <-; rewrite <- K1 in *; rewrite W, S; eexists; (split; [reflexivity|now left]).
    - assert (S : join_act src n a b = Ans [mk_action (Text.T "Join parameters") [(r, Text.T "(param " ++ spaced (map etext types) ++ Text.T ")")]]).
      { unfold join_act. apply joined_spec in J; [|discriminate]. rewrite J.
        change (fun c => childs c VAL_TYPE) with val_types in types.
        unfold lsp_range. rewrite R1, R2. destruct r as [r1 r2]. cbn [fst snd amust abind].
        fold types. clearbody types. destruct types as [|x [|y q]]; [cbn in L; lia|cbn in L; lia|].
        now rewrite join_text_spaced. }
      unfold act_on. cbn [In] in K. destruct K as [K|[K|[]]]; rewrite <- K; rewrite W, S; eexists; (split; [reflexivity|now left]).
  Qed.

  Lemma map_ans_total {A B} (f : A -> ans B) l : (forall x, In x l -> exists y, f x = Ans y) ->
    exists ys, map_ans f l = Ans ys /\ Forall2 (fun x y => f x = Ans y) l ys.
  Proof.
    induction l as [|x l IH]; intros H; cbn [map_ans]; [exists []; split; [reflexivity|constructor]|].
    destruct (H x (or_introl eq_refl)) as (y & E). rewrite E.
    destruct IH as (ys & -> & F); [intros z Hz; apply H; now right|]. cbn [abind]. exists (y :: ys).
    split; [reflexivity|now constructor].
  Qed.
End Doc.

(** ** The effect of an action *)

Lemma texts_app a b : texts (a ++ b) = texts a ++ texts b.
Proof. unfold texts. now rewrite map_app, concat_app. Qed.
Lemma at_text src before old after r : src = before ++ old ++ after ->
  line_col (new_line_index src) (tlen before) = Some (fst r) ->
  line_col (new_line_index src) (tlen (before ++ old)) = Some (snd r) -> AtText r before old.
Proof.
  intros -> H1 H2. destruct r as [[l c] [l' c']]. cbn [fst snd] in *. split; cbn [fst snd].
  - destruct (posof_ex tlen before) as (x & y & P). pose proof (line_col_posof _ (old ++ after) _ _ P) as Q.
    rewrite Q in H1. injection H1 as <- <-. exact P.
  - destruct (posof_ex tlen (before ++ old)) as (x & y & P). pose proof (line_col_posof _ after _ _ P) as Q.
    rewrite <- app_assoc in Q. rewrite Q in H2. injection H2 as <- <-. exact P.
Qed.

Definition ctoks (l : list elem) : list (kind * text) := flat_map (fun c => gtokens (el c)) l.
Lemma ctoks_app a b : ctoks (a ++ b) = ctoks a ++ ctoks b.
Proof. unfold ctoks. now rewrite flat_map_app. Qed.
Lemma node_tokens n : is_node n = true -> gtokens (el n) = ctoks (children_with_tokens n).
Proof.
  intros N. unfold ctoks. rewrite flat_map_concat_map, <- (map_map el gtokens), greens_all.
  unfold is_node in N. destruct (el n); [discriminate|reflexivity].
Qed.
Lemma kids_start p po us i o cs l c r : kids p po us i o cs = l ++ c :: r -> estart c = o + tlen (texts (ctoks l)).
Proof.
  revert i o l. induction cs as [|g cs IH]; intros i o l; cbn [kids]; intros H.
  - destruct l; discriminate.
  - destruct l as [|y l].
    + injection H as <- _. cbn. lia.
    + injection H as <- H. rewrite (IH _ _ _ H). unfold ctoks. cbn [flat_map el]. rewrite texts_app, tlen_app.
      rewrite glen_tlen, gtext_tokens. unfold texts. lia.
Qed.
Lemma eend_tokens c : eend c = estart c + tlen (texts (gtokens (el c))).
Proof. unfold eend, estart. rewrite glen_tlen, gtext_tokens. reflexivity. Qed.

(** The largest number of value types among the children a grammar term
    produces when there is an identifier among them; [None] if there cannot be
    one, [Some None] if there is no bound. *)
Definition cvt : grammar -> option nat := cnt VAL_TYPE (Some 0).
Definition mjoin (a b : option (option nat)) : option (option nat) :=
  match a, b with None, x | x, None => x | Some x, Some y => Some (omax x y) end.
Fixpoint mi (g : grammar) : option (option nat) :=
  match g with
  | GTok k _ => if kind_eqb k IDENT then Some (Some 0) else None
  | GSeq a b => mjoin (option_map (fun x => oadd x (cvt b)) (mi a)) (option_map (oadd (cvt a)) (mi b))
  | GAlt a b | GIf _ _ a b => mjoin (mi a) (mi b)
  | GTill a b => match mi a, mi b with None, None => None | _, _ => Some None end
  | GRep a | GRep1 a => match mi a with None => None | _ => Some None end
  | GOpt a | GCtx _ a | GRetry a _ | GRetryOnce a _ | GMust a => mi a
  | GNode _ _ | GInstr | GTriv | GEmpty | GFail | GRParen => None
  end.
Definition has_ident (o : list green) : Prop := exists t, In (Tok IDENT t) o.
Lemma has_ident_app a b : has_ident (a ++ b) <-> has_ident a \/ has_ident b.
Proof.
  unfold has_ident. split.
  - intros (t & H). apply in_app_or in H as [H|H]; eauto.
  - intros [(t & H)|(t & H)]; exists t; apply in_or_app; auto.
Qed.
Lemma trivia_no_ident tr : Forall is_trivia_tok tr -> ~ has_ident tr.
Proof. intros H (t & Hin). apply (trivia_common _ _ _ H) in Hin. unfold common_kind in Hin. cbn in Hin. intuition discriminate. Qed.
Lemma junk_no_ident j : junk j -> ~ has_ident j.
Proof. intros H (t & Hin). apply (junk_common _ _ _ H) in Hin. unfold common_kind in Hin. cbn in Hin. intuition discriminate. Qed.
Definition mok (n : nat) (m : option (option nat)) : Prop := match m with None => False | Some x => ole n x end.
Lemma mok_l n a b : mok n a -> mok n (mjoin a b).
Proof. destruct a as [[x|]|], b as [[y|]|]; cbn; auto; try lia. Qed.
Lemma mok_r n a b : mok n b -> mok n (mjoin a b).
Proof. destruct a as [[x|]|], b as [[y|]|]; cbn; auto; try lia. Qed.

Lemma cvt_ok st g o : Lang instr_body st g o -> ole (of_kind VAL_TYPE o) (cvt g).
Proof.
  intros H. apply (Lang_cnt VAL_TYPE (Some 0) eq_refl instr_body st); [|exact H].
  intros o' H'. pose proof (Lang_cnt VAL_TYPE None eq_refl instr_body st _ _ (fun _ _ => I) H') as X.
  replace (cnt VAL_TYPE None instr_body) with (Some 0) in X by reflexivity. exact X.
Qed.
Lemma Lang_mi st g o : Lang instr_body st g o -> has_ident o -> mok (of_kind VAL_TYPE o) (mi g).
Proof.
  induction 1; cbn [mi]; intros Hi; rewrite ?has_ident_app in Hi; rewrite ?of_kind_app.
  - destruct Hi as (x & [Hi|[]]). injection Hi as -> _. cbn. lia.
  - now apply trivia_no_ident in Hi.
  - now destruct Hi.
  - pose proof (cvt_ok _ _ _ H) as C1. pose proof (cvt_ok _ _ _ H0) as C2. destruct Hi as [Hi|Hi].
    + apply mok_l. specialize (IHLang1 Hi). destruct (mi a) as [[x|]|]; cbn in *; try contradiction; auto.
      destruct (cvt b); cbn in *; auto. lia.
    + apply mok_r. specialize (IHLang2 Hi). destruct (mi b) as [[x|]|]; cbn in *; try contradiction;
        destruct (cvt a); cbn in *; auto. lia.
  - apply mok_l. auto.
  - apply mok_r. auto.
  - auto.
  - now destruct Hi.
  - now destruct Hi.
  - cbn [mi] in IHLang2. destruct Hi as [Hi|Hi].
    + specialize (IHLang1 Hi). destruct (mi a); [exact I|destruct IHLang1].
    + specialize (IHLang2 Hi). destruct (mi a); [exact I|destruct IHLang2].
  - cbn [mi] in IHLang2. destruct Hi as [Hi|Hi].
    + specialize (IHLang1 Hi). destruct (mi a); [exact I|destruct IHLang1].
    + specialize (IHLang2 Hi). destruct (mi a); [exact I|destruct IHLang2].
  - specialize (IHLang Hi). destruct (mi f), (mi g); try exact I; destruct IHLang.
  - cbn [mi] in IHLang2. destruct Hi as [Hi|Hi].
    + specialize (IHLang1 Hi). destruct (mi f); [destruct (mi g); exact I|destruct IHLang1].
    + specialize (IHLang2 Hi). destruct (mi f), (mi g); try exact I; destruct IHLang2.
  - apply mok_l. auto.
  - apply mok_r. auto.
  - destruct Hi as (x & [Hi|[]]). discriminate.
  - auto.
  - rewrite of_kind_trivia by (reflexivity || assumption). destruct Hi as [Hi|Hi]; [now apply trivia_no_ident in Hi|auto].
  - rewrite of_kind_junk by (reflexivity || assumption). destruct Hi as [Hi|Hi]; [now apply junk_no_ident in Hi|auto].
  - now apply junk_no_ident in Hi.
  - rewrite of_kind_trivia by (reflexivity || assumption). destruct Hi as [Hi|Hi]; [now apply trivia_no_ident in Hi|auto].
  - now apply junk_no_ident in Hi.
  - auto.
  - now destruct Hi.
  - destruct Hi as [Hi|(x & [Hi|[]])]; [now apply trivia_no_ident in Hi|discriminate].
  - destruct Hi as [Hi|Hi]; [now apply junk_no_ident in Hi|]. destruct (IHLang Hi).
  - now destruct Hi.
  - exfalso. specialize (IHLang Hi). replace (mi instr_body) with (@None (option nat)) in IHLang by reflexivity. exact IHLang.
Qed.
Section Effect.
  Variable src : text.
  Notation tree := (tree_of src).

  Lemma tok_split e : InTree tree e ->
    exists A C, gtokens tree = A ++ gtokens (el e) ++ C /\ estart e = tlen (texts A).
  Proof.
    induction 1 as [|p c T (A & C & H1 & H2) Hc].
    - exists [], []. rewrite app_nil_r. auto.
    - apply in_split in Hc as (l & r & E).
      assert (N : is_node p = true).
      { unfold is_node, children_with_tokens in *. destruct (el p); [destruct l; discriminate|reflexivity]. }
      rewrite (node_tokens p N), E, ctoks_app in H1. cbn [ctoks flat_map] in H1. fold (ctoks r) in H1.
      exists (A ++ ctoks l), (ctoks r ++ C). split.
      + rewrite H1, <- !app_assoc. reflexivity.
      + unfold children_with_tokens in E. rewrite (kids_start _ _ _ _ _ _ _ _ _ E), texts_app, tlen_app.
        unfold estart in H2. lia.
  Qed.
  (** The children of a node from [x] to [y]. *)
  Lemma span_split n l x m r y m' : InTree tree n ->
    children_with_tokens n = l ++ (x :: m) ++ r -> x :: m = m' ++ [y] ->
    exists A C, gtokens tree = A ++ ctoks (x :: m) ++ C
      /\ estart x = tlen (texts A) /\ eend y = tlen (texts (A ++ ctoks (x :: m))).
  Proof.
    intros T E Ey. destruct (tok_split n T) as (A & C & H1 & H2).
    assert (N : is_node n = true).
    { unfold is_node, children_with_tokens in *. destruct (el n); [destruct l; discriminate|reflexivity]. }
    rewrite (node_tokens n N), E, !ctoks_app in H1.
    assert (Sx : estart x = tlen (texts (A ++ ctoks l))).
    { pose proof E as E'. cbn [app] in E'. unfold children_with_tokens in E'.
      rewrite (kids_start _ _ _ _ _ _ _ _ _ E'), texts_app, tlen_app. unfold estart in H2. lia. }
    exists (A ++ ctoks l), (ctoks r ++ C). split; [rewrite H1, <- !app_assoc; reflexivity|]. split; [exact Sx|].
    rewrite Ey, eend_tokens.
    assert (Sy : estart y = tlen (texts (A ++ ctoks l ++ ctoks m'))).
    { pose proof E as E'. rewrite Ey, <- app_assoc in E'. cbn [app] in E'. rewrite app_assoc in E'.
      unfold children_with_tokens in E'.
      rewrite (kids_start _ _ _ _ _ _ _ _ _ E'), ctoks_app, !texts_app, !tlen_app. unfold estart in H2. lia. }
    rewrite Sy, ctoks_app, !texts_app, !tlen_app. cbn [ctoks flat_map]. rewrite app_nil_r. lia.
  Qed.

  (** One replacement. *)
  Lemma replaced A B C N d r : gtokens tree = A ++ B ++ C -> src = gtext tree ++ d ->
    line_col (new_line_index src) (tlen (texts A)) = Some (fst r) ->
    line_col (new_line_index src) (tlen (texts (A ++ B))) = Some (snd r) ->
    Applied src [(r, texts N)] (texts (A ++ N ++ C) ++ d).
  Proof.
    intros H Hs H1 H2.
    assert (E : src = texts A ++ texts B ++ texts C ++ d).
    { rewrite Hs at 1. rewrite gtext_tokens. fold (texts (gtokens tree)). rewrite H, !texts_app, <- !app_assoc. reflexivity. }
    unfold Applied. rewrite E at 1. rewrite !texts_app, <- !app_assoc.
    apply Ed_edit; [|constructor]. cbn [app]. eapply at_text; [exact E|exact H1|].
    rewrite <- texts_app. exact H2.
  Qed.

  Lemma vt_tokens v : InTree tree v -> is_node v = true -> ekind v = VAL_TYPE ->
    exists k, gtokens (el v) = [(k, etext v)] /\ kept (k, etext v) = true.
  Proof.
    unfold is_node, ekind, etext. intros T N K. pose proof (tree_part src v T) as P. unfold part in P.
    destruct (el v) as [|k cs]; [discriminate|]. cbn in K. subst k.
    destruct (val_type_node src cs P) as (k & t & x & -> & _ & H). exists k. cbn. rewrite app_nil_r.
    split; [reflexivity|]. destruct H as [[-> _]|[[-> _]|[-> _]]]; reflexivity.
  Qed.
  Lemma vts_kept l : (forall v, In v l -> InTree tree v /\ is_node v = true /\ ekind v = VAL_TYPE) ->
    filter kept (ctoks l) = ctoks l /\ map snd (ctoks l) = map etext l.
  Proof.
    induction l as [|v l IH]; intros H; [split; reflexivity|].
    destruct IH as [I1 I2]; [intros x Hx; apply H; now right|].
    destruct (H v (or_introl eq_refl)) as (T & N & K). destruct (vt_tokens v T N K) as (k & E & Kk).
    unfold ctoks in *. cbn [flat_map map]. rewrite E. cbn [app filter map]. rewrite Kk. cbn [snd].
    split; f_equal; assumption.
  Qed.

  Lemma filter_flat_map {A B} (p : B -> bool) (f : A -> list B) l :
    filter p (flat_map f l) = flat_map (fun x => filter p (f x)) l.
  Proof. induction l as [|x l IH]; cbn [flat_map filter]; [reflexivity|]. now rewrite filter_app, IH. Qed.

  Definition group_kinds : list kind := [PARAM; RESULT; LOCAL].
  Lemma kept_group n : InTree tree n -> In (ekind n) group_kinds -> is_node n = true ->
    (forall c, In c (children_with_tokens n) -> ekind c <> IDENT) ->
    filter kept (gtokens (el n)) = ctoks (childs n VAL_TYPE).
  Proof.
    intros T K N I. rewrite (node_tokens n N). unfold ctoks. rewrite filter_flat_map.
    assert (R : ekind n <> ROOT) by (intros E; rewrite E in K; cbn in K; intuition discriminate).
    assert (Hc : forall c, In c (children_with_tokens n) ->
       (is_node c = true /\ ekind c = VAL_TYPE /\ filter kept (gtokens (el c)) = gtokens (el c))
       \/ (is_node c = false /\ filter kept (gtokens (el c)) = [])).
    { intros c H. destruct (is_node c) eqn:Nc.
      - left. split; [reflexivity|].
        assert (Kc : ekind c = VAL_TYPE).
        { assert (X : In (ekind c) (children_of (ekind n))) by (apply (child_kind src n c T); now apply in_children).
          unfold group_kinds in K. cbn [In] in K. revert X. generalize (ekind c).
          destruct K as [<-|[<-|[<-|[]]]]; intros k X; vm_compute in X; intuition congruence. }
        split; [exact Kc|]. destruct (vt_tokens c) as (k & E & Kk); [econstructor; eauto|exact Nc|exact Kc|].
        rewrite E. cbn [filter]. now rewrite Kk.
      - right. split; [reflexivity|].
        assert (Kc : is_trivia_kind (ekind c) = true \/ In (ekind c) [ERROR; L_PAREN; R_PAREN; KEYWORD]).
        { destruct (token_kind src n c T H Nc R) as [X|X].
          - specialize (I c H). revert X I. generalize (ekind c). unfold group_kinds in K. cbn [In] in K.
            destruct K as [<-|[<-|[<-|[]]]]; intros k X I; vm_compute in X; cbn [In]; intuition congruence.
          - destruct X as [X|[X|X]]; [now left|right; rewrite X; cbn; auto|right; rewrite X; cbn; auto]. }
        unfold is_node, ekind in *. destruct (el c) as [k t|]; [|discriminate]. cbn [gtokens filter gkind] in *.
        unfold kept. cbn [fst]. destruct Kc as [->|Kc]; [reflexivity|].
        replace (existsb (kind_eqb k) [ERROR; L_PAREN; R_PAREN; KEYWORD]) with true; [now rewrite orb_true_r|].
        symmetry. apply existsb_exists. exists k. split; [exact Kc|apply kind_eqb_refl]. }
    unfold childs, children. revert Hc. generalize (children_with_tokens n). intros l Hc.
    induction l as [|c l IH]; [reflexivity|]. cbn [flat_map filter].
    rewrite IH by (intros x Hx; apply Hc; now right).
    destruct (Hc c (or_introl eq_refl)) as [(Nc & Kc & ->)|(Nc & ->)]; rewrite Nc; [|reflexivity].
    cbn [filter]. rewrite Kc. reflexivity.
  Qed.

  (** A named group has only one type. *)
  Lemma named_one_type n c : InTree tree n -> In (ekind n) group_kinds -> is_node n = true ->
    In c (children_with_tokens n) -> ekind c = IDENT -> length (childs n VAL_TYPE) <= 1.
  Proof.
    intros T K N Hc Ic. pose proof (Desc_Sub _ _ T) as Hs. cbn [root_of el] in Hs.
    assert (Hl : length (childs n VAL_TYPE) <= of_kind VAL_TYPE (gchildren (el n))).
    { rewrite <- (map_length el), greens_childs. unfold of_kind.
      induction (gchildren (el n)) as [|g l IH]; [reflexivity|]. cbn [filter].
      destruct (gnode g); cbn [filter]; destruct (kind_eqb (gkind g) VAL_TYPE); cbn [length]; lia. }
    enough (of_kind VAL_TYPE (gchildren (el n)) <= 1) by lia. clear Hl.
    assert (Hi : has_ident (gchildren (el n))).
    { apply child_in in Hc as (l & g & r & E & ->). unfold ekind in Ic. cbn [el] in Ic.
      destruct g as [k t|k cs]; cbn [gkind] in Ic; subst k.
      - exists t. rewrite E. apply in_elt.
      - exfalso. assert (X : In (ekind (mk_elem (Node IDENT cs) (off n + glens l) (mk_up (el n) (off n) (length l) :: ups n))) (children_of (ekind n))).
        { apply (child_kind src n _ T). apply in_children. split; [|reflexivity]. apply child_in. eauto 6. }
        unfold ekind at 1 in X. cbn [el gkind] in X. unfold group_kinds in K. cbn [In] in K.
        destruct K as [K|[K|[K|[]]]]; rewrite <- K in X; vm_compute in X; intuition discriminate. }
    unfold ekind, is_node in *. destruct (el n) as [|k cs]; [discriminate|]. cbn [gkind gchildren] in *.
    destruct (parse_rules _ _ _ _ _ _ (parse_of src) Hs) as [[-> _]|(a & Ha & HL)];
      [cbn in K; intuition discriminate|].
    pose proof (Lang_mi _ _ _ HL Hi) as M.
    assert (F : forallb (fun r => negb (existsb (kind_eqb (fst r)) group_kinds)
        || match mi (snd r) with Some (Some x) => Nat.leb x 1 | Some None => false | None => true end) all_rules = true)
      by (vm_compute; reflexivity).
    rewrite forallb_forall in F. specialize (F _ Ha). cbn [fst snd] in F.
    replace (existsb (kind_eqb k) group_kinds) with true in F.
    - cbn [negb orb] in F. destruct (mi a) as [[x|]|]; cbn in M; try contradiction; try discriminate.
      apply Nat.leb_le in F. lia.
    - symmetry. apply existsb_exists. exists k. split; [exact K|apply kind_eqb_refl].
  Qed.

  (** *** The run of groups, with what is between them *)

  Lemma filter_first {A} (f : A -> bool) X p q : filter f X = p :: q ->
    exists X0 X1, X = X0 ++ p :: X1 /\ filter f X0 = [] /\ filter f X1 = q /\ f p = true.
  Proof.
    induction X as [|x X IH]; cbn [filter]; [discriminate|]. destruct (f x) eqn:E; intros H.
    - injection H as -> H. exists [], X. auto.
    - destruct (IH H) as (X0 & X1 & -> & H0 & H1 & H2). exists (x :: X0), X1. cbn [app filter]. rewrite E. auto.
  Qed.
  Lemma last_cons {A} (q : A) l d : last (q :: l) d = last l q.
  Proof. revert q d. induction l as [|x l IH]; intros q d; [reflexivity|]. etransitivity; [exact (IH x d)|symmetry; exact (IH x q)]. Qed.
  Lemma filter_run0 {A} (f : A -> bool) ps : forall X p r, filter f X = (p :: ps) ++ r ->
    exists L m R m', X = L ++ (p :: m) ++ R /\ filter f L = [] /\ filter f (p :: m) = p :: ps
      /\ p :: m = m' ++ [last ps p].
  Proof.
    induction ps as [|q ps IH]; intros X p r H; apply filter_first in H as (X0 & X1 & -> & H0 & H1 & H2).
    - exists X0, [], X1, []. cbn [filter]. rewrite H2. auto.
    - destruct (IH X1 q r H1) as (L & m & R & m' & -> & HL & Hm & E).
      exists X0, (L ++ q :: m), R, (p :: L ++ m'). split; [|split; [exact H0|split]].
      + cbn [app]. now rewrite <- app_assoc.
      + cbn [filter]. rewrite H2, filter_app, HL. cbn [app]. now rewrite Hm.
      + rewrite E, last_cons. cbn [app]. now rewrite <- app_assoc.
  Qed.
  Lemma filter_app_inv {A} (f : A -> bool) a : forall X b, filter f X = a ++ b ->
    exists X1 X2, X = X1 ++ X2 /\ filter f X1 = a /\ filter f X2 = b.
  Proof.
    induction a as [|x a IH]; intros X b H; [exists [], X; auto|].
    cbn [app] in H. apply filter_first in H as (X0 & X1 & -> & H0 & H1 & H2).
    destruct (IH X1 b H1) as (Y1 & Y2 & -> & HY & HY2). exists (X0 ++ x :: Y1), Y2.
    split; [now rewrite <- app_assoc|]. split; [|exact HY2]. rewrite filter_app, H0. cbn [app filter]. now rewrite H2, HY.
  Qed.
  Lemma filter_run {A} (f : A -> bool) ps X l p r : filter f X = l ++ (p :: ps) ++ r ->
    exists L m R m', X = L ++ (p :: m) ++ R /\ filter f (p :: m) = p :: ps /\ p :: m = m' ++ [last ps p].
  Proof.
    intros H. apply filter_app_inv in H as (X1 & X2 & -> & _ & H).
    destruct (filter_run0 f ps X2 p r H) as (L & m & R & m' & -> & _ & Hm & E).
    exists (X1 ++ L), m, R, m'. split; [now rewrite <- app_assoc|auto].
  Qed.

  (** Nothing that is kept is among the tokens directly in a type use. *)
  Lemma type_use_token n c : InTree tree n -> In (ekind n) [TYPE_USE; FUNC_TYPE] ->
    In c (children_with_tokens n) -> is_node c = false -> filter kept (gtokens (el c)) = [].
  Proof.
    intros T K H Nc. assert (R : ekind n <> ROOT) by (intros E; rewrite E in K; cbn in K; intuition discriminate).
    assert (Kc : is_trivia_kind (ekind c) = true \/ In (ekind c) [ERROR; L_PAREN; R_PAREN; KEYWORD]).
    { destruct (token_kind src n c T H Nc R) as [X|X].
      - revert X. generalize (ekind c). cbn [In] in K.
        destruct K as [<-|[<-|[]]]; intros k X; vm_compute in X; cbn [In]; intuition congruence.
      - destruct X as [X|[X|X]]; [now left|right; rewrite X; cbn; auto|right; rewrite X; cbn; auto]. }
    unfold is_node, ekind in *. destruct (el c) as [k t|]; [|discriminate]. cbn [gtokens filter gkind] in *.
    unfold kept. cbn [fst]. destruct Kc as [->|Kc]; [reflexivity|].
    replace (existsb (kind_eqb k) [ERROR; L_PAREN; R_PAREN; KEYWORD]) with true; [now rewrite orb_true_r|].
    symmetry. apply existsb_exists. exists k. split; [exact Kc|apply kind_eqb_refl].
  Qed.

  (** *** The new tokens *)

  Definition lp_t := (L_PAREN, Text.T "(").
  Definition rp_t := (R_PAREN, Text.T ")").
  Definition sp_t := (WHITESPACE, Text.T " ").
  Fixpoint groups (kw : text) (l : list elem) : list (kind * text) :=
    match l with
    | [] => []
    | [x] => [lp_t; (KEYWORD, kw); sp_t] ++ gtokens (el x) ++ [rp_t]
    | x :: r => [lp_t; (KEYWORD, kw); sp_t] ++ gtokens (el x) ++ [rp_t; sp_t] ++ groups kw r
    end.
  Fixpoint listed (l : list elem) : list (kind * text) :=
    match l with
    | [] => []
    | [x] => gtokens (el x)
    | x :: r => gtokens (el x) ++ sp_t :: listed r
    end.
  Definition is_type (v : elem) : Prop := InTree tree v /\ is_node v = true /\ ekind v = VAL_TYPE.
  Lemma type_tokens v : is_type v -> exists k, gtokens (el v) = [(k, etext v)] /\ kept (k, etext v) = true.
  Proof. intros (T & N & K). now apply vt_tokens. Qed.

  Lemma groups_spec kw l : Forall is_type l -> In kw [Text.T "param"; Text.T "result"; Text.T "local"] ->
    texts (groups kw l) = spaced (map (fun ty => Text.T "(" ++ kw ++ Text.T " " ++ etext ty ++ Text.T ")") l)
    /\ filter kept (groups kw l) = ctoks l /\ Forall Plain (groups kw l).
  Proof.
    intros H Hkw. induction H as [|x l Hx _ (I1 & I2 & I3)]; [repeat split; constructor|].
    destruct (type_tokens x Hx) as (k & E & Kk).
    assert (P : Forall Plain ([lp_t; (KEYWORD, kw); sp_t] ++ [(k, etext x)] ++ [rp_t])).
    { assert (Pk : Plain (KEYWORD, kw)).
      { right. cbn [In] in *. destruct Hkw as [<-|[<-|[<-|[]]]]; tauto. }
      assert (Px : Plain (k, etext x)) by now left.
      cbn [app]. repeat apply Forall_cons; try apply Forall_nil; try assumption; right; cbn [In]; tauto. }
    destruct l as [|y l].
    - cbn [groups map spaced]. rewrite E. split; [|split]; [| |exact P].
      + unfold texts. cbn [map app concat snd lp_t sp_t rp_t]. now rewrite app_nil_r.
      + cbn [app filter]. rewrite Kk. cbn. now rewrite E.
    - change (groups kw (x :: y :: l)) with ([lp_t; (KEYWORD, kw); sp_t] ++ gtokens (el x) ++ [rp_t; sp_t] ++ groups kw (y :: l)).
      rewrite E. set (g := groups kw (y :: l)) in *. clearbody g. split; [|split].
      + change (map ?f (x :: y :: l)) with (f x :: map f (y :: l)). cbn [spaced map] in *. rewrite !texts_app, I1. unfold texts. cbn [map concat snd lp_t sp_t rp_t]. rewrite !app_nil_r, <- !app_assoc. reflexivity.
      + cbn [app filter]. rewrite Kk. cbn [kept fst filter sp_t rp_t lp_t]. cbn. rewrite I2. cbn [ctoks flat_map]. now rewrite E.
      + rewrite !Forall_app in *. destruct P as (P1 & P2 & P3). repeat split; auto.
        repeat apply Forall_cons; try apply Forall_nil; right; cbn [In]; tauto.
  Qed.
  Lemma listed_spec l : Forall is_type l ->
    texts (listed l) = spaced (map etext l) /\ filter kept (listed l) = ctoks l /\ Forall Plain (listed l).
  Proof.
    induction 1 as [|x l Hx _ (I1 & I2 & I3)]; [repeat split; constructor|].
    destruct (type_tokens x Hx) as (k & E & Kk).
    assert (Px : Plain (k, etext x)) by now left.
    destruct l as [|y l].
    - cbn [listed map spaced]. rewrite E. split; [|split]; [| |apply Forall_cons; [exact Px|apply Forall_nil]].
      + unfold texts. cbn [map concat snd]. now rewrite app_nil_r.
      + cbn [filter]. rewrite Kk. cbn. now rewrite E.
    - change (listed (x :: y :: l)) with (gtokens (el x) ++ sp_t :: listed (y :: l)).
      rewrite E. set (g := listed (y :: l)) in *. clearbody g. split; [|split].
      + cbn [spaced map] in *. change (sp_t :: g) with ([sp_t] ++ g). rewrite !texts_app, I1. unfold texts. cbn [map concat snd sp_t].
        now rewrite !app_nil_r.
      + cbn [app filter]. rewrite Kk. cbn. rewrite I2. cbn [ctoks flat_map]. now rewrite E.
      + cbn [app]. repeat apply Forall_cons; [exact Px| |exact I3]. right. cbn [In]. tauto.
  Qed.

  Lemma types_of_childs n : InTree tree n -> Forall is_type (childs n VAL_TYPE).
  Proof.
    intros T. apply Forall_forall. intros v Hv. apply in_childs in Hv as [Hc Kv]. apply in_children in Hc as [Hc Nv].
    split; [econstructor; eauto|auto].
  Qed.

  Definition Effect (act : action) (d : text) : Prop :=
    exists A B N C, gtokens tree = A ++ B ++ C
      /\ Applied src (a_edits act) (texts (A ++ N ++ C) ++ d)
      /\ filter kept N = filter kept B
      /\ (Forall Plain N \/ filter not_space N = filter not_space B).

  Lemma split_effect n kw title r d : src = gtext tree ++ d -> InTree tree n ->
    In (ekind n, (kw, title)) splittable -> 2 <= length (childs n VAL_TYPE) -> RangeOf src n r ->
    Effect (mk_action title [(r, spaced (map (fun ty => Text.T "(" ++ kw ++ Text.T " " ++ etext ty ++ Text.T ")") (childs n VAL_TYPE)))]) d.
  Proof.
    intros Hs T K L [R1 R2].
    assert (N : is_node n = true).
    { unfold is_node, childs, children, children_with_tokens in *. destruct (el n); [cbn in L; lia|reflexivity]. }
    assert (G : In (ekind n) group_kinds /\ In kw [Text.T "param"; Text.T "result"; Text.T "local"]).
    { unfold splittable in K. cbn [In] in K. unfold group_kinds. cbn [In].
      destruct K as [K|[K|[K|[]]]]; injection K as <- <- _; tauto. }
    destruct G as [G Hkw].
    assert (I : forall c, In c (children_with_tokens n) -> ekind c <> IDENT).
    { intros c Hc E. pose proof (named_one_type n c T G N Hc E). lia. }
    destruct (groups_spec kw _ (types_of_childs n T) Hkw) as (E1 & E2 & E3).
    destruct (tok_split n T) as (A & C & H1 & H2).
    exists A, (gtokens (el n)), (groups kw (childs n VAL_TYPE)), C. split; [exact H1|]. split; [|split].
    - cbn [a_edits]. rewrite <- E1. apply (replaced A (gtokens (el n)) C); auto.
      + now rewrite <- H2.
      + rewrite texts_app, tlen_app, <- H2, <- eend_tokens. exact R2.
    - rewrite E2. symmetry. now apply kept_group.
    - now left.
  Qed.

  Lemma join_effect n a b p ps r d : src = gtext tree ++ d -> InTree tree n ->
    In (ekind n) [TYPE_USE; FUNC_TYPE] -> FirstRun n a b (p :: ps) ->
    line_col (new_line_index src) (estart p) = Some (fst r) ->
    line_col (new_line_index src) (eend (last ps p)) = Some (snd r) ->
    Effect (mk_action (Text.T "Join parameters")
      [(r, Text.T "(param " ++ spaced (map etext (flat_map (fun c => childs c VAL_TYPE) (p :: ps))) ++ Text.T ")")]) d.
  Proof.
    intros Hs T K (l & y & E & _ & J & _) R1 R2.
    unfold children in E. apply filter_run in E as (L & m & R & m' & E & Hm & Em).
    destruct (span_split n L p m R _ m' T E Em) as (A & C & H1 & H2 & H3).
    assert (Hin : forall c, In c (p :: m) -> In c (children_with_tokens n)).
    { intros c Hc. rewrite E. apply in_or_app. right. apply in_or_app. now left. }
    assert (Tin : forall c, In c (p :: ps) -> InTree tree c /\ is_node c = true /\ Joinable a b c).
    { intros c Hc. rewrite <- Hm in Hc. pose proof Hc as Hc'. apply filter_In in Hc as [Hc Nc].
      split; [econstructor; [exact T|now apply Hin]|]. split; [exact Nc|]. rewrite Hm in Hc'.
      rewrite Forall_forall in J. now apply J. }
    set (types := flat_map (fun c => childs c VAL_TYPE) (p :: ps)).
    assert (Ty : Forall is_type types).
    { unfold types. apply Forall_forall. intros v Hv. apply in_flat_map in Hv as (c & Hc & Hv).
      pose proof (types_of_childs c (proj1 (Tin c Hc))) as F. rewrite Forall_forall in F. now apply F. }
    destruct (listed_spec _ Ty) as (E1 & E2 & E3).
    exists A, (ctoks (p :: m)), ([lp_t; (KEYWORD, Text.T "param"); sp_t] ++ listed types ++ [rp_t]), C.
    split; [exact H1|]. split; [|split].
    - cbn [a_edits].
      replace (Text.T "(param " ++ spaced (map etext types) ++ Text.T ")")
        with (texts ([lp_t; (KEYWORD, Text.T "param"); sp_t] ++ listed types ++ [rp_t])).
      + apply (replaced A (ctoks (p :: m)) C); auto; [now rewrite <- H2|now rewrite <- H3].
      + rewrite !texts_app, E1. reflexivity.
    - assert (Q : filter kept (ctoks (p :: m)) = ctoks (flat_map (fun c => childs c VAL_TYPE) (filter is_node (p :: m)))).
      { clear - Hin Tin Hm T K. assert (X : forall c, In c (p :: m) -> is_node c = true -> In c (p :: ps)).
        { intros c Hc Nc. rewrite <- Hm. apply filter_In. auto. }
        revert Hin X. generalize (p :: m). intros q Hin X. induction q as [|c q IH]; [reflexivity|].
        unfold ctoks in *. cbn [flat_map filter]. rewrite filter_app, IH; [|intros x Hx; apply Hin; now right|intros x Hx; apply X; now right].
        destruct (is_node c) eqn:Nc.
        - cbn [flat_map]. rewrite flat_map_app. f_equal.
          destruct (Tin c (X c (or_introl eq_refl) Nc)) as (Tc & _ & Kc & _ & _ & Ic).
          apply kept_group; auto. rewrite Kc. now left.
        - rewrite (type_use_token n c T K (Hin c (or_introl eq_refl)) Nc). reflexivity. }
      rewrite Q, Hm. fold types. rewrite !filter_app, E2. generalize (ctoks types). intros z. cbn. apply app_nil_r.
    - left. rewrite !Forall_app. split; [|split; [exact E3|]].
      + repeat apply Forall_cons; try apply Forall_nil; right; cbn [In]; tauto.
      + repeat apply Forall_cons; try apply Forall_nil; right; cbn [In]; tauto.
  Qed.

  Lemma space_tokens w : IsTok WHITESPACE w -> exists t, gtokens (el w) = [(WHITESPACE, t)].
  Proof.
    intros [N K]. unfold is_node, ekind in *. destruct (el w) as [k t|]; [|discriminate]. cbn in K. subst k. now exists t.
  Qed.
  Lemma fix_one n l e w rest r d : src = gtext tree ++ d -> InTree tree n ->
    children_with_tokens n = l ++ e :: w :: rest -> IsTok WHITESPACE w -> RangeOf src w r ->
    Effect (mk_action (Text.T "Fix invalid memory argument") [(r, [])]) d.
  Proof.
    intros Hs T E W [R1 R2].
    assert (Tw : InTree tree w) by (econstructor; [exact T|rewrite E; apply in_or_app; right; cbn; auto]).
    destruct (tok_split w Tw) as (A & C & H1 & H2). destruct (space_tokens w W) as (t & Ew).
    exists A, (gtokens (el w)), [], C. split; [exact H1|]. split; [|split].
    - cbn [a_edits]. change (@nil char) with (texts []) at 1. apply (replaced A (gtokens (el w)) C); auto.
      + now rewrite <- H2.
      + rewrite texts_app, tlen_app, <- H2, <- eend_tokens. exact R2.
    - rewrite Ew. reflexivity.
    - right. rewrite Ew. reflexivity.
  Qed.
  Lemma fix_two n l e w q w' rest r r' d : src = gtext tree ++ d -> InTree tree n ->
    children_with_tokens n = l ++ e :: w :: q :: w' :: rest -> IsTok WHITESPACE w -> IsTok WHITESPACE w' ->
    RangeOf src w r -> RangeOf src w' r' ->
    Effect (mk_action (Text.T "Fix invalid memory argument") [(r, []); (r', [])]) d.
  Proof.
    intros Hs T E W W' [R1 R2] [R1' R2'].
    assert (E' : children_with_tokens n = (l ++ [e]) ++ (w :: [q; w']) ++ rest) by (rewrite E, <- app_assoc; reflexivity).
    destruct (span_split n (l ++ [e]) w [q; w'] rest w' [w; q] T E' eq_refl) as (A & C & H1 & H2 & H3).
    destruct (space_tokens w W) as (t & Ew). destruct (space_tokens w' W') as (t' & Ew').
    assert (Cq : ctoks [w; q; w'] = (WHITESPACE, t) :: gtokens (el q) ++ [(WHITESPACE, t')]).
    { unfold ctoks. cbn [flat_map]. rewrite Ew, Ew'. reflexivity. }
    rewrite Cq in *. clear Cq.
    exists A, ((WHITESPACE, t) :: gtokens (el q) ++ [(WHITESPACE, t')]), (gtokens (el q)), C. split; [exact H1|]. split; [|split].
    - cbn [a_edits].
      assert (Es : src = texts A ++ t ++ texts (gtokens (el q)) ++ t' ++ texts C ++ d).
      { rewrite Hs at 1. rewrite gtext_tokens. fold (texts (gtokens tree)). rewrite H1.
        change ((WHITESPACE, t) :: gtokens (el q) ++ [(WHITESPACE, t')]) with ([(WHITESPACE, t)] ++ gtokens (el q) ++ [(WHITESPACE, t')]).
        rewrite !texts_app. unfold texts at 2 4. cbn [map concat snd]. rewrite !app_nil_r, <- !app_assoc. reflexivity. }
      unfold Applied. rewrite Es at 1. rewrite !texts_app, <- !app_assoc.
      apply (Ed_edit [] (texts A) t _ r []).
      + cbn [app]. eapply at_text; [exact Es| |].
        * rewrite <- H2. exact R1.
        * rewrite tlen_app, <- H2. rewrite eend_tokens, Ew in R2. unfold texts in R2. cbn [map concat snd] in R2. rewrite app_nil_r in R2. exact R2.
      + cbn [app]. apply (Ed_edit (texts A ++ t) (texts (gtokens (el q))) t' _ r' []); [|constructor].
        assert (Ed : eend w' = tlen (((texts A ++ t) ++ texts (gtokens (el q))) ++ t')).
        { rewrite H3. change ((WHITESPACE, t) :: gtokens (el q) ++ [(WHITESPACE, t')]) with ([(WHITESPACE, t)] ++ gtokens (el q) ++ [(WHITESPACE, t')]).
          rewrite !texts_app. unfold texts at 2 4. cbn [map concat snd]. rewrite !app_nil_r, <- !app_assoc. reflexivity. }
        apply (at_text src _ _ (texts C ++ d)).
        * rewrite Es at 1. rewrite <- !app_assoc. reflexivity.
        * rewrite eend_tokens, Ew' in Ed. unfold texts in Ed at 1. cbn [map concat snd] in Ed. rewrite app_nil_r in Ed.
          rewrite (tlen_app _ t') in Ed. replace (tlen ((texts A ++ t) ++ texts (gtokens (el q)))) with (estart w') by lia. exact R1'.
        * rewrite <- Ed. exact R2'.
    - cbn [filter]. rewrite filter_app. cbn. now rewrite app_nil_r.
    - right. cbn [filter]. rewrite filter_app. cbn. now rewrite app_nil_r.
  Qed.

  Lemma offered_effect w a b n act d : src = gtext tree ++ d -> InTree tree n -> Offered src w a b n act -> Effect act d.
  Proof.
    intros Hs T [kw title r W K L R|p ps r W K J types L R1 R2|l mid rest ws rs W K E M F].
    - now apply (split_effect n).
    - now apply (join_effect n a b).
    - destruct M; repeat match goal with H : Forall2 _ (_ :: _) _ |- _ => inversion H; subst; clear H
        | H : Forall2 _ [] _ |- _ => inversion H; subst; clear H end; cbn [map];
        cbn [app] in E;
        [eapply fix_two; [exact Hs|exact T|exact E|auto..]
        |eapply fix_one; [exact Hs|exact T|exact E|auto..]|eapply fix_one; [exact Hs|exact T|exact E|auto..]].
  Qed.
End Effect.

(** ** C31 *)

(** Code actions are answered unless the range ends before it starts. *)
Theorem C31_panics_iff src w p q :
  code_action src w p q = Panics
  <-> exists x y, offset (new_line_index src) p = Some x /\ offset (new_line_index src) q = Some y /\ y < x.
Proof.
  rewrite <- C39_range_panics_iff. unfold code_action.
  destruct (rowan_range (new_line_index src) p q) as [a b| |]; [|split; discriminate|tauto].
  destruct (map_ans_total (act_on src w a b) (visited (gsize (tree_of src)) (root_of (tree_of src)) a b)) as (ys & -> & _).
  - intros n Hn. apply act_on_total. apply visited_sound in Hn as (D & _). exact D.
  - cbn [abind]. split; [|discriminate]. destruct (concat ys); discriminate.
Qed.

(** Every action in the answer is one offered for a node that contains the
    range. *)
Theorem C31_offered src w p q l act :
  code_action src w p q = Ans l -> In act l ->
  exists a b n, offset (new_line_index src) p = Some a /\ offset (new_line_index src) q = Some b /\ a <= b
    /\ InTree (tree_of src) n /\ is_node n = true /\ Encloses n a b /\ Offered src w a b n act.
Proof.
  unfold code_action. destruct (rowan_range (new_line_index src) p q) as [a b| |] eqn:R; try discriminate.
  assert (Rab : offset (new_line_index src) p = Some a /\ offset (new_line_index src) q = Some b /\ a <= b).
  { unfold rowan_range in R. destruct (offset _ p) as [x|]; destruct (offset _ q) as [y|]; try discriminate.
    destruct (Nat.leb_spec x y); [|discriminate]. injection R as <- <-. auto. }
  assert (V : forall n, In n (visited (gsize (tree_of src)) (root_of (tree_of src)) a b) -> InTree (tree_of src) n).
  { intros n Hn. apply visited_sound in Hn as (D & _). exact D. }
  destruct (map_ans_total (act_on src w a b) _ (fun n Hn => act_on_total src w a b n (V n Hn))) as (ys & Hys & F).
  rewrite Hys. cbn [abind]. intros H Hin. exists a, b.
  assert (Hl : In act (concat ys)) by (destruct (concat ys); [discriminate|injection H as <-; exact Hin]).
  apply in_concat in Hl as (y & Hy & Ha).
  assert (X : exists n, In n (visited (gsize (tree_of src)) (root_of (tree_of src)) a b) /\ act_on src w a b n = Ans y).
  { clear - F Hy. induction F as [|n z ns zs E F IH]; [destruct Hy|]. destruct Hy as [->|Hy].
    - exists n. split; [now left|exact E].
    - destruct (IH Hy) as (m & Hm & Em). exists m. split; [now right|exact Em]. }
  destruct X as (n & Hn & E). exists n. pose proof (V n Hn) as T. apply visited_sound in Hn as (_ & _ & Nn & En).
  repeat (split; [first [apply Rab|exact T|exact Nn|exact En]|]). eapply act_on_sound; eauto.
Qed.

(** And every rewriting action offered for a node around the range is in the
    answer. *)
Theorem C31_complete src w p q a b n act :
  offset (new_line_index src) p = Some a -> offset (new_line_index src) q = Some b -> a <= b ->
  InTree (tree_of src) n -> n <> root_of (tree_of src) -> is_node n = true -> Within a b n ->
  Offered src w a b n act -> Rewrite act ->
  exists l, code_action src w p q = Ans l /\ In act l.
Proof.
  intros Hp Hq Hab T Hn N W O Hr. unfold code_action, rowan_range. rewrite Hp, Hq.
  destruct (Nat.leb_spec a b); [|lia].
  assert (V : forall n, In n (visited (gsize (tree_of src)) (root_of (tree_of src)) a b) -> InTree (tree_of src) n).
  { intros m Hm. apply visited_sound in Hm as (D & _). exact D. }
  destruct (map_ans_total (act_on src w a b) _ (fun n Hn => act_on_total src w a b n (V n Hn))) as (ys & Hys & F).
  rewrite Hys. cbn [abind].
  assert (Hin : In act (concat ys)).
  { assert (Hv : In n (visited (gsize (tree_of src)) (root_of (tree_of src)) a b)) by (apply visited_complete; auto).
    destruct (act_on_complete src w a b n act T O Hr) as (y & Ey & Hy). clear Hys V.
    induction F as [|m z ms zs E F IH]; [destruct Hv|]. cbn [concat]. apply in_or_app. destruct Hv as [->|Hv].
    - left. rewrite Ey in E. now injection E as <-.
    - right. now apply IH. }
  destruct (concat ys) as [|x xs]; [destruct Hin|]. eauto.
Qed.

(** What an action does: a stretch of tokens is replaced; types, names,
    numbers and strings are the same and in the same order; the rewriting
    actions write nothing else but parentheses, keywords and single spaces,
    and the fix removes white space only. *)
Theorem C31_effect src w p q l act d :
  code_action src w p q = Ans l -> In act l -> src = gtext (tree_of src) ++ d ->
  exists A B N C, gtokens (tree_of src) = A ++ B ++ C
    /\ Applied src (a_edits act) (texts (A ++ N ++ C) ++ d)
    /\ filter kept N = filter kept B
    /\ (Forall Plain N \/ filter not_space N = filter not_space B).
Proof.
  intros H Hin Hs. destruct (C31_offered _ _ _ _ _ _ H Hin) as (a & b & n & _ & _ & _ & T & _ & _ & O).
  now apply (offered_effect src w a b n act d).
Qed.

(** In a document without errors this holds with nothing after the tokens. *)
Corollary C31_effect_no_errors src w p q l act :
  errs_of src = [] -> code_action src w p q = Ans l -> In act l ->
  exists A B N C, src = texts (A ++ B ++ C)
    /\ Applied src (a_edits act) (texts (A ++ N ++ C)) /\ filter kept N = filter kept B.
Proof.
  intros He H Hin. assert (Hs : src = gtext (tree_of src) ++ []).
  { rewrite app_nil_r. pose proof (parse_of src) as P. rewrite He in P. symmetry. exact (C02_no_errors_lossless _ _ _ P). }
  destruct (C31_effect _ _ _ _ _ _ [] H Hin Hs) as (A & B & N & C & H1 & H2 & H3 & _).
  exists A, B, N, C. rewrite app_nil_r in H2. split; [|split; [exact H2|exact H3]].
  rewrite Hs at 1. rewrite app_nil_r, gtext_tokens. fold (texts (gtokens (tree_of src))). now rewrite H1.
Qed.

(** *** What does not hold *)

(** Comments are not kept. *)
Definition c31_comment : text := Text.T "(module (func (param i32 (;a;) i64)))".
Definition c31_split : action :=
  mk_action (Text.T "Split parameters") [(((0, 14), (0, 35)), Text.T "(param i32) (param i64)")].
Theorem C31_comments_refuted :
  ~ forall src w p q l act out c, errs_of src = [] -> code_action src w p q = Ans l -> In act l ->
      Applied src (a_edits act) out -> In (BLOCK_COMMENT, c) (gtokens (tree_of src)) ->
      exists x y, out = x ++ c ++ y.
Proof.
  intros H.
  destruct (H c31_comment (mk_wanted true true) (0, 16) (0, 16) [c31_split] c31_split
    (Text.T "(module (func (param i32) (param i64)))") (Text.T "(;a;)")) as (x & y & E).
  - vm_compute. reflexivity.
  - vm_compute. reflexivity.
  - now left.
  - change (Edited [] (Text.T "(module (func " ++ Text.T "(param i32 (;a;) i64)" ++ Text.T "))") (a_edits c31_split)
      (Text.T "(module (func " ++ Text.T "(param i32) (param i64)" ++ Text.T "))")).
    apply Ed_edit; [|constructor].
    apply (at_text c31_comment _ _ (Text.T "))")); vm_compute; reflexivity.
  - assert (X : existsb (fun t => kind_eqb (fst t) BLOCK_COMMENT && text_eqb (snd t) (Text.T "(;a;)")) (gtokens (tree_of c31_comment)) = true)
      by (vm_compute; reflexivity).
    apply existsb_exists in X as ([k t] & Hin & X). cbn [fst snd] in X. apply andb_prop in X as [X1 X2].
    apply kind_eqb_eq in X1 as ->. apply text_eqb_eq in X2 as ->. exact Hin.
  - assert (X : existsb (N.eqb 59) (Text.T "(module (func (param i32) (param i64)))") = false) by (vm_compute; reflexivity).
    apply not_true_iff_false in X. apply X. apply existsb_exists. exists 59%N. split; [|reflexivity].
    rewrite E. apply in_or_app. right. apply in_or_app. left. vm_compute. auto.
Qed.

(** The fix is not always offered: an element the loop has looked ahead at is
    not looked at again. *)
Definition c31_align : text := Text.T "(module (func (i32.load align align =8)))".
Definition c31_path : list elem := visited (gsize (tree_of c31_align)) (root_of (tree_of c31_align)) 20 20.
Definition c31_instr : elem := nth 2 c31_path (root_of (tree_of c31_align)).
Theorem C31_fix_complete_refuted :
  ~ forall src w p q a b n act,
    offset (new_line_index src) p = Some a -> offset (new_line_index src) q = Some b -> a <= b ->
    InTree (tree_of src) n -> n <> root_of (tree_of src) -> is_node n = true -> Within a b n ->
    Offered src w a b n act -> exists l, code_action src w p q = Ans l /\ In act l.
Proof.
  intros H.
  assert (V : In c31_instr c31_path).
  { apply nth_In. assert (L : Nat.ltb 2 (length c31_path) = true) by (vm_compute; reflexivity). now apply Nat.ltb_lt in L. }
  pose proof V as V'. apply visited_sound in V' as (D & Hn & N & _).
  set (cs := children_with_tokens c31_instr). set (nc i := nth i cs c31_instr).
  destruct (H c31_align (mk_wanted true true) (0, 20) (0, 20) 20 20 c31_instr
    (mk_action (Text.T "Fix invalid memory argument") (map (fun r => (r, [])) [((0, 35), (0, 36))]))) as (l & Hl & _).
  - vm_compute. reflexivity.
  - vm_compute. reflexivity.
  - lia.
  - exact D.
  - exact Hn.
  - exact N.
  - assert (B : (Nat.ltb (estart c31_instr) 20 && Nat.ltb 20 (eend c31_instr)) = true) by (vm_compute; reflexivity).
    apply andb_prop in B as [B1 B2]. apply Nat.ltb_lt in B1, B2. split; [split; lia|right; lia].
  - apply (Off_fix _ _ _ _ _ (firstn 5 cs) [nc 5; nc 6; nc 7] (skipn 8 cs) [nc 6]).
    + reflexivity.
    + vm_compute. reflexivity.
    + vm_compute. reflexivity.
    + apply Mis_before.
      * apply is_tok_iff. vm_compute. reflexivity.
      * apply arg_word_in. vm_compute. reflexivity.
      * apply is_tok_iff. vm_compute. reflexivity.
      * apply is_tok_iff. vm_compute. reflexivity.
      * apply eq_digits_iff. vm_compute. reflexivity.
    + constructor; [|constructor]. split; vm_compute; reflexivity.
  - assert (X : match code_action c31_align (mk_wanted true true) (0, 20) (0, 20) with NoAns => true | _ => false end = true)
      by (vm_compute; reflexivity).
    rewrite Hl in X. discriminate X.
Qed.

(** *** Cases *)

Example C31_case_split :
  let s := Text.T "(module (func (param i32 i64)))" in
  errs_of s = [] /\
  code_action s (mk_wanted true true) (0, 16) (0, 16)
  = Ans [mk_action (Text.T "Split parameters") [(((0, 14), (0, 29)), Text.T "(param i32) (param i64)")]].
Proof. vm_compute. split; reflexivity. Qed.
Example C31_case_join :
  let s := Text.T "(module (func (param i32) (param i64 f32)))" in
  errs_of s = [] /\
  code_action s (mk_wanted true true) (0, 14) (0, 41)
  = Ans [mk_action (Text.T "Join parameters") [(((0, 14), (0, 41)), Text.T "(param i32 i64 f32)")]].
Proof. vm_compute. split; reflexivity. Qed.
Example C31_case_fix :
  let s := Text.T "(module (func (i32.load offset = 8)))" in
  s = gtext (tree_of s) ++ [] /\
  code_action s (mk_wanted true true) (0, 18) (0, 18)
  = Ans [mk_action (Text.T "Fix invalid memory argument") [(((0, 30), (0, 31)), []); (((0, 32), (0, 33)), [])]].
Proof. vm_compute. split; reflexivity. Qed.

Print Assumptions C31_effect.
Print Assumptions C31_complete.
Print Assumptions C31_panics_iff.
