(** What the formatter prints for a node. *)

From Coq Require Import String List NArith Bool Arith Lia.
From Verif Require Import Text Kind Green SpecParser SpecSyntax SpecFormat Format FmtLang FmtPieces FmtSteps FmtTrivia FmtRun.
Import ListNotations.

(** ** Tokens *)

Definition not_atoms : list char := [32; 9; 10; 13; 34; 40; 41; 59]%N.
Lemma atom_of (p : char -> bool) : forallb (fun c => negb (p c)) not_atoms = true ->
  forall c, p c = true -> is_atom c = true.
Proof.
  intros H c Hc. destruct (is_atom c) eqn:E; [reflexivity|]. exfalso. unfold is_atom in E.
  apply negb_false_iff in E. rewrite forallb_forall in H.
  assert (Hin : In c not_atoms).
  { unfold is_blank in E. repeat (apply orb_prop in E as [E|E]); apply N.eqb_eq in E; subst c; cbn; tauto. }
  apply H in Hin. now rewrite Hc in Hin.
Qed.
Definition Atoms (t : text) : Prop := Forall (fun c => is_atom c = true) t.
Lemma atoms_app a b : Atoms a -> Atoms b -> Atoms (a ++ b).
Proof. intros. apply Forall_app. auto. Qed.
Lemma id_atom c : is_id_char c = true -> is_atom c = true.
Proof. apply atom_of. reflexivity. Qed.
Lemma digit_atom c : is_ascii_digit c = true -> is_atom c = true.
Proof. apply atom_of. reflexivity. Qed.
Lemma hex_atom c : is_ascii_hexdigit c = true -> is_atom c = true.
Proof. apply atom_of. reflexivity. Qed.
Lemma lower_atom c : is_ascii_lowercase c = true -> is_atom c = true.
Proof. apply atom_of. reflexivity. Qed.

Lemma digits_atoms p t : (forall c, p c = true -> is_atom c = true) -> Digits p t -> Atoms t /\ t <> [].
Proof.
  intros Hp (d & r & -> & Hd & Hr). split; [|discriminate]. constructor; [auto|].
  eapply Forall_impl; [|exact Hr]. cbn. intros c [H| ->]; [auto|reflexivity].
Qed.
Lemma sign_atoms t : SignForm t -> Atoms t.
Proof. intros [->|[->| ->]]; repeat constructor. Qed.
Lemma cat_atoms (P Q : text -> Prop) t : (forall a, P a -> Atoms a) -> (forall b, Q b -> Atoms b) -> Cat P Q t -> Atoms t.
Proof. intros HP HQ (a & b & -> & Ha & Hb). apply atoms_app; auto. Qed.
Lemma opt_atoms (P : text -> Prop) t : (forall a, P a -> Atoms a) -> SpecParser.Opt P t -> Atoms t.
Proof. intros HP [->|H]; [constructor|auto]. Qed.
Lemma uint_atoms t : UIntForm t -> Atoms t /\ t <> [].
Proof.
  intros [[H|(d & -> & H)] _].
  - exact (digits_atoms _ _ digit_atom H).
  - destruct (digits_atoms _ _ hex_atom H) as [A _]. split; [|discriminate]. apply atoms_app; [|exact A]. repeat constructor.
Qed.
Lemma cat_ne (P Q : text -> Prop) t : (forall b, Q b -> b <> []) -> Cat P Q t -> t <> [].
Proof. intros H (a & b & -> & _ & Hb) E. apply app_eq_nil in E as [_ E]. exact (H _ Hb E). Qed.
Lemma cat_ne_l (P Q : text -> Prop) t : (forall b, P b -> b <> []) -> Cat P Q t -> t <> [].
Proof. intros H (a & b & -> & Hb & _) E. apply app_eq_nil in E as [E _]. exact (H _ Hb E). Qed.

Ltac lits := intros ? ?; subst; repeat constructor.
Lemma float_atoms t : FloatForm t -> Atoms t /\ t <> [].
Proof.
  assert (D : forall a, Digits is_ascii_digit a -> Atoms a) by (intros a H; apply (digits_atoms _ _ digit_atom H)).
  assert (X : forall a, Digits is_ascii_hexdigit a -> Atoms a) by (intros a H; apply (digits_atoms _ _ hex_atom H)).
  assert (DN : forall p a, Digits p a -> a <> []) by (intros p a (d & r & -> & _); discriminate).
  intros H. split.
  - apply (fun A B => cat_atoms _ _ _ A B H); [exact sign_atoms| ]. cbn beta. intros b [H1|[H1|[->|[->|H1]]]].
    + apply (fun A B => cat_atoms _ _ _ A B H1); [lits| ]. intros b1 H2. apply (fun A B => cat_atoms _ _ _ A B H2); [exact X| ].
      intros b2 H3. apply (fun A B => cat_atoms _ _ _ A B H3); [| ].
      * intros b3 H4. apply (fun A => opt_atoms _ _ A H4); []. intros b4 H5. apply (fun A B => cat_atoms _ _ _ A B H5); [lits| ].
        intros b5 H6. apply (fun A => opt_atoms _ _ A H6); [exact X].
      * intros b3 H4. apply (fun A => opt_atoms _ _ A H4); []. intros b4 H5. apply (fun A B => cat_atoms _ _ _ A B H5); [| ].
        -- intros ? [->| ->]; repeat constructor.
        -- intros b5 H6. apply (fun A B => cat_atoms _ _ _ A B H6); [exact sign_atoms|exact D].
    + apply (fun A B => cat_atoms _ _ _ A B H1); [exact D| ]. intros b1 H2. apply (fun A B => cat_atoms _ _ _ A B H2); [| ].
      * intros b3 H4. apply (fun A => opt_atoms _ _ A H4); []. intros b4 H5. apply (fun A B => cat_atoms _ _ _ A B H5); [lits| ].
        intros b5 H6. apply (fun A => opt_atoms _ _ A H6); [exact D].
      * intros b3 H4. apply (fun A => opt_atoms _ _ A H4); []. intros b4 H5. apply (fun A B => cat_atoms _ _ _ A B H5); [| ].
        -- intros ? [->| ->]; repeat constructor.
        -- intros b5 H6. apply (fun A B => cat_atoms _ _ _ A B H6); [exact sign_atoms|exact D].
    + repeat constructor.
    + repeat constructor.
    + apply (fun A B => cat_atoms _ _ _ A B H1); [lits|exact X].
  - apply (fun A => cat_ne _ _ _ A H). cbn beta. intros b [H1|[H1|[->|[->|H1]]]]; try discriminate.
    + apply (fun A => cat_ne_l _ _ _ A H1). intros ? <-. discriminate.
    + apply (fun A => cat_ne_l _ _ _ A H1). apply DN.
    + apply (fun A => cat_ne_l _ _ _ A H1). intros ? <-. discriminate.
Qed.
Lemma oneof_atoms l t : forallb (fun s => forallb is_atom (T s) && negb (nilb (T s))) l = true ->
  OneOf l t -> Atoms t /\ t <> [].
Proof.
  intros H Hin. apply in_map_iff in Hin as (s & <- & Hs). rewrite forallb_forall in H. apply H in Hs.
  apply andb_prop in Hs as [H1 H2]. split.
  - apply Forall_forall. now apply forallb_forall.
  - destruct (T s); [discriminate|discriminate].
Qed.
Lemma word_atoms t : WordForm t -> Atoms t /\ t <> [].
Proof.
  intros (c & r & -> & Hc & Hr). split; [|discriminate]. constructor; [now apply lower_atom|].
  eapply Forall_impl; [|exact Hr]. exact id_atom.
Qed.

Lemma atoms_lex t : Atoms t -> t <> [] -> LexOK t /\ cls_of t = KAtom.
Proof.
  intros H Hn. assert (E : cls_of t = KAtom).
  { destruct H as [|c r Hc _]; [congruence|]. unfold cls_of. unfold is_atom in Hc. apply negb_true_iff in Hc.
    apply orb_false_elim in Hc as [Hc H4]. apply orb_false_elim in Hc as [Hc H3].
    apply orb_false_elim in Hc as [Hc H2]. apply orb_false_elim in Hc as [Hc H1].
    now rewrite H1, H2, H3, H4. }
  split; [|exact E]. unfold LexOK. rewrite E. auto.
Qed.

Definition ClosedStr (k : kind) (t : text) : Prop :=
  k = STRING -> exists b, StrBody b /\ t = [c_quote] ++ b ++ [c_quote].
Lemma token_lex k t : LexForm k t -> ClosedStr k t -> k <> ERROR -> is_trivia_kind k = false ->
  LexOK t /\ cls_of t <> KLine.
Proof.
  intros H Hs He Ht.
  assert (A : Atoms t /\ t <> [] -> LexOK t /\ cls_of t <> KLine).
  { intros [A1 A2]. destruct (atoms_lex t A1 A2) as [A3 A4]. rewrite A4. split; [exact A3|discriminate]. }
  destruct k; cbn [LexForm] in H; try contradiction; try discriminate Ht; try congruence;
    try (apply A; revert H; apply oneof_atoms; reflexivity).
  - subst t. split; [exact I|discriminate].
  - subst t. split; [reflexivity|discriminate].
  - apply A. now apply word_atoms.
  - apply A. destruct H as (r & -> & _ & Hr). split; [|discriminate]. constructor; [reflexivity|].
    eapply Forall_impl; [|exact Hr]. exact id_atom.
  - destruct (Hs eq_refl) as (b & Hb & ->). split; [|discriminate]. exists b. auto.
  - apply A. split.
    + apply (fun A B => cat_atoms _ _ _ A B H); [exact sign_atoms| ]. intros a Ha. apply (uint_atoms _ Ha).
    + apply (fun A => cat_ne _ _ _ A H). intros a Ha. apply (uint_atoms _ Ha).
  - apply A. now apply uint_atoms.
  - apply A. now apply float_atoms.
  - apply A. destruct H as (n & [->| ->] & Hn); apply uint_atoms in Hn as [Hn _]; (split; [|discriminate]);
      (apply atoms_app; [repeat constructor|exact Hn]).
Qed.

(** ** Directives *)

Lemma trim_start_spec s : exists w, s = w ++ trim_start s /\ Forall White w.
Proof.
  induction s as [|c s (w & E & Hw)]; [exists []; split; [reflexivity|constructor]|]. cbn [trim_start].
  destruct (is_whitespace c) eqn:Ec.
  - exists (c :: w). split; [cbn; now rewrite <- E|]. constructor; [|exact Hw]. unfold White.
    unfold is_whitespace, in_range, char_in in Ec. apply orb_prop in Ec as [Ec|Ec]; [apply orb_prop in Ec as [Ec|Ec]|].
    + apply andb_prop in Ec as [E1 E2]. apply N.leb_le in E1, E2. left. left. auto.
    + right. apply existsb_exists in Ec as (x & Hx & Ex). apply N.eqb_eq in Ex. now subst x.
    + apply andb_prop in Ec as [E1 E2]. apply N.leb_le in E1, E2. left. right. auto.
  - exists []. split; [reflexivity|constructor].
Qed.
Lemma strip_prefix_app p t r : strip_prefix p t = Some r -> t = p ++ r.
Proof.
  revert t. induction p as [|c p IH]; intros t; cbn [strip_prefix]; [intros H; now injection H|].
  destruct t as [|d t]; [discriminate|]. destruct (N.eqb_spec c d) as [E|]; [|discriminate]. subst d.
  intros H. cbn [app]. now rewrite (IH _ H).
Qed.
Lemma ignore_directive o t : should_ignore o (Some (Tok LINE_COMMENT t)) = true -> Directive (directive o) t.
Proof.
  unfold should_ignore. destruct (strip_prefix (T ";;") t) as [s|] eqn:E1; [|discriminate].
  destruct (strip_prefix (directive o) (trim_start s)) as [r|] eqn:E2; [|discriminate]. intros H.
  apply strip_prefix_app in E1, E2. destruct (trim_start_spec s) as (w & Ew & Hw).
  exists w, r. split; [|split; [exact Hw|]].
  - rewrite E1 at 1. rewrite Ew at 1. now rewrite E2.
  - destruct r as [|c r]; [now left|]. right. exists c, r. split; [reflexivity|].
    unfold is_ascii_whitespace in H.
    repeat (apply orb_prop in H as [H|H]); apply N.eqb_eq in H; subst c; cbn; tauto.
Qed.

(** ** Trees the formatter keeps *)

Section Opts.
  Variable o : options.

  Definition WFTok (k : kind) (t : text) : Prop :=
    k <> ERROR /\ LexForm k t /\ ClosedStr k t /\ (k = LINE_COMMENT -> ~ Directive (directive o) t).
  Definition WFNode (k : kind) (cs : list green) : Prop :=
    k <> ROOT /\ Matches (ordinary k) (filter significant cs) /\ run_ok cs = true
    /\ (k <> BLOCK_IF_THEN -> nolead_l cs) /\ notrail_l cs.
  Definition WF (g : green) : Prop :=
    (forall k cs, Sub g (Node k cs) -> WFNode k cs) /\ (forall k t, In (k, t) (gtokens g) -> WFTok k t).
  Definition WFs (cs : list green) : Prop := Forall WF cs.

  Lemma WF_children k cs : WF (Node k cs) -> WFs cs.
  Proof.
    intros [H1 H2]. apply Forall_forall. intros c Hc. split.
    - intros k' cs' Hs. apply H1. now apply Sub_child with c.
    - intros k' t Ht. apply H2. cbn [gtokens]. apply in_concat. exists (gtokens c). split; [|exact Ht].
      now apply in_map.
  Qed.
  Lemma WF_tok k t : WF (Tok k t) -> WFTok k t.
  Proof. intros [_ H]. apply H. now left. Qed.
  Lemma WFs_good cs : WFs cs -> Forall GoodEl cs.
  Proof.
    intros H. eapply Forall_impl; [|exact H]. intros [k t|k c] Hc; [|exact I].
    apply WF_tok in Hc as (A & B & _). split; auto.
  Qed.
  Lemma WFs_ignore c cs : WFs cs -> In c cs -> should_ignore o (Some c) = false.
  Proof.
    intros H Hc. unfold WFs in H. rewrite Forall_forall in H. apply H in Hc. destruct c as [k t|]; [|reflexivity].
    destruct (should_ignore o (Some (Tok k t))) eqn:E; [|reflexivity]. exfalso.
    destruct k; try discriminate E. apply WF_tok in Hc as (_ & _ & _ & D). apply (D eq_refl).
    now apply ignore_directive.
  Qed.

  (** ** The items of a node *)

  Fixpoint items (outer p1 p2 : option green) (l : list green) : list item :=
    match l with
    | [] => []
    | c :: r => mk_item c (gdoc o p2 c) r (or_else p2 outer) :: items outer (Some c) p1 r
    end.
  Lemma gdoc_node outer k cs : gdoc o outer (Node k cs) = node_doc o (Node k cs) (items outer None None cs).
  Proof.
    cbn [gdoc]. f_equal. generalize (@None green) at 2 4 as p2. generalize (@None green) as p1.
    induction cs as [|c cs IH]; intros p1 p2; [reflexivity|]. cbn [items]. f_equal. apply IH.
  Qed.
  Lemma items_el outer p1 p2 l : map i_el (items outer p1 p2 l) = l.
  Proof. revert p1 p2. induction l as [|c l IH]; intros; cbn [items map i_el]; [|rewrite IH]; reflexivity. Qed.

  Definition known (cs : list green) (p : option green) : Prop := p = None \/ exists c, p = Some c /\ In c cs.
  Lemma items_spec cs outer : forall l pre p1 p2, cs = pre ++ l -> known cs p1 -> known cs p2 ->
    Forall (fun i => exists pre', cs = pre' ++ i_el i :: i_next i
      /\ exists p, known cs p /\ i_doc i = gdoc o p (i_el i) /\ i_prev i = or_else p outer)
      (items outer p1 p2 l).
  Proof.
    induction l as [|c l IH]; intros pre p1 p2 E H1 H2; cbn [items]; constructor.
    - cbn. exists pre. split; [exact E|]. exists p2. auto.
    - apply (IH (pre ++ [c])); [now rewrite <- app_assoc| |exact H1].
      right. exists c. split; [reflexivity|]. rewrite E. apply in_elt.
  Qed.
  Lemma known_ignore cs p : WFs cs -> known cs p -> should_ignore o p = false.
  Proof. intros H [->|(c & -> & Hc)]; [reflexivity|]. now apply WFs_ignore with cs. Qed.

  (** ** What is printed for an element *)

  Definition GoodDoc (g : green) (p : list piece) : Prop :=
    okp p /\ closedp p /\ texts p = leaves o (keep g)
    /\ forall k cs, g = Node k cs ->
        (k = PARAM \/ k = RESULT -> exists r, p = PT (T "(") :: r)
        /\ (k = ELEM_EXPR \/ k = OFFSET -> has (STok KEYWORD) g = false -> p = [] \/ linestart p)
        /\ (k = BLOCK_IF_THEN -> has (STok L_PAREN) g = false -> p = [] \/ linestart p).
  Definition Prints (g : green) : Prop :=
    WF g -> significant g = true -> forall outer, should_ignore o outer = false -> GoodDoc g (pcs (gdoc o outer g)).

  Lemma kept_tok k t : is_trivia_kind k = false -> leaves o (keep (Tok k t)) = [t].
  Proof. unfold leaves. cbn. destruct k; discriminate || reflexivity. Qed.

  Lemma Prints_tok k t : Prints (Tok k t).
  Proof.
    intros H Hs outer Ho. apply WF_tok in H as (H1 & H2 & H3 & _). cbn [significant] in Hs.
    apply negb_true_iff in Hs. destruct (token_lex k t H2 H3 H1 Hs) as [L1 L2].
    cbn [gdoc]. rewrite (text_not_space _ L1). split; [|split; [|split]].
    - cbn. auto.
    - exact L2.
    - now rewrite kept_tok.
    - discriminate.
  Qed.

  Lemma items_ok k cs outer : WF (Node k cs) -> should_ignore o outer = false -> Forall Prints cs ->
    Forall (ItemOK o) (filter (fun i => significant (i_el i)) (items outer None None cs)).
  Proof.
    intros HW Ho HP. pose proof (WF_children _ _ HW) as HC. pose proof (WFs_good _ HC) as HG.
    destruct (proj1 HW k cs (Sub_here _)) as (_ & _ & Hr & _).
    pose proof (items_spec cs outer cs [] None None eq_refl (or_introl eq_refl) (or_introl eq_refl)) as HS.
    apply Forall_forall. intros i Hi. apply filter_In in Hi as [Hi Hsig]. rewrite Forall_forall in HS.
    destruct (HS i Hi) as (pre & E & p & Hp & Ed & Ep).
    assert (Hin : In (i_el i) cs) by (rewrite E; apply in_elt).
    unfold WFs in HC. rewrite Forall_forall in HP, HC.
    assert (Hsi : should_ignore o p = false) by (apply known_ignore with cs; [now apply Forall_forall|exact Hp]).
    destruct (HP _ Hin (HC _ Hin) Hsig p Hsi) as (P1 & P2 & P3 & P4). rewrite <- Ed in *.
    assert (Hnext : Forall GoodEl (i_next i) /\ run_ok (i_next i) = true).
    { split.
      - rewrite E in HG. apply Forall_app in HG as [_ HG]. now inversion HG.
      - change (pre ++ i_el i :: i_next i) with (pre ++ [i_el i] ++ i_next i) in E. rewrite app_assoc in E.
        rewrite E in Hr. now apply run_ok_skip in Hr. }
    split; auto.
    - intros k' t Et Hs. rewrite Et in Hs. cbn [significant] in Hs. apply negb_true_iff in Hs.
      assert (Hw : WFTok k' t) by (apply WF_tok; rewrite <- Et; auto).
      destruct Hw as (W1 & W2 & W3 & _). destruct (token_lex k' t W2 W3 W1 Hs) as [L1 L2].
      split; [rewrite Ed, Et; reflexivity|]. split; [exact L1|]. split; [exact L2|].
      unfold kept. rewrite Et. now apply kept_tok.
    - intros k' t Et. assert (Hw : WFTok k' t) by (apply WF_tok; rewrite <- Et; auto).
      destruct Hw as (_ & W2 & _). split; intros ->; exact W2.
    - destruct Hnext as [N1 N2]. unfold after, gap. destruct (i_el i).
      + now apply after_token_ok.
      + now apply after_node_ok.
    - rewrite Ep. destruct p as [c|]; [exact Hsi|exact Ho].
  Qed.

  (** ** Comments between the children *)

  Lemma keep_tok g : trivial g = true -> keep g = g.
  Proof. destruct g; [reflexivity|discriminate]. Qed.
  Lemma keep_sig g : significant (keep g) = significant g.
  Proof. destruct g; reflexivity. Qed.

  Lemma trail_sig g r : significant g = true -> GoodEl g -> trail (g :: r) = [].
  Proof.
    intros Hs Hg. cbn [trail]. destruct g as [k t|]; [|reflexivity]. destruct Hg as [Hg _].
    unfold is_ws, is_comment, of_kind. cbn [significant] in Hs. destruct k; try reflexivity; discriminate || congruence.
  Qed.
  Lemma trail_triv g r : significant g = false -> trail (g :: r) = g :: trail r.
  Proof.
    intros Hs. cbn [trail]. destruct g as [k t|]; [|discriminate]. cbn [significant] in Hs.
    unfold is_ws, is_comment, of_kind. destruct k; try reflexivity; discriminate.
  Qed.
  Lemma trail_app r tail : Forall GoodEl r -> existsb significant r = true -> trail (r ++ tail) = trail r.
  Proof.
    induction 1 as [|g r Hg Hr IH]; [discriminate|]. cbn [existsb]. intros He. cbn [app].
    destruct (significant g) eqn:Es.
    - now rewrite !trail_sig.
    - rewrite !trail_triv by exact Es. now rewrite IH.
  Qed.
  Lemma notrail_cons g r : notrail_l (g :: r) -> notrail_l r.
  Proof. unfold notrail_l. cbn [rev]. destruct (rev r); [intros _; exact I|auto]. Qed.
  Lemma notrail_sig r : notrail_l r -> r <> [] -> existsb significant r = true.
  Proof.
    unfold notrail_l. intros H Hn. destruct (rev r) as [|x y] eqn:E.
    - apply (f_equal (@rev _)) in E. rewrite rev_involutive in E. contradiction.
    - apply existsb_exists. exists x. split; [apply in_rev; rewrite E; now left|].
      cbn [nolead_l] in H. destruct x as [k t|]; [|reflexivity]. cbn [triv_tok significant] in *. now rewrite H.
  Qed.
  Lemma filter_none l : existsb significant l = false -> filter significant l = [].
  Proof.
    induction l as [|g l IH]; [reflexivity|]. cbn. destruct (significant g); [discriminate|exact IH].
  Qed.

  Lemma walk_cons q g l : l <> [] -> walk o (g ++ q) l = g ++ walk o q l.
  Proof. destruct l; [congruence|]. intros _. cbn [walk]. now rewrite <- app_assoc. Qed.

  Definition sigs (l : list item) : list item := filter (fun i => significant (i_el i)) l.
  Lemma sigs_map l : map i_el (sigs l) = filter significant (map i_el l).
  Proof.
    unfold sigs. induction l as [|i l IH]; [reflexivity|]. cbn [filter map].
    destruct (significant (i_el i)); [cbn [map]; now rewrite IH|exact IH].
  Qed.
  (** Items whose followers are those of [l] and then [tail]. *)
  Inductive Rows (tail : list green) : list green -> list item -> Prop :=
  | Rw_nil : Rows tail [] []
  | Rw_cons g l i r : i_el i = g -> i_next i = l ++ tail -> Rows tail l r -> Rows tail (g :: l) (i :: r).
  Lemma items_rows outer p1 p2 l : Rows [] l (items outer p1 p2 l).
  Proof.
    revert p1 p2. induction l as [|c l IH]; intros; cbn [items]; constructor; auto. cbn. now rewrite app_nil_r.
  Qed.
  Lemma rows_split tail a b r : Rows tail (a ++ b) r ->
    exists r1 r2, r = r1 ++ r2 /\ Rows (b ++ tail) a r1 /\ Rows tail b r2.
  Proof.
    revert r. induction a as [|g a IH]; intros r H.
    - exists [], r. repeat split; [constructor|exact H].
    - inversion H as [|? ? i r' E1 E2 H1]; subst. destruct (IH _ H1) as (r1 & r2 & -> & H2 & H3).
      exists (i :: r1), r2. repeat split; auto. constructor; auto. now rewrite E2, app_assoc.
  Qed.
  Lemma rows_map tail l r : Rows tail l r -> map i_el r = l.
  Proof. induction 1; cbn; congruence. Qed.

  Lemma walk_rows tail l r : Rows tail l r -> Forall GoodEl l -> notrail_l l ->
    walk o (leaves_l o (trail l)) (sigs r) = leaves_l o (map keep l).
  Proof.
    induction 1 as [|g l i r E1 E2 H IH]; intros Hg Ht; [reflexivity|].
    inversion Hg as [|? ? Hg1 Hg2]; subst. specialize (IH Hg2 (notrail_cons _ _ Ht)).
    unfold sigs in *. cbn [filter map]. destruct (significant (i_el i)) eqn:Es.
    - rewrite trail_sig by auto. change (leaves_l o []) with (@nil text). cbn [walk app].
      change (leaves_l o (keep (i_el i) :: map keep l)) with (kept o i ++ leaves_l o (map keep l)). f_equal.
      destruct l as [|x l].
      + inversion H; subst. reflexivity.
      + unfold gap. rewrite E2, trail_app; [exact IH|exact Hg2|].
        apply notrail_sig; [exact (notrail_cons _ _ Ht)|discriminate].
    - rewrite trail_triv by exact Es.
      change (leaves_l o (i_el i :: trail l)) with (leaves o (i_el i) ++ leaves_l o (trail l)).
      rewrite walk_cons.
      + rewrite IH. rewrite (keep_tok (i_el i)); [reflexivity|]. unfold trivial. now rewrite Es.
      + intros E. assert (Hl : existsb significant l = true).
        { pose proof (notrail_sig _ Ht ltac:(discriminate)) as X. cbn [existsb] in X. now rewrite Es in X. }
        assert (X : filter significant l = []).
        { rewrite <- (rows_map _ _ _ H), <- sigs_map. unfold sigs. now rewrite E. }
        apply existsb_exists in Hl as (x & Hx & Hx2). assert (In x (filter significant l)) by now apply filter_In.
        rewrite X in H0. destruct H0.
  Qed.
End Opts.
