(** Diagnostics: properties C38, C19 and C41. *)

From Coq Require Import String List NArith Bool Arith Lia DecimalString DecimalN DecimalFacts.
From Verif Require Import Text Kind Green SpecParser Lexer LexerFacts Winnow Grammar Sem Lossless Total
  Bounds Lang TokForm Shape ThmParser Red Unique LineIndex Cursor Doc Ast Binder Preorder SpecBinder BinderFacts BinderDefs Blocks
  Nav NavSpec NavFacts ThmNav RefFacts ThmRefs SymCases TokKinds InstrMeta Types Check CheckFacts CheckMsgs.
Import ListNotations.

(** ** C38: diagnostics are always computed and lie in the document *)

(** The range [r] is that of the offsets [a] and [b] of the document. *)
Definition Spans (src : text) (a b : nat) (r : range) : Prop :=
  a <= tlen src /\ b <= tlen src
  /\ line_col (new_line_index src) a = Some (fst r) /\ line_col (new_line_index src) b = Some (snd r).

(** Checking answers for every document; the ranges of all diagnostics and of
    the information attached to them lie in the document; only the range of a
    syntax error can be reversed (see C05). *)
Theorem C38_in_document src :
  exists ds, check src = Ans ds /\ forall d, In d ds ->
    (exists a b, Spans src a b (d_range d)
       /\ ((forall m, d_message d <> Text.T "syntax error: " ++ m) -> a <= b))
    /\ (forall rel r m, d_related d = Some rel -> In (r, m) rel -> exists a b, Spans src a b r /\ a <= b).
Proof.
  destruct (check_parts src) as (a & ls & c & dd & _ & _ & _ & _ & E & F). eexists. split; [exact E|].
  intros d Hd. rewrite Forall_forall in F. destruct (F d Hd) as [[(p & q & L & S)|[(m & M) (p & q & S)]] R].
  - split; [exists p, q; auto|]. intros rel r m Er Hr. destruct (R rel Er (r, m) Hr) as (x & y & L' & S'). exists x, y. auto.
  - split; [exists p, q; split; [exact S|]; intros N; now destruct (N m)|].
    intros rel r m' Er Hr. destruct (R rel Er (r, m') Hr) as (x & y & L' & S'). exists x, y. auto.
Qed.

(** ** C19: undefined references *)

(** A reference [n], written [w], that means nothing in its scope.  A local
    reference needs a function around it, and a label a block. *)
Inductive Unresolved (src : text) (n : elem) (w : wref) : Prop :=
| U_module s m : Asks n (AModule s) -> in_module n m -> InTree (tree_of src) m ->
    (forall d, In d (definitions_of s m) -> ~ denotes m w d) -> Unresolved src n w
| U_local f : Asks n ALocal -> in_func n f -> InTree (tree_of src) f ->
    (forall d, ~ local_denotes f w d) -> Unresolved src n w
| U_label b : Asks n ALabel -> In b (ancestors n) -> is_block b = true ->
    label_target (direct_blocks n) w = None -> Unresolved src n w.
(** How a reference is shown: its name, or its number in decimal. *)
Definition shown_ref (w : wref) : text :=
  match w with Named x => x | Numbered k => show_N k end.
(** The message of an undefined reference. *)
Definition cannot_find (w : wref) : text := Text.T "cannot find `" ++ shown_ref w ++ Text.T "` in this scope".

Lemma dec_acc d : forall a,
  fold_left (fun a c => (a * 10 + (c - 48))%N) (T (NilEmpty.string_of_uint d)) (Npos a) = Npos (Pos.of_uint_acc d a).
Proof.
  induction d; intros a; cbn [NilEmpty.string_of_uint T fold_left Pos.of_uint_acc];
    [reflexivity|..];
    match goal with |- fold_left _ _ ?x = Npos (Pos.of_uint_acc _ ?y) => replace x with (Npos y);
      [apply IHd|match x with (_ + ?c)%N => let v := eval vm_compute in c in change c with v end; lia] end.
Qed.
(** Numbers are shown in decimal. *)
Lemma shown_number k : dec_val (shown_ref (Numbered k)) = k
  /\ Forall (fun c => (48 <= c <= 57)%N) (shown_ref (Numbered k))
  /\ (hd_error (shown_ref (Numbered k)) = Some 48%N -> k = 0%N).
Proof.
  cbn [shown_ref]. unfold show_N.
  assert (E : forall d, dec_val (T (NilZero.string_of_uint d)) = Pos.of_uint d).
  { intros d. assert (H : forall d, fold_left (fun a c => (a * 10 + (c - 48))%N) (T (NilEmpty.string_of_uint d)) 0%N = Pos.of_uint d).
    { clear. induction d; cbn [NilEmpty.string_of_uint T fold_left Pos.of_uint];
        [reflexivity|..];
        match goal with |- fold_left _ _ ?x = _ => let y := eval vm_compute in x in change x with y end; [exact IHd|..]; apply dec_acc. }
    unfold dec_val. destruct d; [reflexivity|apply (H (Decimal.D0 d))|apply (H (Decimal.D1 d))|apply (H (Decimal.D2 d))|apply (H (Decimal.D3 d))|apply (H (Decimal.D4 d))|apply (H (Decimal.D5 d))|apply (H (Decimal.D6 d))|apply (H (Decimal.D7 d))|apply (H (Decimal.D8 d))|apply (H (Decimal.D9 d))]. }
  split; [rewrite E; apply DecimalN.Unsigned.of_to|]. split.
  - assert (H : forall d, Forall (fun c => (48 <= c <= 57)%N) (T (NilEmpty.string_of_uint d))).
    { clear. induction d; cbn [NilEmpty.string_of_uint T]; constructor; auto; cbn; lia. }
    destruct (N.to_uint k); try (apply (H (_ _))). cbn. constructor; [lia|constructor].
  - pose proof (DecimalN.Unsigned.to_of (N.to_uint k)) as U. rewrite DecimalN.Unsigned.of_to in U.
    destruct (N.to_uint k) as [|d|d|d|d|d|d|d|d|d|d] eqn:K; cbn; try discriminate; intros _.
    rewrite <- (DecimalN.Unsigned.of_to k), K.
    unfold Decimal.unorm in U. destruct (Decimal.nzhead (Decimal.D0 d)) eqn:Z; try discriminate.
    + injection U as ->. reflexivity.
    + now apply DecimalFacts.nzhead_nonzero in Z.
Qed.
Lemma local_target_none f w : local_target f w = None <-> forall d, ~ local_denotes f w d.
Proof.
  destruct w as [x|k]; cbn [local_target local_denotes].
  - split.
    + intros H d [A B]. rewrite (find_none _ _ H d A) in B. discriminate.
    + intros H. destruct (find (slot_has_name x) (locals_space f)) as [d|] eqn:E; [|reflexivity].
      apply find_some in E. now destruct (H d).
  - split.
    + intros -> d. discriminate.
    + intros H. destruct (nth_error (locals_space f) (N.to_nat k)) as [d|]; [|reflexivity]. now destruct (H d).
Qed.
Lemma enclosing_block n b : In b (ancestors n) -> is_block b = true -> exists b', enclosing block_kinds n = Some b'.
Proof.
  intros H B. unfold enclosing. destruct (find _ (ancestors n)) as [b'|] eqn:E; [eauto|].
  pose proof (find_none _ _ E b H) as X. cbn beta in X. unfold is_block in B. unfold block_kinds in X. congruence.
Qed.

Lemma not_true_iff_false' (a b : bool) : (a = true <-> b = true) -> a = b.
Proof. destruct a, b; intuition congruence. Qed.
Lemma key_eqb_comm a b : key_eqb a b = key_eqb b a.
Proof. apply not_true_iff_false'. rewrite !key_eqb_eq. split; congruence. Qed.
Section Doc.
  Variable src : text.
  Notation tree := (tree_of src).
  Notation nodes := (nodes src).
  Notation tb := (the_table src).

  Lemma undef_module n s w m : InTree tree n -> is_node n = true -> Asks n (AModule s) -> Written n w ->
    in_module n m -> InTree tree m ->
    (is_undefined tb (ref_sym n m (AModule s) w) = true <-> forall d, In d (definitions_of s m) -> ~ denotes m w d).
  Proof.
    intros T N A W M Tm. unfold is_undefined. cbn [ref_sym s_kind s_key].
    rewrite (find_defs_spec src n s w m T N A W M Tm).
    assert (X : match s_kind (ref_sym n m (AModule s) w) with SCall | STypeUse | SGlobalRef | SMemoryRef | STableRef => True | _ => False end)
      by (destruct s; exact I).
    assert (Y : (forall d, In d (definitions_of s m) -> ~ denotes m w d)
                <-> map snd (filter (matches s w) (enum 0 (definitions m))) = []).
    { split.
      - intros H. destruct (map snd _) as [|d r] eqn:E; [reflexivity|].
        assert (Hd : In d (map snd (filter (matches s w) (enum 0 (definitions m))))) by (rewrite E; now left).
        apply (goto_resolves src n s w m d A W M Tm) in Hd. apply (resolves_iff src n s w m d A W M Tm) in Hd as [A1 A2].
        now destruct (H d).
      - intros E d Hd Hw. assert (R : Resolves src n d) by (apply (resolves_iff src n s w m d A W M Tm); auto).
        apply (goto_resolves src n s w m d A W M Tm) in R. rewrite E in R. destruct R. }
    rewrite Y. destruct (filter (matches s w) (enum 0 (definitions m))) as [|p r]; cbn [map].
    - destruct s; split; reflexivity.
    - destruct s; split; discriminate.
  Qed.
  Lemma undef_local n w f : InTree tree n -> is_node n = true -> Asks n ALocal -> Written n w ->
    in_func n f -> InTree tree f ->
    (is_undefined tb (ref_sym n f ALocal w) = true <-> forall d, ~ local_denotes f w d).
  Proof.
    intros T N A W M Tf. rewrite <- local_target_none. unfold is_undefined. cbn [ref_sym s_kind s_key ref_kind].
    rewrite (find_local_def_spec src n w f T N A W (enclosing_func src n f T N M Tf)), <- slot_find_target.
    destruct (find _ _); cbn; split; congruence.
  Qed.
  Lemma undef_label n w b : InTree tree n -> is_node n = true -> Asks n ALabel -> Written n w ->
    enclosing block_kinds n = Some b ->
    (is_undefined tb (ref_sym n b ALabel w) = true <-> label_target (direct_blocks n) w = None).
  Proof.
    intros T N A W E. unfold is_undefined. cbn [ref_sym s_kind s_key s_idx ref_kind].
    pose proof (find_block_def_spec src n w T N A W) as H. unfold find_block_def in H.
    rewrite (find_block_ref_spec src n w b T N A W E) in H. cbn [ref_sym s_kind s_key s_idx ref_kind] in H.
    match type of H with context[find ?P ?l] => set (p := P) in *; set (L := l) in * end.
    match goal with |- negb (existsb ?P L) = true <-> _ => assert (PE : existsb P L = existsb p L) end.
    { apply not_true_iff_false'. rewrite !existsb_exists. subst p. cbn beta.
      split; intros ([[rk dk] i] & Hx & Px); exists (rk, dk, i); (split; [exact Hx|]); now rewrite key_eqb_comm. }
    rewrite PE. clear PE.
    destruct (find p L) as [[[rk dk] i]|] eqn:F.
    - assert (X : existsb p L = true).
      { apply existsb_exists. apply find_some in F. eauto. }
      rewrite X. cbn. split; [discriminate|]. intros Y. rewrite Y in H.
      assert (Hb : exists i, In (rk, dk, i) (blocks tb)) by (exists i; now apply find_some in F).
      apply (blocks_iff src) in Hb as (n' & w' & b' & T' & N' & A' & W' & Hb & E1 & E2).
      destruct (direct_in src n' b' T' N' Hb) as (Tb & Nb & Bb & _).
      destruct (block_parent src b' Tb Nb Bb) as (q & Q & _).
      rewrite E2 in H. rewrite (find_key_stands src b' (block_symbol q b')) in H; [discriminate|].
      split; [|reflexivity]. now apply block_symbol_in.
    - assert (X : existsb p L = false).
      { apply not_true_iff_false. intros X. apply existsb_exists in X as (x & Hx & Px). rewrite (find_none _ _ F x Hx) in Px. discriminate. }
      rewrite X. cbn. split; [|reflexivity]. intros _.
      destruct (label_target (direct_blocks n) w); [|reflexivity]. destruct H as (q & _ & H). discriminate.
  Qed.
  Lemma show_widx w : show_idx (widx w) = shown_ref w.
  Proof. destruct w; reflexivity. Qed.
  Lemma undef_diag_ref n e a w d : InTree tree n ->
    (undef_diag src (ref_sym n e a w) = Ans d <->
     RangeOf src n (d_range d) /\ d_message d = cannot_find w /\ d_related d = None).
  Proof.
    intros T. unfold undef_diag. cbn [ref_sym s_key s_idx]. destruct (key_range_ok src n T) as (r & E & R). rewrite E, show_widx.
    cbn [abind]. split.
    - intros H. injection H as <-. cbn. auto.
    - intros (R' & M & L). f_equal. destruct d as [r' m l]. cbn in *. subst. f_equal.
      destruct R as [R1 R2], R' as [R1' R2'], r, r'. cbn [fst snd] in *. congruence.
  Qed.

  Lemma unresolved_iff n w d : InTree tree n -> is_node n = true -> Written n w ->
    ((exists s, stands src n s /\ is_undefined tb s = true /\ undef_diag src s = Ans d) <->
     Unresolved src n w /\ RangeOf src n (d_range d) /\ d_message d = cannot_find w /\ d_related d = None).
  Proof.
    intros T N W. split.
    - intros (s & [Hs E] & U & D).
      assert (R : is_ref_kind s = true).
      { unfold is_undefined in U. unfold is_ref_kind. destruct (s_kind s); congruence || reflexivity. }
      destruct (ref_found src n s T N Hs E R) as (a & w' & e & A & W' & He & ->).
      rewrite (Written_fun _ _ _ W' W) in *. clear w' W'. apply undef_diag_ref in D; [|exact T]. split; [|exact D].
      destruct a as [so| |]; cbn [enclosing_of] in He.
      + destruct (enclosing_kind src MODULE n e T N He) as (Te & Ne & Ke & De).
        apply U_module with so e; try assumption; [split; auto|].
        exact (proj1 (undef_module n so w e T N A W (conj Ke (conj Ne De)) Te) U).
      + destruct (enclosing_kind src MODULE_FIELD_FUNC n e T N He) as (Te & Ne & Ke & De).
        apply U_local with e; try assumption; [split; auto|].
        exact (proj1 (undef_local n w e T N A W (conj Ke (conj Ne De)) Te) U).
      + apply (proj1 (undef_label n w e T N A W He)) in U. apply enclosing_some in He as [He1 He2]. apply U_label with e; try assumption.
        unfold is_block. apply existsb_exists. exists (ekind e). split; [exact He2|now apply kind_eqb_eq].
    - intros [U D]. destruct U as [s m A M Tm H|f A M Tf H|b A B1 B2 H].
      + exists (ref_sym n m (AModule s) w). split; [now apply module_ref_in|]. split; [now apply undef_module|now apply undef_diag_ref].
      + exists (ref_sym n f ALocal w). split; [now apply local_ref_in|]. split; [now apply undef_local|now apply undef_diag_ref].
      + destruct (enclosing_block n b B1 B2) as (b' & E). exists (ref_sym n b' ALabel w).
        split; [split; [now apply raw_ref_in|reflexivity]|]. split; [now apply undef_label|now apply undef_diag_ref].
  Qed.
End Doc.

(** The diagnostics that start with "cannot find" are exactly those of the
    references that mean nothing: at the reference, showing it as written. *)
Theorem C19_undefined_exact src ds d : check src = Ans ds ->
  (In d ds /\ classify (d_message d) = CUndef <->
   exists n w, InTree (tree_of src) n /\ is_node n = true /\ Written n w /\ Unresolved src n w
     /\ RangeOf src n (d_range d) /\ d_message d = cannot_find w /\ d_related d = None).
Proof.
  intros H. rewrite (check_undef src ds d H). split.
  - intros (s & Hs & U & D).
    assert (R : is_ref_kind s = true).
    { unfold is_undefined in U. unfold is_ref_kind. destruct (s_kind s); congruence || reflexivity. }
    destruct (raw_ref_out src s Hs R) as (n & a & w & e & T & N & A & W & E & Es). exists n, w.
    split; [exact T|]. split; [exact N|]. split; [exact W|]. apply unresolved_iff; auto. exists s.
    split; [split; [exact Hs|now rewrite Es]|]. auto.
  - intros (n & w & T & N & W & U & D). destruct (proj2 (unresolved_iff src n w d T N W) (conj U D)) as (s & [Hs _] & X & Y).
    eauto.
Qed.

(** A reference in its scope: module-level ones in a module, local ones in a
    function, labels in a block. *)
Inductive InScope (src : text) (n : elem) : Prop :=
| IS_module s m : Asks n (AModule s) -> in_module n m -> InTree (tree_of src) m -> InScope src n
| IS_local f : Asks n ALocal -> in_func n f -> InTree (tree_of src) f -> InScope src n
| IS_label b : Asks n ALabel -> In b (ancestors n) -> is_block b = true -> InScope src n.

(** Go to definition finds nothing exactly for the references reported. *)
Theorem C19_goto_definition src pos t n w :
  CursorOn src pos t -> parent t = Some n -> Written n w -> InScope src n ->
  (Unresolved src n w <-> goto_definition src pos = NoAns \/ goto_definition src pos = Ans (Array [])).
Proof.
  intros C P W S. destruct (cursor_node _ _ _ _ C P) as (_ & _ & T & N & _). destruct S as [s m A M Tm|f A M Tf|b A B1 B2].
  - destruct (goto_module src pos t n s w m C P A W M Tm) as (rs & -> & F).
    assert (X : Unresolved src n w <-> forall d, In d (definitions_of s m) -> ~ denotes m w d).
    { split.
      - intros [s' m' A' M' Tm' H|f A' _ _ _|b A' _ _ _]; try (pose proof (asks_fun n _ _ A A'); discriminate).
        pose proof (asks_fun n _ _ A A') as E. injection E as <-.
        assert (m = m') as <-. { destruct M as (K & N1 & D), M' as (K' & N' & D'). eapply (module_unique src n); eauto. }
        exact H.
      - intros H. now apply U_module with s m. }
    rewrite X. split.
    + intros H. right. do 2 f_equal. inversion F as [|r d rs' ds' _ _ E1 E2]; [reflexivity|exfalso].
      assert (Hd : In d (map snd (filter (matches s w) (enum 0 (definitions m))))) by (rewrite <- E2; now left).
      apply (goto_resolves src n s w m d A W M Tm) in Hd. apply (resolves_iff src n s w m d A W M Tm) in Hd as [A1 A2].
      now destruct (H d).
    + intros [H|H]; [discriminate|]. injection H as ->. intros d Hd Hw.
      assert (R : Resolves src n d) by (apply (resolves_iff src n s w m d A W M Tm); auto).
      apply (goto_resolves src n s w m d A W M Tm) in R. destruct (map snd _); [destruct R|inversion F].
  - pose proof (goto_local src pos t n w f C P A W M Tf) as G.
    assert (X : Unresolved src n w <-> local_target f w = None).
    { rewrite local_target_none. split.
      - intros [s' m' A' M' Tm' H|f' A' M' Tf' H|b A' _ _ _]; try (pose proof (asks_fun n _ _ A A'); discriminate).
        assert (f = f') as <-. { destruct M as (K & N1 & D), M' as (K' & N' & D'). eapply (func_unique src n); eauto. }
        exact H.
      - intros H. now apply U_local with f. }
    rewrite X. destruct (local_target f w) as [d|].
    + destruct G as (r & -> & _). split; [discriminate|intros [H|H]; discriminate].
    + rewrite G. tauto.
  - pose proof (goto_label src pos t n w C P A W) as G.
    assert (X : Unresolved src n w <-> label_target (direct_blocks n) w = None).
    { split.
      - intros [s' m' A' M' Tm' H|f' A' M' Tf' H|b' A' _ _ H]; try (pose proof (asks_fun n _ _ A A'); discriminate). exact H.
      - intros H. now apply U_label with b. }
    rewrite X. destruct (label_target (direct_blocks n) w) as [d|].
    + destruct G as (r & -> & _). split; [discriminate|intros [H|H]; discriminate].
    + rewrite G. tauto.
Qed.

(** ** C41: more than one module *)

(** Every module of the document but the first is reported, and nothing else. *)
Theorem C41_one_module src ds d : check src = Ans ds ->
  (In d ds /\ classify (d_message d) = CModules <->
   exists m0 ms m, filter (fun e => kind_eqb (ekind e) MODULE) (children (root_of (tree_of src))) = m0 :: ms /\ In m ms
     /\ RangeOf src m (d_range d) /\ d_message d = Text.T "only one module is allowed in one file" /\ d_related d = None).
Proof.
  intros H. rewrite (check_modules src ds d H). unfold multi_modules.
  assert (Hin : forall m, In m (tl (childs (root_of (tree_of src)) MODULE)) -> InTree (tree_of src) m).
  { intros m Hm. apply (in_tree_childs src (root_of (tree_of src)) MODULE m); [constructor|]. destruct (childs _ _); [destruct Hm|now right]. }
  split.
  - intros (l & E & Hd). apply (map_ans_in _ _ _ _ E) in Hd as (m & Hm & D). pose proof (Hin m Hm) as Tm.
    change (childs (root_of (tree_of src)) MODULE) with (filter (fun e => kind_eqb (ekind e) MODULE) (children (root_of (tree_of src)))) in Hm.
    destruct (filter _ _) as [|m0 ms]; [destruct Hm|]. exists m0, ms, m. split; [reflexivity|]. split; [exact Hm|].
    destruct (diag_at_ok src m (Text.T "only one module is allowed in one file") Tm) as (d' & E' & R & M & L).
    rewrite E' in D. injection D as <-. auto.
  - intros (m0 & ms & m & E & Hm & R & M & L).
    change (filter _ _) with (childs (root_of (tree_of src)) MODULE) in E. rewrite E in Hin |- *. cbn [tl] in *.
    destruct (map_ans_total (fun m => diag_at src m (Text.T "only one module is allowed in one file")) ms) as (l & El).
    { intros x Hx. destruct (diag_at_ok src x (Text.T "only one module is allowed in one file") (Hin x Hx)) as (d' & E' & _). eauto. }
    exists l. split; [exact El|]. apply (map_ans_in _ _ _ _ El). exists m. split; [exact Hm|].
    destruct (diag_at_ok src m (Text.T "only one module is allowed in one file") (Hin m Hm)) as (d' & -> & R' & M' & L').
    f_equal. destruct d as [r m' l'], d' as [r' m'' l'']. cbn in *. subst. f_equal.
    destruct R as [R1 R2], R' as [R1' R2'], r, r'. cbn [fst snd] in *. congruence.
Qed.

(** ** Examples and refutations *)

(** The classes and texts of the diagnostics of a document. *)
Definition report (src : text) : option (list (range * text)) :=
  match check src with Ans ds => Some (map (fun d => (d_range d, d_message d)) ds) | _ => None end.

Definition ex_undef : text := Text.T "(module (func (call $f) (local.get 1) (block (br $x))))".
Example C19_example :
  report ex_undef = Some [(((0, 20), (0, 22)), Text.T "cannot find `$f` in this scope");
                          (((0, 35), (0, 36)), Text.T "cannot find `1` in this scope");
                          (((0, 49), (0, 51)), Text.T "cannot find `$x` in this scope")].
Proof. vm_compute. reflexivity. Qed.
(** The hypotheses of [C19_goto_definition] on that document. *)
Example C19_goto_example :
  let t := cur ex_undef (0, 21) in let n := par t in
  CursorOn ex_undef (0, 21) t /\ parent t = Some n /\ Written n (Named (Text.T "$f")) /\ InScope ex_undef n.
Proof.
  set (t := cur ex_undef (0, 21)). set (n := par t).
  assert (C : CursorOn ex_undef (0, 21) t) by (vm_compute; reflexivity).
  assert (P : parent t = Some n) by (vm_compute; reflexivity).
  assert (E : enclosing [MODULE] n = Some (enc MODULE n)) by (vm_compute; reflexivity).
  destruct (ex_module _ _ _ _ _ C P E) as [M Tm].
  split; [exact C|]. split; [exact P|]. split.
  - assert (Hn : exists t, token n IDENT = Some t /\ etext t = Text.T "$f") by (eexists; split; vm_compute; reflexivity).
    destruct Hn as (u & Hu & <-). now apply Written_name.
  - apply IS_module with FuncS (enc MODULE n); [|exact M|exact Tm]. by_instr Asks_call n.
Qed.

(** Without a function or a block around it, a reference that go to definition
    cannot resolve is not reported. *)
Theorem C19_unscoped_refuted :
  report (Text.T "(module (global i32 (local.get 0)) (func (br 0)))") = Some []
  /\ goto_definition (Text.T "(module (global i32 (local.get 0)) (func (br 0)))") (0, 31) = NoAns
  /\ goto_definition (Text.T "(module (global i32 (local.get 0)) (func (br 0)))") (0, 45) = NoAns.
Proof. vm_compute. auto. Qed.

Example C41_example :
  report (Text.T "(module) (module) (module)")
  = Some [(((0, 9), (0, 17)), Text.T "only one module is allowed in one file");
          (((0, 18), (0, 26)), Text.T "only one module is allowed in one file")].
Proof. vm_compute. reflexivity. Qed.
(** A document with diagnostics of several kinds, one of them with related
    information. *)
Example C38_example :
  exists ds d, check (Text.T "(module (func $a) (func $a (i32.const x)") = Ans ds /\ In d ds /\ d_related d <> None
    /\ 3 <= length ds.
Proof.
  destruct (check (Text.T "(module (func $a) (func $a (i32.const x)")) as [ds| |] eqn:E; [|vm_compute in E; discriminate..].
  exists ds. assert (H : existsb (fun d => match d_related d with Some _ => true | None => false end) ds = true /\ 3 <=? length ds = true)
    by (vm_compute in E; injection E as <-; vm_compute; auto).
  destruct H as [H1 H2]. apply existsb_exists in H1 as (d & Hd & R). exists d. split; [reflexivity|]. split; [exact Hd|].
  split; [destruct (d_related d); congruence|now apply Nat.leb_le].
Qed.
