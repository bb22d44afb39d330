(** Property C57: a client that makes the edits the server sends and reports
    the new text.  The server loop (C35) with the actual formatter. *)

From Coq Require Import String List NArith Bool Arith Lia Permutation.
From Verif Require Import Text Kind Green SpecParser Lexer LexerFacts Winnow Grammar Sem Lossless Total
  Bounds Lang TokForm Shape ThmParser ThmSyntax Red Unique LineIndex Cursor ThmPos Doc Ast Binder Nav NavSpec NavFacts InstrMeta Types Check CheckMsgs
  SpecAction Action ThmAction SpecRename ThmRename ThmRenamed SpecFormat Format FmtRequest ThmFormat ThmReparse ThmAgain ThmTwice
  SpecRegroup ThmRegroup SpecAlike ThmAlike ThmAlpha Salsa Service Server SpecServer ThmServer ThmSemTok ThmRange.
From Verif Require SpecComplete ThmComplete.
Import ListNotations.

(** ** Making edits gives one text *)

Lemma prefix_cases {A} (a : list A) : forall b s t, a ++ s = b ++ t -> (exists x, b = a ++ x) \/ (exists x, a = b ++ x).
Proof.
  induction a as [|x a IH]; intros [|y b] s t H; [left; now exists []|left; now exists (y :: b)|right; now exists (x :: a)|].
  cbn [app] in H. injection H as <- H. destruct (IH b s t H) as [(z & ->)|(z & ->)]; [left|right]; now exists z.
Qed.
Lemma posof_prefix a x l c : PosOf tlen a l c -> PosOf tlen (a ++ x) l c -> x = [].
Proof.
  intros H H'. assert (Lf : line_feeds x = 0).
  { destruct H as (? & ? & _ & _ & _ & L & _), H' as (? & ? & _ & _ & _ & L' & _). rewrite line_feeds_app in L'. lia. }
  assert (N : ~ In LF x).
  { unfold line_feeds in Lf. intros Hin. assert (X : In LF (filter (N.eqb LF) x)) by (apply filter_In; split; [exact Hin|apply N.eqb_refl]).
    destruct (filter (N.eqb LF) x); [destruct X|discriminate Lf]. }
  pose proof (posof_more a l c x H N) as M. destruct (posof_fun tlen _ _ _ _ _ H' M) as (_ & E).
  destruct x as [|y x]; [reflexivity|exfalso]. cbn [tlen] in E. pose proof (utf8_len_pos y). lia.
Qed.
Lemma posof_inj a b s t l c : PosOf tlen a l c -> PosOf tlen b l c -> a ++ s = b ++ t -> a = b.
Proof.
  intros H H' E. destruct (prefix_cases a b s t E) as [(x & ->)|(x & ->)].
  - now rewrite (posof_prefix _ _ _ _ H H'), app_nil_r.
  - now rewrite (posof_prefix _ _ _ _ H' H), app_nil_r.
Qed.
Theorem C57_applied_once src es out out' : Applied src es out -> Applied src es out' -> out = out'.
Proof.
  unfold Applied. generalize (@nil N). intros b0 H. revert out'. induction H as [before rest|before skip old rest r new es out [P1 P2] _ IH]; intros out' H'.
  - now inversion H'.
  - remember (skip ++ old ++ rest) as whole eqn:E. remember ((r, new) :: es) as es0 eqn:Ee. destruct H' as [|b1 skip' old' rest' r' new' es' out' [P1' P2'] H']; [discriminate|].
    injection Ee as -> -> ->. rename b1 into before.
    assert (Sk : before ++ skip' = before ++ skip). { eapply posof_inj; [exact P1'|exact P1|]. rewrite <- !app_assoc. now rewrite E. }
    apply app_inv_head in Sk. subst skip'. apply app_inv_head in E.
    assert (Od : (before ++ skip) ++ old' = (before ++ skip) ++ old). { eapply posof_inj; [exact P2'|exact P2|]. rewrite <- !app_assoc. now rewrite E. }
    apply app_inv_head in Od. subst old'. apply app_inv_head in E. subst rest'. now rewrite (IH _ H').
Qed.
Print Assumptions C57_applied_once.

(** ** The formatter of the requests *)

Definition the_formatter (g : green) (li : line_index) (p : params) : ans (list (range * text)) :=
  formatting (request_settings (p_tab p) (p_spaces p)) li g.
Definition the_range_formatter (g : green) (li : line_index) (p : params) : ans (list (range * text)) :=
  range_formatting (request_settings (p_tab p) (p_spaces p)) li g (p_range p).

Lemma formatting_edit s a : Document a ->
  exists es, formatting s (new_line_index (gtext a)) a = Ans es /\ Applied (gtext a) es (format s a).
Proof.
  intros D. destruct (C32_formatting (gtext a) a s (ThmComplete.C48_complete false a D)) as (r & E & R1 & R2).
  exists [(r, format s a)]. split; [exact E|]. unfold Applied.
  assert (X : SpecAction.Edited [] ([] ++ gtext a ++ []) [(r, format s a)] ([] ++ format s a ++ [])).
  { apply Ed_edit; [|constructor]. destruct r as ((l & c) & (l' & c')). cbn [fst snd] in *. split; cbn [fst snd app].
    - apply (C10_position (gtext a) [] (gtext a) l c eq_refl). exact R1.
    - apply (C10_position (gtext a) (gtext a) [] l' c'); [now rewrite app_nil_r|]. exact R2. }
  cbn [app] in X. now rewrite !app_nil_r in X.
Qed.

(** ** Sessions *)

Section Session.
  Variable json : Type.
  Variable decode : method -> json -> option params.
  Variable decode_open : json -> option (uri * text).
  Variable decode_change : json -> option (uri * list text).
  Variable decode_close : json -> option uri.
  Variable legend : list string.
  Notation Sets := (Sets json decode_open decode_change).
  Notation Current := (Current json decode_open decode_change).
  Notation Running := (Running json decode decode_open decode_change decode_close legend the_formatter the_range_formatter false).
  Notation respond := (respond legend the_formatter the_range_formatter).
  (** What the server sends for each of the messages; the client does not pull
      diagnostics. *)
  Notation sent := (loop json decode decode_open decode_change decode_close legend the_formatter the_range_formatter false new_db).

  (** The history [l0], a message that sets the text of document [u] to [t],
      and further messages that do not. *)
  Definition Open (l : list (message json)) (k : nat) (u : uri) (t : text) : Prop :=
    exists l0 m mid, l = l0 ++ m :: mid /\ k = length l0 /\ Running l0 /\ Running l /\ Sets m u t
      /\ forall m' t', In m' mid -> ~ Sets m' u t'.
  Lemma open_current l k u t : Open l k u t -> Current l u t.
  Proof. intros (l0 & m & mid & -> & _ & _ & _ & S & N). exists l0, m, mid. auto. Qed.
  Lemma open_published l k u t r : Open l k u t -> exists ds, check t = Ans ds /\ nth_error (sent (l ++ r)) k = Some [OPublish u ds].
  Proof.
    intros (l0 & m & mid & -> & -> & R & _ & S & _). rewrite <- app_assoc. cbn [app].
    exact (C35_published json decode decode_open decode_change decode_close legend the_formatter the_range_formatter false l0 m u t (mid ++ r) R S).
  Qed.
  Lemma method_shutdown x : method_name x <> Text.T "shutdown".
  Proof. destruct x; vm_compute; discriminate. Qed.
  Lemma method_inj x y : method_name x = method_name y -> x = y.
  Proof. destruct x, y; (reflexivity || (intros H; vm_compute in H; discriminate H)). Qed.
  Lemma after_request l id m j p t a : Running l -> decode m j = Some p -> Current l (p_uri p) t -> respond m p t = Ans a ->
    Running (l ++ [Req id (method_name m) j]).
  Proof.
    intros R E C A. apply C35_goes_on; [exact R|]. split.
    - intros id' j' X. injection X as _ X _. exact (method_shutdown m X).
    - intros id' x j' p' X E'. injection X as _ X <-. apply method_inj in X. subst x. rewrite E in E'. injection E' as <-. left. eauto.
  Qed.
  Lemma after_note l m u t : Running l -> Sets m u t -> Running (l ++ [m]).
  Proof.
    intros R (j & [[-> _]|[-> _]]); apply C35_goes_on; try exact R; split; intros; discriminate.
  Qed.
  Lemma sent_request l id m j p t a r : Running l -> decode m j = Some p -> Current l (p_uri p) t -> respond m p t = Ans a ->
    nth_error (sent (l ++ Req id (method_name m) j :: r)) (length l) = Some [reply id a].
  Proof. intros. eapply C35_answered; eauto. Qed.
  (** A request, and then a message that sets the text. *)
  Lemma request_then l id m j p t a m1 t' r : Running l -> decode m j = Some p -> Current l (p_uri p) t -> respond m p t = Ans a -> Sets m1 (p_uri p) t' ->
    Open (l ++ [Req id (method_name m) j; m1]) (S (length l)) (p_uri p) t'
    /\ nth_error (sent (l ++ Req id (method_name m) j :: m1 :: r)) (length l) = Some [reply id a]
    /\ exists ds, check t' = Ans ds /\ nth_error (sent (l ++ Req id (method_name m) j :: m1 :: r)) (S (length l)) = Some [OPublish (p_uri p) ds].
  Proof.
    intros R E C A HS. pose proof (after_request l id m j p t a R E C A) as R1.
    assert (O : Open (l ++ [Req id (method_name m) j; m1]) (S (length l)) (p_uri p) t').
    { exists (l ++ [Req id (method_name m) j]), m1, []. rewrite <- app_assoc. cbn [app]. split; [reflexivity|].
      split; [rewrite app_length; cbn [length]; lia|]. split; [exact R1|]. split; [|split; [exact HS|intros ? ? []]].
      replace (l ++ [Req id (method_name m) j; m1]) with ((l ++ [Req id (method_name m) j]) ++ [m1]) by (rewrite <- app_assoc; reflexivity).
      eapply after_note; eauto. }
    split; [exact O|]. split; [eapply sent_request; eauto|].
    destruct (open_published _ _ _ _ r O) as (ds & Ed & P). rewrite <- app_assoc in P. eauto.
  Qed.

  Section OneEdit.
    Variables (l : list (message json)) (k : nat) (a : green) (p : params) (j : json) (id : N).
    (** The document [u] is open with the text of the well-formed [a]. *)
    Hypothesis (Ho : Open l k (p_uri p) (gtext a)) (Da : Document a).
    Lemma running_l : Running l.
    Proof. now destruct Ho as (l0 & m & mid & _ & _ & _ & R & _). Qed.

    (** Formatting: the answer has edits that give the formatted text, and when
        the client makes them and reports the new text, the diagnostics that
        are published are those published before, in the same places.  ([0 <
        p_tab]: the code divides by the tab size when it indents with tabs.) *)
    Theorem C57_formatting : decode MFormatting j = Some p -> p_spaces p = true \/ 0 < p_tab p -> Ordinary a -> NoDirective (Text.T "fmt-ignore") a ->
      exists es t', Applied (gtext a) es t' /\ forall m r, Sets m (p_uri p) t' ->
        let out := sent (l ++ Req id (Text.T "textDocument/formatting") j :: m :: r) in
        nth_error out (length l) = Some [OResult id (AEdits es)]
        /\ exists ds ds', nth_error out k = Some [OPublish (p_uri p) ds] /\ nth_error out (S (length l)) = Some [OPublish (p_uri p) ds']
             /\ Forall2 (SameDiagnostic (gtext a) t') ds ds'.
    Proof.
      intros E _ Or Nd. set (s := request_settings (p_tab p) (p_spaces p)).
      destruct (formatting_edit s a Da) as (es & F & Ap). destruct (ThmAlike.document_tree _ Da) as [Ta _].
      exists es, (format s a). split; [exact Ap|]. intros m r HS out.
      assert (A : respond MFormatting p (gtext a) = Ans (AEdits es)).
      { cbn [Service.respond]. rewrite Ta. unfold the_formatter. fold s. now rewrite F. }
      destruct (request_then l id MFormatting j p (gtext a) (AEdits es) m (format s a) r running_l E (open_current _ _ _ _ Ho) A HS) as (_ & Q1 & ds' & C' & Q2).
      split; [exact Q1|]. destruct (open_published _ _ _ _ (Req id (method_name MFormatting) j :: m :: r) Ho) as (ds & C & Q0).
      exists ds, ds'. split; [exact Q0|]. split; [exact Q2|].
      pose proof (C54_formatted a s Da Or Nd) as X. rewrite C, C' in X. now inversion X.
    Qed.
    (** The same for a range: whenever there is an answer. *)
    Theorem C57_range_formatting es : decode MRangeFormatting j = Some p -> p_spaces p = true \/ 0 < p_tab p -> Ordinary a -> NoDirective (Text.T "fmt-ignore") a ->
      range_formatting (request_settings (p_tab p) (p_spaces p)) (new_line_index (gtext a)) a (p_range p) = Ans es ->
      exists t', Applied (gtext a) es t' /\ forall m r, Sets m (p_uri p) t' ->
        let out := sent (l ++ Req id (Text.T "textDocument/rangeFormatting") j :: m :: r) in
        nth_error out (length l) = Some [OResult id (AEdits es)]
        /\ exists ds ds', nth_error out k = Some [OPublish (p_uri p) ds] /\ nth_error out (S (length l)) = Some [OPublish (p_uri p) ds']
             /\ Forall2 (SameDiagnostic (gtext a) t') ds ds'.
    Proof.
      intros E _ Or Nd F. set (s := request_settings (p_tab p) (p_spaces p)) in *.
      destruct (C49_range s false a (p_range p) es Da Or Nd F) as (t' & b & Ap & P & Bb & Db). destruct (ThmAlike.document_tree _ Da) as [Ta _].
      exists t'. split; [exact Ap|]. intros m r HS out.
      assert (A : respond MRangeFormatting p (gtext a) = Ans (AEdits es)).
      { cbn [Service.respond]. rewrite Ta. unfold the_range_formatter. fold s. now rewrite F. }
      destruct (request_then l id MRangeFormatting j p (gtext a) (AEdits es) m t' r running_l E (open_current _ _ _ _ Ho) A HS) as (_ & Q1 & ds' & C' & Q2).
      split; [exact Q1|]. destruct (open_published _ _ _ _ (Req id (method_name MRangeFormatting) j :: m :: r) Ho) as (ds & C & Q0).
      exists ds, ds'. split; [exact Q0|]. split; [exact Q2|].
      pose proof (bare_diagnostics a b Da Db (eq_sym Bb)) as X. rewrite (C02_no_errors_lossless _ _ _ P) in X. rewrite C, C' in X. now inversion X.
    Qed.
    (** Formatting again then changes nothing, under the conditions of C50. *)
    Theorem C57_formatting_again id2 j2 p2 : decode MFormatting j = Some p -> decode MFormatting j2 = Some p2 ->
      p_uri p2 = p_uri p -> p_tab p2 = p_tab p -> p_spaces p2 = p_spaces p -> p_spaces p = true \/ 0 < p_tab p ->
      Ordinary a -> NoDirective (Text.T "fmt-ignore") a -> NoLostComments a -> CompactTypeUses a -> NoCommentsBeforeAbbreviated a ->
      exists es t' es2, Applied (gtext a) es t' /\ Applied t' es2 t' /\ forall m r, Sets m (p_uri p) t' ->
        let out := sent (l ++ Req id (Text.T "textDocument/formatting") j :: m :: Req id2 (Text.T "textDocument/formatting") j2 :: r) in
        nth_error out (length l) = Some [OResult id (AEdits es)] /\ nth_error out (S (S (length l))) = Some [OResult id2 (AEdits es2)].
    Proof.
      intros E E2 U1 U2 U3 _ Or Nd Nl Ct Na. set (s := request_settings (p_tab p) (p_spaces p)).
      destruct (formatting_edit s a Da) as (es & F & Ap). destruct (ThmAlike.document_tree _ Da) as [Ta _].
      destruct (C50_idempotent_comments true a s 80 Da Or Nd request_worded (conj eq_refl eq_refl) Nl Ct Na) as (b & P & Fb).
      destruct (C49_reparses true a s Da Or Nd) as (b' & P' & _ & Db & _). rewrite P in P'. injection P' as <-.
      assert (Tb : gtext b = format s a) by (exact (C02_no_errors_lossless _ _ _ P)).
      destruct (formatting_edit s b Db) as (es2 & F2 & Ap2). rewrite Tb, Fb in Ap2. destruct (ThmAlike.document_tree _ Db) as [Tb' _]. rewrite Tb in Tb', F2.
      exists es, (format s a), es2. split; [exact Ap|]. split; [exact Ap2|]. intros m r HS out.
      assert (A : respond MFormatting p (gtext a) = Ans (AEdits es)).
      { cbn [Service.respond]. rewrite Ta. unfold the_formatter. fold s. now rewrite F. }
      assert (A2 : respond MFormatting p2 (format s a) = Ans (AEdits es2)).
      { cbn [Service.respond]. rewrite Tb'. unfold the_formatter. rewrite U2, U3. fold s. now rewrite F2. }
      destruct (request_then l id MFormatting j p (gtext a) (AEdits es) m (format s a) (Req id2 (Text.T "textDocument/formatting") j2 :: r)
        running_l E (open_current _ _ _ _ Ho) A HS) as (O2 & Q1 & _).
      split; [exact Q1|]. pose proof (open_current _ _ _ _ O2) as C2. rewrite <- U1 in C2.
      assert (R2 : Running (l ++ [Req id (method_name MFormatting) j; m])) by now destruct O2 as (l0 & ? & mid & _ & _ & _ & R & _).
      pose proof (sent_request _ id2 MFormatting j2 p2 (format s a) (AEdits es2) r R2 E2 C2 A2) as Q2.
      rewrite app_length in Q2. cbn [length] in Q2. rewrite Nat.add_comm in Q2. cbn [Nat.add] in Q2. rewrite <- app_assoc in Q2. exact Q2.
    Qed.

    (** Renaming to a new name, where the request edits all identifiers of the
        old name: the diagnostics published for the new text are those
        published before, up to the name. *)
    Theorem C57_rename old es : decode MRename j = Some p -> rename (gtext a) (p_pos p) (p_name p) = Edits es -> ~ SpecRename.Occurs a (p_name p) ->
      (forall t r, InTree a t -> Red.is_node t = false -> Red.ekind t = IDENT -> RangeOf (gtext a) t r ->
         (Red.etext t = old <-> exists e, In e es /\ fst e = r)) ->
      exists es' t', Permutation es es' /\ Applied (gtext a) es' t' /\ forall m r, Sets m (p_uri p) t' ->
        let out := sent (l ++ Req id (Text.T "textDocument/rename") j :: m :: r) in
        nth_error out (length l) = Some [OResult id (AEdits es)]
        /\ exists ds ds', nth_error out k = Some [OPublish (p_uri p) ds] /\ nth_error out (S (length l)) = Some [OPublish (p_uri p) ds']
             /\ Forall2 (RenamedDiagnostic (instead old (p_name p)) (gtext a) t') ds ds'.
    Proof.
      intros E Rn No Al. destruct (C55_rename true a (p_pos p) old (p_name p) es Da Rn No Al) as (es' & Pe & Ap & _ & _ & Ds).
      exists es', (gtext (with_names (instead old (p_name p)) a)). split; [exact Pe|]. split; [exact Ap|]. intros m r HS out.
      assert (A : respond MRename p (gtext a) = Ans (AEdits es)) by (cbn [Service.respond]; now rewrite Rn).
      destruct (request_then l id MRename j p (gtext a) (AEdits es) m _ r running_l E (open_current _ _ _ _ Ho) A HS) as (_ & Q1 & ds' & C' & Q2).
      split; [exact Q1|]. destruct (open_published _ _ _ _ (Req id (method_name MRename) j :: m :: r) Ho) as (ds & C & Q0).
      exists ds, ds'. split; [exact Q0|]. split; [exact Q2|]. rewrite C, C' in Ds. now inversion Ds.
    Qed.

    (** After the edits of a code action no syntax error is published. *)
    Theorem C57_code_action acts act : decode MCodeAction j = Some p -> SingleResults a ->
      code_action (gtext a) (p_wanted p) (fst (p_range p)) (snd (p_range p)) = Ans acts -> In act acts ->
      exists t', Applied (gtext a) (a_edits act) t' /\ forall m r, Sets m (p_uri p) t' ->
        let out := sent (l ++ Req id (Text.T "textDocument/codeAction") j :: m :: r) in
        nth_error out (length l) = Some [OResult id (AActions acts)]
        /\ exists ds, nth_error out (S (length l)) = Some [OPublish (p_uri p) ds]
             /\ forall d x, In d ds -> d_message d <> Text.T "syntax error: " ++ x.
    Proof.
      intros E Sr Ca Hin. destruct (C53_regrouped false a _ _ _ acts act Da Sr Ca Hin) as (b & Ap & _ & Db & P).
      exists (gtext b). split; [exact Ap|]. intros m r HS out.
      assert (A : respond MCodeAction p (gtext a) = Ans (AActions acts)) by (cbn [Service.respond]; now rewrite Ca).
      destruct (request_then l id MCodeAction j p (gtext a) (AActions acts) m _ r running_l E (open_current _ _ _ _ Ho) A HS) as (_ & Q1 & ds' & C' & Q2).
      split; [exact Q1|]. exists ds'. split; [exact Q2|]. intros d x Hd Ex.
      destruct (proj1 (check_syntax (gtext b) ds' d C')) as (e & He & _).
      - split; [exact Hd|]. rewrite Ex. reflexivity.
      - unfold errs_of in He. rewrite P in He. destruct He.
    Qed.
  End OneEdit.
End Session.
Print Assumptions C57_formatting.
Print Assumptions C57_formatting_again.
Print Assumptions C57_range_formatting.
Print Assumptions C57_rename.
Print Assumptions C57_code_action.

(** ** A session that meets the conditions *)

Definition ex_src : text := Text.T "(module (func $f (result i32)    (i32.add (i32.const 1) (call $f)(;one;)))   (global $f i32 (i32.const 0)) (;two;))".
Definition ex_p : params := mk_params ex_a (0, 15) ((0, 0), (0, 0)) [] (Text.T "$g") true (mk_wanted true true) 2 true.
Definition ex_opened : list (message ex_json) :=
  [Note (Text.T "textDocument/didOpen") (JText ex_a [ex_src]); Req 1 (Text.T "textDocument/hover") (JParams ex_p)].
Example C57_example :
  Open ex_json ex_decode ex_open ex_change ex_close [] ex_opened 0 (p_uri ex_p) (gtext (tree_of ex_src))
  /\ Document (tree_of ex_src) /\ Ordinary (tree_of ex_src) /\ NoDirective (Text.T "fmt-ignore") (tree_of ex_src) /\ NoLostComments (tree_of ex_src) /\ CompactTypeUses (tree_of ex_src)
  /\ NoCommentsBeforeAbbreviated (tree_of ex_src) /\ SingleResults (tree_of ex_src)
  /\ ex_decode MFormatting (JParams ex_p) = Some ex_p
  /\ format (request_settings 2 true) (tree_of ex_src) <> ex_src
  /\ match check ex_src with Ans ds => length ds | _ => 0 end = 2.
Proof.
  assert (E : gtext (tree_of ex_src) = ex_src) by (vm_compute; reflexivity).
  split; [|split; [|split; [|split; [|split; [|split; [|split; [|split; [|split; [|split]]]]]]]]].
  - rewrite E. exists [], (Note (Text.T "textDocument/didOpen") (JText ex_a [ex_src])), [Req 1 (Text.T "textDocument/hover") (JParams ex_p)].
    split; [reflexivity|]. split; [reflexivity|]. split; [split; [reflexivity|intros ? ? []]|].
    split; [split; [vm_compute; reflexivity|]|].
    + intros id j X. destruct X as [X|[X|[]]]; [discriminate|].
      apply (f_equal (fun m => match m with Req _ n _ => text_eqb n (Text.T "shutdown") | _ => false end)) in X. vm_compute in X. discriminate X.
    + split; [exists (JText ex_a [ex_src]); left; split; reflexivity|].
      intros m' t' [<-|[]] (j & [[Y _]|[Y _]]); discriminate Y.
  - apply ThmComplete.documentb_ok. vm_compute. reflexivity.
  - apply ordinaryb_ok. vm_compute. reflexivity.
  - apply (fineb_ok (tree_of ex_src)). vm_compute. reflexivity.
  - apply shown_eqb_eq. vm_compute. reflexivity.
  - apply compactb_ok. vm_compute. reflexivity.
  - apply guardedb_ok. vm_compute. reflexivity.
  - apply single_resultsb_ok. vm_compute. reflexivity.
  - reflexivity.
  - vm_compute. discriminate.
  - vm_compute. reflexivity.
Qed.
