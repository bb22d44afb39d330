(** The server answers each request once, from the current text (C35), and
    the features composed with the query engine (C34). *)

From Coq Require Import String List NArith Bool Arith Lia.
From Verif Require Import Text Kind Green SpecParser Lexer LexerFacts Winnow Grammar Sem Lossless Total
  Bounds Lang TokForm Shape Red Unique LineIndex Cursor Doc Ast Binder Preorder SpecBinder BinderFacts BinderDefs Blocks
  Nav NavSpec NavFacts ThmNav RefFacts ThmRefs SymCases InstrMeta Types Check CheckFacts SemTok Features Hover Action
  Completion Salsa SpecSalsa SalsaFacts ThmSalsa ThmCheck Service Server SpecServer.
Import ListNotations.

(** ** The programs of the handlers *)

Lemma view_sound {A} D u (f : of_view (ans A)) : Sound D (with_view u f).
Proof.
  unfold with_view, ask_line, ask_parse, ask_root, ask_table. cbn [Sound Proper].
  split; [exact I|]. intros [] _; try exact I. cbn [Sound Proper].
  split; [exact I|]. intros [] _; try exact I. cbn [Sound Proper].
  split; [exact I|]. intros [] _; try exact I. cbn [Sound Proper].
  split; [exact I|]. intros [] _; try exact I. destruct f; exact I.
Qed.
Lemma view_pure {A} D u (f : of_view (ans A)) : pure D (with_view u f)
  = match D u with
    | Some t => some_or_panic (f (syntax_diags t) (create_symbol_table (tree_of t)) (tree_of t) (new_line_index t))
    | None => None
    end.
Proof.
  unfold with_view, ask_line, ask_parse, ask_root, ask_table. cbn [pure fresh].
  destruct (D u) as [t|] eqn:E; [|reflexivity]. cbn [option_map pure fresh]. rewrite E.
  destruct (syntax_fine t) as (ds & S & _). rewrite S.
  cbn [some_or_panic option_map pure fresh]. rewrite E. cbn [option_map pure fresh]. rewrite E, table_spec.
  cbn [option_map]. destruct f; reflexivity.
Qed.

Section Handlers.
  Variable legend : list string.
  Variable fmt rfmt : green -> line_index -> params -> ans (list (range * text)).

  (** Every handler is a function of the four queries. *)
  Lemma respond_core_spec m p t : respond legend fmt rfmt m p t
    = respond_core legend fmt rfmt m p (syntax_diags t) (create_symbol_table (tree_of t)) (tree_of t) (new_line_index t).
  Proof. destruct m; reflexivity. Qed.
  Lemma handler_sound D m p : Sound D (handler legend fmt rfmt m p).
  Proof. destruct m; try apply view_sound. cbn [handler]. destruct valid_name; [apply view_sound|exact I]. Qed.
  Lemma rename_bad t p : valid_name (p_name p) = false ->
    respond legend fmt rfmt MRename p t = Ans (AError (bad_name (p_name p))).
  Proof. intros V. cbn [respond]. unfold rename. now rewrite V. Qed.

  (** The answer of a handler: that of the modelled feature on the current
      text; none (a panic) when the document has no text, except that an
      invalid new name is refused first. *)
  Lemma handler_pure D m p : pure D (handler legend fmt rfmt m p)
    = match D (p_uri p) with
      | Some t => some_or_panic (respond legend fmt rfmt m p t)
      | None => match m with
                | MRename => if valid_name (p_name p) then None else Some (AError (bad_name (p_name p)))
                | _ => None
                end
      end.
  Proof.
    destruct m; cbn [handler]; try (rewrite view_pure; destruct (D (p_uri p)); [now rewrite respond_core_spec|reflexivity]).
    destruct (valid_name (p_name p)) eqn:V.
    - rewrite view_pure. destruct (D (p_uri p)); [now rewrite respond_core_spec|reflexivity].
    - destruct (D (p_uri p)); [|reflexivity]. now rewrite rename_bad.
  Qed.
End Handlers.

Lemma diagnostics_pure D u : pure D (diagnostics_prog u) = match D u with Some t => some_or_panic (check t) | None => None end.
Proof. unfold diagnostics_prog. rewrite view_pure. destruct (D u); reflexivity. Qed.

(** ** Methods *)

Definition method_of (name : text) : option method := find (fun m => text_eqb name (method_name m)) tried.
Lemma method_of_name m : method_of (method_name m) = Some m.
Proof. destruct m; vm_compute; reflexivity. Qed.
Lemma method_name_inj a b : method_name a = method_name b -> a = b.
Proof. intros E. pose proof (method_of_name a) as X. rewrite E, method_of_name in X. congruence. Qed.
Lemma all_tried m : In m tried.
Proof. destruct m; cbn; tauto. Qed.

(** ** One call into the service *)

Lemma call_ok {A} H d (p : prog A) : Inv H d -> Sound (H (now d)) p ->
  match run (refresh depth) p d with
  | Done (a, _, _) d' => Inv H d' /\ now d' = now d /\ pure (H (now d)) p = Some a
  | Dead => pure (H (now d)) p = None
  | NoFuel => False
  end.
Proof.
  intros I S. pose proof (run_ok H depth depth p (refresh_ok H depth) (le_n _) d I (sound_polite _ _ S)) as X.
  destruct (run (refresh depth) p d) as [[[a qs] c] d'| |]; [|exact X|exact X].
  destruct X as (I' & (N & _) & T & _). split; [exact I'|]. split; [exact N|]. eapply trace_pure, T.
Qed.

Section Server.
  Variable json : Type.
  Variable decode : method -> json -> option params.
  Variable decode_open : json -> option (uri * text).
  Variable decode_change : json -> option (uri * list text).
  Variable decode_close : json -> option uri.
  Variable legend : list string.
  Variable fmt rfmt : green -> line_index -> params -> ans (list (range * text)).
  Variable pull : bool.

  Notation step := (step json decode decode_open decode_change decode_close legend fmt rfmt pull).
  Notation loop := (loop json decode decode_open decode_change decode_close legend fmt rfmt pull).
  Notation Sets := (Sets json decode_open decode_change).
  Notation Current := (Current json decode_open decode_change).
  Notation respond := (respond legend fmt rfmt).

  (** ** What the database knows after some messages *)

  Definition Knows (D : docs) (l : list (message json)) : Prop := forall u t, D u = Some t <-> Current l u t.
  Definition State (d : db) (l : list (message json)) : Prop := exists H, Inv H d /\ Knows (H (now d)) l.

  Lemma sets_fun m u t u' t' : Sets m u t -> Sets m u' t' -> u = u' /\ t = t'.
  Proof.
    intros (j & [[-> E]|[-> (r & E)]]) (j' & [[X E']|[X (r' & E')]]); injection X as; try discriminate; subst;
      rewrite E in E'; injection E'; auto.
  Qed.
  Lemma current_snoc l m u t : Current (l ++ [m]) u t <-> Sets m u t \/ (Current l u t /\ forall t', ~ Sets m u t').
  Proof.
    split.
    - intros (a & m' & b & E & S & N). destruct (exists_last (l := m' :: b)) as (b' & x & Eb); [discriminate|].
      rewrite Eb, app_assoc in E. apply app_inj_tail in E as [-> <-]. destruct b' as [|y b'].
      + injection Eb as -> ->. now left.
      + injection Eb as -> ->. right. split.
        * exists a, y, b'. split; [reflexivity|]. split; [exact S|]. intros m' t' Hm. apply N. apply in_or_app. now left.
        * intros t'. apply N. apply in_or_app. right. now left.
    - intros [S|[(a & x & b & -> & S & N) X]].
      + exists l, m, []. split; [reflexivity|]. split; [exact S|]. intros ? ? [].
      + exists a, x, (b ++ [m]). split; [now rewrite <- app_assoc|]. split; [exact S|].
        intros m' t' Hm. apply in_app_or in Hm as [Hm|[<-|[]]]; [now apply N|apply X].
  Qed.
  Lemma knows_same D l m : Knows D l -> (forall u t, ~ Sets m u t) -> Knows D (l ++ [m]).
  Proof. intros K N u t. rewrite current_snoc, (K u t). split; [|intros [S|[C _]]; [now apply N in S|exact C]]. intros C. right. split; [exact C|]. intros t'. apply N. Qed.
  Lemma knows_set D l m u t : Knows D l -> Sets m u t -> Knows (set_doc u t D) (l ++ [m]).
  Proof.
    intros K S u' t'. rewrite current_snoc. unfold set_doc. destruct (text_eqb u u') eqn:E.
    - apply text_eqb_eq in E as <-. split.
      + intros X. injection X as <-. now left.
      + intros [S'|[_ X]]; [|now apply X in S]. now destruct (sets_fun _ _ _ _ _ S S') as [_ ->].
    - assert (u <> u') by (intros ->; rewrite (proj2 (text_eqb_eq u' u') eq_refl) in E; discriminate).
      rewrite (K u' t'). split.
      + intros C. right. split; [exact C|]. intros t0 S'. now destruct (sets_fun _ _ _ _ _ S S') as [X _].
      + intros [S'|[C _]]; [|exact C]. now destruct (sets_fun _ _ _ _ _ S S') as [X _].
  Qed.
  Lemma new_state : State new_db [].
  Proof.
    exists (fun _ => no_docs). split; [apply new_inv|]. intros u t. split; [discriminate|].
    intros (a & m & b & E & _). destruct a; discriminate.
  Qed.

  (** ** One message *)

  Lemma serve_request_ok d l id m p : State d l ->
    match serve_request legend fmt rfmt id m p d with
    | Going o d' => State d' l /\ exists H a, Inv H d /\ Knows (H (now d)) l
        /\ pure (H (now d)) (handler legend fmt rfmt m p) = Some a
        /\ o = [match a with AError e => OError id e | _ => OResult id a end]
    | Ended _ => False
    | Crashed => exists H, Knows (H (now d)) l /\ pure (H (now d)) (handler legend fmt rfmt m p) = None
    end.
  Proof.
    intros (H & I & K). unfold serve_request. pose proof (call_ok H d _ I (handler_sound legend fmt rfmt _ m p)) as X.
    destruct (run _ _ d) as [[[a qs] c] d'| |].
    - destruct X as (I' & N & P). split; [exists H; rewrite N; auto|]. exists H, a. auto.
    - exists H. auto.
    - destruct X.
  Qed.
  Lemma publish_ok d l u t : State d l -> Current l u t ->
    match publish u d with
    | Going o d' => State d' l /\ exists ds, check t = Ans ds /\ o = [OPublish u ds]
    | _ => False
    end.
  Proof.
    intros (H & I & K) C. unfold publish. pose proof (call_ok H d _ I (view_sound _ u check_core)) as X.
    fold (diagnostics_prog u) in X. apply (K u t) in C.
    assert (P : exists ds, check t = Ans ds /\ pure (H (now d)) (diagnostics_prog u) = Some ds).
    { rewrite diagnostics_pure, C. destruct (C38_in_document t) as (ds & -> & _). exists ds. auto. }
    destruct P as (ds & E & P).
    destruct (run _ _ d) as [[[a qs] c] d'| |].
    - destruct X as (I' & N & P'). split; [exists H; rewrite N; auto|]. exists ds. split; [exact E|]. congruence.
    - congruence.
    - destruct X.
  Qed.
  Lemma commit_state d l m u t : State d l -> Sets m u t -> State (commit u t d) (l ++ [m]).
  Proof.
    intros (H & I & K) S. eexists. split; [apply commit_inv, I|]. cbn [commit now].
    destruct (Nat.leb_spec (Datatypes.S (now d)) (now d)); [lia|]. now apply knows_set.
  Qed.
  Lemma set_text_ok d l m u t : State d l -> Sets m u t ->
    match set_text pull u t d with
    | Going o d' => State d' (l ++ [m]) /\ (if pull then o = [] else exists ds, check t = Ans ds /\ o = [OPublish u ds])
    | _ => False
    end.
  Proof.
    intros S X. pose proof (commit_state d l m u t S X) as S'. unfold set_text. destruct pull; [auto|].
    apply publish_ok; [exact S'|]. apply current_snoc. now left.
  Qed.

  Lemma try_spec ms id m j d : In m ms -> try_requests json decode legend fmt rfmt ms id (method_name m) j d
    = match decode m j with Some p => serve_request legend fmt rfmt id m p d | None => Going [] d end.
  Proof.
    induction ms as [|x r IH]; [intros []|]. intros Hm. cbn [try_requests].
    destruct (text_eqb (method_name m) (method_name x)) eqn:E.
    - apply text_eqb_eq in E. now rewrite (method_name_inj _ _ E).
    - destruct Hm as [->|Hm]; [|now apply IH]. now rewrite (proj2 (text_eqb_eq _ _) eq_refl) in E.
  Qed.
  Lemma try_other ms id name j d : (forall m, name <> method_name m) -> try_requests json decode legend fmt rfmt ms id name j d = Going [] d.
  Proof.
    intros N. induction ms as [|x r IH]; [reflexivity|]. cbn [try_requests].
    destruct (text_eqb name (method_name x)) eqn:E; [|exact IH]. apply text_eqb_eq in E. now apply N in E.
  Qed.
  Lemma known_or name : (exists m, name = method_name m) \/ (forall m, name <> method_name m).
  Proof.
    destruct (method_of name) as [m|] eqn:F.
    - left. exists m. apply find_some in F as [_ F]. now apply text_eqb_eq in F.
    - right. intros m ->. now rewrite method_of_name in F.
  Qed.
  Lemma request_step id m j d : step (Req id (method_name m) j) d
    = match decode m j with Some p => serve_request legend fmt rfmt id m p d | None => Going [] d end.
  Proof.
    cbn [Server.step]. replace (text_eqb (method_name m) shutdown) with false by (destruct m; vm_compute; reflexivity).
    apply try_spec, all_tried.
  Qed.

  Lemma step_ok d l m : State d l ->
    match step m d with
    | Going o d' => State d' (l ++ [m])
    | _ => True
    end.
  Proof.
    intros S. assert (K : (forall u t, ~ Sets m u t) -> State d (l ++ [m])).
    { intros N. destruct S as (H & I & K). exists H. split; [exact I|]. now apply knows_same. }
    destruct m as [id name j|name j|id].
    - assert (N : forall u t, ~ Sets (Req id name j) u t) by (intros u t (j' & [[X _]|[X _]]); discriminate).
      specialize (K N). destruct (known_or name) as [(m & ->)|O].
      + rewrite request_step. destruct (decode m j) as [p|]; [|exact K].
        pose proof (serve_request_ok d _ id m p K) as X. destruct (serve_request _ _ _ id m p d); try exact I. apply X.
      + cbn [Server.step]. destruct text_eqb; [exact I|]. now rewrite try_other.
    - cbn [Server.step]. destruct (text_eqb name did_open) eqn:E1.
      { apply text_eqb_eq in E1 as ->. destruct (decode_open j) as [[u t]|] eqn:E.
        - pose proof (set_text_ok d l _ u t S (ex_intro _ j (or_introl (conj eq_refl E)))) as X.
          destruct (set_text pull u t d); try exact I. apply X.
        - apply K. intros u t (j' & [[X Y]|[X _]]); injection X as; subst; congruence. }
      destruct (text_eqb name did_change) eqn:E2.
      { apply text_eqb_eq in E2 as ->. destruct (decode_change j) as [[u [|t r]]|] eqn:E.
        - apply K. intros v t (j' & [[X _]|[X (r & Y)]]); injection X as; subst; congruence.
        - pose proof (set_text_ok d l _ u t S (ex_intro _ j (or_intror (conj eq_refl (ex_intro _ r E))))) as X.
          destruct (set_text pull u t d); try exact I. apply X.
        - apply K. intros v t (j' & [[X _]|[X (r & Y)]]); injection X as; subst; congruence. }
      assert (N : forall u t, ~ Sets (Note name j) u t).
      { intros u t (j' & [[X _]|[X _]]); injection X as -> _; vm_compute in E1, E2; discriminate. }
      destruct (text_eqb name did_close); [destruct (decode_close j)|]; auto.
    - cbn [Server.step]. apply K. intros u t (j' & [[X _]|[X _]]); discriminate.
  Qed.

  Lemma request_not_ended id m p d o : serve_request legend fmt rfmt id m p d <> Ended o.
  Proof. unfold serve_request. generalize (handler legend fmt rfmt m p). intros q. destruct (run (refresh depth) q d) as [[[a qs] c] d'| |]; discriminate. Qed.
  Lemma set_text_not_ended u t d o : set_text pull u t d <> Ended o.
  Proof.
    unfold set_text, publish. destruct pull; [discriminate|]. generalize (diagnostics_prog u). intros q.
    destruct (run (refresh depth) q (commit u t d)) as [[[a qs] c] d'| |]; discriminate.
  Qed.
  Lemma step_ended m d o : step m d = Ended o -> exists id j, m = Req id (T "shutdown") j.
  Proof.
    intros Es. destruct m as [id name j|name j|id].
    - destruct (known_or name) as [(m & ->)|O].
      + rewrite request_step in Es. destruct (decode m j); [|discriminate]. now apply request_not_ended in Es.
      + cbn [Server.step] in Es. destruct (text_eqb name shutdown) eqn:E; [apply text_eqb_eq in E as ->; eauto|].
        rewrite try_other in Es; [discriminate|exact O].
    - exfalso. cbn [Server.step] in Es. destruct (text_eqb name did_open).
      { destruct (decode_open j) as [[u t]|]; [|discriminate]. now apply set_text_not_ended in Es. }
      destruct (text_eqb name did_change).
      { destruct (decode_change j) as [[u [|t r]]|]; try discriminate. now apply set_text_not_ended in Es. }
      destruct (text_eqb name did_close); [destruct (decode_close j)|]; discriminate.
    - discriminate.
  Qed.
  Lemma step_crashed d l m : State d l -> step m d = Crashed ->
    exists id x j p, m = Req id (method_name x) j /\ decode x j = Some p /\ serve_request legend fmt rfmt id x p d = Crashed.
  Proof.
    intros S Es. destruct m as [id name j|name j|id].
    - destruct (known_or name) as [(m & ->)|O].
      + rewrite request_step in Es. destruct (decode m j) as [p|] eqn:E; [|discriminate]. exists id, m, j, p. auto.
      + cbn [Server.step] in Es. destruct text_eqb; [discriminate|]. rewrite try_other in Es; [discriminate|exact O].
    - exfalso. cbn [Server.step] in Es. destruct (text_eqb name did_open) eqn:E1.
      { apply text_eqb_eq in E1 as ->. destruct (decode_open j) as [[u t]|] eqn:E; [|discriminate].
        pose proof (set_text_ok d l _ u t S (ex_intro _ j (or_introl (conj eq_refl E)))) as X. now rewrite Es in X. }
      destruct (text_eqb name did_change) eqn:E2.
      { apply text_eqb_eq in E2 as ->. destruct (decode_change j) as [[u [|t r]]|] eqn:E; try discriminate.
        pose proof (set_text_ok d l _ u t S (ex_intro _ j (or_intror (conj eq_refl (ex_intro _ r E))))) as X. now rewrite Es in X. }
      destruct (text_eqb name did_close); [destruct (decode_close j)|]; discriminate.
    - discriminate.
  Qed.

  Definition Answers (m : message json) (r : outcome) : Prop :=
    match r with
    | Going x _ | Ended x => forall o id, In o x -> Response id o -> x = [o] /\ exists name j, m = Req id name j
    | Crashed => True
    end.
  Lemma step_outputs m d : Answers m (step m d).
  Proof.
    assert (E0 : forall d', Answers m (Going [] d')) by (intros d' o id []).
    destruct m as [i name j|name j|i].
    - destruct (known_or name) as [(m & ->)|O].
      + rewrite request_step. destruct (decode m j) as [p|]; [|apply E0].
        unfold serve_request. generalize (handler legend fmt rfmt m p). intros q.
        destruct (run (refresh depth) q d) as [[[a qs] c] d'| |]; try exact I.
        intros o id [<-|[]] R. split; [reflexivity|]. exists (method_name m), j. destruct a; cbn in R; now subst i.
      + cbn [Server.step]. destruct (text_eqb name shutdown); [|rewrite try_other by exact O; apply E0].
        intros o id [<-|[]] R. cbn in R. subst i. eauto.
    - assert (P : forall u l d', Answers (Note name j) (Going [OPublish u l] d')) by (intros u l d' o id [<-|[]] []).
      assert (Q : forall u t, Answers (Note name j) (set_text pull u t d)).
      { intros u t. unfold set_text, publish. destruct pull; [apply E0|]. generalize (diagnostics_prog u). intros q.
        destruct (run (refresh depth) q (commit u t d)) as [[[a qs] c] d'| |]; [apply P|exact I|exact I]. }
      cbn [Server.step]. destruct (text_eqb name did_open); [destruct (decode_open j) as [[u t]|]; auto|].
      destruct (text_eqb name did_change); [destruct (decode_change j) as [[u [|t r]]|]; auto|].
      destruct (text_eqb name did_close); [destruct (decode_close j)|]; auto.
    - apply E0.
  Qed.

  (** The server handled these messages and is waiting for the next one. *)
  Definition Running (l : list (message json)) : Prop :=
    length (loop new_db l) = length l /\ forall id j, ~ In (Req id (T "shutdown") j) l.

  Lemma running_state l : Running l -> exists d, State d l /\ forall r, loop new_db (l ++ r) = loop new_db l ++ loop d r.
  Proof.
    intros [E N]. cut (forall l0 d0, State d0 l0 -> length (loop d0 l) = length l ->
      exists d, State d (l0 ++ l) /\ forall r, loop d0 (l ++ r) = loop d0 l ++ loop d r).
    { intros X. exact (X [] new_db new_state E). }
    clear E. induction l as [|m l IH]; intros l0 d0 S E.
    - exists d0. rewrite List.app_nil_r. auto.
    - pose proof (step_ok d0 l0 m S) as X. cbn [Server.loop app] in *.
      destruct (step m d0) as [o d1|o|] eqn:Es.
      + destruct (IH (fun id j Hj => N id j (or_intror Hj)) (l0 ++ [m]) d1 X) as (d & S' & F); [cbn in E; lia|].
        exists d. rewrite <- app_assoc in S'. split; [exact S'|]. intros r. cbn [app]. now rewrite F.
      + exfalso. destruct (step_ended _ _ _ Es) as (id & j & ->). apply (N id j). now left.
      + discriminate.
  Qed.

  Lemma at_next l m r : Running l -> exists d, State d l /\
    forall o d', step m d = Going o d' -> nth_error (loop new_db (l ++ m :: r)) (length l) = Some o.
  Proof.
    intros R. destruct (running_state l R) as (d & S & F). exists d. split; [exact S|]. intros o d' E.
    rewrite F, nth_error_app2 by (destruct R as [-> _]; lia). destruct R as [-> _]. rewrite Nat.sub_diag.
    cbn [Server.loop]. now rewrite E.
  Qed.

  (** ** C35: a request is answered from the current text *)

  Theorem C35_answered l id m j p t a r : Running l -> decode m j = Some p -> Current l (p_uri p) t ->
    respond m p t = Ans a ->
    nth_error (loop new_db (l ++ Req id (method_name m) j :: r)) (length l) = Some [reply id a].
  Proof.
    intros R E C A. destruct (at_next l (Req id (method_name m) j) r R) as (d & S & F).
    pose proof (serve_request_ok d l id m p S) as X. rewrite request_step, E in F.
    destruct (serve_request legend fmt rfmt id m p d) as [o d'|o|].
    - destruct X as (_ & H & a' & _ & K & P & ->). apply (K (p_uri p) t) in C. rewrite handler_pure, C, A in P.
      cbn [some_or_panic] in P. injection P as <-. exact (F _ _ eq_refl).
    - destruct X.
    - destruct X as (H & K & P). apply (K (p_uri p) t) in C. rewrite handler_pure, C, A in P. discriminate.
  Qed.

  (** Whatever is sent in response to a request is sent while that request is
      handled, and is all that is sent then. *)
  Theorem C35_no_other_response l k os o id : nth_error (loop new_db l) k = Some os -> In o os -> Response id o ->
    os = [o] /\ exists name j, nth_error l k = Some (Req id name j).
  Proof.
    generalize new_db. intros d H Ho Hr. revert d k H. induction l as [|m l IH]; intros d k H; [destruct k; discriminate|].
    cbn [Server.loop] in H. pose proof (step_outputs m d) as Z. destruct (step m d) as [x d'|x|].
    - destruct k as [|k]; cbn [nth_error] in H |- *.
      + injection H as <-. destruct (Z o id Ho Hr) as (-> & name & j & ->). eauto.
      + eapply IH, H.
    - destruct k as [|k]; cbn [nth_error] in H |- *; [|destruct k; discriminate].
      injection H as <-. destruct (Z o id Ho Hr) as (-> & name & j & ->). eauto.
    - destruct k; discriminate.
  Qed.

  (** Diagnostics are published for each new text, unless the client pulls
      them; closing a document publishes none and keeps its text. *)
  Theorem C35_published l m u t r : Running l -> Sets m u t ->
    exists ds, check t = Ans ds /\ nth_error (loop new_db (l ++ m :: r)) (length l) = Some (if pull then [] else [OPublish u ds]).
  Proof.
    intros R X. destruct (at_next l m r R) as (d & S & F). pose proof (set_text_ok d l m u t S X) as Y.
    assert (E : step m d = set_text pull u t d).
    { destruct X as (j & [[-> E]|[-> (cs & E)]]); cbn [Server.step].
      - replace (text_eqb (T "textDocument/didOpen") did_open) with true by (vm_compute; reflexivity). now rewrite E.
      - replace (text_eqb (T "textDocument/didChange") did_open) with false by (vm_compute; reflexivity).
        replace (text_eqb (T "textDocument/didChange") did_change) with true by (vm_compute; reflexivity). now rewrite E. }
    rewrite E in F. destruct (C38_in_document t) as (ds & Ec & _). exists ds. split; [exact Ec|].
    destruct (set_text pull u t d) as [o d'|o|]; [|destruct Y|destruct Y]. destruct Y as (_ & Y). rewrite (F _ _ eq_refl).
    f_equal. destruct pull; [exact Y|]. destruct Y as (ds' & E' & ->). congruence.
  Qed.
  Theorem C35_closed l j u r : Running l -> decode_close j = Some u ->
    nth_error (loop new_db (l ++ Note (T "textDocument/didClose") j :: r)) (length l) = Some [OPublish u []].
  Proof.
    intros R X. destruct (at_next l (Note (T "textDocument/didClose") j) r R) as (d & S & F). eapply F.
    cbn [Server.step].
    replace (text_eqb (T "textDocument/didClose") did_open) with false by (vm_compute; reflexivity).
    replace (text_eqb (T "textDocument/didClose") did_change) with false by (vm_compute; reflexivity).
    replace (text_eqb (T "textDocument/didClose") did_close) with true by (vm_compute; reflexivity).
    now rewrite X.
  Qed.

  (** ** What stops the server *)

  (** The server goes on after every message except [shutdown] and a request
      whose handler panics: one for a document without text, or one on whose
      text the feature panics. *)
  Theorem C35_goes_on l m : Running l ->
    (Running (l ++ [m]) <->
     (forall id j, m <> Req id (T "shutdown") j)
     /\ forall id x j p, m = Req id (method_name x) j -> decode x j = Some p ->
          (exists t a, Current l (p_uri p) t /\ respond x p t = Ans a)
          \/ ((forall t, ~ Current l (p_uri p) t) /\ x = MRename /\ valid_name (p_name p) = false)).
  Proof.
    intros R. destruct (running_state l R) as (d & S & F).
    assert (G : Running (l ++ [m]) <-> exists o d', step m d = Going o d').
    { unfold Running. rewrite F, !app_length. destruct R as [-> N]. cbn [length Server.loop]. split.
      - intros [L X]. destruct (step m d) as [o d'|o|] eqn:E; [eauto|exfalso|cbn in L; lia].
        pose proof (step_ended m d o E) as (id & j & ->). apply (X id j). apply in_or_app. right. now left.
      - intros (o & d' & E). rewrite E. cbn [length]. split; [lia|]. intros id j X. apply in_app_or in X as [X|[->|[]]]; [now apply N in X|].
        cbn [Server.step] in E. replace (text_eqb (T "shutdown") shutdown) with true in E by (vm_compute; reflexivity). discriminate. }
    rewrite G. clear G F. split.
    - intros (o & d' & E). split.
      + intros id j ->. cbn [Server.step] in E. replace (text_eqb (T "shutdown") shutdown) with true in E by (vm_compute; reflexivity). discriminate.
      + intros id x j p -> Ed. rewrite request_step, Ed in E. pose proof (serve_request_ok d l id x p S) as X. rewrite E in X.
        destruct X as (_ & H & a & _ & K & P & _). rewrite handler_pure in P. destruct (H (now d) (p_uri p)) as [t|] eqn:Et.
        * left. exists t. apply (K (p_uri p) t) in Et. destruct (respond x p t) as [b| |]; try discriminate. eauto.
        * right. split; [intros t C; apply (K (p_uri p) t) in C; congruence|]. destruct x; try discriminate. split; [reflexivity|].
          now destruct (valid_name (p_name p)).
    - intros [N X]. destruct (step m d) as [o d'|o|] eqn:E; [eauto| |].
      + destruct (step_ended m d o E) as (id & j & ->). exfalso. now apply (N id j).
      + exfalso. destruct (step_crashed d l m S E) as (id & x & j & p & -> & Ed & Es).
        pose proof (serve_request_ok d l id x p S) as Y. rewrite Es in Y. destruct Y as (H & K & P). rewrite handler_pure in P.
        destruct (X id x j p eq_refl Ed) as [(t & a & C & A)|(C & -> & V)].
        * apply (K (p_uri p) t) in C. rewrite C, A in P. discriminate.
        * destruct (H (now d) (p_uri p)) as [t|] eqn:Et; [apply (K (p_uri p) t), C in Et; destruct Et|]. now rewrite V in P.
  Qed.
  (** Once it stopped, nothing is sent any more. *)
  Theorem C35_stopped l m r : Running l -> ~ Running (l ++ [m]) -> loop new_db (l ++ m :: r) = loop new_db (l ++ [m]).
  Proof.
    intros R N. destruct (running_state l R) as (d & S & F). rewrite !F. f_equal. cbn [Server.loop].
    destruct (step m d) as [o d'|o|] eqn:E; [|reflexivity|reflexivity]. exfalso. apply N. split.
    - rewrite F, !app_length. destruct R as [-> _]. cbn [Server.loop]. now rewrite E.
    - intros id j X. destruct R as [_ R]. apply in_app_or in X as [X|[->|[]]]; [now apply R in X|].
      cbn [Server.step] in E. replace (text_eqb (T "shutdown") shutdown) with true in E by (vm_compute; reflexivity). discriminate.
  Qed.

  (** ** Messages that are not answered *)

  (** A request of another method, or whose parameters do not decode, gets no
      response at all; other notifications are ignored. *)
  Theorem C35_unanswered l m r : Running l ->
    match m with
    | Req id name j => name <> T "shutdown" /\ forall x, name = method_name x -> decode x j = None
    | Note name j => name <> T "textDocument/didOpen" /\ name <> T "textDocument/didChange" /\ name <> T "textDocument/didClose"
    | Resp _ => True
    end -> nth_error (loop new_db (l ++ m :: r)) (length l) = Some [].
  Proof.
    intros R X. destruct (at_next l m r R) as (d & S & F). apply (F [] d). destruct m as [id name j|name j|id]; [| |reflexivity].
    - destruct X as [N X]. destruct (known_or name) as [(x & ->)|O].
      + rewrite request_step. now rewrite (X x eq_refl).
      + cbn [Server.step]. destruct (text_eqb name shutdown) eqn:E; [now apply text_eqb_eq in E|]. now apply try_other.
    - destruct X as (A & B & C). cbn [Server.step].
      destruct (text_eqb name did_open) eqn:E; [now apply text_eqb_eq in E|].
      destruct (text_eqb name did_change) eqn:E2; [now apply text_eqb_eq in E2|].
      destruct (text_eqb name did_close) eqn:E3; [now apply text_eqb_eq in E3|]. reflexivity.
  Qed.

  (** [shutdown] is answered, and then the server ends. *)
  Theorem C35_shutdown l id j r : Running l ->
    loop new_db (l ++ Req id (T "shutdown") j :: r) = loop new_db l ++ [[OShutdown id]].
  Proof.
    intros R. destruct (running_state l R) as (d & S & F). rewrite F. f_equal.
  Qed.
End Server.

(** ** A session *)

Inductive ex_json : Type := JText (u : uri) (ts : list text) | JParams (p : params) | JBad.
Definition ex_decode (m : method) (j : ex_json) : option params := match j with JParams p => Some p | _ => None end.
Definition ex_open (j : ex_json) : option (uri * text) := match j with JText u (t :: _) => Some (u, t) | _ => None end.
Definition ex_change (j : ex_json) : option (uri * list text) := match j with JText u ts => Some (u, ts) | _ => None end.
Definition ex_close (j : ex_json) : option uri := match j with JText u _ => Some u | _ => None end.
Definition ex_fmt (g : green) (l : line_index) (p : params) : ans (list (range * text)) := NoAns.
Definition ex_params (u : uri) (c : nat) : params :=
  mk_params u (0, c) ((0, 0), (0, 0)) [] [] true (mk_wanted true true) 2 true.
Definition ex_loop (pull : bool) : list (message ex_json) -> list (list output) :=
  loop ex_json ex_decode ex_open ex_change ex_close [] ex_fmt ex_fmt pull new_db.

Definition ex_a : uri := Text.T "file:///a.wat".
Definition ex_t1 : text := Text.T "(module (func $f))".
Definition ex_t2 : text := Text.T "(module (func $g (param i32)))".
Definition ex_session : list (message ex_json) :=
  [Note (Text.T "textDocument/didOpen") (JText ex_a [ex_t1]);
   Req 1 (Text.T "textDocument/hover") (JParams (ex_params ex_a 15));
   Note (Text.T "textDocument/didChange") (JText ex_a [ex_t2; ex_t1]);
   Req 2 (Text.T "textDocument/hover") (JParams (ex_params ex_a 15));
   Note (Text.T "textDocument/didClose") (JText ex_a []);
   Req 3 (Text.T "textDocument/hover") (JParams (ex_params ex_a 15));
   Req 4 (Text.T "textDocument/rename") (JParams (ex_params ex_a 15));
   Note (Text.T "exit") JBad].

(** What is sent, less the ranges and contents. *)
Definition brief (o : output) : N * bool :=
  match o with
  | OResult id a => (id, true)
  | OError id _ => (id, false)
  | OShutdown id => (id, true)
  | OPublish _ l => (100 + N.of_nat (length l), true)%N
  end.
Example C35_example :
  Running ex_json ex_decode ex_open ex_change ex_close [] ex_fmt ex_fmt false ex_session
  /\ map (map brief) (ex_loop false ex_session)
     = [[(100, true)]; [(1, true)]; [(100, true)]; [(2, true)]; [(100, true)]; [(3, true)]; [(4, false)]; []]%N
  /\ Current ex_json ex_open ex_change ex_session ex_a ex_t2
  /\ (exists h, respond [] ex_fmt ex_fmt MHover (ex_params ex_a 15) ex_t2 = Ans (AHover h)
         /\ nth_error (ex_loop false ex_session) 3 = Some [reply 2 (AHover h)]).
Proof.
  split; [split; [vm_compute; reflexivity|]|].
  { intros id j X. cbn [ex_session In] in X. repeat destruct X as [X|X]; try discriminate X; try destruct X;
      apply (f_equal (fun m => match m with Req _ n _ => text_eqb n (Text.T "shutdown") | _ => false end)) in X;
      vm_compute in X; discriminate X. }
  split; [vm_compute; reflexivity|]. split.
  - exists [Note (Text.T "textDocument/didOpen") (JText ex_a [ex_t1]);
            Req 1 (Text.T "textDocument/hover") (JParams (ex_params ex_a 15))],
      (Note (Text.T "textDocument/didChange") (JText ex_a [ex_t2; ex_t1])).
    eexists. split; [reflexivity|]. split.
    + exists (JText ex_a [ex_t2; ex_t1]). right. split; [reflexivity|]. exists [ex_t1]. reflexivity.
    + intros m t X (j & Y). cbn [In] in X.
      destruct X as [<-|[<-|[<-|[<-|[<-|[]]]]]]; destruct Y as [[Y _]|[Y _]]; try discriminate Y;
        apply (f_equal (fun m => match m with Note n _ => length n | _ => 0 end)) in Y; vm_compute in Y; discriminate Y.
  - eexists. split; vm_compute; reflexivity.
Qed.

(** A request of an unknown method and one with bad parameters are never
    answered; a request for a document that was not opened ends the process,
    and the request after it is not answered either. *)
Definition ex_lost : list (message ex_json) :=
  [Note (Text.T "textDocument/didOpen") (JText ex_a [ex_t1]);
   Req 1 (Text.T "workspace/symbol") JBad;
   Req 2 (Text.T "textDocument/hover") JBad;
   Req 3 (Text.T "textDocument/hover") (JParams (ex_params (Text.T "file:///b.wat") 15));
   Req 4 (Text.T "textDocument/hover") (JParams (ex_params ex_a 15))].
Theorem C35_every_request_answered_refuted :
  map (map brief) (ex_loop false ex_lost) = [[(100, true)]; []; []]%N.
Proof. vm_compute. reflexivity. Qed.
