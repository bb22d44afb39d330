(** Answers never come from a stale text (C34). *)

From Coq Require Import String List NArith Bool Arith Lia.
From Verif Require Import Text Kind Green SpecParser Lexer LexerFacts Winnow Grammar Sem Lossless Total
  Bounds Lang TokForm Shape Red Unique LineIndex Cursor Doc Ast Binder Preorder SpecBinder BinderFacts BinderDefs Blocks
  Nav NavSpec NavFacts ThmNav RefFacts ThmRefs SymCases InstrMeta Types Check CheckFacts Salsa SpecSalsa SalsaFacts.
Import ListNotations.

(** ** Nesting of the queries *)

Definition rank (q : query) : nat :=
  match q with
  | QSource _ | QType _ | QSig _ => 0
  | QLine _ | QGlobal _ => 1
  | QParse _ => 2
  | QRoot _ => 3
  | QTable _ => 4
  | QFuncSig _ _ => 5
  | QHeader _ _ => 6
  end.
Lemma rank_depth q : rank q < depth.
Proof. unfold depth. destruct q; cbn; lia. Qed.
Lemma rank_slot a b : query_eqb a b = true -> rank a = rank b.
Proof. destruct a, b; cbn [query_eqb]; intros; try discriminate; reflexivity. Qed.
Lemma source_slot a b : query_eqb a b = true -> is_source a = is_source b.
Proof. destruct a, b; cbn [query_eqb]; intros; try discriminate; reflexivity. Qed.

Fixpoint Polite {A} (k : nat) (D : docs) (p : prog A) : Prop :=
  match p with
  | Ret _ | Fail => True
  | Ask q c => rank q < k /\ Fit D q /\ forall v, fresh D q = Some v -> Polite k D (c v)
  end.
Lemma code_polite D q : is_source q = false -> Fit D q -> Polite (rank q) D (code q).
Proof.
  intros S F. destruct q; try discriminate; cbn [code rank]; unfold ask_source, ask_line, ask_parse, ask_root, ask_table, ask_type, ask_sig, ask_func_sig.
  - cbn [Polite rank Fit]. repeat split; auto. intros [] _; exact I.
  - cbn [Polite rank Fit]. repeat split; auto. intros [] _; try exact I.
    cbn [Polite rank Fit]. repeat split; auto. intros [] _; try exact I. destruct map_ans; exact I.
  - cbn [Polite rank Fit]. repeat split; auto. intros [] _; exact I.
  - cbn [Polite rank Fit]. repeat split; auto. intros [] _; try exact I. destruct create_symbol_table; exact I.
  - exact I.
  - destruct green_child; [|exact I]. cbn [Polite rank Fit]. repeat split; auto. intros [] _; exact I.
  - destruct extract_sig; exact I.
  - destruct green_child; [|exact I]. destruct existsb.
    + cbn [Polite rank Fit]. split; [lia|split; [exact I|]]. intros [] _; exact I.
    + cbn [Polite rank Fit]. split; [lia|split; [exact I|]]. intros [] _; try exact I. destruct to_node; [|exact I].
      cbn [Polite rank Fit]. split; [lia|split; [exact I|]]. intros [] _; try exact I. destruct type_of_use; try exact I.
      cbn [Polite rank Fit]. split; [lia|split; [exact I|]]. intros [] _; exact I.
  - cbn [Polite rank Fit]. split; [lia|split; [exact F|]]. intros [] _; exact I.
Qed.

(** A program that reads the symbol table has read the tree before. *)
Fixpoint Guarded {A} (seen : list query) (p : prog A) : Prop :=
  match p with
  | Ret _ | Fail => True
  | Ask q c => (forall u, q = QTable u -> In (QRoot u) seen) /\ forall v, Guarded (q :: seen) (c v)
  end.
Lemma code_guarded q : Guarded [] (code q).
Proof.
  destruct q; cbn [code]; unfold ask_source, ask_line, ask_parse, ask_root, ask_table, ask_type, ask_sig, ask_func_sig;
    try exact I; try (cbn [Guarded]; split; [intros; discriminate|]; intros []; exact I).
  - cbn [Guarded]. split; [intros; discriminate|]. intros []; try exact I.
    cbn [Guarded]. split; [intros; discriminate|]. intros []; try exact I. destruct map_ans; exact I.
  - cbn [Guarded]. split; [intros; discriminate|]. intros []; try exact I. destruct create_symbol_table; exact I.
  - destruct green_child; [|exact I]. cbn [Guarded]. split; [intros; discriminate|]. intros []; exact I.
  - destruct extract_sig; exact I.
  - destruct green_child; [|exact I]. destruct existsb.
    + cbn [Guarded]. split; [intros; discriminate|]. intros []; exact I.
    + cbn [Guarded]. split; [intros; discriminate|]. intros []; try exact I. destruct to_node; [|exact I].
      cbn [Guarded]. split; [intros u' E; injection E as <-; now left|]. intros []; try exact I. destruct type_of_use; try exact I.
      cbn [Guarded]. split; [intros; discriminate|]. intros []; exact I.
Qed.

Inductive Trace {A} (f : query -> option value) : prog A -> list query -> A -> Prop :=
| TRet a : Trace f (Ret a) [] a
| TAsk q c v qs a : f q = Some v -> Trace f (c v) qs a -> Trace f (Ask q c) (q :: qs) a.
Lemma trace_pure {A} D (p : prog A) qs a : Trace (fresh D) p qs a -> pure D p = Some a.
Proof. induction 1 as [|q c v qs a H _ IH]; [reflexivity|]. cbn [pure]. now rewrite H. Qed.

(** ** What is known of a recomputed value that is "equal" *)

Lemma fresh_is_table D q v : fresh D q = Some v -> is_table v = true -> exists u, q = QTable u.
Proof.
  intros H T. destruct v; try discriminate.
  destruct q; cbn [fresh] in H; try discriminate; try (destruct (D u); discriminate).
  - destruct (D u); [|discriminate]. cbn in H. destruct (some_or_panic _); discriminate.
  - eauto.
  - cbn in H. destruct (some_or_panic _); discriminate.
  - destruct (D u); [|discriminate]. destruct create_symbol_table; [|discriminate]. destruct (some_or_panic _); discriminate.
  - destruct (D u); [|discriminate]. destruct create_symbol_table; [|discriminate]. destruct (some_or_panic _); discriminate.
Qed.
(** The symbol table is a function of the tree. *)
Lemma fresh_root_table D D' u : fresh D (QRoot u) = fresh D' (QRoot u) -> fresh D (QTable u) = fresh D' (QTable u).
Proof.
  cbn [fresh]. destruct (D u), (D' u); cbn [option_map]; try discriminate; [|auto]. intros H. injection H as H. now rewrite H.
Qed.
Lemma settled D D' q v v' seen : fresh D q = Some v -> fresh D' q = Some v' -> value_eqb v v' = true ->
  (forall u, q = QTable u -> In (QRoot u) seen) -> (forall j, In j seen -> fresh D j = fresh D' j) -> v = v'.
Proof.
  intros H H' E G S. destruct (is_table v) eqn:T; [|now apply value_eqb_exact].
  destruct (fresh_is_table _ _ _ H T) as (u & ->).
  rewrite (fresh_root_table D D' u) in H by (apply S, G; reflexivity). congruence.
Qed.

(** ** Slots *)

Lemma find_sub {A} (f g : A -> bool) l : (forall x, In x l -> f x = true -> g x = true) -> find f (filter g l) = find f l.
Proof.
  induction l as [|x r IH]; intros H; [reflexivity|]. cbn [filter find]. specialize (IH (fun y Hy => H y (or_intror Hy))).
  destruct (g x) eqn:Gx.
  - cbn [find]. now rewrite IH.
  - destruct (f x) eqn:Fx; [|exact IH]. rewrite (H x (or_introl eq_refl) Fx) in Gx. discriminate.
Qed.
Lemma find_put q m d q' : find_memo q' (put_memo q m d) = if query_eqb q q' then Some (q, m) else find_memo q' d.
Proof.
  unfold find_memo, put_memo. cbn [memos find fst]. destruct (query_eqb q q') eqn:E; [reflexivity|].
  apply find_sub. intros [p mp] _ H. cbn [fst] in *. apply negb_true_iff. apply not_true_iff_false. intros H2.
  apply query_eqb_sym in H2. rewrite (query_eqb_trans _ _ _ H2 H) in E. discriminate.
Qed.
Lemma find_memo_slot q q' d : query_eqb q q' = true -> find_memo q d = find_memo q' d.
Proof.
  intros E. unfold find_memo. induction (memos d) as [|[p mp] r IH]; [reflexivity|]. cbn [find fst]. rewrite IH.
  replace (query_eqb p q) with (query_eqb p q'); [reflexivity|].
  destruct (query_eqb p q) eqn:E1, (query_eqb p q') eqn:E2; try reflexivity.
  - rewrite (query_eqb_trans _ _ _ E1 E) in E2. discriminate.
  - apply query_eqb_sym in E. rewrite (query_eqb_trans _ _ _ E2 E) in E1. discriminate.
Qed.
Lemma find_memo_eqb q q0 m d : find_memo q d = Some (q0, m) -> query_eqb q0 q = true.
Proof. unfold find_memo. intros H. now apply find_some in H as [_ H]. Qed.
Lemma find_memo_key q q0 m d : find_memo q d = Some (q0, m) -> find_memo q0 d = Some (q0, m).
Proof. intros H. rewrite <- H. apply find_memo_slot. eapply find_memo_eqb, H. Qed.

(** ** The invariant *)

Section Hist.
  (** The documents at each revision. *)
  Variable H : nat -> docs.

  (** An input of a memo that was verified in revision [rv]: if it has not
      changed since, it had an equal value then. *)
  Definition Dep (d : db) (rv : nat) (i : query) : Prop :=
    is_source i = true
    \/ exists qi mi, find_memo i d = Some (qi, mi) /\ rv <= m_verified mi
       /\ (m_changed mi <= rv -> exists v, fresh (H rv) i = Some v /\ value_eqb v (m_value mi) = true).

  Definition MemoOk (d : db) (q : query) (m : memo) : Prop :=
    is_source q = false /\ Fit (H (m_verified m)) q /\ m_verified m <= now d
    /\ Trace (fresh (H (m_verified m))) (code q) (m_inputs m) (m_value m)
    /\ (forall i, In i (m_inputs m) -> Dep d (m_verified m) i).

  Definition SourceOk (d : db) : Prop :=
    forall u, match source_of d u with
              | Some (t, c) => c <= now d /\ forall r, c <= r <= now d -> H r u = Some t
              | None => H (now d) u = None
              end.
  Definition Inv (d : db) : Prop :=
    SourceOk d
    /\ (forall r u, r <= now d -> H r u <> None -> H (now d) u <> None)
    /\ (forall q m, find_memo q d = Some (q, m) -> MemoOk d q m).

  Definition UpToDate (d : db) (i : query) (m : memo) : Prop :=
    m_verified m = now d
    /\ match i with
       | QSource u => exists t c, source_of d u = Some (t, c) /\ m = mk_memo (VSource t) (now d) c []
       | _ => exists q0, find_memo i d = Some (q0, m)
       end.

  (** What a call may change. *)
  Definition Ext (k : nat) (d d' : db) : Prop :=
    now d' = now d /\ sources d' = sources d
    /\ (forall q p, find_memo q d = Some p -> m_verified (snd p) = now d -> find_memo q d' = Some p)
    /\ (forall q, k <= rank q -> find_memo q d' = find_memo q d).

  Lemma ext_refl k d : Ext k d d.
  Proof. repeat split; auto. Qed.
  Lemma ext_trans k d d' d'' : Ext k d d' -> Ext k d' d'' -> Ext k d d''.
  Proof.
    intros (A & B & C & E) (A' & B' & C' & E'). split; [congruence|]. split; [congruence|]. split.
    - intros q p F V. apply C'; [now apply C|congruence].
    - intros q R. rewrite E', E; auto.
  Qed.
  Lemma ext_weaken k k' d d' : k <= k' -> Ext k d d' -> Ext k' d d'.
  Proof. intros L (A & B & C & E). repeat split; auto. intros q R. apply E. lia. Qed.
  Lemma ext_source k d d' u : Ext k d d' -> source_of d' u = source_of d u.
  Proof. intros (_ & B & _). unfold source_of. now rewrite B. Qed.
  Lemma ext_utd k d d' i m : Ext k d d' -> UpToDate d i m -> UpToDate d' i m.
  Proof.
    intros E (V & U). pose proof E as (A & B & C & _). split; [congruence|].
    destruct i; try (destruct U as (q0 & U); exists q0; now apply C).
    destruct U as (t & c & U1 & U2). exists t, c. rewrite (ext_source _ _ _ _ E), A. auto.
  Qed.

  Lemma fit_now d q m : Inv d -> find_memo q d = Some (q, m) -> Fit (H (now d)) q.
  Proof.
    intros (_ & G & M) F. destruct (M q m F) as (_ & Fi & L & _).
    destruct q; cbn [Fit] in *; auto; destruct Fi as [N X]; (split; [exact N|]); eapply G; eauto.
  Qed.

  (** ** Storing a memo *)

  Lemma put_inv d q m : Inv d -> is_source q = false -> Fit (H (now d)) q -> m_verified m = now d ->
    Trace (fresh (H (now d))) (code q) (m_inputs m) (m_value m) ->
    (forall i, In i (m_inputs m) -> rank i < rank q
       /\ exists mi, UpToDate d i mi /\ fresh (H (now d)) i = Some (m_value mi)) ->
    (forall q' mo, find_memo q d = Some (q', mo) ->
       (m_changed m = m_changed mo /\ value_eqb (m_value mo) (m_value m) = true) \/ m_verified mo < m_changed m) ->
    Inv (put_memo q m d).
  Proof.
    intros I Nq Fq V Tr Hi Ho. pose proof I as (S & G & M). split; [|split].
    - intros u. specialize (S u). unfold put_memo. cbn [now]. exact S.
    - exact G.
    - intros q1 m1 F1. rewrite find_put in F1. destruct (query_eqb q q1) eqn:E.
      + injection F1 as <- <-. unfold MemoOk. rewrite V. cbn [put_memo now]. do 4 (split; [auto|]).
        intros i Hin. destruct (Hi i Hin) as (R & mi & (U1 & U2) & Fr). destruct (is_source i) eqn:Si; [now left|right].
        assert (U : exists q0, find_memo i d = Some (q0, mi)) by (destruct i; try discriminate; exact U2).
        destruct U as (q0 & U). exists q0, mi. rewrite find_put.
        destruct (query_eqb q i) eqn:Ei; [apply rank_slot in Ei; lia|]. split; [exact U|]. split; [lia|].
        intros _. exists (m_value mi). split; [exact Fr|apply value_eqb_refl].
      + destruct (M q1 m1 F1) as (A1 & A2 & A3 & A4 & A5). unfold MemoOk. cbn [put_memo now]. do 4 (split; [auto|]).
        intros i Hin. destruct (A5 i Hin) as [Si|(qi & mi & B1 & B2 & B3)]; [now left|right].
        rewrite find_put. destruct (query_eqb q i) eqn:Ei.
        * rewrite <- (find_memo_slot _ _ d Ei) in B1. exists q, m. split; [reflexivity|].
          destruct (M qi mi (find_memo_key _ _ _ _ B1)) as (_ & _ & L & _). split; [lia|].
          destruct (Ho qi mi B1) as [[C1 C2]|C1].
          -- rewrite C1. intros L2. destruct (B3 L2) as (v & F & Ev). exists v. split; [exact F|]. eapply value_eqb_trans; eauto.
          -- intros L2. lia.
        * exists qi, mi. auto.
  Qed.
  Lemma put_ext d q m : (forall q' mo, find_memo q d = Some (q', mo) -> m_verified mo <> now d) ->
    Ext (S (rank q)) d (put_memo q m d).
  Proof.
    intros Ho. split; [reflexivity|]. split; [reflexivity|]. split.
    - intros q1 [q2 m2] F V. rewrite find_put. destruct (query_eqb q q1) eqn:E; [|exact F].
      rewrite <- (find_memo_slot _ _ d E) in F. now apply Ho in F.
    - intros q1 R. rewrite find_put. destruct (query_eqb q q1) eqn:E; [|reflexivity]. apply rank_slot in E. lia.
  Qed.

  (** ** The engine *)

  Definition Good (n : nat) : Prop := forall q d, Inv d -> Fit (H (now d)) q -> rank q < n ->
    match refresh n q d with
    | Done m d' => Inv d' /\ Ext (S (rank q)) d d' /\ UpToDate d' q m /\ fresh (H (now d)) q = Some (m_value m)
    | Dead => fresh (H (now d)) q = None
    | NoFuel => False
    end.

  Lemma run_ok n k {A} (p : prog A) : Good n -> k <= n -> forall d, Inv d -> Polite k (H (now d)) p ->
    match run (refresh n) p d with
    | Done (a, qs, c) d' => Inv d' /\ Ext k d d' /\ Trace (fresh (H (now d))) p qs a
        /\ forall i, In i qs -> rank i < k /\ exists mi, UpToDate d' i mi /\ fresh (H (now d)) i = Some (m_value mi) /\ m_changed mi <= c
    | Dead => pure (H (now d)) p = None
    | NoFuel => False
    end.
  Proof.
    intros Gn Lk. induction p as [a| |q c IH]; intros d I P; cbn [run pure].
    - split; [exact I|]. split; [apply ext_refl|]. split; [constructor|]. intros i [].
    - reflexivity.
    - destruct P as (R & F & P). specialize (Gn q d I F ltac:(lia)).
      destruct (refresh n q d) as [m d1| |]; [|now rewrite Gn|exact Gn].
      destruct Gn as (I1 & E1 & U1 & V1). pose proof E1 as (N1 & _). specialize (P _ V1).
      specialize (IH (m_value m) d1 I1). rewrite N1 in IH. specialize (IH P).
      destruct (run (refresh n) (c (m_value m)) d1) as [[[a qs] c'] d2| |].
      + destruct IH as (I2 & E2 & T2 & D2). split; [exact I2|].
        split; [eapply ext_trans; [eapply ext_weaken; [|exact E1]; lia|exact E2]|].
        split; [econstructor; eassumption|]. intros i [<-|Hi].
        * split; [exact R|]. exists m. split; [eapply ext_utd; eassumption|]. split; [exact V1|lia].
        * destruct (D2 i Hi) as (Ri & mi & A1 & A2 & A3). split; [exact Ri|]. exists mi. split; [exact A1|]. split; [exact A2|lia].
      + rewrite V1. exact IH.
      + exact IH.
  Qed.

  Lemma unchanged_ok n q0 m {A} : Good n -> rank q0 <= n ->
    forall (p : prog A) qs a, Trace (fresh (H (m_verified m))) p qs a ->
    forall seen d, Inv d -> find_memo q0 d = Some (q0, m) -> incl qs (m_inputs m) -> Guarded seen p ->
      Polite (rank q0) (H (now d)) p ->
      (forall j, In j seen -> fresh (H (m_verified m)) j = fresh (H (now d)) j) ->
    match unchanged (refresh n) (m_verified m) qs d with
    | Done true d' => Inv d' /\ Ext (rank q0) d d' /\ Trace (fresh (H (now d))) p qs a
        /\ forall i, In i qs -> rank i < rank q0 /\ exists mi, UpToDate d' i mi /\ fresh (H (now d)) i = Some (m_value mi)
    | Done false d' => Inv d' /\ Ext (rank q0) d d'
        /\ forall qs' a', Trace (fresh (H (now d))) p qs' a' ->
             exists i mi, In i qs' /\ UpToDate d' i mi /\ m_verified m < m_changed mi
    | Dead => pure (H (now d)) p = None
    | NoFuel => False
    end.
  Proof.
    intros Gn Lk p qs a Tr. induction Tr as [a|q c v qs a Hv Tr IH]; intros seen d I Fm Inc Gd P Sn; cbn [unchanged].
    - split; [exact I|]. split; [apply ext_refl|]. split; [constructor|]. intros i [].
    - destruct P as (R & F & P). destruct Gd as [G1 G2]. pose proof (Gn q d I F ltac:(lia)) as Gq.
      destruct (refresh n q d) as [mq d1| |]; [|cbn [pure]; now rewrite Gq|exact Gq].
      destruct Gq as (I1 & E1 & U1 & V1). apply (ext_weaken _ (rank q0)) in E1; [|lia].
      pose proof E1 as (N1 & _ & _ & K1). destruct (Nat.ltb_spec (m_verified m) (m_changed mq)) as [L|L].
      + split; [exact I1|]. split; [exact E1|]. intros qs' a' Tr'. inversion Tr'; subst. exists q, mq. split; [now left|]. auto.
      + assert (Fm1 : find_memo q0 d1 = Some (q0, m)) by (rewrite K1; auto).
        pose proof I1 as (S1 & _ & M1). destruct (M1 _ _ Fm1) as (_ & _ & L1 & _ & D1).
        assert (Ev : v = m_value mq).
        { destruct (D1 q (Inc q (or_introl eq_refl))) as [Sq|(qi & mi & B1 & B2 & B3)].
          - destruct q; try discriminate. destruct U1 as (_ & t & cc & U1 & U2). specialize (S1 u). rewrite U1 in S1.
            destruct S1 as [S1 S2]. subst mq. cbn [m_changed m_value] in *. cbn [fresh] in Hv.
            rewrite (S2 (m_verified m)) in Hv by lia. cbn in Hv. congruence.
          - assert (Emi : mi = mq).
            { destruct U1 as (_ & U1). destruct q; try (destruct U1 as (q1 & U1); congruence).
              exfalso. pose proof (find_memo_eqb _ _ _ _ B1) as Z. apply source_slot in Z.
              destruct (M1 _ _ (find_memo_key _ _ _ _ B1)) as (Z2 & _). rewrite Z2 in Z. discriminate. }
            subst mi. destruct (B3 L) as (v' & W1 & W2). rewrite Hv in W1. injection W1 as <-.
            eapply settled; eauto. }
        subst v. specialize (IH (q :: seen) d1 I1 Fm1 (fun i Hi => Inc i (or_intror Hi)) (G2 _)).
        rewrite N1 in IH. specialize (IH (P _ V1)).
        specialize (IH ltac:(intros j [<-|Hj]; [congruence|auto])).
        destruct (unchanged (refresh n) (m_verified m) qs d1) as [[|] d2| |].
        * destruct IH as (I2 & E2 & T2 & D2). split; [exact I2|]. split; [eapply ext_trans; eauto|].
          split; [econstructor; eassumption|]. intros i [<-|Hi].
          -- split; [exact R|]. exists mq. split; [eapply ext_utd; eassumption|exact V1].
          -- now apply D2.
        * destruct IH as (I2 & E2 & T2). split; [exact I2|]. split; [eapply ext_trans; eauto|].
          intros qs' a' Tr'. inversion Tr' as [|q' c' v' qs1 a1 Hv' Tr1]; subst.
          rewrite V1 in Hv'. injection Hv' as <-. destruct (T2 _ _ Tr1) as (i & mi & A1 & A2 & A3). exists i, mi. split; [now right|]. auto.
        * cbn [pure]. now rewrite V1.
        * exact IH.
  Qed.

  Lemma execute_ok n q old d : Good n -> rank q <= n -> Inv d -> is_source q = false -> Fit (H (now d)) q ->
    match old with
    | None => find_memo q d = None
    | Some m => find_memo q d = Some (q, m) /\ m_verified m <> now d
        /\ forall qs a, Trace (fresh (H (now d))) (code q) qs a ->
             exists i mi, In i qs /\ UpToDate d i mi /\ m_verified m < m_changed mi
    end ->
    match execute (refresh n) q old d with
    | Done m d' => Inv d' /\ Ext (S (rank q)) d d' /\ UpToDate d' q m /\ fresh (H (now d)) q = Some (m_value m)
    | Dead => fresh (H (now d)) q = None
    | NoFuel => False
    end.
  Proof.
    intros Gn R I Nq F Ho. unfold execute.
    pose proof (run_ok n (rank q) (code q) Gn R d I (code_polite _ _ Nq F)) as X.
    destruct (run (refresh n) (code q) d) as [[[v qs] c] d1| |]; [|now rewrite <- code_pure|exact X].
    destruct X as (I1 & E1 & T1 & D1). pose proof E1 as (N1 & _ & _ & K1).
    set (c' := match old with Some m => if value_eqb (m_value m) v then m_changed m else c | None => c end).
    set (m := mk_memo v (now d1) c' qs).
    assert (Fo : forall q' mo, find_memo q d1 = Some (q', mo) -> old = Some mo).
    { intros q' mo Fm. rewrite K1 in Fm by lia. destruct old as [m0|]; [|congruence]. destruct Ho as [Ho _]. congruence. }
    assert (I2 : Inv (put_memo q m d1)).
    { apply put_inv; auto; try (rewrite N1; assumption).
      - intros i Hi. destruct (D1 i Hi) as (Ri & mi & A1 & A2 & _). split; [exact Ri|]. exists mi. rewrite N1. auto.
      - intros q' mo Fm. pose proof (Fo _ _ Fm) as Eo. subst old. cbn [m m_changed m_value]. unfold c'.
        destruct (value_eqb (m_value mo) v) eqn:Ev; [left; auto|right].
        destruct Ho as (_ & _ & Ho). destruct (Ho _ _ T1) as (i & mi & A1 & A2 & A3).
        destruct (D1 i A1) as (_ & mi' & B1 & _ & B2). apply (ext_utd _ _ _ _ _ E1) in A2.
        assert (mi = mi'); [|subst; lia].
        destruct A2 as [_ A2], B1 as [_ B1]. destruct i; try (destruct A2, B1; congruence).
        destruct A2 as (?&?&?&->), B1 as (?&?&?&->). congruence. }
    split; [exact I2|]. split; [|split].
    - eapply ext_trans; [eapply ext_weaken; [|exact E1]; lia|]. apply put_ext. intros q' mo Fm. pose proof (Fo _ _ Fm) as Eo.
      subst old. destruct Ho as (_ & Ho & _). congruence.
    - split; [reflexivity|]. destruct q; try discriminate; (eexists; rewrite find_put, query_eqb_refl; reflexivity).
    - cbn [m m_value]. rewrite <- code_pure by assumption. eapply trace_pure, T1.
  Qed.

  Lemma refresh_ok n : Good n.
  Proof.
    induction n as [|n Gn]; intros q d I F R; [lia|]. cbn [refresh]. destruct (is_source q) eqn:Nq.
    - destruct q; try discriminate. pose proof I as (S & _ & _). specialize (S u). cbn [fresh].
      destruct (source_of d u) as [[t c]|] eqn:E.
      + destruct S as [S1 S2]. split; [exact I|]. split; [apply ext_refl|]. split.
        * split; [reflexivity|]. exists t, c. auto.
        * cbn [m_value]. rewrite (S2 (now d)) by lia. reflexivity.
      + now rewrite S.
    - assert (X : match match find_memo q d with
                        | None => execute (refresh n) q None d
                        | Some (q0, m) =>
                            if Nat.eqb (m_verified m) (now d) then Done m d
                            else
                              match unchanged (refresh n) (m_verified m) (m_inputs m) d with
                              | Done true d' =>
                                  let m' := mk_memo (m_value m) (now d') (m_changed m) (m_inputs m) in
                                  Done m' (put_memo q0 m' d')
                              | Done false d' => execute (refresh n) q0 (Some m) d'
                              | Dead => Dead
                              | NoFuel => NoFuel
                              end
                        end with
                  | Done m d' => Inv d' /\ Ext (S (rank q)) d d' /\ UpToDate d' q m /\ fresh (H (now d)) q = Some (m_value m)
                  | Dead => fresh (H (now d)) q = None
                  | NoFuel => False
                  end); [|destruct q; [discriminate|..]; exact X].
      destruct (find_memo q d) as [[q0 m]|] eqn:Fm.
      + pose proof (find_memo_eqb _ _ _ _ Fm) as E. pose proof (find_memo_key _ _ _ _ Fm) as Fm0.
        pose proof (rank_slot _ _ E) as Re. pose proof (source_slot _ _ E) as Se. rewrite Nq in Se.
        pose proof (fit_now _ _ _ I Fm0) as F0. rewrite <- (fresh_slot _ _ _ E F0 F).
        assert (UTD : forall d' m', UpToDate d' q0 m' -> UpToDate d' q m').
        { intros d' m' (V & U). split; [exact V|].
          assert (U' : exists q1, find_memo q d' = Some (q1, m')).
          { rewrite <- (find_memo_slot _ _ d' E). destruct q0; try discriminate; exact U. }
          destruct q; try discriminate; exact U'. }
        pose proof I as (_ & _ & M). destruct (M _ _ Fm0) as (_ & _ & Lm & Tm & _).
        destruct (Nat.eqb_spec (m_verified m) (now d)) as [V|V].
        * split; [exact I|]. split; [apply ext_refl|]. split.
          -- split; [exact V|]. destruct q; try discriminate; now exists q0.
          -- rewrite V in Tm. rewrite <- code_pure by assumption. eapply trace_pure, Tm.
        * pose proof (unchanged_ok n q0 m Gn ltac:(lia) _ _ _ Tm [] d I Fm0 (incl_refl _) (code_guarded q0)
                        (code_polite _ _ Se F0) ltac:(intros j [])) as X.
          destruct (unchanged (refresh n) (m_verified m) (m_inputs m) d) as [[|] d1| |].
          -- destruct X as (I1 & E1 & T1 & D1). pose proof E1 as (N1 & _ & _ & K1).
             assert (Fm1 : find_memo q0 d1 = Some (q0, m)) by (rewrite K1; auto).
             split; [|split; [|split]].
             ++ apply put_inv; auto; cbn [m_verified m_inputs m_value m_changed]; try (rewrite N1; assumption).
                intros q' mo Fo. rewrite Fm1 in Fo. injection Fo as <- <-. left. split; [reflexivity|apply value_eqb_refl].
             ++ rewrite <- Re. eapply ext_trans; [eapply ext_weaken; [|exact E1]; lia|]. apply put_ext.
                intros q' mo Fo. rewrite Fm1 in Fo. injection Fo as <- <-. congruence.
             ++ apply UTD. split; [reflexivity|]. destruct q0; try discriminate; (eexists; rewrite find_put, query_eqb_refl; reflexivity).
             ++ cbn [m_value]. rewrite <- code_pure by assumption. eapply trace_pure, T1.
          -- destruct X as (I1 & E1 & T1). pose proof E1 as (N1 & _ & _ & K1).
             assert (Fm1 : find_memo q0 d1 = Some (q0, m)) by (rewrite K1; auto).
             pose proof (execute_ok n q0 (Some m) d1 Gn ltac:(lia) I1 Se) as Y. rewrite N1 in Y. specialize (Y F0).
             specialize (Y (conj Fm1 (conj V T1))).
             destruct (execute (refresh n) q0 (Some m) d1) as [m2 d2| |]; [|exact Y|exact Y].
             destruct Y as (I2 & E2 & U2 & V2). split; [exact I2|]. split.
             ++ rewrite <- Re. eapply ext_trans; [eapply ext_weaken; [|exact E1]; lia|exact E2].
             ++ split; [now apply UTD|exact V2].
          -- rewrite <- code_pure by assumption. exact X.
          -- exact X.
      + pose proof (execute_ok n q None d Gn ltac:(lia) I Nq F Fm) as Y. exact Y.
  Qed.
End Hist.

(** ** Setting a text *)

Lemma source_commit u t d u' : source_of (commit u t d) u' = if text_eqb u u' then Some (t, S (now d)) else source_of d u'.
Proof. unfold commit, source_of. cbn [sources find fst]. destruct (text_eqb u u'); reflexivity. Qed.
Lemma commit_inv H d u t : Inv H d ->
  Inv (fun r => if Nat.leb r (now d) then H r else set_doc u t (H (now d))) (commit u t d).
Proof.
  intros (S & G & M). set (H' := fun r => _).
  assert (HO : forall r, r <= now d -> H' r = H r).
  { intros r L. unfold H'. destruct (Nat.leb_spec r (now d)); [reflexivity|lia]. }
  assert (HN : H' (Datatypes.S (now d)) = set_doc u t (H (now d))).
  { unfold H'. destruct (Nat.leb_spec (Datatypes.S (now d)) (now d)); [lia|reflexivity]. }
  split; [|split].
  - intros u'. rewrite source_commit. cbn [commit now]. destruct (text_eqb u u') eqn:E.
    + split; [lia|]. intros r L. replace r with (Datatypes.S (now d)) by lia. rewrite HN. unfold set_doc. now rewrite E.
    + specialize (S u'). destruct (source_of d u') as [[t' c]|].
      * destruct S as [S1 S2]. split; [lia|]. intros r L. destruct (Nat.eq_dec r (Datatypes.S (now d))) as [->|N].
        -- rewrite HN. unfold set_doc. rewrite E. apply S2. lia.
        -- rewrite HO by lia. apply S2. lia.
      * rewrite HN. unfold set_doc. now rewrite E.
  - intros r u' L X. cbn [commit now] in *. rewrite HN. unfold set_doc. destruct (text_eqb u u') eqn:E; [discriminate|].
    destruct (Nat.eq_dec r (Datatypes.S (now d))) as [->|N].
    + rewrite HN in X. unfold set_doc in X. now rewrite E in X.
    + rewrite HO in X by lia. eapply G; [|exact X]. lia.
  - intros q m F. change (find_memo q d = Some (q, m)) in F. destruct (M q m F) as (A1 & A2 & A3 & A4 & A5).
    unfold MemoOk. cbn [commit now]. rewrite HO by exact A3. do 2 (split; [assumption|]). split; [lia|]. split; [assumption|].
    intros i Hi. destruct (A5 i Hi) as [Si|(qi & mi & B1 & B2 & B3)]; [now left|right]. exists qi, mi.
    split; [exact B1|]. split; [exact B2|]. rewrite HO by exact A3. exact B3.
Qed.
Lemma new_inv : Inv (fun _ => no_docs) new_db.
Proof.
  split; [|split].
  - intros u. reflexivity.
  - auto.
  - intros q m F. discriminate.
Qed.

Lemma sound_polite {A} D (p : prog A) : Sound D p -> Polite depth D p.
Proof.
  induction p as [a| |q c IH]; cbn [Sound Polite]; auto. intros [P S]. split; [apply rank_depth|]. split; [now apply proper_fit|].
  intros v V. apply IH, S, V.
Qed.

(** ** Every answer is the one computed from scratch *)

Lemma serve_ok {A} (l : list (event A)) : forall H d, Inv H d -> SoundAll (H (now d)) l ->
  serve d l = expected (H (now d)) l.
Proof.
  induction l as [|[u t|p] r IH]; intros H d I S; cbn [serve expected SoundAll] in *; [reflexivity|..].
  - pose proof (commit_inv H d u t I) as I'. specialize (IH _ _ I'). cbn [commit now] in IH.
    destruct (Nat.leb_spec (Datatypes.S (now d)) (now d)) as [L|_] in IH; [lia|]. now apply IH.
  - destruct S as [S1 S2]. pose proof (run_ok H depth depth p (refresh_ok H depth) (le_n _) d I (sound_polite _ _ S1)) as X.
    destruct (run (refresh depth) p d) as [[[a qs] c] d'| |].
    + destruct X as (I' & (N & _) & T & _). rewrite (trace_pure _ _ _ _ T). f_equal.
      rewrite <- N. apply IH; [exact I'|]. now rewrite N.
    + now rewrite X.
    + destruct X.
Qed.

(** C34: whatever texts were set and whatever was asked before, each answer
    is the one computed from scratch from the texts set last. *)
Theorem C34_answers_current {A} (l : list (event A)) : SoundAll no_docs l -> serve new_db l = expected no_docs l.
Proof. intros S. exact (serve_ok l (fun _ => no_docs) new_db new_inv S). Qed.

(** The past does not matter: after two histories that leave the same texts,
    the next request gets the same answer. *)
Lemma sound_app {A} (l r : list (event A)) : forall D, SoundAll D (l ++ r) <-> SoundAll D l /\ SoundAll (docs_after D l) r.
Proof. induction l as [|[u t|p] l IH]; intros D; cbn [app SoundAll docs_after]; [tauto|apply IH|rewrite IH; tauto]. Qed.
Lemma expected_app {A} (l r : list (event A)) : forall D, ~ In None (expected D l) ->
  expected D (l ++ r) = expected D l ++ expected (docs_after D l) r.
Proof.
  induction l as [|[u t|p] l IH]; intros D N; cbn [app expected docs_after] in *; [reflexivity|now apply IH|].
  destruct (pure D p) as [a|]; [|exfalso; apply N; now left]. cbn [app]. f_equal. apply IH. intros X. apply N. now right.
Qed.
Lemma fresh_same D D' q : (forall u, D u = D' u) -> fresh D q = fresh D' q.
Proof. intros E. destruct q; cbn [fresh]; now rewrite ?E. Qed.
Lemma pure_same {A} D D' (p : prog A) : (forall u, D u = D' u) -> pure D p = pure D' p.
Proof.
  intros E. induction p as [a| |q c IH]; cbn [pure]; [reflexivity|reflexivity|]. rewrite (fresh_same D D' q E).
  destruct (fresh D' q); auto.
Qed.
Theorem C34_past_irrelevant {A} (l l' : list (event A)) (p : prog A) :
  SoundAll no_docs (l ++ [Request p]) -> SoundAll no_docs (l' ++ [Request p]) ->
  ~ In None (serve new_db l) -> ~ In None (serve new_db l') ->
  (forall u, docs_after no_docs l u = docs_after no_docs l' u) ->
  exists a, serve new_db (l ++ [Request p]) = serve new_db l ++ [a]
         /\ serve new_db (l' ++ [Request p]) = serve new_db l' ++ [a].
Proof.
  intros S S' N N' E. rewrite (C34_answers_current _ S), (C34_answers_current _ S').
  apply sound_app in S as [S _], S' as [S' _]. rewrite (C34_answers_current _ S) in *. rewrite (C34_answers_current _ S') in *.
  exists (pure (docs_after no_docs l) p). rewrite !expected_app by assumption. cbn [expected].
  rewrite (pure_same _ _ p E). destruct (pure (docs_after no_docs l') p); auto.
Qed.

(** A document whose text was never set has no answer: the service panics. *)
Theorem C34_unset_panics {A} (l r : list (event A)) u c : SoundAll no_docs (l ++ Request (Ask (QRoot u) c) :: r) ->
  ~ In None (serve new_db l) -> docs_after no_docs l u = None ->
  serve new_db (l ++ Request (Ask (QRoot u) c) :: r) = serve new_db l ++ [None].
Proof.
  intros S N E. rewrite (C34_answers_current _ S). apply sound_app in S as [S _]. rewrite (C34_answers_current _ S) in *.
  rewrite expected_app by assumption. cbn [expected pure fresh]. now rewrite E.
Qed.

(** ** A history with stale entries *)

(** The headers of all functions of a document. *)
Fixpoint headers (u : uri) (ss : list symbol) (acc : list text) : prog (list text) :=
  match ss with
  | [] => Ret (rev acc)
  | s :: r => match s_kind s with
              | SFunc => ask_header u s (fun h => headers u r (h :: acc))
              | _ => headers u r acc
              end
  end.
Definition all_headers (u : uri) : prog (list text) := ask_table u (fun tb => headers u (symbols tb) []).
Lemma headers_sound D u t tb ss : D u = Some t -> create_symbol_table (tree_of t) = Some tb -> incl ss (symbols tb) ->
  forall acc, Sound D (headers u ss acc).
Proof.
  intros E Et. induction ss as [|s r IH]; intros X acc; [exact I|]. cbn [headers].
  assert (Hr : incl r (symbols tb)) by (intros x Hx; apply X; now right).
  destruct (s_kind s); try now apply IH. unfold ask_header. cbn [Sound Proper]. split.
  - exists t, tb. split; [exact E|]. split; [exact Et|]. apply X. now left.
  - intros [] _; try exact I. now apply IH.
Qed.
Lemma all_headers_sound D u : Sound D (all_headers u).
Proof.
  unfold all_headers, ask_table. cbn [Sound Proper]. split; [exact I|]. intros v. cbn [fresh].
  destruct (D u) as [t|] eqn:E; [|discriminate]. destruct (create_symbol_table (tree_of t)) as [tb|] eqn:Et; [|discriminate].
  intros X. injection X as <-. eapply headers_sound; eauto. apply incl_refl.
Qed.

(** Two versions of a document whose symbol tables the engine takes for equal
    although they differ, with different headers. *)
Definition ex_v1 : text := Text.T "(module (func $a (param i32)))".
Definition ex_v2 : text := Text.T "(module (func $b (param i32)))".
Definition ex_uri : uri := Text.T "file:///a.wat".
Definition ex_history : list (event (list text)) :=
  [Commit ex_uri ex_v1; Request (all_headers ex_uri); Commit ex_uri ex_v2; Request (all_headers ex_uri);
   Commit ex_uri ex_v1; Request (all_headers ex_uri); Request (all_headers ex_uri)].
Example C34_example :
  SoundAll no_docs ex_history
  /\ serve new_db ex_history = [Some [Text.T "(func $a (param i32))"]; Some [Text.T "(func $b (param i32))"];
                                Some [Text.T "(func $a (param i32))"]; Some [Text.T "(func $a (param i32))"]]
  /\ match create_symbol_table (tree_of ex_v1), create_symbol_table (tree_of ex_v2) with
     | Some a, Some b => table_eqb a b
     | _, _ => false
     end = true.
Proof.
  split; [|split; vm_compute; reflexivity].
  cbn [SoundAll ex_history]. repeat split; apply all_headers_sound.
Qed.
