(** Semantic tokens (C23). *)

From Coq Require Import String List NArith ZArith Bool Arith Lia Sorted.
From Verif Require Import Text Kind Green SpecParser Lexer LexerFacts Winnow Grammar Sem Lossless Total
  Bounds Lang TokForm Shape ThmParser Red Unique LineIndex ThmTree Cursor ThmPos Doc Ast Binder Preorder SpecBinder BinderFacts
  BinderDefs Blocks Nav NavSpec NavFacts ThmNav RefFacts ThmRefs SymCases TokKinds InstrMeta Types Check CheckFacts SemTok Features SpecSemTok.
Import ListNotations.

(** ** Token types *)

Lemma tkind_eqb_eq a b : tkind_eqb a b = true <-> a = b.
Proof. unfold tkind_eqb. destruct (tkind_eq_dec a b); split; congruence. Qed.
Lemma tkind_name_inj a b : tkind_name a = tkind_name b -> a = b.
Proof. destruct a, b; intros H; try discriminate; reflexivity. Qed.
Lemma tkind_of_name_spec x k : tkind_of_name x = Some k <-> x = tkind_name k.
Proof.
  split.
  - intros H. apply find_some in H as [_ H]. now apply String.eqb_eq in H.
  - intros ->. destruct k; reflexivity.
Qed.

(** The names of the legend are those of the client that the server knows, in
    the order in which they first come. *)
Definition legend_ok (types : list string) (m : list (tkind * string)) : Prop :=
  NoDup (map fst m) /\ (forall k x, In (k, x) m -> x = tkind_name k) /\ (forall k, In k (map fst m) <-> In (tkind_name k) types).
Lemma kinds_map_ok types : legend_ok types (kinds_map types).
Proof.
  unfold kinds_map. rewrite <- (app_nil_l types) at 1. 
  assert (H : legend_ok [] []). { split; [constructor|]. split; [intros ? ? []|]. intros k. split; intros []. }
  revert H. generalize (@nil (tkind * string)). generalize (@nil string).
  induction types as [|x types IH]; intros done m (H1 & H2 & H3); cbn [fold_left].
  - rewrite app_nil_r. now repeat split; try apply H3.
  - replace (done ++ x :: types) with ((done ++ [x]) ++ types) by (now rewrite <- app_assoc). apply IH.
    destruct (tkind_of_name x) as [k|] eqn:E.
    + apply tkind_of_name_spec in E. subst x. unfold index_insert. destruct (existsb _ m) eqn:X.
      * apply existsb_exists in X as ((k' & y) & Hk & Ek). cbn in Ek. apply tkind_eqb_eq in Ek. subst k'.
        split; [exact H1|]. split; [exact H2|]. intros k'. rewrite in_app_iff, H3. cbn. split; [tauto|].
        intros [H|[H|[]]]; [exact H|]. apply tkind_name_inj in H. subst k'. apply H3. apply in_map_iff. exists (k, y). auto.
      * assert (Hn : ~ In k (map fst m)).
        { intros H. apply in_map_iff in H as ((k' & y) & <- & H). assert (existsb (fun p => tkind_eqb (fst p) k') m = true); [|cbn in X; congruence].
          apply existsb_exists. exists (k', y). split; [exact H|]. now apply tkind_eqb_eq. }
        split; [|split].
        -- rewrite map_app. cbn. apply NoDup_rev in H1. rewrite <- (rev_involutive (map fst m ++ [k])). apply NoDup_rev. rewrite rev_app_distr. cbn. constructor; [|exact H1].
           now rewrite <- in_rev.
        -- intros k' y. rewrite in_app_iff. intros [H|[H|[]]]; [now apply H2|]. now injection H as <- <-.
        -- intros k'. rewrite map_app, !in_app_iff, H3. cbn. split; (intros [H|[H|[]]]; [now left|right; left]); [congruence|now apply tkind_name_inj].
    + split; [exact H1|]. split; [exact H2|]. intros k. rewrite in_app_iff, H3. cbn. split; [tauto|].
      intros [H|[H|[]]]; [exact H|]. apply tkind_of_name_spec in H. congruence.
Qed.
Lemma legend_kinds types : legend types = map tkind_name (token_kinds types).
Proof.
  unfold legend, token_kinds. rewrite map_map. apply map_ext_in. intros (k & x) H. destruct (kinds_map_ok types) as (_ & H2 & _).
  cbn. now apply H2.
Qed.
Lemma index_of_some k l i : index_of k l = Some i -> nth_error l i = Some k.
Proof.
  revert i. induction l as [|x l IH]; intros i; cbn [index_of]; [discriminate|]. destruct (tkind_eqb x k) eqn:E.
  - intros H. injection H as <-. apply tkind_eqb_eq in E. now subst.
  - destruct (index_of k l) as [j|]; [|discriminate]. cbn. intros H. injection H as <-. cbn. auto.
Qed.
Lemma index_of_none k l : index_of k l = None <-> ~ In k l.
Proof.
  induction l as [|x l IH]; cbn [index_of In]; [tauto|]. destruct (tkind_eqb x k) eqn:E.
  - apply tkind_eqb_eq in E. split; [discriminate|tauto].
  - assert (x <> k) by (intros H; apply tkind_eqb_eq in H; congruence). destruct (index_of k l); cbn; [|tauto].
    split; [discriminate|]. intros H1. exfalso. apply H1. right. destruct (in_dec tkind_eq_dec k l) as [H2|H2]; [exact H2|].
    apply IH in H2. discriminate.
Qed.
Lemma token_kinds_in types k : In k (token_kinds types) <-> In (tkind_name k) types.
Proof. destruct (kinds_map_ok types) as (_ & _ & H). apply H. Qed.

(** ** Classification *)

Lemma func_place_spec g : is_func_place g = true <-> FuncPlace g.
Proof.
  unfold is_func_place, FuncPlace, is_call. rewrite !orb_true_iff, existsb_exists, !kind_eqb_eq, or_assoc.
  apply or_iff_compat_r. split; intros (i & H1 & H2); exists i; (split; [exact H1|]).
  - apply andb_prop in H2 as [H2 H3]. apply andb_prop in H2 as [H2 H4]. apply kind_eqb_eq in H4. apply negb_true_iff in H2.
    repeat (split; [assumption|]). now apply name_in_iff in H3.
  - destruct H2 as (H2 & H3 & H4). rewrite H2, H3. cbn [negb andb]. apply andb_true_intro. split; [now apply kind_eqb_eq|].
    now apply name_in_iff.
Qed.
Lemma in_func_place t : opt_test is_func_place (grand t) = true <-> InFuncPlace t.
Proof.
  unfold grand, InFuncPlace. destruct (parent t) as [p|]; cbn [opt_test].
  - destruct (parent p) as [g|] eqn:E; cbn [opt_test].
    + rewrite func_place_spec. split; [eauto|]. intros (p' & g' & H1 & H2 & H3). injection H1 as <-. rewrite E in H2. now injection H2 as <-.
    + split; [discriminate|]. intros (p' & g' & H1 & H2 & H3). injection H1 as <-. congruence.
  - split; [discriminate|]. intros (p' & g' & H1 & _). discriminate.
Qed.
Lemma starts_with_spec p t : starts_with p t = true <-> exists x, t = p ++ x.
Proof.
  revert t. induction p as [|c p IH]; intros t; cbn [starts_with].
  - split; [intros _; now exists t|reflexivity].
  - destruct t as [|d t]; [split; [discriminate|intros (x & H); discriminate]|]. rewrite andb_true_iff, N.eqb_eq, IH. split.
    + intros [-> (x & ->)]. now exists x.
    + intros (x & H). injection H as -> ->. eauto.
Qed.
Lemma in_local_instr t : opt_test is_local_instr (grand t) = true <-> InLocalInstr t.
Proof.
  unfold grand, InLocalInstr, is_local_instr. destruct (parent t) as [p|]; cbn [opt_test].
  2:{ split; [discriminate|]. intros (p' & g' & i & x & H1 & _). discriminate. }
  destruct (parent p) as [g|] eqn:E; cbn [opt_test].
  2:{ split; [discriminate|]. intros (p' & g' & i & x & H1 & H2 & _). injection H1 as <-. congruence. }
  destruct (token g INSTR_NAME) as [i|] eqn:Ei.
  - rewrite starts_with_spec. split.
    + intros (x & H). exists p, g, i, x. auto.
    + intros (p' & g' & i' & x & H1 & H2 & H3 & H4). injection H1 as <-. rewrite E in H2. injection H2 as <-. rewrite Ei in H3.
      injection H3 as <-. eauto.
  - split; [discriminate|]. intros (p' & g' & i' & x & H1 & H2 & H3 & H4). injection H1 as <-. rewrite E in H2. injection H2 as <-. congruence.
Qed.

Lemma find_app' {A} (p : A -> bool) l r : find p (l ++ r) = match find p l with Some x => Some x | None => find p r end.
Proof. induction l as [|x l IH]; cbn; [reflexivity|]. destruct (p x); auto. Qed.

Section Doc.
  Variable src : text.
  Notation tree := (tree_of src).
  Notation nodes := (nodes src).
  Notation tb := (the_table src).

  Lemma find_param_spec n w f : InTree tree n -> is_node n = true -> Asks n ALocal -> Written n w ->
    enclosing [MODULE_FIELD_FUNC] n = Some f ->
    find_param_def tb (key_of n) = option_map (slot_symbol f SParam) (find (slot_matches w) (enum 0 (param_slots f))).
  Proof.
    intros T N A W E. unfold find_param_def. rewrite (find_local_ref_spec src n w f) by assumption.
    cbn [ref_sym s_region s_idx]. destruct (func_of src f n T N E) as (Tf & Nf & Kf & _).
    transitivity (find (fun s => skind_eqb (s_kind s) SParam && is_defined_by (widx w) (s_idx s)) (local_symbols f)).
    - rewrite <- (func_locals src f Tf Nf Kf). rewrite find_filter, <- find_filter. cbn [the_table symbols].
      induction (raw_symbols nodes) as [|s l IH]; [reflexivity|]. cbn [find filter].
      destruct (key_eqb (s_region s) (key_of f)) eqn:R; cbn [andb].
      + unfold is_param_or_local. destruct (s_kind s) eqn:K; cbn [skind_eqb andb find]; rewrite ?K; cbn [andb];
          try exact IH; destruct (is_defined_by _ _); try reflexivity; exact IH.
      + exact IH.
    - unfold local_symbols. rewrite find_app'.
      assert (Q : forall l, find (fun s => skind_eqb (s_kind s) SParam && is_defined_by (widx w) (s_idx s)) (map (slot_symbol f SParam) l)
                  = option_map (slot_symbol f SParam) (find (slot_matches w) l)).
      { induction l as [|p l IH]; [reflexivity|]. cbn [map find slot_symbol s_kind s_idx]. change (skind_eqb SParam SParam) with true. cbn [andb].
        unfold slot_matches at 1. destruct (is_defined_by _ _); [reflexivity|exact IH]. }
      assert (Q2 : forall l, find (fun s => skind_eqb (s_kind s) SParam && is_defined_by (widx w) (s_idx s)) (map (slot_symbol f SLocal) l) = None).
      { induction l as [|p l IH]; [reflexivity|]. cbn [map find slot_symbol s_kind]. exact IH. }
      rewrite Q, Q2. destruct (find _ _); reflexivity.
  Qed.
  Lemma refers_to_param n : InTree tree n -> is_node n = true ->
    (is_some (find_param_def tb (key_of n)) = true <-> RefersToParam src n).
  Proof.
    intros T N.
    assert (Z : forall w f, Asks n ALocal -> Written n w -> enclosing [MODULE_FIELD_FUNC] n = Some f ->
              (is_some (find_param_def tb (key_of n)) = true
               <-> exists d, local_target f w = Some d /\ In d (param_slots f))).
    { intros w f A W E. rewrite (find_param_spec n w f T N A W E). rewrite <- slot_find_target, locals_space_slots, enum_app, find_app'.
      destruct (find (slot_matches w) (enum 0 (param_slots f))) as [(i & d)|] eqn:F; cbn [option_map is_some snd].
      - split; [|reflexivity]. intros _. exists d. split; [reflexivity|]. apply find_some in F as [F _].
        rewrite <- (enum_snd 0 (param_slots f)). now apply (in_map snd) in F.
      - split; [discriminate|]. intros (d & H & Hd). exfalso.
        destruct (find (slot_matches w) (enum _ (local_slots f))) as [(j & d')|] eqn:G; [|discriminate]. cbn in H. injection H as ->.
        apply find_some in G as [G _]. apply (in_map snd) in G. rewrite enum_snd in G. cbn in G.
        pose proof (func_slots_nodup f) as D. revert D Hd G. clear. generalize (param_slots f). intros l.
        induction l as [|a l IH]; cbn; [tauto|]. intros D [->|Hj] H; inversion D; subst; [|auto]. apply H2. apply in_or_app. now right. }
    split.
    - intros H. unfold find_param_def in H. destruct (find_local_ref tb (key_of n)) as [l|] eqn:L; [|discriminate].
      pose proof L as L'. apply find_some in L' as [L1 L2]. apply andb_prop in L2 as [L2 L3]. apply skind_eqb_eq in L2. apply key_eqb_eq in L3.
      destruct (ref_found src n l T N L1 L3) as (a & w & e & A & W & E & ->). { unfold is_ref_kind. now rewrite L2. }
      assert (a = ALocal) as -> by (destruct a as [[]| |]; try discriminate; reflexivity).
      cbn [enclosing_of] in E. destruct (Z w e A W E) as [Z1 _]. unfold find_param_def in Z1. rewrite L in Z1. destruct (Z1 H) as (d & D1 & D2).
      destruct (enclosing_kind src MODULE_FIELD_FUNC n e T N E) as (Te & Ne & Ke & De).
      exists w, e, d. split; [exact A|]. split; [exact W|]. split; [split; auto|]. auto.
    - intros (w & f & d & A & W & F & Tf & L & D). apply (Z w f A W); [now apply (enclosing_func src)|]. eauto.
  Qed.

  Lemma class_spec t p k : InTree tree p -> is_node p = true -> parent t = Some p ->
    (token_class tb t = Some k <-> Class src t k).
  Proof.
    intros Tp Np P. unfold token_class. pose proof (in_func_place t) as F. pose proof (in_local_instr t) as L.
    pose proof (refers_to_param p Tp Np) as R.
    assert (Other : ~ In (ekind t) [NUM_TYPE; VEC_TYPE; REF_TYPE; KEYWORD; STRING; LINE_COMMENT; BLOCK_COMMENT; INSTR_NAME; FLOAT; IDENT; INT; UNSIGNED_INT] ->
              (None = Some k <-> Class src t k)).
    { intros H. split; [discriminate|]. intros C. exfalso. apply H. destruct C; cbn in *; intuition. }
    assert (Num : In (ekind t) [INT; UNSIGNED_INT] ->
      ((if opt_test is_func_place (grand t) then Some TkFunc
        else if opt_test is_local_instr (grand t) then
          match parent t with
          | Some p => if is_some (find_param_def tb (key_of p)) then Some TkParam else Some TkVar
          | None => Some TkNumber
          end
        else Some TkNumber) = Some k <-> Class src t k)).
    { intros K.
      destruct (opt_test is_func_place (grand t)) eqn:E1; [|destruct (opt_test is_local_instr (grand t)) eqn:E2; [rewrite P; destruct (is_some (find_param_def tb (key_of p))) eqn:E3|]].
      + split; [intros X; injection X as <-; apply Class_index_func; [exact K|now apply F]|].
        intros C. inversion C; subst; try reflexivity; exfalso; try (match goal with Q : parent t = Some ?p' |- _ => assert (p' = p) by congruence; subst p' end);
          cbn in K; try (match goal with Q : In _ _ |- _ => cbn in Q end); intuition congruence.
      + split; [intros X; injection X as <-; apply (Class_index_param src t p); [exact K|exact P| |now apply L|now apply R]; intros Q; apply F in Q; congruence|].
        intros C. inversion C; subst; try reflexivity; exfalso; try (match goal with Q : parent t = Some ?p' |- _ => assert (p' = p) by congruence; subst p' end);
          cbn in K; try (match goal with Q : In _ _ |- _ => cbn in Q end); intuition congruence.
      + split; [intros X; injection X as <-; apply (Class_index_var src t p); [exact K|exact P| |now apply L|]; intros Q; [apply F in Q|apply R in Q]; congruence|].
        intros C. inversion C; subst; try reflexivity; exfalso; try (match goal with Q : parent t = Some ?p' |- _ => assert (p' = p) by congruence; subst p' end);
          cbn in K; try (match goal with Q : In _ _ |- _ => cbn in Q end); intuition congruence.
      + split; [intros X; injection X as <-; apply Class_number; [exact K| |]; intros Q; [apply F in Q|apply L in Q]; congruence|].
        intros C. inversion C; subst; try reflexivity; exfalso; try (match goal with Q : parent t = Some ?p' |- _ => assert (p' = p) by congruence; subst p' end);
          cbn in K; try (match goal with Q : In _ _ |- _ => cbn in Q end); intuition congruence. }
    destruct (ekind t) eqn:K; try (apply Other; cbn; intuition discriminate); try (apply Num; cbn; tauto).
    all: try (split; [intros X; injection X as <-; constructor; rewrite ?K; cbn; tauto|];
      intros [X|X|X|X|X|X|X|? X|? X|X|? X|? X|X]; rewrite ?K in X; cbn in X; try (exfalso; intuition discriminate); reflexivity).
    (* IDENT *)
      rewrite P. cbn [opt_test].
      destruct (opt_test is_func_place (grand t) || kind_eqb (ekind p) MODULE_FIELD_FUNC) eqn:E1;
        [|destruct (kind_eqb (ekind p) PARAM || is_some (find_param_def tb (key_of p))) eqn:E2].
      + assert (G : InFuncPlace t \/ ekind p = MODULE_FIELD_FUNC) by (apply orb_true_iff in E1 as [E1|E1]; [left; now apply F|right; now apply kind_eqb_eq]).
        split; [intros X; injection X as <-; apply Class_name_func; [exact K|destruct G; eauto]|].
        intros C. inversion C as [X|X|X|X|X|X|X Y|p' X Y Z V W|p' X Y Z V W|X Y|p' X Y Z V W|p' X Y Z V W|X Y Z]; subst; rewrite ?K in X; cbn in X; try (exfalso; intuition discriminate); try reflexivity.
        * exfalso. rewrite P in Y. injection Y as <-. tauto.
        * exfalso. rewrite P in Y. injection Y as <-. tauto.
      + apply orb_false_iff in E1 as [E1 E4].
        assert (G1 : ~ InFuncPlace t) by (intros Q; apply F in Q; congruence).
        assert (G2 : ekind p <> MODULE_FIELD_FUNC) by (intros Q; rewrite Q in E4; discriminate).
        assert (G3 : ekind p = PARAM \/ RefersToParam src p) by (apply orb_true_iff in E2 as [E2|E2]; [left; now apply kind_eqb_eq|right; now apply R]).
        split; [intros X; injection X as <-; apply (Class_name_param src t p); auto|].
        intros C. inversion C as [X|X|X|X|X|X|X Y|p' X Y Z V W|p' X Y Z V W|X Y|p' X Y Z V W|p' X Y Z V W|X Y Z]; subst; rewrite ?K in X; cbn in X; try (exfalso; intuition discriminate); try reflexivity.
        * exfalso. destruct Y as [Y|(p' & Y & Y2)]; [tauto|]. rewrite P in Y. injection Y as <-. tauto.
        * exfalso. rewrite P in Y. injection Y as <-. tauto.
      + apply orb_false_iff in E1 as [E1 E4]. apply orb_false_iff in E2 as [E2 E5].
        assert (G1 : ~ InFuncPlace t) by (intros Q; apply F in Q; congruence).
        assert (G2 : ekind p <> MODULE_FIELD_FUNC) by (intros Q; rewrite Q in E4; discriminate).
        assert (G3 : ekind p <> PARAM) by (intros Q; rewrite Q in E2; discriminate).
        assert (G4 : ~ RefersToParam src p) by (intros Q; apply R in Q; congruence).
        split; [intros X; injection X as <-; apply (Class_name_var src t p); auto|].
        intros C. inversion C as [X|X|X|X|X|X|X Y|p' X Y Z V W|p' X Y Z V W|X Y|p' X Y Z V W|p' X Y Z V W|X Y Z]; subst; rewrite ?K in X; cbn in X; try (exfalso; intuition discriminate); try reflexivity.
        * exfalso. destruct Y as [Y|(p' & Y & Y2)]; [tauto|]. rewrite P in Y. injection Y as <-. tauto.
        * exfalso. rewrite P in Y. injection Y as <-. tauto.
  Qed.
End Doc.

(** ** The order of tokens *)

(** Elements one after another, the first at [o]. *)
Fixpoint Chain (o : nat) (l : list elem) : Prop :=
  match l with
  | [] => True
  | t :: r => estart t = o /\ Chain (o + tlen (etext t)) r
  end.
Lemma chain_app o a b : Chain o (a ++ b) <-> Chain o a /\ Chain (o + tlen (concat (map etext a))) b.
Proof.
  revert o. induction a as [|t a IH]; intros o; cbn [app Chain map concat].
  - cbn [tlen]. rewrite Nat.add_0_r. tauto.
  - rewrite IH, tlen_app, Nat.add_assoc. tauto.
Qed.
Definition toks_of (e : elem) : list elem := filter (fun e => negb (is_node e)) (descendants_with_tokens e).
Lemma toks_chain g : forall o us, Chain o (toks_of (mk_elem g o us)) /\ concat (map etext (toks_of (mk_elem g o us))) = gtext g.
Proof.
  induction g as [k t|k cs IH] using green_ind'; intros o us.
  - unfold toks_of, descendants_with_tokens. cbn. rewrite app_nil_r. auto.
  - assert (E : toks_of (mk_elem (Node k cs) o us) = concat (map toks_of (kids (Node k cs) o us 0 o cs))).
    { unfold toks_of. rewrite descendants_node. cbn [filter is_node el negb]. now rewrite filter_concat, map_map. }
    rewrite E. change (gtext (Node k cs)) with (gtexts cs). clear E. rewrite Forall_forall in IH.
    enough (H : forall g i o', Chain o' (concat (map toks_of (kids g o us i o' cs))) /\ concat (map etext (concat (map toks_of (kids g o us i o' cs)))) = gtexts cs)
      by apply H.
    induction cs as [|c cs IHcs]; intros g i o'; cbn [kids map concat]; [cbn; auto|]. cbv zeta.
    destruct (IH c (or_introl eq_refl) o' (mk_up g o i :: us)) as [C1 C2]. cbn [map concat].
    destruct (IHcs (fun c' H => IH c' (or_intror H)) g (S i) (o' + glen c)) as [D1 D2].
    rewrite gtexts_cons, map_app, concat_app, D2, C2. split; [|reflexivity]. apply chain_app. split; [exact C1|]. rewrite C2, <- glen_tlen. exact D1.
Qed.
Lemma tokens_chain src : Chain 0 (tokens src) /\ concat (map etext (tokens src)) = gtext (tree_of src).
Proof. apply (toks_chain (tree_of src) 0 []). Qed.

Lemma posof_more pre l c t : PosOf tlen pre l c -> ~ In LF t -> PosOf tlen (pre ++ t) l (c + tlen t).
Proof.
  intros (h & ln & -> & H1 & H2 & -> & ->) Ht. exists h, (ln ++ t). rewrite <- app_assoc. split; [reflexivity|]. split; [|split; [exact H2|split]].
  - rewrite in_app_iff. tauto.
  - rewrite !line_feeds_app, (line_feeds_none t Ht). lia.
  - now rewrite tlen_app.
Qed.
Lemma posof_lines pre l c t : PosOf tlen pre l c -> exists c', PosOf tlen (pre ++ t) (l + line_feeds t) c'.
Proof.
  intros H. destruct (posof_ex tlen (pre ++ t)) as (l' & c' & H'). exists c'.
  assert (l' = l + line_feeds t) as <-; [|exact H']. destruct H as (? & ? & _ & _ & _ & -> & _). destruct H' as (? & ? & _ & _ & _ & -> & _).
  apply line_feeds_app.
Qed.
Lemma line_feeds_pos t : line_feeds t = 0 <-> ~ In LF t.
Proof.
  split; [|apply line_feeds_none]. unfold line_feeds. intros H Hin. assert (X : In LF (filter (N.eqb LF) t)) by (apply filter_In; auto).
  destruct (filter (N.eqb LF) t); [destruct X|discriminate].
Qed.

(** ** Encoding and decoding *)

Section Encode.
  Variables (src : text) (types : list string).
  Notation tb := (the_table src).
  Notation kinds := (token_kinds types).
  (* columns on line l0 are given relative to c0 *)
  Variables (l0 c0 : nat).
  Definition shifted (l : nat) : nat := if Nat.eqb l l0 then c0 else 0.

  Definition marked (t : elem) : bool := negb (kind_eqb (ekind t) WHITESPACE) && is_some (token_type kinds tb t).
  (** Line feeds of [t] are counted. *)
  Definition fed (t : elem) : Prop :=
    In LF (etext t) -> ekind t = WHITESPACE \/ ekind t = BLOCK_COMMENT /\ is_some (token_type kinds tb t) = true.
  Definition puts (t : elem) (q : placed) : Prop :=
    exists line col, line_col (new_line_index src) (estart t) = Some (line, col)
    /\ pl_line q = line /\ pl_col q = (Z.of_nat col - Z.of_nat (shifted line))%Z
    /\ pl_len q = tlen (etext t) /\ token_type kinds tb t = Some (pl_type q).

  Lemma build_spec post : forall l pre dl ps L C c,
    src = pre ++ concat (map etext l) ++ post -> Chain (tlen pre) l -> Forall fed l ->
    PosOf tlen pre (L + dl) c -> ps <= c -> l0 <= L + dl ->
    Z.of_nat ps = ((if Nat.eqb dl 0 then C else 0) + Z.of_nat (shifted (L + dl)))%Z ->
    exists ts, build_tokens src kinds tb dl ps l = Ans ts
      /\ Forall (fun s => (0 <= st_start s)%Z) ts
      /\ Forall2 puts (filter marked l) (decode L C ts).
  Proof.
    induction l as [|t l IH]; intros pre dl ps L C c Es Ch F P Hps Hl Hs; cbn [build_tokens].
    - exists []. cbn. auto.
    - cbn [map concat] in Es. rewrite <- app_assoc in Es. cbn [Chain] in Ch. destruct Ch as [St Ch]. inversion F as [|? ? Ft Fl]; subst.
      assert (Es' : src = (pre ++ etext t) ++ concat (map etext l) ++ post) by now rewrite <- app_assoc.
      assert (Ch' : Chain (tlen (pre ++ etext t)) l) by now rewrite tlen_app.
      destruct (kind_eqb (ekind t) WHITESPACE) eqn:W.
      + assert (Mt : marked t = false) by (unfold marked; now rewrite W). cbn [filter]. rewrite Mt.
        change (count_lf (etext t)) with (line_feeds (etext t)). destruct (Nat.ltb_spec 0 (line_feeds (etext t))) as [Hk|Hk].
        * destruct (posof_lines pre _ _ (etext t) P) as (c' & P'). rewrite <- Nat.add_assoc in P'.
          apply (IH (pre ++ etext t) (dl + line_feeds (etext t)) 0 L C c'); auto; try lia.
          destruct (Nat.eqb_spec (dl + line_feeds (etext t)) 0); [lia|]. unfold shifted. destruct (Nat.eqb_spec (L + (dl + line_feeds (etext t))) l0); lia.
        * assert (Z0 : line_feeds (etext t) = 0) by lia. apply line_feeds_pos in Z0.
          apply (IH (pre ++ etext t) dl ps L C (c + tlen (etext t))); auto; [|lia]. now apply posof_more.
      + destruct (token_type kinds tb t) as [ty|] eqn:Ty.
        * assert (Mt : marked t = true) by (unfold marked; now rewrite W, Ty). cbn [filter]. rewrite Mt.
          rewrite St. pose proof (line_col_posof pre (etext t ++ concat (map etext l) ++ post) _ _ P) as Lc. rewrite <- Es in Lc.
          rewrite Lc. cbn [amust abind snd].
          assert (R : puts t (mk_placed (L + dl) (if Nat.eqb dl 0 then C + (Z.of_nat c - Z.of_nat ps) else Z.of_nat c - Z.of_nat ps)%Z (glen (el t)) ty)).
          { exists (L + dl), c. rewrite St. split; [exact Lc|]. split; [reflexivity|]. split; [|split; [apply glen_tlen|exact Ty]].
            cbn [pl_col]. destruct (Nat.eqb dl 0); lia. }
          set (C' := (if Nat.eqb dl 0 then C + (Z.of_nat c - Z.of_nat ps) else Z.of_nat c - Z.of_nat ps)%Z) in *.
          assert (HC : Z.of_nat c = (C' + Z.of_nat (shifted (L + dl)))%Z) by (unfold C'; destruct (Nat.eqb dl 0); lia).
          destruct (kind_eqb (ekind t) BLOCK_COMMENT) eqn:B.
          -- change (count_lf (etext t)) with (line_feeds (etext t)). destruct (Nat.ltb_spec 0 (line_feeds (etext t))) as [Hk|Hk].
             ++ destruct (posof_lines pre _ _ (etext t) P) as (c' & P').
                destruct (IH (pre ++ etext t) (line_feeds (etext t)) 0 (L + dl) C' c') as (ts & -> & F1 & F2); auto; try lia.
                { destruct (Nat.eqb_spec (line_feeds (etext t)) 0); [lia|]. unfold shifted. destruct (Nat.eqb_spec (L + dl + line_feeds (etext t)) l0); lia. }
                cbn [abind]. eexists. split; [reflexivity|]. split; [constructor; [cbn; lia|exact F1]|]. cbn [decode st_line st_start st_length st_type]. constructor; [exact R|exact F2].
             ++ assert (Z0 : line_feeds (etext t) = 0) by lia. rewrite Z0. apply line_feeds_pos in Z0.
                destruct (IH (pre ++ etext t) 0 c (L + dl) C' (c + tlen (etext t))) as (ts & -> & F1 & F2); auto; try lia; rewrite ?Nat.add_0_r; try (now apply posof_more); try assumption; try lia.
                cbn [abind]. eexists. split; [reflexivity|]. split; [constructor; [cbn; lia|exact F1]|]. cbn [decode st_line st_start st_length st_type]. constructor; [exact R|exact F2].
          -- assert (Z0 : ~ In LF (etext t)).
             { intros X. destruct (Ft X) as [Y|[Y _]]; rewrite Y in *; discriminate. }
             cbn [Nat.ltb Nat.leb].
             destruct (IH (pre ++ etext t) 0 c (L + dl) C' (c + tlen (etext t))) as (ts & -> & F1 & F2); auto; try lia; rewrite ?Nat.add_0_r; try (now apply posof_more); try assumption; try lia.
             cbn [abind]. eexists. split; [reflexivity|]. split; [constructor; [cbn; lia|exact F1]|]. cbn [decode st_line st_start st_length st_type]. constructor; [exact R|exact F2].
        * assert (Mt : marked t = false) by (unfold marked; now rewrite W, Ty). cbn [filter]. rewrite Mt.
          assert (Z0 : ~ In LF (etext t)).
          { intros X. destruct (Ft X) as [Y|[_ Y]]; [rewrite Y in W; discriminate|rewrite Ty in Y; discriminate]. }
          apply (IH (pre ++ etext t) dl ps L C (c + tlen (etext t))); auto; [|lia]. now apply posof_more.
  Qed.
End Encode.

(** ** What is highlighted *)

Section Facts.
  Variables (src : text) (types : list string).
  Notation tb := (the_table src).

  Lemma token_in t : In t (tokens src) -> exists p, InTree (tree_of src) t /\ is_node t = false /\ InTree (tree_of src) p /\ is_node p = true /\ parent t = Some p.
  Proof.
    intros H. apply filter_In in H as [H N]. apply negb_true_iff in N. apply desc_spec in H.
    inversion H as [E|p t' Hp Hc E]; subst.
    - exfalso. destruct (root_node src) as [cs E]. unfold is_node, root_of in N. cbn [el] in N. rewrite E in N. discriminate.
    - exists p. split; [exact H|]. split; [exact N|]. split; [exact Hp|]. split; [|now apply parent_child].
      unfold is_node. unfold children_with_tokens in Hc. destruct (el p); [destruct Hc|reflexivity].
  Qed.
  Lemma type_spec t : In t (tokens src) ->
    (is_some (token_type (token_kinds types) tb t) = true <-> Highlighted types src t)
    /\ forall i, token_type (token_kinds types) tb t = Some i ->
       exists k, Class src t k /\ nth_error (legend types) i = Some (tkind_name k).
  Proof.
    intros H. destruct (token_in t H) as (p & T & N & Tp & Np & P). pose proof (fun k => class_spec src t p k Tp Np P) as C.
    unfold token_type. split.
    - unfold Highlighted. destruct (token_class tb t) as [k|] eqn:E.
      + pose proof (proj1 (C k) eq_refl) as E'. destruct (index_of k (token_kinds types)) as [i|] eqn:I; cbn [is_some].
        * split; [|reflexivity]. intros _. exists k. split; [exact E'|]. apply index_of_some, nth_error_In in I. now apply token_kinds_in.
        * split; [discriminate|]. intros (k' & D & I'). apply C in D. injection D as <-. apply token_kinds_in in I'.
          apply index_of_none in I. contradiction.
      + split; [discriminate|]. intros (k' & D & _). apply C in D. congruence.
    - intros i E. destruct (token_class tb t) as [k|] eqn:E2; [|discriminate]. exists k. split; [now apply (proj1 (C k))|].
      apply index_of_some in E. rewrite legend_kinds. now apply map_nth_error.
  Qed.
  Lemma whitespace_none t : ekind t = WHITESPACE -> ~ Highlighted types src t.
  Proof. intros K (k & C & _). destruct C as [X|X|X|X|X|X|X|? X|? X|X|? X|? X|X]; rewrite ?K in X; cbn in X; intuition discriminate. Qed.
  Lemma marked_spec t : In t (tokens src) -> (marked src types t = true <-> Highlighted types src t).
  Proof.
    intros H. destruct (type_spec t H) as [A _]. unfold marked. destruct (kind_eqb (ekind t) WHITESPACE) eqn:K; cbn [negb andb].
    - apply kind_eqb_eq in K. split; [discriminate|]. intros X. now apply whitespace_none in X.
    - exact A.
  Qed.
  Lemma keeps_filter l : (forall t, In t l -> In t (tokens src)) -> Keeps (Highlighted types src) l (filter (marked src types) l).
  Proof.
    induction l as [|t l IH]; intros H; cbn [filter]; [constructor|]. pose proof (marked_spec t (H t (or_introl eq_refl))) as M.
    destruct (marked src types t).
    - constructor; [now apply M|]. apply IH. intros. apply H. now right.
    - apply Keeps_out; [intros X; apply M in X; discriminate|]. apply IH. intros. apply H. now right.
  Qed.
  Lemma puts_placed l0 c0 t q : In t (tokens src) -> puts src types l0 c0 t q -> Placed types src (shifted l0 c0) t q.
  Proof.
    intros H (line & col & H1 & H2 & H3 & H4 & H5). destruct (type_spec t H) as [_ B]. destruct (B _ H5) as (k & C & Hn).
    exists k, line, col. auto 10.
  Qed.

  Lemma has_token t : In t (tokens src) -> HasToken (tree_of src) (ekind t) (etext t).
  Proof.
    intros H. destruct (token_in t H) as (p & T & N & _). apply Sub_token.
    assert (X : Sub (tree_of src) (el t)).
    { clear H N. change (tree_of src) with (el (root_of (tree_of src))). generalize T. clear.
      intros T. induction T as [|p c T IH Hc]; [constructor|].
      apply child_in in Hc as (l & g & r & E & ->). cbn [el].
      assert (Q : Sub (el p) g). { destruct (el p) as [k x|k cs]; cbn in E; [destruct l; discriminate|]. subst cs. econstructor; [apply in_or_app; right; now left|constructor]. }
      revert Q. generalize g. clear - IH. induction IH; intros g0 Q; [exact Q|]. econstructor; eauto. }
    unfold is_node in N. unfold ekind, etext. destruct (el t); [exact X|discriminate].
  Qed.
  Lemma text_no_lf s : forallb (fun c => negb (N.eqb c LF)) s = true -> ~ In LF s.
  Proof. intros H X. rewrite forallb_forall in H. apply H in X. discriminate. Qed.
  Lemma one_of_lf l t : forallb (fun s => forallb (fun c => negb (N.eqb c LF)) (T s)) l = true -> OneOf l t -> ~ In LF t.
  Proof. intros H O. unfold OneOf in O. apply in_map_iff in O as (s & <- & Hs). rewrite forallb_forall in H. apply text_no_lf. now apply H. Qed.
  Lemma digits_lf p t : (p LF = false) -> Digits p t -> ~ In LF t.
  Proof.
    intros Hp (d & r & -> & Hd & Hr) [X|X]; [subst d; congruence|]. rewrite Forall_forall in Hr. apply Hr in X as [X|X]; [congruence|discriminate].
  Qed.
  Lemma uint_lf t : UIntForm t -> ~ In LF t.
  Proof.
    intros [[H|(d & -> & H)] _]; [revert H; now apply digits_lf|]. apply digits_lf in H; [|reflexivity]. rewrite in_app_iff. intros [X|X]; [|auto].
    cbn in X. intuition discriminate.
  Qed.
  Lemma sign_lf t : SignForm t -> ~ In LF t.
  Proof. intros [->|[->| ->]]; cbn; intuition discriminate. Qed.
  Lemma cat_lf (P Q : text -> Prop) t : (forall a, P a -> ~ In LF a) -> (forall a, Q a -> ~ In LF a) -> Cat P Q t -> ~ In LF t.
  Proof. intros HP HQ (a & b & -> & A & B). rewrite in_app_iff. intros [X|X]; [now apply (HP a)|now apply (HQ b)]. Qed.
  Lemma opt_lf (P : text -> Prop) t : (forall a, P a -> ~ In LF a) -> Opt P t -> ~ In LF t.
  Proof. intros HP [->|H]; [intros []|auto]. Qed.
  Lemma eq_lf s t : forallb (fun c => negb (N.eqb c LF)) s = true -> s = t -> ~ In LF t.
  Proof. intros H <-. now apply text_no_lf. Qed.
  Lemma float_lf t : FloatForm t -> ~ In LF t.
  Proof.
    assert (D : forall a, Digits is_ascii_digit a -> ~ In LF a) by (intros a; now apply digits_lf).
    assert (Hx : forall a, Digits is_ascii_hexdigit a -> ~ In LF a) by (intros a; now apply digits_lf).
    assert (E : forall s a, forallb (fun c => negb (N.eqb c LF)) s = true -> s = a -> ~ In LF a) by (intros; eapply eq_lf; eauto).
    apply cat_lf; [exact sign_lf|]. intros a [H|[H|[H|[H|H]]]]; revert H.
    - apply cat_lf; [intros b; now apply E|]. intros b. apply cat_lf; [exact Hx|]. intros b'. apply cat_lf.
      + intros d. apply opt_lf. intros d'. apply cat_lf; [intros x; now apply E|]. intros x. apply opt_lf. exact Hx.
      + intros d. apply opt_lf. intros d'. apply cat_lf; [intros x [->| ->]; now apply text_no_lf|]. intros x. apply cat_lf; [exact sign_lf|exact D].
    - apply cat_lf; [exact D|]. intros b'. apply cat_lf.
      + intros d. apply opt_lf. intros d'. apply cat_lf; [intros x; now apply E|]. intros x. apply opt_lf. exact D.
      + intros d. apply opt_lf. intros d'. apply cat_lf; [intros x [->| ->]; now apply text_no_lf|]. intros x. apply cat_lf; [exact sign_lf|exact D].
    - intros ->. now apply text_no_lf.
    - intros ->. now apply text_no_lf.
    - apply cat_lf; [intros b; now apply E|exact Hx].
  Qed.
  Lemma idchars_lf r : Forall (fun c => is_id_char c = true) r -> ~ In LF r.
  Proof. intros H X. rewrite Forall_forall in H. apply H in X. discriminate. Qed.
  Lemma lf_kinds k t : LexForm k t -> In LF t -> In k [WHITESPACE; BLOCK_COMMENT; STRING; ERROR].
  Proof.
    intros H X. assert (Z : ~ In LF t -> In k [WHITESPACE; BLOCK_COMMENT; STRING; ERROR]) by tauto.
    destruct k; cbn [LexForm] in H; try contradiction; try (cbn; tauto); apply Z.
    all: try (now subst t; apply text_no_lf); try (revert H; now apply one_of_lf).
    all: try now apply float_lf.
    all: try now apply uint_lf.
    all: try (revert H; apply cat_lf; [exact sign_lf|exact uint_lf]).
    all: try (destruct H as (r & -> & Hr & F); intros [Y|Y]; [discriminate|now apply idchars_lf in Y]).
    all: try (destruct H as (c & r & -> & Hc & F); intros [Y|Y]; [subst c; discriminate|now apply idchars_lf in Y]).
    all: try (destruct H as (n & [->| ->] & U); rewrite in_app_iff; (intros [Y|Y]; [cbn in Y; intuition discriminate|now apply uint_lf in Y])).
    destruct H as (r & -> & F). rewrite in_app_iff. intros [Y|Y]; [cbn in Y; intuition discriminate|]. rewrite Forall_forall in F. now apply F in Y.
  Qed.
  Lemma counted_fed : Counted types src -> Forall (fed src types) (tokens src).
  Proof.
    intros [H1 H2]. apply Forall_forall. intros t H X. pose proof (has_token t H) as Ht.
    apply (C07_token_forms false src (tree_of src) (errs_of src) _ _ (parse_of src)) in Ht. apply lf_kinds in Ht; [|exact X].
    cbn [In] in Ht. destruct Ht as [K|[K|[K|[K|[]]]]].
    - now left.
    - right. split; [now symmetry|]. apply (type_spec t H). destruct H2 as [H2|H2].
      + exists TkComment. split; [constructor; rewrite <- K; cbn; tauto|exact H2].
      + exfalso. now apply (H2 t H).
    - exfalso. apply (H1 t H); [rewrite <- K; cbn; tauto|exact X].
    - exfalso. apply (H1 t H); [rewrite <- K; cbn; tauto|exact X].
  Qed.
End Facts.

(** ** The tokens of a range *)

Lemma chain_mono o l t : Chain o l -> In t l -> o <= estart t.
Proof.
  revert o. induction l as [|x l IH]; intros o; cbn [Chain In]; [tauto|]. intros [E C] [->|H]; [lia|]. specialize (IH _ C H). lia.
Qed.
Lemma eend_len t : eend t = estart t + tlen (etext t).
Proof. unfold eend, estart, etext. now rewrite glen_tlen. Qed.
Lemma skip_split {A} (p : A -> bool) l : exists a, l = a ++ skip_while p l /\ Forall (fun x => p x = true) a
  /\ forall x r, skip_while p l = x :: r -> p x = false.
Proof.
  induction l as [|x l (a & E & F & G)]; cbn [skip_while]; [exists []; split; [reflexivity|split; [constructor|discriminate]]|].
  destruct (p x) eqn:P.
  - exists (x :: a). cbn. rewrite <- E. auto.
  - exists []. split; [reflexivity|]. split; [constructor|]. intros y r H. now injection H as <- <-.
Qed.
Lemma take_split {A} (p : A -> bool) l : exists b, l = take_while p l ++ b /\ Forall (fun x => p x = true) (take_while p l)
  /\ forall x r, b = x :: r -> p x = false.
Proof.
  induction l as [|x l (b & E & F & G)]; cbn [take_while]; [exists []; split; [reflexivity|split; [constructor|discriminate]]|].
  destruct (p x) eqn:P.
  - exists b. cbn. rewrite <- E. auto.
  - exists (x :: l). split; [reflexivity|]. split; [constructor|]. intros y r H. now injection H as <- <-.
Qed.
(** The tokens that overlap the range. *)
Lemma tokens_in_spec src a b : exists before after, tokens src = before ++ tokens_in src a b ++ after
  /\ (forall t, In t before -> eend t <= a) /\ (forall t, In t (tokens_in src a b) -> a < eend t /\ estart t < b)
  /\ (forall t, In t after -> b <= estart t).
Proof.
  destruct (tokens_chain src) as [C _]. unfold tokens_in. change (all_tokens src) with (tokens src).
  destruct (skip_split (fun t => Nat.leb (eend t) a) (tokens src)) as (l & E & F & G).
  set (rest := skip_while _ (tokens src)) in *.
  destruct (take_split (fun t => Nat.ltb (estart t) b) rest) as (r & E2 & F2 & G2).
  exists l, r. split; [now rewrite <- E2|]. rewrite E in C. apply chain_app in C as [_ C]. rewrite Forall_forall in F, F2.
  assert (Hr : forall t, In t rest -> a < eend t).
  { intros t Ht. destruct rest as [|x rest]; [destruct Ht|]. specialize (G x rest eq_refl). apply Nat.leb_gt in G. cbn [Chain] in C. destruct C as [C1 C2].
    destruct Ht as [<-|Ht]; [exact G|]. apply (chain_mono _ _ _ C2) in Ht. rewrite eend_len in *. lia. }
  split; [intros t Ht; apply Nat.leb_le; now apply F|]. split.
  - intros t Ht. split; [|apply Nat.ltb_lt; now apply F2]. apply Hr. rewrite E2. apply in_or_app. now left.
  - intros t Ht. rewrite E2 in C. apply chain_app in C as [_ C]. destruct r as [|x r]; [destruct Ht|]. specialize (G2 x r eq_refl). apply Nat.ltb_ge in G2.
    cbn [Chain] in C. destruct C as [C1 C2]. destruct Ht as [<-|Ht]; [exact G2|]. apply (chain_mono _ _ _ C2) in Ht. lia.
Qed.
Lemma keeps_app {A} (P : A -> Prop) a b a' b' : Keeps P a a' -> Keeps P b b' -> Keeps P (a ++ b) (a' ++ b').
Proof. intros H. revert b b'. induction H; intros b b' Hb; cbn; [exact Hb|constructor; auto|apply Keeps_out; auto]. Qed.
Lemma keeps_none {A} (P : A -> Prop) l : (forall x, In x l -> ~ P x) -> Keeps P l [].
Proof. induction l as [|x l IH]; intros H; [constructor|]. apply Keeps_out; [apply H; now left|]. apply IH. intros. apply H. now right. Qed.
Lemma keeps_iff {A} (P Q : A -> Prop) l l' : (forall x, In x l -> (P x <-> Q x)) -> Keeps P l l' -> Keeps Q l l'.
Proof.
  intros H K. induction K as [|x l l' Px K IH|x l l' Px K IH]; [constructor|constructor|apply Keeps_out].
  - apply H; [now left|exact Px].
  - apply IH. intros. apply H. now right.
  - intros X. apply Px. apply H; [now left|exact X].
  - apply IH. intros. apply H. now right.
Qed.
Lemma keeps_in {A} (P : A -> Prop) l l' x : Keeps P l l' -> In x l -> P x -> In x l'.
Proof. intros K. induction K as [|y l l' Py K IH|y l l' Py K IH]; cbn; [tauto| |]; intros [->|H] X; auto; contradiction. Qed.

Lemma shifted_zero l l0 : shifted l0 0 l = 0.
Proof. unfold shifted. now destruct (Nat.eqb l l0). Qed.
Lemma placed_ext types src f g t q : (forall l, f l = g l) -> Placed types src f t q -> Placed types src g t q.
Proof. intros E (k & line & col & H). exists k, line, col. now rewrite <- E. Qed.
Lemma F2_impl {A B} (P Q : A -> B -> Prop) l l' : (forall x y, In x l -> P x y -> Q x y) -> Forall2 P l l' -> Forall2 Q l l'.
Proof. intros H F. induction F as [|x y l l' Hx F IH]; constructor; [apply H; [now left|exact Hx]|]. apply IH. intros. apply H; [now right|assumption]. Qed.

Lemma F2_left {A B} (P : A -> B -> Prop) l l' x : Forall2 P l l' -> In x l -> exists y, In y l' /\ P x y.
Proof. intros F. induction F as [|a b l l' H F IH]; cbn; [tauto|]. intros [->|X]; [eauto|]. destruct (IH X) as (y & Y1 & Y2). eauto. Qed.

(** ** C23 *)

(** The legend holds exactly the types that both sides know. *)
Theorem C23_legend types :
  NoDup (legend types) /\ forall x, In x (legend types) <-> In x types /\ exists k, x = tkind_name k.
Proof.
  rewrite legend_kinds. destruct (kinds_map_ok types) as (H1 & _ & H3). fold (token_kinds types) in H1, H3. split.
  - clear H3. induction H1 as [|k l Hk Hl IH]; cbn; constructor; [|exact IH].
    intros X. apply in_map_iff in X as (k' & E & Hk'). apply tkind_name_inj in E. congruence.
  - intros x. rewrite in_map_iff. split.
    + intros (k & <- & H). split; [now apply H3|eauto].
    + intros [H (k & ->)]. exists k. split; [reflexivity|now apply H3].
Qed.

(** The answer always exists. *)
Lemma build_total src kinds l : (forall t, In t l -> InTree (tree_of src) t) ->
  forall dl ps, exists ts, build_tokens src kinds (the_table src) dl ps l = Ans ts.
Proof.
  induction l as [|t l IH]; intros H dl ps; cbn [build_tokens]; [eauto|].
  assert (Hl : forall t, In t l -> InTree (tree_of src) t) by (intros; apply H; now right). specialize (IH Hl).
  destruct (kind_eqb _ _); [destruct (Nat.ltb _ _); apply IH|]. destruct (token_type _ _ _); [|apply IH].
  destruct (range_of_ok src t (H t (or_introl eq_refl))) as (r & _ & R & _). rewrite R. cbn [amust abind].
  match goal with |- context [build_tokens src kinds _ ?a ?b l] => destruct (IH a b) as (ts & ->) end. cbn [abind]. eauto.
Qed.
Theorem C23_total types src : exists ts, semantic_tokens_full types src = Ans ts.
Proof.
  unfold semantic_tokens_full. rewrite symbols_spec. cbn [abind]. apply build_total. intros t H. now destruct (token_in src t H) as (p & T & _).
Qed.

(** Decoding the answer for a document gives exactly the highlighted tokens,
    in order, where they are in the document. *)
Theorem C23_full types src : gtext (tree_of src) = src -> Counted types src ->
  exists ts hs, semantic_tokens_full types src = Ans ts
    /\ Forall (fun s => (0 <= st_start s)%Z) ts
    /\ Keeps (Highlighted types src) (tokens src) hs
    /\ Forall2 (Placed types src (fun _ => 0)) hs (decode 0 0 ts).
Proof.
  intros L C. unfold semantic_tokens_full. rewrite symbols_spec. cbn [abind]. destruct (tokens_chain src) as [Ch Ct].
  assert (P0 : PosOf tlen [] (0 + 0) 0). { exists [], []. cbn. auto 10. }
  destruct (build_spec src types 0 0 [] (tokens src) [] 0 0 0 0%Z 0) as (ts & E & F1 & F2).
  - cbn [app]. rewrite app_nil_r, Ct. now symmetry.
  - exact Ch.
  - now apply counted_fed.
  - exact P0.
  - lia.
  - lia.
  - rewrite shifted_zero. reflexivity.
  - exists ts, (filter (marked src types) (tokens src)). split; [exact E|]. split; [exact F1|]. split; [apply keeps_filter; auto|].
    eapply F2_impl; [|exact F2]. intros t q Ht Hq. apply filter_In in Ht as [Ht _]. apply (placed_ext _ _ (shifted 0 0)); [apply (fun l => shifted_zero l 0)|].
    now apply puts_placed.
Qed.

(** The answer for a range gives exactly the highlighted tokens that overlap
    it, but columns on the line of the first token of the range are relative
    to that token. *)
Theorem C23_range types src r a b : gtext (tree_of src) = src -> Counted types src ->
  offset (new_line_index src) (fst r) = Some a -> offset (new_line_index src) (snd r) = Some b ->
  exists ts hs, semantic_tokens_range types src r = Ans ts
    /\ Forall (fun s => (0 <= st_start s)%Z) ts
    /\ Keeps (fun t => Highlighted types src t /\ a < eend t /\ estart t < b) (tokens src) hs
    /\ exists line col, Forall2 (Placed types src (fun l => if Nat.eqb l line then col else 0)) hs (decode 0 0 ts)
         /\ (hs <> [] -> exists t, In t (tokens src) /\ a < eend t /\ estart t < b
              /\ (forall t', In t' (tokens src) -> a < eend t' -> estart t <= estart t')
              /\ line_col (new_line_index src) (estart t) = Some (line, col)).
Proof.
  intros L C Ea Eb. unfold semantic_tokens_range. destruct r as [ra rb]. cbn [fst snd] in *. rewrite Ea, Eb, symbols_spec. cbn [aopt abind].
  destruct (tokens_in_spec src a b) as (before & after & Et & Hb & Hi & Ha). destruct (tokens_chain src) as [Ch Ct].
  assert (Hin : forall t, In t (tokens_in src a b) -> In t (tokens src)) by (intros t Ht; rewrite Et; apply in_or_app; right; apply in_or_app; now left).
  assert (K : Keeps (fun t => Highlighted types src t /\ a < eend t /\ estart t < b) (tokens src) (filter (marked src types) (tokens_in src a b))).
  { rewrite Et. change (filter (marked src types) (tokens_in src a b)) with ([] ++ filter (marked src types) (tokens_in src a b)).
    rewrite <- (app_nil_r (filter (marked src types) (tokens_in src a b))). apply keeps_app; [|apply keeps_app].
    - apply keeps_none. intros t Ht (_ & X & _). apply Hb in Ht. lia.
    - eapply keeps_iff; [|apply keeps_filter; exact Hin]. intros t Ht. apply Hi in Ht. cbn. tauto.
    - apply keeps_none. intros t Ht (_ & _ & X). apply Ha in Ht. lia. }
  destruct (tokens_in src a b) as [|t0 l] eqn:El.
  - exists [], []. split; [reflexivity|]. split; [constructor|]. split; [exact K|]. exists 0, 0. split; [constructor|]. now intros [].
  - set (ts0 := t0 :: l) in *. rewrite Et in Ch. apply chain_app in Ch as [Cb Ch]. apply chain_app in Ch as [Ch _].
    set (pre := concat (map etext before)) in *. cbn [Nat.add] in Ch.
    assert (S0 : estart t0 = tlen pre) by (cbn [ts0 Chain] in Ch; tauto).
    assert (Es : src = pre ++ concat (map etext ts0) ++ concat (map etext after)).
    { rewrite <- L, <- Ct, Et, !map_app, !concat_app. reflexivity. }
    destruct (posof_ex tlen pre) as (l0 & c0 & P). pose proof (line_col_posof pre (concat (map etext ts0) ++ concat (map etext after)) _ _ P) as Lc.
    rewrite <- Es in Lc. rewrite S0, Lc. cbn [amust abind fst snd].
    destruct (build_spec src types l0 c0 (concat (map etext after)) ts0 pre l0 c0 0 0%Z c0) as (ts & E & F1 & F2); auto.
    + pose proof (counted_fed src types C) as F. rewrite Forall_forall in F |- *. intros t Ht. apply F. now apply Hin.
    + unfold shifted. cbn [Nat.add]. rewrite Nat.eqb_refl. destruct (Nat.eqb l0 0); lia.
    + exists ts, (filter (marked src types) ts0). split; [exact E|]. split; [exact F1|]. split; [exact K|]. exists l0, c0. split.
      * eapply F2_impl; [|exact F2]. intros t q Ht Hq. apply filter_In in Ht as [Ht _]. apply puts_placed; auto.
      * intros _. exists t0. split; [apply Hin; now left|]. destruct (Hi t0 (or_introl eq_refl)) as [X Y]. split; [exact X|]. split; [exact Y|]. split.
        -- intros t' Ht' X'. rewrite Et in Ht'. apply in_app_or in Ht' as [Ht'|Ht']; [apply Hb in Ht'; lia|]. apply in_app_or in Ht' as [Ht'|Ht'].
           ++ rewrite S0. now apply (chain_mono _ _ _ Ch).
           ++ apply Ha in Ht'. lia.
        -- now rewrite S0.
Qed.
(** If the range starts at the start of a line, as when whole lines are
    asked for and the line does not start inside a token, nothing is off. *)
Lemma placed_zero types src l t q : Placed types src (fun l' => if Nat.eqb l' l then 0 else 0) t q -> Placed types src (fun _ => 0) t q.
Proof. apply placed_ext. intros l'. now destruct (Nat.eqb l' l). Qed.

Definition all_types : list string :=
  ["type"; "parameter"; "variable"; "function"; "keyword"; "comment"; "string"; "number"; "operator"]%string.
Lemma token_of_kind src k o : existsb (fun e => negb (is_node e) && kind_eqb (ekind e) k && Nat.eqb (estart e) o) (tokens src) = true ->
  exists t, In t (tokens src) /\ ekind t = k /\ estart t = o.
Proof.
  intros H. apply existsb_exists in H as (t & Ht & H). apply andb_prop in H as [H H3]. apply andb_prop in H as [H1 H2].
  apply kind_eqb_eq in H2. apply Nat.eqb_eq in H3. eauto.
Qed.

(** The condition on line feeds is needed: the encoder does not count those
    inside a string (after a backslash), and what follows is then placed on
    the wrong line. *)
Definition ex_string : text := Text.T "(module (data ""\" ++ [10%N] ++ Text.T """) (func))".
Theorem C23_strings_refuted :
  ~ (forall types src, gtext (tree_of src) = src -> exists ts hs, semantic_tokens_full types src = Ans ts
       /\ Keeps (Highlighted types src) (tokens src) hs /\ Forall2 (Placed types src (fun _ => 0)) hs (decode 0 0 ts)).
Proof.
  intros H. destruct (H all_types ex_string) as (ts & hs & E & K & F). { vm_compute. reflexivity. }
  destruct (token_of_kind ex_string KEYWORD 21) as (t & Ht & Kt & St). { vm_compute. reflexivity. }
  assert (Hs : In t hs). { apply (keeps_in _ _ _ _ K Ht). exists TkKeyword. split; [exact (Class_keyword _ _ Kt)|]. vm_compute. tauto. }
  destruct (F2_left _ _ _ _ F Hs) as (q & Hq & (k & line & col & _ & Lc & Q & _)). rewrite St in Lc. vm_compute in Lc. injection Lc as <- <-.
  assert (B : forallb (fun q => Nat.eqb (pl_line q) 0) (decode 0 0 ts) = true).
  { assert (E2 : match semantic_tokens_full all_types ex_string with Ans ts => forallb (fun q => Nat.eqb (pl_line q) 0) (decode 0 0 ts) | _ => false end = true) by (vm_compute; reflexivity).
    rewrite E in E2. exact E2. }
  rewrite forallb_forall in B. apply B in Hq. rewrite Q in Hq. discriminate.
Qed.
(** There the subtraction of columns can go below zero, which panics in a
    debug build. *)
Theorem C23_no_underflow_refuted :
  ~ (forall types src, gtext (tree_of src) = src -> forall ts s, semantic_tokens_full types src = Ans ts -> In s ts -> (0 <= st_start s)%Z).
Proof.
  intros H. specialize (H all_types ex_string). 
  destruct (semantic_tokens_full all_types ex_string) as [ts| |] eqn:E; [|vm_compute in E; discriminate|vm_compute in E; discriminate].
  assert (B : existsb (fun s => Z.ltb (st_start s) 0) ts = true).
  { assert (E2 : match semantic_tokens_full all_types ex_string with Ans ts => existsb (fun s => Z.ltb (st_start s) 0) ts | _ => false end = true) by (vm_compute; reflexivity).
    rewrite E in E2. exact E2. }
  apply existsb_exists in B as (s & Hs & B). apply Z.ltb_lt in B. assert (G : gtext (tree_of ex_string) = ex_string) by (vm_compute; reflexivity).
  specialize (H G ts s eq_refl Hs). lia.
Qed.
(** Block comments are only counted when they are highlighted. *)
Definition ex_comment : text := Text.T "(module (;" ++ [10%N] ++ Text.T ";) (func))".
Theorem C23_comments_refuted :
  ~ (forall types src, gtext (tree_of src) = src ->
       (forall t, In t (tokens src) -> In (ekind t) [STRING; ERROR] -> ~ In LF (etext t)) ->
       exists ts hs, semantic_tokens_full types src = Ans ts
       /\ Keeps (Highlighted types src) (tokens src) hs /\ Forall2 (Placed types src (fun _ => 0)) hs (decode 0 0 ts)).
Proof.
  intros H. destruct (H ["keyword"%string] ex_comment) as (ts & hs & E & K & F). { vm_compute. reflexivity. }
  { intros t Ht Kt _. assert (B : forallb (fun e => negb (existsb (kind_eqb (ekind e)) [STRING; ERROR])) (tokens ex_comment) = true) by (vm_compute; reflexivity).
    rewrite forallb_forall in B. apply B in Ht. apply negb_true_iff in Ht. assert (existsb (kind_eqb (ekind t)) [STRING; ERROR] = true); [|congruence].
    apply existsb_exists. exists (ekind t). split; [exact Kt|]. now apply kind_eqb_eq. }
  destruct (token_of_kind ex_comment KEYWORD 15) as (t & Ht & Kt & St). { vm_compute. reflexivity. }
  assert (Hs : In t hs). { apply (keeps_in _ _ _ _ K Ht). exists TkKeyword. split; [exact (Class_keyword _ _ Kt)|]. vm_compute. tauto. }
  destruct (F2_left _ _ _ _ F Hs) as (q & Hq & (k & line & col & _ & Lc & Q & _)). rewrite St in Lc. vm_compute in Lc. injection Lc as <- <-.
  assert (B : forallb (fun q => Nat.eqb (pl_line q) 0) (decode 0 0 ts) = true).
  { assert (E2 : match semantic_tokens_full ["keyword"%string] ex_comment with Ans ts => forallb (fun q => Nat.eqb (pl_line q) 0) (decode 0 0 ts) | _ => false end = true) by (vm_compute; reflexivity).
    rewrite E in E2. exact E2. }
  rewrite forallb_forall in B. apply B in Hq. rewrite Q in Hq. discriminate.
Qed.
(** A range that does not start at the start of a line is misplaced. *)
Theorem C23_range_refuted :
  ~ (forall types src r a b, gtext (tree_of src) = src -> Counted types src ->
       offset (new_line_index src) (fst r) = Some a -> offset (new_line_index src) (snd r) = Some b ->
       exists ts hs, semantic_tokens_range types src r = Ans ts
       /\ Keeps (fun t => Highlighted types src t /\ a < eend t /\ estart t < b) (tokens src) hs
       /\ Forall2 (Placed types src (fun _ => 0)) hs (decode 0 0 ts)).
Proof.
  intros H. set (src := Text.T "(module)"). destruct (H ["keyword"%string] src ((0, 1), (0, 7)) 1 7) as (ts & hs & E & K & F); try (vm_compute; reflexivity).
  { assert (B : forallb (fun e => negb (existsb (N.eqb LF) (etext e))) (tokens src) = true) by (vm_compute; reflexivity). rewrite forallb_forall in B.
    assert (Q : forall t, In t (tokens src) -> ~ In LF (etext t)).
    { intros t Ht X. apply B in Ht. apply negb_true_iff in Ht. assert (existsb (N.eqb LF) (etext t) = true); [|congruence]. apply existsb_exists. exists LF. auto. }
    split; [auto|right; auto]. }
  destruct (token_of_kind src KEYWORD 1) as (t & Ht & Kt & St). { vm_compute. reflexivity. }
  assert (Et : eend t = 7).
  { assert (B : forallb (fun e => negb (kind_eqb (ekind e) KEYWORD) || Nat.eqb (eend e) 7) (tokens src) = true) by (vm_compute; reflexivity).
    rewrite forallb_forall in B. apply B in Ht. rewrite Kt in Ht. now apply Nat.eqb_eq. }
  assert (Hs : In t hs). { apply (keeps_in _ _ _ _ K Ht). split; [|lia]. exists TkKeyword. split; [exact (Class_keyword _ _ Kt)|]. vm_compute. tauto. }
  destruct (F2_left _ _ _ _ F Hs) as (q & Hq & (k & line & col & _ & Lc & _ & Q & _)). rewrite St in Lc. vm_compute in Lc. injection Lc as <- <-.
  assert (B : forallb (fun q => Z.eqb (pl_col q) 0) (decode 0 0 ts) = true).
  { assert (E2 : match semantic_tokens_range ["keyword"%string] src ((0, 1), (0, 7)) with Ans ts => forallb (fun q => Z.eqb (pl_col q) 0) (decode 0 0 ts) | _ => false end = true) by (vm_compute; reflexivity).
    rewrite E in E2. exact E2. }
  rewrite forallb_forall in B. apply B in Hq. rewrite Q in Hq. discriminate.
Qed.

(** Several lines, a comment over two lines, a parameter and a call. *)
Definition ex_sem : text := Text.T "(module
  (; a
  b ;) (func $f (param $x i32)
    (call $f (local.get 0))))".
Lemma ex_sem_ok : gtext (tree_of ex_sem) = ex_sem /\ Counted all_types ex_sem.
Proof.
  split; [vm_compute; reflexivity|]. split; [|left; cbn; tauto]. intros t Ht Kt _.
  assert (B : forallb (fun e => negb (existsb (kind_eqb (ekind e)) [STRING; ERROR])) (tokens ex_sem) = true) by (vm_compute; reflexivity).
  rewrite forallb_forall in B. apply B in Ht. apply negb_true_iff in Ht. assert (existsb (kind_eqb (ekind t)) [STRING; ERROR] = true); [|congruence].
  apply existsb_exists. exists (ekind t). split; [exact Kt|]. now apply kind_eqb_eq.
Qed.
Example C23_case : exists ts, semantic_tokens_full all_types ex_sem = Ans ts
  /\ In (mk_placed 3 10%Z 2 3) (decode 0 0 ts) /\ In (mk_placed 3 24%Z 1 1) (decode 0 0 ts) /\ length ts = 11.
Proof.
  destruct (semantic_tokens_full all_types ex_sem) as [ts| |] eqn:E; [|vm_compute in E; discriminate|vm_compute in E; discriminate].
  exists ts. split; [reflexivity|]. vm_compute in E. injection E as <-. vm_compute. auto 20.
Qed.
