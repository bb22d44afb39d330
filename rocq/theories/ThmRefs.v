(** Find references: property C18. *)

From Coq Require Import String List NArith Bool Arith Lia.
From Verif Require Import Text Kind Green SpecParser Lexer LexerFacts Winnow Grammar Sem Lossless Total
  Bounds Lang TokForm Shape Red Unique LineIndex Cursor Doc Ast Binder Preorder SpecBinder BinderFacts BinderDefs Blocks
  Nav NavSpec NavFacts ThmNav RefFacts.
Import ListNotations.

(** The kinds of token from which references are looked up. *)
Definition LookupToken (t : elem) : Prop :=
  In (ekind t) [IDENT; INT; UNSIGNED_INT; NUM_TYPE; VEC_TYPE; REF_TYPE; KEYWORD].
Lemma lookup_token t : ref_token_kind (ekind t) = true <-> LookupToken t.
Proof.
  unfold ref_token_kind, LookupToken. rewrite existsb_exists. split.
  - intros (k & Hk & E). apply kind_eqb_eq in E. congruence.
  - intros H. exists (ekind t). split; [exact H|now apply kind_eqb_eq].
Qed.

(** The answer [rs] lists exactly the nodes with [P], in some order. *)
Definition Lists (src : text) (rs : list range) (P : elem -> Prop) : Prop :=
  exists ns, Forall2 (Shows src) rs ns
    /\ forall n, In n ns <-> InTree (tree_of src) n /\ is_node n = true /\ P n.
(** ... each of them once. *)
Definition ListsOnce (src : text) (rs : list range) (P : elem -> Prop) : Prop :=
  exists ns, NoDup ns /\ Forall2 (Shows src) rs ns
    /\ forall n, In n ns <-> InTree (tree_of src) n /\ is_node n = true /\ P n.

Section Doc.
  Variable src : text.
  Notation tree := (tree_of src).
  Notation nodes := (nodes src).
  Notation tb := (the_table src).

  Lemma references_once pos t p cur incl ss P : CursorOn src pos t -> parent t = Some p -> LookupToken t ->
    stands src p cur -> listed incl tb cur = Some ss -> NoDup ss -> (forall y, In y ss -> In y (raw_symbols nodes)) ->
    (forall n, InTree tree n -> is_node n = true -> ((exists y, In y ss /\ stands src n y) <-> P n)) ->
    exists rs, find_references src pos incl = Ans rs /\ ListsOnce src rs P.
  Proof.
    intros C Pt K St L D R H. destruct (nodes_of_symbols src ss D R) as (ns & N1 & N2 & N3).
    destruct (locations_ok src ss ns N2) as (rs & E & F). exists rs. split.
    - unfold find_references, cursor_token. rewrite C. cbn [abind]. apply lookup_token in K. rewrite K, Pt. cbn [aopt abind].
      rewrite symbols_spec. cbn [abind]. rewrite (find_key_stands src p cur St). cbn [aopt abind]. rewrite L. exact E.
    - exists ns. split; [exact N1|]. split; [exact F|]. intros n. rewrite N3. split.
      + intros (A & B & X). split; [exact A|]. split; [exact B|]. now apply H.
      + intros (A & B & X). split; [exact A|]. split; [exact B|]. now apply H.
  Qed.

  Lemma nodes_of_symbols' ss : (forall s, In s ss -> In s (raw_symbols nodes)) ->
    exists ns, Forall2 (fun s d => s_key s = key_of d /\ pointable src d) ss ns
      /\ forall n, In n ns <-> InTree tree n /\ is_node n = true /\ exists s, In s ss /\ stands src n s.
  Proof.
    induction ss as [|s ss IH]; intros H.
    - exists []. split; [constructor|]. intros n. split; [intros []|intros (_ & _ & s & [] & _)].
    - destruct IH as (ns & N2 & N3); [intros x Hx; apply H; now right|].
      assert (Hs : In s (raw_symbols nodes)) by (apply H; now left).
      destruct (raw_pointable src s Hs) as (n & P & E). exists (n :: ns). split.
      + constructor; auto.
      + intros x. cbn [In]. rewrite N3. split.
        * intros [<-|(A & B & s' & Hs' & St)].
          -- split; [apply P|]. split; [apply P|]. exists s. split; [now left|]. split; auto.
          -- split; [exact A|]. split; [exact B|]. exists s'. split; [now right|exact St].
        * intros (A & B & s' & [<-|Hs'] & St).
          -- left. destruct St as [_ St]. destruct P as (P1 & P2 & _). apply (key_inj src); auto. congruence.
          -- right. split; [exact A|]. split; [exact B|]. eauto.
  Qed.
  Lemma references_some pos t p cur incl ss P : CursorOn src pos t -> parent t = Some p -> LookupToken t ->
    stands src p cur -> listed incl tb cur = Some ss -> (forall y, In y ss -> In y (raw_symbols nodes)) ->
    (forall n, InTree tree n -> is_node n = true -> ((exists y, In y ss /\ stands src n y) <-> P n)) ->
    exists rs, find_references src pos incl = Ans rs /\ Lists src rs P.
  Proof.
    intros C Pt K St L R H. destruct (nodes_of_symbols' ss R) as (ns & N2 & N3).
    destruct (locations_ok src ss ns N2) as (rs & E & F). exists rs. split.
    - unfold find_references, cursor_token. rewrite C. cbn [abind]. apply lookup_token in K. rewrite K, Pt. cbn [aopt abind].
      rewrite symbols_spec. cbn [abind]. rewrite (find_key_stands src p cur St). cbn [aopt abind]. rewrite L. exact E.
    - exists ns. split; [exact F|]. intros n. rewrite N3. split.
      + intros (A & B & X). split; [exact A|]. split; [exact B|]. now apply H.
      + intros (A & B & X). split; [exact A|]. split; [exact B|]. now apply H.
  Qed.
End Doc.

(** ** Module-level definitions *)

(** From a definition: exactly the references that resolve to it, and the
    definition itself when declarations are asked for. *)
Theorem C18_of_definition src pos t d s m incl :
  CursorOn src pos t -> parent t = Some d -> LookupToken t ->
  InTree (tree_of src) m -> is_node m = true -> ekind m = MODULE -> In d (definitions_of s m) ->
  exists rs, find_references src pos incl = Ans rs
    /\ ListsOnce src rs (fun n => (incl = true /\ n = d) \/ Resolves src n d).
Proof.
  intros C P K Tm Nm Km Hd. destruct (def_found src m s d Tm Nm Km Hd) as (i & _ & _ & Hr).
  assert (St : stands src d (def_symbol m (sort_kind s) (i, d))) by (split; [exact Hr|reflexivity]).
  destruct (refs_def_spec src incl m s d _ Tm Nm Km Hd St) as (ss & L & D & R & H).
  eapply references_once; eauto.
Qed.
(** From a reference: its definitions when asked for, and every reference
    that shares a definition with it. *)
Theorem C18_of_reference src pos t n0 s w m incl :
  CursorOn src pos t -> parent t = Some n0 -> LookupToken t ->
  Asks n0 (AModule s) -> Written n0 w -> in_module n0 m -> InTree (tree_of src) m ->
  exists rs, find_references src pos incl = Ans rs
    /\ ListsOnce src rs (fun n => (incl = true /\ Resolves src n0 n) \/ exists d, Resolves src n0 d /\ Resolves src n d).
Proof.
  intros C P K A W M Tm. destruct (cursor_node _ _ _ _ C P) as (_ & _ & T & N & _).
  destruct (refs_ref_spec src incl n0 s w m T N A W M Tm) as (ss & L & D & R & H).
  eapply references_once; eauto. now apply module_ref_in.
Qed.

Lemma goto_resolves src n s w m d : Asks n (AModule s) -> Written n w -> in_module n m -> InTree (tree_of src) m ->
  (In d (map snd (filter (matches s w) (enum 0 (definitions m)))) <-> Resolves src n d).
Proof.
  intros A W M Tm. rewrite (resolves_iff src n s w m d A W M Tm). split.
  - intros H. split; [now apply matches_in in H|]. apply in_map_iff in H as ((i & d') & <- & H).
    apply filter_In in H as [H1 H2]. apply andb_prop in H2 as [_ H2]. cbn [fst snd] in *.
    exact (proj1 (denotes_iff m i d' w H1) H2).
  - intros [Hd De]. unfold definitions_of in Hd. apply filter_In in Hd as [Hd Hs].
    assert (Hd' : In d (definitions m)).
    { unfold definitions. apply filter_In. split; [exact Hd|now apply has_sort_def with s]. }
    apply In_nth_error in Hd' as (j & Hj).
    assert (Hi : In (N.of_nat j, d) (enum 0 (definitions m))) by (apply in_enum; exists j; cbn; split; [exact Hj|lia]).
    apply in_map_iff. exists (N.of_nat j, d). split; [reflexivity|]. apply filter_In. split; [exact Hi|].
    unfold matches. cbn [fst snd]. rewrite Hs. exact (proj2 (denotes_iff m _ d w Hi) De).
Qed.

(** The two requests are inverse. *)
Theorem C18_inverse src posn tn n s w mn posd td d sd md :
  CursorOn src posn tn -> parent tn = Some n -> Asks n (AModule s) -> Written n w ->
  in_module n mn -> InTree (tree_of src) mn ->
  CursorOn src posd td -> parent td = Some d -> LookupToken td ->
  InTree (tree_of src) md -> is_node md = true -> ekind md = MODULE -> In d (definitions_of sd md) ->
  exists gs ds rs ns,
    goto_definition src posn = Ans (Array gs) /\ Forall2 (Shows src) gs ds
    /\ find_references src posd false = Ans rs /\ Forall2 (Shows src) rs ns
    /\ (In d ds <-> In n ns).
Proof.
  intros Cn Pn A W M Tm Cd Pd Kd Td Nd Kmd Hd.
  destruct (goto_module src posn tn n s w mn Cn Pn A W M Tm) as (gs & G & F).
  destruct (C18_of_definition src posd td d sd md false Cd Pd Kd Td Nd Kmd Hd) as (rs & R & ns & _ & F' & H).
  exists gs, (map snd (filter (matches s w) (enum 0 (definitions mn)))), rs, ns.
  repeat (split; [assumption|]). rewrite (goto_resolves src n s w mn d A W M Tm), H.
  destruct (cursor_node _ _ _ _ Cn Pn) as (_ & _ & T & N & _). split.
  - intros X. auto.
  - intros (_ & _ & [[X _]|X]); [discriminate|exact X].
Qed.

(** ** Parameters and locals *)

Theorem C18_of_local src pos t d f incl :
  CursorOn src pos t -> parent t = Some d -> LookupToken t ->
  InTree (tree_of src) f -> is_node f = true -> ekind f = MODULE_FIELD_FUNC -> In d (locals_space f) ->
  exists rs, find_references src pos incl = Ans rs
    /\ ListsOnce src rs (fun n => (incl = true /\ n = d)
         \/ exists w, Asks n ALocal /\ Written n w /\ in_func n f /\ local_denotes f w d).
Proof.
  intros C P K Tf Nf Kf Hd. destruct (slot_found src f d Tf Nf Kf Hd) as (i & _ & Hr).
  assert (St : stands src d (local_symbol f (i, d))) by (split; [exact Hr|reflexivity]).
  destruct (refs_slot_spec src incl f d _ Tf Nf Kf Hd St) as (ss & L & D & R & H).
  eapply references_once; eauto.
Qed.
Theorem C18_of_local_reference src pos t n0 w f d incl :
  CursorOn src pos t -> parent t = Some n0 -> LookupToken t ->
  Asks n0 ALocal -> Written n0 w -> in_func n0 f -> InTree (tree_of src) f -> local_target f w = Some d ->
  exists rs, find_references src pos incl = Ans rs
    /\ ListsOnce src rs (fun n => (incl = true /\ local_denotes f w n)
         \/ exists w', Asks n ALocal /\ Written n w' /\ in_func n f /\ local_denotes f w' d).
Proof.
  intros C P K A W F Tf Ht. destruct (cursor_node _ _ _ _ C P) as (_ & _ & T & N & _).
  destruct (refs_local_ref_spec src incl n0 w f d T N A W F Tf Ht) as (ss & L & D & R & H).
  eapply references_once; eauto. now apply local_ref_in.
Qed.
(** What go to definition finds is among what denotes; when no two
    parameters or locals of the function have the same name, the requests are
    inverse. *)
Definition distinct_names (f : elem) : Prop :=
  forall i j x, (exists d, nth_error (locals_space f) i = Some d /\ slot_has_name x d = true) ->
    (exists d, nth_error (locals_space f) j = Some d /\ slot_has_name x d = true) -> i = j.
Theorem C18_local_target f w d : local_target f w = Some d -> local_denotes f w d.
Proof. unfold local_target, local_denotes. destruct w; [apply find_some|auto]. Qed.
Theorem C18_local_target_iff f w d : distinct_names f -> (local_target f w = Some d <-> local_denotes f w d).
Proof.
  intros D. split; [apply C18_local_target|]. unfold local_target, local_denotes. destruct w as [x|k]; [|auto].
  intros [H1 H2]. apply find_unique; [exact H1|exact H2|]. intros y Hy Ey.
  apply In_nth_error in H1 as (i & Hi), Hy as (j & Hj).
  assert (i = j) as <- by (apply (D i j x); eauto). congruence.
Qed.

(** ** Labels *)

(** From a block: every branch whose chain of directly nested blocks passes
    through it, whatever its label. *)
Theorem C18_of_block src pos t b incl :
  CursorOn src pos t -> parent t = Some b -> LookupToken t -> is_block b = true ->
  exists rs, find_references src pos incl = Ans rs
    /\ Lists src rs (fun n => (incl = true /\ n = b)
         \/ (Asks n ALabel /\ (exists w, Written n w) /\ In b (direct_blocks n))).
Proof.
  intros C P K B. destruct (cursor_node _ _ _ _ C P) as (_ & _ & T & N & _).
  destruct (block_parent src _ T N B) as (p & Pp & _).
  destruct (block_refs_spec src incl b p T N B Pp) as (R & H).
  pose proof (block_symbol_in src b p T N B Pp) as Hb.
  eapply references_some; eauto; [split; [exact Hb|reflexivity]|reflexivity].
Qed.
(** Go to definition implies being listed. *)
Theorem C18_label_listed n w b : label_target (direct_blocks n) w = Some b -> In b (direct_blocks n).
Proof. unfold label_target. destruct w; [intros H; now apply find_some in H|apply nth_error_In]. Qed.

(** ** Examples and refutations *)

Example C18_module_example :
  let tn := cur nav_ex (0, 50) in let n := par tn in let m := enc MODULE n in
  let td := cur nav_ex (0, 42) in let d := par td in
  CursorOn nav_ex (0, 50) tn /\ parent tn = Some n /\ LookupToken tn /\ Asks n (AModule FuncS) /\ Written n (Named (T "$a"))
  /\ in_module n m /\ InTree (tree_of nav_ex) m /\ is_node m = true /\ ekind m = MODULE
  /\ CursorOn nav_ex (0, 42) td /\ parent td = Some d /\ LookupToken td /\ In d (definitions_of FuncS m)
  /\ Resolves nav_ex n d
  /\ find_references nav_ex (0, 42) false = Ans [((0, 50), (0, 52))]
  /\ find_references nav_ex (0, 42) true = Ans [((0, 41), (0, 43)); ((0, 50), (0, 52))]
  /\ find_references nav_ex (0, 50) true
     = Ans [((0, 31), (0, 33)); ((0, 41), (0, 43)); ((0, 50), (0, 52)); ((0, 60), (0, 61))].
Proof.
  pose proof C13_example as (C & P & A & W & M & Tm & _). cbv zeta in C, P, A, W, M, Tm.
  cursor_at nav_ex (0, 42) C' P'.
  assert (Hd : In (par (cur nav_ex (0, 42))) (definitions_of FuncS (enc MODULE (par (cur nav_ex (0, 50))))))
    by (vm_compute; tauto).
  intros tn n m td d. split; [exact C|]. split; [exact P|]. split; [vm_compute; tauto|]. split; [exact A|].
  split; [exact W|]. split; [exact M|]. split; [exact Tm|]. split; [apply M|]. split; [apply M|].
  split; [exact C'|]. split; [exact P'|]. split; [vm_compute; tauto|]. split; [exact Hd|]. split.
  - exists FuncS, m, (Named (T "$a")). split; [exact A|]. split; [exact W|]. split; [exact M|]. split; [exact Tm|].
    split; [exact Hd|]. vm_compute. reflexivity.
  - split; [vm_compute; reflexivity|]. split; vm_compute; reflexivity.
Qed.

Definition twice : text := T "(module (func (param $x i32) (param $x i32) (local.get $x) (local.get 1)))".
Example C18_local_example :
  let t := cur twice (0, 22) in let d := par t in let f := enc MODULE_FIELD_FUNC d in
  CursorOn twice (0, 22) t /\ parent t = Some d /\ LookupToken t /\ InTree (tree_of twice) f /\ is_node f = true
  /\ ekind f = MODULE_FIELD_FUNC /\ In d (locals_space f)
  /\ find_references twice (0, 22) false = Ans [((0, 55), (0, 57))]
  /\ find_references twice (0, 70) true = Ans [((0, 36), (0, 38)); ((0, 55), (0, 57)); ((0, 70), (0, 71))].
Proof.
  cursor_at twice (0, 22) C P. enclosing_at twice (0, 22) MODULE_FIELD_FUNC E.
  destruct (ex_func _ _ _ _ _ C P E) as [(K & N & D) F2].
  intros t d f. split; [exact C|]. split; [exact P|]. split; [vm_compute; tauto|].
  split; [exact F2|]. split; [exact N|]. split; [exact K|]. split; [vm_compute; tauto|].
  split; vm_compute; reflexivity.
Qed.
Definition names_ex : text := T "(module (func (param $x i32) (local $y i32) (local.get $y)))".
Lemma distinct_names_from f : NoDup (filter (fun o => match o with Some _ => true | None => false end) (map slot_name (locals_space f))) ->
  distinct_names f.
Proof.
  unfold distinct_names. generalize (locals_space f). intros l.
  induction l as [|e l IH]; intros H i j x (d & Hd & Hx) (d' & Hd' & Hx').
  - destruct i; discriminate.
  - assert (Hin : forall k d, nth_error l k = Some d -> slot_has_name x d = true ->
              In (Some x) (filter (fun o => match o with Some _ => true | None => false end) (map slot_name l))).
    { intros k d0 H0 H1. apply filter_In. split; [|reflexivity]. apply in_map_iff. exists d0. split; [|now apply nth_error_In in H0].
      unfold slot_has_name in H1. destruct (slot_name d0); [|discriminate]. apply text_eqb_eq in H1. congruence. }
    assert (Hhd : forall d0, e = d0 -> slot_has_name x d0 = true -> slot_name e = Some x).
    { intros d0 -> H1. unfold slot_has_name in H1. destruct (slot_name d0); [|discriminate]. apply text_eqb_eq in H1. congruence. }
    assert (Hl : NoDup (filter (fun o => match o with Some _ => true | None => false end) (map slot_name l))).
    { cbn [map filter] in H. destruct (slot_name e); [now inversion H|exact H]. }
    destruct i as [|i], j as [|j]; cbn [nth_error] in Hd, Hd'.
    + reflexivity.
    + injection Hd as Hd. cbn [map filter] in H. rewrite (Hhd _ Hd Hx) in H. inversion H; subst. exfalso. eauto.
    + injection Hd' as Hd'. cbn [map filter] in H. rewrite (Hhd _ Hd' Hx') in H. inversion H; subst. exfalso. eauto.
    + f_equal. apply (IH Hl i j x); eauto.
Qed.
Lemma distinct_names_ex : distinct_names (enc MODULE_FIELD_FUNC (cur names_ex (0, 22))).
Proof.
  apply distinct_names_from.
  match goal with |- NoDup ?l => replace l with [Some (T "$x"); Some (T "$y")] by (vm_compute; reflexivity) end.
  repeat constructor; cbn; intuition discriminate.
Qed.

(** With two parameters of one name, go to definition picks the first, but
    the use is also listed for the second. *)
Theorem C18_locals_refuted :
  exists src posd posn td d tn n g rs,
    CursorOn src posd td /\ parent td = Some d /\ CursorOn src posn tn /\ parent tn = Some n
    /\ find_references src posd false = Ans rs /\ (exists r, In r rs /\ Shows src r n)
    /\ goto_definition src posn = Ans (Scalar g) /\ ~ Shows src g d.
Proof.
  exists twice, (0, 36), (0, 55), (cur twice (0, 36)), (par (cur twice (0, 36))), (cur twice (0, 55)), (par (cur twice (0, 55))).
  eexists. eexists. do 4 (split; [vm_compute; reflexivity|]). split; [vm_compute; reflexivity|].
  split; [eexists; split; [left; reflexivity|split; vm_compute; reflexivity]|].
  split; [vm_compute; reflexivity|]. intros [H _]. vm_compute in H. discriminate.
Qed.

Example C18_block_example :
  let t := cur labels_ex (0, 22) in let b := par t in
  CursorOn labels_ex (0, 22) t /\ parent t = Some b /\ LookupToken t /\ is_block b = true
  /\ find_references labels_ex (0, 22) false = Ans [((0, 37), (0, 38)); ((0, 44), (0, 46))].
Proof.
  cursor_at labels_ex (0, 22) C P. intros t b. split; [exact C|]. split; [exact P|]. split; [vm_compute; tauto|].
  split; vm_compute; reflexivity.
Qed.
(** The references of the outer block include the branch to the inner one. *)
Theorem C18_labels_refuted :
  exists src posd posn td d tn n g rs,
    CursorOn src posd td /\ parent td = Some d /\ is_block d = true /\ CursorOn src posn tn /\ parent tn = Some n
    /\ find_references src posd false = Ans rs /\ (exists r, In r rs /\ Shows src r n)
    /\ goto_definition src posn = Ans (Scalar g) /\ ~ Shows src g d.
Proof.
  exists labels_ex, (0, 22), (0, 44), (cur labels_ex (0, 22)), (par (cur labels_ex (0, 22))), (cur labels_ex (0, 44)), (par (cur labels_ex (0, 44))).
  eexists. eexists. do 5 (split; [vm_compute; reflexivity|]). split; [vm_compute; reflexivity|].
  split; [eexists; split; [right; left; reflexivity|split; vm_compute; reflexivity]|].
  split; [vm_compute; reflexivity|]. intros [H _]. vm_compute in H. discriminate.
Qed.
