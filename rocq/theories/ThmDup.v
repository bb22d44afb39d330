(** Duplicate names: property C20. *)

From Coq Require Import String List NArith Bool Arith Lia Permutation Sorting.Sorted.
From Verif Require Import Text Kind Green SpecParser Lexer LexerFacts Winnow Grammar Sem Lossless Total
  Bounds Lang TokForm Shape ThmParser Red Unique LineIndex Cursor Doc Ast Binder Preorder SpecBinder BinderFacts BinderDefs Blocks
  Nav NavSpec NavFacts ThmNav RefFacts ThmRefs SymCases TokKinds InstrMeta Types Check CheckFacts CheckMsgs ThmCheck.
Import ListNotations.

(** ** Specification *)

(** The node [d] declares the name [x] in region [R]: a function, type, global
    or memory in its module, a parameter or local in its function, a label in
    the node around its block.  Tables are left out. *)
Inductive Declares (src : text) (d : elem) (x : text) (R : elem) : Prop :=
| De_def s : InTree (tree_of src) R -> is_node R = true -> ekind R = MODULE -> s <> TableS ->
    In d (definitions_of s R) -> option_map etext (token d IDENT) = Some x -> Declares src d x R
| De_slot : InTree (tree_of src) R -> is_node R = true -> ekind R = MODULE_FIELD_FUNC ->
    In d (locals_space R) -> slot_name d = Some x -> Declares src d x R
| De_label : InTree (tree_of src) d -> is_node d = true -> is_block d = true -> parent d = Some R ->
    option_map etext (token d IDENT) = Some x -> Declares src d x R.
(** [d] is the report that [n] declares [x] again, as do [os]. *)
Definition Reports (src : text) (d : diag) (n : elem) (x : text) (os : list elem) : Prop :=
  (exists t, token n IDENT = Some t /\ RangeOf src t (d_range d))
  /\ d_message d = T "duplicated name `" ++ x ++ T "` in this scope"
  /\ exists rel, d_related d = Some rel
     /\ Forall2 (fun o r => snd r = T "already defined here as `" ++ x ++ T "`"
                            /\ exists t, token o IDENT = Some t /\ RangeOf src t (fst r)) os rel.
(** The labels [x] of blocks around [b], as long as only blocks lie between,
    and those of other blocks whose text lies in that of [b]. *)
Definition labelled (x : text) (b : elem) : Prop := is_block b = true /\ option_map etext (token b IDENT) = Some x.
Definition Around (src : text) (b : elem) (x : text) (o : elem) : Prop :=
  exists p, parent b = Some p /\ In o (while_block (ancestors p)) /\ labelled x o.
Definition Within (src : text) (b : elem) (x : text) (o : elem) : Prop :=
  InTree (tree_of src) o /\ is_node o = true /\ o <> b /\ labelled x o /\ estart b <= estart o /\ eend o <= eend b.

(** ** Groups *)

Definition in_group (x : text) (r : key) (s : symbol) : bool :=
  match i_name (s_idx s) with Some y => text_eqb x y && key_eqb r (s_region s) | None => false end.
Definition Groups (l : list symbol) (m : list ((text * key) * list symbol)) : Prop :=
  NoDup (map fst m)
  /\ (forall x r g, In ((x, r), g) m -> g = filter (in_group x r) l /\ g <> [])
  /\ (forall x r s, In s l -> in_group x r s = true -> In (x, r) (map fst m)).
Lemma text_eqb_refl a : text_eqb a a = true.
Proof. now apply text_eqb_eq. Qed.
Lemma add_keys x r s m : map fst (add_to_group x r s m)
  = if existsb (fun g => text_eqb x (fst (fst g)) && key_eqb r (snd (fst g))) m then map fst m else map fst m ++ [(x, r)].
Proof.
  induction m as [|[[y q] l] m IH]; cbn [add_to_group map existsb fst snd app]; [reflexivity|].
  destruct (text_eqb x y && key_eqb r q); cbn [orb map fst]; [reflexivity|].
  rewrite IH. destruct existsb; reflexivity.
Qed.
Lemma key_in x r m : existsb (fun g => text_eqb x (fst (fst g)) && key_eqb r (snd (fst g))) m = true
  <-> In (x, r) (map (@fst (text * key) (list symbol)) m).
Proof.
  rewrite existsb_exists, in_map_iff. split.
  - intros ([[y q] l] & Hg & E). cbn [fst snd] in E. apply andb_prop in E as [E1 E2]. apply text_eqb_eq in E1. apply key_eqb_eq in E2.
    subst. exists (y, q, l). auto.
  - intros ([[y q] l] & E & Hg). cbn [fst] in E. injection E as -> ->. exists (x, r, l). split; [exact Hg|].
    cbn [fst snd]. now rewrite text_eqb_refl, key_eqb_refl.
Qed.
Lemma add_in x r s m : NoDup (map fst m) -> forall y q g, In ((y, q), g) (add_to_group x r s m) ->
  ((y, q) <> (x, r) /\ In ((y, q), g) m)
  \/ ((y, q) = (x, r) /\ ((exists g', In ((x, r), g') m /\ g = g' ++ [s]) \/ (~ In (x, r) (map fst m) /\ g = [s]))).
Proof.
  induction m as [|[[z p] l] m IH]; intros D y q g; cbn [add_to_group].
  - intros [E|[]]. injection E as <- <- <-. right. split; [reflexivity|]. right. split; [tauto|reflexivity].
  - cbn [map fst] in D. inversion D as [|? ? D1 D2]. subst.
    destruct (text_eqb x z && key_eqb r p) eqn:E.
    + apply andb_prop in E as [E1 E2]. apply text_eqb_eq in E1. apply key_eqb_eq in E2. subst z p.
      intros [H|H].
      * injection H as <- <- <-. right. split; [reflexivity|]. left. exists l. split; [now left|reflexivity].
      * left. split; [|now right]. intros X. injection X as -> ->. apply D1. apply in_map_iff. eexists. split; [|exact H]. reflexivity.
    + intros [H|H].
      * injection H as <- <- <-. left. split; [|now left]. intros X. injection X as -> ->.
        rewrite text_eqb_refl, key_eqb_refl in E. discriminate.
      * apply (IH D2) in H as [[A B]|[A [(g' & B & C)|[B C]]]].
        -- left. split; [exact A|now right].
        -- right. split; [exact A|]. left. exists g'. split; [now right|exact C].
        -- right. split; [exact A|]. right. split; [|exact C]. cbn [map fst]. intros [X|X]; [|now apply B].
           injection X as -> ->. rewrite text_eqb_refl, key_eqb_refl in E. discriminate.
Qed.
Lemma NoDup_snoc {A} (l : list A) x : NoDup l -> ~ In x l -> NoDup (l ++ [x]).
Proof.
  intros D H. apply (Permutation_NoDup (l := x :: l)); [apply Permutation_cons_append|now constructor].
Qed.
Lemma groups_spec l : Groups l (name_groups l).
Proof.
  induction l as [|s l IH] using rev_ind; [split; [constructor|split; [intros ? ? ? []|intros ? ? ? []]]|].
  unfold name_groups in *. rewrite fold_left_app. cbn [fold_left].
  set (m := fold_left _ l []) in *. clearbody m. destruct IH as (D & H1 & H2).
  destruct (i_name (s_idx s)) as [x|] eqn:X.
  - assert (Gx : in_group x (s_region s) s = true) by (unfold in_group; now rewrite X, text_eqb_refl, key_eqb_refl).
    assert (Go : forall y q, in_group y q s = true -> (y, q) = (x, s_region s)).
    { intros y q E. unfold in_group in E. rewrite X in E. apply andb_prop in E as [E1 E2].
      apply text_eqb_eq in E1. apply key_eqb_eq in E2. congruence. }
    split; [|split].
    + rewrite add_keys. destruct existsb eqn:E; [exact D|]. apply NoDup_snoc; [exact D|].
      intros Hin. apply key_in in Hin. congruence.
    + intros y q g Hg. apply (add_in _ _ _ _ D) in Hg as [[A B]|[A B]].
      * destruct (H1 _ _ _ B) as [-> C]. split; [|exact C]. rewrite filter_app. cbn [filter].
        destruct (in_group y q s) eqn:E; [now apply Go in E|now rewrite app_nil_r].
      * injection A as -> ->. rewrite filter_app. cbn [filter]. rewrite Gx.
        destruct B as [(g' & B & ->)|[B ->]].
        -- destruct (H1 _ _ _ B) as [-> C]. split; [reflexivity|]. intros Z. now apply app_eq_nil in Z.
        -- split; [|discriminate]. rewrite filter_none; [reflexivity|]. intros y Hy.
           destruct (in_group x (s_region s) y) eqn:E; [|reflexivity]. destruct B. eapply H2; eauto.
    + intros y q z Hz Hg. rewrite add_keys. apply in_app_or in Hz as [Hz|[<-|[]]].
      * pose proof (H2 y q z Hz Hg). destruct existsb; [assumption|]. apply in_or_app. now left.
      * apply Go in Hg. injection Hg as -> ->. destruct existsb eqn:E; [now apply key_in in E|].
        apply in_or_app. right. now left.
  - assert (Gx : forall y q, in_group y q s = false) by (intros; unfold in_group; now rewrite X).
    split; [exact D|]. split.
    + intros y q g Hg. destruct (H1 y q g Hg) as [-> C]. split; [|exact C]. rewrite filter_app. cbn [filter].
      now rewrite Gx, app_nil_r.
    + intros y q z Hz Hg. apply in_app_or in Hz as [Hz|[<-|[]]]; [eauto|]. rewrite Gx in Hg. discriminate.
Qed.
Lemma groups_in l x r g : In ((x, r), g) (name_groups l) <-> g = filter (in_group x r) l /\ g <> [].
Proof.
  destruct (groups_spec l) as (D & H1 & H2). split; [apply H1|]. intros [-> N].
  destruct (filter (in_group x r) l) as [|s g] eqn:E; [congruence|].
  assert (Hs : In s (filter (in_group x r) l)) by (rewrite E; now left). apply filter_In in Hs as [Hs1 Hs2].
  pose proof (H2 x r s Hs1 Hs2) as K. apply in_map_iff in K as ([[y q] g'] & K & Hg). cbn [fst] in K. injection K as -> ->.
  destruct (H1 _ _ _ Hg) as [-> _]. rewrite <- E. exact Hg.
Qed.

Lemma ancestors_of_up us a : In a (ancestors_of us) -> length (ups a) < length us.
Proof.
  induction us as [|u us IH]; cbn [ancestors_of In length]; [tauto|]. intros [<-|H]; cbn [ups]; [lia|]. apply IH in H. lia.
Qed.
Lemma ancestors_nodup e : NoDup (ancestors e).
Proof.
  assert (H : forall us, NoDup (ancestors_of us)).
  { induction us as [|u us IH]; cbn [ancestors_of]; constructor; [|exact IH]. intros H. apply ancestors_of_up in H. cbn [ups] in H. lia. }
  unfold ancestors. constructor; [|apply H]. intros X. apply ancestors_of_up in X. lia.
Qed.
Section Doc.
  Variable src : text.
  Notation tree := (tree_of src).
  Notation nodes := (nodes src).
  Notation tb := (the_table src).

  (** ** Symbols and declarations *)

  Lemma ident_token n x : option_map etext (token n IDENT) = Some x -> exists t, token n IDENT = Some t /\ etext t = x.
  Proof. destruct (token n IDENT) as [t|]; cbn; intros H; [injection H as H; eauto|discriminate]. Qed.
  Lemma declares_node n x R : Declares src n x R ->
    InTree tree n /\ is_node n = true /\ InTree tree R /\ is_node R = true /\ exists t, token n IDENT = Some t /\ etext t = x.
  Proof.
    intros [s TR NR KR S H I|TR NR KR H I|T N B P I].
    - destruct (def_found src R s n TR NR KR H) as (i & Hi & _).
      assert (Hd : In n (definitions R)) by (rewrite <- (enum_snd 0 (definitions R)); exact (in_map snd _ _ Hi)).
      destruct (def_pointable src R n TR Hd) as (T & N & _). repeat (split; [assumption|]). now apply ident_token.
    - destruct (slot_pointable src R n TR KR H) as (T & N & _). repeat (split; [assumption|]).
      unfold slot_name in I. destruct kind_eqb; [discriminate|]. now apply ident_token.
    - destruct (block_parent src n T N B) as (q & Q1 & Q2 & Q3 & Q4). rewrite P in Q1. injection Q1 as <-.
      repeat (split; [assumption|]). now apply ident_token.
  Qed.
  Lemma declares_symbol n x R : Declares src n x R ->
    exists s, stands src n s /\ dup_kind s = true /\ in_group x (key_of R) s = true.
  Proof.
    intros [s TR NR KR S H I|TR NR KR H I|T N B P I].
    - destruct (def_found src R s n TR NR KR H) as (i & Hi & _ & Hr).
      exists (def_symbol R (sort_kind s) (i, n)). split; [split; [exact Hr|reflexivity]|]. split; [destruct s; congruence || reflexivity|].
      unfold in_group. cbn [def_symbol s_idx i_name snd s_region]. change (ident_of n) with (option_map etext (token n IDENT)). rewrite I.
      now rewrite text_eqb_refl, key_eqb_refl.
    - destruct (slot_found src R n TR NR KR H) as (i & Hi & Hr).
      exists (local_symbol R (i, n)). split; [split; [exact Hr|reflexivity]|].
      split; [destruct (local_kind R (i, n)) as [E|E]; unfold dup_kind; now rewrite E|].
      unfold in_group, local_symbol, slot_symbol. cbn [s_idx i_name snd s_region].
      change (if kind_eqb (ekind n) VAL_TYPE then None else ident_of n) with (slot_name n). rewrite I.
      now rewrite text_eqb_refl, key_eqb_refl.
    - exists (block_symbol R n). split; [split; [now apply block_symbol_in|reflexivity]|]. split; [reflexivity|].
      unfold in_group. cbn [block_symbol s_idx i_name s_region]. change (ident_of n) with (option_map etext (token n IDENT)). rewrite I.
      now rewrite text_eqb_refl, key_eqb_refl.
  Qed.
  Lemma symbol_declares s x r : In s (raw_symbols nodes) -> dup_kind s = true -> in_group x r s = true ->
    exists n R, stands src n s /\ key_of R = r /\ Declares src n x R.
  Proof.
    intros Hs K G. destruct (raw_cases src s Hs) as [m T N Km E|m so i d T N Km Hi So E|f i d T N Kf Hi E|b p T N B P E|n a w e T N A W He E].
    - rewrite E in K. discriminate.
    - exists d, m. unfold in_group in G. rewrite E in G. cbn [def_symbol s_idx i_name snd s_region] in G.
      destruct (ident_of d) as [y|] eqn:I; [|discriminate]. apply andb_prop in G as [G1 G2].
      apply text_eqb_eq in G1. apply key_eqb_eq in G2. subst y r. split; [split; [exact Hs|now rewrite E]|]. split; [reflexivity|].
      apply De_def with so; auto.
      + intros ->. rewrite E in K. discriminate.
      + unfold definitions_of. apply filter_In. split; [|exact So].
        assert (Hd : In d (definitions m)) by (rewrite <- (enum_snd 0 (definitions m)); exact (in_map snd _ _ Hi)).
        unfold definitions in Hd. now apply filter_In in Hd.
    - exists d, f. unfold in_group in G. rewrite E in G. unfold local_symbol, slot_symbol in G. cbn [s_idx i_name snd s_region] in G.
      destruct (if kind_eqb (ekind d) VAL_TYPE then None else ident_of d) as [y|] eqn:I; [|discriminate]. apply andb_prop in G as [G1 G2].
      apply text_eqb_eq in G1. apply key_eqb_eq in G2. subst y r. split; [split; [exact Hs|now rewrite E]|]. split; [reflexivity|].
      apply De_slot; auto. rewrite <- (enum_snd 0 (locals_space f)). exact (in_map snd _ _ Hi).
    - exists b, p. unfold in_group in G. rewrite E in G. cbn [block_symbol s_idx i_name s_region] in G.
      destruct (ident_of b) as [y|] eqn:I; [|discriminate]. apply andb_prop in G as [G1 G2].
      apply text_eqb_eq in G1. apply key_eqb_eq in G2. subst y r. split; [split; [exact Hs|now rewrite E]|]. split; [reflexivity|].
      now apply De_label.
    - rewrite E in K. destruct a as [[]| |]; discriminate.
  Qed.

  Lemma stands_fun n n' s : InTree tree n -> is_node n = true -> InTree tree n' -> is_node n' = true ->
    stands src n s -> stands src n' s -> n = n'.
  Proof. intros T N T' N' [_ E] [_ E']. apply (key_inj src); auto. congruence. Qed.
  Lemma stands_sym n s s' : stands src n s -> stands src n s' -> s = s'.
  Proof. intros [A E] [A' E']. apply (raw_key_inj src); auto. congruence. Qed.
  Lemma symbol_eqb_eq s s' : In s (raw_symbols nodes) -> In s' (raw_symbols nodes) -> (symbol_eqb s s' = true <-> s = s').
  Proof.
    intros A B. unfold symbol_eqb. split.
    - intros H. apply andb_prop in H as [H _]. apply key_eqb_eq in H. now apply (raw_key_inj src).
    - intros ->. now rewrite key_eqb_refl, skind_eqb_refl.
  Qed.
  (** All the declarations of [x] in [R]. *)
  Lemma group_declares x R s : InTree tree R -> is_node R = true ->
    (In s (filter (in_group x (key_of R)) (filter dup_kind (symbols tb))) <-> exists n, stands src n s /\ Declares src n x R).
  Proof.
    intros TR NR. rewrite !filter_In. split.
    - intros ((Hs & K) & G). destruct (symbol_declares s x _ Hs K G) as (n & R' & St & E & D).
      destruct (declares_node _ _ _ D) as (_ & _ & TR' & NR' & _). assert (R' = R) as -> by (apply (key_inj src); auto). eauto.
    - intros (n & St & D). destruct (declares_symbol n x R D) as (s' & St' & K & G). rewrite (stands_sym _ _ _ St St'). destruct St'. auto.
  Qed.

  Lemma filter_nodup {A} (f : A -> bool) l : NoDup l -> NoDup (filter f l).
  Proof. apply NoDup_filter. Qed.
  Lemma group_reports n x R s : Declares src n x R -> stands src n s ->
    exists d os, group_diag src x (filter (in_group x (key_of R)) (filter dup_kind (symbols tb))) s = Ans d
      /\ NoDup os /\ (forall o, In o os <-> Declares src o x R /\ o <> n) /\ Reports src d n x os.
  Proof.
    intros D St. destruct (declares_node _ _ _ D) as (T & N & TR & NR & t & Ht & Ex).
    set (g := filter (in_group x (key_of R)) (filter dup_kind (symbols tb))).
    assert (Hraw : forall y, In y g -> In y (raw_symbols nodes)).
    { intros y Hy. subst g. apply filter_In in Hy as [Hy _]. now apply filter_In in Hy. }
    assert (Dg : NoDup g) by (subst g; apply filter_nodup, filter_nodup, (raw_nodup src)).
    set (h := filter (fun o => negb (symbol_eqb o s)) g).
    destruct (nodes_of_symbols src h) as (os & O1 & O2 & O3).
    { apply filter_nodup, Dg. }
    { intros y Hy. apply filter_In in Hy as [Hy _]. auto. }
    assert (Os : forall o, In o os <-> Declares src o x R /\ o <> n).
    { intros o. rewrite O3. split.
      - intros (To & No & y & Hy & Sy). apply filter_In in Hy as [Hy Ny]. pose proof (Hraw y Hy) as Ry.
        apply (group_declares x R y TR NR) in Hy as (o' & So & Do).
        destruct (declares_node _ _ _ Do) as (To' & No' & _). assert (o' = o) as -> by (eapply stands_fun; eauto).
        split; [exact Do|]. intros ->. rewrite (stands_sym _ _ _ Sy St) in Ny. destruct St as [Hs _].
        rewrite (proj2 (symbol_eqb_eq s s Hs Hs) eq_refl) in Ny. discriminate.
      - intros [Do Ne]. destruct (declares_node _ _ _ Do) as (To & No & _). split; [exact To|]. split; [exact No|].
        destruct (declares_symbol o x R Do) as (y & Sy & _ & _). exists y. split; [|exact Sy]. apply filter_In. split.
        + apply group_declares; eauto.
        + destruct (symbol_eqb y s) eqn:E; [|reflexivity]. destruct Sy as [Hy Ey], St as [Hs Es].
          apply symbol_eqb_eq in E; auto. subst y. destruct Ne. apply (key_inj src); auto. congruence. }
    destruct St as [Hs Es]. destruct (raw_green src s Hs) as (n' & P & En & _).
    assert (n' = n) as ->. { destruct P as (T' & N' & _). apply (key_inj src); auto. congruence. }
    destruct (ident_range_ok src s n P En) as (r & Er & Rr).
    assert (M : exists rs, map_ans (ident_lsp_range src) h = Ans rs
               /\ Forall2 (fun o r => exists t, token o IDENT = Some t /\ RangeOf src t r) os rs).
    { assert (Hos : forall o, In o os -> exists t, token o IDENT = Some t).
      { intros o Ho. apply Os in Ho as [Do _]. destruct (declares_node _ _ _ Do) as (_ & _ & _ & _ & u & Hu & _). eauto. }
      clear - O2 Hos. induction O2 as [|y o h os [E1 P1] _ IH]; [exists []; split; [reflexivity|constructor]|].
      destruct (ident_range_ok src y o P1 E1) as (r & Er & Rr). destruct (Hos o) as (t & Ht); [now left|].
      destruct IH as (rs & Eh & F); [intros; apply Hos; now right|]. exists (r :: rs). cbn [map_ans]. rewrite Er, Eh. cbn [abind].
      split; [reflexivity|]. constructor; [|exact F]. exists t. split; [exact Ht|]. unfold name_elem in Rr. now rewrite Ht in Rr. }
    destruct M as (rs & Em & Fm). unfold group_diag. rewrite Er. cbn [abind]. fold h. rewrite Em. cbn [abind].
    eexists. exists os. split; [reflexivity|]. split; [exact O1|]. split; [exact Os|].
    split; [|split; [reflexivity|]].
    - exists t. split; [exact Ht|]. unfold name_elem in Rr. rewrite Ht in Rr. exact Rr.
    - eexists. split; [reflexivity|]. clear - Fm. induction Fm as [|o r os rs H _ IH]; [constructor|]. cbn [map]. constructor; [|exact IH].
      split; [reflexivity|exact H].
  Qed.
  Lemma two_in {A} (l : list A) a b : In a l -> In b l -> a <> b -> 1 < length l.
  Proof. destruct l as [|x [|y l]]; cbn; [tauto| |lia]. intros [<-|[]] [<-|[]]. congruence. Qed.
  Lemma scope_among d : among d (dup_scope src tb) <->
    exists n x R s, Declares src n x R /\ stands src n s /\ (exists o, Declares src o x R /\ o <> n)
      /\ group_diag src x (filter (in_group x (key_of R)) (filter dup_kind (symbols tb))) s = Ans d.
  Proof.
    destruct (dup_scope_fine src) as (l & E & _).
    assert (X : among d (dup_scope src tb) <-> exists g, In g (filter (fun g => Nat.ltb 1 (length (snd g))) (name_groups (filter dup_kind (symbols tb)))) /\ among d (group_diags src g)).
    { unfold dup_scope in *. destruct (map_ans _ _) as [ls| |] eqn:El; cbn [abind] in *; try discriminate.
      unfold among at 1. rewrite <- (concat_among _ _ _ d El). split; [intros (y & Y & Hd); injection Y as <-; exact Hd|eauto]. }
    rewrite X. clear X E l. split.
    - intros ([[x r] g] & Hg & l & El & Hd). apply filter_In in Hg as [Hg L]. cbn [snd] in L. apply Nat.ltb_lt in L.
      apply groups_in in Hg as [Eg _]. unfold group_diags in El. cbn [fst snd] in El.
      apply (map_ans_in _ _ _ _ El) in Hd as (s & Hs & Ed).
      assert (Ds : forall s, In s g -> In s (raw_symbols nodes) /\ dup_kind s = true /\ in_group x r s = true).
      { intros y Hy. rewrite Eg in Hy. apply filter_In in Hy as [Hy1 Hy2]. apply filter_In in Hy1 as [Hy1 Hy3]. auto. }
      destruct (Ds s Hs) as (A & B & C). destruct (symbol_declares s x r A B C) as (n & R & St & <- & D).
      exists n, x, R, s. split; [exact D|]. split; [exact St|]. split; [|rewrite <- Eg; exact Ed].
      assert (Dg : NoDup g) by (rewrite Eg; apply filter_nodup, filter_nodup, (raw_nodup src)).
      assert (O : exists y, In y g /\ y <> s).
      { destruct g as [|a [|b g]]; cbn in L; try lia. inversion Dg as [|? ? N1 _]. subst.
        destruct Hs as [<-|Hs]; [exists b; split; [right; now left|intros ->; apply N1; now left]|].
        exists a. split; [now left|]. intros ->. now apply N1. }
      destruct O as (y & Hy & Ny). destruct (Ds y Hy) as (A' & B' & C').
      destruct (symbol_declares y x _ A' B' C') as (o & R' & St' & E' & D').
      destruct (declares_node _ _ _ D) as (Tn & Nn & TR & NR & _). destruct (declares_node _ _ _ D') as (To & No & TR' & NR' & _).
      assert (R' = R) as -> by (apply (key_inj src); auto). exists o. split; [exact D'|].
      intros ->. apply Ny. eapply stands_sym; eauto.
    - intros (n & x & R & s & D & St & (o & Do & No) & Ed).
      destruct (declares_node _ _ _ D) as (Tn & Nn & TR & NR & _).
      set (g := filter (in_group x (key_of R)) (filter dup_kind (symbols tb))) in *.
      assert (Hs : In s g) by (apply group_declares; eauto).
      destruct (declares_symbol o x R Do) as (y & Sy & _ & _). assert (Hy : In y g) by (apply group_declares; eauto).
      exists ((x, key_of R), g). split.
      + apply filter_In. cbn [snd]. split.
        * apply groups_in. split; [reflexivity|]. intros Z. rewrite Z in Hs. destruct Hs.
        * apply Nat.ltb_lt. apply (two_in g s y); auto. intros <-. destruct (declares_node _ _ _ Do) as (To & No' & _).
          apply No. eapply stands_fun; eauto.
      + unfold group_diags. cbn [fst snd].
        destruct (map_ans_total (group_diag src x g) g) as (l & El).
        { intros z Hz. apply (group_declares x R z TR NR) in Hz as (nz & Sz & Dz).
          destruct (group_reports nz x R z Dz Sz) as (dz & _ & Ez & _). eauto. }
        exists l. split; [exact El|]. apply (map_ans_in _ _ _ _ El). eauto.
  Qed.

  (** ** Nested blocks *)

  Lemma insert_perm p l : Permutation (insert_by_start p l) (p :: l).
  Proof.
    induction l as [|q l IH]; cbn [insert_by_start]; [reflexivity|]. destruct Nat.leb; [reflexivity|].
    rewrite IH. apply perm_swap.
  Qed.
  Lemma sort_perm l : Permutation (sort_by_start l) l.
  Proof.
    induction l as [|q l IH]; cbn [sort_by_start fold_right]; [reflexivity|]. fold (sort_by_start l).
    rewrite insert_perm. now constructor.
  Qed.
  Definition by_start (a b : nat * nat) : Prop := fst a <= fst b.
  Lemma insert_sorted p l : Sorted by_start l -> Sorted by_start (insert_by_start p l).
  Proof.
    induction 1 as [|q l S IH H]; cbn [insert_by_start]; [repeat constructor|].
    destruct (Nat.leb_spec (fst p) (fst q)).
    - constructor; [constructor; auto|]. constructor. exact H0.
    - constructor; [exact IH|]. destruct l as [|q' l]; cbn [insert_by_start].
      + constructor. unfold by_start. lia.
      + inversion H. destruct Nat.leb; constructor; unfold by_start in *; lia.
  Qed.
  Lemma sort_sorted l : Sorted by_start (sort_by_start l).
  Proof. induction l; cbn [sort_by_start fold_right]; [constructor|]. now apply insert_sorted. Qed.

  Lemma Forall2_perm_l {A B} (R : A -> B -> Prop) l l' m : Forall2 R l l' -> Permutation l' m ->
    exists k, Permutation l k /\ Forall2 R k m.
  Proof.
    intros F P. revert l F. induction P; intros l0 F.
    - exists l0. inversion F. split; [reflexivity|constructor].
    - inversion F as [|a ? l1 ? H1 H2]; subst. destruct (IHP l1 H2) as (k & P1 & F1). exists (a :: k). split; auto.
    - inversion F as [|a ? l1 ? H1 H2]; subst. inversion H2 as [|b ? l2 ? H3 H4]; subst.
      exists (b :: a :: l2). split; [apply perm_swap|]. auto.
    - destruct (IHP1 l0 F) as (k1 & P3 & F3). destruct (IHP2 k1 F3) as (k2 & P4 & F4). exists k2. split; [|exact F4].
      now transitivity k1.
  Qed.
  Lemma in_while l x : In x (while_block l) -> is_block x = true.
  Proof. intros H. now apply while_block_in in H. Qed.
  Lemma named_block x p b : named_as x (block_symbol p b) = true <-> option_map etext (token b IDENT) = Some x.
  Proof.
    unfold named_as. cbn [block_symbol s_idx i_name]. change (ident_of b) with (option_map etext (token b IDENT)).
    destruct (option_map etext (token b IDENT)) as [y|]; [|split; discriminate]. rewrite text_eqb_eq. split; congruence.
  Qed.

  (** The report for the block [b], if any. *)
  Lemma nested_spec b p x : InTree tree b -> is_node b = true -> is_block b = true -> parent b = Some p ->
    option_map etext (token b IDENT) = Some x ->
    exists as_ cs, NoDup as_ /\ NoDup cs
      /\ (forall o, In o as_ <-> Around src b x o) /\ (forall o, In o cs <-> Within src b x o)
      /\ if Nat.ltb 1 (length as_ + length cs) then
           exists d os, nested_diag src tb (block_symbol p b) = Ans [d]
             /\ Permutation os (as_ ++ cs) /\ Sorted (fun o o' => estart (name_elem o) <= estart (name_elem o')) os
             /\ Reports src d b x os
         else nested_diag src tb (block_symbol p b) = Ans [].
  Proof.
    intros T N B P I. unfold nested_diag. cbn [block_symbol s_kind s_idx i_name].
    change (ident_of b) with (option_map etext (token b IDENT)). rewrite I.
    destruct (region_block src b p T N B P) as (ps & Eps & F2 & Fr).
    destruct (block_parent src b T N B) as (q & Q1 & _ & Tp & Np). rewrite P in Q1. injection Q1 as <-.
    set (s := block_symbol p b). assert (Hs : In s (raw_symbols nodes)) by now apply block_symbol_in.
    assert (Wn : forall o, In o (while_block (ancestors p)) -> InTree tree o /\ is_node o = true /\ is_block o = true).
    { intros o Ho. apply while_block_in in Ho as [Ho1 Ho2]. destruct (ancestor_node src _ _ Tp Np Ho1) as (A & C & E). auto. }
    set (nm := fun o => match option_map etext (token o IDENT) with Some y => text_eqb y x | None => false end).
    assert (Nm : forall o, nm o = true <-> option_map etext (token o IDENT) = Some x).
    { intros o. unfold nm. destruct (option_map etext (token o IDENT)) as [y|]; [rewrite text_eqb_eq|]; split; congruence. }
    exists (filter nm (while_block (ancestors p))).
    set (qs := filter (fun o => negb (symbol_eqb o s) && skind_eqb (s_kind o) SBlockDef && named_as x o
                         && key_contains (s_key s) (s_key o)) (symbols tb)).
    assert (Hqs : forall y, In y qs -> In y (raw_symbols nodes)) by (intros y Hy; apply filter_In in Hy; apply Hy).
    destruct (nodes_of_symbols src qs) as (cs & O1 & O2 & O3); [apply filter_nodup, (raw_nodup src)|exact Hqs|].
    exists cs. split.
    { apply filter_nodup. assert (D : NoDup (ancestors p)) by apply ancestors_nodup.
      clear - D. induction (ancestors p) as [|a l IH]; cbn [while_block]; [constructor|]. inversion D as [|? ? D1 D2]. subst.
      destruct (is_block a); [|constructor]. constructor; [|auto]. intros H. apply while_block_in in H as [H _]. auto. }
    split; [exact O1|]. split.
    { intros o. rewrite filter_In, Nm. unfold Around, labelled. split.
      - intros [A C]. exists p. split; [exact P|]. split; [exact A|]. split; [now apply in_while in A|exact C].
      - intros (p' & P' & A & C & D). rewrite P in P'. injection P' as <-. auto. }
    assert (Cs : forall o, In o cs <-> Within src b x o).
    { intros o. rewrite O3. unfold Within, labelled. split.
      - intros (To & No & y & Hy & Sy). split; [exact To|]. split; [exact No|].
        apply filter_In in Hy as [Ry C]. apply andb_prop in C as [C C4]. apply andb_prop in C as [C C3]. apply andb_prop in C as [C1 C2].
        apply skind_eqb_eq in C2. destruct (block_def_out src y Ry C2) as (o' & p' & To' & No' & Bo' & Po' & Ey).
        assert (o' = o) as ->. { apply (key_inj src); auto. destruct Sy as [_ Sy]. rewrite <- Sy, Ey. reflexivity. }
        rewrite Ey in C3. apply named_block in C3.
        destruct Sy as [_ Sy]. unfold key_contains in C4. rewrite Sy in C4. cbn [s block_symbol s_key] in C4.
        apply andb_prop in C4 as [C4 C5]. apply Nat.leb_le in C4, C5.
        split; [|auto]. intros ->. rewrite (proj2 (symbol_eqb_eq y s Ry Hs)) in C1; [discriminate|]. apply (raw_key_inj src); auto.
      - intros (To & No & Ne & (Bo & Io) & C4 & C5). split; [exact To|]. split; [exact No|].
        destruct (block_parent src o To No Bo) as (q & Q & _). exists (block_symbol q o).
        assert (Hq : In (block_symbol q o) (raw_symbols nodes)) by now apply block_symbol_in.
        split; [|split; [exact Hq|reflexivity]]. apply filter_In. split; [exact Hq|].
        apply andb_true_intro; split; [apply andb_true_intro; split; [apply andb_true_intro; split|]|].
        + destruct (symbol_eqb (block_symbol q o) s) eqn:E; [|reflexivity]. apply symbol_eqb_eq in E; auto.
          destruct Ne. apply (key_inj src); auto. change (s_key (block_symbol q o) = s_key s). now rewrite E.
        + reflexivity.
        + now apply named_block.
        + unfold key_contains. cbn [s block_symbol s_key]. apply andb_true_intro. split; apply Nat.leb_le; assumption. }
    split; [exact Cs|].
    unfold nested_ranges. cbn [s block_symbol s_region]. rewrite Eps. cbn [amust abind].
    assert (H2 : Forall2 (fun y o => s_key y = key_of o /\ pointable src o) (filter (named_as x) ps) (filter nm (while_block (ancestors p)))).
    { clear - F2 Fr Wn Nm. revert Wn. induction F2 as [|y o ps os (q & ->) F2 IH]; intros Wn; [constructor|].
      inversion Fr as [|? ? R1 R2]. subst. cbn [filter].
      assert (E : named_as x (block_symbol q o) = nm o).
      { apply not_true_iff_false'. rewrite named_block, Nm. reflexivity. }
      rewrite E. assert (IH' : Forall2 (fun y o => s_key y = key_of o /\ pointable src o) (filter (named_as x) ps) (filter nm os))
        by (apply IH; [exact R2|intros; apply Wn; now right]).
      destruct (nm o); [|exact IH']. constructor; [|exact IH']. split; [reflexivity|].
      destruct (raw_pointable src _ R1) as (o' & P' & E'). destruct (Wn o) as (A & C & _); [now left|].
      assert (o' = o) as <-; [|exact P']. apply (key_inj src); try apply P'; auto. }
    match goal with |- context[map_ans (ident_range src) ?l] => change l with (filter (named_as x) ps ++ qs) end.
    pose proof (Forall2_app H2 O2) as H3. set (al := filter nm (while_block (ancestors p))) in *.
    assert (Em : map_ans (ident_range src) (filter (named_as x) ps ++ qs)
               = Ans (map (fun o => (estart (name_elem o), eend (name_elem o))) (al ++ cs))).
    { clear - H3. induction H3 as [|y o ys os [E P] _ IH]; [reflexivity|]. cbn [map_ans map].
      now rewrite (ident_range_eq src y o P E), IH. }
    rewrite Em. cbn [abind]. rewrite map_length, app_length. destruct Nat.ltb; [|reflexivity].
    destruct (raw_green src s Hs) as (n' & Pn & En & _).
    assert (n' = b) as ->. { destruct Pn as (T' & N' & _). apply (key_inj src); auto. }
    destruct (ident_range_ok src s b Pn En) as (r & Er & Rr). fold s. rewrite Er. cbn [abind].
    set (L := map _ (al ++ cs)).
    assert (FL : Forall2 (fun o q => q = (estart (name_elem o), eend (name_elem o))) (al ++ cs) L).
    { subst L. clear. induction (al ++ cs); cbn [map]; constructor; auto. }
    destruct (Forall2_perm_l _ _ _ (sort_by_start L) FL) as (os & P1 & F1); [symmetry; apply sort_perm|].
    assert (Hal : forall o, In o os -> InTree tree o /\ exists t, token o IDENT = Some t).
    { intros o Ho. apply (Permutation_in _ (Permutation_sym P1)) in Ho. apply in_app_or in Ho as [Ho|Ho].
      - apply filter_In in Ho as [Ho1 Ho2]. apply Nm in Ho2. apply ident_token in Ho2 as (t & Ht & _).
        destruct (Wn o Ho1) as (A & _). eauto.
      - apply Cs in Ho as (A & _ & _ & (_ & C) & _). apply ident_token in C as (t & Ht & _). eauto. }
    assert (M : exists rs, map_ans (lsp_of src) (sort_by_start L) = Ans rs
               /\ Forall2 (fun o r => exists t, token o IDENT = Some t /\ RangeOf src t r) os rs).
    { clear - F1 Hal. induction F1 as [|o q os qs Eq _ IH]; [exists []; split; [reflexivity|constructor]|].
      destruct (Hal o) as (To & t & Ht); [now left|]. destruct IH as (rs & Er & F); [intros; apply Hal; now right|].
      pose proof (name_elem_in src o To) as Tn. destruct (range_of_ok src _ Tn) as (r & Er' & Rr).
      exists (r :: rs). cbn [map_ans]. subst q. unfold range_of in Er'. unfold lsp_of at 1. cbn [fst snd]. rewrite Er', Er. cbn [abind].
      split; [reflexivity|]. constructor; [|exact F]. exists t. split; [exact Ht|]. unfold name_elem in Rr. now rewrite Ht in Rr. }
    destruct M as (rs & -> & Fm). cbn [abind]. eexists. exists os. split; [reflexivity|]. split; [now symmetry|]. split.
    { pose proof (sort_sorted L) as S. clear - S F1. revert os F1. induction S as [|q l S IH H]; intros os F1; inversion F1 as [|o ? os' ? E F']; subst.
      - constructor.
      - constructor; [now apply IH|]. destruct F' as [|o' q' os'' l' E' F'']; [constructor|]. constructor. inversion H. subst. exact H1. }
    split; [|split; [reflexivity|]].
    - apply ident_token in I as (t & Ht & _). exists t. split; [exact Ht|]. unfold name_elem in Rr. now rewrite Ht in Rr.
    - eexists. split; [reflexivity|]. clear - Fm. induction Fm as [|o r os rs H _ IH]; [constructor|]. cbn [map]. constructor; [|exact IH].
      split; [reflexivity|exact H].
  Qed.
End Doc.

(** ** The property *)

(** The other declarations [os] of the name in the region. *)
Definition Others (src : text) (n : elem) (x : text) (R : elem) (os : list elem) : Prop :=
  NoDup os /\ forall o, In o os <-> Declares src o x R /\ o <> n.
(** The labels [os] that clash with that of block [b], in source order. *)
Definition Clashes (src : text) (b : elem) (x : text) (os : list elem) : Prop :=
  exists l m, NoDup l /\ NoDup m
    /\ (forall o, In o l <-> Around src b x o) /\ (forall o, In o m <-> Within src b x o)
    /\ Permutation os (l ++ m) /\ Sorted (fun o o' => estart (name_elem o) <= estart (name_elem o')) os.

Lemma check_dup_parts src ds d : check src = Ans ds ->
  (In d ds /\ classify (d_message d) = CDup <->
   among d (dup_scope src (the_table src)) \/ exists s, In s (raw_symbols (nodes src)) /\ among d (nested_diag src (the_table src) s)).
Proof.
  intros H. rewrite (check_dup src ds d H). unfold dup_names.
  destruct (dup_scope_fine src) as (a & Ea & _).
  destruct (fine_concat src (nested_diag src (the_table src)) (symbols (the_table src)) (fun s Hs => nested_fine src s Hs)) as (b & Eb & _).
  rewrite (among_app_iff _ (dup_nested src (the_table src)) d); [|eauto|exists b; exact Eb].
  assert (X : among d (dup_nested src (the_table src)) <-> exists s, In s (raw_symbols (nodes src)) /\ among d (nested_diag src (the_table src) s)).
  { unfold dup_nested in *. destruct (map_ans _ _) as [ls| |] eqn:El; cbn [abind] in *; try discriminate.
    rewrite <- (concat_among _ _ _ d El). unfold among at 1.
    split; [intros (y & Y & Hy); injection Y as <-; exact Hy|eauto]. }
  now rewrite X.
Qed.
(** Every report is about a name declared twice in a region, with all the
    other declarations attached, or about a label with at least two clashes,
    all attached. *)
Theorem C20_reports_sound src ds d : check src = Ans ds -> In d ds -> classify (d_message d) = CDup ->
  (exists n x R os, Declares src n x R /\ Others src n x R os /\ os <> [] /\ Reports src d n x os)
  \/ (exists b x os, InTree (tree_of src) b /\ is_node b = true /\ labelled x b
        /\ Clashes src b x os /\ 1 < length os /\ Reports src d b x os).
Proof.
  intros H Hd C. destruct (proj1 (check_dup_parts src ds d H) (conj Hd C)) as [A|(s & Hs & A)].
  - left. apply (scope_among src) in A as (n & x & R & s & D & St & (o & Do & No) & E).
    destruct (group_reports src n x R s D St) as (d' & os & E' & N & O & Rp). rewrite E' in E. injection E as <-.
    exists n, x, R, os. split; [exact D|]. split; [split; assumption|]. split; [|exact Rp].
    intros ->. apply (in_nil (a := o)). apply O. auto.
  - right. destruct (s_kind s) eqn:K; try (destruct A as (l & A & Hl); unfold nested_diag in A; rewrite K in A; injection A as <-; destruct Hl).
    destruct (block_def_out src s Hs K) as (b & p & T & N & B & P & Es).
    destruct (option_map etext (token b IDENT)) as [x|] eqn:I.
    + destruct (nested_spec src b p x T N B P I) as (l & m & N1 & N2 & L & M & X). rewrite <- Es in X.
      destruct (Nat.ltb_spec 1 (length l + length m)) as [Hlt|]; [|destruct A as (y & A & Hy); rewrite X in A; injection A as <-; destruct Hy].
      destruct X as (d' & os & E & P1 & S & Rp). destruct A as (y & A & Hy). rewrite E in A. injection A as <-. destruct Hy as [<-|[]].
      exists b, x, os. split; [exact T|]. split; [exact N|]. split; [split; assumption|]. split; [exists l, m; auto 10|]. split; [|exact Rp].
      rewrite (Permutation_length P1), app_length. exact Hlt.
    + destruct A as (y & A & Hy). unfold nested_diag in A. rewrite Es in A. cbn [block_symbol s_kind s_idx i_name] in A.
      change (ident_of b) with (option_map etext (token b IDENT)) in A. rewrite I in A. injection A as <-. destruct Hy.
Qed.
(** Every declaration of a name declared again in the region is reported. *)
Theorem C20_scope_complete src ds n x R o : check src = Ans ds ->
  Declares src n x R -> Declares src o x R -> o <> n ->
  exists d os, In d ds /\ classify (d_message d) = CDup /\ Others src n x R os /\ Reports src d n x os.
Proof.
  intros H D Do No. destruct (declares_symbol src n x R D) as (s & St & _ & _).
  destruct (group_reports src n x R s D St) as (d & os & E & N & O & Rp).
  assert (A : In d ds /\ classify (d_message d) = CDup).
  { apply (check_dup_parts src ds d H). left. apply (scope_among src). exists n, x, R, s. eauto 10. }
  exists d, os. destruct A. repeat (split; [assumption|]). split; [split; assumption|exact Rp].
Qed.
(** Every label with at least two clashes is reported. *)
Theorem C20_nested_complete src ds b x o o' : check src = Ans ds ->
  InTree (tree_of src) b -> is_node b = true -> labelled x b -> o <> o' ->
  Around src b x o \/ Within src b x o -> Around src b x o' \/ Within src b x o' ->
  exists d os, In d ds /\ classify (d_message d) = CDup /\ Clashes src b x os /\ Reports src d b x os.
Proof.
  intros H T N [B I] Ne A A'. destruct (block_parent src b T N B) as (p & P & _).
  destruct (nested_spec src b p x T N B P I) as (l & m & N1 & N2 & L & M & X).
  assert (Hlt : 1 < length (l ++ m)).
  { apply (two_in (l ++ m) o o'); [| |exact Ne]; apply in_or_app; rewrite L, M; assumption. }
  rewrite app_length in Hlt. apply Nat.ltb_lt in Hlt. rewrite Hlt in X.
  destruct X as (d & os & E & P1 & S & Rp).
  assert (X : In d ds /\ classify (d_message d) = CDup).
  { apply (check_dup_parts src ds d H). right. exists (block_symbol p b). split; [now apply block_symbol_in|].
    exists [d]. split; [exact E|now left]. }
  exists d, os. destruct X. split; [assumption|]. split; [assumption|]. split; [|exact Rp]. exists l, m. auto 10.
Qed.

(** ** Examples and refutations *)

Definition dups (src : text) : option (list (range * list range)) :=
  match check src with
  | Ans ds => Some (map (fun d => (d_range d, match d_related d with Some l => map fst l | None => [] end))
                      (filter (fun d => match classify (d_message d) with CDup => true | _ => false end) ds))
  | _ => None
  end.
Example C20_example :
  dups (T "(module (func $f (param $x i32) (local $x i32)) (func $f) (func $g (block $b (block $b (block $b)))))")
  = Some [(((0, 14), (0, 16)), [((0, 54), (0, 56))]);
          (((0, 54), (0, 56)), [((0, 14), (0, 16))]);
          (((0, 24), (0, 26)), [((0, 39), (0, 41))]);
          (((0, 39), (0, 41)), [((0, 24), (0, 26))]);
          (((0, 74), (0, 76)), [((0, 84), (0, 86)); ((0, 94), (0, 96))]);
          (((0, 84), (0, 86)), [((0, 74), (0, 76)); ((0, 94), (0, 96))]);
          (((0, 94), (0, 96)), [((0, 74), (0, 76)); ((0, 84), (0, 86))])].
Proof. vm_compute. reflexivity. Qed.
(** A function and a global live in different name spaces but are reported. *)
Theorem C20_kinds_share_names_refuted :
  dups (T "(module (func $a) (global $a i32 i32.const 0))")
  = Some [(((0, 14), (0, 16)), [((0, 26), (0, 28))]); (((0, 26), (0, 28)), [((0, 14), (0, 16))])].
Proof. vm_compute. reflexivity. Qed.
(** Sibling blocks may carry the same label but are reported. *)
Theorem C20_sibling_labels_refuted :
  dups (T "(module (func (block $a) (block $a)))")
  = Some [(((0, 21), (0, 23)), [((0, 32), (0, 34))]); (((0, 32), (0, 34)), [((0, 21), (0, 23))])].
Proof. vm_compute. reflexivity. Qed.
(** Two tables of the same name are not reported, nor is a label that hides
    just one other label. *)
Theorem C20_tables_refuted : dups (T "(module (table $t 1 funcref) (table $t 1 funcref))") = Some [].
Proof. vm_compute. reflexivity. Qed.
Theorem C20_single_nesting_refuted : dups (T "(module (func (block $a (block $a))))") = Some [].
Proof. vm_compute. reflexivity. Qed.
