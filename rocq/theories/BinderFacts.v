(** What the symbol table contains, for any parsed document. *)

From Coq Require Import String List NArith Bool Arith Lia.
From Verif Require Import Text Kind Green SpecParser Lexer LexerFacts Winnow Grammar Sem Lossless Total
  Bounds Lang TokForm Shape Red Unique Cursor Doc Ast Binder Preorder SpecBinder.
Import ListNotations.

(** ** Lists *)

Lemma filter_flat_map {A B} (f : B -> bool) (g : A -> list B) l :
  filter f (flat_map g l) = flat_map (fun x => filter f (g x)) l.
Proof. induction l as [|x l IH]; cbn; [reflexivity|]. now rewrite filter_app, IH. Qed.
Lemma flat_map_ext_in {A B} (f g : A -> list B) l :
  (forall x, In x l -> f x = g x) -> flat_map f l = flat_map g l.
Proof.
  induction l as [|x l IH]; intros H; cbn; [reflexivity|].
  rewrite (H x) by now left. rewrite IH; [reflexivity|]. intros y Hy. apply H. now right.
Qed.
Lemma filter_none {A} (f : A -> bool) l : (forall x, In x l -> f x = false) -> filter f l = [].
Proof.
  induction l as [|x l IH]; intros H; cbn; [reflexivity|].
  rewrite (H x) by now left. apply IH. intros y Hy. apply H. now right.
Qed.
Lemma filter_all {A} (f : A -> bool) l : (forall x, In x l -> f x = true) -> filter f l = l.
Proof.
  induction l as [|x l IH]; intros H; cbn; [reflexivity|].
  rewrite (H x) by now left. f_equal. apply IH. intros y Hy. apply H. now right.
Qed.
Lemma filter_filter {A} (f g : A -> bool) l : filter f (filter g l) = filter (fun x => g x && f x) l.
Proof. induction l as [|x l IH]; cbn; [reflexivity|]. destruct (g x); cbn; [destruct (f x)|]; now rewrite IH. Qed.
Lemma filter_ext_in' {A} (f g : A -> bool) l : (forall x, In x l -> f x = g x) -> filter f l = filter g l.
Proof.
  induction l as [|x l IH]; intros H; cbn; [reflexivity|].
  rewrite (H x) by now left. rewrite IH; [reflexivity|]. intros y Hy. apply H. now right.
Qed.
Lemma filter_map {A B} (f : B -> bool) (g : A -> B) l :
  filter f (map g l) = map g (filter (fun x => f (g x)) l).
Proof. induction l as [|x l IH]; cbn; [reflexivity|]. destruct (f (g x)); cbn; now rewrite IH. Qed.
Lemma find_filter {A} (f : A -> bool) l : find f l = hd_error (filter f l).
Proof. induction l as [|x l IH]; cbn; [reflexivity|]. destruct (f x); [reflexivity|exact IH]. Qed.
Lemma find_unique {A} (f : A -> bool) l x :
  In x l -> f x = true -> (forall y, In y l -> f y = true -> y = x) -> find f l = Some x.
Proof.
  intros H1 H2 H3. destruct (find f l) as [y|] eqn:E.
  - apply find_some in E as [E1 E2]. f_equal. auto.
  - exfalso. eapply find_none in E; [|exact H1]. congruence.
Qed.
Lemma find_absent {A} (f : A -> bool) l : (forall y, In y l -> f y = false) -> find f l = None.
Proof.
  intros H. destruct (find f l) as [y|] eqn:E; [|reflexivity].
  apply find_some in E as [E1 E2]. rewrite H in E2; [discriminate|exact E1].
Qed.
Lemma NoDup_flat_map {A B} (f : A -> list B) l :
  NoDup l -> (forall x, In x l -> NoDup (f x)) ->
  (forall x y b, In x l -> In y l -> In b (f x) -> In b (f y) -> x = y) ->
  NoDup (flat_map f l).
Proof.
  induction l as [|x l IH]; intros Hn H1 H2; cbn; [constructor|]. inversion Hn; subst.
  assert (Hd : forall a b : list B, NoDup a -> NoDup b -> (forall x, In x a -> ~ In x b) -> NoDup (a ++ b)).
  { clear. induction a as [|x a IHa]; intros b Ha Hb Hx; [exact Hb|]. cbn. inversion Ha; subst. constructor.
    - rewrite in_app_iff. intros [H|H]; [auto|]. apply (Hx x); [now left|exact H].
    - apply IHa; auto. intros y Hy. apply Hx. now right. }
  apply Hd.
  - apply H1. now left.
  - apply IH; [assumption| |].
    + intros y Hy. apply H1. now right.
    + intros y z b Hy Hz. apply H2; now right.
  - intros b Hb Hr. apply in_flat_map in Hr as (y & Hy & Hby).
    assert (x = y) by (eapply H2; [now left|right; exact Hy|exact Hb|exact Hby]). subst. contradiction.
Qed.

(** ** Numbering of the nodes *)

(** Each node with the value of the counter when it is visited. *)
Fixpoint number (id : N) (l : list elem) : list (N * elem) :=
  match l with
  | [] => []
  | e :: r => (id, e) :: number (next_id id e) r
  end.
Definition last_id (id : N) (l : list elem) : N := fold_left next_id l id.
Lemma number_app id a b : number id (a ++ b) = number id a ++ number (last_id id a) b.
Proof.
  revert id. induction a as [|x a IH]; intros id; cbn; [reflexivity|]. f_equal. apply IH.
Qed.
Lemma number_snd id l : map snd (number id l) = l.
Proof. revert id. induction l as [|x l IH]; intros id; cbn; [reflexivity|]. f_equal. apply IH. Qed.
Lemma in_number id l p : In p (number id l) -> In (snd p) l.
Proof. intros H. rewrite <- (number_snd id l). now apply in_map. Qed.
Lemma in_number_ex id l e : In e l -> exists i, In (i, e) (number id l).
Proof.
  intros H. rewrite <- (number_snd id l) in H. apply in_map_iff in H as ((i & e') & <- & H). eauto.
Qed.
Lemma number_fun id l i j e : NoDup l -> In (i, e) (number id l) -> In (j, e) (number id l) -> i = j.
Proof.
  revert id. induction l as [|x l IH]; intros id Hn H1 H2; [destruct H1|]. inversion Hn; subst. cbn in H1, H2.
  destruct H1 as [H1|H1], H2 as [H2|H2].
  - congruence.
  - injection H1 as <- <-. apply in_number in H2. contradiction.
  - injection H2 as <- <-. apply in_number in H1. contradiction.
  - eauto.
Qed.

Definition raw_symbols (l : list (N * elem)) : list symbol :=
  flat_map (fun p => node_symbols (fst p) (snd p)) l.

(** [scan] only appends. *)
Lemma br_loop_symbols fuel refs : forall syms bl syms' bl',
  br_loop fuel syms bl refs = Some (syms', bl') -> syms' = syms ++ refs.
Proof.
  induction refs as [|s r IH]; intros syms bl syms' bl' H; cbn in H.
  - injection H as <- <-. now rewrite app_nil_r.
  - destruct block_chain as [ch|]; [|discriminate]. apply IH in H. now rewrite H, <- app_assoc.
Qed.
Lemma scan_symbols nodes : forall id syms bl tb,
  scan id syms bl nodes = Some tb -> symbols tb = syms ++ raw_symbols (number id nodes).
Proof.
  induction nodes as [|e r IH]; intros id syms bl tb H; cbn [scan number raw_symbols flat_map] in *.
  - injection H as <-. cbn. now rewrite app_nil_r.
  - destruct (is_br e).
    + destruct br_loop as [[syms' bl']|] eqn:E; [|discriminate]. apply br_loop_symbols in E. subst syms'.
      apply IH in H. rewrite H, <- app_assoc. reflexivity.
    + apply IH in H. rewrite H, <- app_assoc. reflexivity.
Qed.

(** ** Tree facts *)

Lemma children_nodup e : NoDup (children_with_tokens e).
Proof.
  unfold children_with_tokens. generalize (gchildren (el e)) as l, 0 as i, (off e) at 2 as o.
  induction l as [|g l IH]; intros i o; cbn [kids]; constructor; [|apply IH].
  intros H. apply kids_in in H as (x & g' & y & _ & E). injection E as _ _ E. lia.
Qed.
Lemma childs_nodup e k : NoDup (childs e k).
Proof. apply NoDup_filter, NoDup_filter, children_nodup. Qed.
Lemma children_parent p c : In c (children p) -> parent c = Some p.
Proof. intros H. apply in_children in H as [H _]. now apply parent_child. Qed.
Lemma Desc_children p c : In c (children p) -> Desc p c.
Proof. intros H. apply in_children in H as [H _]. econstructor; [constructor|exact H]. Qed.
Lemma child_node p c : In c (children p) -> is_node c = true.
Proof. intros H. now apply in_children in H. Qed.
Lemma enclosing_some ks e m : enclosing ks e = Some m -> In m (ancestors e) /\ In (ekind m) ks.
Proof.
  unfold enclosing. intros H. apply find_some in H as [H1 H2]. split; [exact H1|].
  apply existsb_exists in H2 as (k & Hk & E). apply kind_eqb_eq in E. congruence.
Qed.
Lemma enclosing_self ks e : In (ekind e) ks -> enclosing ks e = Some e.
Proof.
  intros H. unfold enclosing, ancestors. cbn [find].
  replace (existsb (kind_eqb (ekind e)) ks) with true; [reflexivity|]. symmetry.
  apply existsb_exists. exists (ekind e). split; [exact H|now apply kind_eqb_eq].
Qed.
Lemma enclosing_child ks p c : In c (children_with_tokens p) -> ~ In (ekind c) ks -> enclosing ks c = enclosing ks p.
Proof.
  intros H Hk. unfold enclosing. rewrite (ancestors_child _ _ H). cbn [find].
  replace (existsb (kind_eqb (ekind c)) ks) with false; [reflexivity|]. symmetry.
  apply not_true_iff_false. intros E. apply existsb_exists in E as (k & Hin & E). apply kind_eqb_eq in E. congruence.
Qed.

(** ** The symbols a node adds *)

(** The node during whose visit the symbol of [n] is added. *)
Definition owner (n : elem) : option elem :=
  match ekind n with
  | INDEX | OPERAND => parent n
  | PARAM | LOCAL | VAL_TYPE => enclosing [MODULE_FIELD_FUNC] n
  | _ => Some n
  end.

Lemma text_eqb_eq a b : text_eqb a b = true <-> a = b.
Proof.
  revert b. induction a as [|x a IH]; intros [|y b]; cbn; split; try congruence; try discriminate.
  - rewrite andb_true_iff, N.eqb_eq, IH. intros [-> ->]. reflexivity.
  - intros E. injection E as -> ->. rewrite andb_true_iff, N.eqb_eq, IH. auto.
Qed.
Lemma name_in_iff t l : name_in t l = true <-> In t (map T l).
Proof.
  unfold name_in. rewrite existsb_exists, in_map_iff. split.
  - intros (x & H & E). apply text_eqb_eq in E. eauto.
  - intros (x & <- & H). exists x. split; [exact H|now apply text_eqb_eq].
Qed.

Lemma number_slots_keys region k i l : map s_key (number_slots region k i l) = map key_of l.
Proof. revert i. induction l as [|d l IH]; intros i; cbn; [reflexivity|]. f_equal. apply IH. Qed.
Lemma in_number_slots region k i l s : In s (number_slots region k i l) ->
  exists d j, nth_error l j = Some d /\ s = mk_symbol (key_of d) (el d) region k
        (mk_idx (Some (i + N.of_nat j)%N) (if kind_eqb (ekind d) VAL_TYPE then None else ident_of d)).
Proof.
  revert i. induction l as [|d l IH]; intros i H; [destruct H|]. cbn in H. destruct H as [<-|H].
  - exists d, 0. split; [reflexivity|]. do 3 f_equal. lia.
  - apply IH in H as (d' & j & H & ->). exists d', (S j). split; [exact H|]. do 3 f_equal. lia.
Qed.
Lemma ref_symbol_key region k l : exists l', map s_key (flat_map (ref_symbol region k) l) = map key_of l'
  /\ incl l' l /\ (NoDup l -> NoDup l').
Proof.
  exists (filter (fun n => match ref_idx n with Some _ => true | None => false end) l).
  split; [|split; [apply incl_filter|apply NoDup_filter]].
  induction l as [|x l IH]; cbn; [reflexivity|]. unfold ref_symbol at 1.
  destruct (ref_idx x); cbn; [f_equal|]; exact IH.
Qed.
Lemma in_ref_symbol region k n s : In s (ref_symbol region k n) ->
  exists i, ref_idx n = Some i /\ s = mk_symbol (key_of n) (el n) region k i.
Proof. unfold ref_symbol. destruct (ref_idx n); [|intros []]. intros [<-|[]]. eauto. Qed.

(** ** Numbers *)

Lemma digit_range c : is_ascii_digit c = true <-> (48 <= c <= 57)%N.
Proof. unfold is_ascii_digit, in_range. rewrite andb_true_iff, !N.leb_le. reflexivity. Qed.
Lemma dec_val_ge t : forall acc, (acc <= fold_left (fun a c => (a * 10 + (c - 48))%N) t acc)%N.
Proof. induction t as [|c t IH]; intros acc; cbn [fold_left]; [lia|]. specialize (IH (acc * 10 + (c - 48))%N). lia. Qed.
Lemma dec_value_iff t : forall acc k, (acc <= u32_max)%N ->
  (dec_value acc t = Some k <->
   Forall (fun c => (48 <= c <= 57)%N) t /\ k = fold_left (fun a c => (a * 10 + (c - 48))%N) t acc /\ (k < 4294967296)%N).
Proof.
  unfold u32_max. induction t as [|c t IH]; intros acc k Ha; cbn [dec_value fold_left].
  - split; [intros E; injection E as <-; split; [constructor|]; split; [reflexivity|lia]|]. now intros (_ & -> & _).
  - destruct (is_ascii_digit c) eqn:Ed.
    + apply digit_range in Ed. unfold u32_max. destruct (N.leb_spec (acc * 10 + (c - 48)) 4294967295) as [Hl|Hl].
      * rewrite IH by exact Hl. split; intros (A & B & C); (split; [|auto]); [now constructor|now inversion A].
      * split; [discriminate|]. intros (A & B & C). pose proof (dec_val_ge t (acc * 10 + (c - 48))%N). lia.
    + split; [discriminate|]. intros (A & _). inversion A; subst. apply digit_range in H1. congruence.
Qed.
Lemma parse_u32_iff t k : parse_u32 t = Some k <-> Decimal t k.
Proof.
  unfold parse_u32, Decimal, dec_val. destruct t as [|c r].
  - split; [discriminate|]. intros (ds & [<-|E] & H & _); [now destruct H|discriminate].
  - destruct (N.eqb_spec c 43) as [->|Hc].
    + destruct r as [|d r].
      * split; [discriminate|]. intros (ds & [<-|E] & H & Hf & _).
        -- inversion Hf; lia.
        -- injection E as <-. now destruct H.
      * rewrite dec_value_iff by (unfold u32_max; lia). split.
        -- intros (A & B & C). exists (d :: r). split; [now right|]. split; [discriminate|]. auto.
        -- intros (ds & [<-|E] & H & Hf & B & C); [inversion Hf; lia|]. injection E as <-. auto.
    + rewrite dec_value_iff by (unfold u32_max; lia). split.
      * intros (A & B & C). exists (c :: r). split; [now left|]. split; [discriminate|]. auto.
      * intros (ds & [<-|E] & H & Hf & B & C); [auto|]. congruence.
Qed.

Definition widx (w : wref) : idx :=
  match w with
  | Named x => mk_idx None (Some x)
  | Numbered k => mk_idx (Some k) None
  end.
Lemma ref_idx_iff n i : ref_idx n = Some i <-> exists w, Written n w /\ i = widx w.
Proof.
  unfold ref_idx, ident_of. destruct (token n IDENT) as [t|] eqn:E; cbn [option_map].
  - split.
    + intros H. injection H as <-. exists (Named (etext t)). split; [now constructor|reflexivity].
    + intros (w & [t' H|t' k H _ _] & ->); [|congruence]. rewrite E in H. injection H as <-. reflexivity.
  - destruct (find _ (tokens n)) as [t|] eqn:F.
    + split.
      * intros H. destruct (parse_u32 (etext t)) as [k|] eqn:P; [|discriminate]. injection H as <-.
        exists (Numbered k). split; [|reflexivity]. apply Written_num with t; auto. now apply parse_u32_iff.
      * intros (w & [t' H|t' k _ H D] & ->); [congruence|]. rewrite F in H. injection H as <-.
        apply parse_u32_iff in D. now rewrite D.
    + split; [discriminate|]. intros (w & [t' H|t' k _ H D] & ->); congruence.
Qed.
Lemma Written_fun n w w' : Written n w -> Written n w' -> w = w'.
Proof.
  intros H1 H2.
  assert (E1 : ref_idx n = Some (widx w)) by (apply ref_idx_iff; eauto).
  assert (E2 : ref_idx n = Some (widx w')) by (apply ref_idx_iff; eauto).
  rewrite E1 in E2. destruct w, w'; cbn in E2; congruence.
Qed.

Definition sort_kind (s : sort) : skind :=
  match s with
  | FuncS => SFunc | TypeS => SType | GlobalS => SGlobalDef | MemS => SMemoryDef | TableS => STableDef
  end.
Definition ref_kind (a : asked) : skind :=
  match a with
  | AModule FuncS => SCall | AModule TypeS => STypeUse | AModule GlobalS => SGlobalRef
  | AModule MemS => SMemoryRef | AModule TableS => STableRef
  | ALocal => SLocalRef | ALabel => SBlockRef
  end.
Definition def_symbol (m : elem) (k : skind) (p : N * elem) : symbol :=
  mk_symbol (key_of (snd p)) (el (snd p)) (key_of m) k (mk_idx (Some (fst p)) (ident_of (snd p))).
Fixpoint enum (i : N) (l : list elem) : list (N * elem) :=
  match l with
  | [] => []
  | d :: r => (i, d) :: enum (i + 1) r
  end.
Lemma enum_snd i l : map snd (enum i l) = l.
Proof. revert i. induction l as [|d l IH]; intros i; cbn; [reflexivity|]. f_equal. apply IH. Qed.
Lemma in_enum i l p : In p (enum i l) <-> exists j, nth_error l j = Some (snd p) /\ fst p = (i + N.of_nat j)%N.
Proof.
  revert i. induction l as [|d l IH]; intros i; cbn [enum In].
  - split; [intros []|]. intros (j & H & _). destruct j; discriminate.
  - rewrite IH. split.
    + intros [<-|(j & H1 & H2)]; [exists 0|exists (S j)]; cbn; split; auto; lia.
    + intros (j & H1 & H2). destruct j as [|j]; cbn in H1.
      * left. destruct p as [a b]. cbn in *. injection H1 as ->. f_equal. lia.
      * right. exists j. split; [exact H1|lia].
Qed.
Definition is_def_kind (s : symbol) : bool := existsb (skind_eqb (s_kind s)) [SFunc; SType; SGlobalDef; SMemoryDef; STableDef].

Section Doc.
  Variable src : text.
  Notation tree := (tree_of src).

  Lemma in_tree_child p c : InTree tree p -> In c (children p) -> InTree tree c.
  Proof. intros Hp Hc. eapply Desc_trans; [exact Hp|]. now apply Desc_children. Qed.

  Lemma instr_child_kind e c : InTree tree e -> ekind e = PLAIN_INSTR -> In c (children e) -> ekind c = OPERAND.
  Proof.
    intros He Hk Hc. pose proof (child_kind _ _ _ He Hc) as H. rewrite Hk in H.
    revert H. generalize (ekind c). intros k H. vm_compute in H. destruct H as [H|[H|[]]]; congruence.
  Qed.

  (** Slots of a function. *)
  Lemma slots_of_in d n : In n (slots_of d) ->
    n = d /\ token d IDENT <> None \/ In n (children d) /\ ekind n = VAL_TYPE /\ token d IDENT = None.
  Proof.
    unfold slots_of. destruct (token d IDENT) eqn:E.
    - intros [<-|[]]. left. split; [reflexivity|congruence].
    - intros H. apply in_childs in H as [H1 H2]. auto.
  Qed.
  Lemma slot_owner d n : ekind d = PARAM \/ ekind d = LOCAL -> In n (slots_of d) ->
    n = d /\ ekind n <> VAL_TYPE \/ parent n = Some d /\ ekind n = VAL_TYPE.
  Proof.
    intros Hk H. apply slots_of_in in H as [[-> _]|(H1 & H2 & _)].
    - left. split; [reflexivity|]. destruct Hk; congruence.
    - right. split; [now apply children_parent|exact H2].
  Qed.
  Lemma slots_nodup l : NoDup l -> (forall d, In d l -> ekind d = PARAM \/ ekind d = LOCAL) ->
    NoDup (flat_map slots_of l).
  Proof.
    intros Hn Hk. apply NoDup_flat_map; [exact Hn| |].
    - intros d _. unfold slots_of. destruct token; [|apply childs_nodup].
      constructor; [intros []|constructor].
    - intros x y b Hx Hy Bx By. apply slot_owner in Bx; [|auto]. apply slot_owner in By; [|auto].
      destruct Bx as [[-> Bx]|[Bx Bx']], By as [[-> By]|[By By']]; congruence.
  Qed.

  (** Where a slot comes from. *)
  Lemma slot_decl f n : In n (param_slots f ++ local_slots f) ->
    exists d, (ekind d = PARAM /\ (exists tu, In tu (children f) /\ ekind tu = TYPE_USE /\ In d (children tu))
               \/ ekind d = LOCAL /\ In d (children f))
      /\ (n = d /\ token d IDENT <> None
          \/ In n (children d) /\ ekind n = VAL_TYPE /\ token d IDENT = None).
  Proof.
    intros H. apply in_app_or in H as [H|H].
    - unfold param_slots in H. destruct (child f TYPE_USE) as [tu|] eqn:E; [|destruct H].
      apply child_some in E as [E1 E2]. apply in_flat_map in H as (d & Hd & H). apply in_childs in Hd as [Hd1 Hd2].
      exists d. split; [left; split; [exact Hd2|exists tu; auto]|]. now apply slots_of_in.
    - unfold local_slots in H. apply in_flat_map in H as (d & Hd & H). apply in_childs in Hd as [Hd1 Hd2].
      exists d. split; [right; auto|]. now apply slots_of_in.
  Qed.

  Lemma slot_facts f n : InTree tree f -> ekind f = MODULE_FIELD_FUNC ->
    In n (param_slots f ++ local_slots f) ->
    InTree tree n /\ is_node n = true /\ In (ekind n) [PARAM; LOCAL; VAL_TYPE]
    /\ Desc f n /\ enclosing [MODULE_FIELD_FUNC] n = Some f.
  Proof.
    intros Hf Hk H. apply slot_decl in H as (d & Hd & Hn).
    assert (Hself : enclosing [MODULE_FIELD_FUNC] f = Some f) by (apply enclosing_self; now left).
    assert (HD : InTree tree d /\ is_node d = true /\ Desc f d /\ In (ekind d) [PARAM; LOCAL]
                 /\ enclosing [MODULE_FIELD_FUNC] d = Some f).
    { destruct Hd as [[Kd (tu & Htu & Ktu & Hd)]|[Kd Hd]].
      - assert (Htu' := in_tree_child _ _ Hf Htu).
        split; [now apply in_tree_child with tu|]. split; [now apply child_node with tu|].
        split; [eapply Desc_trans; apply Desc_children; eassumption|]. split; [rewrite Kd; now left|].
        rewrite (enclosing_child _ tu) by
          (try (apply in_children in Hd; apply Hd); rewrite Kd; intros [X|[]]; discriminate).
        rewrite (enclosing_child _ f) by
          (try (apply in_children in Htu; apply Htu); rewrite Ktu; intros [X|[]]; discriminate).
        exact Hself.
      - split; [now apply in_tree_child with f|]. split; [now apply child_node with f|].
        split; [now apply Desc_children|]. split; [rewrite Kd; right; now left|].
        rewrite (enclosing_child _ f) by
          (try (apply in_children in Hd; apply Hd); rewrite Kd; intros [X|[]]; discriminate).
        exact Hself. }
    destruct HD as (D1 & D2 & D3 & D4 & D5).
    destruct Hn as [[-> _]|(Hn & Kn & _)].
    - repeat (split; [assumption|]). split; [|split; assumption].
      destruct D4 as [X|[X|[]]]; rewrite <- X; cbn; auto.
    - split; [now apply in_tree_child with d|]. split; [now apply child_node with d|].
      split; [rewrite Kn; cbn; auto|]. split; [eapply Desc_trans; [exact D3|now apply Desc_children]|].
      rewrite (enclosing_child _ d) by
          (try (apply in_children in Hn; apply Hn); rewrite Kn; intros [X|[]]; discriminate).
      exact D5.
  Qed.

  Lemma func_slots_nodup f : NoDup (param_slots f ++ local_slots f).
  Proof.
    unfold param_slots, local_slots.
    assert (Hx : forall tu, ekind tu = TYPE_USE -> In tu (children f) ->
              NoDup (flat_map slots_of (childs tu PARAM) ++ flat_map slots_of (childs f LOCAL))).
    { intros tu Ktu Htu. rewrite <- flat_map_app. apply slots_nodup.
      - assert (Hd : forall a b : list elem, NoDup a -> NoDup b -> (forall x, In x a -> ~ In x b) -> NoDup (a ++ b)).
        { clear. induction a as [|x a IHa]; intros b Ha Hb Hx; [exact Hb|]. cbn. inversion Ha; subst. constructor.
          - rewrite in_app_iff. intros [H|H]; [auto|]. apply (Hx x); [now left|exact H].
          - apply IHa; auto. intros y Hy. apply Hx. now right. }
        apply Hd; try apply childs_nodup. intros x H1 H2. apply in_childs in H1 as [_ H1].
        apply in_childs in H2 as [_ H2]. congruence.
      - intros d H. apply in_app_or in H as [H|H]; apply in_childs in H as [_ H]; auto. }
    destruct (child f TYPE_USE) as [tu|] eqn:E.
    - apply child_some in E as [E1 E2]. now apply Hx.
    - cbn. apply slots_nodup; [apply childs_nodup|]. intros d H. apply in_childs in H as [_ H]. auto.
  Qed.

  (** Every symbol of a visited node is the symbol of a node it owns. *)
  Lemma node_symbols_keys id e : InTree tree e -> is_node e = true ->
    exists l, map s_key (node_symbols id e) = map key_of l /\ NoDup l
      /\ forall n, In n l -> InTree tree n /\ is_node n = true /\ owner n = Some e.
  Proof.
    intros He Hn.
    assert (Hnil : exists l, map s_key ([] : list symbol) = map key_of l /\ NoDup l
      /\ forall n, In n l -> InTree tree n /\ is_node n = true /\ owner n = Some e).
    { exists []. split; [reflexivity|]. split; [constructor|]. intros n []. }
    assert (Hself : forall s, s_key s = key_of e -> owner e = Some e ->
      exists l, map s_key [s] = map key_of l /\ NoDup l
      /\ forall n, In n l -> InTree tree n /\ is_node n = true /\ owner n = Some e).
    { intros s Hs Ho. exists [e]. split; [cbn; now rewrite Hs|].
      split; [constructor; [intros []|constructor]|]. intros n [<-|[]]. auto. }
    assert (Hpb : forall i k, owner e = Some e -> exists l, map s_key (parent_based e i k) = map key_of l /\ NoDup l
      /\ forall n, In n l -> InTree tree n /\ is_node n = true /\ owner n = Some e).
    { intros i k Ho. unfold parent_based. destruct (parent e); [|exact Hnil]. apply Hself; [reflexivity|exact Ho]. }
    assert (Hib : forall i k, owner e = Some e -> exists l, map s_key (import_desc_based e i k) = map key_of l /\ NoDup l
      /\ forall n, In n l -> InTree tree n /\ is_node n = true /\ owner n = Some e).
    { intros i k Ho. unfold import_desc_based. destruct (parent e) as [p|]; [|exact Hnil]. destruct (parent p); [|exact Hnil].
      apply Hself; [reflexivity|exact Ho]. }
    assert (Hrefs : forall m k l, incl l (children e) -> NoDup l -> (forall n, In n l -> ekind n = INDEX \/ ekind n = OPERAND) ->
      exists l', map s_key (flat_map (ref_symbol m k) l) = map key_of l' /\ NoDup l'
      /\ forall n, In n l' -> InTree tree n /\ is_node n = true /\ owner n = Some e).
    { intros m k l Hi Hd Hk. destruct (ref_symbol_key m k l) as (l' & E & Hi' & Hd'). exists l'.
      split; [exact E|]. split; [auto|]. intros n Hin. apply Hi' in Hin as Hl. pose proof (Hi _ Hl) as Hc.
      split; [now apply in_tree_child with e|]. split; [now apply child_node with e|].
      unfold owner. destruct (Hk _ Hl) as [->| ->]; now apply children_parent. }
    assert (Hone : forall m k i, child e INDEX = Some i ->
      exists l', map s_key (ref_symbol m k i) = map key_of l' /\ NoDup l'
      /\ forall n, In n l' -> InTree tree n /\ is_node n = true /\ owner n = Some e).
    { intros m k i Hi. apply child_some in Hi as [Hi1 Hi2].
      replace (ref_symbol m k i) with (flat_map (ref_symbol m k) [i]) by (cbn; apply app_nil_r).
      apply Hrefs; [intros x [<-|[]]; exact Hi1|constructor; [intros []|constructor]|].
      intros x [<-|[]]. now left. }
    assert (Hix : forall k, exists l', map s_key (index_ref e k) = map key_of l' /\ NoDup l'
      /\ forall n, In n l' -> InTree tree n /\ is_node n = true /\ owner n = Some e).
    { intros k. unfold index_ref. destruct enclosing; [|exact Hnil]. destruct (child e INDEX) eqn:E; [|exact Hnil]. auto. }
    assert (Ho : ekind e <> INDEX -> ekind e <> OPERAND -> ekind e <> PARAM -> ekind e <> LOCAL -> ekind e <> VAL_TYPE ->
      owner e = Some e) by (intros; unfold owner; destruct (ekind e); congruence).
    unfold node_symbols.
    destruct (ekind e) eqn:K; try exact Hnil; try (apply Hix); try (apply Hpb; apply Ho; discriminate);
      try (apply Hib; apply Ho; discriminate).
    - assert (Hc : forall n, In n (children e) -> ekind n = INDEX \/ ekind n = OPERAND).
      { intros n H. right. now apply instr_child_kind with e. }
      assert (Hri : forall ks k, exists l', map s_key (refs_in ks e k) = map key_of l' /\ NoDup l'
        /\ forall n, In n l' -> InTree tree n /\ is_node n = true /\ owner n = Some e).
      { intros ks k. unfold refs_in. destruct enclosing; [|exact Hnil].
        apply Hrefs; [apply incl_refl|apply NoDup_filter, children_nodup|exact Hc]. }
      unfold instr_symbols. destruct instr_name_of as [t|]; [|exact Hnil].
      destruct (name_in t call_names); [apply Hri|].
      destruct (name_in t local_names); [apply Hri|].
      destruct (name_in t global_names); [apply Hri|].
      destruct (name_in t br_names); [apply Hri|].
      destruct (name_in t table_names); [apply Hri|].
      destruct (name_in t ["table.init"%string]); [|exact Hnil].
      destruct (enclosing [MODULE] e); [|exact Hnil].
      destruct (children e) as [|c r] eqn:Ec; [exact Hnil|].
      replace (ref_symbol (key_of e0) STableRef c) with (flat_map (ref_symbol (key_of e0) STableRef) [c]) by (cbn; apply app_nil_r).
      apply Hrefs; [intros x [<-|[]]; now left|constructor; [intros []|constructor]|].
      intros x [<-|[]]. apply Hc. now left.
    - destruct (parent e); [|exact Hnil]. apply Hself; [reflexivity|apply Ho; discriminate].
    - assert (Hs : forall n, In n (param_slots e ++ local_slots e) -> InTree tree n /\ is_node n = true /\ owner n = Some e).
      { intros n H. apply slot_facts in H as (H1 & H2 & H3 & H4 & H5); [|exact He|exact K].
        split; [exact H1|]. split; [exact H2|]. unfold owner. cbn in H3.
        destruct H3 as [X|[X|[X|[]]]]; rewrite <- X; exact H5. }
      unfold parent_based. destruct (parent e).
      + exists (e :: param_slots e ++ local_slots e). split.
        * rewrite !map_app, !number_slots_keys. cbn. now rewrite map_app.
        * split.
          -- constructor; [|apply func_slots_nodup]. intros H. apply slot_facts in H as (_ & _ & H & _); [|exact He|exact K].
             rewrite K in H. cbn in H. intuition discriminate.
          -- intros n [<-|H]; [|auto]. split; [exact He|]. split; [exact Hn|]. apply Ho; discriminate.
      + exists (param_slots e ++ local_slots e). split.
        * rewrite !map_app, !number_slots_keys. reflexivity.
        * split; [apply func_slots_nodup|exact Hs].
  Qed.

  Definition nodes : list (N * elem) := number 0 (descendants (root_of tree)).
  Lemma nodes_in id e : In (id, e) nodes -> InTree tree e /\ is_node e = true.
  Proof. intros H. apply in_number in H. cbn in H. now apply in_descendants in H. Qed.
  Lemma nodes_ex e : InTree tree e -> is_node e = true -> exists id, In (id, e) nodes.
  Proof. intros H1 H2. apply in_number_ex. now apply in_descendants. Qed.
  Lemma nodes_fun i j e : In (i, e) nodes -> In (j, e) nodes -> i = j.
  Proof. apply number_fun, descendants_nodup. Qed.

  Lemma raw_in s : In s (raw_symbols nodes) <-> exists id e, In (id, e) nodes /\ In s (node_symbols id e).
  Proof.
    unfold raw_symbols. rewrite in_flat_map. split.
    - intros ((id & e) & H1 & H2). eauto.
    - intros (id & e & H1 & H2). exists (id, e). auto.
  Qed.

  Lemma map_key_nodup (l : list elem) : NoDup l -> (forall n, In n l -> InTree tree n /\ is_node n = true) ->
    NoDup (map key_of l).
  Proof.
    induction l as [|x l IH]; intros Hn Hl; cbn; [constructor|]. inversion Hn; subst. constructor.
    - rewrite in_map_iff. intros (y & E & Hy). destruct (Hl x (or_introl eq_refl)), (Hl y (or_intror Hy)).
      assert (y = x) by (eapply key_inj; eauto). congruence.
    - apply IH; auto. intros n Hi. apply Hl. now right.
  Qed.
  Lemma map_nodup_inj {A B} (f : A -> B) l x y : NoDup (map f l) -> In x l -> In y l -> f x = f y -> x = y.
  Proof.
    induction l as [|z l IH]; intros Hn Hx Hy E; [destruct Hx|]. cbn in Hn. inversion Hn; subst.
    destruct Hx as [<-|Hx], Hy as [<-|Hy].
    - reflexivity.
    - exfalso. apply H1. rewrite E. now apply in_map.
    - exfalso. apply H1. rewrite <- E. now apply in_map.
    - auto.
  Qed.

  (** The node of a symbol. *)
  Lemma raw_node id e s : In (id, e) nodes -> In s (node_symbols id e) ->
    exists n, InTree tree n /\ is_node n = true /\ owner n = Some e /\ s_key s = key_of n.
  Proof.
    intros He Hs. apply nodes_in in He as [H1 H2].
    destruct (node_symbols_keys id e H1 H2) as (l & E & _ & Hl).
    assert (Hk : In (s_key s) (map key_of l)) by (rewrite <- E; now apply in_map).
    apply in_map_iff in Hk as (n & En & Hn). destruct (Hl n Hn) as (A & B & C). exists n. auto.
  Qed.

  (** No two symbols have the same key. *)
  Lemma raw_key_inj s1 s2 : In s1 (raw_symbols nodes) -> In s2 (raw_symbols nodes) -> s_key s1 = s_key s2 -> s1 = s2.
  Proof.
    intros H1 H2 E. apply raw_in in H1 as (i1 & e1 & He1 & Hs1). apply raw_in in H2 as (i2 & e2 & He2 & Hs2).
    destruct (raw_node _ _ _ He1 Hs1) as (n1 & A1 & B1 & C1 & D1).
    destruct (raw_node _ _ _ He2 Hs2) as (n2 & A2 & B2 & C2 & D2).
    assert (n1 = n2) as <- by (apply (key_inj src); auto; congruence).
    assert (e1 = e2) as <- by congruence.
    assert (i1 = i2) as <- by (eapply nodes_fun; eauto).
    apply nodes_in in He1 as [X Y].
    destruct (node_symbols_keys i1 e1 X Y) as (l & El & Hd & Hl).
    eapply map_nodup_inj; [|exact Hs1|exact Hs2|exact E]. rewrite El.
    apply map_key_nodup; [exact Hd|]. intros n Hn. destruct (Hl n Hn) as (A & B & _). auto.
  Qed.
  Lemma find_key_raw s : In s (raw_symbols nodes) ->
    find (fun x => key_eqb (s_key x) (s_key s)) (raw_symbols nodes) = Some s.
  Proof.
    intros H. apply find_unique; [exact H|apply key_eqb_refl|].
    intros y Hy E. apply key_eqb_eq in E. now apply raw_key_inj.
  Qed.

  (** ** Modules *)

  Lemma root_kind : ekind (root_of tree) = ROOT.
  Proof. unfold tree_of, parse. destruct (root false _); reflexivity. Qed.
  Lemma root_kind_only e : InTree tree e -> is_node e = true -> ekind e = ROOT -> e = root_of tree.
  Proof.
    intros H Hn K. destruct (parent_ex _ _ H Hn) as [->|(p & Hp & _ & Hc & _)]; [reflexivity|].
    apply (parent_kind src) in Hc; [|exact Hp]. rewrite K in Hc. vm_compute in Hc. destruct Hc.
  Qed.
  Lemma module_parent m : InTree tree m -> is_node m = true -> ekind m = MODULE -> parent m = Some (root_of tree).
  Proof.
    intros H Hn K. destruct (parent_ex _ _ H Hn) as [E|(p & Hp & Np & Hc & Pp)].
    - exfalso. pose proof root_kind as R. subst m. congruence.
    - rewrite Pp. f_equal. apply root_kind_only; auto.
      pose proof (parent_kind _ _ _ Hp Hc) as P. rewrite K in P. revert P. generalize (ekind p).
      intros k P. vm_compute in P. destruct P as [P|[]]. congruence.
  Qed.
  Lemma module_unique e m m' : Desc m e -> Desc m' e -> InTree tree m -> InTree tree m' ->
    is_node m = true -> is_node m' = true -> ekind m = MODULE -> ekind m' = MODULE -> m = m'.
  Proof.
    intros D D' T T' N N' K K'. apply (Desc_same_depth _ _ e); auto.
    apply module_parent in K, K'; auto. unfold parent in K, K'.
    destruct (ups m) as [|u r]; [discriminate|]. destruct (ups m') as [|u' r']; [discriminate|].
    injection K as _ _ ->. injection K' as _ _ ->. reflexivity.
  Qed.
  (** Every node but the root lies in a module. *)
  Lemma module_ex e : InTree tree e -> is_node e = true -> ekind e <> ROOT ->
    exists m, InTree tree m /\ is_node m = true /\ ekind m = MODULE /\ Desc m e.
  Proof.
    intros H. induction H as [|p c H IH Hc]; intros Hn K.
    - pose proof root_kind. congruence.
    - assert (Np : is_node p = true).
      { unfold is_node. unfold children_with_tokens in Hc. destruct (el p); [destruct Hc|reflexivity]. }
      assert (Hcc : In c (children p)) by now apply in_children.
      destruct (kind_eqb_spec (ekind p) ROOT) as [Kp|Kp].
      + pose proof (child_kind _ _ _ H Hcc) as P. rewrite Kp in P. exists c.
        split; [econstructor; eauto|]. split; [exact Hn|]. split; [|constructor].
        revert P. generalize (ekind c). intros k P. vm_compute in P. destruct P as [P|[]]. congruence.
      + destruct (IH Np Kp) as (m & A & B & C & D). exists m. repeat (split; [assumption|]). econstructor; eauto.
  Qed.
  Lemma ancestor_node e y : InTree tree e -> is_node e = true -> In y (ancestors e) ->
    InTree tree y /\ Desc y e /\ is_node y = true.
  Proof.
    intros H Hn Hy. apply (ancestors_Desc tree) in Hy as [Ty Dy]; [|exact H]. repeat (split; [assumption|]).
    apply Desc_top in Dy as [->|(c & Hc & _)]; [exact Hn|].
    unfold is_node. unfold children_with_tokens in Hc. destruct (el y); [destruct Hc|reflexivity].
  Qed.
  Lemma enclosing_module e m : InTree tree e -> is_node e = true -> InTree tree m -> is_node m = true ->
    ekind m = MODULE -> Desc m e -> enclosing [MODULE] e = Some m.
  Proof.
    intros H Hn T Nm K D. unfold enclosing.
    pose proof (Desc_ancestors _ _ D) as Ha.
    apply find_unique; [exact Ha|cbn; rewrite K; reflexivity|].
    intros y Hy E. apply ancestor_node in Hy as (Ty & Dy & Ny); [|exact H|exact Hn].
    cbn in E. rewrite orb_false_r in E. apply kind_eqb_eq in E.
    eapply module_unique; eauto.
  Qed.
End Doc.
