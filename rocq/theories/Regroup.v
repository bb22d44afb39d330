(** Replacing groups of parameters, results or locals in a tree written in the
    grammar of SpecComplete.v. *)

From Coq Require Import String List NArith Bool Arith Lia.
From Verif Require Import Text Kind Green SpecParser SpecComplete SpecRegroup.
Import ListNotations.

Definition kind_dec (a b : kind) : {a = b} + {a <> b}.
Proof. destruct (kind_eqb a b) eqn:E; [left; now apply kind_eqb_eq|right]. intros ->. now rewrite kind_eqb_refl in E. Defined.
Definition iclass_dec (a b : iclass) : {a = b} + {a <> b}.
Proof. decide equality. Defined.
Definition rx_dec (a b : rx) : {a = b} + {a <> b}.
Proof. decide equality; first [apply string_dec|apply kind_dec|apply Bool.bool_dec|apply iclass_dec]. Defined.

Lemma app_left {A} (a m b l1 l2 : list A) x m0 : a ++ m ++ b = l1 ++ l2 -> m = m0 ++ [x] -> ~ In x l2 ->
  exists b1, l1 = a ++ m ++ b1 /\ b = b1 ++ l2.
Proof.
  intros E -> N. revert a E. induction l1 as [|y l1 IH]; intros a E.
  - exfalso. apply N. cbn [app] in E. rewrite <- E. apply in_or_app. right. rewrite <- app_assoc. apply in_or_app. right. now left.
  - destruct a as [|z a].
    + clear IH. cbn [app] in E |- *.
      assert (G : forall m0 l1, (m0 ++ [x]) ++ b = l1 ++ l2 -> exists b1, l1 = (m0 ++ [x]) ++ b1 /\ b = b1 ++ l2).
      { clear - N. induction m0 as [|z m0 IH]; intros [|y l1] E; cbn [app] in E.
        - exfalso. apply N. rewrite <- E. now left.
        - injection E as <- E. exists l1. split; [reflexivity|exact E].
        - exfalso. apply N. rewrite <- E. right. apply in_or_app. left. apply in_or_app. right. now left.
        - injection E as <- E. destruct (IH _ E) as (b1 & -> & ->). exists b1. split; [reflexivity|auto]. }
      exact (G m0 (y :: l1) E).
    + cbn [app] in E. injection E as <- E. destruct (IH a E) as (b1 & -> & ->). exists b1. auto.
Qed.
Lemma app_right {A} (a m b l1 l2 : list A) x m0 : a ++ m ++ b = l1 ++ l2 -> m = x :: m0 -> ~ In x l1 ->
  exists a2, l2 = a2 ++ m ++ b /\ a = l1 ++ a2.
Proof.
  intros E -> N. revert a E. induction l1 as [|y l1 IH]; intros a E.
  - exists a. auto.
  - destruct a as [|z a]; cbn [app] in E.
    + injection E as <- _. exfalso. apply N. now left.
    + injection E as <- E. destruct (IH (fun h => N (or_intror h)) a E) as (a2 & -> & ->). exists a2. auto.
Qed.
Lemma app_elt {A} (a b l1 l2 : list A) g : a ++ g :: b = l1 ++ l2 ->
  (exists b1, l1 = a ++ g :: b1 /\ b = b1 ++ l2) \/ (exists a2, l2 = a2 ++ g :: b /\ a = l1 ++ a2).
Proof.
  revert a. induction l1 as [|y l1 IH]; intros a E.
  - right. exists a. auto.
  - destruct a as [|z a]; cbn [app] in E.
    + injection E as -> ->. left. exists l1. auto.
    + injection E as <- E. destruct (IH a E) as [(b1 & -> & ->)|(a2 & -> & ->)]; [left; exists b1; auto|right; exists a2; auto].
Qed.

Lemma sq_inv p q l : Reads (Sq p q) l -> exists l1 l2, l = l1 ++ l2 /\ Reads p l1 /\ Reads q l2.
Proof. intros H. inversion H; subst; eauto. Qed.

Section Groups.
  Variables (k : kind) (x : rx).

  (** No node of kind [k] at this level. *)
  Fixpoint without (e : rx) : bool :=
    match e with
    | Nd k' _ | Loose k' _ => negb (kind_eqb k' k)
    | Sq a b | Or a b => without a && without b
    | Star a => without a
    | Kw _ | Tk _ | Float _ | Ins _ | Eps => true
    end.
  (** Groups of kind [k] are repeated. *)
  Fixpoint fine (e : rx) : bool :=
    without e
    || (if rx_dec e (Star (Nd k x)) then true else false)
    || (if rx_dec e (Plus (Nd k x)) then true else false)
    || match e with
       | Sq a b => (fine a && without b) || (without a && fine b)
       | Or a b => fine a && fine b
       | _ => false
       end.
  Fixpoint deep (e : rx) : bool :=
    match e with
    | Nd k' e => (kind_eqb k' BLOCK_TYPE || fine e) && deep e && (negb (kind_eqb k' k) || if rx_dec e x then true else false)
    | Loose k' e => (kind_eqb k' BLOCK_TYPE || fine e) && deep e && negb (kind_eqb k' k)
    | Sq a b | Or a b => deep a && deep b
    | Star a => deep a
    | Kw _ | Tk _ | Float _ | Ins _ | Eps => true
    end.
  Hypothesis Iw : forall i, without (instr_rx i) = true.
  Hypothesis Id : forall i, deep (instr_rx i) = true.

  Lemma trivia_no_node tr k' cs : Trivia tr -> ~ In (Node k' cs) tr.
  Proof. intros H Hin. unfold Trivia in H. rewrite Forall_forall in H. apply (H _ Hin). Qed.
  Lemma without_none e l : Reads e l -> without e = true -> forall cs, ~ In (Node k cs) l.
  Proof.
    induction 1 as [s tr Ht|k0 t tr Ht Hk|b t tr Ht Hb|k0 e cs tr Ht _ IH Hc|k0 e cs _ IH|i l _ IH| |a b l m _ IHa _ IHb|a b l _ IH|a b l _ IH|a|a l m _ IHa _ IHb];
      cbn [without]; intros W c Hin.
    - apply in_app_or in Hin as [Hin|[Hin|[]]]; [now apply trivia_no_node in Hin|discriminate].
    - apply in_app_or in Hin as [Hin|[Hin|[]]]; [now apply trivia_no_node in Hin|discriminate].
    - apply in_app_or in Hin as [Hin|[Hin|[]]]; [now apply trivia_no_node in Hin|discriminate].
    - apply in_app_or in Hin as [Hin|[Hin|[]]]; [now apply trivia_no_node in Hin|]. injection Hin as -> _. now rewrite kind_eqb_refl in W.
    - destruct Hin as [Hin|[]]. injection Hin as -> _. now rewrite kind_eqb_refl in W.
    - exact (IH (Iw i) c Hin).
    - destruct Hin.
    - apply andb_prop in W as (W1 & W2). apply in_app_or in Hin as [Hin|Hin]; [exact (IHa W1 c Hin)|exact (IHb W2 c Hin)].
    - apply andb_prop in W as (W1 & W2). exact (IH W1 c Hin).
    - apply andb_prop in W as (W1 & W2). exact (IH W2 c Hin).
    - destruct Hin.
    - apply in_app_or in Hin as [Hin|Hin]; [exact (IHa W c Hin)|exact (IHb W c Hin)].
  Qed.

  (** Every group is written as [x] says. *)
  Lemma sub_reads e l : Reads e l -> deep e = true -> forall g cs, In g l -> Sub g (Node k cs) -> Reads x cs /\ Tight cs.
  Proof.
    assert (Tr : forall tr g cs, Trivia tr -> In g tr -> ~ Sub g (Node k cs)).
    { intros tr g cs Ht Hin H. inversion H; subst; now apply trivia_no_node in Hin. }
    induction 1 as [s tr Ht|k0 t tr Ht Hk|bb t tr Ht Hb|k0 e cs0 tr Ht Hr IH Hc|k0 e cs0 Hr IH|i l _ IH| |p q l1 l2 Hp IHp Hq IHq|p q l Hp IH|p q l Hp IH|p|p l1 l2 Hp IHp Hq IHq];
      intros D g cs Hin Hs.
    1,2,3: apply in_app_or in Hin as [Hin|[<-|[]]]; [destruct (Tr _ _ _ Ht Hin Hs)|inversion Hs].
    - cbn [deep] in D. apply andb_prop in D as (D & D3). apply andb_prop in D as (D1 & D2).
      apply in_app_or in Hin as [Hin|[<-|[]]]; [destruct (Tr _ _ _ Ht Hin Hs)|]. inversion Hs as [|? ? c ? Hc' Hs']; subst.
      + rewrite kind_eqb_refl in D3. cbn [negb orb] in D3. destruct (rx_dec e x) as [->|]; [auto|discriminate].
      + eapply IH; eauto.
    - cbn [deep] in D. apply andb_prop in D as (D & D3). apply andb_prop in D as (D1 & D2).
      destruct Hin as [<-|[]]. inversion Hs as [|? ? c ? Hc' Hs']; subst.
      + now rewrite kind_eqb_refl in D3.
      + eapply IH; eauto.
    - eapply IH; eauto.
    - destruct Hin.
    - cbn [deep] in D. apply andb_prop in D as (D1 & D2). apply in_app_or in Hin as [Hin|Hin]; [eapply IHp|eapply IHq]; eauto.
    - cbn [deep] in D. apply andb_prop in D as (D1 & D2). eapply IH; eauto.
    - cbn [deep] in D. apply andb_prop in D as (D1 & D2). eapply IH; eauto.
    - destruct Hin.
    - apply in_app_or in Hin as [Hin|Hin]; [eapply IHp|eapply IHq]; eauto.
  Qed.

  (** *** Lists of groups *)

  Inductive Groups : list green -> Prop :=
  | G_nil : Groups []
  | G_cons tr cs l : Trivia tr -> Reads x cs -> Tight cs -> Groups l -> Groups (tr ++ Node k cs :: l).
  Lemma star_groups l : Reads (Star (Nd k x)) l -> Groups l.
  Proof.
    intros H. remember (Star (Nd k x)) as e eqn:E. induction H as [| | | | | | | | | |a|a l m Ha _ _ IH]; try discriminate; [constructor|].
    injection E as ->. inversion Ha as [| | |? ? cs tr Ht Hr Hc| | | | | | | |]; subst. rewrite <- app_assoc. cbn [app]. constructor; auto.
  Qed.
  Lemma groups_star l : Groups l -> Reads (Star (Nd k x)) l.
  Proof.
    induction 1 as [|tr cs l Ht Hr Hc _ IH]; [constructor|].
    change (tr ++ Node k cs :: l) with (tr ++ [Node k cs] ++ l). rewrite app_assoc. constructor; [now constructor|exact IH].
  Qed.
  Lemma groups_plus l : Groups l -> l <> [] -> Reads (Plus (Nd k x)) l.
  Proof.
    intros H N. destruct H as [|tr cs l Ht Hr Hc H]; [now destruct N|].
    change (tr ++ Node k cs :: l) with (tr ++ [Node k cs] ++ l). rewrite app_assoc. constructor; [now constructor|now apply groups_star].
  Qed.
  Lemma plus_groups l : Reads (Plus (Nd k x)) l -> Groups l.
  Proof.
    intros H. unfold Plus in H. inversion H as [| | | | | | |? ? l1 l2 Ha Hb| | | |]; subst. apply star_groups. now constructor.
  Qed.
  Lemma groups_at l : Groups l -> forall a cs b, l = a ++ Node k cs :: b ->
    exists a1 tr, a = a1 ++ tr /\ Groups a1 /\ Trivia tr /\ Groups b.
  Proof.
    induction 1 as [|tr cs l Ht Hr Hc H IH]; intros a cs' b E.
    - destruct a; discriminate.
    - symmetry in E. apply app_elt in E as [(b1 & -> & _)|(a2 & E & ->)].
      + exfalso. eapply trivia_no_node; [exact Ht|]. apply in_elt.
      + destruct a2 as [|y a2]; cbn [app] in E; injection E as E1 E2.
        * subst. exists [], tr. rewrite app_nil_r. repeat split; auto. constructor.
        * subst y. destruct (IH a2 cs' b E2) as (a1 & tr' & -> & Ha & Ht' & Hb).
          exists (tr ++ Node k cs :: a1), tr'. repeat split; auto; [rewrite <- app_assoc; reflexivity|now constructor].
  Qed.
  Lemma groups_app a b : Groups a -> Groups b -> Groups (a ++ b).
  Proof. induction 1 as [|tr cs l Ht Hr Hc _ IH]; intros Hb; [exact Hb|]. rewrite <- app_assoc. cbn [app]. constructor; auto. Qed.

  (** *** Replacing some *)

  Variables (m m1 m2 m' w : list green) (c1 c2 c1' : list green).
  Hypothesis M1 : m = Node k c1 :: m1.
  Hypothesis M2 : m = m2 ++ [Node k c2].
  Hypothesis M' : m' = Node k c1' :: w.
  Hypothesis Rc : Reads x c1'.
  Hypothesis Tc : Tight c1'.
  Hypothesis Gw : Groups w.

  Lemma groups_replace a b : Groups (a ++ m ++ b) -> Groups (a ++ m' ++ b).
  Proof.
    intros H. assert (E1 : a ++ m ++ b = a ++ Node k c1 :: (m1 ++ b)) by (rewrite M1; reflexivity).
    destruct (groups_at _ H _ _ _ E1) as (a1 & tr & -> & Ga & Ht & _).
    assert (E2 : (a1 ++ tr) ++ m ++ b = ((a1 ++ tr) ++ m2) ++ Node k c2 :: b) by (rewrite M2, <- !app_assoc; reflexivity).
    destruct (groups_at _ H _ _ _ E2) as (_ & _ & _ & _ & _ & Gb).
    rewrite M', <- app_assoc. apply groups_app; [exact Ga|]. cbn [app]. constructor; auto. now apply groups_app.
  Qed.

  Lemma top e : forall l, Reads e l -> fine e = true -> forall a b, l = a ++ m ++ b -> Reads e (a ++ m' ++ b).
  Proof.
    assert (Hm : forall a b, In (Node k c1) (a ++ m ++ b)) by (intros a b; rewrite M1; apply in_or_app; right; now left).
    assert (S : forall e l, Reads e l -> without e = true -> forall a b, l = a ++ m ++ b -> Reads e (a ++ m' ++ b)).
    { intros e' l H W a b ->. exfalso. exact (without_none _ _ H W _ (Hm a b)). }
    assert (St : forall l, Reads (Star (Nd k x)) l -> forall a b, l = a ++ m ++ b -> Reads (Star (Nd k x)) (a ++ m' ++ b)).
    { intros l H a b ->. apply groups_star, groups_replace. now apply star_groups. }
    assert (Pl : forall l, Reads (Plus (Nd k x)) l -> forall a b, l = a ++ m ++ b -> Reads (Plus (Nd k x)) (a ++ m' ++ b)).
    { intros l H a b ->. apply groups_plus; [apply groups_replace; now apply plus_groups|]. rewrite M'. destruct a; discriminate. }
    induction e as [s|k0|n|k0 e IH|k0 e IH|i| |p IHp q IHq|p IHp q IHq|p IH]; intros l H F a b E.
    all: cbn [fine] in F; apply orb_prop in F as [F|F]; [apply orb_prop in F as [F|F]; [apply orb_prop in F as [F|F]|]|].
    all: try (eapply S; eassumption).
    all: try (match type of F with (if rx_dec ?u ?v then _ else _) = true => destruct (rx_dec u v) as [Q|]; [|discriminate] end).
    all: try discriminate F.
    all: try (rewrite Q in *; eapply St; eassumption).
    all: try (rewrite Q in *; eapply Pl; eassumption).
    - destruct (sq_inv _ _ _ H) as (l1 & l2 & E3 & Ha & Hb). subst l. rename E3 into H3. apply orb_prop in F as [F|F]; apply andb_prop in F as (F1 & F2).
      + apply (app_left _ _ _ _ _ (Node k c2) m2) in H3 as (b1 & -> & ->); [|exact M2|now apply (without_none _ _ Hb F2)].
        rewrite !app_assoc, <- (app_assoc a). constructor; [eapply IHp; eauto|exact Hb].
      + apply (app_right _ _ _ _ _ (Node k c1) m1) in H3 as (a2 & -> & ->); [|exact M1|now apply (without_none _ _ Ha F1)].
        rewrite <- app_assoc. constructor; [exact Ha|]. eapply IHq; eauto.
    - apply andb_prop in F as (F1 & F2). inversion H; subst; [apply R_OrL; eapply IHp; eauto|apply R_OrR; eapply IHq; eauto].
  Qed.

  (** One replacement, in a node that is not a block type. *)
  Definition Step (g g' : green) : Prop :=
    exists p l r, p <> BLOCK_TYPE /\ At (Node p (l ++ m ++ r)) (Node p (l ++ m' ++ r)) g g'.
  Lemma step_node g g' : Step g g' -> exists p cs cs', g = Node p cs /\ g' = Node p cs'.
  Proof. intros (p & l & r & _ & H). inversion H; eauto. Qed.
  Lemma step_kids p cs cs' : Step (Node p cs) (Node p cs') ->
    (p <> BLOCK_TYPE /\ exists l r, cs = l ++ m ++ r /\ cs' = l ++ m' ++ r)
    \/ exists l c c' r, cs = l ++ c :: r /\ cs' = l ++ c' :: r /\ Step c c'.
  Proof.
    intros (q & l & r & N & H). inversion H as [|k0 l0 c c' r0 H0]; subst.
    - left. split; [exact N|]. exists l, r. auto.
    - right. exists l0, c, c', r0. repeat split. exists q, l, r. auto.
  Qed.
  Lemma tight_here l r : Tight (l ++ m ++ r) -> Tight (l ++ m' ++ r).
  Proof. destruct l as [|y l]; [|exact (fun h => h)]. rewrite M'. intros _. exact I. Qed.
  Lemma tight_in l c c' r : Step c c' -> Tight (l ++ c :: r) -> Tight (l ++ c' :: r).
  Proof.
    destruct l as [|y l]; [|intros _ h; exact h]. intros H _. destruct (step_node _ _ H) as (p & cs & cs' & _ & ->). exact I.
  Qed.

  Lemma reads_step e l : Reads e l -> deep e = true ->
    forall a g g' b, l = a ++ g :: b -> Step g g' -> Reads e (a ++ g' :: b).
  Proof.
    induction 1 as [s tr Ht|k0 t tr Ht Hk|bb t tr Ht Hb|k0 e cs tr Ht Hr IH Hc|k0 e cs Hr IH|i l _ IH| |p q l1 l2 Hp IHp Hq IHq|p q l Hp IH|p q l Hp IH|p|p l1 l2 Hp IHp Hq IHq];
      intros D a g g' b E St; pose proof (step_node _ _ St) as (kk & gs & gs' & Eg & Eg').
    1,2,3: exfalso; symmetry in E; apply app_elt in E as [(b1 & -> & _)|(a2 & E & _)];
        [subst g; eapply trivia_no_node; [exact Ht|apply in_elt]
        |destruct a2 as [|z a2]; [injection E as E _; congruence|destruct a2; discriminate]].
    - cbn [deep] in D. apply andb_prop in D as (D & _). apply andb_prop in D as (D1 & D2).
      symmetry in E. apply app_elt in E as [(b1 & -> & _)|(a2 & E & ->)]; [subst g; exfalso; eapply trivia_no_node; [exact Ht|apply in_elt]|].
      destruct a2 as [|z a2]; [|destruct a2; discriminate]. cbn [app] in E. injection E as E <-. rewrite app_nil_r. rewrite Eg in E.
      injection E as <- <-. subst g g'. destruct (step_kids _ _ _ St) as [(N & l & r & E1 & E2)|(l & c & c' & r & E1 & E2 & Sc)]; subst.
      + constructor; [exact Ht| |now apply tight_here]. apply orb_prop in D1 as [D1|D1]; [apply kind_eqb_eq in D1; congruence|].
        eapply top; eauto.
      + constructor; [exact Ht|eapply IH; eauto|eapply tight_in; eauto].
    - cbn [deep] in D. apply andb_prop in D as (D & _). apply andb_prop in D as (D1 & D2).
      destruct a as [|z a]; [|destruct a; discriminate]. cbn [app] in E |- *. injection E as E <-. rewrite Eg in E.
      injection E as <- <-. subst g g'. destruct (step_kids _ _ _ St) as [(N & l & r & E1 & E2)|(l & c & c' & r & E1 & E2 & Sc)]; subst.
      + constructor. apply orb_prop in D1 as [D1|D1]; [apply kind_eqb_eq in D1; congruence|]. eapply top; eauto.
      + constructor. eapply IH; eauto.
    - constructor. eapply IH; eauto.
    - destruct a; discriminate.
    - cbn [deep] in D. apply andb_prop in D as (D1 & D2). symmetry in E. apply app_elt in E as [(b1 & -> & ->)|(a2 & -> & ->)].
      + change (a ++ g' :: b1 ++ l2) with (a ++ (g' :: b1) ++ l2). rewrite app_assoc. constructor; [eapply IHp; eauto|exact Hq].
      + rewrite <- app_assoc. constructor; [exact Hp|eapply IHq; eauto].
    - cbn [deep] in D. apply andb_prop in D as (D1 & D2). apply R_OrL. eapply IH; eauto.
    - cbn [deep] in D. apply andb_prop in D as (D1 & D2). apply R_OrR. eapply IH; eauto.
    - destruct a; discriminate.
    - symmetry in E. apply app_elt in E as [(b1 & -> & ->)|(a2 & -> & ->)].
      + change (a ++ g' :: b1 ++ l2) with (a ++ (g' :: b1) ++ l2). rewrite app_assoc. constructor; [eapply IHp; eauto|exact Hq].
      + rewrite <- app_assoc. constructor; [exact Hp|eapply IHq; eauto].
  Qed.

  Lemma root_step ms tl tree' : without (Star MODULE_) = true -> deep (Star MODULE_) = true ->
    Reads (Star MODULE_) ms -> Trivia tl -> Step (Node ROOT (ms ++ tl)) tree' ->
    exists ms' tl', tree' = Node ROOT (ms' ++ tl') /\ Reads (Star MODULE_) ms' /\ Trivia tl'.
  Proof.
    intros W D Hr Ht St. destruct (step_node _ _ St) as (p & cs & cs' & E & ->). injection E as <- <-.
    destruct (step_kids _ _ _ St) as [(_ & l & r & E & _)|(l & c & c' & r & E & -> & Sc)].
    - exfalso. assert (Hin : In (Node k c1) (ms ++ tl)) by (rewrite E, M1; apply in_or_app; right; now left).
      apply in_app_or in Hin as [Hin|Hin]; [exact (without_none _ _ Hr W _ Hin)|exact (trivia_no_node _ _ _ Ht Hin)].
    - symmetry in E. apply app_elt in E as [(b1 & -> & ->)|(a2 & -> & ->)].
      + exists (l ++ c' :: b1), tl. split; [rewrite <- app_assoc; reflexivity|]. split; [|exact Ht]. eapply reads_step; eauto.
      + exfalso. destruct (step_node _ _ Sc) as (q & gs & _ & -> & _). apply (trivia_no_node _ q gs Ht). apply in_elt.
  Qed.
End Groups.

(** ** The grammar *)

Definition group_rx (k : kind) : rx :=
  match k with
  | PARAM => form "param" [VALS]
  | LOCAL => form "local" [VALS]
  | _ => form "result" [Star VAL]
  end.
Lemma grammar_groups k : In k [PARAM; RESULT; LOCAL] ->
  (forall i, without k (instr_rx i) = true) /\ (forall i, deep k (group_rx k) (instr_rx i) = true)
  /\ without k (Star MODULE_) = true /\ deep k (group_rx k) (Star MODULE_) = true.
Proof.
  intros [<-|[<-|[<-|[]]]]; (split; [intros []; reflexivity|split; [intros []; vm_compute; reflexivity|split; vm_compute; reflexivity]]).
Qed.
