(** Trees that differ only in white space, comments and the spelling of names:
    the elements in the same place. *)

From Coq Require Import String List NArith Bool Arith Lia.
From Verif Require Import Text Kind Green SpecParser SpecSyntax Lexer Red LineIndex Cursor Doc Ast NavSpec
  Preorder SpecAlike.
From Verif Require SpecFormat.
Import ListNotations.
Notation bare := SpecFormat.bare.

(** ** Related lists and options *)

Inductive OptR {A B} (R : A -> B -> Prop) : option A -> option B -> Prop :=
| OR_none : OptR R None None
| OR_some a b : R a b -> OptR R (Some a) (Some b).

Section Lists.
  Context {A B : Type} (R : A -> B -> Prop).
  Lemma F2_filter f g : (forall a b, R a b -> f a = g b) -> forall l l',
    Forall2 R l l' -> Forall2 R (filter f l) (filter g l').
  Proof.
    intros H l l' HF. induction HF as [|a b l l' Hab HF IH]; cbn [filter]; [constructor|].
    rewrite (H _ _ Hab). destruct (g b); [now constructor|exact IH].
  Qed.
  Lemma F2_find f g : (forall a b, R a b -> f a = g b) -> forall l l',
    Forall2 R l l' -> OptR R (find f l) (find g l').
  Proof.
    intros H l l' HF. induction HF as [|a b l l' Hab HF IH]; cbn [find]; [constructor|].
    rewrite (H _ _ Hab). destruct (g b); [now constructor|exact IH].
  Qed.
  Lemma F2_existsb f g : (forall a b, R a b -> f a = g b) -> forall l l',
    Forall2 R l l' -> existsb f l = existsb g l'.
  Proof.
    intros H l l' HF. induction HF as [|a b l l' Hab HF IH]; cbn [existsb]; [reflexivity|].
    now rewrite (H _ _ Hab), IH.
  Qed.
  Lemma F2_forallb f g : (forall a b, R a b -> f a = g b) -> forall l l',
    Forall2 R l l' -> forallb f l = forallb g l'.
  Proof.
    intros H l l' HF. induction HF as [|a b l l' Hab HF IH]; cbn [forallb]; [reflexivity|].
    now rewrite (H _ _ Hab), IH.
  Qed.
  Lemma F2_length l l' : Forall2 R l l' -> length l = length l'.
  Proof. induction 1; cbn; congruence. Qed.
  Lemma F2_skipn n : forall l l', Forall2 R l l' -> Forall2 R (skipn n l) (skipn n l').
  Proof. induction n; intros l l' H; [exact H|]. inversion H; subst; cbn; [constructor|auto]. Qed.
  Lemma F2_firstn n : forall l l', Forall2 R l l' -> Forall2 R (firstn n l) (firstn n l').
  Proof. induction n; intros l l' H; [constructor|]. inversion H; subst; cbn; constructor; auto. Qed.
  Lemma F2_tl l l' : Forall2 R l l' -> Forall2 R (tl l) (tl l').
  Proof. intros H. inversion H; subst; cbn; [constructor|assumption]. Qed.
  Lemma F2_hd l l' : Forall2 R l l' -> OptR R (hd_error l) (hd_error l').
  Proof. intros H. inversion H; subst; cbn; constructor; assumption. Qed.
  Lemma F2_concat ls ls' : Forall2 (Forall2 R) ls ls' -> Forall2 R (concat ls) (concat ls').
  Proof. induction 1; cbn; [constructor|]. now apply Forall2_app. Qed.
  Lemma F2_in_l l l' a : Forall2 R l l' -> In a l -> exists b, In b l' /\ R a b.
  Proof.
    induction 1 as [|x y l l' Hxy HF IH]; intros []; [subst; exists y; split; [now left|assumption]|].
    destruct (IH H) as (b & Hb & Rb). exists b. split; [now right|exact Rb].
  Qed.
  Lemma F2_in_r l l' b : Forall2 R l l' -> In b l' -> exists a, In a l /\ R a b.
  Proof.
    induction 1 as [|x y l l' Hxy HF IH]; intros []; [subst; exists x; split; [now left|assumption]|].
    destruct (IH H) as (a & Ha & Ra). exists a. split; [now right|exact Ra].
  Qed.
  Lemma F2_in_and (P : A -> Prop) (Q : B -> Prop) l l' : Forall2 R l l' ->
    (forall a, In a l -> P a) -> (forall b, In b l' -> Q b) -> Forall2 (fun a b => R a b /\ P a /\ Q b) l l'.
  Proof.
    induction 1; intros HP HQ; constructor.
    - split; [assumption|]. split; [apply HP; now left|apply HQ; now left].
    - apply IHForall2; intros; [apply HP|apply HQ]; now right.
  Qed.
  Lemma F2_snoc l l' a b : Forall2 R l l' -> R a b -> Forall2 R (l ++ [a]) (l' ++ [b]).
  Proof. intros H1 H2. apply Forall2_app; auto. Qed.
End Lists.
Lemma F2_imp {A B} (R S : A -> B -> Prop) : (forall a b, R a b -> S a b) -> forall l l', Forall2 R l l' -> Forall2 S l l'.
Proof. intros H l l'. induction 1; constructor; auto. Qed.
Lemma F2_map {A B C D} (R : A -> B -> Prop) (S : C -> D -> Prop) f g :
  (forall a b, R a b -> S (f a) (g b)) -> forall l l', Forall2 R l l' -> Forall2 S (map f l) (map g l').
Proof. intros H l l'. induction 1; cbn; constructor; auto. Qed.
Lemma F2_flat_map {A B C D} (R : A -> B -> Prop) (S : C -> D -> Prop) f g :
  (forall a b, R a b -> Forall2 S (f a) (g b)) -> forall l l', Forall2 R l l' -> Forall2 S (flat_map f l) (flat_map g l').
Proof. intros H l l'. induction 1; cbn; [constructor|]. apply Forall2_app; auto. Qed.
Lemma F2_map_eq {A B C} (R : A -> B -> Prop) (f : A -> C) g :
  (forall a b, R a b -> f a = g b) -> forall l l', Forall2 R l l' -> map f l = map g l'.
Proof. intros H l l'. induction 1; cbn; [reflexivity|]. f_equal; auto. Qed.
Lemma F2_combine {A B C D} (R : A -> B -> Prop) (S : C -> D -> Prop) l l' m m' : Forall2 R l l' -> Forall2 S m m' ->
  Forall2 (fun p q => R (fst p) (fst q) /\ S (snd p) (snd q)) (combine l m) (combine l' m').
Proof.
  intros H. revert m m'. induction H; intros m m' HS; [constructor|]. inversion HS; subst; cbn; constructor; auto.
Qed.
Lemma F2_refl {A} (R : A -> A -> Prop) : (forall a, R a a) -> forall l, Forall2 R l l.
Proof. intros H. induction l; constructor; auto. Qed.
Lemma F2_eq {A} (l l' : list A) : Forall2 eq l l' -> l = l'.
Proof. induction 1; congruence. Qed.
Lemma OR_imp {A B} (R S : A -> B -> Prop) : (forall a b, R a b -> S a b) -> forall o o', OptR R o o' -> OptR S o o'.
Proof. intros H o o' []; constructor; auto. Qed.

Lemma find_filter_sub {A} (f p : A -> bool) l : (forall x, f x = true -> p x = true) -> find f (filter p l) = find f l.
Proof.
  intros H. induction l as [|x l IH]; [reflexivity|]. cbn [filter find].
  destruct (f x) eqn:F; [rewrite (H x F); cbn; now rewrite F|]. destruct (p x); [cbn; now rewrite F|exact IH].
Qed.
Lemma filter_filter_sub {A} (f p : A -> bool) l : (forall x, f x = true -> p x = true) -> filter f (filter p l) = filter f l.
Proof.
  intros H. induction l as [|x l IH]; [reflexivity|]. cbn [filter].
  destruct (f x) eqn:F; [rewrite (H x F); cbn; now rewrite F, IH|]. destruct (p x); [cbn; now rewrite F|exact IH].
Qed.

(** ** Alike trees *)

Section Sim.
  (** The names on one side and the other. *)
  Variable Name : text -> text -> Prop.

  Inductive Sim : green -> green -> Prop :=
  | Sim_tok k t t' : is_trivia_kind k = false -> (if kind_eqb k IDENT then Name t t' else t = t') ->
      Sim (Tok k t) (Tok k t')
  | Sim_node k cs cs' : Forall2 Sim (filter significant cs) (filter significant cs') ->
      Sim (Node k cs) (Node k cs').

  Lemma Sim_kind g g' : Sim g g' -> gkind g = gkind g'.
  Proof. intros []; reflexivity. Qed.
  Lemma Sim_sig g g' : Sim g g' -> significant g = true /\ significant g' = true.
  Proof. intros []; cbn; [|auto]. rewrite H. auto. Qed.
  Lemma Sim_kids g g' : Sim g g' -> Forall2 Sim (filter significant (gchildren g)) (filter significant (gchildren g')).
  Proof. intros []; cbn; [constructor|assumption]. Qed.
  Lemma Sim_node_iff g g' : Sim g g' ->
    match g with Node _ _ => true | Tok _ _ => false end = match g' with Node _ _ => true | Tok _ _ => false end.
  Proof. intros []; reflexivity. Qed.

  Lemma bare_sig g : significant (bare g) = significant g.
  Proof. destruct g; reflexivity. Qed.
  Lemma filter_map_bare cs : filter significant (map bare cs) = map bare (filter significant cs).
  Proof.
    induction cs as [|c cs IH]; [reflexivity|]. cbn [map filter]. rewrite bare_sig. destruct (significant c); cbn [map]; now rewrite IH.
  Qed.

  Lemma list_max_zero_out (f : green -> nat) l : (forall g, In g l -> significant g = false -> f g = 0) ->
    list_max (map f l) = list_max (map f (filter significant l)).
  Proof.
    intros H. induction l as [|g l IH]; [reflexivity|]. cbn [map filter].
    change (list_max (f g :: map f l)) with (Nat.max (f g) (list_max (map f l))).
    rewrite IH by (intros; apply H; [now right|assumption]).
    destruct (significant g) eqn:S; cbn [map]; [reflexivity|]. rewrite (H g) by (auto; now left). reflexivity.
  Qed.
  Lemma Sim_depth : forall g g', Sim g g' -> gdepth g = gdepth g'.
  Proof.
    induction g as [k t|k cs IH] using green_ind'; intros g' H; inversion H as [|? ? cs' HF]; subst; [reflexivity|].
    cbn [gdepth]. f_equal. rewrite (list_max_zero_out gdepth cs), (list_max_zero_out gdepth cs') by (intros [] _ S; [reflexivity|discriminate S]).
    f_equal. rewrite Forall_forall in IH.
    assert (Hin : forall x, In x (filter significant cs) -> In x cs) by (intros x Hx; now apply filter_In in Hx).
    revert Hin. generalize dependent (filter significant cs'). generalize (filter significant cs). clear H.
    intros l l' HF Hin. induction HF as [|a b l l' Hab HF IHl]; [reflexivity|]. cbn [map]. f_equal.
    - apply IH; [apply Hin; now left|exact Hab].
    - apply IHl. intros x Hx. apply Hin. now right.
  Qed.

  (** ** Elements in the same place *)

  Definition upM (u u' : up) : Prop := rank u = rank u' /\ Sim (u_green u) (u_green u').
  Definition sigE (e : elem) : bool := significant (el e).

  Variable T T' : green.
  Record R (e e' : elem) : Prop := mk_R
    { R_in : InTree T e; R_in' : InTree T' e'; R_sim : Sim (el e) (el e'); R_ups : Forall2 upM (ups e) (ups e') }.

  Lemma R_kind e e' : R e e' -> ekind e = ekind e'.
  Proof. intros H. apply Sim_kind, R_sim, H. Qed.
  Lemma R_is_node e e' : R e e' -> is_node e = is_node e'.
  Proof. intros H. apply Sim_node_iff, R_sim, H. Qed.
  Lemma R_place e e' : R e e' -> place e = place e'.
  Proof. intros H. unfold place. eapply F2_map_eq; [|apply R_ups, H]. intros a b [E _]. exact E. Qed.
  Lemma R_sig e e' : R e e' -> sigE e = true /\ sigE e' = true.
  Proof. intros H. apply Sim_sig, R_sim, H. Qed.
  Lemma R_counterpart e e' : R e e' -> Counterpart T T' e e'.
  Proof.
    intros H. pose proof (R_sig _ _ H) as [S1 S2]. split; [apply H|]. split; [apply H|]. split; [exact S1|].
    split; [exact S2|]. now apply R_place.
  Qed.

  Fixpoint ranked (n : nat) (l : list elem) : Prop :=
    match l with
    | [] => True
    | c :: r => match ups c with u :: _ => rank u = n | [] => False end /\ ranked (S n) r
    end.
  Lemma kids_ranked g po us : forall cs pre o, gchildren g = pre ++ cs ->
    ranked (length (filter significant pre)) (filter sigE (kids g po us (length pre) o cs)).
  Proof.
    induction cs as [|c cs IH]; intros pre o E; cbn [kids filter]; [exact I|].
    assert (E2 : gchildren g = (pre ++ [c]) ++ cs) by now rewrite <- app_assoc.
    specialize (IH (pre ++ [c]) (o + glen c) E2). rewrite app_length, filter_app, app_length in IH. cbn [length filter] in IH.
    rewrite Nat.add_1_r in IH. unfold sigE at 1. cbn [el]. destruct (significant c) eqn:S.
    - cbn [ranked ups]. split.
      + unfold rank. cbn [u_idx u_green]. rewrite E, firstn_app, Nat.sub_diag, firstn_all, firstn_O, app_nil_r. reflexivity.
      + cbn [length] in IH. now rewrite Nat.add_1_r in IH.
    - cbn [length] in IH. now rewrite Nat.add_0_r in IH.
  Qed.
  Lemma kids_el g po us : forall cs i o, map el (filter sigE (kids g po us i o cs)) = filter significant cs.
  Proof.
    induction cs as [|c cs IH]; intros i o; cbn [kids filter map]; [reflexivity|]. unfold sigE at 1. cbn [el].
    destruct (significant c); cbn [map el]; now rewrite IH.
  Qed.
  Lemma kids_ups p c : In c (children_with_tokens p) -> exists u, ups c = u :: ups p /\ u_green u = el p.
  Proof. intros H. apply child_in in H as (l & g & r & _ & ->). cbn. eauto. Qed.

  Definition scwt (p : elem) : list elem := filter sigE (children_with_tokens p).
  Lemma scwt_el p : map el (scwt p) = filter significant (gchildren (el p)).
  Proof. apply kids_el. Qed.

  Lemma R_kids p p' : R p p' -> Forall2 R (scwt p) (scwt p').
  Proof.
    intros H. pose proof (Sim_kids _ _ (R_sim _ _ H)) as HF. rewrite <- !scwt_el in HF.
    assert (H1 : ranked 0 (scwt p)) by apply (kids_ranked (el p) (off p) (ups p) _ [] _ eq_refl).
    assert (H2 : ranked 0 (scwt p')) by apply (kids_ranked (el p') (off p') (ups p') _ [] _ eq_refl).
    assert (I1 : forall c, In c (scwt p) -> In c (children_with_tokens p)) by (intros c Hc; now apply filter_In in Hc).
    assert (I2 : forall c, In c (scwt p') -> In c (children_with_tokens p')) by (intros c Hc; now apply filter_In in Hc).
    revert H1 H2 HF I1 I2. generalize 0. generalize (scwt p), (scwt p').
    induction l as [|c l IH]; intros [|c' l'] n H1 H2 HF I1 I2; inversion HF as [|? ? ? ? Hs HF2]; subst; constructor.
    - pose proof (I1 c (or_introl eq_refl)) as C1. pose proof (I2 c' (or_introl eq_refl)) as C2.
      destruct (kids_ups _ _ C1) as (u & U & G). destruct (kids_ups _ _ C2) as (u' & U' & G').
      cbn [ranked] in H1, H2. rewrite U in H1. rewrite U' in H2. destruct H1 as [H1 _], H2 as [H2 _]. constructor.
      + econstructor; [apply H|exact C1].
      + econstructor; [apply H|exact C2].
      + exact Hs.
      + rewrite U, U'. constructor; [|apply H]. split; [congruence|]. rewrite G, G'. apply H.
    - apply IH with (n := S n); auto.
      + apply H1.
      + apply H2.
      + intros x Hx. apply I1. now right.
      + intros x Hx. apply I2. now right.
  Qed.

  Hypothesis HT : Sim T T'.
  Lemma R_root : R (root_of T) (root_of T').
  Proof. constructor; [constructor|constructor|exact HT|constructor]. Qed.

  Lemma R_total e : InTree T e -> sigE e = true -> exists e', R e e'.
  Proof.
    intros H. induction H as [|p c Hp IH Hc]; intros S; [eexists; apply R_root|].
    destruct IH as (p' & Rp). { unfold sigE. unfold children_with_tokens in Hc. destruct (el p); [destruct Hc|reflexivity]. }
    destruct (F2_in_l _ _ _ c (R_kids _ _ Rp)) as (c' & _ & Hc'); [|eauto]. apply filter_In. auto.
  Qed.

  Lemma app_sig_inj : forall l l2 (g g2 : green) r r2, significant g = true -> significant g2 = true ->
    length (filter significant l) = length (filter significant l2) -> l ++ g :: r = l2 ++ g2 :: r2 -> l = l2 /\ g = g2.
  Proof.
    induction l as [|x l IH]; intros [|y l2] g g2 r r2 S S2 HL E; cbn [app] in E.
    - injection E as -> _. auto.
    - injection E as -> E. cbn [filter] in HL. rewrite S in HL. discriminate HL.
    - injection E as -> E. cbn [filter] in HL. rewrite S2 in HL. discriminate HL.
    - injection E as -> E. cbn [filter] in HL. destruct (IH l2 g g2 r r2 S S2) as [-> ->]; auto.
      destruct (significant y); [now injection HL|exact HL].
  Qed.
  Lemma place_inj t a : InTree t a -> sigE a = true -> forall b, InTree t b -> sigE b = true -> place a = place b -> a = b.
  Proof.
    intros Ha. induction Ha as [|p c Hp IH Hc]; intros Sa b Hb Sb E.
    - destruct Hb as [|q d Hq Hd]; [reflexivity|]. destruct (kids_ups _ _ Hd) as (u & U & _).
      unfold place in E. rewrite U in E. discriminate E.
    - destruct Hb as [|q d Hq Hd].
      + destruct (kids_ups _ _ Hc) as (u & U & _). unfold place in E. rewrite U in E. discriminate E.
      + assert (Np : forall x y, In x (children_with_tokens y) -> sigE y = true).
        { intros x y Hx. unfold sigE. unfold children_with_tokens in Hx. destruct (el y); [destruct Hx|reflexivity]. }
        assert (E2 : rank (hd (mk_up T 0 0) (ups c)) = rank (hd (mk_up T 0 0) (ups d)) /\ place p = place q).
        { destruct (kids_ups _ _ Hc) as (u & U & _). destruct (kids_ups _ _ Hd) as (v & V & _).
          unfold place in E |- *. rewrite U, V in E |- *. cbn in E. injection E as E1 E2. auto. }
        destruct E2 as [E1 E2]. assert (p = q) as <- by (apply IH; eauto). clear E E2.
        apply child_in in Hc as (l & g & r & G & ->). apply child_in in Hd as (l2 & g2 & r2 & G2 & ->).
        cbn [ups hd] in E1. unfold rank in E1. cbn [u_idx u_green] in E1.
        rewrite G in E1 at 1. rewrite G2 in E1. rewrite !firstn_app, !Nat.sub_diag, !firstn_all, !firstn_O, !app_nil_r in E1.
        rewrite G in G2. unfold sigE in Sa, Sb. cbn [el] in Sa, Sb. destruct (app_sig_inj _ _ _ _ _ _ Sa Sb E1 G2) as [El Eg]. now subst.
  Qed.
  Lemma counterpart_R e e' : Counterpart T T' e e' -> R e e'.
  Proof.
    intros (I1 & I2 & S1 & S2 & E). destruct (R_total e I1 S1) as (x & Hx).
    assert (x = e') as <-; [|exact Hx]. apply (place_inj T').
    - apply Hx.
    - apply R_sig in Hx. apply Hx.
    - exact I2.
    - exact S2.
    - rewrite <- (R_place _ _ Hx). exact E.
  Qed.
  Lemma R_fun e a b : R e a -> R e b -> a = b.
  Proof.
    intros Ha Hb. apply (place_inj T'); try apply Ha; try apply Hb.
    - apply R_sig in Ha. apply Ha.
    - apply R_sig in Hb. apply Hb.
    - rewrite <- (R_place _ _ Ha), <- (R_place _ _ Hb). reflexivity.
  Qed.
  Lemma R_inj e a b : R a e -> R b e -> a = b.
  Proof.
    intros Ha Hb. apply (place_inj T); try apply Ha; try apply Hb.
    - apply R_sig in Ha. apply Ha.
    - apply R_sig in Hb. apply Hb.
    - rewrite (R_place _ _ Ha), (R_place _ _ Hb). reflexivity.
  Qed.

  (** ** Navigation in the tree *)

  Lemma in_tree_parent t u us g o : InTree t (mk_elem g o (u :: us)) -> InTree t (mk_elem (u_green u) (u_off u) us).
  Proof.
    intros H. inversion H as [|p c Hp Hc]; subst. pose proof (parent_child _ _ Hc) as E. cbn in E. injection E as <-. exact Hp.
  Qed.
  Lemma R_parent e e' : R e e' -> OptR R (parent e) (parent e').
  Proof.
    destruct e as [g o us], e' as [g' o' us']. intros [H1 H2 H3 H4]. cbn [ups el] in *. unfold parent. cbn [ups].
    destruct H4 as [|u u' us us' [E S] HF]; constructor. constructor; cbn [el ups]; auto.
    - eapply in_tree_parent; eassumption.
    - eapply in_tree_parent; eassumption.
  Qed.
  Lemma R_ancestors e e' : R e e' -> Forall2 R (ancestors e) (ancestors e').
  Proof.
    intros H. unfold ancestors. constructor; [exact H|]. destruct e as [g o us], e' as [g' o' us'].
    cbn [ups] in *. revert g o g' o' us' H. induction us as [|u us IH]; intros g o g' o' us' [H1 H2 H3 H4];
      cbn [ups] in H4; inversion H4 as [|? u' ? us2 [E S] HF]; subst; cbn [ancestors_of]; [constructor|].
    assert (HR : R (mk_elem (u_green u) (u_off u) us) (mk_elem (u_green u') (u_off u') us2)).
    { constructor; cbn [el ups]; auto; eapply in_tree_parent; eassumption. }
    constructor; [exact HR|]. eapply IH. exact HR.
  Qed.

  Lemma node_sig e : is_node e = true -> sigE e = true.
  Proof. unfold is_node, sigE. destruct (el e); [discriminate|reflexivity]. Qed.
  Lemma children_scwt e : children e = filter is_node (scwt e).
  Proof. unfold children, scwt. symmetry. apply filter_filter_sub, node_sig. Qed.
  Lemma R_children e e' : R e e' -> Forall2 R (children e) (children e').
  Proof. intros H. rewrite !children_scwt. apply F2_filter; [apply R_is_node|]. now apply R_kids. Qed.
  Lemma R_child k e e' : R e e' -> OptR R (child e k) (child e' k).
  Proof. intros H. apply F2_find; [|now apply R_children]. intros a b Hab. now rewrite (R_kind _ _ Hab). Qed.
  Lemma R_childs k e e' : R e e' -> Forall2 R (childs e k) (childs e' k).
  Proof. intros H. apply F2_filter; [|now apply R_children]. intros a b Hab. now rewrite (R_kind _ _ Hab). Qed.
  Lemma token_scwt e k : is_trivia_kind k = false ->
    token e k = find (fun c => negb (is_node c) && kind_eqb (ekind c) k) (scwt e).
  Proof.
    intros Hk. unfold token, scwt. symmetry. apply find_filter_sub. intros x Hx. apply andb_prop in Hx as [_ Hx].
    apply kind_eqb_eq in Hx. unfold sigE. unfold ekind in Hx. destruct (el x); [|reflexivity]. cbn in *. now rewrite Hx, Hk.
  Qed.
  Lemma R_token k e e' : is_trivia_kind k = false -> R e e' -> OptR R (token e k) (token e' k).
  Proof.
    intros Hk H. rewrite !token_scwt by exact Hk. apply F2_find; [|now apply R_kids].
    intros a b Hab. now rewrite (R_kind _ _ Hab), (R_is_node _ _ Hab).
  Qed.
  (** Text of tokens. *)
  Lemma R_text e e' : R e e' -> is_node e = false -> ekind e <> IDENT -> etext e = etext e'.
  Proof.
    intros H Hn Hk. pose proof (R_sim _ _ H) as S. unfold is_node, ekind, etext in *. inversion S as [k t t' Hv Ht E E'|? ? ? ? E E'].
    - rewrite <- E in Hk. cbn in Hk. destruct (kind_eqb k IDENT) eqn:K; [apply kind_eqb_eq in K; congruence|]. cbn. exact Ht.
    - rewrite <- E in Hn. discriminate Hn.
  Qed.
  Lemma R_name e e' : R e e' -> is_node e = false -> ekind e = IDENT -> Name (etext e) (etext e').
  Proof.
    intros H Hn Hk. pose proof (R_sim _ _ H) as S. unfold is_node, ekind, etext in *. inversion S as [k t t' Hv Ht E E'|? ? ? ? E E'].
    - rewrite <- E in Hk. cbn in Hk. subst k. exact Ht.
    - rewrite <- E in Hn. discriminate Hn.
  Qed.

  Lemma desc_skip e : is_node e = false -> filter is_node (descendants_with_tokens e) = [].
  Proof. unfold is_node, descendants_with_tokens. destruct e as [[k t|k cs] o us]; [reflexivity|discriminate]. Qed.
  Lemma filter_concat {A} (f : A -> bool) ls : filter f (concat ls) = concat (map (filter f) ls).
  Proof. induction ls as [|l ls IH]; [reflexivity|]. cbn. now rewrite filter_app, IH. Qed.
  Lemma descendants_step e : is_node e = true ->
    descendants e = e :: flat_map descendants (children e).
  Proof.
    intros Hn. unfold descendants at 1. destruct e as [[k t|k cs] o us]; [discriminate|].
    rewrite descendants_node. cbn [filter]. rewrite Hn. f_equal. unfold children, children_with_tokens. cbn [el off ups gchildren].
    generalize (kids (Node k cs) o us 0 o cs). induction l as [|c l IH]; [reflexivity|]. cbn [map concat filter].
    rewrite filter_app, IH. destruct (is_node c) eqn:C; [reflexivity|]. now rewrite desc_skip.
  Qed.
  Lemma R_descendants : forall e e', R e e' -> is_node e = true -> Forall2 R (descendants e) (descendants e').
  Proof.
    assert (H : forall n e e', gdepth (el e) < n -> R e e' -> is_node e = true -> Forall2 R (descendants e) (descendants e')).
    { induction n as [|n IH]; intros e e' Hd H Hn; [lia|]. rewrite (descendants_step e) by exact Hn.
      rewrite (descendants_step e') by (rewrite <- (R_is_node _ _ H); exact Hn). constructor; [exact H|].
      pose proof (R_children _ _ H) as HF.
      apply (F2_in_and _ (fun c => In c (children e)) (fun _ => True)) in HF; auto.
      eapply F2_flat_map; [|exact HF]. intros c c' (Hc & Hin & _). apply IH; [|exact Hc|now apply filter_In in Hin].
      apply filter_In in Hin as [Hin _]. apply child_in in Hin as (l & g & r & G & ->). cbn [el].
      destruct (el e) as [|k cs]; cbn [gchildren] in G; [destruct l; discriminate G|]. subst cs.
      cbn [gdepth] in Hd. rewrite map_app, list_max_app in Hd. cbn [map] in Hd.
      change (list_max (gdepth g :: map gdepth r)) with (Nat.max (gdepth g) (list_max (map gdepth r))) in Hd. lia. }
    intros e e'. apply (H (S (gdepth (el e)))). lia.
  Qed.
End Sim.

(** Trees with the same bare tree are alike. *)
Lemma bare_sim : forall g g', significant g = true -> bare g = bare g' -> Sim eq g g'.
Proof.
  induction g as [k t|k cs IH] using green_ind'; intros [k' t'|k' cs'] S E; try discriminate E; cbn in E.
  - injection E as <- <-. constructor; [cbn in S; now apply negb_true_iff in S|]. now destruct kind_eqb.
  - injection E as <- E. constructor. rewrite !filter_map_bare in E. rewrite Forall_forall in IH.
    assert (H1 : forall x, In x (filter significant cs) -> In x cs /\ significant x = true) by (intros x; apply filter_In).
    revert E H1. generalize (filter significant cs), (filter significant cs'). clear S.
    induction l as [|x l IHl]; intros [|y l'] E H1; try discriminate E; constructor; cbn [map] in E; injection E as E1 E2.
    + destruct (H1 x (or_introl eq_refl)) as [I1 I2]. now apply IH.
    + apply IHl; [exact E2|]. intros z Hz. apply H1. now right.
Qed.
