(** Parameters, locals and signatures after a code action (C53). *)

From Coq Require Import String List NArith Bool Arith Lia.
From Verif Require Import Text Kind Green SpecParser Grammar Sem Lossless Total Lang Shape Red Unique LineIndex Cursor ThmPos Doc Ast Preorder
  SpecBinder BinderFacts Nav NavSpec NavFacts ThmNav SpecTypes Types CheckFacts SpecAction Action ThmAction SpecRename ThmRenamed SpecRegroup SigFacts ThmRegroup ThmCheck SpecHeader HeaderFacts SpecSlots.
From Verif Require SpecComplete ThmComplete.
Import ListNotations.

(** ** Declarations from the tree *)

Definition idb (g : green) : bool := negb (gnode g) && kind_eqb (gkind g) IDENT.
Definition gvals (g : green) : list green := filter (node_of VAL_TYPE) (gchildren g).
Definition gents (g : green) : list green := if existsb idb (gchildren g) then [g] else gvals g.
Definition gwritten (g : green) : list green := if existsb idb (gchildren g) then firstn 1 (gvals g) else gvals g.
Definition gmarked (g : green) : list (option text * green) :=
  match find idb (gchildren g) with
  | Some i => map (fun v => (Some (gtext i), v)) (firstn 1 (gvals g))
  | None => map (fun v => (None, v)) (gvals g)
  end.
Definition gsum {A} (F : green -> list A) (k : kind) (g : green) : list A := flat_map F (filter (node_of k) (gchildren g)).
Definition gslots (g : green) : list green :=
  match find (node_of TYPE_USE) (gchildren g) with Some tu => gsum gents PARAM tu | None => [] end ++ gsum gents LOCAL g.
(** Is a parameter or result written there? *)
Definition gsigned (g : green) : bool := existsb (fun c => node_of PARAM c || node_of RESULT c) (gchildren g).
Definition gheader (g : green) : option (list (option text * green) * list green * bool) :=
  option_map (fun tu => (gsum gmarked PARAM tu, gsum gvals RESULT tu, gsigned tu)) (find (node_of TYPE_USE) (gchildren g)).

Lemma token_idb d : existsb idb (gchildren (el d)) = match token d IDENT with Some _ => true | None => false end.
Proof.
  pose proof (green_token d IDENT) as H. fold idb in H. change (fun g => negb (gnode g) && kind_eqb (gkind g) IDENT) with idb in H.
  assert (E : existsb idb (gchildren (el d)) = match find idb (gchildren (el d)) with Some _ => true | None => false end).
  { clear. induction (gchildren (el d)) as [|c l IH]; [reflexivity|]. cbn [existsb find]. now destruct (idb c). }
  rewrite E, <- H. now destruct (token d IDENT).
Qed.
Lemma flat_map_greens (f : elem -> list elem) F l : (forall d, map el (f d) = F (el d)) -> map el (flat_map f l) = flat_map F (map el l).
Proof. intros H. induction l as [|d l IH]; [reflexivity|]. cbn [flat_map map]. now rewrite map_app, H, IH. Qed.
Lemma entries_greens d : map el (entries d) = gents (el d).
Proof. unfold entries, gents. rewrite token_idb. destruct (token d IDENT); [reflexivity|apply childs_greens]. Qed.
Lemma sum_greens f F k e : (forall d, map el (f d) = F (el d)) -> map el (flat_map f (childs e k)) = gsum F k (el e).
Proof. intros H. rewrite (flat_map_greens f F) by exact H. now rewrite childs_greens. Qed.
Lemma slots_greens f : map el (locals_space f) = gslots (el f).
Proof.
  unfold locals_space, gslots. rewrite map_app, (sum_greens entries gents LOCAL f entries_greens). f_equal.
  pose proof (green_child_el f TYPE_USE) as H. unfold green_child in H.
  change (fun c => match c with Node k' _ => kind_eqb k' TYPE_USE | Tok _ _ => false end) with (node_of TYPE_USE) in H. rewrite H.
  destruct (child f TYPE_USE) as [tu|]; [|reflexivity]. cbn [option_map]. apply sum_greens, entries_greens.
Qed.
Lemma params_greens e : map el (written_params e) = gsum gwritten PARAM (el e).
Proof.
  unfold written_params. apply sum_greens. intros d. unfold gwritten, gvals. rewrite token_idb, <- childs_greens.
  destruct (token d IDENT); [now rewrite firstn_map|reflexivity].
Qed.
Lemma results_greens e : map el (written_results e) = gsum gvals RESULT (el e).
Proof. unfold written_results. apply sum_greens. intros d. apply childs_greens. Qed.

(** ** Nodes that declare the same *)

Definition Like (g g' : green) : Prop :=
  gkind g = gkind g' /\ gnode g = gnode g' /\ gsum gents PARAM g = gsum gents PARAM g'
  /\ gsum gwritten PARAM g = gsum gwritten PARAM g' /\ gsum gvals RESULT g = gsum gvals RESULT g' /\ gslots g = gslots g'
  /\ find idb (gchildren g) = find idb (gchildren g')
  /\ gsum gmarked PARAM g = gsum gmarked PARAM g' /\ gsigned g = gsigned g' /\ gheader g = gheader g'.
Lemma like_refl g : Like g g.
Proof. repeat split. Qed.

Definition inner : list kind := [PARAM; RESULT; LOCAL; VAL_TYPE].

Lemma sum_group {A} (F : green -> list A) f K k m :
  (forall cs, (forall c, In c cs -> gkind c <> IDENT) -> F (Node k cs) = map f (gvals (Node k cs))) -> Forall (Unnamed k) m ->
  flat_map F (filter (node_of K) m) = if kind_eqb k K then map f (types_in k m) else [].
Proof.
  intros HF H. induction H as [|g m Hg _ IH]; [now destruct (kind_eqb k K)|]. destruct g as [kt t|kg cs]; cbn [filter node_of].
  - rewrite IH. destruct (kind_eqb k K); reflexivity.
  - destruct Hg as (-> & Hg). destruct (kind_eqb k K) eqn:E.
    + cbn [flat_map]. rewrite IH, (HF cs Hg). change (Node k cs :: m) with ([Node k cs] ++ m). rewrite types_app, map_app. f_equal. f_equal.
      unfold types_in. cbn [flat_map]. now rewrite kind_eqb_refl, app_nil_r.
    + exact IH.
Qed.
Lemma no_idb cs : (forall c, In c cs -> gkind c <> IDENT) -> existsb idb cs = false.
Proof.
  intros H. apply not_true_is_false. intros E. apply existsb_exists in E as (c & Hc & E). apply andb_prop in E as (_ & E).
  apply kind_eqb_eq in E. exact (H c Hc E).
Qed.
Lemma sum_here {A} (F : green -> list A) f K k pk l m m' r :
  (forall cs, (forall c, In c cs -> gkind c <> IDENT) -> F (Node k cs) = map f (gvals (Node k cs))) ->
  Forall (Unnamed k) m -> Forall (Unnamed k) m' -> types_in k m = types_in k m' ->
  gsum F K (Node pk (l ++ m ++ r)) = gsum F K (Node pk (l ++ m' ++ r)).
Proof.
  intros HF H H' E. unfold gsum. cbn [gchildren]. rewrite !filter_app, !flat_map_app, (sum_group F f K k m), (sum_group F f K k m') by assumption. now rewrite E.
Qed.
Lemma find_app' {A} (P : A -> bool) l r : find P (l ++ r) = match find P l with Some x => Some x | None => find P r end.
Proof. induction l as [|x l IH]; [reflexivity|]. cbn. now destruct (P x). Qed.
Lemma like_here k pk l m m' r : In k [PARAM; RESULT; LOCAL] -> (exists cs, In (Node k cs) m) -> (exists cs, In (Node k cs) m') -> Forall (Unnamed k) m -> Forall (Unnamed k) m' -> types_in k m = types_in k m' ->
  Like (Node pk (l ++ m ++ r)) (Node pk (l ++ m' ++ r)).
Proof.
  intros Hk (cs1 & G1) (cs2 & G2) H H' E.
  assert (F1 : forall cs, (forall c, In c cs -> gkind c <> IDENT) -> gents (Node k cs) = map (fun v => v) (gvals (Node k cs)))
    by (intros cs Hc; unfold gents; cbn [gchildren]; rewrite no_idb by exact Hc; now rewrite map_id).
  assert (F2 : forall cs, (forall c, In c cs -> gkind c <> IDENT) -> gwritten (Node k cs) = map (fun v => v) (gvals (Node k cs)))
    by (intros cs Hc; unfold gwritten; cbn [gchildren]; rewrite no_idb by exact Hc; now rewrite map_id).
  assert (F3 : forall cs, (forall c, In c cs -> gkind c <> IDENT) -> gvals (Node k cs) = map (fun v => v) (gvals (Node k cs)))
    by (intros cs _; now rewrite map_id).
  assert (F4 : forall cs, (forall c, In c cs -> gkind c <> IDENT) -> gmarked (Node k cs) = map (fun v => (None, v)) (gvals (Node k cs))).
  { intros cs Hc. unfold gmarked. cbn [gchildren]. pose proof (no_idb cs Hc) as Z. destruct (find idb cs) as [i|] eqn:Fi; [|reflexivity].
    apply find_some in Fi as (Hi & Fi). exfalso. rewrite <- not_true_iff_false in Z. apply Z. apply existsb_exists. eauto. }
  assert (N : forall x, Forall (Unnamed k) x -> find (node_of TYPE_USE) x = None).
  { clear - Hk. induction 1 as [|g x Hg _ IH]; [reflexivity|]. cbn [find]. destruct g as [|kg cs]; [exact IH|]. destruct Hg as (-> & _).
    cbn [node_of]. assert (Z : kind_eqb k TYPE_USE = false) by (destruct Hk as [<-|[<-|[<-|[]]]]; reflexivity). now rewrite Z. }
  assert (Ni : forall x, Forall (Unnamed k) x -> find idb x = None).
  { clear. induction 1 as [|g x Hg _ IH]; [reflexivity|]. cbn [find]. destruct g as [kt t|kg cs]; [|exact IH]. unfold idb at 1. cbn [gnode gkind negb andb].
    destruct (kind_eqb kt IDENT) eqn:E; [|exact IH]. apply kind_eqb_eq in E. contradiction. }
  assert (Sg : existsb (fun c => node_of PARAM c || node_of RESULT c) m = existsb (fun c => node_of PARAM c || node_of RESULT c) m').
  { assert (X : forall x cs, Forall (Unnamed k) x -> In (Node k cs) x ->
              existsb (fun c => node_of PARAM c || node_of RESULT c) x = kind_eqb k PARAM || kind_eqb k RESULT).
    { clear. intros x cs Hx Hi. destruct (kind_eqb k PARAM || kind_eqb k RESULT) eqn:E.
      - apply existsb_exists. exists (Node k cs). split; [exact Hi|exact E].
      - apply not_true_is_false. intros Y. apply existsb_exists in Y as (g & Hg & Y). rewrite Forall_forall in Hx. specialize (Hx g Hg).
        destruct g as [|kg cg]; [discriminate|]. destruct Hx as (-> & _). cbn [node_of] in Y. congruence. }
    now rewrite (X m cs1 H G1), (X m' cs2 H' G2). }
  do 2 (split; [reflexivity|]). split; [eapply sum_here; eauto|]. split; [eapply sum_here; eauto|]. split; [eapply sum_here; eauto|]. split; [|split; [|split; [|split]]].
  - unfold gslots. f_equal; [|eapply sum_here; eauto]. cbn [gchildren]. rewrite !find_app', (N m), (N m') by assumption. reflexivity.
  - cbn [gchildren]. rewrite !find_app', (Ni m), (Ni m') by assumption. reflexivity.
  - eapply sum_here; eauto.
  - unfold gsigned. cbn [gchildren]. rewrite !existsb_app, Sg. reflexivity.
  - unfold gheader. cbn [gchildren]. rewrite !find_app', (N m), (N m') by assumption. reflexivity.
Qed.
Lemma like_in k l c c' r : ~ In (gkind c) inner -> gnode c = true -> Like c c' -> Like (Node k (l ++ c :: r)) (Node k (l ++ c' :: r)).
Proof.
  intros Hc Nc (L1 & L2 & L3 & L4 & L5 & L6 & L7 & L8 & L9 & L10).
  assert (Q : forall K, node_of K c' = node_of K c) by (intros K; destruct c, c'; cbn in *; congruence).
  assert (S : forall A (F : green -> list A) K, In K inner -> gsum F K (Node k (l ++ c :: r)) = gsum F K (Node k (l ++ c' :: r))).
  { intros A F K HK. unfold gsum. cbn [gchildren]. rewrite !filter_app. cbn [filter]. rewrite Q.
    assert (Z : node_of K c = false).
    { destruct c as [|kc cs]; [reflexivity|]. cbn [node_of]. apply not_true_is_false. intros E. apply kind_eqb_eq in E. subst. exact (Hc HK). }
    now rewrite Z. }
  do 5 (split; [first [reflexivity|apply S; cbn; auto]|]). split; [|split; [|split; [|split]]].
  - unfold gslots. f_equal; [|apply S; cbn; auto].
    cbn [gchildren]. rewrite !find_app'. destruct (find (node_of TYPE_USE) l); [reflexivity|]. cbn [find]. rewrite Q.
    destruct (node_of TYPE_USE c); [exact L3|reflexivity].
  - cbn [gchildren]. rewrite !find_app'. cbn [find]. unfold idb at 2 5. rewrite <- L2, Nc. reflexivity.
  - apply S; cbn; auto.
  - unfold gsigned. cbn [gchildren]. rewrite !existsb_app. cbn [existsb]. now rewrite !Q.
  - unfold gheader. cbn [gchildren]. rewrite !find_app'. destruct (find (node_of TYPE_USE) l); [reflexivity|]. cbn [find]. rewrite Q.
    destruct (node_of TYPE_USE c); [|reflexivity]. cbn [option_map]. now rewrite L5, L8, L9.
Qed.

(** ** All nodes *)

Fixpoint subs (g : green) : list green :=
  g :: match g with Tok _ _ => [] | Node _ cs => flat_map subs cs end.
Lemma subs_desc g : forall o us, map el (desc g o us) = subs g.
Proof.
  induction g as [k t|k cs IH] using green_ind'; intros o us; [reflexivity|]. cbn [desc map subs]. f_equal.
  generalize (Node k cs) as g0. generalize 0 at 1. generalize o at 2. induction IH as [|c cs' Hc _ IHl]; intros o' i g0; [reflexivity|].
  cbn [flat_map]. rewrite map_app, Hc. f_equal. apply IHl.
Qed.
Lemma subs_sub g x : In x (subs g) -> Sub g x.
Proof.
  revert x. induction g as [k t|k cs IH] using green_ind'; intros x; cbn [subs]; intros [<-|H]; try constructor; [destruct H|].
  apply in_flat_map in H as (c & Hc & H). rewrite Forall_forall in IH. econstructor; [exact Hc|]. now apply IH.
Qed.
Definition gpick (ks : list kind) (g : green) : bool := gnode g && existsb (kind_eqb (gkind g)) ks.
Lemma nodes_greens ks tree : map el (nodes_of ks tree) = filter (gpick ks) (subs tree).
Proof.
  unfold nodes_of. rewrite <- (subs_desc tree 0 []). unfold descendants_with_tokens, root_of. cbn [el off ups].
  generalize (desc tree 0 []). intros l. induction l as [|e l IH]; [reflexivity|]. cbn [filter map]. unfold gpick at 1, ekind at 1. rewrite is_node_el.
  destruct (gnode (el e) && existsb (kind_eqb (gkind (el e))) ks); cbn [map]; now rewrite IH.
Qed.

Lemma forall2_refl {A} (R : A -> A -> Prop) l : (forall x, R x x) -> Forall2 R l l.
Proof. intros H. induction l; constructor; auto. Qed.
Lemma forall2_impl {A} (P Q : A -> A -> Prop) l l' : (forall a b, P a b -> Q a b) -> Forall2 P l l' -> Forall2 Q l l'.
Proof. intros H. induction 1; constructor; auto. Qed.
Lemma forall2_nth {A} (P : A -> A -> Prop) l l' i a b : Forall2 P l l' -> nth_error l i = Some a -> nth_error l' i = Some b -> P a b.
Proof. intros H. revert i. induction H as [|x y l l' Hx _ IH]; intros [|i]; cbn; try discriminate; [congruence|apply IH]. Qed.
Lemma forall2_map {A B} (f : A -> B) (R : B -> B -> Prop) l : forall l', Forall2 R (map f l) (map f l') -> Forall2 (fun a b => R (f a) (f b)) l l'.
Proof. induction l as [|x l IH]; intros [|y l'] H; inversion H; subst; constructor; auto. Qed.

Lemma at_subs X X' t t' : At X X' t t' -> Sub t X /\ Sub t' X'.
Proof. induction 1 as [|k l c c' r _ (I1 & I2)]; [split; constructor|]. split; (eapply Sub_child; [apply in_elt|assumption]). Qed.

Section Lists.
  Variables (ks : list kind) (k pk : kind) (l m m' r : list green).
  Notation X := (Node pk (l ++ m ++ r)).
  Notation X' := (Node pk (l ++ m' ++ r)).
  Hypothesis Hk : In k [PARAM; RESULT; LOCAL].
  Hypotheses (Gm : exists cs, In (Node k cs) m) (Gm' : exists cs, In (Node k cs) m').
  Hypotheses (Hm : Forall (Unnamed k) m) (Hm' : Forall (Unnamed k) m') (Et : types_in k m = types_in k m').
  Hypotheses (Nm : filter (gpick ks) (flat_map subs m) = []) (Nm' : filter (gpick ks) (flat_map subs m') = []).

  Lemma at_like t t' : At X X' t t' -> (forall c, Sub t c -> Sub c X -> ~ In (gkind c) inner) ->
    Like t t' /\ Forall2 Like (filter (gpick ks) (subs t)) (filter (gpick ks) (subs t')).
  Proof.
    assert (G : forall a b x y, Like a b -> Forall2 Like (filter (gpick ks) x) (filter (gpick ks) y) ->
                  Forall2 Like (filter (gpick ks) (a :: x)) (filter (gpick ks) (b :: y))).
    { intros a b x y L F. cbn [filter]. assert (Q : gpick ks b = gpick ks a) by (destruct L as (L1 & L2 & _); unfold gpick; now rewrite L1, L2).
      rewrite Q. destruct (gpick ks a); [|exact F]. constructor; [exact L|exact F]. }
    induction 1 as [|kn a c c' b HA IH]; intros HI.
    - pose proof (like_here k pk l m m' r Hk Gm Gm' Hm Hm' Et) as L. split; [exact L|]. cbn [subs]. apply G; [exact L|].
      rewrite !flat_map_app, !filter_app, Nm, Nm'. apply forall2_refl, like_refl.
    - destruct IH as (L & F).
      { intros d Hd. apply HI. eapply Sub_child; [apply in_elt|exact Hd]. }
      assert (LI : Like (Node kn (a ++ c :: b)) (Node kn (a ++ c' :: b))).
      { apply like_in; [|now inversion HA|exact L]. apply HI; [eapply Sub_child; [apply in_elt|constructor]|]. now apply at_subs in HA. }
      split; [exact LI|]. cbn [subs]. apply G; [exact LI|]. rewrite !flat_map_app, !filter_app. cbn [flat_map]. rewrite !filter_app.
      apply Forall2_app; [apply forall2_refl, like_refl|]. apply Forall2_app; [exact F|apply forall2_refl, like_refl].
  Qed.

  (** Nodes of the kinds [ks'], and the nodes of the kinds [ks] in them. *)
  Variable ks' : list kind.
  Hypotheses (Nn : filter (gpick ks') (flat_map subs m) = []) (Nn' : filter (gpick ks') (flat_map subs m') = []).
  Definition LikeIn (g g' : green) : Prop := Like g g' /\ Forall2 Like (filter (gpick ks) (subs g)) (filter (gpick ks) (subs g')).
  Lemma likein_refl g : LikeIn g g.
  Proof. split; [apply like_refl|apply forall2_refl, like_refl]. Qed.
  Lemma at_likein t t' : At X X' t t' -> (forall c, Sub t c -> Sub c X -> ~ In (gkind c) inner) ->
    Forall2 LikeIn (filter (gpick ks') (subs t)) (filter (gpick ks') (subs t')).
  Proof.
    assert (G : forall a b x y, LikeIn a b -> Forall2 LikeIn (filter (gpick ks') x) (filter (gpick ks') y) ->
                  Forall2 LikeIn (filter (gpick ks') (a :: x)) (filter (gpick ks') (b :: y))).
    { intros a b x y L F. cbn [filter]. assert (Q : gpick ks' b = gpick ks' a) by (destruct L as ((L1 & L2 & _) & _); unfold gpick; now rewrite L1, L2).
      rewrite Q. destruct (gpick ks' a); [|exact F]. constructor; [exact L|exact F]. }
    induction 1 as [|kn a c c' b HA IH]; intros HI.
    - pose proof (at_like _ _ (At_here _ _) HI) as L. cbn [subs]. apply G; [exact L|].
      rewrite !flat_map_app, !filter_app, Nn, Nn'. apply forall2_refl, likein_refl.
    - pose proof (at_like _ _ (At_in _ _ kn a c c' b HA) HI) as L. cbn [subs]. apply G; [exact L|].
      rewrite !flat_map_app, !filter_app. cbn [flat_map]. rewrite !filter_app.
      apply Forall2_app; [apply forall2_refl, likein_refl|]. apply Forall2_app; [|apply forall2_refl, likein_refl].
      apply IH. intros d Hd. apply HI. eapply Sub_child; [apply in_elt|exact Hd].
  Qed.
End Lists.

(** ** Where groups are *)

Lemma sub_edge tree pk cs k cs' : Document tree -> Sub tree (Node pk cs) -> In (Node k cs') cs -> In k (children_of pk).
Proof.
  intros D S Hin. rewrite <- (document_tree tree D) in S. destruct (Sub_Desc _ _ 0 [] S) as (b & Hb & Eb).
  apply in_split in Hin as (l & r & ->).
  destruct (child_at_green b l (Node k cs') r) as (c & Hc & Ec & _); [now rewrite Eb|].
  assert (Hn : In c (children b)) by (unfold children; apply filter_In; split; [exact Hc|]; rewrite is_node_el, Ec; reflexivity).
  pose proof (child_kind (gtext tree) b c Hb Hn) as H. unfold ekind in H. rewrite Ec, Eb in H. exact H.
Qed.
Lemma inner_closed tree g x : Document tree -> Sub tree g -> In (gkind g) inner -> Sub g x -> gnode x = true -> In (gkind x) inner.
Proof.
  intros D S Hg Sx Nx. induction Sx as [g|kg cs c x Hc Sx IH]; [exact Hg|]. apply IH; [| |exact Nx].
  - eapply Sub_trans; [exact S|]. eapply Sub_child; [exact Hc|constructor].
  - destruct c as [kc t|kc cs']; [inversion Sx; subst; discriminate|]. pose proof (sub_edge tree kg cs kc cs' D S Hc) as E. cbn [gkind] in *.
    destruct Hg as [<-|[<-|[<-|[<-|[]]]]]; vm_compute in E; cbn; intuition.
Qed.
Lemma no_nodes tree ks k pk l m r : Document tree -> Sub tree (Node pk (l ++ m ++ r)) -> In k [PARAM; RESULT; LOCAL] -> Forall (Unnamed k) m ->
  (forall k, In k ks -> ~ In k inner) -> filter (gpick ks) (flat_map subs m) = [].
Proof.
  intros D S Hk H Hks. destruct (filter (gpick ks) (flat_map subs m)) as [|x y] eqn:E; [reflexivity|]. exfalso.
  assert (Hx : In x (filter (gpick ks) (flat_map subs m))) by (rewrite E; now left). apply filter_In in Hx as (Hx & Px).
  apply in_flat_map in Hx as (g & Hg & Hx). apply subs_sub in Hx. apply andb_prop in Px as (Nx & Kx).
  apply existsb_exists in Kx as (kx & Hkx & Kx). apply kind_eqb_eq in Kx. apply (Hks kx Hkx). rewrite <- Kx.
  rewrite Forall_forall in H. specialize (H g Hg). destruct g as [kt t|kg cs]; [inversion Hx; subst; discriminate|]. destruct H as (-> & _).
  apply (inner_closed tree (Node k cs) x D); [|destruct Hk as [<-|[<-|[<-|[]]]]; cbn; auto|exact Hx|exact Nx].
  eapply Sub_trans; [exact S|]. eapply Sub_child; [|constructor]. apply in_or_app. right. apply in_or_app. now left.
Qed.

(** ** C53 *)

Lemma regrouped_in tree tree' ks ks' : Document tree -> Document tree' -> Regrouped tree tree' ->
  (forall k, In k ks -> ~ In k inner) -> (forall k, In k ks' -> ~ In k inner) ->
  Forall2 (fun e e' => LikeIn ks (el e) (el e')) (nodes_of ks' tree) (nodes_of ks' tree').
Proof.
  intros D D' (k & pk & l & m & m' & r & Hk & HA & (cs & Hc) & (cs' & Hc') & Hf & Et) Hks Hks'. apply forall2_map. rewrite !nodes_greens.
  apply Forall_app in Hf as (Hm & Hm'). destruct (at_subs _ _ _ _ HA) as (S & S').
  apply (at_likein ks k pk l m m' r); eauto.
  - exact (no_nodes tree ks k pk l m r D S Hk Hm Hks).
  - exact (no_nodes tree' ks k pk l m' r D' S' Hk Hm' Hks).
  - exact (no_nodes tree ks' k pk l m r D S Hk Hm Hks').
  - exact (no_nodes tree' ks' k pk l m' r D' S' Hk Hm' Hks').
  - intros c Sc Sx Hi. pose proof (inner_closed tree c _ D Sc Hi Sx eq_refl) as Hp. cbn [gkind] in Hp.
    assert (E : In k (children_of pk)).
    { eapply (sub_edge tree pk _ k cs D S). apply in_or_app. right. apply in_or_app. now left. }
    clear - Hp E Hk. destruct Hp as [<-|[<-|[<-|[<-|[]]]]]; vm_compute in E; destruct Hk as [<-|[<-|[<-|[]]]]; intuition discriminate.
Qed.
Lemma regrouped_like tree tree' ks : Document tree -> Document tree' -> Regrouped tree tree' -> (forall k, In k ks -> ~ In k inner) ->
  Forall2 (fun e e' => Like (el e) (el e')) (nodes_of ks tree) (nodes_of ks tree').
Proof.
  intros D D' R H. eapply forall2_impl; [|apply (regrouped_in tree tree' [] ks D D' R); [intros k []|exact H]]. intros e e' L. apply L.
Qed.
Lemma find_greens (P : elem -> bool) l : (forall a b, el a = el b -> P a = P b) -> forall l', map el l = map el l' ->
  option_map el (find P l) = option_map el (find P l').
Proof.
  intros HP. induction l as [|x l IH]; intros [|y l'] H; try discriminate; [reflexivity|]. cbn [map] in H. injection H as H1 H2. cbn [find].
  rewrite (HP x y H1). destruct (P y); [cbn; now rewrite H1|auto].
Qed.
Lemma texts_greens l l' : map el l = map el l' -> map etext l = map etext l'.
Proof. intros H. unfold etext. rewrite <- !(map_map el gtext). now rewrite H. Qed.
Lemma like_locals f f' : Like (el f) (el f') -> SameLocals f f'.
Proof.
  intros (_ & _ & _ & _ & _ & L & _). rewrite <- !slots_greens in L. split.
  - rewrite <- (map_length el (locals_space f)), L. apply map_length.
  - intros [x|k]; cbn [local_target]; [|now rewrite <- !nth_error_map, L]. apply find_greens; [|exact L]. clear. intros a b H.
    unfold slot_has_name, slot_name. pose proof (token_same a b IDENT H) as T. unfold ekind. rewrite H.
    destruct (kind_eqb (gkind (el b)) VAL_TYPE); [reflexivity|]. destruct (token a IDENT) as [x1|], (token b IDENT) as [x2|]; try discriminate T; [|reflexivity]. cbn [option_map] in T. injection T as T. cbn [option_map]. unfold etext. now rewrite T.
Qed.
Lemma like_types u u' : Like (el u) (el u') -> SameTypes u u'.
Proof.
  intros (L1 & _ & _ & L4 & L5 & _). split; [exact L1|].
  rewrite <- !params_greens in L4. rewrite <- !results_greens in L5. split; now apply texts_greens.
Qed.

Definition def_kinds : list kind :=
  [MODULE_FIELD_FUNC; IMPORT_DESC_TYPE_USE; MODULE_FIELD_TYPE; MODULE_FIELD_GLOBAL; IMPORT_DESC_GLOBAL_TYPE; MODULE_FIELD_MEMORY;
   IMPORT_DESC_MEMORY_TYPE; MODULE_FIELD_TABLE; IMPORT_DESC_TABLE_TYPE].
Lemma def_kinds_ok d : is_def d = existsb (kind_eqb (ekind d)) def_kinds.
Proof. unfold is_def, def_sort. destruct (ekind d); reflexivity. Qed.
Lemma definitions_greens m : map el (definitions m) = filter (gpick def_kinds) (subs (el m)).
Proof.
  unfold definitions, descendants, descendants_with_tokens. rewrite <- (subs_desc (el m) (off m) (ups m)).
  generalize (desc (el m) (off m) (ups m)). intros l. induction l as [|e l IH]; [reflexivity|]. cbn [filter map].
  unfold gpick at 1. rewrite <- is_node_el. change (gkind (el e)) with (ekind e). rewrite <- def_kinds_ok.
  destruct (is_node e); cbn [filter andb]; [|exact IH]. destruct (is_def e); cbn [map]; now rewrite IH.
Qed.
Lemma like_name d d' : Like (el d) (el d') -> SameName d d'.
Proof.
  intros (L1 & _ & _ & _ & _ & _ & L & _). split; [exact L1|].
  assert (G : forall d, option_map etext (token d IDENT) = option_map gtext (find idb (gchildren (el d)))).
  { clear. intros d. pose proof (green_token d IDENT) as H. change (fun g => negb (gnode g) && kind_eqb (gkind g) IDENT) with idb in H.
    rewrite <- H. now destruct (token d IDENT). }
  now rewrite !G, L.
Qed.

(** In the document that a code action gives, the same definitions follow
    each other, functions with the same parameters and locals behind each number and name, and
    the same signatures. *)
Theorem C53_same_declarations tree w p q l act :
  Document tree -> SingleResults tree -> code_action (gtext tree) w p q = Ans l -> In act l ->
  exists tree', Applied (gtext tree) (a_edits act) (gtext tree') /\ Document tree'
    /\ Forall2 SameDefinitions (nodes_of [MODULE] tree) (nodes_of [MODULE] tree')
    /\ Forall2 SameLocals (nodes_of [MODULE_FIELD_FUNC] tree) (nodes_of [MODULE_FIELD_FUNC] tree')
    /\ Forall2 SameTypes (nodes_of [TYPE_USE; FUNC_TYPE] tree) (nodes_of [TYPE_USE; FUNC_TYPE] tree').
Proof.
  intros D SR H Hin. destruct (C53_regrouped false tree w p q l act D SR H Hin) as (tree' & HA & R & D' & _).
  exists tree'. split; [exact HA|]. split; [exact D'|]. split; [|split].
  - eapply forall2_impl; [|apply (regrouped_in tree tree' def_kinds [MODULE] D D' R)].
    + intros m m' (_ & L). rewrite <- !definitions_greens in L. apply forall2_map in L. eapply forall2_impl; [|exact L]. intros d d'. apply like_name.
    + intros k. cbn. intuition (subst; discriminate).
    + intros k [<-|[]]. cbn. intuition discriminate.
  - eapply forall2_impl; [|apply (regrouped_like tree tree' _ D D' R)]; [intros f f'; apply like_locals|].
    intros k [<-|[]]. cbn. intuition discriminate.
  - eapply forall2_impl; [|apply (regrouped_like tree tree' _ D D' R)]; [intros f f'; apply like_types|].
    intros k [<-|[<-|[]]]; cbn; intuition discriminate.
Qed.
Print Assumptions C53_same_declarations.

(** Go to definition on a parameter or local, in the i-th function before and
    after the code action, leads to the same declaration. *)
Theorem C53_same_goto tree w p q l act :
  Document tree -> SingleResults tree -> code_action (gtext tree) w p q = Ans l -> In act l ->
  exists tree', Applied (gtext tree) (a_edits act) (gtext tree')
    /\ forall i f f' pos t n pos' t' n' wr,
         nth_error (nodes_of [MODULE_FIELD_FUNC] tree) i = Some f -> nth_error (nodes_of [MODULE_FIELD_FUNC] tree') i = Some f' ->
         CursorOn (gtext tree) pos t -> parent t = Some n -> Asks n ALocal -> Written n wr -> in_func n f ->
         CursorOn (gtext tree') pos' t' -> parent t' = Some n' -> Asks n' ALocal -> Written n' wr -> in_func n' f' ->
         (goto_definition (gtext tree) pos = NoAns /\ goto_definition (gtext tree') pos' = NoAns)
         \/ exists r d r' d', goto_definition (gtext tree) pos = Ans (Scalar r) /\ Shows (gtext tree) r d
              /\ goto_definition (gtext tree') pos' = Ans (Scalar r') /\ Shows (gtext tree') r' d' /\ el d = el d'.
Proof.
  intros D SR H Hin. destruct (C53_same_declarations tree w p q l act D SR H Hin) as (tree' & HA & D' & _ & HF & _).
  exists tree'. split; [exact HA|]. intros i f f' pos t n pos' t' n' wr Hi Hi' C P A W F C' P' A' W' F'.
  destruct (forall2_nth _ _ _ _ _ _ HF Hi Hi') as (_ & S). specialize (S wr).
  assert (G : forall T f, Document T -> nth_error (nodes_of [MODULE_FIELD_FUNC] T) i = Some f -> InTree (tree_of (gtext T)) f).
  { clear. intros T f D Hf. rewrite (document_tree T D). apply nth_error_In in Hf. unfold nodes_of in Hf. apply filter_In in Hf as (Hf & _). now apply desc_spec in Hf. }
  pose proof (C15_locals _ _ _ _ _ _ C P A W F (G tree f D Hi)) as X. pose proof (C15_locals _ _ _ _ _ _ C' P' A' W' F' (G tree' f' D' Hi')) as X'.
  destruct (local_target f wr) as [d|], (local_target f' wr) as [d'|]; try discriminate S; [|now left].
  right. destruct X as (r & X1 & X2), X' as (r' & X1' & X2'). cbn [option_map] in S. injection S as S. exists r, d, r', d'. do 4 (split; [assumption|]). exact S.
Qed.
Print Assumptions C53_same_goto.

(** Likewise for references to definitions of the i-th module. *)
Lemma same_places P l : forall l', (forall d d', SameName d d' -> P d = P d') -> Forall2 SameName l l' ->
  exists js, Forall2 (fun d j => nth_error l j = Some d) (filter P l) js /\ Forall2 (fun d j => nth_error l' j = Some d) (filter P l') js.
Proof.
  intros l' HP H. induction H as [|d d' l l' Hd _ (js & I1 & I2)]; [exists []; split; constructor|].
  assert (G : forall (x : elem) y z, Forall2 (fun d j => nth_error y j = Some d) z js -> Forall2 (fun d j => nth_error (x :: y) j = Some d) z (map S js)).
  { clear. intros x y z H. induction H; cbn [map]; constructor; auto. }
  cbn [filter]. rewrite <- (HP d d' Hd). destruct (P d); [exists (0 :: map S js)|exists (map S js)]; split; try constructor; auto.
Qed.
Lemma same_sort s d d' : SameName d d' -> has_sort s d = has_sort s d'.
Proof. intros (K & _). unfold has_sort, def_sort. now rewrite K. Qed.
Lemma same_has_name x d d' : SameName d d' -> has_name x d = has_name x d'.
Proof. intros (_ & N). unfold has_name. destruct (token d IDENT), (token d' IDENT); cbn in N; try discriminate; [injection N as N; now rewrite N|reflexivity]. Qed.
Lemma of_sort s m : definitions_of s m = filter (has_sort s) (definitions m).
Proof.
  unfold definitions_of, definitions. generalize (descendants m). intros l. induction l as [|d l IH]; [reflexivity|]. cbn [filter].
  assert (Q : has_sort s d = true -> is_def d = true) by (unfold has_sort, is_def; now destruct (def_sort d)).
  destruct (has_sort s d) eqn:E; [rewrite (Q eq_refl); cbn [filter]; now rewrite E, IH|].
  destruct (is_def d); cbn [filter]; [now rewrite E|exact IH].
Qed.
Lemma filter_filter {A} (P Q : A -> bool) l : filter P (filter Q l) = filter (fun x => Q x && P x) l.
Proof. induction l as [|x l IH]; [reflexivity|]. cbn [filter]. destruct (Q x); cbn [filter andb]; now rewrite IH. Qed.
Lemma shows_places src m rs ds js : Forall2 (Shows src) rs ds -> Forall2 (fun d j => nth_error (definitions m) j = Some d) ds js ->
  Forall2 (ShowsDefinition src m) rs js.
Proof. intros H. revert js. induction H; intros js Hj; inversion Hj; subst; constructor; [eexists; eauto|auto]. Qed.

Theorem C53_same_goto_module tree w p q l act :
  Document tree -> SingleResults tree -> code_action (gtext tree) w p q = Ans l -> In act l ->
  exists tree', Applied (gtext tree) (a_edits act) (gtext tree')
    /\ forall i m m' pos t n pos' t' n' s wr,
         nth_error (nodes_of [MODULE] tree) i = Some m -> nth_error (nodes_of [MODULE] tree') i = Some m' ->
         CursorOn (gtext tree) pos t -> parent t = Some n -> Asks n (AModule s) -> Written n wr -> in_module n m ->
         CursorOn (gtext tree') pos' t' -> parent t' = Some n' -> Asks n' (AModule s) -> Written n' wr -> in_module n' m' ->
         exists rs rs' js, goto_definition (gtext tree) pos = Ans (Array rs) /\ goto_definition (gtext tree') pos' = Ans (Array rs')
           /\ Forall2 (ShowsDefinition (gtext tree) m) rs js /\ Forall2 (ShowsDefinition (gtext tree') m') rs' js.
Proof.
  intros D SR H Hin. destruct (C53_same_declarations tree w p q l act D SR H Hin) as (tree' & HA & D' & HF & _).
  exists tree'. split; [exact HA|]. intros i m m' pos t n pos' t' n' s wr Hi Hi' C P A W F C' P' A' W' F'.
  pose proof (forall2_nth _ _ _ _ _ _ HF Hi Hi') as S. unfold SameDefinitions in S.
  assert (G : forall T f, Document T -> nth_error (nodes_of [MODULE] T) i = Some f -> InTree (tree_of (gtext T)) f).
  { clear. intros T f D Hf. rewrite (document_tree T D). apply nth_error_In in Hf. unfold nodes_of in Hf. apply filter_In in Hf as (Hf & _). now apply desc_spec in Hf. }
  destruct wr as [x|k].
  - destruct (C13_named_definitions _ _ _ _ _ _ _ C P A W F (G tree m D Hi)) as (rs & X1 & X2).
    destruct (C13_named_definitions _ _ _ _ _ _ _ C' P' A' W' F' (G tree' m' D' Hi')) as (rs' & X1' & X2').
    rewrite of_sort, filter_filter in X2, X2'.
    destruct (same_places (fun d => has_sort s d && has_name x d) _ _ ltac:(intros d d' Hd; cbn; now rewrite (same_sort s d d' Hd), (same_has_name x d d' Hd)) S)
      as (js & J1 & J2).
    exists rs, rs', js. split; [exact X1|]. split; [exact X1'|]. split; eapply shows_places; eauto.
  - destruct (C14_counts_all_definitions _ _ _ _ _ _ _ C P A W F (G tree m D Hi)) as (rs & X1 & X2).
    destruct (C14_counts_all_definitions _ _ _ _ _ _ _ C' P' A' W' F' (G tree' m' D' Hi')) as (rs' & X1' & X2').
    assert (J : exists js, Forall2 (ShowsDefinition (gtext tree) m) rs js /\ Forall2 (ShowsDefinition (gtext tree') m') rs' js).
    { assert (L : length (definitions m) = length (definitions m')) by (clear - S; induction S; cbn; auto).
      destruct (nth_error (definitions m) (N.to_nat k)) as [d|] eqn:Ed, (nth_error (definitions m') (N.to_nat k)) as [d'|] eqn:Ed'.
      - rewrite <- (same_sort s d d' (forall2_nth _ _ _ _ _ _ S Ed Ed')) in X2'. destruct (has_sort s d).
        + exists [N.to_nat k]. split; eapply shows_places; eauto.
        + exists []. split; eapply shows_places; eauto.
      - apply nth_error_None in Ed'. assert (N.to_nat k < length (definitions m)) by (apply nth_error_Some; congruence). lia.
      - apply nth_error_None in Ed. assert (N.to_nat k < length (definitions m')) by (apply nth_error_Some; congruence). lia.
      - exists []. split; eapply shows_places; eauto. }
    destruct J as (js & J1 & J2). exists rs, rs', js. now repeat split.
Qed.
Print Assumptions C53_same_goto_module.

(** A reference written the same way is reported as undefined (C19) before and
    after the code action, or neither time. *)
Lemma unresolved_local src n f w : Asks n ALocal -> in_func n f -> InTree (tree_of src) f -> (Unresolved src n w <-> local_target f w = None).
Proof.
  intros A M Tf. rewrite local_target_none. split.
  - intros [s' m' A' M' Tm' H|f' A' M' Tf' H|b A' _ _ _]; try (pose proof (asks_fun n _ _ A A'); discriminate).
    assert (f = f') as <-. { destruct M as (K & N1 & D), M' as (K' & N' & D'). eapply (func_unique src n); eauto. }
    exact H.
  - intros H. now apply U_local with f.
Qed.
Lemma unresolved_module src n s m w : Asks n (AModule s) -> in_module n m -> InTree (tree_of src) m ->
  (Unresolved src n w <-> forall d, In d (definitions_of s m) -> ~ denotes m w d).
Proof.
  intros A M Tm. split.
  - intros [s' m' A' M' Tm' H|f A' _ _ _|b A' _ _ _]; try (pose proof (asks_fun n _ _ A A'); discriminate).
    pose proof (asks_fun n _ _ A A') as E. injection E as <-.
    assert (m = m') as <-. { destruct M as (K & N1 & D), M' as (K' & N' & D'). eapply (module_unique src n); eauto. }
    exact H.
  - intros H. now apply U_module with s m.
Qed.
Lemma same_denotes m m' s w d' : SameDefinitions m m' -> In d' (definitions_of s m') -> denotes m' w d' ->
  exists d, In d (definitions_of s m) /\ denotes m w d.
Proof.
  intros S Hd Hw. rewrite of_sort in Hd. apply filter_In in Hd as (Hd & Hs).
  assert (J : exists j, nth_error (definitions m') j = Some d' /\ match w with Numbered k => j = N.to_nat k | Named _ => True end).
  { destruct w as [x|k]; [|exists (N.to_nat k); split; [exact Hw|reflexivity]]. apply In_nth_error in Hd as (j & Hj). eauto. }
  destruct J as (j & Hj & Hk).
  assert (L : length (definitions m) = length (definitions m')) by (clear - S; unfold SameDefinitions in S; induction S; cbn; auto).
  assert (Lj : j < length (definitions m)) by (rewrite L; apply nth_error_Some; congruence).
  apply nth_error_Some in Lj. destruct (nth_error (definitions m) j) as [d|] eqn:E; [|congruence]. clear Lj.
  pose proof (forall2_nth _ _ _ _ _ _ S E Hj) as N. exists d. rewrite of_sort. split.
  - apply filter_In. split; [eapply nth_error_In; eauto|]. now rewrite (same_sort s d d' N).
  - destruct w as [x|k]; cbn [denotes] in *; [now rewrite (same_has_name x d d' N)|now subst j].
Qed.
Lemma same_sym m m' : SameDefinitions m m' -> SameDefinitions m' m.
Proof. unfold SameDefinitions. induction 1 as [|d d' l l' (H1 & H2) _ IH]; constructor; [split; congruence|exact IH]. Qed.

Theorem C53_same_undefined tree w p q l act :
  Document tree -> SingleResults tree -> code_action (gtext tree) w p q = Ans l -> In act l ->
  exists tree', Applied (gtext tree) (a_edits act) (gtext tree')
    /\ (forall i f f' n n' wr,
          nth_error (nodes_of [MODULE_FIELD_FUNC] tree) i = Some f -> nth_error (nodes_of [MODULE_FIELD_FUNC] tree') i = Some f' ->
          Asks n ALocal -> in_func n f -> Asks n' ALocal -> in_func n' f' ->
          (Unresolved (gtext tree) n wr <-> Unresolved (gtext tree') n' wr))
    /\ (forall i m m' n n' s wr,
          nth_error (nodes_of [MODULE] tree) i = Some m -> nth_error (nodes_of [MODULE] tree') i = Some m' ->
          Asks n (AModule s) -> in_module n m -> Asks n' (AModule s) -> in_module n' m' ->
          (Unresolved (gtext tree) n wr <-> Unresolved (gtext tree') n' wr)).
Proof.
  intros D SR H Hin. destruct (C53_same_declarations tree w p q l act D SR H Hin) as (tree' & HA & D' & HM & HF & _).
  assert (G : forall T ks i f, Document T -> nth_error (nodes_of ks T) i = Some f -> InTree (tree_of (gtext T)) f).
  { clear. intros T ks i f D Hf. rewrite (document_tree T D). apply nth_error_In in Hf. unfold nodes_of in Hf. apply filter_In in Hf as (Hf & _). now apply desc_spec in Hf. }
  exists tree'. split; [exact HA|]. split.
  - intros i f f' n n' wr Hi Hi' A F A' F'. destruct (forall2_nth _ _ _ _ _ _ HF Hi Hi') as (_ & S). specialize (S wr).
    rewrite (unresolved_local _ n f wr A F (G _ _ _ _ D Hi)), (unresolved_local _ n' f' wr A' F' (G _ _ _ _ D' Hi')).
    destruct (local_target f wr), (local_target f' wr); try discriminate S; split; (discriminate || reflexivity).
  - intros i m m' n n' s wr Hi Hi' A F A' F'. pose proof (forall2_nth _ _ _ _ _ _ HM Hi Hi') as S.
    rewrite (unresolved_module _ n s m wr A F (G _ _ _ _ D Hi)), (unresolved_module _ n' s m' wr A' F' (G _ _ _ _ D' Hi')).
    split; intros U d Hd Hw.
    + destruct (same_denotes m m' s wr d S Hd Hw) as (e & He & Hew). exact (U e He Hew).
    + destruct (same_denotes m' m s wr d (same_sym _ _ S) Hd Hw) as (e & He & Hew). exact (U e He Hew).
Qed.
Print Assumptions C53_same_undefined.

(** The line that describes a function in a hover, in completion and in the
    call hierarchy (C37), for functions that write their signature. *)
Definition part (x : option text * green) : text :=
  match fst x with
  | Some i => Text.T "(param " ++ i ++ Text.T " " ++ gtext (snd x) ++ Text.T ")"
  | None => Text.T "(param " ++ gtext (snd x) ++ Text.T ")"
  end.
Lemma param_greens d : param_parts d = map part (gmarked (el d)).
Proof.
  unfold param_parts, gmarked, gvals. pose proof (green_token d IDENT) as H.
  change (fun g => negb (gnode g) && kind_eqb (gkind g) IDENT) with idb in H. rewrite <- H, <- childs_greens.
  destruct (token d IDENT) as [i|]; cbn [option_map]; rewrite ?firstn_map, !map_map; reflexivity.
Qed.
Lemma sig_greens e : sig_parts e = map part (gsum gmarked PARAM (el e)) ++ map (fun v => Text.T "(result " ++ gtext v ++ Text.T ")") (gsum gvals RESULT (el e)).
Proof.
  unfold sig_parts, gsum. rewrite <- !childs_greens. f_equal.
  - generalize (childs e PARAM). intros l. induction l as [|d l IH]; [reflexivity|]. cbn [flat_map map]. now rewrite map_app, param_greens, IH.
  - generalize (childs e RESULT). intros l. induction l as [|d l IH]; [reflexivity|]. cbn [flat_map map]. rewrite map_app, IH. f_equal.
    unfold result_parts, gvals. now rewrite <- childs_greens, map_map.
Qed.
Lemma signed_greens e : gsigned (el e) = true <-> (childs e PARAM <> [] \/ childs e RESULT <> []).
Proof.
  assert (G : forall k, childs e k <> [] <-> exists c, In c (gchildren (el e)) /\ node_of k c = true).
  { intros k. pose proof (childs_greens e k) as H. split.
    - intros N. destruct (childs e k) as [|c x]; [congruence|]. cbn [map] in H. exists (el c). apply filter_In. rewrite <- H. now left.
    - intros (c & Hc) E. rewrite E in H. apply filter_In in Hc. rewrite <- H in Hc. destruct Hc. }
  rewrite !G. unfold gsigned. rewrite existsb_exists. split.
  - intros (c & Hc & H). apply orb_prop in H as [H|H]; eauto.
  - intros [(c & Hc & H)|(c & Hc & H)]; exists c; rewrite H, ?orb_true_r; auto.
Qed.
Lemma header_greens f : gheader (el f)
  = option_map (fun tu => (gsum gmarked PARAM (el tu), gsum gvals RESULT (el tu), gsigned (el tu))) (child f TYPE_USE).
Proof.
  unfold gheader. pose proof (green_child_el f TYPE_USE) as H. unfold green_child in H.
  change (fun c => match c with Node k' _ => kind_eqb k' TYPE_USE | Tok _ _ => false end) with (node_of TYPE_USE) in H. rewrite H.
  now destruct (child f TYPE_USE).
Qed.
Lemma header_here src f tu h : InTree (tree_of src) f -> child f TYPE_USE = Some tu -> gsigned (el tu) = true ->
  (Header src f h <-> h = Text.T "(func" ++ named f ++ concat (map SpecHeader.spaced (sig_parts tu)) ++ Text.T ")").
Proof.
  intros T C S. apply signed_greens in S. pose proof (Signed_here src f tu C S) as X. split.
  - intros [e H|H]; [now rewrite (signed_fun src f e tu T H X)|exfalso; exact (H tu X)].
  - intros ->. now apply Header_sig.
Qed.

Theorem C53_same_header tree w p q l act :
  Document tree -> SingleResults tree -> code_action (gtext tree) w p q = Ans l -> In act l ->
  exists tree', Applied (gtext tree) (a_edits act) (gtext tree')
    /\ forall i f f', nth_error (nodes_of [MODULE_FIELD_FUNC] tree) i = Some f -> nth_error (nodes_of [MODULE_FIELD_FUNC] tree') i = Some f' ->
         WritesSignature f -> forall h, Header (gtext tree) f h <-> Header (gtext tree') f' h.
Proof.
  intros D SR H Hin. destruct (C53_regrouped false tree w p q l act D SR H Hin) as (tree' & HA & R & D' & _).
  exists tree'. split; [exact HA|]. intros i f f' Hi Hi' (tu & C & S) h. apply signed_greens in S.
  assert (L : Like (el f) (el f')).
  { eapply (forall2_nth (fun e e' => Like (el e) (el e'))); [|exact Hi|exact Hi'].
    apply (regrouped_like tree tree' _ D D' R). intros k [<-|[]]. cbn. intuition discriminate. }
  assert (G : forall T f, Document T -> nth_error (nodes_of [MODULE_FIELD_FUNC] T) i = Some f -> InTree (tree_of (gtext T)) f).
  { clear. intros T f D Hf. rewrite (document_tree T D). apply nth_error_In in Hf. unfold nodes_of in Hf. apply filter_In in Hf as (Hf & _). now apply desc_spec in Hf. }
  pose proof (like_name f f' L) as (_ & N). destruct L as (_ & _ & _ & _ & _ & _ & _ & _ & _ & L).
  rewrite !header_greens, C in L. destruct (child f' TYPE_USE) as [tu'|] eqn:C'; [|discriminate L]. cbn [option_map] in L. injection L as L1 L2 L3.
  rewrite (header_here _ f tu h (G tree f D Hi) C S), (header_here _ f' tu' h (G tree' f' D' Hi') C' ltac:(congruence)).
  assert (E : named f = named f').
  { unfold named. destruct (token f IDENT), (token f' IDENT); try discriminate N; [|reflexivity]. cbn [option_map] in N. injection N as N. now rewrite N. }
  now rewrite !sig_greens, L1, L2, E.
Qed.
Print Assumptions C53_same_header.

(** *** Example *)

(** The second type of the parameters stays number 1. *)
Definition slots_ex : text := Text.T "(module (func (param i32 i64) (local f32) local.get 1))".
Definition slots_out : text := Text.T "(module (func (param i32) (param i64) (local f32) local.get 1))".
Example C53_same_case :
  let t := cur slots_ex (0, 52) in let n := par t in let f := enc MODULE_FIELD_FUNC n in
  let t' := cur slots_out (0, 60) in let n' := par t' in let f' := enc MODULE_FIELD_FUNC n' in
  Document (tree_of slots_ex) /\ gtext (tree_of slots_ex) = slots_ex /\ SingleResults (tree_of slots_ex)
  /\ code_action slots_ex all_wanted (0, 17) (0, 17)
     = Ans [mk_action (Text.T "Split parameters") [((0, 14), (0, 29), Text.T "(param i32) (param i64)")]]
  /\ nodes_of [MODULE_FIELD_FUNC] (tree_of slots_ex) = [f] /\ nodes_of [MODULE_FIELD_FUNC] (tree_of slots_out) = [f']
  /\ CursorOn slots_ex (0, 52) t /\ parent t = Some n /\ Asks n ALocal /\ Written n (Numbered 1) /\ in_func n f
  /\ CursorOn slots_out (0, 60) t' /\ parent t' = Some n' /\ Asks n' ALocal /\ Written n' (Numbered 1) /\ in_func n' f'
  /\ goto_definition slots_ex (0, 52) = Ans (Scalar ((0, 25), (0, 28)))
  /\ goto_definition slots_out (0, 60) = Ans (Scalar ((0, 33), (0, 36))).
Proof.
  cursor_at slots_ex (0, 52) C P. enclosing_at slots_ex (0, 52) MODULE_FIELD_FUNC E.
  cursor_at slots_out (0, 60) C' P'. enclosing_at slots_out (0, 60) MODULE_FIELD_FUNC E'.
  intros t n f t' n' f'. split; [apply ThmComplete.documentb_ok; vm_compute; reflexivity|]. split; [vm_compute; reflexivity|].
  split; [apply single_resultsb_ok; vm_compute; reflexivity|]. split; [vm_compute; reflexivity|].
  split; [vm_compute; reflexivity|]. split; [vm_compute; reflexivity|].
  split; [exact C|]. split; [exact P|]. split; [by_instr Asks_local n|]. split; [by_number|].
  destruct (ex_func _ _ _ _ _ C P E) as [M1 _]. split; [exact M1|].
  split; [exact C'|]. split; [exact P'|]. split; [by_instr Asks_local n'|]. split; [by_number|].
  destruct (ex_func _ _ _ _ _ C' P' E') as [M1' _]. split; [exact M1'|]. split; vm_compute; reflexivity.
Qed.

Definition mod_ex : text := Text.T "(module (func $f (param i32 i64)) (func call $f))".
Definition mod_out : text := Text.T "(module (func $f (param i32) (param i64)) (func call $f))".
Example C53_same_module_case :
  let t := cur mod_ex (0, 46) in let n := par t in let m := enc MODULE n in
  let t' := cur mod_out (0, 54) in let n' := par t' in let m' := enc MODULE n' in
  Document (tree_of mod_ex) /\ gtext (tree_of mod_ex) = mod_ex /\ SingleResults (tree_of mod_ex)
  /\ code_action mod_ex all_wanted (0, 20) (0, 20)
     = Ans [mk_action (Text.T "Split parameters") [((0, 17), (0, 32), Text.T "(param i32) (param i64)")]]
  /\ nodes_of [MODULE] (tree_of mod_ex) = [m] /\ nodes_of [MODULE] (tree_of mod_out) = [m']
  /\ CursorOn mod_ex (0, 46) t /\ parent t = Some n /\ Asks n (AModule FuncS) /\ Written n (Named (Text.T "$f")) /\ in_module n m
  /\ CursorOn mod_out (0, 54) t' /\ parent t' = Some n' /\ Asks n' (AModule FuncS) /\ Written n' (Named (Text.T "$f")) /\ in_module n' m'
  /\ goto_definition mod_ex (0, 46) = Ans (Array [((0, 14), (0, 16))])
  /\ goto_definition mod_out (0, 54) = Ans (Array [((0, 14), (0, 16))]).
Proof.
  cursor_at mod_ex (0, 46) C P. enclosing_at mod_ex (0, 46) MODULE E.
  cursor_at mod_out (0, 54) C' P'. enclosing_at mod_out (0, 54) MODULE E'.
  intros t n f t' n' f'. split; [apply ThmComplete.documentb_ok; vm_compute; reflexivity|]. split; [vm_compute; reflexivity|].
  split; [apply single_resultsb_ok; vm_compute; reflexivity|]. split; [vm_compute; reflexivity|].
  split; [vm_compute; reflexivity|]. split; [vm_compute; reflexivity|].
  split; [exact C|]. split; [exact P|]. split; [by_instr Asks_call n|]. split; [apply (Written_name n t); vm_compute; reflexivity|].
  destruct (ex_module _ _ _ _ _ C P E) as [M1 _]. split; [exact M1|].
  split; [exact C'|]. split; [exact P'|]. split; [by_instr Asks_call n'|]. split; [apply (Written_name n' t'); vm_compute; reflexivity|].
  destruct (ex_module _ _ _ _ _ C' P' E') as [M1' _]. split; [exact M1'|]. split; vm_compute; reflexivity.
Qed.

(** A reference to a parameter that does not exist: reported before and after. *)
Definition undef_ex : text := Text.T "(module (func (param i32 i64) local.get 2))".
Definition undef_out : text := Text.T "(module (func (param i32) (param i64) local.get 2))".
Example C53_undefined_case :
  let t := cur undef_ex (0, 40) in let n := par t in let f := enc MODULE_FIELD_FUNC n in
  let t' := cur undef_out (0, 48) in let n' := par t' in let f' := enc MODULE_FIELD_FUNC n' in
  Document (tree_of undef_ex) /\ gtext (tree_of undef_ex) = undef_ex /\ SingleResults (tree_of undef_ex)
  /\ code_action undef_ex all_wanted (0, 17) (0, 17)
     = Ans [mk_action (Text.T "Split parameters") [((0, 14), (0, 29), Text.T "(param i32) (param i64)")]]
  /\ nodes_of [MODULE_FIELD_FUNC] (tree_of undef_ex) = [f] /\ nodes_of [MODULE_FIELD_FUNC] (tree_of undef_out) = [f']
  /\ Asks n ALocal /\ Written n (Numbered 2) /\ in_func n f /\ Asks n' ALocal /\ Written n' (Numbered 2) /\ in_func n' f'
  /\ report undef_ex = Some [(((0, 40), (0, 41)), Text.T "cannot find `2` in this scope")]
  /\ report undef_out = Some [(((0, 48), (0, 49)), Text.T "cannot find `2` in this scope")].
Proof.
  cursor_at undef_ex (0, 40) C P. enclosing_at undef_ex (0, 40) MODULE_FIELD_FUNC E.
  cursor_at undef_out (0, 48) C' P'. enclosing_at undef_out (0, 48) MODULE_FIELD_FUNC E'.
  intros t n f t' n' f'. split; [apply ThmComplete.documentb_ok; vm_compute; reflexivity|]. split; [vm_compute; reflexivity|].
  split; [apply single_resultsb_ok; vm_compute; reflexivity|]. split; [vm_compute; reflexivity|].
  split; [vm_compute; reflexivity|]. split; [vm_compute; reflexivity|].
  split; [by_instr Asks_local n|]. split; [by_number|].
  destruct (ex_func _ _ _ _ _ C P E) as [M1 _]. split; [exact M1|].
  split; [by_instr Asks_local n'|]. split; [by_number|].
  destruct (ex_func _ _ _ _ _ C' P' E') as [M1' _]. split; [exact M1'|]. split; vm_compute; reflexivity.
Qed.

Example C53_header_case :
  let f := enc MODULE_FIELD_FUNC (par (cur slots_ex (0, 52))) in let f' := enc MODULE_FIELD_FUNC (par (cur slots_out (0, 60))) in
  nodes_of [MODULE_FIELD_FUNC] (tree_of slots_ex) = [f] /\ nodes_of [MODULE_FIELD_FUNC] (tree_of slots_out) = [f'] /\ WritesSignature f
  /\ Header slots_ex f (Text.T "(func (param i32) (param i64))") /\ Header slots_out f' (Text.T "(func (param i32) (param i64))").
Proof.
  intros f f'. split; [vm_compute; reflexivity|]. split; [vm_compute; reflexivity|].
  assert (G : forall src f tu, InTree (tree_of src) f -> child f TYPE_USE = Some tu -> gsigned (el tu) = true ->
              Text.T "(func" ++ named f ++ concat (map SpecHeader.spaced (sig_parts tu)) ++ Text.T ")" = Text.T "(func (param i32) (param i64))" ->
              WritesSignature f /\ Header src f (Text.T "(func (param i32) (param i64))")).
  { intros src g tu T C S E. split; [exists tu; split; [exact C|now apply signed_greens]|]. apply (header_here src g tu _ T C S). now rewrite E. }
  assert (I : forall src x y, nodes_of [MODULE_FIELD_FUNC] (tree_of src) = x :: y -> InTree (tree_of src) x).
  { intros src x y E. assert (Hx : In x (x :: y)) by now left. rewrite <- E in Hx. apply filter_In in Hx as (Hx & _). now apply desc_spec in Hx. }
  destruct (child f TYPE_USE) as [tu|] eqn:C; [|vm_compute in C; discriminate]. destruct (child f' TYPE_USE) as [tu'|] eqn:C'; [|vm_compute in C'; discriminate].
  assert (X : WritesSignature f /\ Header slots_ex f (Text.T "(func (param i32) (param i64))")).
  { apply (G slots_ex f tu); [apply (I slots_ex f []); vm_compute; reflexivity|exact C| |]; clear - C; vm_compute in C; injection C as <-; vm_compute; reflexivity. }
  assert (X' : WritesSignature f' /\ Header slots_out f' (Text.T "(func (param i32) (param i64))")).
  { apply (G slots_out f' tu'); [apply (I slots_out f' []); vm_compute; reflexivity|exact C'| |]; clear - C'; vm_compute in C'; injection C' as <-; vm_compute; reflexivity. }
  split; [apply X|]. split; [apply X|apply X'].
Qed.
