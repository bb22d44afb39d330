(** The effect of code actions on the tree (C53). *)

From Coq Require Import String List NArith Bool Arith Lia Permutation.
From Verif Require Import Text Kind Green SpecParser Lexer LexerFacts Winnow Grammar Sem Lossless Total
  Bounds Lang TokForm Shape Red Unique LineIndex Cursor ThmPos Doc Ast Binder Preorder SpecBinder BinderFacts BinderDefs Blocks
  Nav NavSpec NavFacts ThmNav RefFacts SymCases TokKinds InstrMeta Types Check CheckFacts SpecAction Action ThmAction SpecRename ThmRenamed SpecRegroup SigFacts.
From Verif Require SpecComplete ThmComplete Regroup.
Import ListNotations.

Notation Separated := SpecComplete.Separated.
Notation ctexts := SpecComplete.texts.

(** ** The tree around an element *)

Lemma at_inner c c' k l r t t' : At (Node k (l ++ c :: r)) (Node k (l ++ c' :: r)) t t' -> At c c' t t'.
Proof. induction 1 as [|k0 l0 a a' r0 _ IH]; [apply At_in, At_here|now apply At_in]. Qed.

Lemma child_at_green p l g r : gchildren (el p) = l ++ g :: r ->
  exists c, In c (children_with_tokens p) /\ el c = g /\ estart c = estart p + glens l.
Proof.
  intros E. exists (mk_elem g (off p + glens l) (mk_up (el p) (off p) (length l) :: ups p)). split; [|split; reflexivity].
  apply child_in. eauto.
Qed.
Lemma plug tree p : InTree tree p -> forall g', exists tree' A C,
  At (el p) g' tree tree' /\ gtokens tree = A ++ gtokens (el p) ++ C /\ gtokens tree' = A ++ gtokens g' ++ C
  /\ estart p = tlen (texts A)
  /\ exists p', InTree tree' p' /\ el p' = g' /\ estart p' = estart p.
Proof.
  induction 1 as [|p c T IH Hc]; intros g'.
  - exists g', [], []. rewrite !app_nil_r. repeat split; [apply At_here|]. exists (root_of g'). repeat split. constructor.
  - apply child_in in Hc as (l & g & r & E & ->). destruct (el p) as [|k cs] eqn:Ep; [destruct l; discriminate|].
    cbn [gchildren] in E. subst cs. destruct (IH (Node k (l ++ g' :: r))) as (tree' & A & C & H1 & H2 & H3 & H4 & p' & P1 & P2 & P3).
    exists tree', (A ++ gtokenss l), (gtokenss r ++ C). cbn [el]. split; [eapply at_inner; exact H1|].
    cbn [gtokens] in H2, H3. rewrite map_app, concat_app in H2, H3. cbn [map concat] in H2, H3.
    fold (gtokenss l) (gtokenss r) in H2, H3. rewrite <- !app_assoc in H2, H3 |- *. split; [exact H2|]. split; [exact H3|].
    split.
    { unfold estart in *. cbn [off]. rewrite H4, texts_app, tlen_app, glens_tlen. f_equal. f_equal. unfold gtexts, texts, gtokenss.
      clear. induction l as [|g l IH]; [reflexivity|]. cbn [map concat]. now rewrite map_app, concat_app, <- IH, gtext_tokens. }
    destruct (child_at_green p' l g' r) as (c' & Hc' & Ec & Oc); [rewrite P2; reflexivity|].
    exists c'. split; [econstructor; eauto|]. split; [exact Ec|]. unfold estart in *. cbn [off]. rewrite Oc, P3. reflexivity.
Qed.

(** ** Tokens *)

Lemma separated_tail a : forall b, Separated (a ++ b) -> Separated b.
Proof. induction a as [|[k t] a IH]; intros b H; [exact H|]. apply IH. apply H. Qed.
Lemma follows_paren k u x y : SpecComplete.Follows k (u ++ c_lparen :: x) -> SpecComplete.Follows k (u ++ c_lparen :: y).
Proof.
  assert (H : forall (P : char -> Prop), (forall c z, u ++ c_lparen :: x = c :: z -> P c) -> forall c z, u ++ c_lparen :: y = c :: z -> P c).
  { intros P H c z E. destruct u as [|a u]; cbn [app] in *; injection E as <- <-; eapply H; reflexivity. }
  destruct k; cbn [SpecComplete.Follows]; auto; try (apply H).
  - intros [E|[(r & E)|(r & E)]]; [destruct u; discriminate|right; left|right; right]; destruct u as [|a u]; cbn [app] in *.
    + vm_compute in E. discriminate.
    + injection E as -> _. eexists; reflexivity.
    + vm_compute in E. discriminate.
    + injection E as -> E. destruct u as [|a u]; cbn [app] in *; [vm_compute in E; discriminate|]. injection E as -> _. eexists; reflexivity.
  - intros N (r & E). destruct u as [|a u]; cbn [app] in *; [vm_compute in E; discriminate|]. injection E as E _. apply N. exists (u ++ c_lparen :: x). cbn. congruence.
Qed.
Lemma ctexts_app a b : ctexts (a ++ b) = ctexts a ++ ctexts b.
Proof. unfold SpecComplete.texts. now rewrite map_app, concat_app. Qed.
Lemma separated_swap A : forall X Y x y, Separated (A ++ X) -> Separated Y ->
  ctexts X = c_lparen :: x -> ctexts Y = c_lparen :: y -> Separated (A ++ Y).
Proof.
  induction A as [|[k t] A IH]; intros X Y x y HX HY EX EY; [exact HY|]. cbn [app SpecComplete.Separated] in *.
  destruct HX as (H1 & H2 & H3). split; [exact H1|]. split; [|eapply IH; eauto].
  rewrite ctexts_app, EX in H2. rewrite ctexts_app, EY. eapply follows_paren; eauto.
Qed.

(** ** New groups *)

Definition ws1 : green := Tok WHITESPACE (Text.T " ").
Definition group (k : kind) (kw : text) (vs : list green) : green :=
  Node k ([Tok L_PAREN (Text.T "("); Tok KEYWORD kw] ++ flat_map (fun v => [ws1; v]) vs ++ [Tok R_PAREN (Text.T ")")]).
Definition split_groups (k : kind) (kw : text) (v : green) (vs : list green) : list green :=
  group k kw [v] :: flat_map (fun v => [ws1; group k kw [v]]) vs.

Definition IsVal (v : green) : Prop :=
  exists kt t c r, v = Node VAL_TYPE [Tok kt t] /\ In kt [NUM_TYPE; VEC_TYPE; REF_TYPE] /\ SpecComplete.TokenForm kt t
    /\ t = c :: r /\ ~ In c (Text.T " " ++ [c_tab; c_lf; c_cr]).
Lemma val_reads v : IsVal v -> SpecComplete.Reads SpecComplete.VAL [ws1; v].
Proof.
  intros (kt & t & c & r & -> & Hk & _). change [ws1; ?v] with ([ws1] ++ [v]). unfold SpecComplete.VAL. constructor.
  - repeat constructor.
  - unfold SpecComplete.one_of. destruct Hk as [<-|[<-|[<-|[]]]].
    + apply SpecComplete.R_OrL. apply (SpecComplete.R_Tk NUM_TYPE t []); [constructor|reflexivity].
    + apply SpecComplete.R_OrR, SpecComplete.R_OrL. apply (SpecComplete.R_Tk VEC_TYPE t []); [constructor|reflexivity].
    + apply SpecComplete.R_OrR, SpecComplete.R_OrR. apply (SpecComplete.R_Tk REF_TYPE t []); [constructor|reflexivity].
  - destruct Hk as [<-|[<-|[<-|[]]]]; reflexivity.
Qed.
Lemma vals_read vs : Forall IsVal vs -> SpecComplete.Reads (SpecComplete.Star SpecComplete.VAL) (flat_map (fun v => [ws1; v]) vs).
Proof.
  induction 1 as [|v vs Hv _ IH]; [constructor|]. cbn [flat_map]. constructor; [now apply val_reads|exact IH].
Qed.
Definition kw_of (k : kind) : text := match k with PARAM => Text.T "param" | LOCAL => Text.T "local" | _ => Text.T "result" end.
Lemma group_reads k vs : In k [PARAM; RESULT; LOCAL] -> Forall IsVal vs ->
  SpecComplete.Reads (Regroup.group_rx k)
    ([Tok L_PAREN (Text.T "("); Tok KEYWORD (kw_of k)] ++ flat_map (fun v => [ws1; v]) vs ++ [Tok R_PAREN (Text.T ")")]).
Proof.
  intros Hk Hv. apply vals_read in Hv.
  assert (L : SpecComplete.Reads SpecComplete.lp [Tok L_PAREN (Text.T "(")]) by (apply (SpecComplete.R_Tk L_PAREN _ []); [constructor|reflexivity]).
  assert (R : SpecComplete.Reads SpecComplete.rp [Tok R_PAREN (Text.T ")")]) by (apply (SpecComplete.R_Tk R_PAREN _ []); [constructor|reflexivity]).
  assert (K : forall s, SpecComplete.Reads (SpecComplete.Kw s) [Tok KEYWORD (Text.T s)]) by (intros s; apply (SpecComplete.R_Kw s []); constructor).
  change ([?a; ?b] ++ ?l ++ ?r) with ([a] ++ [b] ++ l ++ r).
  destruct Hk as [<-|[<-|[<-|[]]]]; cbn [Regroup.group_rx kw_of SpecComplete.form SpecComplete.seq app];
    (apply (SpecComplete.R_Sq _ _ [_]); [exact L|]); (apply (SpecComplete.R_Sq _ _ [_]); [apply K|]); (apply SpecComplete.R_Sq; [|exact R]); try exact Hv;
    now apply SpecComplete.R_OrR.
Qed.

Lemma val_tokens v : IsVal v -> exists kt t c r, gtokens v = [(kt, t)] /\ In kt [NUM_TYPE; VEC_TYPE; REF_TYPE]
  /\ SpecComplete.TokenForm kt t /\ t = c :: r /\ ~ In c (Text.T " " ++ [c_tab; c_lf; c_cr]).
Proof. intros (kt & t & c & r & -> & H). exists kt, t, c, r. split; [reflexivity|exact H]. Qed.

Lemma vals_sep vs Z : Forall IsVal vs -> Separated Z -> (exists z, ctexts Z = c_rparen :: z) ->
  Separated (gtokenss (flat_map (fun v => [ws1; v]) vs) ++ Z)
  /\ exists c z, ctexts (gtokenss (flat_map (fun v => [ws1; v]) vs) ++ Z) = c :: z /\ is_id_char c = false.
Proof.
  intros Hv HZ (z0 & Ez). induction Hv as [|v vs Hv _ (IH1 & c1 & z1 & E1 & H1)].
  - split; [exact HZ|]. exists c_rparen, z0. split; [exact Ez|reflexivity].
  - destruct (val_tokens v Hv) as (kt & t & c & r & Et & Hk & Hf & Ec & Hc).
    cbn [flat_map app]. unfold gtokenss in *. cbn [map concat ws1 gtokens app]. rewrite Et. cbn [app].
    set (Y := concat (map gtokens (flat_map (fun v => [ws1; v]) vs)) ++ Z) in *. split.
    + cbn [SpecComplete.Separated]. split; [|split; [|split; [exact Hf|split; [|exact IH1]]]].
      * split; [|exact I]. split; [discriminate|]. repeat constructor.
      * unfold SpecComplete.texts. cbn [map concat snd SpecComplete.Follows]. rewrite Ec. cbn [app]. intros c' x E. injection E as <- _. exact Hc.
      * rewrite E1. destruct Hk as [<-|[<-|[<-|[]]]]; cbn [SpecComplete.Follows]; intros c' x E; injection E as <- _; exact H1.
    + eexists _, _. split; [unfold SpecComplete.texts; cbn [map concat snd]; reflexivity|reflexivity].
Qed.

Lemma group_sep k vs Z : In k [PARAM; RESULT; LOCAL] -> Forall IsVal vs -> Separated Z ->
  Separated (gtokens (group k (kw_of k) vs) ++ Z) /\ exists z, ctexts (gtokens (group k (kw_of k) vs) ++ Z) = c_lparen :: z.
Proof.
  intros Hk Hv HZ. unfold group. cbn [gtokens app map concat]. rewrite map_app, concat_app. cbn [map concat gtokens app].
  rewrite <- app_assoc. cbn [app]. fold (gtokenss (flat_map (fun v => [ws1; v]) vs)).
  destruct (vals_sep vs ((R_PAREN, Text.T ")") :: Z) Hv) as (S & c & z & E & Hc).
  - split; [split; [reflexivity|exact I]|]. split; [exact I|exact HZ].
  - eexists. unfold SpecComplete.texts. cbn [map concat snd]. reflexivity.
  - set (Y := gtokenss (flat_map (fun v => [ws1; v]) vs) ++ (R_PAREN, Text.T ")") :: Z) in *. split.
    + cbn [SpecComplete.Separated]. split; [split; [reflexivity|exact I]|]. split; [|split; [|split; [|exact S]]].
      * unfold SpecComplete.texts. cbn [map concat snd SpecComplete.Follows]. intros (r & E').
        destruct Hk as [<-|[<-|[<-|[]]]]; vm_compute in E'; discriminate.
      * split; [|exact I]. cbn [LexForm]. unfold OneOf. destruct Hk as [<-|[<-|[<-|[]]]]; vm_compute; tauto.
      * rewrite E. cbn [SpecComplete.Follows]. intros c' x E'. injection E' as <- _. exact Hc.
    + eexists. unfold SpecComplete.texts. cbn [map concat snd]. reflexivity.
Qed.

Definition new_groups (k : kind) (vs : list green) (vss : list (list green)) : list green :=
  group k (kw_of k) vs :: flat_map (fun vs => [ws1; group k (kw_of k) vs]) vss.
Lemma new_sep k vs vss Z : In k [PARAM; RESULT; LOCAL] -> Forall IsVal vs -> Forall (Forall IsVal) vss -> Separated Z ->
  Separated (gtokenss (new_groups k vs vss) ++ Z) /\ exists z, ctexts (gtokenss (new_groups k vs vss) ++ Z) = c_lparen :: z.
Proof.
  intros Hk Hv Hvs HZ. unfold new_groups, gtokenss. cbn [map concat]. rewrite <- app_assoc. apply group_sep; [exact Hk|exact Hv|].
  induction Hvs as [|us vss Hu _ IH]; [exact HZ|]. cbn [flat_map app map concat ws1 gtokens]. rewrite <- app_assoc.
  destruct (group_sep k us _ Hk Hu IH) as (S & z & E). cbn [SpecComplete.Separated]. split; [|split; [|exact S]].
  - split; [|exact I]. split; [discriminate|]. repeat constructor.
  - cbn [SpecComplete.Follows]. rewrite E. intros c x E'. injection E' as <- _. vm_compute. intuition discriminate.
Qed.
Lemma new_groups_ok k vss : In k [PARAM; RESULT; LOCAL] -> Forall (Forall IsVal) vss ->
  Regroup.Groups k (Regroup.group_rx k) (flat_map (fun vs => [ws1; group k (kw_of k) vs]) vss).
Proof.
  intros Hk H. induction H as [|vs vss Hv _ IH]; [constructor|]. cbn [flat_map].
  change ([ws1; ?g] ++ ?l) with ([ws1] ++ g :: l). unfold group at 1. constructor; [repeat constructor| |reflexivity|exact IH].
  now apply group_reads.
Qed.

Lemma filter_vals vs : Forall IsVal vs -> filter (node_of VAL_TYPE) (flat_map (fun v => [ws1; v]) vs) = vs.
Proof.
  induction 1 as [|v vs (kt & t & c & r & -> & _) _ IH]; [reflexivity|]. cbn [flat_map app filter ws1 node_of]. now rewrite IH.
Qed.
Lemma types_group k vs : Forall IsVal vs -> types_in k [group k (kw_of k) vs] = vs.
Proof.
  intros H. unfold types_in, group. cbn [flat_map]. rewrite kind_eqb_refl, app_nil_r, !filter_app, filter_vals by exact H.
  cbn. apply app_nil_r.
Qed.
Lemma types_app k a b : types_in k (a ++ b) = types_in k a ++ types_in k b.
Proof. unfold types_in. apply flat_map_app. Qed.
Lemma types_new k vs vss : Forall IsVal vs -> Forall (Forall IsVal) vss -> types_in k (new_groups k vs vss) = vs ++ concat vss.
Proof.
  intros Hv H. unfold new_groups. change (?g :: ?l) with ([g] ++ l). rewrite types_app, types_group by exact Hv. f_equal.
  induction H as [|us vss Hu _ IH]; [reflexivity|]. cbn [flat_map concat]. change ([ws1; ?g] ++ ?l) with ([ws1] ++ [g] ++ l).
  rewrite !types_app, types_group, IH by exact Hu. reflexivity.
Qed.
Lemma group_unnamed k vs : Forall IsVal vs -> Unnamed k (group k (kw_of k) vs).
Proof.
  intros H. unfold group. split; [reflexivity|]. intros c Hc. apply in_app_or in Hc as [Hc|Hc].
  { destruct Hc as [<-|[<-|[]]]; discriminate. }
  apply in_app_or in Hc as [Hc|[<-|[]]]; [|discriminate]. apply in_flat_map in Hc as (v & Hv & [<-|[<-|[]]]); [discriminate|].
  rewrite Forall_forall in H. destruct (H v Hv) as (kt & t & c & r & -> & _). discriminate.
Qed.
Lemma new_kinds k vs vss : Forall IsVal vs -> Forall (Forall IsVal) vss -> Forall (Unnamed k) (new_groups k vs vss).
Proof.
  intros Hv H. constructor; [now apply group_unnamed|]. induction H as [|us vss Hu _ IH]; [constructor|]. cbn [flat_map app].
  constructor; [discriminate|]. constructor; [now apply group_unnamed|]. exact IH.
Qed.

(** ** One replacement *)

Lemma in_sub tree p : InTree tree p -> Sub tree (el p).
Proof.
  assert (G : forall a b, Sub tree a -> Sub a b -> Sub tree b).
  { intros a b H. revert b. induction H as [|k cs c g Hc _ IH]; [auto|]. intros b Hb. eapply Sub_child; eauto. }
  induction 1 as [|p c T IH Hc]; [constructor|]. eapply G; [exact IH|].
  apply child_in in Hc as (l & g & r & E & ->). cbn [el]. destruct (el p) as [|k cs]; [destruct l; discriminate|].
  cbn [gchildren] in E. subst cs. eapply Sub_child; [apply in_elt|constructor].
Qed.

Lemma group_read tree k c1 : Document tree -> In k [PARAM; RESULT; LOCAL] -> Sub tree (Node k c1) ->
  SpecComplete.Reads (Regroup.group_rx k) c1 /\ SpecComplete.Tight c1.
Proof.
  intros (ms & tl & Er & Rd & Tl & _) Hk Sb. rewrite Er in Sb. destruct (Regroup.grammar_groups k Hk) as (_ & G2 & _ & G4).
  inversion Sb as [g Eg|k0 cs c g Hc Hs]; subst.
  - exfalso. clear - Hk. destruct Hk as [E|[E|[E|[]]]]; discriminate E.
  - apply in_app_or in Hc as [Hc|Hc]; [exact (Regroup.sub_reads k _ G2 _ _ Rd G4 c c1 Hc Hs)|].
    exfalso. destruct c; [inversion Hs|exact (Regroup.trivia_no_node _ _ _ Tl Hc)].
Qed.

(** A group with two or more types has no identifier. *)
Lemma trivia_types tr : SpecComplete.Trivia tr -> filter (node_of VAL_TYPE) tr = [] /\ (forall c, In c tr -> gkind c <> IDENT).
Proof.
  induction 1 as [|c tr Hc _ (I1 & I2)]; [split; [reflexivity|intros c []]|]. destruct c as [kc t|]; [|contradiction].
  split; [exact I1|]. intros c [<-|Hc']; [|auto]. intros E. cbn in E. subst kc. discriminate.
Qed.
Lemma one_type l : SpecComplete.Reads SpecComplete.VAL l -> length (filter (node_of VAL_TYPE) l) = 1 /\ (forall c, In c l -> gkind c <> IDENT).
Proof.
  intros H. inversion H as [| | |k0 e cs0 tr Ht Hr Hc E1 E2| | | | | | | |]; subst. destruct (trivia_types tr Ht) as (I1 & I2).
  rewrite filter_app, I1. split; [reflexivity|]. intros c Hi. apply in_app_or in Hi as [Hi|[<-|[]]]; [auto|discriminate].
Qed.
Lemma star_types e l : e = SpecComplete.Star SpecComplete.VAL -> SpecComplete.Reads e l -> forall c, In c l -> gkind c <> IDENT.
Proof.
  intros E H. induction H as [s tr Ht|k0 t tr Ht Hk|bb t tr Ht Hb|k0 e cs0 tr Ht Hr IH Hc|k0 e cs0 Hr IH|i l _ IH| |p q l1 l2 Hp IHp Hq IHq|p q l Hp IH|p q l Hp IH|p|p l1 l2 Hp IHp Hq IHq];
    try discriminate E; [intros c []|]. injection E as ->. intros c Hc. apply in_app_or in Hc as [Hc|Hc]; [|exact (IHq eq_refl c Hc)].
  now apply (one_type l1 Hp).
Qed.
Lemma tok_types e l : (exists k, e = SpecComplete.Tk k) \/ (exists s, e = SpecComplete.Kw s) -> SpecComplete.Reads e l ->
  filter (node_of VAL_TYPE) l = [] /\ (e <> SpecComplete.Tk IDENT -> forall c, In c l -> gkind c <> IDENT).
Proof.
  intros [(k & ->)|(s & ->)] H; inversion H as [s0 tr Ht|k0 t tr Ht Hk| | | | | | | | | |]; subst; destruct (trivia_types tr Ht) as (I1 & I2).
  all: rewrite filter_app, I1; split; [reflexivity|]; intros N c Hc; apply in_app_or in Hc as [Hc|[<-|[]]]; auto.
  - cbn. intros ->. now apply N.
  - discriminate.
Qed.
Lemma types_unnamed k cs : In k [PARAM; RESULT; LOCAL] -> SpecComplete.Reads (Regroup.group_rx k) cs ->
  2 <= length (filter (node_of VAL_TYPE) cs) -> forall c, In c cs -> gkind c <> IDENT.
Proof.
  intros Hk H L.
  assert (X : exists s x, SpecComplete.Reads (SpecComplete.Sq SpecComplete.lp (SpecComplete.Sq (SpecComplete.Kw s) (SpecComplete.Sq x SpecComplete.rp))) cs
                /\ (x = SpecComplete.VALS \/ x = SpecComplete.Star SpecComplete.VAL)).
  { destruct Hk as [<-|[<-|[<-|[]]]]; cbn [Regroup.group_rx SpecComplete.form SpecComplete.seq app] in H; eauto. }
  destruct X as (s & x & Q & Hx). clear H Hk.
  apply Regroup.sq_inv in Q as (a & b & -> & Qa & Q). apply Regroup.sq_inv in Q as (b' & c' & -> & Qb & Q).
  apply Regroup.sq_inv in Q as (d & e & -> & Qd & Qe).
  apply tok_types in Qa as (A1 & A2); [|left; eexists; reflexivity]. apply tok_types in Qb as (B1 & B2); [|right; eexists; reflexivity].
  apply tok_types in Qe as (E1 & E2); [|left; eexists; reflexivity].
  specialize (A2 ltac:(discriminate)). specialize (B2 ltac:(discriminate)). specialize (E2 ltac:(discriminate)).
  rewrite !filter_app, A1, B1, E1, app_nil_r in L. cbn [app] in L.
  assert (S : SpecComplete.Reads (SpecComplete.Star SpecComplete.VAL) d).
  { destruct Hx as [->| ->]; [|exact Qd]. inversion Qd as [| | | | | | | |? ? ? Q|? ? ? Q| |]; subst; [|exact Q]. exfalso.
    apply Regroup.sq_inv in Q as (u & v & -> & Qu & Qv). apply tok_types in Qu as (U & _); [|left; eexists; reflexivity].
    apply one_type in Qv as (V & _). rewrite filter_app, U in L. cbn [app] in L. lia. }
  intros c Hc. apply in_app_or in Hc as [Hc|Hc]; [auto|]. apply in_app_or in Hc as [Hc|Hc]; [auto|]. apply in_app_or in Hc as [Hc|Hc]; [|auto].
  exact (star_types _ d eq_refl S c Hc).
Qed.

Lemma regroup tree k p pk l m r m1 m2 c1 c2 vs vss :
  Document tree -> In k [PARAM; RESULT; LOCAL] -> InTree tree p -> el p = Node pk (l ++ m ++ r) -> pk <> BLOCK_TYPE ->
  m = Node k c1 :: m1 -> m = m2 ++ [Node k c2] ->
  Forall (Unnamed k) m ->
  Forall IsVal vs -> Forall (Forall IsVal) vss -> types_in k m = vs ++ concat vss ->
  exists tree' A C, gtokens tree = A ++ gtokenss m ++ C /\ gtokens tree' = A ++ gtokenss (new_groups k vs vss) ++ C
    /\ estart p + glens l = tlen (texts A) /\ Regrouped tree tree' /\ Document tree'
    /\ exists p', InTree tree' p' /\ el p' = Node pk (l ++ new_groups k vs vss ++ r) /\ estart p' = estart p.
Proof.
  intros D Hk T Ep Np M1 M2 Fm Hv Hvs Ht. set (m' := new_groups k vs vss).
  destruct (plug tree p T (Node pk (l ++ m' ++ r))) as (tree' & A & C & H1 & H2 & H3 & H4 & HP).
  rewrite Ep in H1, H2.
  assert (Tk : forall x, gtokens (Node pk (l ++ x ++ r)) = gtokenss l ++ gtokenss x ++ gtokenss r).
  { intros x. cbn [gtokens]. unfold gtokenss. now rewrite !map_app, !concat_app. }
  rewrite Tk, <- !app_assoc in H2, H3.
  exists tree', (A ++ gtokenss l), (gtokenss r ++ C).
  assert (E2 : gtokens tree = (A ++ gtokenss l) ++ gtokenss m ++ gtokenss r ++ C) by (rewrite H2, <- !app_assoc; reflexivity).
  assert (E3 : gtokens tree' = (A ++ gtokenss l) ++ gtokenss m' ++ gtokenss r ++ C) by (rewrite H3, <- !app_assoc; reflexivity).
  split; [exact E2|]. split; [exact E3|]. split; [|split; [|split; [|exact HP]]].
  - rewrite H4, texts_app, tlen_app, glens_tlen. f_equal. f_equal. unfold gtexts, texts, gtokenss.
    clear. induction l as [|g l IH]; [reflexivity|]. cbn [map concat]. now rewrite map_app, concat_app, <- IH, gtext_tokens.
  - exists k, pk, l, m, m', r. split; [exact Hk|]. split; [exact H1|]. split; [exists c1; rewrite M1; now left|]. split; [eexists; left; reflexivity|]. split; [apply Forall_app; split; [exact Fm|now apply new_kinds]|].
    rewrite Ht. symmetry. now apply types_new.
  - pose proof D as (ms & tl & Er & Rd & Tl & Sp).
    destruct (Regroup.grammar_groups k Hk) as (G1 & G2 & G3 & G4).
    assert (St : Regroup.Step m m' (Node ROOT (ms ++ tl)) tree') by (exists pk, l, r; split; [exact Np|]; rewrite <- Er; exact H1).
    set (c1' := [Tok L_PAREN (Text.T "("); Tok KEYWORD (kw_of k)] ++ flat_map (fun v => [ws1; v]) vs ++ [Tok R_PAREN (Text.T ")")]).
    destruct (Regroup.root_step k (Regroup.group_rx k) G1 G2 m m1 m2 m' (flat_map (fun vs => [ws1; group k (kw_of k) vs]) vss)
                c1 c2 c1' M1 M2 eq_refl (group_reads k vs Hk Hv) eq_refl (new_groups_ok k vss Hk Hvs) ms tl tree' G3 G4 Rd Tl St)
      as (ms' & tl' & Et' & Rd' & Tl').
    exists ms', tl'. split; [exact Et'|]. split; [exact Rd'|]. split; [exact Tl'|].
    rewrite E3. rewrite E2 in Sp.
    assert (SC : Separated (gtokenss r ++ C)) by (do 2 apply separated_tail in Sp; exact Sp).
    destruct (new_sep k vs vss _ Hk Hv Hvs SC) as (S' & z' & Ez').
    assert (X : exists z, ctexts (gtokenss m ++ gtokenss r ++ C) = c_lparen :: z).
    { assert (Sb : Sub (Node ROOT (ms ++ tl)) (Node k c1)).
      { rewrite <- Er. clear - T Ep M1. pose proof (in_sub _ _ T) as S. rewrite Ep in S.
        assert (S2 : Sub (Node pk (l ++ m ++ r)) (Node k c1)).
        { eapply Sub_child; [|constructor]. apply in_or_app. right. apply in_or_app. left. rewrite M1. now left. }
        clear - S S2. induction S as [|k0 cs c g Hc _ IH]; [exact S2|]. eapply Sub_child; [exact Hc|auto]. }
      pose proof (group_read tree k c1 D Hk ltac:(rewrite Er; exact Sb)) as Q.
      destruct Q as [Q Tg].
      assert (Y : exists t y, c1 = Tok L_PAREN t :: y).
      { assert (L : exists e, SpecComplete.Reads (SpecComplete.Sq SpecComplete.lp e) c1).
        { destruct Hk as [<-|[<-|[<-|[]]]]; cbn [Regroup.group_rx SpecComplete.form SpecComplete.seq app] in Q; eauto. }
        destruct L as (e & L). apply Regroup.sq_inv in L as (a & b & -> & La & _). inversion La as [|k0 t tr Htr _| | | | | | | | | |]; subst.
        destruct tr as [|[k0 t0|] tr]; [exists t, b; reflexivity| |inversion Htr; contradiction].
        inversion Htr; subst. cbn in Tg. congruence. }
      destruct Y as (t & y & ->). rewrite M1 in *. unfold gtokenss at 1. cbn [map concat gtokens app].
      assert (Ft : t = Text.T "(").
      { apply separated_tail in Sp. unfold gtokenss at 1 in Sp. cbn [map concat gtokens app SpecComplete.Separated] in Sp. apply Sp. }
      subst t. eexists. unfold SpecComplete.texts. cbn [map concat snd]. reflexivity. }
    destruct X as (z & Ez). eapply separated_swap; eauto.
Qed.

(** ** Code actions *)

Lemma childs_greens n k : map el (childs n k) = filter (node_of k) (gchildren (el n)).
Proof.
  unfold childs. rewrite <- greens_all. unfold children. generalize (children_with_tokens n). intros l.
  induction l as [|c l IH]; [reflexivity|]. cbn [filter map]. unfold is_node at 1. destruct (el c) as [kc t|kc cs] eqn:E.
  - cbn [node_of]. exact IH.
  - cbn [filter node_of]. unfold ekind at 1. rewrite E. cbn [gkind]. destruct (kind_eqb kc k); cbn [map]; rewrite IH, ?E; reflexivity.
Qed.

Section Doc.
  Variable tree : green.
  Hypothesis D : Document tree.
  Notation src := (gtext tree).

  Lemma types_vals l : Forall (is_type src) l -> Forall IsVal (map el l).
  Proof.
    pose proof (document_tree tree D) as Et. intros H. apply Forall_map. eapply Forall_impl; [|exact H]. clear l H. intros v (T & Nv & Kv).
    rewrite Et in T. pose proof (in_sub _ _ T) as S. destruct (plug tree v T (Node ROOT [])) as (_ & A & C & _ & Tk & _).
    unfold is_node, ekind in *. destruct (el v) as [|kv cs] eqn:E; [discriminate|]. cbn [gkind] in Kv. subst kv.
    rewrite <- Et in S. destruct (val_type_node src cs S) as (k & t & vt & -> & Ev & Hk). clear S.
    assert (F : SpecComplete.TokenForm k t).
    { destruct D as (ms & tl & _ & _ & _ & Sp). rewrite Tk in Sp. apply separated_tail in Sp. cbn [gtokens map concat app SpecComplete.Separated] in Sp. apply Sp. }
    assert (X : exists c r, t = c :: r /\ ~ In c (Text.T " " ++ [c_tab; c_lf; c_cr])).
    { clear - Ev. rewrite Ev. destruct vt; eexists _, _; (split; [vm_compute; reflexivity|vm_compute; intuition discriminate]). }
    destruct X as (c & r & X1 & X2). exists k, t, c, r. repeat split; auto; try apply F.
    cbn [In]. destruct Hk as [[-> _]|[[-> _]|[-> _]]]; auto.
  Qed.
  Lemma groups_new k v vs : gtokenss (new_groups k [el v] (map (fun v => [el v]) vs)) = groups (kw_of k) (v :: vs).
  Proof.
    assert (G : forall v, gtokens (group k (kw_of k) [el v]) = [lp_t; (KEYWORD, kw_of k); sp_t] ++ gtokens (el v) ++ [rp_t]).
    { intros x. unfold group. cbn [gtokens flat_map app map concat ws1]. reflexivity. }
    revert v. induction vs as [|u vs IH]; intros v.
    - unfold new_groups, gtokenss. cbn [map flat_map concat]. rewrite G, app_nil_r. reflexivity.
    - change (groups (kw_of k) (v :: u :: vs)) with ([lp_t; (KEYWORD, kw_of k); sp_t] ++ gtokens (el v) ++ [rp_t; sp_t] ++ groups (kw_of k) (u :: vs)).
      rewrite <- IH. unfold new_groups, gtokenss. cbn [map flat_map concat app]. rewrite !G, <- !app_assoc. reflexivity.
  Qed.
  Lemma listed_new k v vs : gtokenss (new_groups k (map el (v :: vs)) []) = [lp_t; (KEYWORD, kw_of k); sp_t] ++ listed (v :: vs) ++ [rp_t].
  Proof.
    unfold new_groups, gtokenss. cbn [flat_map map concat]. rewrite app_nil_r. unfold group. cbn [gtokens]. rewrite !map_app, !concat_app.
    cbn [map concat gtokens app]. do 2 f_equal. cbn [flat_map map]. revert v. induction vs as [|u vs IH]; intros v.
    - cbn [map flat_map app concat listed ws1 gtokens]. rewrite app_nil_r. reflexivity.
    - change (listed (v :: u :: vs)) with (gtokens (el v) ++ sp_t :: listed (u :: vs)). cbn [map flat_map app concat ws1 gtokens].
      cbn [map flat_map app concat ws1 gtokens] in IH. rewrite <- !app_assoc. cbn [app]. rewrite IH. reflexivity.
  Qed.

  Lemma split_regroup n kw title r : (ekind n = RESULT -> SingleResults tree) -> InTree tree n -> is_node n = true ->
    In (ekind n, (kw, title)) splittable -> 2 <= length (childs n VAL_TYPE) -> RangeOf src n r ->
    exists tree', Applied src [(r, spaced (map (fun ty => Text.T "(" ++ kw ++ Text.T " " ++ etext ty ++ Text.T ")") (childs n VAL_TYPE)))] (gtext tree')
      /\ Regrouped tree tree' /\ Document tree'
      /\ exists before rest p pk l rr v vs, gtext tree = before ++ etext n ++ rest /\ estart n = tlen before
           /\ gtext tree' = before ++ spaced (map (fun ty => Text.T "(" ++ kw ++ Text.T " " ++ etext ty ++ Text.T ")") (childs n VAL_TYPE)) ++ rest
           /\ InTree tree' p /\ el p = Node pk (l ++ new_groups (ekind n) [v] (map (fun v => [v]) vs) ++ rr)
           /\ estart p + glens l = tlen before /\ map el (childs n VAL_TYPE) = v :: vs /\ Forall IsVal (v :: vs).
  Proof.
    intros SR T Nn K L (R1 & R2). pose proof (document_tree tree D) as Et.
    assert (Hk : In (ekind n) [PARAM; RESULT; LOCAL] /\ kw = kw_of (ekind n)).
    { unfold splittable in K. cbn [In] in K. destruct K as [K|[K|[K|[]]]]; injection K as <- <- _; cbn; auto. }
    destruct Hk as (Hk & ->). clear K. set (k := ekind n) in *.
    assert (Ty : Forall (is_type src) (childs n VAL_TYPE)) by (apply types_of_childs; rewrite Et; exact T).
    assert (Kw : In (kw_of k) [Text.T "param"; Text.T "result"; Text.T "local"]).
    { revert Hk. generalize k. clear. intros k Hk. destruct Hk as [<-|[<-|[<-|[]]]]; cbn; auto. }
    destruct (groups_spec src (kw_of k) _ Ty Kw) as (E1 & _ & _).
    pose proof (types_vals _ Ty) as V. pose proof (childs_greens n VAL_TYPE) as Cg.
    inversion T as [Eroot|p c Tp Hc Ec].
    { exfalso. destruct D as (ms & tl & Er & _). subst k. rewrite <- Eroot in Hk. unfold ekind, root_of in Hk. cbn [el] in Hk. rewrite Er in Hk.
      cbn in Hk. intuition discriminate. }
    subst c. pose proof Hc as Hch. apply child_in in Hc as (l & g & rr & Eg & En).
    destruct (el p) as [|pk cs] eqn:Ep; [destruct l; discriminate|]. cbn [gchildren] in Eg. subst cs.
    assert (Gn : exists cs, g = Node k cs).
    { subst n. unfold is_node, ekind in *. cbn [el] in *. destruct g as [|gk cs]; [discriminate|]. exists cs. reflexivity. }
    destruct Gn as (cs & Gn). assert (En' : el n = Node k cs) by (rewrite En; exact Gn). rewrite En' in Cg. cbn [gchildren] in Cg.
    assert (Np : pk <> BLOCK_TYPE).
    { intros ->. assert (Hch' : In n (children p)) by (unfold children; apply filter_In; auto).
      rewrite <- Et in Tp. pose proof (child_kind src p n Tp Hch') as CK. rewrite Et in Tp.
      assert (Kp : ekind p = BLOCK_TYPE) by (unfold ekind; now rewrite Ep). rewrite Kp in CK. fold k in CK.
      assert (KR : k = RESULT).
      { revert CK. revert Hk. generalize k. clear. intros k Hk. destruct Hk as [<-|[<-|[<-|[]]]]; intros CK; [|reflexivity|]; vm_compute in CK; intuition discriminate. }
      pose proof (in_sub _ _ Tp) as Sb. rewrite Ep in Sb. specialize (SR KR _ cs Sb). rewrite <- KR, <- Gn in SR.
      specialize (SR (in_elt _ _ _)). rewrite <- Cg, map_length in SR. lia. }
    destruct (childs n VAL_TYPE) as [|v vs] eqn:Ec; [cbn in L; lia|].
    destruct (regroup tree k p pk l [g] rr [] [] cs cs [el v] (map (fun v => [el v]) vs)) as (tree' & A & C & H1 & H2 & H3 & H4 & H5 & p' & P1 & P2 & P3); auto.
    - now rewrite Gn.
    - now rewrite Gn.
    - constructor; [|constructor]. rewrite Gn. split; [reflexivity|]. pose proof (in_sub _ _ T) as Sb. rewrite En' in Sb.
      apply (types_unnamed k cs Hk (proj1 (group_read tree k cs D Hk Sb))). rewrite <- Cg, map_length. exact L.
    - constructor; [exact (Forall_inv V)|constructor].
    - pose proof (Forall_inv_tail V) as V'. fold (map el vs) in V'. clear - V'. induction vs as [|u vs IH]; [constructor|]. inversion V'; subst.
      constructor; [repeat constructor; assumption|auto].
    - rewrite Gn. unfold types_in. cbn [flat_map]. rewrite kind_eqb_refl, app_nil_r, <- Cg. cbn [map app]. f_equal.
      clear. induction vs as [|u vs IH]; [reflexivity|]. cbn [map concat app]. now rewrite <- IH.
    - exists tree'.
      assert (Sn : estart n = tlen (texts A)) by (rewrite <- H3, En; unfold estart; reflexivity).
      assert (Tn : gtokenss [g] = gtokens (el n)).
      { unfold gtokenss. cbn [map concat]. rewrite app_nil_r, En', Gn. reflexivity. }
      split; [|split; [exact H4|split; [exact H5|]]]; cycle 1.
      { exists (texts A), (texts C), p', pk, l, rr, (el v), (map el vs). rewrite map_map. split; [|split; [exact Sn|split; [|split; [exact P1|split; [exact P2|split; [|split; [reflexivity|exact V]]]]]]].
        - rewrite gtext_tokens, H1, Tn. fold (texts (A ++ gtokens (el n) ++ C)). rewrite !texts_app. f_equal. f_equal. unfold etext. now rewrite gtext_tokens.
        - rewrite gtext_tokens, H2, groups_new. fold (texts (A ++ groups (kw_of k) (v :: vs) ++ C)). rewrite !texts_app, E1. reflexivity.
        - rewrite P3. exact H3. }
      rewrite <- E1. rewrite (gtext_tokens tree'), H2, groups_new. fold (texts (A ++ groups (kw_of k) (v :: vs) ++ C)).
      rewrite <- (app_nil_r (texts (A ++ groups (kw_of k) (v :: vs) ++ C))).
      apply (ThmAction.replaced src A (gtokenss [g]) C); [rewrite Et; exact H1|now rewrite ?Et, app_nil_r| |].
      + rewrite <- Sn. exact R1.
      + rewrite texts_app, tlen_app, <- Sn, Tn, <- eend_tokens. exact R2.
  Qed.

  Lemma run_green p0 m : Forall (fun c => is_node c = true -> ekind c = PARAM) (p0 :: m) ->
    types_in PARAM (map el (p0 :: m)) = map el (flat_map (fun c => childs c VAL_TYPE) (filter is_node (p0 :: m))).
  Proof.
    generalize (p0 :: m). intros l H. induction H as [|c l Hc _ I1]; [reflexivity|].
    cbn [map filter]. unfold is_node, ekind in Hc. unfold is_node at 1. destruct (el c) as [kc t|kc cs] eqn:E; [exact I1|].
    cbn [gkind] in Hc. rewrite (Hc eq_refl) in *.
    change (?a :: ?b) with ([a] ++ b). rewrite types_app, I1. cbn [app flat_map]. rewrite map_app, childs_greens, E. cbn [gchildren].
    unfold types_in. cbn [flat_map]. rewrite kind_eqb_refl, app_nil_r. reflexivity.
  Qed.
  Lemma run_unnamed l :
    (forall c, In c l -> if is_node c then ekind c = PARAM /\ forall d, In d (children_with_tokens c) -> ekind d <> IDENT else ekind c <> IDENT) ->
    Forall (Unnamed PARAM) (map el l).
  Proof.
    intros H. apply Forall_forall. intros g Hg. apply in_map_iff in Hg as (c & <- & Hc). specialize (H c Hc). pose proof (greens_all c) as Ga.
    unfold is_node in H. unfold ekind at 1 3 in H. destruct (el c) as [kc t|kc cs]; [exact H|]. cbn [gkind gchildren] in *.
    destruct H as (-> & H). split; [reflexivity|]. intros d Hd. rewrite <- Ga in Hd. apply in_map_iff in Hd as (d' & <- & Hd). exact (H d' Hd).
  Qed.

  Lemma join_regroup n a b p ps r : InTree tree n -> In (ekind n) [TYPE_USE; FUNC_TYPE] -> FirstRun n a b (p :: ps) ->
    let types := flat_map (fun c => childs c VAL_TYPE) (p :: ps) in
    2 <= length types ->
    line_col (new_line_index src) (estart p) = Some (fst r) ->
    line_col (new_line_index src) (eend (last ps p)) = Some (snd r) ->
    exists tree', Applied src [(r, Text.T "(param " ++ spaced (map etext types) ++ Text.T ")")] (gtext tree')
      /\ Regrouped tree tree' /\ Document tree'
      /\ exists before old rest q l rr, gtext tree = before ++ old ++ rest /\ estart p = tlen before /\ eend (last ps p) = tlen (before ++ old)
           /\ gtext tree' = before ++ (Text.T "(param " ++ spaced (map etext types) ++ Text.T ")") ++ rest
           /\ InTree tree' q /\ el q = Node (ekind n) (l ++ [group PARAM (Text.T "param") (map el types)] ++ rr)
           /\ estart q + glens l = tlen before /\ Forall IsVal (map el types).
  Proof.
    intros T K (l & y & E & _ & J & _) types L R1 R2. pose proof (document_tree tree D) as Et.
    unfold children in E. apply filter_run in E as (X & m & R & m' & E & Hm & Em).
    pose proof (greens_all n) as Gn. rewrite E, !map_app in Gn.
    assert (Kn : exists cs, el n = Node (ekind n) cs).
    { unfold ekind. destruct (el n) as [kt t|kn cs] eqn:En; [|eauto]. exfalso.
      unfold children_with_tokens in E. rewrite En in E. destruct X; discriminate. }
    destruct Kn as (cs & En). rewrite En in Gn. cbn [gchildren] in Gn. subst cs.
    assert (Ks : Forall (fun c => is_node c = true -> ekind c = PARAM) (p :: m)).
    { apply Forall_forall. intros c Hc Nc. assert (Hi : In c (p :: ps)) by (rewrite <- Hm; apply filter_In; auto).
      rewrite Forall_forall in J. apply (J c Hi). }
    assert (G2 : Forall (Unnamed PARAM) (map el (p :: m))).
    { apply run_unnamed. intros c Hc. destruct (is_node c) eqn:Nc.
      - assert (Hi : In c (p :: ps)) by (rewrite <- Hm; apply filter_In; auto).
        rewrite Forall_forall in J. destruct (J c Hi) as (J1 & _ & _ & J2). now split.
      - assert (Hi : In c (children_with_tokens n)) by (rewrite E; apply in_or_app; right; apply in_or_app; now left).
        rewrite <- Et in T. assert (Nr : ekind n <> ROOT) by (intros Er; rewrite Er in K; cbn in K; intuition discriminate).
        destruct (token_kind src n c T Hi Nc Nr) as [Kc|Kc]; intros Ki; rewrite Ki in Kc.
        + destruct K as [K|[K|[]]]; rewrite <- K in Kc; vm_compute in Kc; intuition discriminate.
        + destruct Kc as [Kc|[Kc|Kc]]; discriminate. }
    pose proof (run_green p m Ks) as G1. rewrite Hm in G1. fold types in G1.
    assert (Node_of : forall c, is_node c = true -> ekind c = PARAM -> exists cs, el c = Node PARAM cs).
    { intros c Nc Kc. unfold is_node, ekind in *. destruct (el c); [discriminate|]. cbn in Kc. subst. eauto. }
    assert (Pn : forall c, In c (p :: ps) -> exists cs, el c = Node PARAM cs).
    { intros c Hc. pose proof Hc as Hc'. rewrite <- Hm in Hc. apply filter_In in Hc as (_ & Nc). apply Node_of; [exact Nc|].
      rewrite Forall_forall in J. apply (J c Hc'). }
    destruct (Pn p (or_introl eq_refl)) as (c1 & C1).
    assert (Hl : In (last ps p) (p :: ps)).
    { clear. destruct (exists_last (l := p :: ps) ltac:(discriminate)) as (z & x & Ez).
      assert (Q : last ps p = x).
      { assert (Q : last (p :: ps) p = x) by (rewrite Ez; apply last_last). destruct ps; [exact Q|]. cbn [last] in *.
        exact Q. }
      rewrite Q, Ez. apply in_or_app. right. now left. }
    destruct (Pn _ Hl) as (c2 & C2).
    assert (Ty : Forall (is_type src) types).
    { unfold types. apply Forall_forall. intros v Hv. apply in_flat_map in Hv as (c & Hc & Hv).
      rewrite <- Hm in Hc. apply filter_In in Hc as (Hc & _).
      assert (Tc : InTree (tree_of src) c).
      { rewrite Et. econstructor; [exact T|]. rewrite E. apply in_or_app. right. apply in_or_app. now left. }
      pose proof (types_of_childs src c Tc) as F. rewrite Forall_forall in F. now apply F. }
    pose proof (types_vals _ Ty) as V. destruct (listed_spec src _ Ty) as (E1 & _ & _).
    destruct types as [|v vs] eqn:Evs; [cbn in L; lia|].
    destruct (regroup tree PARAM n (ekind n) (map el X) (map el (p :: m)) (map el R) (map el m) (map el m') c1 c2 (map el (v :: vs)) [])
      as (tree' & A & C & H1 & H2 & H3 & H4 & H5 & q' & P1 & P2 & P3); auto.
    - now left.
    - intros Kb. rewrite Kb in K. cbn in K. intuition discriminate.
    - cbn [map]. now rewrite C1.
    - rewrite Em, map_app. cbn [map]. now rewrite C2.
    - cbn [concat]. rewrite app_nil_r. exact G1.
    - exists tree'.
      set (N := [lp_t; (KEYWORD, kw_of PARAM); sp_t] ++ listed (v :: vs) ++ [rp_t]).
      assert (Nt : Text.T "(param " ++ spaced (map etext (v :: vs)) ++ Text.T ")" = texts N)
        by (unfold N; rewrite !texts_app, E1; reflexivity).
      assert (Sp : estart p = tlen (texts A)).
      { rewrite <- H3. pose proof E as E'. cbn [app] in E'. unfold children_with_tokens in E'.
        rewrite (kids_start _ _ _ _ _ _ _ _ _ E'). unfold estart. f_equal. rewrite glens_tlen. f_equal.
        unfold texts, gtexts, ctoks. rewrite <- flat_map_concat_map, flat_map_concat_map. clear. induction X as [|x X IH]; [reflexivity|].
        cbn [flat_map map concat]. rewrite map_app, concat_app, IH, <- gtext_tokens. reflexivity. }
      assert (Tk : gtokenss (map el (p :: m)) = ctoks (p :: m)).
      { unfold gtokenss, ctoks. now rewrite map_map, flat_map_concat_map. }
      assert (Le : eend (last ps p) = tlen (texts (A ++ ctoks (p :: m)))).
      { rewrite <- Et in T. destruct (span_split src n X p m R (last ps p) m' T E Em) as (A' & C' & _ & S1 & S2).
        rewrite S2, !texts_app, !tlen_app. lia. }
      assert (T2 : gtext tree' = texts A ++ texts N ++ texts C).
      { rewrite (gtext_tokens tree'), H2, listed_new. fold N. fold (texts (A ++ N ++ C)). now rewrite !texts_app. }
      split; [|split; [exact H4|split; [exact H5|]]].
      + rewrite T2, Nt, <- !texts_app, <- (app_nil_r (texts (A ++ N ++ C))).
        apply (ThmAction.replaced src A (gtokenss (map el (p :: m))) C); [rewrite Et; exact H1|now rewrite ?Et, app_nil_r| |].
        * rewrite <- Sp. exact R1.
        * rewrite Tk, <- Le. exact R2.
      + exists (texts A), (texts (ctoks (p :: m))), (texts C), q', (map el X), (map el R). rewrite texts_app in Le.
        split; [|split; [exact Sp|split; [exact Le|split; [|split; [exact P1|split; [exact P2|split; [|exact V]]]]]]].
        * rewrite gtext_tokens, H1, Tk. fold (texts (A ++ ctoks (p :: m) ++ C)). now rewrite !texts_app.
        * rewrite T2, Nt. reflexivity.
        * rewrite P3. exact H3.
  Qed.
End Doc.

(** ** C53 *)

Theorem C53_regrouped dbg tree w p q l act :
  Document tree -> SingleResults tree -> code_action (gtext tree) w p q = Ans l -> In act l ->
  exists tree', Applied (gtext tree) (a_edits act) (gtext tree')
    /\ Regrouped tree tree' /\ Document tree' /\ parse dbg (gtext tree') = Parsed tree' [].
Proof.
  intros D SR H Hin. destruct (C31_offered _ _ _ _ _ _ H Hin) as (a & b & n & _ & _ & _ & T & Nn & _ & O).
  rewrite (document_tree tree D) in T.
  enough (X : exists tree', Applied (gtext tree) (a_edits act) (gtext tree') /\ Regrouped tree tree' /\ Document tree').
  { destruct X as (tree' & X1 & X2 & X3). exists tree'. repeat (split; [assumption|]). now apply ThmComplete.C48_complete. }
  destruct O as [kw title r _ K L R|p0 ps r _ K F types L R1 R2|x mid rest ws rs _ _ E M _].
  - cbn [a_edits]. destruct (split_regroup tree D n kw title r (fun _ => SR) T Nn K L R) as (tree' & X1 & X2 & X3 & _). eauto.
  - cbn [a_edits]. destruct (join_regroup tree D n a b p0 ps r T K F L R1 R2) as (tree' & X1 & X2 & X3 & _). eauto.
  - exfalso. assert (G : forall e, In e mid -> IsTok ERROR e -> False).
    { intros e He (Ne & Ke). assert (Te : InTree tree e).
      { econstructor; [exact T|]. rewrite E. apply in_or_app. right. apply in_or_app. now left. }
      pose proof (tok_in_tokens tree e Te Ne) as Hi. rewrite Ke in Hi. destruct D as (ms & tl & _ & _ & _ & Sp).
      clear - Sp Hi. induction (gtokens tree) as [|[k t] l IH]; [destruct Hi|]. destruct Sp as ((_ & S1) & _ & S3).
      destruct Hi as [E|Hi]; [injection E as -> _; exact S1|auto]. }
    destruct M as [e ? ? ? ? He|e ? ? He|e ? ? He]; exact (G e (or_introl eq_refl) He).
Qed.
Print Assumptions C53_regrouped.

(** ** Examples *)

Definition regroup_ex : text := Text.T "(module (func (param i32 i64) (result f32)))".
Definition regroup_out : text := Text.T "(module (func (param i32) (param i64) (result f32)))".
Definition all_wanted : wanted := mk_wanted true true.
Fixpoint single_resultsb (g : green) : bool :=
  match g with
  | Tok _ _ => true
  | Node k cs =>
      (negb (kind_eqb k BLOCK_TYPE)
       || forallb (fun c => match c with Node RESULT rs => length (filter (node_of VAL_TYPE) rs) <? 2 | _ => true end) cs)
      && forallb single_resultsb cs
  end.
Lemma single_resultsb_ok tree : single_resultsb tree = true -> SingleResults tree.
Proof.
  intros H bs rs S Hin. remember (Node BLOCK_TYPE bs) as b eqn:Eb. induction S as [g|k cs c g Hc _ IH]; subst.
  - cbn [single_resultsb] in H. rewrite kind_eqb_refl in H. apply andb_prop in H as (H & _). cbn [negb orb] in H.
    rewrite forallb_forall in H. specialize (H _ Hin). now apply Nat.ltb_lt in H.
  - apply IH; [|reflexivity]. cbn [single_resultsb] in H. apply andb_prop in H as (_ & H). rewrite forallb_forall in H. auto.
Qed.
(** Splitting the parameters, and joining them again. *)
Example C53_case :
  Document (tree_of regroup_ex) /\ gtext (tree_of regroup_ex) = regroup_ex /\ SingleResults (tree_of regroup_ex)
  /\ code_action regroup_ex all_wanted (0, 17) (0, 17)
     = Ans [mk_action (Text.T "Split parameters") [((0, 14), (0, 29), Text.T "(param i32) (param i64)")]]
  /\ Document (tree_of regroup_out) /\ gtext (tree_of regroup_out) = regroup_out
  /\ code_action regroup_out all_wanted (0, 14) (0, 37)
     = Ans [mk_action (Text.T "Join parameters") [((0, 14), (0, 37), Text.T "(param i32 i64)")]].
Proof.
  split; [apply ThmComplete.documentb_ok; vm_compute; reflexivity|]. split; [vm_compute; reflexivity|].
  split; [apply single_resultsb_ok; vm_compute; reflexivity|]. split; [vm_compute; reflexivity|].
  split; [apply ThmComplete.documentb_ok; vm_compute; reflexivity|]. split; vm_compute; reflexivity.
Qed.

(** *** What does not hold *)

(** A block type is one result: after splitting it, the document does not
    parse any more. *)
Definition block_ex : text := Text.T "(module (func (block (result i32 i64))))".
Definition block_split : action :=
  mk_action (Text.T "Split results") [((0, 21), (0, 37), Text.T "(result i32) (result i64)")].
Definition block_out : text := Text.T "(module (func (block (result i32) (result i64))))".
Theorem C53_block_results_refuted :
  ~ forall tree w p q l act out, Document tree -> code_action (gtext tree) w p q = Ans l -> In act l ->
      Applied (gtext tree) (a_edits act) out -> exists tree', parse false out = Parsed tree' [].
Proof.
  intros H.
  assert (E : gtext (tree_of block_ex) = block_ex) by (vm_compute; reflexivity).
  destruct (H (tree_of block_ex) all_wanted (0, 24) (0, 24) [block_split] block_split block_out) as (tree' & P).
  - apply ThmComplete.documentb_ok; vm_compute; reflexivity.
  - vm_compute. reflexivity.
  - now left.
  - rewrite E. change (Edited [] (Text.T "(module (func (block " ++ Text.T "(result i32 i64)" ++ Text.T ")))") (a_edits block_split)
      (Text.T "(module (func (block " ++ Text.T "(result i32) (result i64)" ++ Text.T ")))")).
    apply Ed_edit; [|constructor].
    apply (at_text block_ex _ _ (Text.T ")))")); vm_compute; reflexivity.
  - assert (X : match parse false block_out with Parsed _ [] => false | _ => true end = true) by (vm_compute; reflexivity).
    rewrite P in X. discriminate X.
Qed.
Print Assumptions C53_block_results_refuted.
