(** Splitting and joining parameters undo each other (C60). *)

From Coq Require Import String List NArith Bool Arith Lia.
From Verif Require Import Text Kind Green SpecParser Lossless Red LineIndex Cursor ThmPos Doc Ast Preorder
  Nav NavSpec ThmStructure SpecAction Action ThmAction SpecRename ThmRenamed SpecRegroup SigFacts ThmRegroup SpecInverse.
From Verif Require SpecComplete ThmComplete.
Import ListNotations.

(** ** Children by their greens *)

Lemma split_children p l m r : gchildren (el p) = l ++ m ++ r ->
  exists X M R, children_with_tokens p = X ++ M ++ R /\ map el X = l /\ map el M = m /\ map el R = r.
Proof.
  intros E. pose proof (greens_all p) as G. rewrite E in G. apply map_eq_app in G as (X & Y & E1 & E2 & G).
  apply map_eq_app in G as (M & R & -> & E3 & E4). exists X, M, R. auto.
Qed.
Lemma start_of p X c R : children_with_tokens p = X ++ c :: R -> estart c = estart p + glens (map el X).
Proof.
  intros E. unfold children_with_tokens in E. rewrite (kids_start _ _ _ _ _ _ _ _ _ E). unfold estart. f_equal. rewrite glens_tlen. f_equal.
  unfold texts, gtexts, ctoks. rewrite <- flat_map_concat_map, flat_map_concat_map. clear. induction X as [|x X IH]; [reflexivity|].
  cbn [flat_map map concat]. rewrite map_app, concat_app, IH, <- gtext_tokens. reflexivity.
Qed.
Lemma glens_app a b : glens (a ++ b) = glens a + glens b.
Proof. unfold glens. now rewrite map_app, list_sum_app. Qed.
Lemma glens_one g : glens [g] = glen g.
Proof. unfold glens. cbn. lia. Qed.

Definition unnamed (g : green) : Prop :=
  match g with Node k cs => k = PARAM /\ Forall (fun c => gkind c <> IDENT) cs | Tok _ _ => True end.

Section Run.
  Variable tree : green.
  Hypothesis D : Document tree.
  Notation src := (gtext tree).

  (** A run of groups without names between two positions can be in_one. *)
  Lemma run_offered w p l m r c1 c2 m1 m2 rg : w_rewrite w = true -> InTree tree p ->
    el p = Node (ekind p) (l ++ m ++ r) -> In (ekind p) [TYPE_USE; FUNC_TYPE] ->
    m = Node PARAM c1 :: m1 -> m = m2 ++ [Node PARAM c2] -> Forall unnamed m -> 2 <= length (types_in PARAM m) ->
    let a := estart p + glens l in let b := a + glens m in
    line_col (new_line_index src) a = Some (fst rg) -> line_col (new_line_index src) b = Some (snd rg) ->
    Offered src w a b p (replaces (Text.T "Join parameters") rg (in_one (map gtext (types_in PARAM m)))).
  Proof.
    intros W T Ep K M1 M2 U L a b R1 R2. pose proof (document_tree tree D) as Et.
    destruct (split_children p l m r) as (X & M & R & E & EX & EM & ER); [now rewrite Ep|].
    assert (B1 : exists c0 M1', M = c0 :: M1' /\ el c0 = Node PARAM c1).
    { rewrite M1 in EM. destruct M as [|c0 M1']; [discriminate|]. injection EM as E0 _. eauto. }
    assert (B2 : exists M2' z, M = M2' ++ [z] /\ map el M2' = m2 /\ el z = Node PARAM c2).
    { rewrite M2 in EM. apply map_eq_app in EM as (M2' & Z & -> & E0 & EZ). destruct Z as [|z [|]]; try discriminate.
      injection EZ as EZ. eauto. }
    destruct B1 as (c0 & M1' & -> & E0). destruct B2 as (M2' & z & E2 & EM2 & Ez).
    assert (N0 : is_node c0 = true) by (unfold is_node; now rewrite E0).
    assert (Nz : is_node z = true) by (unfold is_node; now rewrite Ez).
    assert (F0 : filter is_node (c0 :: M1') = c0 :: filter is_node M1') by (cbn [filter]; now rewrite N0).
    assert (Lz : last (filter is_node M1') c0 = z).
    { assert (Q : last (c0 :: filter is_node M1') c0 = z).
      { rewrite <- F0, E2, filter_app. cbn [filter]. rewrite Nz. apply last_last. }
      destruct (filter is_node M1'); exact Q. }
    assert (Kids : forall c, In c (X ++ (c0 :: M1') ++ R) -> InTree tree c).
    { intros c Hc. rewrite <- E in Hc. econstructor; eauto. }
    assert (NE : forall c, In c (X ++ (c0 :: M1') ++ R) -> is_node c = true -> ekind c = PARAM -> estart c < eend c).
    { intros c Hc Nc Kc. apply (node_nonempty src); [rewrite Et; auto|exact Nc| |]; rewrite Kc; discriminate. }
    assert (S0 : estart c0 = a).
    { rewrite (start_of p X c0 (M1' ++ R)) by exact E. now rewrite EX. }
    assert (Sz : eend z = b).
    { unfold eend. fold (estart z). rewrite (start_of p (X ++ M2') z R).
      - rewrite map_app, EX, EM2, Ez, glens_app. unfold b, a. rewrite M2, glens_app, glens_one. lia.
      - rewrite E, E2, <- !app_assoc. reflexivity. }
    assert (Ks : Forall (fun c => is_node c = true -> ekind c = PARAM) (c0 :: M1')).
    { apply Forall_forall. intros c Hi Nc. rewrite Forall_forall in U. assert (Hc : unnamed (el c)) by (apply U; rewrite <- EM; now apply in_map). unfold unnamed, is_node, ekind in *.
      destruct (el c); [discriminate|]. apply Hc. }
    pose proof (run_green c0 M1' Ks) as G1. rewrite EM, F0 in G1.
    set (types := flat_map (fun c => childs c VAL_TYPE) (c0 :: filter is_node M1')) in *.
    assert (Ty : map gtext (types_in PARAM m) = map etext types) by (rewrite G1, map_map; reflexivity).
    unfold replaces, in_one. rewrite Ty. apply Off_join; [exact W|exact K| | | |].
    - exists (filter is_node X), (filter is_node R). unfold children. rewrite E, !filter_app, F0. split; [reflexivity|]. split; [|split].
      + apply Forall_forall. intros c Hc J. apply filter_In in Hc as (Hc & Nc). destruct J as (Kc & J1 & _).
        assert (Hi : In c (X ++ (c0 :: M1') ++ R)) by (apply in_or_app; now left).
        pose proof (NE c Hi Nc Kc) as Ne. apply in_split in Hc as (X1 & X2 & Ex).
        pose proof (start_of p X1 c (X2 ++ (c0 :: M1') ++ R)) as Sc. rewrite E, Ex, <- !app_assoc in Sc. specialize (Sc eq_refl).
        assert (Gl : glens l = glens (map el X1) + (glen (el c) + glens (map el X2))).
        { rewrite <- EX, Ex, map_app, glens_app. cbn [map]. change (?g :: ?t) with ([g] ++ t). rewrite glens_app, glens_one. reflexivity. }
        unfold eend in Ne. fold (estart c) in Ne. unfold a in J1. lia.
      + apply Forall_forall. intros c Hc. rewrite <- F0 in Hc. apply filter_In in Hc as (Hc & Nc).
        rewrite Forall_forall in Ks. pose proof (Ks c Hc Nc) as Kc. split; [exact Kc|].
        assert (Pos : a <= estart c /\ eend c <= b).
        { pose proof Hc as Hs. apply in_split in Hs as (Y1 & Y2 & Ey).
          pose proof (start_of p (X ++ Y1) c (Y2 ++ R)) as Sc. rewrite E, Ey, <- !app_assoc in Sc. specialize (Sc eq_refl).
          rewrite map_app, EX, glens_app in Sc. unfold eend. fold (estart c).
          assert (Gm : glens m = glens (map el Y1) + (glen (el c) + glens (map el Y2))).
          { rewrite <- EM, Ey, map_app, glens_app. cbn [map]. change (?g :: ?t) with ([g] ++ t). rewrite glens_app, glens_one. reflexivity. }
          unfold b, a. rewrite Gm. lia. }
        split; [apply Pos|split; [apply Pos|]].
        intros x Hx. assert (Uc : unnamed (el c)).
        { rewrite Forall_forall in U. apply U. rewrite <- EM. now apply in_map. }
        unfold ekind, unnamed, is_node in *. destruct (el c) as [|kc cs] eqn:Ec; [discriminate|]. destruct Uc as (_ & Uc).
        rewrite Forall_forall in Uc. apply Uc. pose proof (greens_all c) as Gc. rewrite Ec in Gc. cbn [gchildren] in Gc. rewrite <- Gc. now apply in_map.
      + destruct (filter is_node R) as [|c R'] eqn:Er; [exact I|]. intros (Kc & _ & J2 & _).
        assert (Hc : In c R /\ is_node c = true) by (apply filter_In; rewrite Er; now left). destruct Hc as (Hc & Nc).
        assert (Hi : In c (X ++ (c0 :: M1') ++ R)) by (apply in_or_app; right; apply in_or_app; now right).
        pose proof (NE c Hi Nc Kc) as Ne. apply in_split in Hc as (R1' & R2' & ER').
        pose proof (start_of p (X ++ (c0 :: M1') ++ R1') c R2') as Sc. rewrite E, ER', <- !app_assoc in Sc. specialize (Sc eq_refl).
        rewrite !map_app, EX, EM, !glens_app in Sc. unfold b, a in J2. lia.
    - rewrite G1, map_length in L. exact L.
    - rewrite S0. exact R1.
    - rewrite Lz, Sz. exact R2.
  Qed.
End Run.

Lemma new_last k vs vss : exists m2 c2, new_groups k vs vss = m2 ++ [Node k c2].
Proof.
  unfold new_groups. destruct vss as [|us vss _] using rev_ind.
  - exists [], ([Tok L_PAREN (Text.T "("); Tok KEYWORD (kw_of k)] ++ flat_map (fun v => [ws1; v]) vs ++ [Tok R_PAREN (Text.T ")")]). reflexivity.
  - rewrite flat_map_app. cbn [flat_map app].
    exists (group k (kw_of k) vs :: flat_map (fun vs => [ws1; group k (kw_of k) vs]) vss ++ [ws1]). eexists.
    unfold group at 4. cbn [app]. rewrite <- app_assoc. reflexivity.
Qed.
Lemma group_glen vs : glen (group PARAM (Text.T "param") vs) = 7 + glens (flat_map (fun v => [ws1; v]) vs).
Proof.
  unfold group. change (glen (Node PARAM ?l)) with (glens l). rewrite !glens_app. change (glens [Tok L_PAREN (Text.T "("); Tok KEYWORD (Text.T "param")]) with 6.
  change (glens [Tok R_PAREN (Text.T ")")]) with 1. lia.
Qed.
Lemma new_glens v vs : glens (new_groups PARAM [v] (map (fun v => [v]) vs)) = tlen (one_each (map gtext (v :: vs))).
Proof.
  assert (G : forall v, glen (group PARAM (Text.T "param") [v]) = tlen (Text.T "(param " ++ gtext v ++ Text.T ")")).
  { intros x. rewrite group_glen, !tlen_app. cbn [flat_map app]. change [ws1; x] with ([ws1] ++ [x]). rewrite glens_app, glens_one, glens_one, (glen_tlen x).
    change (glen ws1) with 1. change (tlen (Text.T "(param ")) with 7. change (tlen (Text.T ")")) with 1. lia. }
  unfold new_groups, one_each. change (kw_of PARAM) with (Text.T "param"). change (?g :: ?t) with ([g] ++ t) at 1. rewrite glens_app, glens_one, G. revert v.
  induction vs as [|u vs IH]; intros v.
  - cbn [map flat_map spaced]. unfold glens. cbn [map list_sum fold_right]. lia.
  - cbn [map flat_map]. change ([ws1; ?g] ++ ?t) with ([ws1] ++ [g] ++ t). rewrite !glens_app, !glens_one, G, IH.
    cbn [map spaced]. rewrite (tlen_app (Text.T "(param " ++ gtext v ++ Text.T ")")), (tlen_app (Text.T " ")). reflexivity.
Qed.
Lemma group_unnamed vs : Forall IsVal vs -> unnamed (group PARAM (Text.T "param") vs).
Proof.
  intros H. split; [reflexivity|]. repeat constructor; try discriminate. apply Forall_app. split; [|repeat constructor; discriminate].
  induction H as [|v vs (kt & t & c & r & -> & _) _ IH]; [constructor|]. cbn [flat_map app]. repeat constructor; try discriminate. exact IH.
Qed.
Lemma new_unnamed vs vss : Forall IsVal vs -> Forall (Forall IsVal) vss -> Forall unnamed (new_groups PARAM vs vss).
Proof.
  intros Hv H. constructor; [now apply group_unnamed|]. induction H as [|us vss Hu _ IH]; [constructor|].
  cbn [flat_map app]. constructor; [exact I|]. constructor; [now apply group_unnamed|exact IH].
Qed.
Lemma singles {A} (P : A -> Prop) vs : Forall P vs -> Forall (Forall P) (map (fun v => [v]) vs) /\ concat (map (fun v => [v]) vs) = vs.
Proof.
  induction 1 as [|v vs Hv _ (I1 & I2)]; [split; [constructor|reflexivity]|]. split; [repeat constructor; assumption|]. cbn [map concat app]. now rewrite I2.
Qed.
Lemma range_of_text before mid rest : exists r, AtText r before mid
  /\ line_col (new_line_index (before ++ mid ++ rest)) (tlen before) = Some (fst r)
  /\ line_col (new_line_index (before ++ mid ++ rest)) (tlen (before ++ mid)) = Some (snd r).
Proof.
  destruct (posof_ex tlen before) as (x & y & P). destruct (posof_ex tlen (before ++ mid)) as (x' & y' & P').
  exists ((x, y), (x', y')). split; [split; assumption|]. split; [exact (line_col_posof _ (mid ++ rest) _ _ P)|].
  rewrite app_assoc. exact (line_col_posof _ rest _ _ P').
Qed.
Lemma applied_one before old rest r new : AtText r before old -> Applied (before ++ old ++ rest) [(r, new)] (before ++ new ++ rest).
Proof. intros H. apply (Ed_edit [] before old rest r new [] rest); [exact H|constructor]. Qed.
Lemma in_one_pos types : 0 < tlen (in_one types).
Proof. unfold in_one. rewrite tlen_app. change (tlen (Text.T "(param ")) with 7. lia. Qed.
Lemma param_parent src p n : InTree (tree_of src) p -> In n (children p) -> ekind n = PARAM -> In (ekind p) [TYPE_USE; FUNC_TYPE].
Proof.
  intros T H K. pose proof (child_kind src p n T H) as C. rewrite K in C. revert C. generalize (ekind p). intros k.
  assert (A : forall k, existsb (kind_eqb PARAM) (children_of k) = true -> In k [TYPE_USE; FUNC_TYPE]).
  { clear. intros k. destruct k; vm_compute; intros H; try discriminate H; auto. }
  intros C. apply A. apply existsb_exists. exists PARAM. split; [exact C|reflexivity].
Qed.

(** ** C60 *)

(** A group of parameters that was split can be joined again: the request for
    what the split wrote offers it, and the result has the parameters in one
    group with single spaces where they were. *)
Theorem C60_split_join tree w p q l act :
  Document tree -> code_action (gtext tree) w p q = Ans l -> In act l -> a_title act = Text.T "Split parameters" ->
  exists n before rest r r' l', let types := map etext (childs n VAL_TYPE) in
    let out := before ++ one_each types ++ rest in
    InTree tree n /\ ekind n = PARAM /\ 2 <= length types /\ gtext tree = before ++ etext n ++ rest
    /\ AtText r before (etext n) /\ a_edits act = [(r, one_each types)]
    /\ Applied (gtext tree) (a_edits act) out
    /\ AtText r' before (one_each types) /\ code_action out w (fst r') (snd r') = Ans l'
    /\ In (replaces (Text.T "Join parameters") r' (in_one types)) l'
    /\ Applied out [(r', in_one types)] (before ++ in_one types ++ rest).
Proof.
  intros D H Hin Ht. destruct (C31_offered _ _ _ _ _ _ H Hin) as (a & b & n & _ & _ & _ & T & Nn & _ & O).
  pose proof (document_tree tree D) as Et. rewrite Et in T.
  destruct O as [kw title r W K L R|p0 ps r _ _ _ types _ _ _|x mid rest ws rs _ _ _ _ _]; cbn [a_title] in Ht.
  2:{ vm_compute in Ht. discriminate Ht. }
  2:{ vm_compute in Ht. discriminate Ht. }
  subst title. assert (Kn : ekind n = PARAM /\ kw = Text.T "param").
  { unfold splittable in K. destruct K as [K|[K|[K|[]]]]; pose proof (f_equal fst K) as K1; pose proof (f_equal (fun x => fst (snd x)) K) as K2;
      pose proof (f_equal (fun x => snd (snd x)) K) as K3; cbn [fst snd] in K1, K2, K3; auto; vm_compute in K3; discriminate K3. }
  destruct Kn as (Kn & ->). assert (NR : ekind n = RESULT -> SingleResults tree) by (rewrite Kn; discriminate).
  destruct (split_regroup tree D n _ _ r NR T Nn K L R) as (tree' & _ & _ & D' & before & rest & p' & pk & l0 & rr & v & vs & T1 & Sn & T2 & P1 & P2 & P3 & Tv & V).
  pose proof (document_tree tree' D') as Et'. set (types := map etext (childs n VAL_TYPE)).
  assert (Eo : spaced (map (fun ty => Text.T "(" ++ Text.T "param" ++ Text.T " " ++ etext ty ++ Text.T ")") (childs n VAL_TYPE)) = one_each types).
  { unfold one_each, types. rewrite map_map. f_equal. }
  cbn [a_edits]. rewrite Eo in *. destruct (singles _ _ (Forall_inv_tail V)) as (V1 & V2).
  rewrite Kn in P2. set (m := new_groups PARAM [v] (map (fun v => [v]) vs)) in *.
  assert (Tm : types_in PARAM m = v :: vs) by (unfold m; rewrite types_new; [now rewrite V2|constructor; [exact (Forall_inv V)|constructor]|exact V1]).
  assert (Ek : ekind p' = pk) by (unfold ekind; now rewrite P2).
  assert (Kp : In (ekind p') [TYPE_USE; FUNC_TYPE]).
  { destruct (child_at_green p' l0 (group PARAM (kw_of PARAM) [v]) (flat_map (fun vs => [ws1; group PARAM (kw_of PARAM) vs]) (map (fun v => [v]) vs) ++ rr)) as (c & Hc & Ec & _).
    - rewrite P2. reflexivity.
    - apply (param_parent (gtext tree') p' c); [rewrite Et'; exact P1| |unfold ekind; now rewrite Ec].
      unfold children. apply filter_In. split; [exact Hc|]. unfold is_node. now rewrite Ec. }
  destruct (range_of_text before (one_each types) rest) as (r' & A' & R1 & R2). rewrite <- T2 in R1, R2.
  assert (Gm : glens m = tlen (one_each types)).
  { unfold m. rewrite new_glens, <- Tv, map_map. reflexivity. }
  assert (AT : AtText r before (etext n)).
  { destruct R as (Ra & Rb). apply (at_text (gtext tree) before (etext n) rest r T1); [rewrite <- Sn; exact Ra|].
    rewrite tlen_app, <- Sn. unfold etext. rewrite <- glen_tlen. exact Rb. }
  destruct (new_last PARAM [v] (map (fun v => [v]) vs)) as (m2 & c2 & M2). fold m in M2.
  assert (O : Offered (gtext tree') w (estart p' + glens l0) (estart p' + glens l0 + glens m) p' (replaces (Text.T "Join parameters") r' (in_one types))).
  { replace types with (map gtext (types_in PARAM m)) by (rewrite Tm, <- Tv, map_map; reflexivity).
    eapply (run_offered tree' D' w p' l0 m rr _ c2 _ m2 r' W P1); [now rewrite Ek|exact Kp|reflexivity|exact M2| | | |].
    - apply new_unnamed; [constructor; [exact (Forall_inv V)|constructor]|exact V1].
    - rewrite Tm, <- Tv, map_length. exact L.
    - rewrite P3. exact R1.
    - rewrite P3, Gm, <- tlen_app. exact R2. }
  destruct (C31_complete (gtext tree') w (fst r') (snd r') (estart p' + glens l0) (estart p' + glens l0 + glens m) p' (replaces (Text.T "Join parameters") r' (in_one types))) as (l' & C1 & C2); [| | | | | | |exact O| |].
  - rewrite P3. now apply line_col_inv.
  - rewrite P3, Gm, <- tlen_app. now apply line_col_inv.
  - lia.
  - rewrite Et'. exact P1.
  - intros Eq. rewrite Eq in Kp. rewrite Et' in Kp. destruct D' as (ms & tl & Er & _). rewrite Er in Kp. cbn in Kp. intuition discriminate.
  - unfold is_node. now rewrite P2.
  - assert (Lm : 0 < glens m).
    { unfold m, new_groups, group. cbn [glens map list_sum fold_right]. unfold glens. cbn [map list_sum fold_right glen app].
      change (tlen (Text.T "(")) with 1. lia. }
    split; [|left; lia]. split; [lia|]. unfold eend. fold (estart p'). rewrite P2. cbn [glen].
    change (list_sum (map glen (l0 ++ m ++ rr))) with (glens (l0 ++ m ++ rr)). rewrite !glens_app. lia.
  - unfold Rewrite, replaces. cbn [a_title]. vm_compute. discriminate.
  - exists n, before, rest, r, r', l'. cbn zeta. fold types. rewrite <- T2.
    assert (Lt : 2 <= length types) by (unfold types; now rewrite map_length).
    repeat (split; [first [assumption|reflexivity]|]).
    split; [rewrite T1, T2; now apply applied_one|]. repeat (split; [assumption|]). rewrite T2. now apply applied_one.
Qed.
Print Assumptions C60_split_join.

(** And parameters that were joined can be split again. *)
Theorem C60_join_split tree w p q l act :
  Document tree -> code_action (gtext tree) w p q = Ans l -> In act l -> a_title act = Text.T "Join parameters" ->
  exists before old rest types r r' l', let out := before ++ in_one types ++ rest in
    2 <= length types /\ gtext tree = before ++ old ++ rest
    /\ AtText r before old /\ a_edits act = [(r, in_one types)]
    /\ Applied (gtext tree) (a_edits act) out
    /\ AtText r' before (in_one types) /\ code_action out w (fst r') (snd r') = Ans l'
    /\ In (replaces (Text.T "Split parameters") r' (one_each types)) l'
    /\ Applied out [(r', one_each types)] (before ++ one_each types ++ rest).
Proof.
  intros D H Hin Ht. destruct (C31_offered _ _ _ _ _ _ H Hin) as (a & b & n & _ & _ & _ & T & Nn & _ & O).
  pose proof (document_tree tree D) as Et. rewrite Et in T.
  destruct O as [kw title r W K L R|p0 ps r W K F types L R1 R2|x mid rest ws rs _ _ _ _ _]; cbn [a_title] in Ht.
  1:{ subst title. exfalso. unfold splittable in K.
      destruct K as [K|[K|[K|[]]]]; pose proof (f_equal (fun x => snd (snd x)) K) as K3; cbn [snd] in K3; vm_compute in K3; discriminate K3. }
  2:{ vm_compute in Ht. discriminate Ht. }
  clear Ht. destruct (join_regroup tree D n a b p0 ps r T K F L R1 R2)
    as (tree' & _ & _ & D' & before & old & rest & q' & l0 & rr & T1 & Sp & Ep & T2 & P1 & P2 & P3 & V).
  fold types in T2, P2, V. fold (in_one (map etext types)) in T2. pose proof (document_tree tree' D') as Et'.
  destruct (child_at_green q' l0 (group PARAM (Text.T "param") (map el types)) rr) as (c & Hc & Ec & Sc); [rewrite P2; reflexivity|].
  rewrite P3 in Sc. assert (Tc : InTree tree' c) by (econstructor; eauto).
  assert (Nc : is_node c = true) by (unfold is_node; now rewrite Ec).
  assert (Kc : ekind c = PARAM) by (unfold ekind; now rewrite Ec).
  assert (Cv : map el (childs c VAL_TYPE) = map el types).
  { rewrite childs_greens, Ec. unfold group. cbn [gchildren]. rewrite !filter_app, filter_vals by exact V. cbn. apply app_nil_r. }
  assert (Gc : gtext (el c) = in_one (map etext types)).
  { rewrite Ec. unfold group. change (gtext (Node PARAM ?l)) with (gtexts l). unfold gtexts. rewrite !map_app, !concat_app.
    cbn [map concat gtext]. unfold in_one. change (Text.T "(param ") with ((Text.T "(" ++ Text.T "param") ++ Text.T " ").
    rewrite !app_nil_r, <- !app_assoc. do 2 f_equal. rewrite !app_assoc. f_equal.
    assert (L' : types <> []) by (intros E; rewrite E in L; cbn in L; lia).
    clear - L'. destruct types as [|v vs]; [congruence|]. clear L'. revert v. induction vs as [|u vs IH]; intros v.
    - cbn [map flat_map app concat spaced gtext ws1]. rewrite app_nil_r. reflexivity.
    - cbn [map flat_map app concat]. cbn [map flat_map app concat] in IH. rewrite IH. reflexivity. }
  assert (AT : AtText r before old).
  { apply (at_text (gtext tree) before old rest r T1); [rewrite <- Sp; exact R1|rewrite <- Ep; exact R2]. }
  destruct (range_of_text before (in_one (map etext types)) rest) as (r' & A' & S1 & S2). rewrite <- T2 in S1, S2.
  assert (Ee : eend c = tlen (before ++ in_one (map etext types))).
  { unfold eend. fold (estart c). rewrite Sc, glen_tlen, Gc, tlen_app. reflexivity. }
  assert (O : Offered (gtext tree') w (estart c) (eend c) c (replaces (Text.T "Split parameters") r' (one_each (map etext types)))).
  { replace (one_each (map etext types))
      with (spaced (map (fun ty => Text.T "(" ++ Text.T "param" ++ Text.T " " ++ etext ty ++ Text.T ")") (childs c VAL_TYPE))).
    - apply (Off_split _ _ _ _ _ (Text.T "param")); [exact W|rewrite Kc; now left| |].
      + rewrite <- (map_length el), Cv, map_length. exact L.
      + split; [rewrite Sc; exact S1|rewrite Ee; exact S2].
    - unfold one_each. f_equal. unfold etext. rewrite <- (map_map el gtext types), <- Cv, !map_map. reflexivity. }
  destruct (C31_complete (gtext tree') w (fst r') (snd r') (estart c) (eend c) c (replaces (Text.T "Split parameters") r' (one_each (map etext types))))
    as (l' & C1 & C2); [| | | | | | |exact O| |].
  - rewrite Sc. now apply line_col_inv.
  - rewrite Ee. now apply line_col_inv.
  - unfold eend, estart. lia.
  - rewrite Et'. exact Tc.
  - intros Eq. rewrite Eq in Kc. rewrite Et' in Kc. destruct D' as (ms & tl & Er & _). rewrite Er in Kc. discriminate Kc.
  - exact Nc.
  - pose proof (in_one_pos (map etext types)) as J. split; [split; lia|]. left. rewrite Sc, Ee, tlen_app. lia.
  - unfold Rewrite, replaces. cbn [a_title]. vm_compute. discriminate.
  - exists before, old, rest, (map etext types), r, r', l'. cbn zeta. rewrite <- T2. cbn [a_edits]. fold (in_one (map etext types)).
    rewrite map_length. repeat (split; [first [assumption|reflexivity]|]).
    split; [rewrite T1, T2; now apply applied_one|]. repeat (split; [assumption|]). rewrite T2. now apply applied_one.
Qed.
Print Assumptions C60_join_split.

(** So where the group was written with single spaces, the text comes back. *)
Theorem C60_split_join_back tree w p q l act :
  Document tree -> code_action (gtext tree) w p q = Ans l -> In act l -> a_title act = Text.T "Split parameters" ->
  (forall n, InTree tree n -> ekind n = PARAM -> 2 <= length (childs n VAL_TYPE) -> etext n = in_one (map etext (childs n VAL_TYPE))) ->
  exists out p' q' l' act', Applied (gtext tree) (a_edits act) out /\ code_action out w p' q' = Ans l' /\ In act' l'
    /\ a_title act' = Text.T "Join parameters" /\ Applied out (a_edits act') (gtext tree).
Proof.
  intros D H Hin Ht Sp.
  destruct (C60_split_join tree w p q l act D H Hin Ht) as (n & before & rest & r & r' & l' & T & K & L & E & _ & Ea & A1 & _ & C & I & A2).
  eexists _, (fst r'), (snd r'), l', _. split; [exact A1|]. split; [exact C|]. split; [exact I|]. split; [reflexivity|].
  cbn [a_edits replaces]. rewrite E, (Sp n T K); [exact A2|]. now rewrite map_length in L.
Qed.
Print Assumptions C60_split_join_back.

(** The actions of both theorems are offered. *)
Example C60_case :
  Document (tree_of regroup_ex) /\ gtext (tree_of regroup_ex) = regroup_ex
  /\ code_action regroup_ex all_wanted (0, 17) (0, 17)
     = Ans [replaces (Text.T "Split parameters") ((0, 14), (0, 29)) (one_each [Text.T "i32"; Text.T "i64"])]
  /\ Document (tree_of regroup_out) /\ gtext (tree_of regroup_out) = regroup_out
  /\ code_action regroup_out all_wanted (0, 14) (0, 37)
     = Ans [replaces (Text.T "Join parameters") ((0, 14), (0, 37)) (in_one [Text.T "i32"; Text.T "i64"])].
Proof.
  split; [apply ThmComplete.documentb_ok; vm_compute; reflexivity|]. split; [vm_compute; reflexivity|]. split; [vm_compute; reflexivity|].
  split; [apply ThmComplete.documentb_ok; vm_compute; reflexivity|]. split; vm_compute; reflexivity.
Qed.
(** Written with single spaces. *)
Example C60_case_spaced : forall n, InTree (tree_of regroup_ex) n -> ekind n = PARAM -> 2 <= length (childs n VAL_TYPE) ->
  etext n = in_one (map etext (childs n VAL_TYPE)).
Proof.
  intros n T K L.
  assert (X : forallb (fun n => negb (kind_eqb (ekind n) PARAM) || negb (2 <=? length (childs n VAL_TYPE))
      || if list_eq_dec N.eq_dec (etext n) (in_one (map etext (childs n VAL_TYPE))) then true else false)
    (descendants_with_tokens (root_of (tree_of regroup_ex))) = true) by (vm_compute; reflexivity).
  rewrite forallb_forall in X. specialize (X n). rewrite desc_spec in X. specialize (X T).
  apply Nat.leb_le in L. rewrite K, L in X. destruct (list_eq_dec _ _ _) as [E|_]; [exact E|discriminate X].
Qed.

(** *** What does not hold *)

(** Other white space and comments in the group are lost. *)
Definition wide_ex : text := Text.T "(module (func (param i32  i64)))".
Theorem C60_text_back_refuted :
  ~ forall tree w p q l act out p' q' l' act' back, Document tree -> code_action (gtext tree) w p q = Ans l -> In act l ->
      Applied (gtext tree) (a_edits act) out -> code_action out w p' q' = Ans l' -> In act' l' ->
      a_title act' = Text.T "Join parameters" -> Applied out (a_edits act') back -> back = gtext tree.
Proof.
  intros H.
  assert (E : gtext (tree_of wide_ex) = wide_ex) by (vm_compute; reflexivity).
  specialize (H (tree_of wide_ex) all_wanted (0, 17) (0, 17) [replaces (Text.T "Split parameters") ((0, 14), (0, 30)) (Text.T "(param i32) (param i64)")]
    (replaces (Text.T "Split parameters") ((0, 14), (0, 30)) (Text.T "(param i32) (param i64)"))
    (Text.T "(module (func " ++ Text.T "(param i32) (param i64)" ++ Text.T "))") (0, 14) (0, 37)
    [replaces (Text.T "Join parameters") ((0, 14), (0, 37)) (Text.T "(param i32 i64)")]
    (replaces (Text.T "Join parameters") ((0, 14), (0, 37)) (Text.T "(param i32 i64)"))
    (Text.T "(module (func " ++ Text.T "(param i32 i64)" ++ Text.T "))")).
  rewrite E in H. assert (X : Text.T "(module (func " ++ Text.T "(param i32 i64)" ++ Text.T "))" = wide_ex).
  { apply H.
    - apply ThmComplete.documentb_ok; vm_compute; reflexivity.
    - vm_compute. reflexivity.
    - now left.
    - change wide_ex with (Text.T "(module (func " ++ Text.T "(param i32  i64)" ++ Text.T "))"). apply applied_one.
      apply (at_text wide_ex _ _ (Text.T "))")); vm_compute; reflexivity.
    - vm_compute. reflexivity.
    - now left.
    - reflexivity.
    - apply applied_one. apply (at_text (Text.T "(module (func (param i32) (param i64)))") _ _ (Text.T "))")); vm_compute; reflexivity. }
  vm_compute in X. discriminate X.
Qed.
Print Assumptions C60_text_back_refuted.
