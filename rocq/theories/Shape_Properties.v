(** * Shape_Properties: vertices and bounding ball of a chain (C97), contiguous vertex of a body (C98), chains to shapes and
    back (C99). *)
From Coq Require Import String ZArith QArith Qcanon List Arith Lia Bool Field Permutation.
From Verif Require Import Conf_Q Num NumFacts Vec VecFacts Motor_Model Joint_Model Joint_Spec Body_Model Body_Proofs Tree Tree_Proofs Link_Model Link_Spec Link_Proofs Chain_Proofs Link_Properties Chain_Properties Kin_Spec Kin_Proofs Kin_Properties
  Ztk_Model Shape_Model ExtQ.
Import ListNotations.

Section Shapes.
Context {F : Type} {N : Num F} {L : NumLaws F N} {E : Ext F} {X : ExtLaws F N E} {SE : ShapeExt F}.
Local Ltac vring := intros; vdestruct; vunfold; vsplit; ring.
Add Field FFieldShp : num_field.

(** ** C97 *)
(** A point of the world is a vertex of a shape carried by a frame. *)
Definition vertex_of (f : frame F) (s : shape F) (x : vec3 F) : Prop :=
  match s with
  | Poly v _ => exists w, In w v /\ x = xform f w
  | Prim p => exists v, prim_vert (prim_xform f p) = Some v /\ In x v
  end.
(** A shape on a link of the chain, and a vertex of the chain. *)
Definition worn (arr : list (shape F)) (c : chain F) (l : link F) (s : shape F) : Prop := In l (c_links c) /\ exists i, In i (b_shapes (l_body l)) /\ nth_error arr i = Some s.
Definition vertex (arr : list (shape F)) (c : chain F) (x : vec3 F) : Prop := exists l s, worn arr c l s /\ vertex_of (l_frame l) s x.
Definition convertible (f : frame F) (s : shape F) : Prop := match s with Poly _ _ => True | Prim p => prim_vert (prim_xform f p) <> None end.
(** Links refer to shapes that there are. *)
Definition refers (arr : list (shape F)) (h : list (link F)) : Prop := forall l i, In l h -> In i (b_shapes (l_body l)) -> (i < length arr)%nat.

Lemma shape_verts_spec f s : match shape_verts f s with Some v => convertible f s /\ forall x, In x v <-> vertex_of f s x | None => ~ convertible f s end.
Proof.
  destruct s as [v fc|p]; cbn.
  - split; [exact Logic.I|]. intros x. rewrite in_map_iff. split; intros (w & A & B); exists w; auto.
  - destruct (prim_vert (prim_xform f p)) as [v|] eqn:Q; [|intros H; now apply H]. split; [discriminate|]. intros x. split; [intros H; exists v; auto|]. intros (u & A & B). congruence.
Qed.
Lemma shapes_verts_spec arr f is : (forall i, In i is -> i < length arr)%nat ->
  match shapes_verts arr f is with
  | None => False
  | Some None => exists i s, In i is /\ nth_error arr i = Some s /\ ~ convertible f s
  | Some (Some v) => (forall i s, In i is -> nth_error arr i = Some s -> convertible f s) /\ forall x, In x v <-> exists i s, In i is /\ nth_error arr i = Some s /\ vertex_of f s x
  end.
Proof.
  induction is as [|i is IH]; intros R; cbn [shapes_verts].
  - split; [intros ? ? []|]. intros x. split; [intros []|intros (? & ? & [] & _)].
  - destruct (nth_error arr i) as [s|] eqn:Q; [|apply nth_error_None in Q; specialize (R i (or_introl eq_refl)); lia]. pose proof (shape_verts_spec f s) as V.
    destruct (shape_verts f s) as [v|]; [|exists i, s; split; [now left|auto]]. destruct V as [V1 V2]. specialize (IH (fun j Hj => R j (or_intror Hj))).
    destruct (shapes_verts arr f is) as [[u|]|]; [| |exact IH]; cbn [option_map].
    + destruct IH as [I1 I2]. split.
      * intros j t [<-|Hj] Ht; [now replace t with s by congruence|eauto].
      * intros x. rewrite in_app_iff, V2, I2. split.
        -- intros [H|(j & t & A & B)]; [exists i, s|exists j, t]; cbn; tauto.
        -- intros (j & t & [<-|A] & B & D); [left; now replace s with t by congruence|right; eauto].
    + destruct IH as (j & t & A & B). exists j, t. cbn; tauto.
Qed.
(** rkChainVertList gives the vertices of all shapes of all links, in the world, and nothing else; it gives nothing when a
    shape cannot be converted. *)
Theorem C97_vertices : forall arr (c : chain F), refers arr (c_links c) -> exists r, chain_vert_list arr c = Some r /\
  match r with
  | Some v => (forall l s, worn arr c l s -> convertible (l_frame l) s) /\ forall x, In x v <-> vertex arr c x
  | None => exists l s, worn arr c l s /\ ~ convertible (l_frame l) s
  end.
Proof.
  intros arr c R. unfold chain_vert_list, worn, vertex, worn. revert R. generalize (c_links c) as h. induction h as [|l h IH]; intros R; cbn [links_verts].
  - exists (Some []). split; [reflexivity|]. split; [intros ? ? [[] _]|]. intros x. split; [intros []|intros (? & ? & ([] & _) & _)].
  - pose proof (shapes_verts_spec arr (l_frame l) (b_shapes (l_body l)) (fun i Hi => R l i (or_introl eq_refl) Hi)) as V.
    destruct IH as (r & A & B); [intros k i Hk; apply R; now right|].
    destruct (shapes_verts arr (l_frame l) (b_shapes (l_body l))) as [[v|]|]; [| |destruct V].
    + rewrite A. cbn [option_map]. eexists. split; [reflexivity|]. destruct V as [V1 V2]. destruct r as [u|]; cbn [option_map].
      * destruct B as [B1 B2]. split.
        -- intros k s [[<-|Hk] (i & Hi & Hs)]; eauto.
        -- intros x. rewrite in_app_iff, V2, B2. split.
           ++ intros [(i & s & H1 & H2 & H3)|(k & s & (H1 & H2) & H3)]; [exists l, s; split; [split; [now left|eauto]|exact H3]|exists k, s; split; [split; [now right|exact H2]|exact H3]].
           ++ intros (k & s & ([<-|Hk] & i & Hi & Hs) & H3); [left; eauto|right; exists k, s; eauto].
      * destruct B as (k & s & (H1 & H2) & H3). exists k, s. split; [split; [now right|exact H2]|exact H3].
    + exists None. split; [reflexivity|]. destruct V as (i & s & H1 & H2 & H3). exists l, s. split; [split; [now left|eauto]|exact H3].
Qed.

(** Balls: all points in_ball, and no ball smaller. *)
Local Open Scope num_scope.
Definition in_ball (b : vec3 F * F) (x : vec3 F) : Prop := v3sqr (v3sub x (fst b)) <= snd b * snd b.
Definition encloses (b : vec3 F * F) (v : list (vec3 F)) : Prop := 0 <= snd b /\ forall x, In x v -> in_ball b x.
Definition smallest (v : list (vec3 F)) (b : vec3 F * F) : Prop := encloses b v /\ forall b', encloses b' v -> snd b <= snd b'.
(** If zBBall3DPL encloses the points it is given, all vertices of the chain are in the ball of rkChainBBall. *)
Theorem C97_ball : forall bball arr (c : chain F) b, refers arr (c_links c) -> (forall v, chain_vert_list arr c = Some (Some v) -> encloses (bball v) v) ->
  chain_bball bball arr c = Some (Some b) -> forall x, vertex arr c x -> in_ball b x.
Proof.
  intros bball arr c b R H B x V. destruct (C97_vertices arr c R) as (r & A & D). unfold chain_bball in B. rewrite A in B. cbn [option_map] in B. destruct r as [v|]; [|discriminate B].
  cbn [option_map] in B. injection B as <-. apply (H v A). now apply D.
Qed.

(** Two chains that differ by where the whole is placed. *)
Definition displaced (T : frame F) (a b : link F) : Prop :=
  l_joint b = l_joint a /\ l_parent b = l_parent a /\ b_shapes (l_body b) = b_shapes (l_body a) /\
  l_org b = match l_parent a with None => fcascade T (l_org a) | Some _ => l_org a end.
Lemma displaced_pose T (h k : list (link F)) : Forall2 (displaced T) h k -> forall i t, lineage h i t -> lineage k i t /\ doc_pose k t = option_map (fcascade T) (doc_pose h t).
Proof.
  intros FD i t H. assert (AT : forall j a, nth_error h j = Some a -> exists b, nth_error k j = Some b /\ displaced T a b).
  { clear - FD. induction FD as [|a b h k D _ IH]; intros [|j] x Hx; try discriminate Hx; cbn [nth_error] in *; [exists b; split; [reflexivity|]; congruence|exact (IH j x Hx)]. }
  induction H as [i l Hl HP|i l q t Hl HP LQ IH]; destruct (AT i l Hl) as (m & Hm & D1 & D2 & _ & D4); rewrite HP in D2, D4.
  - split; [eapply lineage_root; eauto|]. cbn [doc_pose obind]. rewrite Hl, Hm. cbn [obind]. rewrite D1. destruct (doc_frame (jtype_of (l_joint l)) (joint_get_dis (l_joint l))) as [d|]; [|reflexivity].
    cbn [obind option_map]. rewrite D4, !fcascade_id_l. now rewrite !fcascade_assoc.
  - destruct IH as [I1 I2]. split; [eapply lineage_step; eauto|]. cbn [doc_pose]. rewrite I2, Hl, Hm. destruct (doc_pose h t) as [f|]; [|reflexivity]. cbn [obind option_map]. rewrite D1.
    destruct (doc_frame (jtype_of (l_joint l)) (joint_get_dis (l_joint l))) as [d|]; [|reflexivity]. cbn [obind option_map]. rewrite D4. now rewrite !fcascade_assoc.
Qed.

Lemma dist_moved (T : frame F) x y : rigid T -> v3sqr (v3sub (xform T x) (xform T y)) = v3sqr (v3sub x y).
Proof. intros R. replace (v3sub (xform T x) (xform T y)) with (m3v (fatt T) (v3sub x y)) by (clear R; vring). unfold v3sqr. now apply rot_dot. Qed.
(** A ball moved with the points encloses them. *)
Lemma encloses_moved (T : frame F) b v : rigid T -> encloses b v -> encloses (xform T (fst b), snd b) (map (xform T) v).
Proof.
  intros R [H0 H]. split; [exact H0|]. intros x Hx. apply in_map_iff in Hx. destruct Hx as (w & <- & Hw). unfold in_ball. cbn [fst snd]. rewrite dist_moved by exact R. exact (H w Hw).
Qed.
Lemma encloses_back (T : frame F) b v : rigid T -> encloses b (map (xform T) v) -> encloses (xforminv T (fst b), snd b) v.
Proof.
  intros R [H0 H]. split; [exact H0|]. intros x Hx. unfold in_ball. cbn [fst snd]. rewrite <- (dist_moved T) by exact R. rewrite xform_xforminv by exact R. apply H. now apply in_map.
Qed.
(** The smallest ball is only one. *)
Lemma mid_dist (a b x : vec3 F) : v3sqr (v3sub x (v3scale (1 / (1 + 1)) (v3add a b))) = (v3sqr (v3sub x a) + v3sqr (v3sub x b)) / (1 + 1) - v3sqr (v3sub a b) / ((1 + 1) * (1 + 1)).
Proof. assert (T2 : 1 + 1 <> (0 : F)) by exact n2_neq_0. destruct a as [a1 a2 a3], b as [b1 b2 b3], x as [x1 x2 x3]. unfold v3sqr, v3dot, v3sub, v3scale, v3add. cbn [vx vy vz]. field. assert (T4 : (1 + 1) * (1 + 1) <> (0 : F)) by (intros Q; apply nmul_eq_0 in Q; tauto). repeat split; first [exact T2|exact T4]. Qed.
Lemma smallest_unique v b b' : v <> [] -> smallest v b -> smallest v b' -> b = b'.
Proof.
  intros NE [B1 B2] [D1 D2]. destruct b as [a r], b' as [a' r']. assert (RR : r' = r) by (apply nle_antisym; [exact (D2 _ B1)|exact (B2 _ D1)]). subst r'. f_equal.
  cut (v3sqr (v3sub a a') = 0). { intros Q. apply v3sqr_0 in Q. destruct a as [a1 a2 a3], a' as [b1 b2 b3]. injection Q as Q1 Q2 Q3. f_equal.
    - replace a1 with (a1 - b1 + b1) by ring. rewrite Q1. ring.
    - replace a2 with (a2 - b2 + b2) by ring. rewrite Q2. ring.
    - replace a3 with (a3 - b3 + b3) by ring. rewrite Q3. ring. }
  destruct B1 as [R0 B1], D1 as [_ D1]. cbn [snd] in R0. unfold in_ball in B1, D1. cbn [fst snd] in B1, D1.
  assert (T2 : (1 + 1 : F) <> 0) by exact n2_neq_0. assert (P2 : 0 < (1 + 1 : F)) by (apply nlt_0_add_l; [apply nlt_0_1|apply nle_0_1]).
  assert (T4 : (1 + 1) * (1 + 1) <> (0 : F)) by (intros Q; apply nmul_eq_0 in Q; tauto). assert (P4 : 0 < ((1 + 1) * (1 + 1) : F)) by now apply nlt_0_mul.
  set (d := v3sqr (v3sub a a') / ((1 + 1) * (1 + 1))). assert (D0 : 0 <= d) by (apply nle_0_div; [apply v3sqr_nonneg|exact P4]).
  set (m := v3scale (1 / (1 + 1)) (v3add a a')).
  assert (MID : forall x, In x v -> v3sqr (v3sub x m) <= r * r - d).
  { intros x Hx. unfold m. rewrite mid_dist. fold d. apply nle_sub_iff. replace (r * r - d - _) with (((r * r - v3sqr (v3sub x a)) + (r * r - v3sqr (v3sub x a'))) / (1 + 1)) by (field; repeat split; assumption).
    apply nle_0_div; [|exact P2]. apply nle_0_add; apply (proj1 (nle_sub_iff _ _)); auto. }
  destruct v as [|x0 v]; [now destruct NE|]. clear NE. assert (DR : d <= r * r).
  { apply nle_sub_iff. eapply nle_trans; [apply v3sqr_nonneg|apply MID; now left]. }
  cut (d <= 0). { intros Q. assert (Z0 : d = 0) by now apply nle_antisym. unfold d in Z0. replace (v3sqr (v3sub a a')) with (v3sqr (v3sub a a') / ((1 + 1) * (1 + 1)) * ((1 + 1) * (1 + 1))) by (field; repeat split; assumption).
    rewrite Z0. ring. }
  destruct (nle_or_lt r 0) as [RN|RP].
  - assert (r = 0) by now apply nle_antisym. subst r. now replace (0 * 0) with (0 : F) in DR by ring.
  - assert (RZ : r <> 0) by now apply nlt_neq'. assert (P2R : 0 < (1 + 1) * r) by now apply nlt_0_mul.
    assert (LE : r <= r - d / ((1 + 1) * r)).
    { apply (B2 (m, r - d / ((1 + 1) * r))). split; cbn [snd].
      - replace (r - d / ((1 + 1) * r)) with ((r * r + (r * r - d)) / ((1 + 1) * r)) by (field; repeat split; assumption). apply nle_0_div; [|exact P2R]. apply nle_0_add; [apply nle_0_sqr|]. now apply (proj1 (nle_sub_iff _ _)).
      - intros x Hx. unfold in_ball. cbn [fst snd]. eapply nle_trans; [apply MID; exact Hx|]. apply nle_sub_iff.
        replace (_ - _) with ((d / ((1 + 1) * r)) * (d / ((1 + 1) * r))) by (field; repeat split; assumption). apply nle_0_sqr. }
    apply nle_sub_iff in LE. replace (r - d / ((1 + 1) * r) - r) with (- (d / ((1 + 1) * r))) in LE by ring. apply nle_opp0 in LE.
    replace d with (((1 + 1) * r) * (d / ((1 + 1) * r))) by (field; repeat split; assumption). replace 0 with (((1 + 1) * r) * 0) by ring. apply nle_mul_l; [now apply nlt_le|exact LE].
Qed.

(** All shapes of the chain are polyhedra. *)
Definition polyhedral (arr : list (shape F)) : Prop := forall s, In s arr -> exists v fc, s = Poly v fc.
Lemma shapes_verts_moved arr (T f : frame F) is : polyhedral arr ->
  shapes_verts arr (fcascade T f) is = option_map (option_map (map (xform T))) (shapes_verts arr f is).
Proof.
  intros PH. induction is as [|i is IH]; [reflexivity|]. cbn [shapes_verts]. destruct (nth_error arr i) as [s|] eqn:Q; [|reflexivity].
  destruct (PH s (nth_error_In _ _ Q)) as (v & fc & ->). cbn [shape_verts]. rewrite IH. destruct (shapes_verts arr f is) as [[u|]|]; try reflexivity. cbn [option_map]. do 2 f_equal.
  rewrite map_app, map_map. f_equal. apply map_ext. intros w. apply xform_cascade.
Qed.
Lemma links_verts_moved arr (T : frame F) (h k : list (link F)) : polyhedral arr ->
  Forall2 (fun a b => l_frame b = fcascade T (l_frame a) /\ b_shapes (l_body b) = b_shapes (l_body a)) h k ->
  links_verts arr k = option_map (option_map (map (xform T))) (links_verts arr h).
Proof.
  intros PH. induction 1 as [|a b h k [D1 D2] _ IH]; [reflexivity|]. cbn [links_verts]. rewrite D1, D2, shapes_verts_moved by exact PH.
  destruct (shapes_verts arr (l_frame a) (b_shapes (l_body a))) as [[u|]|]; try reflexivity. cbn [option_map]. rewrite IH. destruct (links_verts arr h) as [[w|]|]; try reflexivity.
  cbn [option_map]. now rewrite map_app.
Qed.
Lemma Forall2_nth {A B} (P : A -> B -> Prop) h k : length h = length k -> (forall i a b, nth_error h i = Some a -> nth_error k i = Some b -> P a b) -> Forall2 P h k.
Proof.
  revert k. induction h as [|a h IH]; intros [|b k] Q H; try discriminate Q; constructor.
  - exact (H 0%nat a b eq_refl eq_refl).
  - apply IH; [now injection Q|]. intros i. exact (H (S i)).
Qed.
Lemma F2_length {A B} (P : A -> B -> Prop) h k : Forall2 P h k -> length h = length k.
Proof. induction 1; cbn; congruence. Qed.
Lemma F2_at {A B} (P : A -> B -> Prop) h k i a b : Forall2 P h k -> nth_error h i = Some a -> nth_error k i = Some b -> P a b.
Proof. intros H. revert i. induction H as [|x y h k H _ IH]; intros [|i] P1 P2; cbn in *; try discriminate; [congruence|eauto]. Qed.
(** The frames of the displaced chain are the displaced frames. *)
Lemma frames_displaced (T : frame F) (c d c1 d1 : chain F) : well_formed (c_links c) -> joints_made (c_links c) -> well_formed (c_links d) -> joints_made (c_links d) ->
  Forall2 (displaced T) (c_links c) (c_links d) -> chain_update_frame c = Some c1 -> chain_update_frame d = Some d1 ->
  Forall2 (fun a b => l_frame b = fcascade T (l_frame a) /\ b_shapes (l_body b) = b_shapes (l_body a)) (c_links c1) (c_links d1).
Proof.
  intros WC JC WD JD FD A B. destruct (C24_frame_pass c WC) as (c' & A' & PC & _). replace c' with c1 in * by congruence. destruct (C24_frame_pass d WD) as (d' & B' & PD & _). replace d' with d1 in * by congruence.
  pose proof (F2_length _ _ _ FD) as LN. apply Forall2_nth; [rewrite (proj1 PC), (proj1 PD); exact LN|]. intros i a b Ha Hb.
  destruct (C30_frame_is_product c c1 i a WC JC A Ha) as (t & LT & DP). destruct (C30_frame_is_product d d1 i b WD JD B Hb) as (t' & LT' & DP').
  destruct (displaced_pose T _ _ FD i t LT) as [LT2 DP2]. replace t' with t in * by (eapply lineage_unique; eauto). split; [rewrite DP, DP' in DP2; cbn in DP2; congruence|].
  assert (Hi : (i < length (c_links c))%nat) by (rewrite <- (proj1 PC); apply nth_error_Some; congruence).
  destruct (nth_error (c_links c) i) as [x|] eqn:Qx; [|apply nth_error_None in Qx; lia]. destruct (nth_error (c_links d) i) as [y|] eqn:Qy; [|apply nth_error_None in Qy; lia].
  destruct (proj2 PC i x Qx) as (p & Hp & _). destruct (proj2 PD i y Qy) as (q & Hq & _). rewrite Ha in Hp. rewrite Hb in Hq. injection Hp as ->. injection Hq as ->.
  exact (proj1 (proj2 (proj2 (F2_at _ _ _ _ _ _ FD Qx Qy)))).
Qed.
(** A chain placed elsewhere: its vertices move with it, and so does its smallest ball. *)
Theorem C97_moved : forall (T : frame F) bball arr (c d c1 d1 : chain F), rigid T -> polyhedral arr -> refers arr (c_links c1) ->
  well_formed (c_links c) -> joints_made (c_links c) -> well_formed (c_links d) -> joints_made (c_links d) ->
  Forall2 (displaced T) (c_links c) (c_links d) -> chain_update_frame c = Some c1 -> chain_update_frame d = Some d1 ->
  exists v, chain_vert_list arr c1 = Some (Some v) /\ chain_vert_list arr d1 = Some (Some (map (xform T) v)) /\
    (v <> [] -> smallest v (bball v) -> smallest (map (xform T) v) (bball (map (xform T) v)) ->
     exists o r, chain_bball bball arr c1 = Some (Some (o, r)) /\ chain_bball bball arr d1 = Some (Some (xform T o, r))).
Proof.
  intros T bball arr c d c1 d1 R PH RF WC JC WD JD FD A B. pose proof (frames_displaced T c d c1 d1 WC JC WD JD FD A B) as FF.
  destruct (C97_vertices arr c1 RF) as (r & V & D). destruct r as [v|].
  2:{ exfalso. destruct D as (l & s & (_ & i & _ & Hs) & NC). destruct (PH s (nth_error_In _ _ Hs)) as (w & fc & ->). now apply NC. }
  clear D. exists v. split; [exact V|]. assert (V' : chain_vert_list arr d1 = Some (Some (map (xform T) v))).
  { unfold chain_vert_list in *. rewrite (links_verts_moved arr T _ _ PH FF), V. reflexivity. }
  split; [exact V'|]. intros NE S1 S2. exists (fst (bball v)), (snd (bball v)). unfold chain_bball. rewrite V, V'. cbn [option_map]. split; [now rewrite <- surjective_pairing|]. do 2 f_equal.
  apply (smallest_unique (map (xform T) v)); [destruct v; [now destruct NE|discriminate]|exact S2|]. split; [now apply encloses_moved, S1|].
  intros b' EN. cbn [snd]. apply (proj2 S1 (xforminv T (fst b'), snd b')). now apply encloses_back.
Qed.

(** ** C98 *)
(** A vertex nearest to a point, with its distance. *)
Definition nearest (v : list (vec3 F)) (q : vec3 F) (r : vec3 F * F) : Prop :=
  In (fst r) v /\ 0 <= snd r /\ snd r * snd r = v3sqr (v3sub (fst r) q) /\ forall w, In w v -> v3sqr (v3sub (fst r) q) <= v3sqr (v3sub w q).
(** If zShapeListContigVert finds a nearest vertex, rkBodyContigVert finds the vertex of the body that is nearest in the world,
    and its distance in the world. *)
Theorem C98_contiguous : forall contig vs (f : frame F) p, rigid f ->
  match contig vs (xforminv f p) with Some r => nearest vs (xforminv f p) r | None => vs = [] end ->
  match body_contig_vert contig vs f p with
  | Some (v, d) => In v vs /\ nearest (map (xform f) vs) p (xform f v, d)
  | None => vs = []
  end.
Proof.
  intros contig vs f p R H. unfold body_contig_vert. destruct (contig vs (xforminv f p)) as [[v d]|]; [|exact H]. destruct H as (H1 & H2 & H3 & H4). cbn [fst snd] in *.
  assert (D : forall w, v3sqr (v3sub w (xforminv f p)) = v3sqr (v3sub (xform f w) p)) by (intros w; rewrite <- (dist_moved f) by exact R; now rewrite xform_xforminv).
  split; [exact H1|]. split; [exact (in_map (xform f) vs v H1)|]. cbn [fst snd]. rewrite <- D. split; [exact H2|]. split; [exact H3|]. intros w Hw. apply in_map_iff in Hw. destruct Hw as (u & <- & Hu). rewrite <- D. auto.
Qed.

(** ** C99 *)
Context {ZL : ZtkLib}.
Lemma eval_shapes (names : list string) (l : list string) : names <> [] -> forall r, (forall s, In s l -> exists i, find_name names s = Some i) ->
  exists is, Forall2 (fun s i => find_name names s = Some i) l is /\
    eval_keys (link_key [] names) r (map KShape l) = Some (RL (rl_name r) (rl_joint r) (fold_left (fun b i => b_push_shape i b) is (rl_body r)) (rl_org r), true).
Proof.
  intros NE. induction l as [|s l IH]; intros r H.
  - exists []. split; [constructor|]. now destruct r.
  - destruct (H s (or_introl eq_refl)) as (i & Hi). destruct (IH (RL (rl_name r) (rl_joint r) (b_push_shape i (rl_body r)) (rl_org r)) (fun t Ht => H t (or_intror Ht))) as (is & P & Q).
    exists (i :: is). split; [now constructor|]. cbn [map eval_keys]. unfold link_key at 1. destruct names as [|n0 ns]; [now destruct NE|]. rewrite Hi. cbn [obind]. exact Q.
Qed.
Lemma pushed is : forall b : body F, b_shapes (fold_left (fun b i => b_push_shape i b) is b) = rev is ++ b_shapes b /\ b_mp (fold_left (fun b i => b_push_shape i b) is b) = b_mp b.
Proof. induction is as [|i is IH]; intros b; [now split|]. cbn [fold_left rev]. destruct (IH (b_push_shape i b)) as [A B]. rewrite A, B. cbn. now rewrite <- app_assoc. Qed.
Lemma joint_shapes (arr : option (list (mslot F))) (l : list string) : eval_keys (joint_key arr) JFixed (map KShape l) = Some (JFixed, true).
Proof. induction l as [|s l IH]; [reflexivity|exact IH]. Qed.
Lemma connect_shapes i (h : list (link F)) (l : list string) : eval_keys (connect_key i) h (map KShape l) = Some (h, true).
Proof. induction l as [|s l IH]; [reflexivity|exact IH]. Qed.
Lemma find_nth (names : list string) : NoDup names -> forall i s, nth_error names i = Some s -> find_name names s = Some i.
Proof.
  induction 1 as [|n names NI ND IH]; intros [|i] s Hs; try discriminate Hs; cbn [find_name].
  - injection Hs as ->. now rewrite String.eqb_refl.
  - cbn in Hs. destruct (String.eqb_spec n s) as [<-|NEQ]; [destruct NI; eapply nth_error_In; eauto|]. now rewrite (IH i s Hs).
Qed.
Lemma down_one {L0 P} (pa ch sb : L0 -> option nat) (upd : L0 -> P -> L0) par n l p : ch (upd l p) = None -> sb (upd l p) = None -> walk_down pa ch sb upd par (S n) [l] 0 p = Some [upd l p].
Proof. intros A B. cbn [walk_down nth_error set_nth]. rewrite A. cbn [nth_error]. now rewrite B. Qed.
Lemma up_one {L0} (ch sb : L0 -> option nat) (pre : L0 -> L0) upd n l : ch (pre l) = None -> sb (upd (pre l) []) = None -> walk_up ch sb pre upd (S (S n)) [l] 0 = Some [upd (pre l) []].
Proof. intros A B. unfold walk_up; fold (walk_up ch sb pre upd). cbn [nth_error set_nth]. rewrite A. cbn [nth_error sib_list]. rewrite A. cbn [sib_list set_nth]. now rewrite B. Qed.
Lemma single_update (g : F) (b : body F) m w1 w2 w3 : exists c, obind (chain_update_fk (chain_set_offset (Chain [Link "base" JFixed b None fid fid v6zero None None None] m w1 w2 w3))) (chain_update_id g) = Some c /\
  exists l, c_links c = [l] /\ l_name l = "base"%string /\ l_frame l = fid /\ b_shapes (l_body l) = b_shapes b.
Proof.
  remember (chain_set_offset (Chain [Link "base" JFixed b None fid fid v6zero None None None] m w1 w2 w3)) as c eqn:QC.
  assert (Q0 : exists l, c_links c = [l] /\ l_child l = None /\ l_sibl l = None /\ l_joint l = JFixed /\ l_org l = fid /\ l_name l = "base"%string /\ b_shapes (l_body l) = b_shapes b).
  { subst c. eexists. split; [reflexivity|]. repeat split. }
  clear QC. destruct Q0 as (l & E0 & E1 & E2 & E3 & E4 & E5 & E6).
  assert (S1 : exists c1, chain_update_fk c = Some c1 /\ c_links c1 = [upd_frame l fid]).
  { unfold chain_update_fk, chain_update_frame, chain_lift, update_frame, c_fuel. rewrite E0. rewrite (down_one l_parent l_child l_sibl upd_frame l_frame _ l fid E1 E2). eexists. split; reflexivity. }
  destruct S1 as (c1 & S1 & L1). rewrite S1. cbn [obind]. remember (upd_frame l fid) as l1 eqn:Q1.
  assert (P1 : l_child l1 = None /\ l_sibl l1 = None /\ l_name l1 = "base"%string /\ b_shapes (l_body l1) = b_shapes b /\ l_frame l1 = fid).
  { subst l1. repeat split; try assumption. change (l_frame (upd_frame l fid)) with (fcascade fid (joint_xform (l_joint l) (l_org l))). rewrite E3, E4. apply fcascade_id_l. }
  clear Q1. destruct P1 as (G1 & G2 & G3 & G4 & G5). set (p := (v6zero, grav g)).
  assert (S2 : exists c2, chain_update_rate g c1 = Some c2 /\ c_links c2 = [upd_rate l1 p]).
  { unfold chain_update_rate, chain_lift, update_rate, c_fuel. rewrite L1. fold p. rewrite (down_one l_parent l_child l_sibl upd_rate (fun l => (l_vel l, l_acc l)) _ l1 p G1 G2). eexists. split; reflexivity. }
  destruct S2 as (c2 & S2 & L2). unfold chain_update_id. rewrite S2. cbn [obind]. remember (upd_rate l1 p) as l2 eqn:Q2.
  assert (P2 : l_child l2 = None /\ l_sibl l2 = None /\ l_name l2 = "base"%string /\ b_shapes (l_body l2) = b_shapes b /\ l_frame l2 = fid) by (subst l2; repeat split; assumption).
  clear Q2. destruct P2 as (H1 & H2 & H3 & H4 & H5).
  assert (S3 : exists c3, chain_update_wrench c2 = Some c3 /\ c_links c3 = [wr_post (wr_pre l2) []]).
  { unfold chain_update_wrench, chain_lift, update_wrench, c_fuel. rewrite L2. cbn [List.length]. rewrite (up_one l_child l_sibl wr_pre wr_post _ l2 H1 H2). eexists. split; reflexivity. }
  destruct S3 as (c3 & S3 & L3). rewrite S3. cbn [option_map]. eexists. split; [reflexivity|]. exists (wr_post (wr_pre l2) []). split; [exact L3|]. repeat split; assumption.
Qed.
(** The file of mshape2chain holds one link at the origin, with all shapes. *)
Lemma single_read (g : F) base (ms : list (string * shape F)) : NoDup (map fst ms) -> exists rb l, robot_read g (mshape2chain base ms) = Some (Some rb) /\
  rb_name rb = Some base /\ rb_shapes rb = map fst ms /\ c_links (rb_chain rb) = [l] /\ l_name l = "base"%string /\ l_frame l = fid /\ b_shapes (l_body l) = rev (seq 0 (length ms)).
Proof.
  intros ND. set (names := map fst ms) in *.
  assert (K : exists b, b_shapes b = rev (seq 0 (length ms)) /\ b_mp b = b_mp (body_init (F := F)) /\
            eval_keys (link_key [] names) (RL None None body_init fid) (KName "base" :: map KShape names) = Some (RL (Some "base"%string) None b fid, true)).
  { destruct (list_eq_dec string_dec names []) as [Q0|NE].
    { unfold names in *. destruct ms; [|discriminate Q0]. exists body_init; repeat split. }
    destruct (eval_shapes names names NE (RL (Some "base"%string) None body_init fid)) as (is & P & Q).
    { intros s Hs. apply In_nth_error in Hs. destruct Hs as (i & Hi). exists i. now apply find_nth. }
    assert (IS : is = seq 0 (length ms)).
    { replace (length ms) with (length names) by (unfold names; now rewrite map_length).
      assert (G : forall l js k, Forall2 (fun s i => find_name names s = Some i) l js -> (forall i s, nth_error l i = Some s -> nth_error names (k + i) = Some s) -> js = seq k (length l)).
      { clear - ND. intros l js k H. revert k. induction H as [|s i l js Hs _ IH]; intros k HN; [reflexivity|]. cbn [length seq]. f_equal.
        - pose proof (HN 0%nat s eq_refl) as Q. rewrite Nat.add_0_r in Q. pose proof (find_nth _ ND _ _ Q). congruence.
        - apply IH. intros j t Ht. specialize (HN (S j) t Ht). now rewrite Nat.add_succ_r in HN. }
      apply (G names is 0%nat P). intros i s Hs. exact Hs. }
    eexists. split; [|split]; [..|cbn [eval_keys link_key existsb obind]; exact Q].
    - rewrite (proj1 (pushed _ _)), IS. cbn [b_shapes body_init rl_body]. now rewrite app_nil_r.
    - apply (proj2 (pushed _ _)). }
  destruct K as (b & K1 & K2 & K3).
  unfold robot_read, mshape2chain. rewrite <- (map_map fst KShape). fold names. cbn [z_links z_motors z_shapes z_chain z_init obind length repeat eval_tag link_tag named flat_map rl_name app].
  unfold link_tag, link_read. cbn [named flat_map rl_name app]. rewrite K3. cbn [obind rl_joint rl_name rl_body rl_org joint_assign].
  assert (J : eval_keys (joint_key None) (JFixed (F := F)) (KName "base" :: map KShape names) = Some (JFixed, true)) by exact (joint_shapes None names).
  change (joint_assign TFixed) with (Some (JFixed (F := F))). cbn [obind]. rewrite J. cbn [option_map set_nth obind negb andb omap link_done rl_joint rl_name rl_body rl_org zname eval_tag].
  assert (CN : forall h : list (link F), connect_tag 0 h (KName "base" :: map KShape names) = Some (h, true)) by (intros h; exact (connect_shapes 0 h names)).
  rewrite CN. cbn [obind negb andb eval_keys chain_key option_map]. unfold chain_calc_mass. cbn [c_links c_mass c_wcom c_comvel c_comacc].
  match goal with |- context [obind (chain_update_fk (chain_set_offset (if ?t then Chain ?h 1 ?x ?y ?z else Chain ?h ?m ?x ?y ?z))) _] =>
    replace (if t then Chain h 1 x y z else Chain h m x y z) with (Chain h (if t then 1 else m) x y z) by (destruct t; reflexivity) end.
  match goal with |- context [Chain _ ?m ?x ?y ?z] => destruct (single_update g b m x y z) as (c & U & l & A1 & A2 & A3 & A4) end.
  match type of U with obind ?f _ = _ => destruct f as [c0|]; [|discriminate U] end. cbn [obind] in U |- *. rewrite U. cbn [option_map].
  do 2 eexists. split; [reflexivity|]. cbn [rb_name rb_shapes rb_chain]. repeat split; eauto. congruence.
Qed.
(** All shapes on the links, in order. *)
Definition worn_list (h : list (link F)) : list nat := flat_map (fun l => b_shapes (l_body l)) h.
Lemma omap_shapes_names (arr : list (string * shape F)) f is ms : omap_shapes arr f is = Some ms -> map Some (map fst ms) = map (nth_error (map fst arr)) is.
Proof.
  revert ms. induction is as [|i is IH]; intros ms H; cbn in H; [injection H as <-; reflexivity|]. destruct (nth_error arr i) as [[n s]|] eqn:Q; [|discriminate H].
  destruct (omap_shapes arr f is) as [t|]; [|discriminate H]. injection H as <-. cbn. rewrite (IH t eq_refl). f_equal. rewrite nth_error_map, Q. reflexivity.
Qed.
Lemma c2m_names (arr : list (string * shape F)) h ms : chain2mshape arr h = Some ms -> map Some (map fst ms) = map (nth_error (map fst arr)) (worn_list h).
Proof.
  revert ms. induction h as [|l h IH]; intros ms H; cbn [chain2mshape] in H; [injection H as <-; reflexivity|].
  destruct (omap_shapes arr (l_frame l) (b_shapes (l_body l))) as [a|] eqn:QA; [|discriminate H]. destruct (chain2mshape arr h) as [b|]; [|discriminate H]. injection H as <-.
  unfold worn_list. cbn [flat_map]. rewrite !map_app. f_equal; [exact (omap_shapes_names _ _ _ _ QA)|exact (IH b eq_refl)].
Qed.
Lemma c2m_nodup (arr : list (string * shape F)) h ms : NoDup (map fst arr) -> NoDup (worn_list h) -> chain2mshape arr h = Some ms -> NoDup (map fst ms).
Proof.
  intros NA NW H. apply c2m_names in H. revert H. generalize (map fst ms) as l. induction NW as [|i is NI NW IH]; intros [|s l] H; try discriminate H; [constructor|].
  cbn in H. injection H as H1 H2. constructor; [|now apply IH]. intros HS. apply NI. apply (in_map Some) in HS. rewrite H2 in HS. apply in_map_iff in HS. destruct HS as (j & HJ & IJ).
  replace i with j; [exact IJ|]. apply (proj1 (NoDup_nth_error _) NA); [apply nth_error_Some; congruence|congruence].
Qed.
Lemma omap_shapes_total (arr : list (string * shape F)) f is : (forall i, In i is -> i < length arr)%nat -> exists ms, omap_shapes arr f is = Some ms.
Proof.
  induction is as [|i is IH]; intros H; cbn; [eauto|]. destruct (nth_error arr i) as [[n s]|] eqn:Q; [|apply nth_error_None in Q; specialize (H i (or_introl eq_refl)); lia].
  destruct IH as (t & ->); [intros; apply H; now right|eauto].
Qed.
Lemma c2m_total (arr : list (string * shape F)) h : refers (map snd arr) h -> exists ms, chain2mshape arr h = Some ms.
Proof.
  induction h as [|l h IH]; intros H; cbn [chain2mshape]; [eauto|]. destruct (omap_shapes_total arr (l_frame l) (b_shapes (l_body l))) as (a & ->).
  { intros i Hi. specialize (H l i (or_introl eq_refl) Hi). now rewrite map_length in H. }
  destruct IH as (b & ->); [intros k i Hk; apply H; now right|eauto].
Qed.
(** The vertices of shapes that stay where they are. *)
Definition still (s : shape F) : list (vec3 F) := match s with Poly v _ => v | Prim p => match prim_vert p with Some v => v | None => [] end end.
Lemma still_moved f s v : shape_verts f s = Some v -> still (shape_xform f s) = v.
Proof. destruct s as [w fc|p]; cbn; intros H; [now injection H|now rewrite H]. Qed.
Lemma omap_shapes_verts arr f is : forall v ms, shapes_verts (map snd arr) f is = Some (Some v) -> omap_shapes arr f is = Some ms -> flat_map still (map snd ms) = v /\ forall s, In s (map snd ms) -> exists s0 u, s = shape_xform f s0 /\ shape_verts f s0 = Some u.
Proof.
  induction is as [|i is IH]; intros v ms V H; cbn in V, H.
  - injection V as <-. injection H as <-. split; [reflexivity|intros ? []].
  - rewrite nth_error_map in V. destruct (nth_error arr i) as [[n s]|]; [|discriminate H]. cbn [option_map snd] in V. destruct (shape_verts f s) as [u|] eqn:QS; [|discriminate V].
    destruct (shapes_verts (map snd arr) f is) as [[w|]|]; try discriminate V. destruct (omap_shapes arr f is) as [t|]; [|discriminate H]. injection V as <-. injection H as <-.
    destruct (IH w t eq_refl eq_refl) as [I1 I2]. split.
    + cbn [map flat_map snd]. now rewrite I1, (still_moved _ _ _ QS).
    + intros x [<-|Hx]; [exists s, u; auto|exact (I2 x Hx)].
Qed.
Definition settled (s : shape F) : Prop := exists f s0 u, s = shape_xform f s0 /\ shape_verts f s0 = Some u.
Lemma c2m_verts arr h : forall v ms, links_verts (map snd arr) h = Some (Some v) -> chain2mshape arr h = Some ms -> flat_map still (map snd ms) = v /\ forall s, In s (map snd ms) -> settled s.
Proof.
  induction h as [|l h IH]; intros v ms V H; cbn [links_verts chain2mshape] in V, H.
  - injection V as <-. injection H as <-. split; [reflexivity|intros ? []].
  - destruct (shapes_verts (map snd arr) (l_frame l) (b_shapes (l_body l))) as [[u|]|] eqn:QS; try discriminate V. destruct (omap_shapes arr (l_frame l) (b_shapes (l_body l))) as [a|] eqn:QA; [|discriminate H].
    destruct (links_verts (map snd arr) h) as [[w|]|]; try discriminate V. destruct (chain2mshape arr h) as [b|]; [|discriminate H]. injection V as <-. injection H as <-.
    destruct (IH w b eq_refl eq_refl) as [I1 I2]. destruct (omap_shapes_verts _ _ _ _ _ QS QA) as [A1 A2]. rewrite map_app. split; [now rewrite flat_map_app, A1, I1|].
    intros s Hs. apply in_app_or in Hs. destruct Hs as [Hs|Hs]; [|auto]. destruct (A2 s Hs) as (s0 & x & B1 & B2). exists (l_frame l), s0, x. auto.
Qed.
Lemma xform_fid (p : vec3 F) : xform fid p = p. Proof. vring. Qed.
Lemma still_verts s : (forall p, prim_xform fid p = p) -> settled s -> shape_verts fid s = Some (still s).
Proof.
  intros PI (f & s0 & u & -> & H). destruct s0 as [v fc|p]; cbn in *; [f_equal; rewrite map_map; apply map_ext; intros; apply xform_fid|]. rewrite PI, H. reflexivity.
Qed.
Lemma shapes_verts_at arr : (forall p, prim_xform fid p = p) -> (forall s, In s arr -> settled s) -> forall is t, map (nth_error arr) is = map Some t -> shapes_verts arr fid is = Some (Some (flat_map still t)).
Proof.
  intros PI ST is. induction is as [|i is IH]; intros [|s t] H; try discriminate H; [reflexivity|]. cbn in H. injection H as H1 H2. cbn [shapes_verts flat_map]. rewrite H1, still_verts; [|exact PI|apply ST; eapply nth_error_In; eauto].
  rewrite (IH t H2). reflexivity.
Qed.
Lemma map_nth_seq {A} (l : list A) : map (nth_error l) (seq 0 (length l)) = map Some l.
Proof. induction l as [|a l IH]; [reflexivity|]. cbn [length seq map nth_error]. rewrite <- seq_shift, map_map. f_equal. exact IH. Qed.
(** A chain whose links do not share shapes, converted to shapes and these converted to a chain: one link at the origin with
    all the shapes, whose vertices are where they were on the chain. *)
Theorem C99_through : forall (g : F) base (arr : list (string * shape F)) (c : chain F) v, (forall p, prim_xform fid p = p) ->
  NoDup (map fst arr) -> NoDup (worn_list (c_links c)) -> refers (map snd arr) (c_links c) -> chain_vert_list (map snd arr) c = Some (Some v) ->
  exists ms rb l w, chain2mshape arr (c_links c) = Some ms /\ robot_read g (mshape2chain base ms) = Some (Some rb) /\
    rb_name rb = Some base /\ c_links (rb_chain rb) = [l] /\ l_frame l = fid /\ length (b_shapes (l_body l)) = length (worn_list (c_links c)) /\
    chain_vert_list (map snd ms) (rb_chain rb) = Some (Some w) /\ Permutation w v.
Proof.
  intros g base arr c v PI NA NW RF V. destruct (c2m_total arr _ RF) as (ms & M). pose proof (c2m_nodup _ _ _ NA NW M) as ND. destruct (single_read g base ms ND) as (rb & l & R1 & R2 & R3 & R4 & R5 & R6 & R7).
  destruct (c2m_verts _ _ _ _ V M) as [W1 W2]. exists ms, rb, l, (flat_map still (rev (map snd ms))). split; [exact M|]. split; [exact R1|]. split; [exact R2|]. split; [exact R4|]. split; [exact R6|]. split.
  { rewrite R7, rev_length, seq_length. pose proof (f_equal (@length _) (c2m_names _ _ _ M)) as Q. now rewrite !map_length in Q. }
  split.
  - unfold chain_vert_list. rewrite R4. cbn [links_verts]. rewrite R6, R7. rewrite (shapes_verts_at (map snd ms) PI W2 _ (rev (map snd ms))).
    + cbn [option_map]. now rewrite app_nil_r.
    + rewrite !map_rev. f_equal. rewrite <- (map_length snd ms). apply map_nth_seq.
  - rewrite <- W1. apply Permutation_flat_map. symmetry. apply Permutation_rev.
Qed.
End Shapes.

(** *** Examples *)
(** A shape that is no polyhedron: a rod between two points, or one that cannot be converted. *)
Definition rod : Type := option (vec3 Qc * vec3 Qc).
#[local] Instance Shape_Qc : ShapeExt Qc :=
  mkShapeExt (fun f (r : rod) => option_map (fun '(a, b) => (xform f a, xform f b)) r) (fun r => option_map (fun '(a, b) => [a; b]) r).
Definition pt (x y z : Z) : vec3 Qc := V3 (qz x) (qz y) (qz z).
(** A quarter turn about the vertical, at a position. *)
Definition turn (x y z : Z) : frame Qc := Fr (pt x y z) (M3 (pt 0 1 0) (pt (-1) 0 0) (pt 0 0 1)).
Lemma turn_rigid x y z : rigid (turn x y z).
Proof. split; vm_compute; reflexivity. Qed.
Definition wear (is : list nat) : body Qc := fold_right (fun i b => b_push_shape i b) body_init is.
Definition piece (n : string) (j : joint Qc) (o : frame Qc) (is : list nat) : link Qc := Link n j (wear is) None o fid v6zero None None None.
Definition pair_links (o : frame Qc) : list (link Qc) := [piece "a" JFixed o [0%nat]; piece "b" (jn TRevol) (turn 1 1 0) [1%nat]].
Definition pair_tree (o : frame Qc) : list (link Qc) := match add_children (pair_links o) [(0, 1)]%nat with Some h => h | None => [] end.
Definition pair_chain (o : frame Qc) : chain Qc := Chain (pair_tree o) (qz 1) v3zero v3zero v3zero.
Definition points : list (shape Qc) := [Poly [pt 1 0 0] []; Poly [pt 1 0 0] []].
Lemma pair_wf o : well_formed (c_links (pair_chain o)).
Proof.
  apply (C23_complete_tree (pair_links o) [(0, 1)]%nat); [| |cbn; lia|cbn; lia| |reflexivity].
  - intros i l. do 2 (destruct i as [|i]; [intros H; injection H as <-; repeat split|]). destruct i; discriminate.
  - constructor; [cbn; lia|cbn; lia|cbn; lia| |constructor]. cbn [app]. intros H. apply below_inv in H. destruct H as [H|(? & I & _)]; [discriminate H|destruct I].
  - intros k H. cbn in H. cbn. lia.
Qed.
Lemma pair_made o : joints_made (c_links (pair_chain o)).
Proof.
  intros [|[|i]] l H; cbn in H; [injection H as <-; exists TFixed, JFixed, []; split; reflexivity|injection H as <-; exact (jn_made TRevol)|].
  destruct i; discriminate.
Qed.
Definition seen (arr : list (shape Qc)) (c : chain Qc) : option (option (list (vec3 Qc))) := obind (chain_update_frame c) (chain_vert_list arr).
(** Vertices of the two links, in the world. *)
Lemma pair_seen : seen points (pair_chain fid) = Some (Some [pt 1 0 0; pt 1 2 0]).
Proof. vm_compute. reflexivity. Qed.
Lemma pair_refers arr o c1 : length arr = 2%nat -> chain_update_frame (pair_chain o) = Some c1 -> refers arr (c_links c1).
Proof.
  intros LA A. destruct (C24_frame_pass _ (pair_wf o)) as (c' & A' & P & _). replace c' with c1 in * by congruence. intros l i Hl Hi. apply In_nth_error in Hl. destruct Hl as (k & Hk).
  assert (KL : (k < 2)%nat) by (change 2%nat with (length (c_links (pair_chain o))); rewrite <- (proj1 P); apply nth_error_Some; congruence).
  destruct k as [|[|k]]; [..|lia].
  - destruct (proj2 P 0%nat _ eq_refl) as (p & Hp & _). rewrite Hk in Hp. injection Hp as ->. cbn in Hi. lia.
  - destruct (proj2 P 1%nat _ eq_refl) as (p & Hp & _). rewrite Hk in Hp. injection Hp as ->. cbn in Hi. lia.
Qed.
Example C97_ex_vertices : exists c1, chain_update_frame (pair_chain fid) = Some c1 /\ forall x, vertex points c1 x <-> x = pt 1 0 0 \/ x = pt 1 2 0.
Proof.
  destruct (C24_frame_pass _ (pair_wf fid)) as (c1 & A & _). exists c1. split; [exact A|]. destruct (C97_vertices points c1 (pair_refers points fid c1 eq_refl A)) as (r & V & D).
  pose proof pair_seen as S. unfold seen in S. rewrite A in S. cbn [obind] in S. rewrite S in V. injection V as <-. intros x. rewrite <- (proj2 D x). cbn. intuition.
Qed.
(** With a rod on the second link; and with a shape that cannot be converted. *)
Example C97_ex_rod : seen [Poly [pt 1 0 0; pt 0 0 1] []; Prim (Some (pt 0 0 0, pt 2 0 0))] (pair_chain fid) = Some (Some [pt 1 0 0; pt 0 0 1; pt 1 1 0; pt 1 3 0]) /\
  seen [Poly [pt 1 0 0] []; Prim None] (pair_chain fid) = Some None.
Proof. split; vm_compute; reflexivity. Qed.

(** The smallest ball of two points. *)
Section Two.
Context {F : Type} {N : Num F} {L : NumLaws F N}.
Add Field FFieldTwo : num_field.
Local Open Scope num_scope.
Definition middle (p q : vec3 F) : vec3 F := v3scale (1 / (1 + 1)) (v3add p q).
Lemma nle_sqr_inv (a b : F) : 0 <= b -> a * a <= b * b -> a <= b.
Proof.
  intros B H. destruct (nle_or_lt a b) as [K|K]; [exact K|]. exfalso. apply nlt_le_neq in K. destruct K as [K NE].
  assert (Q : (a - b) * (a - b) = 0).
  { apply nle_antisym; [|apply nle_0_sqr]. apply nle_sub_iff. replace (0 - (a - b) * (a - b)) with ((b * b - a * a) + (1 + 1) * (b * (a - b))) by ring. apply nle_0_add; [now apply (proj1 (nle_sub_iff _ _))|].
    apply nle_0_mul; [apply nle_0_add; apply nle_0_1|]. apply nle_0_mul; [exact B|]. now apply (proj1 (nle_sub_iff _ _)). }
  apply nsqr_eq_0 in Q. apply NE. replace a with (a - b + b) by ring. rewrite Q. ring.
Qed.
Lemma pair_smallest (p q : vec3 F) r : 0 <= r -> v3sqr (v3sub p q) = ((1 + 1) * r) * ((1 + 1) * r) -> smallest [p; q] (middle p q, r).
Proof.
  intros R0 H. assert (T2 : (1 + 1 : F) <> 0) by exact n2_neq_0. assert (T4 : (1 + 1) * (1 + 1) <> (0 : F)) by (intros Q; apply nmul_eq_0 in Q; tauto).
  assert (QT : forall x y : vec3 F, v3sqr (v3sub x (middle x y)) = v3sqr (v3sub x y) / ((1 + 1) * (1 + 1))).
  { intros [x1 x2 x3] [y1 y2 y3]. unfold middle, v3sqr, v3dot, v3sub, v3scale, v3add. cbn [vx vy vz]. field. repeat split; assumption. }
  assert (SY : middle p q = middle q p) by (unfold middle; now rewrite v3add_comm). assert (SS : v3sqr (v3sub q p) = v3sqr (v3sub p q)) by (destruct p as [p1 p2 p3], q as [q1 q2 q3]; unfold v3sqr, v3dot, v3sub; cbn [vx vy vz]; ring).
  assert (HR : ((1 + 1) * r) * ((1 + 1) * r) / ((1 + 1) * (1 + 1)) = r * r) by (field; repeat split; assumption).
  split; [split; [exact R0|]|].
  - intros x [<-|[<-|[]]]; unfold in_ball; cbn [fst snd]; [rewrite QT|rewrite SY, QT, SS]; rewrite H, HR; apply nle_refl.
  - intros [o r'] [R1 EN]. cbn [snd] in *. apply nle_sqr_inv; [exact R1|]. pose proof (EN p (or_introl eq_refl)) as E1. pose proof (EN q (or_intror (or_introl eq_refl))) as E2. unfold in_ball in E1, E2. cbn [fst snd] in E1, E2.
    pose proof (mid_dist p q o) as M. apply nle_sub_iff. rewrite <- HR, <- H.
    replace (r' * r' - v3sqr (v3sub p q) / ((1 + 1) * (1 + 1))) with (v3sqr (v3sub o (v3scale (1 / (1 + 1)) (v3add p q))) + ((r' * r' - v3sqr (v3sub o p)) + (r' * r' - v3sqr (v3sub o q))) / (1 + 1)) by (rewrite M; field; repeat split; assumption).
    assert (SO : forall x, v3sqr (v3sub o x) = v3sqr (v3sub x o)) by (intros [x1 x2 x3]; destruct o as [o1 o2 o3]; unfold v3sqr, v3dot, v3sub; cbn [vx vy vz]; ring). rewrite !SO in *.
    apply nle_0_add; [apply v3sqr_nonneg|]. apply nle_0_div; [|apply nlt_0_add_l; [apply nlt_0_1|apply nle_0_1]]. apply nle_0_add; apply (proj1 (nle_sub_iff _ _)); rewrite <- ?SO; rewrite ?SO; assumption.
Qed.
End Two.

Definition bball2 (v : list (vec3 Qc)) : vec3 Qc * Qc := match v with [p; q] => (middle p q, qz 1) | _ => (v3zero, qz 0) end.
Definition away : frame Qc := turn 5 0 1.
Lemma points_poly : polyhedral points.
Proof. intros s [<-|[<-|[]]]; eexists; eexists; reflexivity. Qed.
Lemma pair_displaced : Forall2 (displaced away) (c_links (pair_chain fid)) (c_links (pair_chain (fcascade away fid))).
Proof. repeat constructor. Qed.
Example C97_ex_ball c1 b : chain_update_frame (pair_chain fid) = Some c1 -> chain_bball bball2 points c1 = Some (Some b) -> in_ball b (pt 1 2 0).
Proof.
  intros A B. pose proof pair_seen as S. unfold seen in S. rewrite A in S. cbn [obind] in S. pose proof (pair_refers points fid c1 eq_refl A) as R.
  apply (C97_ball bball2 points c1 b R); [|exact B|].
  - intros v V. rewrite S in V. injection V as <-. refine (proj1 (pair_smallest (pt 1 0 0) (pt 1 2 0) (qz 1) eq_refl _)). vm_compute. reflexivity.
  - destruct (C97_vertices points c1 R) as (r & V & D). rewrite S in V. injection V as <-. apply (proj2 D). cbn. auto.
Qed.
Example C97_ex_moved : exists c1 d1 o r, chain_update_frame (pair_chain fid) = Some c1 /\ chain_update_frame (pair_chain (fcascade away fid)) = Some d1 /\
  chain_bball bball2 points c1 = Some (Some (o, r)) /\ chain_bball bball2 points d1 = Some (Some (xform away o, r)).
Proof.
  destruct (C24_frame_pass _ (pair_wf fid)) as (c1 & A & _). destruct (C24_frame_pass _ (pair_wf (fcascade away fid))) as (d1 & B & _). exists c1, d1.
  pose proof pair_seen as S. unfold seen in S. rewrite A in S. cbn [obind] in S.
  destruct (C97_moved away bball2 points _ _ c1 d1 (turn_rigid 5 0 1) points_poly (pair_refers points fid c1 eq_refl A) (pair_wf fid) (pair_made fid) (pair_wf _) (pair_made _) pair_displaced A B) as (v & V & V' & K).
  rewrite S in V. injection V as <-. destruct K as (o & r & K1 & K2).
  - discriminate.
  - apply pair_smallest; vm_compute; reflexivity.
  - apply pair_smallest; vm_compute; reflexivity.
  - exists o, r. auto.
Qed.

(** A vertex of least distance, by comparison of all; the distance by the square root of rational squares. *)
Fixpoint least (vs : list (vec3 Qc)) (q : vec3 Qc) : option (vec3 Qc) :=
  match vs with
  | [] => None
  | a :: t => match least t q with Some b => if nleb (v3sqr (v3sub a q)) (v3sqr (v3sub b q)) then Some a else Some b | None => Some a end
  end.
Definition contig_Q (vs : list (vec3 Qc)) (q : vec3 Qc) : option (vec3 Qc * Qc) := option_map (fun v => (v, qsqrt (v3sqr (v3sub v q)))) (least vs q).
Definition two : list (vec3 Qc) := [pt 0 3 0; pt 1 0 0].
Lemma two_nearest : nearest two (xforminv (turn 1 1 0) (pt 1 5 0)) (pt 1 0 0, qz 3).
Proof. split; [cbn; auto|]. split; [vm_compute; reflexivity|]. split; [vm_compute; reflexivity|]. intros w [<-|[<-|[]]]; vm_compute; reflexivity. Qed.
Lemma two_contig : contig_Q two (xforminv (turn 1 1 0) (pt 1 5 0)) = Some (pt 1 0 0, qz 3).
Proof. vm_compute. reflexivity. Qed.
Example C98_ex : exists v d, body_contig_vert contig_Q two (turn 1 1 0) (pt 1 5 0) = Some (v, d) /\ nearest (map (xform (turn 1 1 0)) two) (pt 1 5 0) (xform (turn 1 1 0) v, d).
Proof.
  exists (pt 1 0 0), (qz 3). split; [exact two_contig|]. pose proof (C98_contiguous contig_Q two (turn 1 1 0) (pt 1 5 0) (turn_rigid 1 1 0)) as H. unfold body_contig_vert in H. rewrite two_contig in H.
  exact (proj2 (H two_nearest)).
Qed.

Section Files.
Context {ZL : ZtkLib}.
Definition stock : list (string * shape Qc) := [("s"%string, Poly [pt 1 0 0; pt 0 0 1] [(0, 1, 0)%nat]); ("t"%string, Prim (Some (pt 0 0 0, pt 2 0 0)))].
Lemma rod_still (r : rod) : @prim_xform Qc Shape_Qc fid r = r.
Proof. destruct r as [[a b]|]; [|reflexivity]. cbn. now rewrite !xform_fid. Qed.
Lemma stock_seen : seen (map snd stock) (pair_chain fid) = Some (Some [pt 1 0 0; pt 0 0 1; pt 1 1 0; pt 1 3 0]).
Proof. vm_compute. reflexivity. Qed.
Lemma worn_pair o c1 : chain_update_frame (pair_chain o) = Some c1 -> worn_list (c_links c1) = [0; 1]%nat.
Proof.
  intros A. destruct (C24_frame_pass _ (pair_wf o)) as (c' & A' & P & _). replace c' with c1 in * by congruence. destruct (proj2 P 0%nat _ eq_refl) as (p & Hp & _). destruct (proj2 P 1%nat _ eq_refl) as (q & Hq & _).
  pose proof (proj1 P) as LN. destruct (c_links c1) as [|x [|y [|z t]]]; try discriminate LN. injection Hp as ->. injection Hq as ->. reflexivity.
Qed.
Example C99_ex : exists c1 ms rb l w, chain_update_frame (pair_chain fid) = Some c1 /\ chain2mshape stock (c_links c1) = Some ms /\ robot_read (qz 10) (mshape2chain "m" ms) = Some (Some rb) /\
  c_links (rb_chain rb) = [l] /\ chain_vert_list (map snd ms) (rb_chain rb) = Some (Some w) /\ Permutation w [pt 1 0 0; pt 0 0 1; pt 1 1 0; pt 1 3 0].
Proof.
  destruct (C24_frame_pass _ (pair_wf fid)) as (c1 & A & _). pose proof stock_seen as S. unfold seen in S. rewrite A in S. cbn [obind] in S. exists c1.
  destruct (C99_through (qz 10) "m" stock c1 [pt 1 0 0; pt 0 0 1; pt 1 1 0; pt 1 3 0] rod_still) as (ms & rb & l & w & H1 & H2 & H3 & H4 & H5 & H6 & H7 & H8); [..|exact S|].
  - repeat constructor; cbn; intuition discriminate.
  - rewrite (worn_pair fid c1 A). repeat constructor; cbn; intuition discriminate.
  - exact (pair_refers (map snd stock) fid c1 eq_refl A).
  - exists ms, rb, l, w. auto 10.
Qed.

(** A shape on two links is printed twice under one name, and the reader finds the first of the two for both: the second is
    no longer where it was. *)
Definition keeps_vertices : Prop := forall (g : Qc) base (arr : list (string * shape Qc)) (c : chain Qc) v ms rb w, NoDup (map fst arr) -> refers (map snd arr) (c_links c) ->
  chain_vert_list (map snd arr) c = Some (Some v) -> chain2mshape arr (c_links c) = Some ms -> robot_read g (mshape2chain base ms) = Some (Some rb) ->
  chain_vert_list (map snd ms) (rb_chain rb) = Some (Some w) -> Permutation w v.
Definition put (n : string) (f : frame Qc) (is : list nat) : link Qc := Link n JFixed (body_set_frame (wear is) f) None f fid v6zero None None None.
Definition shared : list (link Qc) := [put "a" fid [0%nat]; put "b" (turn 1 1 0) [0%nat]].
Definition wheel : list (string * shape Qc) := [("s"%string, Poly [pt 1 0 0] [])].
Definition ms2 : list (string * shape Qc) := match chain2mshape wheel shared with Some m => m | None => [] end.
Lemma shared_refers : refers (map snd wheel) shared.
Proof. intros l i [<-|[<-|[]]] [<-|[]]; cbn; lia. Qed.
Lemma shared_before m : chain_vert_list (map snd wheel) (Chain shared m v3zero v3zero v3zero) = Some (Some [pt 1 0 0; pt 1 2 0]).
Proof. vm_compute. reflexivity. Qed.
Lemma wheel_names : NoDup (map fst wheel).
Proof. constructor; [intros []|constructor]. Qed.
Lemma shared_printed : chain2mshape wheel shared = Some ms2.
Proof. destruct (c2m_total _ _ shared_refers) as (m & M). unfold ms2. now rewrite M. Qed.
Definition reread (ms : list (string * shape Qc)) : option (list (vec3 Qc)) :=
  match robot_read (qz 10) (mshape2chain "m" ms) with Some (Some rb) => match chain_vert_list (map snd ms) (rb_chain rb) with Some (Some w) => Some w | _ => None end | _ => None end.
Lemma shared_after : reread ms2 = Some [pt 1 0 0; pt 1 0 0].
Proof. destruct ZL. vm_compute. reflexivity. Qed.
Lemma not_there : ~ In (pt 1 2 0) [pt 1 0 0; pt 1 0 0].
Proof. intros H. assert (Q : vy (pt 1 2 0) = vy (pt 1 0 0)) by (destruct H as [<-|[<-|[]]]; reflexivity). apply (f_equal (fun x => Qcleb x 0)) in Q. vm_compute in Q. discriminate Q. Qed.
Lemma not_kept arr c v ms w x : NoDup (map fst arr) -> refers (map snd arr) (c_links c) -> chain_vert_list (map snd arr) c = Some (Some v) -> chain2mshape arr (c_links c) = Some ms ->
  reread ms = Some w -> In x v -> ~ In x w -> ~ keeps_vertices.
Proof.
  intros H1 H2 H3 H4 A H5 H6 K. unfold reread in A. destruct (robot_read (qz 10) (mshape2chain "m" ms)) as [[rb|]|] eqn:R; try discriminate A.
  destruct (chain_vert_list (map snd ms) (rb_chain rb)) as [[u|]|] eqn:V; try discriminate A. injection A as ->. apply H6.
  exact (Permutation_in _ (Permutation_sym (K _ _ _ _ _ _ _ _ H1 H2 H3 H4 R V)) H5).
Qed.
Definition shared_chain : chain Qc := Chain shared (qz 1) v3zero v3zero v3zero.
Theorem C99_shared_refuted : ~ keeps_vertices.
Proof.
  exact (not_kept wheel shared_chain [pt 1 0 0; pt 1 2 0] ms2 [pt 1 0 0; pt 1 0 0] (pt 1 2 0) wheel_names shared_refers (shared_before (qz 1)) shared_printed shared_after (or_intror (or_introl eq_refl)) not_there).
Qed.
End Files.

Print Assumptions C97_vertices.
Print Assumptions C97_ball.
Print Assumptions C97_moved.
Print Assumptions C98_contiguous.
Print Assumptions C99_through.
Print Assumptions C99_shared_refuted.
