(** * Kin_Properties: theorems C30-C35. *)
From Coq Require Import String ZArith QArith Qcanon List Arith Lia.
From Verif Require Import Num NumFacts Vec VecFacts Motor_Model Joint_Model Joint_Spec Joint_Proofs Body_Model
  Tree Tree_Proofs Link_Model Link_Spec Link_Proofs Chain_Proofs Link_Properties Chain_Properties
  Kin_Spec Kin_Proofs Jacobi_Model Jacobi_Proofs ExtQ.
Import ListNotations.
Local Open Scope nat_scope.

Section Thms.
Context {F : Type} {N : Num F} {L : NumLaws F N} {E : Ext F} {X : ExtLaws F N E}.

(** C30: after the frame update the world frame of every link is the product along its lineage of
    mounting frames and documented joint transformations. *)
Theorem C30_frame_is_product (c c1 : chain F) i l1 : well_formed (c_links c) -> joints_made (c_links c) ->
  chain_update_frame c = Some c1 -> nth_error (c_links c1) i = Some l1 ->
  exists t, lineage (c_links c) i t /\ doc_pose (c_links c) t = Some (l_frame l1).
Proof.
  intros W JM A Hl1. destruct (C24_frame_pass c W) as (c1' & A1 & P1 & W1). assert (c1' = c1) by congruence. subst c1'.
  assert (Hi : i < length (c_links c)) by (rewrite <- (proj1 P1); eapply nth_lt; eauto).
  destruct (wf_lineage _ i W Hi) as (t & LT & _). exists t. split; [exact LT|].
  pose proof (pass_keeps _ _ P1) as K.
  assert (LT1 : lineage (c_links c1) i t).
  { eapply lineage_ext; [|exact LT]. intros k l Hl. destruct (K k l Hl) as (l' & Hl' & _ & _ & EP & _). eauto. }
  destruct (doc_pose_frames (c_links c1)) with (i := i) (t := t) as (l & Hl & D); auto.
  - intros k l Hl. assert (Hk : k < length (c_links c)) by (rewrite <- (proj1 P1); eapply nth_lt; eauto).
    destruct (nth_error (c_links c) k) as [l0|] eqn:H0; [|apply nth_error_None in H0; lia].
    destruct (K k l0 H0) as (l' & Hl' & EJ & _). assert (l' = l) by congruence. subst l'. rewrite EJ. apply made_cache. eauto.
  - exact (frames_of_pass _ _ P1).
  - assert (l = l1) by congruence. subst l. rewrite <- D. symmetry. apply doc_pose_ext; [|eapply lineage_lt; eauto].
    intros k _ l0 H0. destruct (K k l0 H0) as (l' & Hl' & EJ & EO & _). exists l'. rewrite EJ, EO. auto.
Qed.
(** C30: the frames the update starts from have no influence. *)
Theorem C30_previous_state_irrelevant (c d c1 d1 : chain F) : well_formed (c_links c) ->
  joints_made (c_links c) -> joints_made (c_links d) -> length (c_links d) = length (c_links c) ->
  (forall i l l', nth_error (c_links c) i = Some l -> nth_error (c_links d) i = Some l' ->
     same_refs l_parent l_child l_sibl l l' /\ l_org l' = l_org l /\ jtype_of (l_joint l') = jtype_of (l_joint l) /\
     joint_get_dis (l_joint l') = joint_get_dis (l_joint l)) ->
  chain_update_frame c = Some c1 -> chain_update_frame d = Some d1 ->
  map l_frame (c_links d1) = map l_frame (c_links c1).
Proof.
  intros W JC JD LE EQ AC AD.
  assert (EX : forall i l, nth_error (c_links c) i = Some l -> exists l', nth_error (c_links d) i = Some l').
  { intros i l Hl. destruct (nth_error (c_links d) i) eqn:H; [eauto|]. apply nth_error_None in H. pose proof (nth_lt _ _ _ Hl). lia. }
  assert (WD : well_formed (c_links d)).
  { eapply wf_of_refs; [|exact W]. apply forall2_nth_eq; [auto|]. intros i l Hl. destruct (EX i l Hl) as (l' & Hl'). exists l'. split; [exact Hl'|]. eapply EQ; eauto. }
  assert (LC : length (c_links c1) = length (c_links c)).
  { destruct (C24_frame_pass c W) as (x & A & [B _] & _). congruence. }
  assert (LD : length (c_links d1) = length (c_links d)).
  { destruct (C24_frame_pass d WD) as (x & A & [B _] & _). congruence. }
  assert (G : Forall2 (fun a b => l_frame b = l_frame a) (c_links c1) (c_links d1)).
  { apply forall2_nth_eq; [lia|]. intros i l1 Hl1.
    destruct (nth_error (c_links d1) i) as [m1|] eqn:Hm1; [|apply nth_error_None in Hm1; pose proof (nth_lt _ _ _ Hl1); lia].
    exists m1. split; [reflexivity|].
    destruct (C30_frame_is_product c c1 i l1 W JC AC Hl1) as (t & LT & DP). destruct (C30_frame_is_product d d1 i m1 WD JD AD Hm1) as (t' & LT' & DP').
    assert (t' = t).
    { symmetry. eapply lineage_unique; [|exact LT']. eapply lineage_ext; [|exact LT]. intros k l Hl. destruct (EX k l Hl) as (l' & Hl'). exists l'. split; [exact Hl'|].
      destruct (EQ k l l' Hl Hl') as [[EP _] _]. auto. }
    subst t'. rewrite (doc_pose_ext (c_links c) (c_links d) t) in DP'; [congruence| |eapply lineage_lt; eauto].
    intros k _ l Hl. destruct (EX k l Hl) as (l' & Hl'). exists l'. destruct (EQ k l l' Hl Hl') as (_ & A & B & C). auto. }
  clear - G. induction G; cbn; [reflexivity|]. now f_equal.
Qed.
(** C31: frames stay rigid. *)
Theorem C31_frames_rigid (c c1 : chain F) i l1 : well_formed (c_links c) -> joints_made (c_links c) -> orgs_rigid (c_links c) ->
  chain_update_frame c = Some c1 -> nth_error (c_links c1) i = Some l1 -> rigid (l_adj l1) /\ rigid (l_frame l1).
Proof.
  intros W JM OR A Hl1. destruct (C24_frame_pass c W) as (c1' & A1 & P1 & W1). assert (c1' = c1) by congruence. subst c1'.
  pose proof (pass_keeps _ _ P1) as K.
  assert (INV : forall k l, nth_error (c_links c1) k = Some l -> exists l0, nth_error (c_links c) k = Some l0 /\ l_joint l = l_joint l0 /\ l_org l = l_org l0).
  { intros k l Hl. assert (Hk : k < length (c_links c)) by (rewrite <- (proj1 P1); eapply nth_lt; eauto).
    destruct (nth_error (c_links c) k) as [l0|] eqn:H0; [|apply nth_error_None in H0; lia].
    destruct (K k l0 H0) as (l' & Hl' & EJ & EO & _). assert (l' = l) by congruence. subst l'. eauto. }
  destruct (wf_lineage _ i W1 (nth_lt _ _ _ Hl1)) as (t & LT & _).
  destruct (frames_rigid (c_links c1)) with (i := i) (t := t) as (l & Hl & R1 & R2); auto.
  - intros k l Hl. destruct (INV k l Hl) as (l0 & H0 & -> & _). apply made_cache. eauto.
  - intros k l Hl. destruct (INV k l Hl) as (l0 & H0 & _ & ->). eauto.
  - exact (frames_of_pass _ _ P1).
  - assert (l = l1) by congruence. subst l. auto.
Qed.

(** C32-C35: [c1] has up-to-date frames; the Jacobians are computed from it.  [c3] is the chain after
    setting joint velocities [v] and propagating them.  Such a [c3] always exists. *)
Theorem C32_motion_exists g (c : chain F) v : usable c -> length v = chain_joint_size c -> exists c1 c3, motion g c v c1 c3.
Proof. exact (motion_total g c v). Qed.
Theorem C32_angular g (c c1 c3 : chain F) v m i l : usable c -> length v = chain_joint_size c -> length m = chain_joint_size c ->
  motion g c v c1 c3 -> nth_error (c_links c3) i = Some l ->
  exists J, wld_ang_jacobi c1 i m = Some J /\ length J = length m /\ jmul J v = world_angvel l.
Proof.
  intros U LV LM M Hl. destruct (motion_state g c c1 c3 v U LV M) as (G & M3 & M1 & S).
  destruct (wld_ang_spec c3 v S i l m) as (J & A & B & C); [congruence|exact Hl|]. exists J.
  rewrite <- (wld_ang_ext c1 c3 G). split; [exact A|]. split; [congruence|exact C].
Qed.
Theorem C32_linear g (c c1 c3 : chain F) v m i l p : usable c -> length v = chain_joint_size c -> length m = chain_joint_size c ->
  motion g c v c1 c3 -> nth_error (c_links c3) i = Some l ->
  exists J, wld_lin_jacobi c1 i p m = Some J /\ length J = length m /\ jmul J v = world_pointvel l p.
Proof.
  intros U LV LM M Hl. destruct (motion_state g c c1 c3 v U LV M) as (G & M3 & M1 & S).
  destruct (wld_lin_spec c3 v S i l p m) as (J & A & B & C); [congruence|exact Hl|]. exists J.
  rewrite <- (wld_lin_ext c1 c3 G). split; [exact A|]. split; [congruence|exact C].
Qed.
(** C33: relative angular velocity; velocity of the point of [j] at [p] minus the velocity of the point
    of [i] at the same place. *)
Theorem C33_relative_angular g (c c1 c3 : chain F) v m i j li lj : usable c -> length v = chain_joint_size c -> length m = chain_joint_size c ->
  motion g c v c1 c3 -> nth_error (c_links c3) i = Some li -> nth_error (c_links c3) j = Some lj ->
  exists J, link_to_link_ang_jacobi c1 i j m = Some J /\ length J = length m /\
    jmul J v = v3sub (world_angvel lj) (world_angvel li).
Proof.
  intros U LV LM M Hi Hj. destruct (motion_state g c c1 c3 v U LV M) as (G & M3 & M1 & S).
  destruct (l2l_ang_spec c3 v S i j li lj m) as (J & A & B & C); [congruence|exact Hi|exact Hj|]. exists J.
  rewrite <- (l2l_ang_ext c1 c3 G). split; [exact A|]. split; [congruence|exact C].
Qed.
Theorem C33_relative_linear g (c c1 c3 : chain F) v m i j li lj p : usable c -> length v = chain_joint_size c -> length m = chain_joint_size c ->
  motion g c v c1 c3 -> nth_error (c_links c3) i = Some li -> nth_error (c_links c3) j = Some lj ->
  exists J, link_to_link_lin_jacobi c1 i j p m = Some J /\ length J = length m /\
    jmul J v = v3sub (world_pointvel lj p) (world_vel_at li (xform (l_frame lj) p)).
Proof.
  intros U LV LM M Hi Hj. destruct (motion_state g c c1 c3 v U LV M) as (G & M3 & M1 & S).
  destruct (l2l_lin_spec c3 v S i j li lj p m) as (J & A & B & C); [congruence|exact Hi|exact Hj|]. exists J.
  rewrite <- (l2l_lin_ext c1 c3 G). split; [exact A|]. split; [congruence|exact C].
Qed.
(** C34: the product is what rkChainCalcCOMVel computes, and mass times it is the linear momentum. *)
Theorem C34_com g (c c1 c3 : chain F) v m : usable c -> length v = chain_joint_size c -> length m = chain_joint_size c ->
  motion g c v c1 c3 ->
  exists J, com_jacobi c1 m = Some J /\ length J = length m /\ jmul J v = c_comvel (chain_calc_comvel c3) /\
    (c_mass c <> n0 -> v3scale (c_mass c) (jmul J v) = momentum (c_links c3)).
Proof.
  intros U LV LM M. destruct (motion_state g c c1 c3 v U LV M) as (G & M3 & M1 & S).
  destruct (com_spec c3 v S m) as (J & A & B & C & D); [congruence|]. exists J.
  rewrite <- (com_ext c1 c3 G M3). split; [exact A|]. split; [congruence|]. split; [exact C|].
  intros NZ. rewrite D. rewrite M3, M1. unfold momentum. apply com_scale. exact NZ.
Qed.
(** C35: one link and the whole chain. *)
Theorem C35_link_am g (c c1 c3 : chain F) v m i l p : usable c -> length v = chain_joint_size c -> length m = chain_joint_size c ->
  motion g c v c1 c3 -> nth_error (c_links c3) i = Some l ->
  exists J, link_am_jacobi c1 i p m = Some J /\ length J = length m /\ jmul J v = link_ang_momentum p l.
Proof.
  intros U LV LM M Hl. destruct (motion_state g c c1 c3 v U LV M) as (G & M3 & M1 & S).
  destruct (link_am_spec c3 v S i l p (jzero m)) as (J & A & B & C); [rewrite jzero_length; congruence|exact Hl|]. exists J.
  unfold link_am_jacobi. rewrite <- (link_am_ext c1 c3 G). split; [exact A|]. split; [congruence|]. rewrite C, jmul_zero. apply v3add_0_l.
Qed.
Theorem C35_am g (c c1 c3 : chain F) v m p : usable c -> length v = chain_joint_size c -> length m = chain_joint_size c ->
  motion g c v c1 c3 ->
  exists J, am_jacobi c1 p m = Some J /\ length J = length m /\ jmul J v = chain_am c3 p /\ jmul J v = ang_momentum (c_links c3) p.
Proof.
  intros U LV LM M. destruct (motion_state g c c1 c3 v U LV M) as (G & M3 & M1 & S).
  destruct (am_spec c3 v S p m) as (J & A & B & C); [congruence|]. exists J.
  rewrite <- (am_ext c1 c3 G). split; [exact A|]. split; [congruence|]. split; [rewrite (chain_am_spec c3 v S p); exact C|exact C].
Qed.
(** C35: about the centre of mass held by the chain. *)
Theorem C35_am_com g (c c1 c3 : chain F) v m : usable c -> length v = chain_joint_size c -> length m = chain_joint_size c ->
  motion g c v c1 c3 ->
  exists J, am_com_jacobi c1 m = Some J /\ length J = length m /\ jmul J v = chain_am c3 (c_wcom c1).
Proof.
  intros U LV LM M. destruct (C35_am g c c1 c3 v m (c_wcom c1) U LV LM M) as (J & A & B & C & _). exists J. auto.
Qed.
End Thms.

(** ** Concrete cases: a floating base with a revolute, a prismatic, a Hooke and a cylindrical joint. *)
Definition mlink (n : string) (j : joint Qc) (px mass : Z) : link Qc :=
  let l := link_new n j in
  Link n j (body_set_mp (l_body l) (MP (qz mass) (V3 (qz 0) (qz 1) (qz px)) (M3 (V3 (qz 2) (qz 1) (qz 0)) (V3 (qz 1) (qz 3) (qz 0)) (V3 (qz 0) (qz 0) (qz 4)))))
    None (Fr (V3 (qz px) (qz 0) (qz 1)) m3id) fid v6zero None None None.
Definition jn (t : jtype) : joint Qc := match joint_assign t with Some j => j | None => JFixed end.
Lemma jn_made t : made (jn t).
Proof. exists t, (jn t), []. split; [destruct t; reflexivity|reflexivity]. Qed.
Definition mlinks : list (link Qc) :=
  [mlink "base" (jn TFloat) 1 3; mlink "r" (jn TRevol) 2 1; mlink "p" (jn TPrism) (-1) 2;
   mlink "h" (jn THooke) 1 0; mlink "c" (jn TCylin) 2 1].
Definition mtree : list (link Qc) := match add_children mlinks five_ops with Some h => h | None => [] end.
Definition mech0 : chain Qc := chain_calc_mass (chain_set_offset (Chain mtree (qz 0) v3zero v3zero v3zero)).
Definition mdis : list Qc := map qz [1; 2; 0; 1; 0; 0; 1; 3; 1; 0; 2; 1]%Z.
Definition mvel : list Qc := map qz [1; 0; 2; 1; 1; 0; 3; 2; -1; 1; 2; 1]%Z.
Definition mech : chain Qc := match chain_set_joint_dis_all mech0 mdis with Some c => c | None => mech0 end.

Lemma mtree_well_formed : well_formed mtree.
Proof.
  apply (C23_complete_tree mlinks five_ops); [| exact five_legal | cbn; lia | cbn; lia | | reflexivity].
  - intros i l. do 5 (destruct i as [|i]; [intros H; injection H as <-; repeat split|]). destruct i; discriminate.
  - intros c H. cbn in H. cbn. lia.
Qed.
Lemma mech0_usable : usable mech0.
Proof.
  split; [|split; [|split]].
  - eapply wf_of_refs; [|exact mtree_well_formed]. repeat constructor.
  - reflexivity.
  - intros i l H. do 5 (destruct i as [|i]; [injection H as <-; apply jn_made|]). destruct i; discriminate.
  - intros i l H. do 5 (destruct i as [|i]; [injection H as <-; apply rotation_id|]). destruct i; discriminate.
Qed.
Lemma mech_usable : usable mech /\ chain_joint_size mech = 12%nat.
Proof. apply (usable_set_dis mech0 mech mdis mech0_usable); reflexivity. Qed.
Definition mrun (c : chain Qc) (v : list Qc) : option (chain Qc * chain Qc) :=
  obind (chain_update_frame c) (fun c1 => obind (chain_set_joint_vel_all c1 v) (fun c2 => option_map (pair c1) (chain_update_vel c2))).
Definition zc : list (vec3 Qc) := repeat v3zero 12.
Definition r3 (f : link Qc -> vec3 Qc) (c : chain Qc) (i : nat) : list Qc := match nth_error (c_links c) i with Some l => l3 (f l) | None => [] end.
Definition jv (J : option (list (vec3 Qc))) : list Qc := match J with Some m => l3 (jmul m mvel) | None => [] end.
Definition p0 : vec3 Qc := V3 (qz 1) (qz 0) (qz 2).
Definition zq (l : list (list Z)) : list (list Qc) := map (map qz) l.
Definition lf (f : frame Qc) : list Qc := l3 (fpos f) ++ l3 (mc0 (fatt f)) ++ l3 (mc1 (fatt f)) ++ l3 (mc2 (fatt f)).
Lemma mrun_motion c v c1 c3 : mrun c v = Some (c1, c3) -> motion (qz 10) c v c1 c3.
Proof.
  unfold mrun, motion, obind. destruct (chain_update_frame c) as [x|]; [|discriminate]. destruct (chain_set_joint_vel_all x v) as [y|] eqn:A2; [|discriminate].
  destruct (chain_update_vel y) as [z|] eqn:A3; cbn; [|discriminate]. intros H. injection H as <- <-. split; [reflexivity|]. exists y. auto.
Qed.
Example C30_ex : exists x, mrun mech mvel = Some x /\
  [match doc_pose (c_links mech) [4; 1; 0]%nat with Some f => lf f | None => [] end;
   match nth_error (c_links (fst x)) 4 with Some l => lf (l_frame l) | None => [] end] =
  zq [[4; -2; 3;  -1; 0; 0;  0; 0; -1;  0; -1; 0]; [4; -2; 3;  -1; 0; 0;  0; 0; -1;  0; -1; 0]]%Z.
Proof. apply (some_exq _ (fun x : chain Qc * chain Qc => [match doc_pose (c_links mech) [4; 1; 0]%nat with Some f => lf f | None => [] end;
   match nth_error (c_links (fst x)) 4 with Some l => lf (l_frame l) | None => [] end])). vm_compute. reflexivity. Qed.
Example C30_ex_lineage : lineage (c_links mech) 4 [4; 1; 0]%nat.
Proof. eapply lineage_step; [reflexivity|reflexivity|]. eapply lineage_step; [reflexivity|reflexivity|]. eapply lineage_root; reflexivity. Qed.
Example C31_ex c1 l : chain_update_frame mech = Some c1 -> nth_error (c_links c1) 4 = Some l -> rigid (l_frame l).
Proof. intros A H. destruct mech_usable as [(W & _ & J & O) _]. apply (C31_frames_rigid mech c1 4 l W J O A H). Qed.
Example C32_ex : exists x, mrun mech mvel = Some x /\ (let '(c1, c3) := x in
  [jv (wld_ang_jacobi c1 4 zc); r3 world_angvel c3 4; jv (wld_lin_jacobi c1 2 p0 zc); r3 (fun l => world_pointvel l p0) c3 2]) =
  zq [[1; -3; 0]; [1; -3; 0]; [1; -2; -7]; [1; -2; -7]]%Z.
Proof. apply (some_exq _ (fun x : chain Qc * chain Qc => let '(c1, c3) := x in [jv (wld_ang_jacobi c1 4 zc); r3 world_angvel c3 4; jv (wld_lin_jacobi c1 2 p0 zc); r3 (fun l => world_pointvel l p0) c3 2])).
  vm_compute. reflexivity. Qed.
Example C32_ex_all c1 c3 l J : motion (qz 10) mech mvel c1 c3 -> nth_error (c_links c3) 4 = Some l ->
  wld_ang_jacobi c1 4 zc = Some J -> jmul J mvel = world_angvel l.
Proof.
  intros M Hl HJ. destruct (C32_angular (qz 10) mech c1 c3 mvel zc 4 l) as (J' & A & _ & B); auto; try apply mech_usable.
  assert (J' = J) by congruence. now subst.
Qed.
Example C33_ex : exists x, mrun mech mvel = Some x /\ (let '(c1, c3) := x in
  [jv (link_to_link_ang_jacobi c1 2 4 zc); jv (link_to_link_ang_jacobi c1 3 4 zc); jv (link_to_link_lin_jacobi c1 1 4 p0 zc); jv (link_to_link_lin_jacobi c1 3 2 p0 zc)]) =
  zq [[0; -1; 0]; [1; -5; 0]; [0; -2; -1]; [0; -2; -5]]%Z.
Proof. apply (some_exq _ (fun x : chain Qc * chain Qc => let '(c1, c3) := x in
  [jv (link_to_link_ang_jacobi c1 2 4 zc); jv (link_to_link_ang_jacobi c1 3 4 zc); jv (link_to_link_lin_jacobi c1 1 4 p0 zc); jv (link_to_link_lin_jacobi c1 3 2 p0 zc)])).
  vm_compute. reflexivity. Qed.
Example C34_ex : exists x, mrun mech mvel = Some x /\ (let '(c1, c3) := x in
  [jv (com_jacobi c1 zc); l3 (c_comvel (chain_calc_comvel c3)); l3 (momentum (c_links c3)); [c_mass c1]]) =
  [[Q2Qc (13 # 7); Q2Qc (-8 # 7); Q2Qc (-20 # 7)]; [Q2Qc (13 # 7); Q2Qc (-8 # 7); Q2Qc (-20 # 7)]; [qz 13; qz (-8); qz (-20)]; [qz 7]].
Proof. apply (some_exq _ (fun x : chain Qc * chain Qc => let '(c1, c3) := x in
  [jv (com_jacobi c1 zc); l3 (c_comvel (chain_calc_comvel c3)); l3 (momentum (c_links c3)); [c_mass c1]])). vm_compute. reflexivity. Qed.
Example C35_ex : exists x, mrun mech mvel = Some x /\ (let '(c1, c3) := x in
  [jv (am_jacobi c1 p0 zc); l3 (chain_am c3 p0); l3 (ang_momentum (c_links c3) p0)]) = zq [[62; 20; -9]; [62; 20; -9]; [62; 20; -9]]%Z.
Proof. apply (some_exq _ (fun x : chain Qc * chain Qc => let '(c1, c3) := x in
  [jv (am_jacobi c1 p0 zc); l3 (chain_am c3 p0); l3 (ang_momentum (c_links c3) p0)])). vm_compute. reflexivity. Qed.

Print Assumptions C30_frame_is_product.
Print Assumptions C30_previous_state_irrelevant.
Print Assumptions C31_frames_rigid.
Print Assumptions C32_motion_exists.
Print Assumptions C32_angular.
Print Assumptions C32_linear.
Print Assumptions C33_relative_angular.
Print Assumptions C33_relative_linear.
Print Assumptions C34_com.
Print Assumptions C35_link_am.
Print Assumptions C35_am.
Print Assumptions C35_am_com.
