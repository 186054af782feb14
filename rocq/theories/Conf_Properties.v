(** * Conf_Properties: C77-C78 (joint torsion, link configurations). *)
From Coq Require Import String List Arith Lia Bool ZArith QArith Qcanon Reals Lra.
From Verif Require Import Num NumFacts Vec VecFacts Motor_Model Joint_Model Joint_Spec Joint_Proofs Body_Model Tree Tree_Proofs Link_Model
  Link_Spec Link_Proofs Chain_Proofs Link_Properties Kin_Spec Kin_Proofs Jacobi_Proofs Deriv ExtQ ExtR Conf_Model Conf_Spec Conf_Proofs Conf_Q Conf_R Conf_Dev Conf_Chain.
Import ListNotations.

Section P.
Context {F : Type} {N : Num F} {L : NumLaws F N} {E : Ext F} {EL : ExtLaws F N E} {C : ConfExt F} {CL : ConfLaws F N E C}.
Local Open Scope num_scope.

(** C77: the deviation that a joint [j] makes on top of a distortion [fo] its type cannot follow is split again: the
    reported torsion stands for [fo], and a joint of the type and limits of [j] set to the reported displacement
    transforms frames as [j] does, with the displacement of [j]. *)
Theorem C77_torsion_recovers (j : joint F) fo d :
  settled j -> upright j -> rigid fo -> distortion (jtype_of j) fo -> d = joint_xform j fo ->
  (reads_aa (jtype_of j) -> aa_exact (fatt d)) ->
  exists t ds, joint_torsion (jtype_of j) d = Some (t, ds) /\ aa_to_frame (m3v6 (fatt d) t) = fo /\
    forall k, jtype_of k = jtype_of j -> same_limits k j ->
    exists k', joint_set_dis k ds = Some k' /\ (forall f, joint_xform k' f = joint_xform j f) /\
      (reads_back (jtype_of j) (joint_get_dis j) -> joint_get_dis k' = joint_get_dis j).
Proof.
  intros S U RF DI -> AE. destruct (settled_stable _ S) as [ST CO].
  destruct (torsion_recovers j fo ST CO U RF DI AE) as (t & ds & A & B & RC). exists t, ds. split; [exact A|]. split; [exact B|].
  intros k K1 K2. destruct (RC k K1 K2) as (k' & X1 & _ & X2 & X3). eauto.
Qed.

(** C78: a configuration of a chain, read as frames of its links and given to a chain of the same mechanism, leaves that chain with
    the same displacements, and with frames that the next forward kinematics confirms. *)
Theorem C78_configuration (c c1 d : chain F) : well_formed (c_links c) -> orgs_rigid (c_links c) -> chain_update_frame c = Some c1 ->
  conf_ready c1 -> same_mechanism (c_links c) (c_links d) ->
  exists d1 d2, chain_set_conf d (chain_get_conf c1) = Some d1 /\ chain_update_frame d1 = Some d2 /\
    Forall2 (fun l l1 : link F => reads_back (jtype_of (l_joint l)) (joint_get_dis (l_joint l)) -> joint_get_dis (l_joint l1) = joint_get_dis (l_joint l)) (c_links c) (c_links d1) /\
    map l_frame (c_links d1) = map l_frame (c_links c1) /\ map l_frame (c_links d2) = map l_frame (c_links c1).
Proof. apply conf_roundtrip. Qed.
End P.

(** Over the real numbers: every rigid deviation that the type can decompose is split, without a condition on
    zMat3DToAA. *)
Theorem C77_torsion_splits (k : joint R) (d : frame R) : unlimited k -> rigid d -> decomposable (jtype_of k) d ->
  exists t ds k', joint_torsion (jtype_of k) d = Some (t, ds) /\ joint_set_dis k ds = Some k' /\
    distortion (jtype_of k) (aa_to_frame (m3v6 (fatt d) t)) /\ joint_xform k' (aa_to_frame (m3v6 (fatt d) t)) = d.
Proof. apply torsion_splits. Qed.
Theorem C78_configuration_R (c c1 d : chain R) : well_formed (c_links c) -> orgs_rigid (c_links c) -> chain_update_frame c = Some c1 ->
  joints_ready (c_links c) -> same_mechanism (c_links c) (c_links d) ->
  exists d1 d2, chain_set_conf d (chain_get_conf c1) = Some d1 /\ chain_update_frame d1 = Some d2 /\
    Forall2 (fun l l1 : link R => short_aa (jtype_of (l_joint l)) (joint_get_dis (l_joint l)) -> joint_get_dis (l_joint l1) = joint_get_dis (l_joint l)) (c_links c) (c_links d1) /\
    map l_frame (c_links d1) = map l_frame (c_links c1) /\ map l_frame (c_links d2) = map l_frame (c_links c1).
Proof.
  intros W O U J S. destruct (conf_roundtrip c c1 d W O U (ready_R c c1 W O U J) S) as (d1 & d2 & A & B & D & G). exists d1, d2.
  split; [exact A|]. split; [exact B|]. split; [|exact G]. clear - D. induction D; constructor; auto. intros X. apply H. now apply short_reads_back.
Qed.

(** ** Examples and witnesses *)
Definition qz (z : Z) : Qc := Q2Qc (inject_Z z).
Definition qq (n : Z) (d : positive) : Qc := Q2Qc (n # d).
Definition v3l (v : vec3 Qc) : list Qc := [vx v; vy v; vz v].
Definition v6l (v : vec6 Qc) : list Qc := v3l (vlin v) ++ v3l (vang v).
Definition frl (f : frame Qc) : list Qc := v3l (fpos f) ++ v3l (mc0 (fatt f)) ++ v3l (mc1 (fatt f)) ++ v3l (mc2 (fatt f)).
Lemma settled_dis {F} {N : Num F} {E : Ext F} (j0 j1 : joint F) l : limits_ordered j0 -> joint_set_dis j0 l = Some j1 -> settled j1.
Proof. intros A B. exists j0, (OSetDis l), j1, []. repeat split; auto. Qed.
Definition jset (t : jtype) (l : list Qc) : joint Qc := match joint_set_dis (joint_alloc t) l with Some j => j | None => JFixed end.
Lemma alloc_ordered (t : jtype) : limits_ordered (joint_alloc t : joint Qc).
Proof. intros i lo hi. destruct t; cbn; repeat (destruct i as [|i]; cbn; try discriminate); intros [= <-] [= <-]; exact I. Qed.
Lemma jset_settled t l j : joint_set_dis (joint_alloc t) l = Some j -> settled (jset t l).
Proof. intros H. apply (settled_dis (joint_alloc t) _ l); [apply alloc_ordered|]. unfold jset. now rewrite H. Qed.

(** A revolute joint turned by 1/3, mounted with a tilt by 1/2 about (3/5, 4/5, 0). *)
Definition tilt_aa : vec3 Qc := V3 (qq 3 10) (qq 4 10) (qz 0).
Definition tilted : frame Qc := Fr (V3 (qz 1) (qz 2) (qz 3)) (x_aa2m tilt_aa).
Lemma tilt_ok : tilt tilt_aa.
Proof.
  right. exists (qq 1 2), (qq 3 5), (qq 4 5). split; [apply Qc_is_canon; reflexivity|]. split; [reflexivity|]. split; [reflexivity|]. split; [reflexivity|].
  unfold tilt_aa. f_equal; apply Qc_is_canon; reflexivity.
Qed.
Example C77_ex_revolute : settled (jset TRevol [qq 1 3]) /\ rigid tilted /\ distortion TRevol tilted /\
  exists r, joint_torsion TRevol (joint_xform (jset TRevol [qq 1 3]) tilted) = Some r /\ [snd r; frl (aa_to_frame (m3v6 (fatt (joint_xform (jset TRevol [qq 1 3]) tilted)) (fst r)))] = [[qq 1 3]; frl tilted].
Proof.
  split; [eapply jset_settled; reflexivity|]. split; [apply x_aa_rot|]. split; [exists tilt_aa; split; [apply tilt_ok|reflexivity]|].
  apply (some_exq _ (fun r : vec6 Qc * list Qc => [snd r; frl (aa_to_frame (m3v6 (fatt (joint_xform (jset TRevol [qq 1 3]) tilted)) (fst r)))])). vm_compute. reflexivity.
Qed.
(** Over R: axes permuted cyclically; every joint type decomposes this deviation. *)
Definition cyclic : frame R := Fr (V3 1 2 3)%R (M3 ey ez ex).
Example C77_ex_cyclic : rigid cyclic /\ forall k : joint R, unlimited k -> decomposable (jtype_of k) cyclic.
Proof.
  split; [split; [unfold cyclic; rcomp; vsplit; ring|unfold cyclic; rcomp; ring]|].
  assert (Z : z_tilt (mc2 (fatt cyclic))).
  { right. exists (PI / 2)%R. assert (P := PI2_3_2). split; [cbn; lra|]. split; [lra|]. cbn. now rewrite cos_PI2. }
  intros k _. destruct k; try exact I; try exact Z. cbn. lra.
Qed.
Example C77_ex_unlimited t k : @joint_assign R Num_R Ext_R t = Some k -> unlimited k.
Proof.
  intros H. destruct t; cbn in H; injection H as <-; split; cbn; intros x I; repeat (destruct I as [I|I]; [now subst|]); destruct I.
Qed.

(** A z-axis turned upside down is not a number for revolute and cylindrical joints. *)
Definition flipped : frame R := Fr v3zero (M3 ex (v3opp ey) (v3opp ez)).
Theorem C77_flipped_axis_refuted : ~ (forall (k : joint R) (d : frame R), unlimited k -> rigid d -> joint_torsion (jtype_of k) d <> None).
Proof.
  intros H. assert (RG : rigid flipped) by (split; [unfold flipped; rcomp; vsplit; ring|unfold flipped; rcomp; ring]).
  destruct (@joint_assign R Num_R Ext_R TRevol) as [k|] eqn:A; [|discriminate A].
  assert (T : jtype_of k = TRevol) by (cbn in A; now injection A as <-).
  apply (H k flipped (C77_ex_unlimited _ _ A) RG). rewrite T. cbn [joint_torsion].
  assert (X : revol_torsion_dis flipped = None); [|now rewrite X].
  unfold revol_torsion_dis, flipped. cbn [fatt mc2 x_sqrt x_atan2 ConfExt_R v3opp ez vx vy vz n0 n1 nopp nadd nmul Num_R].
  replace (- - 0 * - - 0 + - 0 * - 0)%R with 0%R by ring. rewrite sqrt_0.
  assert (AT : ratan2 0 (- (1)) = PI).
  { unfold ratan2. cbv zeta. replace (- (1) * - (1) + 0 * 0)%R with (1 * 1)%R by ring. rewrite sqrt_square by lra.
    destruct (Req_EM_T (1 + - (1)) 0) as [_|X]; [|exfalso; apply X; ring]. destruct (Req_EM_T (- (1)) 0) as [X|_]; [exfalso; lra|reflexivity]. }
  rewrite AT. assert (P := PI2_3_2). rewrite (ntiny_big (N:=Num_R) PI) by (apply rnle; cbn; lra).
  unfold nis0. assert (Z : nleb 0%R 0%R = true) by (apply rnle; lra). cbn [n0 Num_R]. rewrite Z. reflexivity.
Qed.

(** A tilt below the tolerance is dropped, and no displacement makes up for it. *)
Lemma recompose_not (k : joint Qc) d : match recompose k d with Some f => negb (qlbs [frl f] [frl d]) | None => false end = true -> qlbs [frl d] [frl d] = true ->
  exists f, recompose k d = Some f /\ f <> d.
Proof.
  intros A B. destruct (recompose k d) as [f|]; [|discriminate A]. exists f. split; [reflexivity|]. intros ->. rewrite B in A. discriminate A.
Qed.
Lemma alloc_unlimited t : unlimited (joint_alloc t : joint Qc).
Proof. destruct t; split; cbn; intros x I; repeat (destruct I as [I|I]; [now subst|]); destruct I. Qed.
Definition barely : frame Qc := Fr v3zero (x_aa2m (V3 (qq 1 2000000) (qz 0) (qz 0))).
Theorem C77_tiny_tilt_refuted : exists (k : joint Qc) d f, unlimited k /\ rigid d /\ recompose k d = Some f /\ f <> d.
Proof.
  exists (joint_alloc TRevol), barely. destruct (recompose_not (joint_alloc TRevol) barely) as (f & A & B); [vm_compute; reflexivity|vm_compute; reflexivity|].
  exists f. split; [apply alloc_unlimited|]. split; [apply x_aa_rot|]. split; [exact A|exact B].
Qed.
(** A universal joint whose y-axis came to lie along the x-axis of the mounting frame loses its second angle. *)
Definition gimbal : frame Qc := Fr v3zero (m3mul (rot_z (qz (-1))) (rot_y (qz 1))).
Theorem C77_gimbal_refuted : exists (k : joint Qc) d f, jtype_of k = THooke /\ unlimited k /\ rigid d /\ recompose k d = Some f /\ f <> d.
Proof.
  exists (joint_alloc THooke), gimbal. destruct (recompose_not (joint_alloc THooke) gimbal) as (f & A & B); [vm_compute; reflexivity|vm_compute; reflexivity|].
  exists f. split; [reflexivity|]. split; [apply alloc_unlimited|]. split; [apply rotation_mul; [apply (rot_z_rotation (N:=Num_Qc))|apply (rot_y_rotation (N:=Num_Qc))]|]. split; [exact A|exact B].
Qed.

(** C78: a floating base, an arm turned by 1/2 and a hand on a universal joint; the other chain is at rest. *)
Definition cj (b : bool) : list (joint Qc) :=
  if b then [jset TFloat [qz 1; qz 2; qz 3; qz 0; qq 1 2; qz 0]; jset TRevol [qq 1 2]; jset THooke [qq 1 3; qq 1 4]]
  else [jset TFloat [qz 0; qz 0; qz 0; qz 0; qz 0; qz 0]; jset TRevol [qz 0]; jset THooke [qz 0; qz 0]].
Definition clink (j : joint Qc) : link Qc := Link "l" j body_init None (Fr (V3 (qz 1) (qz 0) (qz 0)) m3id) fid v6zero None None None.
Definition cops : list (nat * nat) := [(0, 1); (1, 2)]%nat.
Definition ctree (js : list (joint Qc)) : list (link Qc) := match add_children (map clink js) cops with Some h => h | None => [] end.
Definition cchain (js : list (joint Qc)) : chain Qc := Chain (ctree js) (qz 0) v3zero v3zero v3zero.
Definition chain_dis (c : chain Qc) : list (list Qc) := map (fun l => joint_get_dis (l_joint l)) (c_links c).
Definition there_and_back (js js' : list (joint Qc)) : option (chain Qc) :=
  match chain_update_frame (cchain js) with Some c1 => chain_set_conf (cchain js') (chain_get_conf c1) | None => None end.
Example C78_ex : exists d1, there_and_back (cj true) (cj false) = Some d1 /\ chain_dis d1 = [[qz 1; qz 2; qz 3; qz 0; qq 1 2; qz 0]; [qq 1 2]; [qq 1 3; qq 1 4]].
Proof. apply (some_exq _ chain_dis). vm_compute. reflexivity. Qed.
Lemma clegal : legal 3 [] cops.
Proof.
  unfold cops. repeat (constructor; [lia | lia | cbn; lia | | ]); cbn [app].
  all: try solve [constructor].
  all: intros H; repeat (apply below_inv in H; destruct H as [H | (? & I & H)]; [discriminate H | cbn in I;
      repeat (destruct I as [I|I]; [try discriminate I; try (injection I as <-)|]); try (destruct I; fail)]).
Qed.
Lemma ctree_wf a b c : well_formed (ctree [a; b; c]).
Proof.
  apply (C23_complete_tree (map clink [a; b; c]) cops); [|exact clegal|cbn; lia|cbn; lia| |reflexivity].
  - intros i l H. do 3 (destruct i as [|i]; [cbn in H; injection H as <-; repeat split|]). destruct i; discriminate H.
  - intros k H. cbn in H. cbn. lia.
Qed.
Lemma ctree_rigid a b c : orgs_rigid (ctree [a; b; c]).
Proof. intros i l H. do 3 (destruct i as [|i]; [cbn in H; injection H as <-; apply rotation_id|]). destruct i; discriminate H. Qed.
Lemma ctree_same a b c a' b' c' : jtype_of a' = jtype_of a /\ same_limits a' a -> jtype_of b' = jtype_of b /\ same_limits b' b -> jtype_of c' = jtype_of c /\ same_limits c' c ->
  same_mechanism (ctree [a; b; c]) (ctree [a'; b'; c']).
Proof. intros (A & A1 & A2) (B & B1 & B2) (D & D1 & D2). repeat constructor; cbn; auto. Qed.

Lemma mat3_of (a b : mat3 Qc) : qlbs [v3l (mc0 a); v3l (mc1 a); v3l (mc2 a)] [v3l (mc0 b); v3l (mc1 b); v3l (mc2 b)] = true -> a = b.
Proof. intros H. apply qlbs_eq in H. destruct a as [[? ? ?] [? ? ?] [? ? ?]], b as [[? ? ?] [? ? ?] [? ? ?]]. cbv [v3l mc0 mc1 mc2 Vec.vx Vec.vy Vec.vz] in H. injection H; intros; subst; reflexivity. Qed.
Definition aa_exactb (m : mat3 Qc) : bool :=
  let a := x_aa2m (x_m2aa m) in qlbs [v3l (mc0 a); v3l (mc1 a); v3l (mc2 a)] [v3l (mc0 m); v3l (mc1 m); v3l (mc2 m)].
Lemma aa_exactb_ok m : aa_exactb m = true -> aa_exact m.
Proof. unfold aa_exactb. intros A. exact (mat3_of _ _ A). Qed.
Definition frame_ok (o : option (frame Qc)) : bool := match o with Some d => aa_exactb (fatt d) | None => false end.
Lemma frame_ok_some d : frame_ok (Some d) = true -> aa_exact (fatt d). Proof. exact (aa_exactb_ok (fatt d)). Qed.
Lemma ready_of (c1 : chain Qc) : (forall i l, nth_error (c_links c1) i = Some l -> settled (l_joint l) /\ upright (l_joint l)) ->
  forallb frame_ok (map (fun l => Some (l_frame l)) (c_links c1)) = true ->
  forallb frame_ok (map (fun l => doc_frame (jtype_of (l_joint l)) (joint_get_dis (l_joint l))) (c_links c1)) = true -> conf_ready c1.
Proof.
  intros S A B i l H. rewrite forallb_forall in A, B. destruct (S i l H) as [S1 S2]. pose proof (nth_error_In _ _ H) as I.
  split; [exact S1|]. split; [exact S2|].
  split; [apply frame_ok_some, A; exact (in_map (fun l => Some (l_frame l)) _ _ I)|].
  intros _ d DF. apply frame_ok_some, B. rewrite <- DF. exact (in_map (fun l => doc_frame (jtype_of (l_joint l)) (joint_get_dis (l_joint l))) _ _ I).
Qed.
Lemma upright_of (j : joint Qc) : nltb (- x_pi)%num (hd 0%num (joint_get_dis j)) = true -> nleb (hd 0%num (joint_get_dis j)) x_pi = true ->
  nltb 0%num (x_cos (hd 0%num (joint_get_dis j))) = true -> upright j.
Proof.
  intros A B D _ a b G. rewrite G in *. split; [exact (proj1 (nltb_lt _ _) A)|]. split; [exact B|exact (proj1 (nltb_lt _ _) D)].
Qed.
Lemma ctree_joints a b c : map l_joint (c_links (cchain [a; b; c])) = [a; b; c]. Proof. reflexivity. Qed.
Lemma moved_joint (c c1 : chain Qc) : well_formed (c_links c) -> chain_update_frame c = Some c1 -> forall i l, nth_error (c_links c1) i = Some l -> In (l_joint l) (map l_joint (c_links c)).
Proof.
  intros W U i l H. destruct (C24_frame_pass c W) as (c1' & A & P & _). assert (c1' = c1) by congruence. subst c1'.
  assert (LC : List.length (c_links c1) = List.length (c_links c)) by apply P. pose proof (pass_keeps _ _ P) as K.
  destruct (nth_error (c_links c) i) as [l0|] eqn:H0; [|apply nth_error_None in H0; pose proof (nth_lt _ _ _ H); lia].
  destruct (K i l0 H0) as (l' & H' & EJ & _). assert (l' = l) by congruence. subst l'. rewrite EJ. apply in_map. eapply nth_error_In; eauto.
Qed.
Definition cmoved : chain Qc := match chain_update_frame (cchain (cj true)) with Some c1 => c1 | None => cchain [] end.
Example C78_ex_ready : well_formed (c_links (cchain (cj true))) /\ orgs_rigid (c_links (cchain (cj true))) /\ chain_update_frame (cchain (cj true)) = Some cmoved /\
  conf_ready cmoved /\ same_mechanism (c_links (cchain (cj true))) (c_links (cchain (cj false))).
Proof.
  split; [apply ctree_wf|]. split; [apply ctree_rigid|].
  assert (U : chain_update_frame (cchain (cj true)) = Some cmoved).
  { destruct (C24_frame_pass (cchain (cj true)) (ctree_wf _ _ _)) as (c1 & A & _). unfold cmoved. now rewrite A. }
  split; [exact U|]. split.
  - apply ready_of; [|vm_compute; reflexivity|vm_compute; reflexivity]. intros i l H. assert (I := moved_joint (cchain (cj true)) cmoved (ctree_wf _ _ _) U i l H). unfold cj in I. rewrite ctree_joints in I.
    destruct I as [<-|[<-|[<-|[]]]]; (split; [eapply jset_settled; reflexivity|]).
    + intros X; discriminate X.
    + intros X; discriminate X.
    + apply upright_of; vm_compute; reflexivity.
  - apply ctree_same; repeat split.
Qed.

(** A single link on a universal joint bent by a half turn about its first axis: the frame is another one afterwards. *)
Definition rhooke (a b : R) : joint R := match joint_set_dis (joint_alloc THooke) [a; b] with Some j => j | None => JFixed end.
Definition rlink (j : joint R) : link R := Link "l" j body_init None fid fid v6zero None None None.
Definition rchain (j : joint R) : chain R := Chain [rlink j] 0%R v3zero v3zero v3zero.
Lemma rchain_wf j : well_formed (c_links (rchain j)).
Proof.
  apply (C23_complete_tree [rlink j] []); [|constructor|cbn; lia|cbn; lia| |reflexivity].
  - intros i l H. destruct i as [|i]; [cbn in H; injection H as <-; repeat split|]. destruct i; discriminate H.
  - intros k H. cbn in H. cbn. lia.
Qed.
Lemma alloc_ordered_R (t : jtype) : limits_ordered (joint_alloc t : joint R).
Proof. intros i lo hi. destruct t; cbn; repeat (destruct i as [|i]; cbn; try discriminate); intros [= <-] [= <-]; exact I. Qed.
Definition half_z : frame R := Fr v3zero (M3 (v3opp ex) (v3opp ey) ez).
Lemma half_z_rot : rotation (fatt half_z). Proof. split; [unfold half_z; rcomp; vsplit; ring|unfold half_z; rcomp; ring]. Qed.
Lemma PI_in : (- PI < PI <= PI)%R. Proof. assert (P := PI_RGT_0). lra. Qed.
Lemma zero_in : (- PI < 0 <= PI)%R. Proof. assert (P := PI_RGT_0). lra. Qed.
Lemma rhooke_eq a b : (- PI < a <= PI)%R -> (- PI < b <= PI)%R -> exists h, rhooke a b = JHooke h /\ hk_s0 h = sin a /\ hk_c0 h = cos a /\ hk_s1 h = sin b /\ hk_c1 h = cos b.
Proof.
  intros A B. eexists. split; [reflexivity|]. cbn [hooke_setdis hk_s0 hk_c0 hk_s1 hk_c1 x_sin x_cos Ext_R].
  unfold hooke_setdis. cbn [hk_s0 hk_c0 hk_s1 hk_c1 x_sin x_cos Ext_R]. rewrite !lim_rot_free by (reflexivity || assumption). auto.
Qed.
Lemma hooke_half : hooke_torsion half_z = (V6 v3zero (V3 (- PI) 0 0)%R, [0%R; PI]).
Proof.
  assert (A1 : ratan2 0 (- (1)) = PI).
  { assert (H := ratan2_sc 1 PI ltac:(lra)). rewrite sin_PI, cos_PI, (rph_in PI PI_in), !Rmult_1_l in H. exact H. }
  assert (A2 : ratan2 0 1 = 0%R).
  { assert (H := ratan2_sc 1 0 ltac:(lra)). rewrite sin_0, cos_0, (rph_in 0 zero_in), !Rmult_1_l in H. exact H. }
  unfold hooke_torsion, half_z. cbn [fatt fpos mc0 mc1 mc2 v3opp ex ey ez vx vy vz x_atan2 x_cos x_sin ConfExt_R Ext_R n0 n1 nopp nadd nmul Num_R].
  rewrite ?Ropp_0, A1, cos_PI, sin_PI.
  replace (-1 * - (1) + 0 * 0)%R with 1%R by ring. rewrite A2, cos_0.
  replace (1 * 0)%R with 0%R by ring. replace (1 * - (1))%R with (- (1))%R by ring. rewrite A1. f_equal. rcomp. repeat f_equal; ring.
Qed.
Lemma update_one (l : link R) x y z w : l_parent l = None -> l_child l = None -> l_sibl l = None -> l_org l = fid ->
  exists c', chain_update_frame (Chain [l] x y z w) = Some c' /\ map l_frame (c_links c') = [joint_xform (l_joint l) fid].
Proof.
  intros P D S O. destruct l as [nm j b o org adj wr pa ch sb]. cbn in P, D, S, O. subst. eexists. split; [reflexivity|]. cbn. f_equal. apply fcascade_id_l.
Qed.
Lemma set_conf_one (j j' : joint R) f t ds : aa_exact (fatt f) -> joint_torsion (jtype_of j) f = Some (t, ds) -> joint_set_dis j ds = Some j' ->
  chain_set_conf (rchain j) (l6 (frame_to_aa f)) = Some (Chain [l_set_joint j' (with_frame (rlink j) f)] 0%R v3zero v3zero v3zero).
Proof.
  intros A B D. unfold chain_set_conf. cbn [c_links rchain set_frames]. rewrite <- (app_nil_r (l6 _)), rd6_l6. cbn [obind set_frames option_map].
  replace (aa_to_frame (frame_to_aa f)) with f by (unfold aa_to_frame, frame_to_aa; cbn [vlin vang]; rewrite A; now destruct f).
  cbn [c_fuel c_links List.length conf_to_dis nth_error obind l_parent l_set_body rlink l_org option_map]. unfold conf_joint. cbn [l_joint l_set_body rlink].
  replace (frel (l_org (l_set_body (body_set_frame (l_body (rlink j)) f) (rlink j))) (l_frame (l_set_body (body_set_frame (l_body (rlink j)) f) (rlink j)))) with f.
  - rewrite B. cbn [obind]. rewrite D. reflexivity.
  - change (f = frel fid f). unfold frel, xforminv. cbn [fpos fatt fid]. destruct f as [[? ? ?] [[? ? ?] [? ? ?] [? ? ?]]]. rcomp. vsplit; ring.
Qed.
Theorem C78_bent_universal_refuted : exists c c1 d d1 d2 : chain R, well_formed (c_links c) /\ orgs_rigid (c_links c) /\ same_mechanism (c_links c) (c_links d) /\
  (forall l, In l (c_links c) -> settled (l_joint l)) /\
  chain_update_frame c = Some c1 /\ chain_set_conf d (chain_get_conf c1) = Some d1 /\ chain_update_frame d1 = Some d2 /\ map l_frame (c_links d2) <> map l_frame (c_links c1).
Proof.
  destruct (rhooke_eq PI 0 PI_in zero_in) as (h & EH & H1 & H2 & H3 & H4).
  destruct (update_one (rlink (rhooke PI 0)) 0%R v3zero v3zero v3zero eq_refl eq_refl eq_refl eq_refl) as (c1 & U1 & F1).
  assert (XH : joint_xform (rhooke PI 0) fid = half_z).
  { rewrite EH. cbn [joint_xform]. rewrite H1, H2, H3, H4, sin_PI, cos_PI, sin_0, cos_0. unfold half_z, zyx_sc, fid. rcomp. vsplit; ring. }
  cbn [l_joint rlink] in F1. rewrite XH in F1.
  assert (GC : chain_get_conf c1 = l6 (frame_to_aa half_z)).
  { unfold chain_get_conf. destruct (c_links c1) as [|l [|]]; try discriminate F1. cbn in F1. injection F1 as F1. cbn [flat_map]. rewrite F1. apply app_nil_r. }
  destruct (joint_set_dis (rhooke 0 0) [0%R; PI]) as [j'|] eqn:SD; [|discriminate SD].
  assert (JH : exists h', j' = JHooke h' /\ hk_s0 h' = sin 0 /\ hk_c0 h' = cos 0 /\ hk_s1 h' = sin PI /\ hk_c1 h' = cos PI).
  { destruct (rhooke_eq 0 0 zero_in zero_in) as (h0 & E0 & _). cbn in SD. injection SD as <-. eexists. split; [reflexivity|].
    unfold hooke_setdis. cbn [hk_s0 hk_c0 hk_s1 hk_c1 x_sin x_cos Ext_R]. rewrite !lim_rot_free by (reflexivity || apply PI_in || apply zero_in). auto. }
  assert (SC := set_conf_one (rhooke 0 0) j' half_z (V6 v3zero (V3 (- PI) 0 0)%R) [0%R; PI] (raa_log _ half_z_rot)).
  specialize (SC (f_equal Some hooke_half) SD). set (d1 := Chain _ _ _ _ _) in SC.
  destruct (update_one (l_set_joint j' (with_frame (rlink (rhooke 0 0)) half_z)) 0%R v3zero v3zero v3zero eq_refl eq_refl eq_refl eq_refl) as (d2 & U2 & F2).
  exists (rchain (rhooke PI 0)), c1, (rchain (rhooke 0 0)), d1, d2.
  split; [apply rchain_wf|]. split; [intros [|[|i]] l X; try discriminate X; cbn in X; injection X as <-; apply rotation_id|].
  split; [repeat constructor|]. split.
  { intros l [<-|[]]. cbn [l_joint rlink]. apply (settled_dis (joint_alloc THooke) _ [PI; 0%R]); [apply alloc_ordered_R|reflexivity]. }
  split; [exact U1|]. split; [rewrite GC; exact SC|]. split; [exact U2|].
  rewrite F1, F2. destruct JH as (h' & -> & G1 & G2 & G3 & G4). cbn [l_joint l_set_joint joint_xform]. rewrite G1, G2, G3, G4, sin_PI, cos_PI, sin_0, cos_0.
  intros X. assert (Y : vy (mc1 (fatt (hd fid [half_z]))) = 1%R) by (rewrite <- X; unfold zyx_sc, fid; cbn [hd fatt]; rcomp; ring).
  revert Y. cbn. lra.
Qed.
Print Assumptions C77_torsion_recovers.
Print Assumptions C77_torsion_splits.
Print Assumptions C77_flipped_axis_refuted.
Print Assumptions C77_tiny_tilt_refuted.
Print Assumptions C77_gimbal_refuted.
Print Assumptions C78_configuration.
Print Assumptions C78_configuration_R.
Print Assumptions C78_bent_universal_refuted.
