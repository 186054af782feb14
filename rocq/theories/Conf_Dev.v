(** * Conf_Dev: over the real numbers every rigid deviation splits into a distortion and a displacement. *)
From Coq Require Import Bool List ZArith Reals Ratan Lra Lia.
From Verif Require Import Num NumFacts Vec VecFacts Motor_Model Joint_Model Joint_Spec Joint_Proofs Deriv ExtR Link_Model Link_Spec Kin_Spec Conf_Model Conf_Spec Conf_Proofs Conf_R.
Import ListNotations.
Local Open Scope R_scope.

(** Deviations that a joint type can decompose.  Revolute and cylindrical joints: the z-axis is exactly upright, or its
    tilt is an angle between the tolerance and a half turn, the half turn excluded.  Universal joints: the y-axis is
    not along the x-axis of the mounting frame. *)
Definition z_tilt (z : vec3 R) : Prop :=
  z = @ez R Num_R \/ exists a, x_tol <= a /\ a < PI /\ vz z = cos a.
Definition decomposable (t : jtype) (d : frame R) : Prop :=
  match t with
  | TRevol | TCylin => z_tilt (mc2 (fatt d))
  | THooke => vx (mc1 (fatt d)) * vx (mc1 (fatt d)) <> 1
  | _ => True
  end.
(** A joint without limits. *)
Definition unlimited {F} {N : Num F} (j : joint F) : Prop :=
  (forall x, In x (joint_get_min j) -> x = None) /\ (forall x, In x (joint_get_max j) -> x = None).

Lemma unit_norm (s c : R) : s * s + c * c = 1 -> exists t, sin t = s /\ cos t = c /\ - PI < t <= PI.
Proof.
  intros H. destruct (unit_angle s c H) as (t & A & B). exists (rphnorm t). rewrite rph_sin, rph_cos. split; [exact A|]. split; [exact B|apply rphnorm_bounds].
Qed.
(** Rotations that keep the z-axis and those that keep the y-axis. *)
Lemma keeps_z (m : mat3 R) : rotation m -> mc2 m = @ez R Num_R -> exists t, - PI < t <= PI /\ m = rot_z t.
Proof.
  intros ROT Z. destruct m as [[a d g] [b e h] [c f i]]. cbn [mc2] in Z. injection Z as -> -> ->.
  destruct (rot_eqs a b _ d e _ g h _ ROT) as ((A1 & A2 & A3 & A4 & A5 & A6) & (B1 & B2 & B3 & B4 & B5 & B6) & (C1 & C2 & C3) & (D1 & D2 & D3) & (E1 & E2 & E3)).
  revert A1 A2 A3 A4 A5 A6 B1 B2 B3 B4 B5 B6 C1 C2 C3 D1 D2 D3 E1 E2 E3. cbn [n0 n1 Num_R]. intros.
  destruct (unit_norm d a) as (t & S & K & P); [nra|]. exists t. split; [exact P|].
  unfold rot_z. cbn [x_sin x_cos Ext_R]. rcomp. rewrite S, K. vsplit; lra.
Qed.
Lemma keeps_y (m : mat3 R) : rotation m -> mc1 m = @ey R Num_R -> exists t, - PI < t <= PI /\ m = rot_y t.
Proof.
  intros ROT Z. destruct m as [[a d g] [b e h] [c f i]]. cbn [mc1] in Z. injection Z as -> -> ->.
  destruct (rot_eqs a _ c d _ f g _ i ROT) as ((A1 & A2 & A3 & A4 & A5 & A6) & (B1 & B2 & B3 & B4 & B5 & B6) & (C1 & C2 & C3) & (D1 & D2 & D3) & (E1 & E2 & E3)).
  revert A1 A2 A3 A4 A5 A6 B1 B2 B3 B4 B5 B6 C1 C2 C3 D1 D2 D3 E1 E2 E3. cbn [n0 n1 Num_R]. intros.
  destruct (unit_norm c a) as (t & S & K & P); [nra|]. exists t. split; [exact P|].
  unfold rot_y. cbn [x_sin x_cos Ext_R]. rcomp. rewrite S, K. vsplit; lra.
Qed.
(** The tilt. *)
Lemma split_tilt (m : mat3 R) : rotation m -> z_tilt (mc2 m) ->
  exists aa q, tilt aa /\ - PI < q <= PI /\ m = rotz_att (sin q) (cos q) (raa2m aa).
Proof.
  intros ROT ZT.
  assert (G : exists aa, tilt aa /\ mc2 (raa2m aa) = mc2 m).
  { destruct ZT as [Z|(a & A1 & A2 & A3)].
    - exists v3zero. split; [left; reflexivity|]. rewrite Z, raa_0. reflexivity.
    - destruct m as [[xx xy xz] [yx yy yz] [zx zy zz]]. cbn [mc2 vz] in *.
      assert (A0 : 0 < a) by (revert A1; cbn [x_tol Ext_R]; intros; lra).
      assert (SA : 0 < sin a) by now apply sin_gt_0.
      assert (SC := sin2_cos2 a). unfold Rsqr in SC.
      destruct (rot_eqs xx yx zx xy yy zy xz yz zz ROT) as ((_ & _ & Q & _) & _).
      exists (V3 (a * (- zy / sin a)) (a * (zx / sin a)) 0).
      assert (NN : - zy / sin a * (- zy / sin a) + zx / sin a * (zx / sin a) = 1).
      { transitivity ((zx * zx + zy * zy) / (sin a * sin a)); [field; lra|]. replace (zx * zx + zy * zy) with (sin a * sin a) by (rewrite A3 in Q; lra). field. lra. }
      split.
      + right. exists a, (- zy / sin a), (zx / sin a). split; [exact NN|]. split; [now apply rnle|]. split; [apply rnle; cbn; lra|]. split; [apply rnlt; exact SA|]. reflexivity.
      + change (mc2 (x_aa2m (V3 (a * (- zy / sin a)) (a * (zx / sin a)) 0)) = V3 zx zy zz). rewrite (aa_tilt (N:=Num_R) a (- zy / sin a) (zx / sin a) NN).
        unfold rodrigues. cbn [x_sin x_cos Ext_R]. rcomp. rewrite A3. vsplit.
        * field. lra.
        * field. lra.
        * transitivity (1 - (1 - cos a) * (- zy / sin a * (- zy / sin a) + zx / sin a * (zx / sin a))); [ring|]. rewrite NN. ring. }
  destruct G as (aa & T & GZ). exists aa. set (M := raa2m aa) in *. assert (RM : rotation M) by apply raa_rot.
  assert (RK : rotation (m3mul (m3tr M) m)) by (apply rotation_mul; [now apply rotation_tr|exact ROT]).
  destruct (keeps_z (m3mul (m3tr M) m) RK) as (q & B & Q).
  { change (mc2 (m3mul (m3tr M) m)) with (m3v (m3tr M) (mc2 m)). rewrite <- GZ.
    replace (mc2 M) with (m3v M ez) by (clear; destruct M as [[? ? ?] [? ? ?] [? ? ?]]; rcomp; vsplit; ring).
    change (m3v (m3tr M) (m3v M ez) = ez). transitivity (m3tv M (m3v M ez)); [|now apply rot_tv_v].
    clear. destruct M as [[? ? ?] [? ? ?] [? ? ?]]. rcomp. vsplit; ring. }
  exists q. split; [exact T|]. split; [exact B|]. rewrite rotz_mul. change (m = m3mul M (rot_z q)). rewrite <- Q.
  rewrite m3mul_assoc, rotation_mul_tr by exact RM. now rewrite m3mul_id_l.
Qed.
Lemma keeps_col (M m : mat3 R) (u : vec3 R) : rotation M -> m3v M u = m3v m u -> m3v (m3mul (m3tr M) m) u = u.
Proof.
  intros RM H. rewrite m3mul_v, <- H. transitivity (m3tv M (m3v M u)); [|now apply rot_tv_v].
  clear. destruct M as [[? ? ?] [? ? ?] [? ? ?]], u. rcomp. vsplit; ring.
Qed.
(** The universal joint. *)
Lemma split_hooke (m : mat3 R) : rotation m -> vx (mc1 m) * vx (mc1 m) <> 1 ->
  exists qx q0 q1, - PI < qx <= PI /\ - PI < q0 <= PI /\ - PI < q1 <= PI /\ 0 < cos q0 /\ m = m3mul (raa2m (V3 qx 0 0)) (m3mul (rot_z q0) (rot_y q1)).
Proof.
  intros ROT NB. set (b := vx (mc1 m)) in *. set (e := vy (mc1 m)). set (h := vz (mc1 m)).
  assert (Q : b * b + e * e + h * h = 1).
  { destruct (proj1 (rotation_cols m) ROT) as ((_ & Q1 & _) & _). exact Q1. }
  assert (P : 0 < e * e + h * h) by nra. assert (RP : 0 < sqrt (e * e + h * h)) by now apply sqrt_lt_R0.
  assert (RR : sqrt (e * e + h * h) * sqrt (e * e + h * h) = e * e + h * h) by (apply sqrt_sqrt; lra).
  set (r := sqrt (e * e + h * h)) in *. clearbody r.
  destruct (unit_norm (h / r) (e / r)) as (qx & SX & CX & PX).
  { transitivity ((e * e + h * h) / (r * r)); [field; lra|]. rewrite RR. field. lra. }
  destruct (unit_norm (- b) r) as (q0 & S0 & C0 & P0); [lra|].
  set (M := m3mul (raa2m (V3 qx 0 0)) (rot_z q0)).
  assert (RM : rotation M). { apply rotation_mul; [apply raa_rot|]. apply (@rot_z_rotation R Num_R _ Ext_R _). }
  assert (EM : m3v M (@ey R Num_R) = m3v m (@ey R Num_R)).
  { transitivity (V3 b e h).
    - unfold M. change (raa2m (V3 qx 0 0)) with (@x_aa2m R Ext_R (V3 qx 0 0)). pose proof (aa_x (N:=Num_R) qx) as K. cbn [n0 Num_R] in K. rewrite K. clear K.
      unfold rot_z. cbn [x_sin x_cos Ext_R]. rcomp. rewrite SX, CX, S0, C0. vsplit; field; lra.
    - unfold b, e, h. clear. destruct m as [[? ? ?] [? ? ?] [? ? ?]]. rcomp. vsplit; ring. }
  assert (K := keeps_col M m _ RM EM).
  assert (RK : rotation (m3mul (m3tr M) m)) by (apply rotation_mul; [now apply rotation_tr|exact ROT]).
  destruct (keeps_y (m3mul (m3tr M) m) RK) as (q1 & B & QE).
  { refine (eq_trans _ K). generalize (m3mul (m3tr M) m). clear. intros [[? ? ?] [? ? ?] [? ? ?]]. rcomp. vsplit; ring. }
  exists qx, q0, q1. split; [exact PX|]. split; [exact P0|]. split; [exact B|]. split; [lra|].
  rewrite <- QE, m3mul_assoc. fold M. rewrite m3mul_assoc, rotation_mul_tr by exact RM. now rewrite m3mul_id_l.
Qed.
Lemma rph_in (t : R) : - PI < t <= PI -> rphnorm t = t.
Proof. intros [A B]. apply (@x_ph_id R Num_R Ext_R _ t); [apply rnlt; exact A|apply rnle; exact B]. Qed.

Lemma lim_rot_free (a : ax1 R) (q : R) : a_min a = None -> a_max a = None -> - PI < q <= PI -> lim_rot a q = q.
Proof. intros A B H. unfold lim_rot. rewrite A, B. apply (rph_in q H). Qed.
Lemma lim_lin_free (a : ax1 R) (q : R) : a_min a = None -> a_max a = None -> lim_lin a q = q.
Proof. intros A B. unfold lim_lin. now rewrite A, B. Qed.

Lemma split_deviation (k : joint R) (d : frame R) : unlimited k -> rigid d -> decomposable (jtype_of k) d ->
  exists fo ds j, joint_set_dis k ds = Some j /\ jtype_of j = jtype_of k /\ same_limits k j /\ stable j /\ upright j /\ rigid fo /\ distortion (jtype_of j) fo /\ joint_xform j fo = d.
Proof.
  intros [UMI UMA] RG DE. destruct d as [p m]. unfold rigid in RG. cbn [fatt] in RG.
  assert (AE := raa_log m RG). unfold aa_exact in AE. cbn [x_aa2m Ext_R x_m2aa ConfExt_R] in AE.
  assert (PC : forall z, v3dot z z = 1%num -> v3dot (v3sub p (v3scale (v3dot p z) z)) z = 0%num /\ v3cat (v3sub p (v3scale (v3dot p z) z)) (v3dot p z) z = p).
  { intros z Hz. split.
    - transitivity (v3dot p z * (1 - v3dot z z))%R; [clear; destruct p, z; rcomp; ring|]. rewrite Hz. rcomp. ring.
    - clear. destruct p, z. unfold v3cat. rcomp. vsplit; ring. }
  assert (ZZ : v3dot (mc2 m) (mc2 m) = 1%num) by (apply (proj1 (rotation_cols m) RG)).
  destruct k as [|r|pr|cy|hk|sp|fl|fl x y]; cbn [jtype_of decomposable fatt] in DE.
  - exists (Fr p m), [], JFixed. split; [reflexivity|]. split; [reflexivity|]. split; [split; reflexivity|]. split; [reflexivity|]. split; [intros X; discriminate X|]. split; [exact RG|]. split; [exact I|reflexivity].
  - destruct (split_tilt m RG DE) as (aa & q & T & B & EM). exists (Fr p (raa2m aa)), [q], (JRevol (revol_setdis r q)).
    assert (LQ : lim_rot (rv_a r) q = q) by (apply lim_rot_free; [apply UMI; left; reflexivity|apply UMA; left; reflexivity|exact B]).
    split; [reflexivity|]. split; [reflexivity|]. split; [split; reflexivity|]. unfold revol_setdis. cbv zeta. rewrite LQ.
    split; [unfold stable; cbn; unfold lim_rot in *; cbn in *; rewrite LQ; reflexivity|].
    split; [intros X; discriminate X|]. split; [apply raa_rot|]. split; [exists aa; auto|]. rewrite EM. reflexivity.
  - destruct (PC (mc2 m) ZZ) as [D0 D1].
    exists (Fr (v3sub p (v3scale (v3dot p (mc2 m)) (mc2 m))) m), [v3dot p (mc2 m)], (JPrism (prism_setdis pr (v3dot p (mc2 m)))).
    assert (LQ : forall q, lim_lin (pr_a pr) q = q) by (intros; apply lim_lin_free; [apply UMI; left; reflexivity|apply UMA; left; reflexivity]).
    split; [reflexivity|]. split; [reflexivity|]. split; [split; reflexivity|]. unfold prism_setdis. rewrite LQ.
    split; [unfold stable; cbn; unfold lim_lin in *; cbn in *; rewrite LQ; reflexivity|].
    split; [intros X; discriminate X|]. split; [exact RG|]. split; [exact D0|]. cbn [joint_xform pr_a a_dis ax_dis fpos fatt]. f_equal. exact D1.
  - destruct (split_tilt m RG DE) as (aa & q & T & B & EM). destruct (PC (mc2 m) ZZ) as [D0 D1]. set (l := v3dot p (mc2 m)) in *.
    exists (Fr (v3sub p (v3scale l (mc2 m))) (raa2m aa)), [l; q], (JCylin (cylin_setdis cy l q)).
    assert (LL : forall q, lim_lin (cy_0 cy) q = q) by (intros; apply lim_lin_free; [apply UMI; left; reflexivity|apply UMA; left; reflexivity]).
    assert (LQ : lim_rot (cy_1 cy) q = q) by (apply lim_rot_free; [apply UMI; right; left; reflexivity|apply UMA; right; left; reflexivity|exact B]).
    assert (EZ : mc2 (raa2m aa) = mc2 m) by (rewrite EM; reflexivity).
    split; [reflexivity|]. split; [reflexivity|]. split; [split; reflexivity|]. unfold cylin_setdis. cbv zeta. rewrite LQ, LL.
    split; [unfold stable; cbn; unfold lim_rot, lim_lin in *; cbn in *; rewrite LQ, LL; reflexivity|].
    split; [intros X; discriminate X|]. split; [apply raa_rot|]. split; [cbn [jtype_of distortion fpos fatt]; rewrite EZ; split; [exact D0|exists aa; auto]|].
    cbn [joint_xform cy_0 cy_s cy_c a_dis ax_dis fpos fatt]. rewrite EZ. rewrite EM at 3. f_equal. exact D1.
  - destruct (split_hooke m RG DE) as (qx & q0 & q1 & BX & B0 & B1 & CP & EM).
    exists (Fr p (raa2m (V3 qx 0 0))), [q0; q1], (JHooke (hooke_setdis hk q0 q1)).
    assert (L0 : lim_rot (hk_0 hk) q0 = q0) by (apply lim_rot_free; [apply UMI; left; reflexivity|apply UMA; left; reflexivity|exact B0]).
    assert (L1 : lim_rot (hk_1 hk) q1 = q1) by (apply lim_rot_free; [apply UMI; right; left; reflexivity|apply UMA; right; left; reflexivity|exact B1]).
    split; [reflexivity|]. split; [reflexivity|]. split; [split; reflexivity|]. unfold hooke_setdis. cbv zeta. rewrite L0, L1.
    split; [unfold stable; cbn; unfold lim_rot in *; cbn in *; rewrite L0, L1; reflexivity|].
    split; [intros _ a b X; cbn in X; injection X as <- <-; split; [apply rnlt, B0|split; [apply rnle, B0|apply rnlt; exact CP]]|].
    split; [apply raa_rot|].
    split; [exists qx; split; [apply rnlt, BX|split; [apply rnle, BX|reflexivity]]|].
    cbn [joint_xform hk_s0 hk_c0 hk_s1 hk_c1 fpos fatt]. rewrite EM. f_equal. f_equal. unfold zyx_sc, rot_z, rot_y. cbn [x_sin x_cos Ext_R].
    generalize (sin q0) (cos q0) (sin q1) (cos q1). clear. intros. rcomp. vsplit; ring.
  - exists (Fr p m3id), (l3 (rm2aa m)), (JSpher (spher_setdis sp (rm2aa m))).
    split; [destruct (rm2aa m); reflexivity|]. split; [reflexivity|]. split; [split; reflexivity|].
    split; [unfold stable; cbn; destruct (rm2aa m); reflexivity|]. split; [intros X; discriminate X|]. split; [apply rotation_id|]. split; [reflexivity|].
    cbn [joint_xform spher_setdis sp_att fpos fatt]. rewrite m3mul_id_l. f_equal. exact AE.
  - exists fid, (l6 (V6 p (rm2aa m))), (JFloat (float_setdis fl (V6 p (rm2aa m)))).
    split; [destruct p, (rm2aa m); reflexivity|]. split; [reflexivity|]. split; [split; reflexivity|].
    split; [unfold stable; cbn; destruct p, (rm2aa m); reflexivity|]. split; [intros X; discriminate X|]. split; [apply rigid_id|]. split; [reflexivity|].
    cbn [joint_xform float_setdis fl_att fl_dis fpos fatt fid vlin vang]. rewrite m3mul_id_l. f_equal; [|exact AE]. clear. destruct p. unfold xform. rcomp. vsplit; ring.
  - exists fid, (l6 (V6 p (rm2aa m))), (JBrFloat (float_setdis fl (V6 p (rm2aa m))) x y).
    split; [destruct p, (rm2aa m); reflexivity|]. split; [reflexivity|]. split; [split; reflexivity|].
    split; [unfold stable; cbn; destruct p, (rm2aa m); reflexivity|]. split; [intros X; discriminate X|]. split; [apply rigid_id|]. split; [reflexivity|].
    cbn [joint_xform float_setdis fl_att fl_dis fpos fatt fid vlin vang]. rewrite m3mul_id_l. f_equal; [|exact AE]. clear. destruct p. unfold xform. rcomp. vsplit; ring.
Qed.

(** The deviation is split by the torsion, for every rigid deviation that is decomposable. *)
Lemma torsion_splits (k : joint R) (d : frame R) : unlimited k -> rigid d -> decomposable (jtype_of k) d ->
  exists t ds k', joint_torsion (jtype_of k) d = Some (t, ds) /\ joint_set_dis k ds = Some k' /\
    distortion (jtype_of k) (aa_to_frame (m3v6 (fatt d) t)) /\ joint_xform k' (aa_to_frame (m3v6 (fatt d) t)) = d.
Proof.
  intros U RG DE. destruct (split_deviation k d U RG DE) as (fo & ds0 & j & SD & JT & SL & ST & UP & RF & DI & XE).
  destruct (torsion_recovers j fo ST (set_dis_cache _ _ _ SD) UP RF DI) as (t & ds & A & B & RC).
  { intros _. rewrite XE. apply raa_log. exact RG. }
  rewrite XE in A, B. rewrite JT in *. destruct (RC k) as (k' & K1 & K2 & K3 & _); [congruence|exact SL|].
  exists t, ds, k'. rewrite B. repeat split; try assumption. now rewrite K3.
Qed.
