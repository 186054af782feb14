(** * Conf_Proofs: lemmas on joint torsion and link configurations. *)
From Coq Require Import List Arith Lia Bool Field.
From Verif Require Import Num NumFacts Vec VecFacts Motor_Model Joint_Model Joint_Spec Joint_Proofs Body_Model Tree Tree_Proofs Link_Model
  Link_Spec Link_Proofs Chain_Proofs Link_Properties Kin_Spec Kin_Proofs Jacobi_Proofs Conf_Model Conf_Spec.
Import ListNotations.

Section S.
Context {F : Type} {N : Num F} {L : NumLaws F N} {E : Ext F} {EL : ExtLaws F N E} {C : ConfExt F} {CL : ConfLaws F N E C}.
Local Open Scope num_scope.
Add Field FFieldConf : num_field.
Notation lk := (link F).
Local Ltac vring := intros; vdestruct; vunfold; vsplit; ring.

Lemma ntiny_0 : ntiny x_tol (0:F) = true.
Proof.
  unfold ntiny, nabs. rewrite (nle_refl 0 : (0 <=? 0) = true). apply nltb_lt, x_tol_pos.
Qed.
Lemma ntiny_big (a : F) : x_tol <= a -> ntiny x_tol a = false.
Proof.
  intros H. unfold ntiny, nabs. assert (P : 0 <= a) by (apply (nle_trans _ x_tol); [apply nlt_le, x_tol_pos|exact H]).
  unfold nle in P. rewrite P. now apply nltb_ge.
Qed.
Lemma nis0_pos (x : F) : 0 < x -> nis0 x = false.
Proof. intros H. unfold nis0. unfold nlt in H. now rewrite H. Qed.
Lemma atan2_unit (t : F) : x_atan2 (x_sin t) (x_cos t) = x_phnorm t.
Proof. rewrite <- (x_atan2_sc 1 t nlt_0_1). f_equal; ring. Qed.
Lemma ph_norm (t : F) : - x_pi < t -> t <= x_pi -> x_phnorm t = t. Proof. apply x_ph_id. Qed.

Lemma aa_tilt (a nx ny : F) : nx * nx + ny * ny = 1 -> x_aa2m (V3 (a * nx) (a * ny) 0) = rodrigues (x_sin a) (x_cos a) (V3 nx ny 0).
Proof.
  intros H. rewrite <- x_aa_axis; [f_equal; vring|]. unfold v3sqr, v3dot. cbn [vx vy vz]. rewrite <- H. ring.
Qed.
Lemma aa_x (q : F) : x_aa2m (V3 q 0 0) = m3create 1 0 0 0 (x_cos q) (- x_sin q) 0 (x_sin q) (x_cos q).
Proof.
  replace (V3 q 0 0) with (v3scale q (V3 1 0 0) : vec3 F) by vring. rewrite x_aa_axis by (unfold v3sqr, v3dot; cbn [vx vy vz]; ring).
  unfold rodrigues. vunfold. vsplit; ring.
Qed.
Lemma tilt_col (a nx ny : F) : nx * nx + ny * ny = 1 -> mc2 (rodrigues (x_sin a) (x_cos a) (V3 nx ny 0)) = V3 (x_sin a * ny) (- (x_sin a * nx)) (x_cos a).
Proof.
  intros H. unfold rodrigues. vunfold. vsplit; try ring.
  transitivity (1 - (1 - x_cos a) * (nx * nx + ny * ny)); [ring|]. rewrite H. ring.
Qed.
Lemma rotz_mul (s c : F) m : rotz_att s c m = m3mul m (m3create c (- s) 0 s c 0 0 0 1).
Proof. unfold rotz_att. vring. Qed.
Lemma rotz_rotation (q : F) m : rotation m -> rotation (rotz_att (x_sin q) (x_cos q) m).
Proof. intros R. rewrite rotz_mul. apply rotation_mul; [exact R|]. apply (rot_z_rotation q). Qed.

Lemma half_double (x : F) : 1 / n2 * (x + x) = x.
Proof. unfold n2. field. apply n2_neq_0. Qed.
Lemma vangles (m : mat3 F) q : rotation m -> let R := rotz_att (x_sin q) (x_cos q) m in
  1 / n2 * (x_vangle (mc0 m) (mc0 R) (mc2 m) + x_vangle (mc1 m) (mc1 R) (mc2 m)) = x_phnorm q.
Proof.
  intros RM R. destruct (rotation_cross m RM) as (C0 & C1 & C2).
  destruct (proj1 (rotation_cols m) RM) as ((Q0 & Q1 & Q2 & D01 & D12 & D20) & _).
  assert (E0 : mc0 R = v3add (v3scale (x_cos q) (mc0 m)) (v3scale (x_sin q) (v3cross (mc2 m) (mc0 m)))).
  { unfold R, rotz_att, v3cat. cbn [mc0]. f_equal. f_equal. congruence. }
  assert (E1 : mc1 R = v3add (v3scale (x_cos q) (mc1 m)) (v3scale (x_sin q) (v3cross (mc2 m) (mc1 m)))).
  { unfold R, rotz_att, v3cat. cbn [mc1]. rewrite v3cross_anti.
    replace (v3cross (mc1 m) (mc2 m)) with (mc0 m) by congruence. vring. }
  rewrite E0, E1. rewrite !x_vangle_rot; auto; try apply half_double.
  all: unfold v3sqr in *; auto; rewrite v3dot_comm; auto.
Qed.

Lemma revol_core (m : mat3 F) aa q p : tilt aa -> m = x_aa2m aa -> let R := rotz_att (x_sin q) (x_cos q) m in
  revol_torsion_dis (Fr p R) = Some (m3tv R aa, x_phnorm q).
Proof.
  intros T EM R. assert (RM : rotation m) by (subst m; apply x_aa_rot).
  assert (KEY : mc2 R = mc2 m) by reflexivity.
  unfold revol_torsion_dis. cbn [fatt]. rewrite KEY.
  destruct T as [-> | (a & nx & ny & HN & A1 & A2 & A3 & ->)].
  - rewrite x_aa_0 in EM. subst m. cbn [mc2 m3id ez vx vy vz].
    replace (- 0 * - 0 + 0 * 0) with (0 * 0 : F) by ring. rewrite x_sqrt_sqr by apply nle_refl.
    assert (A0 : x_atan2 0 1 = 0 :> F).
    { rewrite <- (@x_sin0 F N E EL) at 1. rewrite <- (@x_cos0 F N E EL). rewrite atan2_unit. apply ph0. }
    rewrite A0, ntiny_0. cbn [obind]. rewrite x_aa_0. f_equal. f_equal. apply (vangles m3id q RM).
  - assert (EM2 := aa_tilt a nx ny HN). assert (COL := tilt_col a nx ny HN). rewrite <- EM2, <- EM in COL. rewrite COL. cbn [vx vy vz].
    replace (- - (x_sin a * nx) * - - (x_sin a * nx) + x_sin a * ny * (x_sin a * ny)) with (x_sin a * x_sin a)
      by (transitivity (x_sin a * x_sin a * (nx * nx + ny * ny)); [rewrite HN; ring|ring]).
    rewrite x_sqrt_sqr by (now apply nlt_le). rewrite atan2_unit.
    assert (PA : x_phnorm a = a).
    { apply x_ph_id; [|exact A2]. apply (nlt_le_trans _ 0).
      - apply nlt_nle. intros K. pose proof (@x_pi_pos F N E EL) as P. apply nlt_nle in P. apply P.
        apply (nle_add _ _ x_pi) in K. replace (0 + x_pi) with (x_pi : F) in K by ring.
        replace (- x_pi + x_pi) with (0 : F) in K by ring. exact K.
      - apply (nle_trans _ x_tol); [apply nlt_le, x_tol_pos|exact A1]. }
    rewrite PA, (ntiny_big a A1), (nis0_pos _ A3). cbn [obind].
    assert (EA : v3scale (a / x_sin a) (V3 (- - (x_sin a * nx)) (x_sin a * ny) 0) = V3 (a * nx) (a * ny) 0).
    { assert (NZ := nlt_neq' _ _ A3). vunfold. vsplit; field; exact NZ. }
    rewrite EA, <- EM. f_equal. f_equal. apply (vangles m q RM).
Qed.

(** The joint of the same type and limits after it was given the recovered displacement. *)
Definition recovered (j k : joint F) (ds : list F) : Prop :=
  exists k', joint_set_dis k ds = Some k' /\ jtype_of k' = jtype_of j /\ (forall f, joint_xform k' f = joint_xform j f) /\
    (reads_back (jtype_of j) (joint_get_dis j) -> joint_get_dis k' = joint_get_dis j).
Lemma rotz_pos (p : vec3 F) s c m : fpos (Fr p (rotz_att s c m)) = p. Proof. reflexivity. Qed.
Lemma v3_z0 (v : vec3 F) : vz v = 0 -> V3 (vx v) (vy v) 0 = v.
Proof. intros H. destruct v as [x y z]. cbn in *. now subst. Qed.
Lemma m3tv_z (m : mat3 F) v : vz (m3tv m v) = v3dot v (mc2 m). Proof. vring. Qed.
Lemma m3tv_cat (m : mat3 F) p k v : m3tv m (v3cat p k v) = v3add (m3tv m p) (v3scale k (m3tv m v)). Proof. vring. Qed.
Lemma lim_rot_ph (a b : ax1 F) : a_min b = a_min a -> a_max b = a_max a -> lim_rot a (a_dis a) = a_dis a -> lim_rot b (x_phnorm (a_dis a)) = a_dis a.
Proof. intros A B H. unfold lim_rot in *. rewrite A, B, x_ph_idem. exact H. Qed.
Lemma lim_lin_eq (a b : ax1 F) : a_min b = a_min a -> a_max b = a_max a -> lim_lin a (a_dis a) = a_dis a -> lim_lin b (a_dis a) = a_dis a.
Proof. intros A B H. unfold lim_lin in *. now rewrite A, B. Qed.
(** Deviation along the axis: the linear part. *)
Lemma prism_core (p : vec3 F) R z q : rotation R -> z = mc2 R -> v3dot p z = 0 -> prism_torsion_dis (Fr (v3cat p q z) R) = (m3tv R p, q).
Proof.
  intros RR -> D. unfold prism_torsion_dis. cbn [fatt fpos]. rewrite m3tv_cat.
  assert (ZZ : m3tv R (mc2 R) = ez).
  { replace (mc2 R) with (m3v R ez) by vring. now apply rot_tv_v. }
  rewrite ZZ. assert (Z0 : vz (m3tv R p) = 0) by (rewrite m3tv_z; exact D). destruct (m3tv R p) as [x y z]. cbn in Z0. subst z.
  unfold v3add, v3scale, ez. cbn [vx vy vz]. f_equal; [f_equal; ring|ring].
Qed.
Lemma lin_part (R : mat3 F) p a : rotation R -> aa_to_frame (m3v6 R (V6 (m3tv R p) (m3tv R a))) = Fr p (x_aa2m a).
Proof. intros H. unfold aa_to_frame, m3v6. cbn [vlin vang]. now rewrite !rot_v_tv. Qed.

Lemma torsion_recovers (j : joint F) fo : stable j -> cache_ok j -> upright j -> rigid fo -> distortion (jtype_of j) fo ->
  (reads_aa (jtype_of j) -> aa_exact (fatt (joint_xform j fo))) ->
  exists t ds, joint_torsion (jtype_of j) (joint_xform j fo) = Some (t, ds) /\ aa_to_frame (m3v6 (fatt (joint_xform j fo)) t) = fo /\
    forall k, jtype_of k = jtype_of j -> same_limits k j -> recovered j k ds.
Proof.
  intros ST CO UP RG DI AE. unfold rigid in RG. destruct fo as [p m]. cbn [fatt fpos] in *.
  destruct j as [|r|pr|cy|hk|sp|fl|fl x y]; cbn [jtype_of joint_xform joint_torsion distortion fatt fpos reads_aa] in *.
  - exists (m3tv6 m (frame_to_aa (Fr p m))), []. split; [reflexivity|]. split.
    + unfold frame_to_aa, m3tv6. cbn [fpos fatt vlin vang]. rewrite lin_part by exact RG. now rewrite (AE I).
    + intros k TK _. destruct k; try discriminate TK. exists JFixed. repeat split.
  - destruct DI as (aa & T & EM). destruct CO as [CS CC]. rewrite CS, CC. cbn [fatt].
    set (q := a_dis (rv_a r)) in *. assert (RR := rotz_rotation q m RG).
    rewrite (revol_core m aa q p T EM). cbn [obind]. eexists _, _. split; [reflexivity|]. split.
    + rewrite lin_part by exact RR. now rewrite EM.
    + intros k TK [LM LX]. destruct k as [|r'| | | | | |]; try discriminate TK. cbn in LM, LX.
      assert (M1 : a_min (rv_a r') = a_min (rv_a r)) by congruence. assert (M2 : a_max (rv_a r') = a_max (rv_a r)) by congruence.
      unfold stable in ST. cbn in ST. assert (SQ : lim_rot (rv_a r) (a_dis (rv_a r)) = a_dis (rv_a r)) by congruence.
      eexists. split; [reflexivity|]. split; [reflexivity|]. unfold revol_setdis, q. rewrite (lim_rot_ph _ _ M1 M2 SQ).
      split; [|reflexivity]. intros f. cbn. now rewrite CS, CC.
  - cbn [fatt] in AE. rewrite (prism_core p m (mc2 m) (a_dis (pr_a pr)) RG eq_refl DI).
    eexists _, _. split; [reflexivity|]. split; [rewrite lin_part by exact RG; now rewrite (AE I)|].
    intros k TK [LM LX]. destruct k as [| |r'| | | | |]; try discriminate TK. cbn in LM, LX.
    assert (M1 : a_min (pr_a r') = a_min (pr_a pr)) by congruence. assert (M2 : a_max (pr_a r') = a_max (pr_a pr)) by congruence.
    unfold stable in ST. cbn in ST. assert (SQ : lim_lin (pr_a pr) (a_dis (pr_a pr)) = a_dis (pr_a pr)) by congruence.
    eexists. split; [reflexivity|]. split; [reflexivity|]. unfold prism_setdis. rewrite (lim_lin_eq _ _ M1 M2 SQ). split; reflexivity.
  - destruct DI as (D0 & aa & T & EM). destruct CO as [CS CC]. rewrite CS, CC. cbn [fatt].
    set (q := a_dis (cy_1 cy)) in *. set (z := a_dis (cy_0 cy)) in *. assert (RR := rotz_rotation q m RG).
    rewrite (prism_core p _ (mc2 m) z RR eq_refl D0). rewrite (revol_core m aa q _ T EM). cbn [obind].
    eexists _, _. split; [reflexivity|]. split; [rewrite lin_part by exact RR; now rewrite EM|].
    intros k TK [LM LX]. destruct k as [| | |r'| | | |]; try discriminate TK. cbn in LM, LX.
    assert (M1 : a_min (cy_0 r') = a_min (cy_0 cy)) by congruence. assert (M2 : a_max (cy_0 r') = a_max (cy_0 cy)) by congruence.
    assert (M3 : a_min (cy_1 r') = a_min (cy_1 cy)) by congruence. assert (M4 : a_max (cy_1 r') = a_max (cy_1 cy)) by congruence.
    unfold stable in ST. cbn in ST. assert (SQ : lim_lin (cy_0 cy) (a_dis (cy_0 cy)) = a_dis (cy_0 cy)) by congruence.
    assert (SR : lim_rot (cy_1 cy) (a_dis (cy_1 cy)) = a_dis (cy_1 cy)) by congruence.
    eexists. split; [reflexivity|]. split; [reflexivity|]. unfold cylin_setdis. unfold z, q. rewrite (lim_lin_eq _ _ M1 M2 SQ), (lim_rot_ph _ _ M3 M4 SR).
    split; [|reflexivity]. intros f. cbn. now rewrite CS, CC.
  - destruct DI as (q & Q1 & Q2 & EM). destruct CO as [[S0 C0] [S1 C1]]. rewrite S0, C0, S1, C1. cbn [fatt].
    set (a := a_dis (hk_0 hk)) in *. set (b := a_dis (hk_1 hk)) in *.
    destruct (UP eq_refl a b eq_refl) as (A1 & A2 & CP).
    set (R := m3mul m (zyx_sc (x_sin a) (x_cos a) (x_sin b) (x_cos b) 0 1)).
    assert (RR : rotation R).
    { apply rotation_mul; [exact RG|]. replace (zyx_sc (x_sin a) (x_cos a) (x_sin b) (x_cos b) 0 1) with (m3mul (rot_z a) (rot_y b)) by (unfold zyx_sc, rot_z, rot_y; vring).
      apply rotation_mul; [apply rot_z_rotation|apply rot_y_rotation]. }
    assert (SC := @x_sc F N E EL q).
    assert (E1 : mc1 R = V3 (- x_sin a) (x_cos a * x_cos q) (x_cos a * x_sin q)) by (unfold R; rewrite EM, aa_x; unfold zyx_sc; vunfold; vsplit; ring).
    assert (E0 : vx (mc0 R) = x_cos a * x_cos b) by (unfold R; rewrite EM, aa_x; unfold zyx_sc; vunfold; ring).
    assert (E2 : vx (mc2 R) = x_cos a * x_sin b) by (unfold R; rewrite EM, aa_x; unfold zyx_sc; vunfold; ring).
    assert (HT : hooke_torsion (Fr p R) = (V6 (m3tv R p) (m3tv R (V3 q 0 0)), [a; x_phnorm b])).
    { unfold hooke_torsion. cbn [fatt fpos]. rewrite E1, E0, E2. cbn [vx vy vz]. rewrite (x_atan2_sc (x_cos a) q CP), (x_ph_id Q1 Q2).
      replace (- - x_sin a) with (x_sin a) by ring.
      replace (x_cos q * (x_cos a * x_cos q) + x_sin q * (x_cos a * x_sin q)) with (x_cos a)
        by (transitivity (x_cos a * (x_sin q * x_sin q + x_cos q * x_cos q)); [rewrite SC; ring|ring]).
      rewrite atan2_unit, (x_ph_id A1 A2). cbv zeta.
      replace (x_cos a * (x_cos a * x_sin b)) with (x_cos a * x_cos a * x_sin b) by ring.
      replace (x_cos a * (x_cos a * x_cos b)) with (x_cos a * x_cos a * x_cos b) by ring.
      rewrite x_atan2_sc by (apply nlt_0_mul; exact CP). f_equal. f_equal. clearbody R. clear -L. vring. }
    rewrite HT. eexists _, _. split; [reflexivity|]. split; [rewrite lin_part by exact RR; now rewrite EM|].
    intros k TK [LM LX]. destruct k as [| | | |r'| | |]; try discriminate TK. cbn in LM, LX.
    assert (M1 : a_min (hk_0 r') = a_min (hk_0 hk)) by congruence. assert (M2 : a_max (hk_0 r') = a_max (hk_0 hk)) by congruence.
    assert (M3 : a_min (hk_1 r') = a_min (hk_1 hk)) by congruence. assert (M4 : a_max (hk_1 r') = a_max (hk_1 hk)) by congruence.
    unfold stable in ST. cbn in ST. assert (SQ : lim_rot (hk_0 hk) (a_dis (hk_0 hk)) = a_dis (hk_0 hk)) by congruence.
    assert (SR : lim_rot (hk_1 hk) (a_dis (hk_1 hk)) = a_dis (hk_1 hk)) by congruence.
    eexists. split; [reflexivity|]. split; [reflexivity|]. unfold hooke_setdis.
    assert (SP' : lim_rot (hk_0 r') a = a) by (pose proof (lim_rot_ph _ _ M1 M2 SQ) as K; fold a in K; rewrite (x_ph_id A1 A2) in K; exact K).
    rewrite SP'. unfold b. rewrite (lim_rot_ph _ _ M3 M4 SR). split; [|reflexivity]. intros f. cbn. rewrite S0, C0, S1, C1. reflexivity.
  - subst m. rewrite m3mul_id_l in *. cbn [fatt] in AE. assert (RA : rotation (sp_att sp)) by (rewrite CO; apply x_aa_rot).
    eexists _, _. split; [reflexivity|]. split.
    + unfold aa_to_frame, m3v6. cbn [vlin vang]. rewrite rot_v_tv by exact RA. now rewrite m3v_0_r, x_aa_0.
    + intros k TK _. destruct k as [| | | | |r'| |]; try discriminate TK. destruct (x_m2aa (sp_att sp)) as [u v w] eqn:MA.
      eexists. split; [reflexivity|]. split; [reflexivity|]. split; [|intros RB; cbn; rewrite CO in MA; destruct (sp_aa sp) as [a b c] eqn:SA; unfold reads_back, joint_get_dis, joint_get_gen in *; rewrite SA in *; assert (X : V3 u v w = V3 a b c) by (rewrite <- MA; exact RB); injection X as -> -> ->; reflexivity]. intros f. cbn. rewrite <- MA, (AE I). reflexivity.
  - injection DI as -> ->. unfold xform in *. cbn [fatt fpos fid] in *. rewrite m3mul_id_l in *. cbn [fatt] in AE.
    rewrite m3v_id, v3add_0_r.
    eexists _, _. split; [reflexivity|]. split.
    + unfold aa_to_frame, m3v6, v6zero. cbn [vlin vang]. now rewrite !m3v_0_r, x_aa_0.
    + intros k TK _. destruct k as [| | | | | |r'|]; try discriminate TK. unfold frame_to_aa. cbn [fpos fatt].
      destruct (vlin (fl_dis fl)) as [a b c] eqn:VL. destruct (x_m2aa (fl_att fl)) as [u v w] eqn:MA.
      eexists. split; [reflexivity|]. split; [reflexivity|]. split; [|intros RB; cbn; rewrite CO in MA; destruct (fl_dis fl) as [y1 [y2 y3 y4]] eqn:FA; cbn in VL; unfold reads_back, joint_get_dis, joint_get_gen in *; rewrite FA in *; subst y1; assert (X : V3 u v w = V3 y2 y3 y4) by (rewrite <- MA; exact RB); injection X as -> -> ->; reflexivity]. intros f. cbn. rewrite VL, <- MA, (AE I). reflexivity.
  - injection DI as -> ->. unfold xform in *. cbn [fatt fpos fid] in *. rewrite m3mul_id_l in *. cbn [fatt] in AE.
    rewrite m3v_id, v3add_0_r.
    eexists _, _. split; [reflexivity|]. split.
    + unfold aa_to_frame, m3v6, v6zero. cbn [vlin vang]. now rewrite !m3v_0_r, x_aa_0.
    + intros k TK _. destruct k as [| | | | | | |r']; try discriminate TK. unfold frame_to_aa. cbn [fpos fatt].
      destruct (vlin (fl_dis fl)) as [a b c] eqn:VL. destruct (x_m2aa (fl_att fl)) as [u v w] eqn:MA.
      eexists. split; [reflexivity|]. split; [reflexivity|]. split; [|intros RB; cbn; rewrite CO in MA; destruct (fl_dis fl) as [y1 [y2 y3 y4]] eqn:FA; cbn in VL; unfold reads_back, joint_get_dis, joint_get_gen in *; rewrite FA in *; subst y1; assert (X : V3 u v w = V3 y2 y3 y4) by (rewrite <- MA; exact RB); injection X as -> -> ->; reflexivity]. intros f. cbn. rewrite VL, <- MA, (AE I). reflexivity.
Qed.

(** ** Chains *)
Definition frames_same (h h' : list lk) : Prop := forall q, option_map l_frame (nth_error h' q) = option_map l_frame (nth_error h q).
Definition org_of (h : list lk) (l : lk) : option (frame F) :=
  match l_parent l with
  | None => Some (l_org l)
  | Some q => option_map (fun lq => fcascade (l_frame lq) (l_org l)) (nth_error h q)
  end.
Lemma org_of_same (h h' : list lk) l : frames_same h h' -> org_of h' l = org_of h l.
Proof.
  intros H. unfold org_of. destruct (l_parent l) as [q|]; [|reflexivity]. specialize (H q).
  destruct (nth_error h' q), (nth_error h q); cbn in *; congruence.
Qed.
Definition can_conf (h : list lk) (x : nat) : Prop := forall l, nth_error h x = Some l ->
  exists org j, org_of h l = Some org /\ conf_joint l org = Some j.
Definition conf_done (h h' : list lk) (x : nat) : Prop := forall l, nth_error h x = Some l ->
  exists org j, org_of h l = Some org /\ conf_joint l org = Some j /\ nth_error h' x = Some (l_set_joint j l).

Lemma conf_to_dis_spec f : forall fuel (h : list lk) p i, lrep h p (Some i) f -> NoDup (ids f) -> (fsize f <= fuel)%nat ->
  (forall x, In x (ids f) -> can_conf h x) ->
  exists h', conf_to_dis fuel h i = Some h' /\ frames_same h h' /\ List.length h' = List.length h /\
    (forall x, ~ In x (ids f) -> nth_error h' x = nth_error h x) /\ (forall x, In x (ids f) -> conf_done h h' x).
Proof.
  induction f as [|j k IHk r IHr]; intros fuel h p i R ND FU CC; [discriminate R|].
  destruct R as (EI & l & Hl & Hp & Hk & Hr). injection EI as <-.
  destruct fuel as [|fuel]; [cbn [fsize] in FU; lia|]. cbn [fsize] in FU.
  destruct (nodup_split _ i k r eq_refl ND) as (N1 & N2 & N3 & N4 & N5).
  destruct (CC i (or_introl eq_refl) l Hl) as (org & jj & OG & CJ).
  cbn [conf_to_dis]. rewrite Hl. cbn [obind]. change (match l_parent l with None => Some (l_org l) | Some q => option_map (fun lq => fcascade (l_frame lq) (l_org l)) (nth_error h q) end) with (org_of h l).
  rewrite OG. cbn [obind]. rewrite CJ. cbn [obind]. set (h1 := set_nth i (l_set_joint jj l) h).
  assert (LI : (i < List.length h)%nat) by (eapply nth_lt; eauto).
  assert (E1 : nth_error h1 i = Some (l_set_joint jj l)) by (apply set_nth_same; exact LI).
  assert (E2 : forall x, x <> i -> nth_error h1 x = nth_error h x) by (intros x Hx; apply set_nth_other; auto).
  assert (L1 : List.length h1 = List.length h) by (apply set_nth_length).
  assert (F1 : frames_same h h1).
  { intros q. destruct (Nat.eq_dec q i) as [->|Q]; [rewrite E1, Hl; reflexivity|now rewrite E2]. }
  assert (CAN : forall h2 x, frames_same h h2 -> nth_error h2 x = nth_error h x -> can_conf h x -> can_conf h2 x).
  { intros h2 x FS EX K l2 H2. rewrite EX in H2. rewrite (org_of_same h h2 l2 FS). exact (K l2 H2). }
  assert (ST2 : exists h2, (match l_child l with None => Some h1 | Some c => conf_to_dis fuel h1 c end) = Some h2 /\
     frames_same h1 h2 /\ List.length h2 = List.length h1 /\ (forall x, ~ In x (ids k) -> nth_error h2 x = nth_error h1 x) /\
     (forall x, In x (ids k) -> conf_done h1 h2 x)).
  { destruct (l_child l) as [c|] eqn:HC.
    - apply (IHk fuel h1 (Some i) c); [| exact N3 | lia |].
      + apply (rep_frame _ _ _ h); [|exact Hk]. intros x Hx. apply E2. intros ->. auto.
      + intros x Hx. apply CAN; [exact F1|apply E2; intros ->; auto|]. apply CC. cbn [ids]. right. apply in_or_app. auto.
    - destruct k as [|? ? ?]; [|destruct Hk as (K & _); discriminate K].
      exists h1. split; [reflexivity|]. split; [intros q; reflexivity|]. split; [reflexivity|]. split; [auto|]. intros x []. }
  destruct ST2 as (h2 & -> & F2 & L2 & O2 & D2). cbn [obind].
  assert (F02 : frames_same h h2) by (intros q; rewrite F2; apply F1).
  assert (ST3 : exists h3, (match l_sibl l with None => Some h2 | Some s => conf_to_dis fuel h2 s end) = Some h3 /\
     frames_same h2 h3 /\ List.length h3 = List.length h2 /\ (forall x, ~ In x (ids r) -> nth_error h3 x = nth_error h2 x) /\
     (forall x, In x (ids r) -> conf_done h2 h3 x)).
  { assert (SAME : forall x, In x (ids r) -> nth_error h2 x = nth_error h x).
    { intros x Hx. rewrite O2 by (intros K; apply (N5 x); auto). apply E2. intros ->. auto. }
    destruct (l_sibl l) as [s|] eqn:HS.
    - apply (IHr fuel h2 p s); [| exact N4 | lia |].
      + apply (rep_frame _ _ _ h); [|exact Hr]. exact SAME.
      + intros x Hx. apply CAN; [exact F02|apply SAME; exact Hx|]. apply CC. cbn [ids]. right. apply in_or_app. auto.
    - destruct r as [|? ? ?]; [|destruct Hr as (K & _); discriminate K].
      exists h2. split; [reflexivity|]. split; [intros q; reflexivity|]. split; [reflexivity|]. split; [auto|]. intros x []. }
  destruct ST3 as (h3 & -> & F3 & L3 & O3 & D3).
  exists h3. split; [reflexivity|]. split; [intros q; rewrite F3; apply F02|]. split; [congruence|]. split.
  - intros x Hx. cbn [ids] in Hx. rewrite O3, O2, E2; auto; intros K; apply Hx; cbn; auto; right; apply in_or_app; auto.
  - intros x Hx l2 H2. cbn [ids] in Hx. destruct Hx as [<-|Hx].
    + assert (l2 = l) by congruence. subst l2. exists org, jj. split; [exact OG|]. split; [exact CJ|]. rewrite O3, O2; auto.
    + apply in_app_or in Hx. destruct Hx as [Hx|Hx].
      * assert (XI : x <> i) by (intros ->; auto). assert (H2' : nth_error h1 x = Some l2) by (now rewrite E2).
        destruct (D2 x Hx l2 H2') as (o' & j' & A & B & D). exists o', j'. rewrite <- (org_of_same h h1 l2 F1). split; [exact A|]. split; [exact B|].
        rewrite O3; [exact D|]. intros K. apply (N5 x); auto.
      * assert (XI : x <> i) by (intros ->; auto).
        assert (H2' : nth_error h2 x = Some l2) by (rewrite O2, E2; auto; intros K; apply (N5 x); auto).
        destruct (D3 x Hx l2 H2') as (o' & j' & A & B & D). exists o', j'. rewrite <- (org_of_same h h2 l2 F02). auto.
Qed.

Definition with_frame (l : lk) (f : frame F) : lk := l_set_body (body_set_frame (l_body l) f) l.
Lemma skipn6 (v : vec6 F) (t : list F) : skipn 6 (l6 v ++ t) = t. Proof. reflexivity. Qed.
Lemma rd6_l6 (v : vec6 F) (t : list F) : rd6 (l6 v ++ t) = Some v. Proof. destruct v as [[a b c] [d e g]]. reflexivity. Qed.
Lemma set_frames_get (hc : list lk) : forall h, List.length h = List.length hc -> (forall i l, nth_error hc i = Some l -> aa_exact (fatt (l_frame l))) ->
  exists h', set_frames h (flat_map (fun l => l6 (frame_to_aa (l_frame l))) hc) = Some h' /\ List.length h' = List.length h /\
    forall i l lc, nth_error h i = Some l -> nth_error hc i = Some lc -> nth_error h' i = Some (with_frame l (l_frame lc)).
Proof.
  induction hc as [|lc hc IH]; intros [|l h] LE AE; try discriminate LE.
  - exists []. repeat split. intros [|] ? ? H; discriminate H.
  - destruct (IH h) as (h' & A & B & D); [cbn in LE; lia|intros i; apply (AE (S i))|].
    cbn [flat_map set_frames]. rewrite rd6_l6, skipn6, A. cbn [obind]. eexists. split; [reflexivity|]. split; [cbn; lia|].
    intros [|i] l0 lc0 H0 Hc0; cbn in *; [|eauto]. injection H0 as <-. injection Hc0 as <-.
    unfold with_frame. f_equal. f_equal. f_equal. unfold aa_to_frame, frame_to_aa. cbn [vlin vang].
    rewrite (AE 0%nat lc eq_refl). now destruct (l_frame lc).
Qed.
Lemma fid_distortion t : distortion t (fid : frame F).
Proof.
  assert (T : tilt (v3zero : vec3 F)) by (left; reflexivity).
  assert (A : m3id = x_aa2m (v3zero : vec3 F)) by (symmetry; apply x_aa_0).
  assert (D : v3dot v3zero (mc2 (m3id : mat3 F)) = 0) by (apply v3dot_0_l).
  destruct t; cbn; auto; try (split; [exact D|]); try (exists v3zero; auto).
  exists 0. split; [|split; [apply nlt_le, x_pi_pos|exact A]].
  apply nlt_nle. intros K. pose proof (@x_pi_pos F N E EL) as P. apply nlt_nle in P. apply P.
  apply (nle_add _ _ x_pi) in K. replace (0 + x_pi) with (x_pi : F) in K by ring. replace (- x_pi + x_pi) with (0 : F) in K by ring. exact K.
Qed.
Lemma xform_fid (j : joint F) fo : cache_ok j -> joint_xform j fo = fcascade fo (joint_xform j fid).
Proof.
  intros K. destruct (cache_doc j fo K) as (f & D & ->). destruct (cache_doc j fid K) as (f' & D' & ->).
  rewrite fcascade_id_l. congruence.
Qed.
(** Chains with the same transformations have the same frames. *)
Lemma frames_alike (h h' : list lk) : frames_ok h -> frames_ok h' ->
  (forall i l, nth_error h i = Some l -> exists l', nth_error h' i = Some l' /\ l_parent l' = l_parent l /\ joint_xform (l_joint l') (l_org l') = joint_xform (l_joint l) (l_org l)) ->
  forall i t, lineage h i t -> exists l l', nth_error h i = Some l /\ nth_error h' i = Some l' /\ l_frame l' = l_frame l.
Proof.
  intros FR FR' EQ. induction 1 as [i l Hl Hp|i l q t Hl Hp H IH]; destruct (EQ i l Hl) as (l' & Hl' & EP & EX); exists l, l'; (split; [exact Hl|]); (split; [exact Hl'|]);
    destruct (FR i l Hl) as (A & _ & B); destruct (FR' i l' Hl') as (A' & _ & B'); rewrite EP, Hp in B'; rewrite Hp in B.
  - rewrite B, B', A, A', EX. reflexivity.
  - destruct IH as (lq & lq' & Q & Q' & EF). destruct B as (x & Hx & B). destruct B' as (x' & Hx' & B').
    assert (x = lq) by congruence. assert (x' = lq') by congruence. subst. rewrite B, B', A, A', EX, EF. reflexivity.
Qed.

Lemma conf_roundtrip (c c1 d : chain F) : well_formed (c_links c) -> orgs_rigid (c_links c) -> chain_update_frame c = Some c1 ->
  conf_ready c1 -> same_mechanism (c_links c) (c_links d) ->
  exists d1 d2, chain_set_conf d (chain_get_conf c1) = Some d1 /\ chain_update_frame d1 = Some d2 /\
    Forall2 (fun l l1 : lk => reads_back (jtype_of (l_joint l)) (joint_get_dis (l_joint l)) -> joint_get_dis (l_joint l1) = joint_get_dis (l_joint l)) (c_links c) (c_links d1) /\
    map l_frame (c_links d1) = map l_frame (c_links c1) /\ map l_frame (c_links d2) = map l_frame (c_links c1).
Proof.
  intros W OR UF CR SM. destruct (C24_frame_pass c W) as (c1' & A1 & P1 & W1). assert (c1' = c1) by congruence. subst c1'. clear A1.
  pose proof (pass_keeps _ _ P1) as K. pose proof (frames_of_pass _ _ P1) as FO.
  assert (LC : List.length (c_links c1) = List.length (c_links c)) by apply P1.
  assert (LD : List.length (c_links d) = List.length (c_links c)) by (symmetry; eapply Forall2_len; eauto).
  assert (KI : forall i l1, nth_error (c_links c1) i = Some l1 -> exists l ld, nth_error (c_links c) i = Some l /\ nth_error (c_links d) i = Some ld /\
     l_joint l1 = l_joint l /\ l_org l1 = l_org l /\ l_parent l1 = l_parent l /\
     l_parent ld = l_parent l /\ l_child ld = l_child l /\ l_sibl ld = l_sibl l /\ l_org ld = l_org l /\
     jtype_of (l_joint ld) = jtype_of (l_joint l) /\ same_limits (l_joint ld) (l_joint l)).
  { intros i l1 H1. destruct (nth_error (c_links c) i) as [l|] eqn:Hl; [|apply nth_error_None in Hl; pose proof (nth_lt _ _ _ H1); lia].
    destruct (K i l Hl) as (l' & Hl' & EJ & EO & EP & _). assert (l' = l1) by congruence. subst l'.
    destruct (Forall2_nth _ _ _ SM i l Hl) as (ld & Hd & SMl). exists l, ld. intuition. }
  assert (RG : forall i l1, nth_error (c_links c1) i = Some l1 -> cache_ok (l_joint l1) /\ stable (l_joint l1) /\ rigid (l_frame l1) /\ rigid (l_org l1)).
  { intros i l1 H1. destruct (CR i l1 H1) as (ST & _). destruct (settled_stable _ ST) as [S1 S2]. split; [exact S2|]. split; [exact S1|].
    destruct (KI i l1 H1) as (l & ld & Hl & _ & _ & EO & _).
    split; [|rewrite EO; eapply OR; eauto]. destruct (wf_lineage _ i W1 (nth_lt _ _ _ H1)) as (t & LT & _).
    destruct (frames_rigid (c_links c1)) with (i := i) (t := t) as (l' & Hl' & R1 & R2); auto.
    - intros k lx Hx. destruct (CR k lx Hx) as (STx & _). apply (settled_stable _ STx).
    - intros k lx Hx. destruct (KI k lx Hx) as (y & _ & Hy & _ & _ & EY & _). rewrite EY. eapply OR; eauto.
    - assert (l' = l1) by congruence. now subst. }
  destruct (set_frames_get (c_links c1) (c_links d)) as (h & SF & LH & HF); [lia|intros i l Hl; destruct (CR i l Hl) as (_ & _ & AX & _); exact AX|].
  (* the tree of d *)
  assert (WH : well_formed h).
  { eapply wf_of_refs; [|exact W]. apply forall2_nth_eq; [lia|]. intros i l Hl.
    destruct (K i l Hl) as (l1 & H1 & _). destruct (KI i l1 H1) as (l0 & ld & H0 & Hd & _ & _ & _ & E1 & E2 & E3 & _). assert (l0 = l) by congruence. subst l0.
    exists (with_frame ld (l_frame l1)). split; [apply (HF i ld l1 Hd H1)|]. repeat split; cbn; auto. }
  assert (HI : forall i x, nth_error h i = Some x -> exists l l1 ld, nth_error (c_links c) i = Some l /\ nth_error (c_links c1) i = Some l1 /\ nth_error (c_links d) i = Some ld /\
     x = with_frame ld (l_frame l1)).
  { intros i x Hx. assert (LT : (i < List.length (c_links c1))%nat) by (pose proof (nth_lt _ _ _ Hx); lia).
    destruct (nth_error (c_links c1) i) as [l1|] eqn:H1; [|apply nth_error_None in H1; lia].
    destruct (KI i l1 H1) as (l & ld & Hl & Hd & _). exists l, l1, ld. repeat split; auto. pose proof (HF i ld l1 Hd H1). congruence. }
  (* the displacement of each joint can be recovered *)
  assert (CAN : forall i x, nth_error h i = Some x -> exists org j l1, org_of h x = Some org /\ conf_joint x org = Some j /\
     nth_error (c_links c1) i = Some l1 /\ l_frame x = l_frame l1 /\ jtype_of j = jtype_of (l_joint l1) /\
     (forall f, joint_xform j f = joint_xform (l_joint l1) f) /\ (reads_back (jtype_of (l_joint l1)) (joint_get_dis (l_joint l1)) -> joint_get_dis j = joint_get_dis (l_joint l1)) /\
     cache_ok j /\ l_org x = l_org l1 /\ l_parent x = l_parent l1).
  { intros i x Hx. destruct (HI i x Hx) as (l & l1 & ld & Hl & H1 & Hd & EX).
    destruct (KI i l1 H1) as (l0 & ld0 & Hl0 & Hd0 & EJ & EO & EP & E1 & E2 & E3 & E4 & E5 & E6). assert (l0 = l) by congruence. assert (ld0 = ld) by congruence. subst l0 ld0.
    destruct (RG i l1 H1) as (CO & SB & RF & RO). destruct (FO i l1 H1) as (AD & _ & FRM).
    set (T := joint_xform (l_joint l1) fid) in *.
    assert (OG : exists org, org_of h x = Some org /\ rigid org /\ l_frame l1 = fcascade org T).
    { unfold org_of. rewrite EX. cbn [with_frame l_set_body l_parent l_org]. rewrite E1, E4, <- EP, <- EO. rewrite AD, (xform_fid _ _ CO) in FRM. fold T in FRM.
      destruct (l_parent l1) as [q|].
      - destruct FRM as (lq & Hq & FRM). destruct (KI q lq Hq) as (y & yd & _ & Hyd & _). rewrite (HF q yd lq Hyd Hq). cbn [option_map].
        eexists. split; [reflexivity|]. change (l_frame (with_frame yd (l_frame lq))) with (l_frame lq).
        split; [apply rigid_cascade; [apply (RG q lq Hq)|exact RO]|]. rewrite FRM. apply fcascade_assoc.
      - eexists. split; [reflexivity|]. split; [exact RO|]. rewrite FRM. apply fcascade_id_l. }
    destruct OG as (org & OG & RORG & FRM'). exists org.
    destruct (CR i l1 H1) as (_ & UP & _ & AX).
    destruct (torsion_recovers (l_joint l1) fid SB CO UP rigid_id (fid_distortion _)) as (t & ds & TT & _ & REC).
    { intros RA. destruct (cache_doc (l_joint l1) fid CO) as (f & DF & ->). rewrite fcascade_id_l. apply (AX RA f DF). }
    assert (JTx : jtype_of (l_joint x) = jtype_of (l_joint l1)) by (rewrite EX; cbn; congruence).
    destruct (REC (l_joint x)) as (k' & SD & JT & XF & GD).
    { exact JTx. } { rewrite EX. cbn. rewrite EJ. exact E6. }
    exists k', l1. split; [exact OG|]. split.
    { unfold conf_joint. rewrite JTx. replace (l_frame x) with (l_frame l1) by (rewrite EX; reflexivity). rewrite FRM', frel_cascade by exact RORG.
      fold T in TT. rewrite TT. cbn [obind]. exact SD. }
    split; [exact H1|]. split; [rewrite EX; reflexivity|]. split; [exact JT|]. split; [exact XF|]. split; [exact GD|].
    split; [eapply set_dis_cache; eauto|]. rewrite EX. cbn. split; congruence. }
  destruct WH as [kk TR]. pose proof TR as [RP _].
  destruct (conf_to_dis_spec (FCons 0 kk FNil) (c_fuel d) h None 0) as (h' & CD & FS & LE & _ & DN).
  { exact RP. } { eapply tree_nodup; eauto. } { rewrite (tree_size _ _ TR). unfold c_fuel. lia. }
  { intros i _ x Hx. destruct (CAN i x Hx) as (org & j & _ & A & B & _). eauto. }
  set (d1 := c_set_links h' d).
  assert (ALL : forall i l1, nth_error (c_links c1) i = Some l1 -> exists x', nth_error h' i = Some x' /\ l_frame x' = l_frame l1 /\ l_parent x' = l_parent l1 /\
     (forall f, joint_xform (l_joint x') f = joint_xform (l_joint l1) f) /\ l_org x' = l_org l1 /\
     (reads_back (jtype_of (l_joint l1)) (joint_get_dis (l_joint l1)) -> joint_get_dis (l_joint x') = joint_get_dis (l_joint l1)) /\
     exists x, nth_error h i = Some x /\ same_refs l_parent l_child l_sibl x x').
  { intros i l1 H1. destruct (KI i l1 H1) as (l & ld & _ & Hd & _). pose proof (HF i ld l1 Hd H1) as Hx.
    assert (IN : In i (ids (FCons 0 kk FNil))) by (apply (tree_in h kk i TR); eapply nth_lt; eauto).
    destruct (DN i IN _ Hx) as (org & j & A & B & D). destruct (CAN i _ Hx) as (org' & j' & l1' & A' & B' & H1' & EF & EJ & EXF & EGD & _ & EO & EP).
    assert (l1' = l1) by congruence. subst l1'. assert (org' = org) by congruence. subst org'. assert (j' = j) by congruence. subst j'.
    eexists. split; [exact D|]. split; [exact EF|]. split; [exact EP|]. split; [exact EXF|]. split; [exact EO|]. split; [exact EGD|].
    exists (with_frame ld (l_frame l1)). split; [exact Hx|]. repeat split. }
  assert (W' : well_formed h').
  { eapply wf_of_refs; [|exists kk; exact TR]. apply forall2_nth_eq; [lia|]. intros i x Hx. destruct (HI i x Hx) as (_ & l1 & _ & _ & H1 & _).
    destruct (ALL i l1 H1) as (x' & Hx' & _ & _ & _ & _ & _ & x0 & Hx0 & SR). assert (x0 = x) by congruence. subst x0. eauto. }
  destruct (C24_frame_pass d1 W') as (d2 & U2 & P2 & W2).
  exists d1, d2. split; [|split; [exact U2|]].
  { unfold chain_set_conf, chain_get_conf. rewrite SF. cbn [obind]. rewrite CD. reflexivity. }
  assert (MAP : forall hx : list lk, List.length hx = List.length (c_links c1) ->
     (forall i l1, nth_error (c_links c1) i = Some l1 -> exists x', nth_error hx i = Some x' /\ l_frame x' = l_frame l1) -> map l_frame hx = map l_frame (c_links c1)).
  { intros hx LX HX. assert (G : Forall2 (fun a b : lk => l_frame b = l_frame a) (c_links c1) hx) by (apply forall2_nth_eq; [auto|exact HX]).
    clear - G. induction G; cbn; [reflexivity|]. now f_equal. }
  split; [|split].
  - apply forall2_nth_eq; [cbn; lia|]. intros i l Hl. destruct (K i l Hl) as (l1 & H1 & EJ & _).
    destruct (ALL i l1 H1) as (x' & Hx' & _ & _ & _ & _ & GD & _). exists x'. split; [exact Hx'|]. rewrite <- EJ. exact GD.
  - apply MAP; [cbn; lia|]. intros i l1 H1. destruct (ALL i l1 H1) as (x' & Hx' & EF & _). eauto.
  - pose proof (frames_of_pass _ _ P2) as FO2. pose proof (pass_keeps _ _ P2) as K2. assert (L2 : List.length (c_links d2) = List.length h') by apply P2.
    apply MAP; [lia|]. intros i l1 H1. destruct (wf_lineage _ i W1 (nth_lt _ _ _ H1)) as (t & LT & _).
    destruct (frames_alike (c_links c1) (c_links d2) FO FO2) with (i := i) (t := t) as (y & y' & Hy & Hy' & EF); [|exact LT|assert (y = l1) by congruence; subst; eauto].
    intros q z Hz. destruct (ALL q z Hz) as (x' & Hx' & _ & EP & EX & EO & _). destruct (K2 q x' Hx') as (z' & Hz' & EJ2 & EO2 & EP2 & _).
    exists z'. split; [exact Hz'|]. split; [congruence|]. rewrite EJ2, EO2, EO. apply EX.
Qed.
End S.
