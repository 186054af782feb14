(** * Urdf_Properties: C84-C86 (conversion of URDF robot descriptions). *)
From Coq Require Import Bool String List ZArith Arith Lia QArith Qcanon Field.
From Verif Require Import Num NumFacts Vec VecFacts Motor_Model Joint_Model Joint_Spec Joint_Proofs Body_Model Body_Proofs Tree Tree_Proofs Link_Model Link_Spec Link_Proofs Chain_Proofs Kin_Spec Kin_Proofs Jacobi_Proofs IK_Model Conf_Model Ztk_Model Ztk_Spec Ztk_Proofs Ztk_Chain ExtQ Urdf_Model Urdf_Spec Urdf_Tree Urdf_Doc Urdf_Walk Urdf_Read Urdf_Proofs Urdf_Pose Urdf_Q.
Import ListNotations.

Section P.
Context {F : Type} {N : Num F} {L : NumLaws F N} {E : Ext F} {X : ExtLaws F N E} {Z : ZtkLib} {U : UrdfExt F}.
Add Field FFieldUP : num_field.
Local Ltac vring := intros; vdestruct; vunfold; vsplit; ring.
Local Open Scope num_scope.

(** C84: every tree of links and joints is converted to a file that reads as a chain with the same names and the same
    tree; the bodies have the shapes of the visual elements, the last one first. *)
Theorem C84_structure (g : F) (d : udoc F) : valid_doc d ->
  exists o rb, urdf2ztk (doc_xml d) = Some (Some o) /\ robot_read g (uo_file o) = Some (Some rb) /\
    rb_name rb = Some (d_name d) /\ well_formed (c_links (rb_chain rb)) /\
    map l_name (c_links (rb_chain rb)) = map dl_name (d_links d) /\
    (forall x k, In x (d_joints d) -> In k (c_links (rb_chain rb)) -> l_name k = dj_child x ->
       exists p q, l_parent k = Some p /\ nth_error (c_links (rb_chain rb)) p = Some q /\ l_name q = dj_parent x) /\
    (forall l k, In l (d_links d) -> In k (c_links (rb_chain rb)) -> l_name k = dl_name l ->
       map (nth_error (rb_shapes rb)) (b_shapes (l_body k)) = map Some (rev (visual_names l))).
Proof.
  intros V. destruct (convert g d V) as (o & rb & HC & HR & NM & _ & _ & W & LN & CV & _). exists o, rb.
  repeat (split; [assumption|]). split; [exact (conv_names g d V o rb HC HR)|]. split; [exact (conv_parents g d V o rb HC HR)|].
  intros l k Il Ik Q. apply In_nth_error in Il as (i & Hl). apply In_nth_error in Ik as (j & Hk). pose proof V as (_ & ND & _).
  assert (j = i).
  { apply (NoDup_nth_error (map dl_name (d_links d))); [exact ND| |].
    - rewrite map_length, <- LN. eapply nth_lt; eauto.
    - rewrite <- (conv_names g d V o rb HC HR) at 1. rewrite !nth_error_map, Hk, Hl. cbn. now rewrite Q. }
  subst j. rewrite <- vis_names_eq. apply (cv_shapes _ _ _ _ _ _ (CV i l k Hl Hk)).
Qed.

(** C84: with the supported joint types, and when turning a joint's frame about axes of the first link makes its z axis the
    joint axis, every link of the chain is, at any displacement, where the document says, but for a turn of its
    frame that does not depend on the displacement and makes the z axis the joint axis. *)
Theorem C84_poses_partial (g : F) (d : udoc F) o rb : valid_doc d -> convertible_doc d -> axes_turn d -> joints_exact d ->
  urdf2ztk (doc_xml d) = Some (Some o) -> robot_read g (uo_file o) = Some (Some rb) ->
  forall l, In l (d_links d) -> exists r, link_turn d l r /\
    forall v c' k, chain_fk (rb_chain rb) v = Some c' -> In k (c_links c') -> l_name k = dl_name l ->
    exists f, upose d (dis_of (c_links c')) (dl_name l) f /\ l_frame k = fcascade f (Fr v3zero r).
Proof.
  intros V TY AT EX HC HR l Il. destruct (link_shift d V AT l Il) as (e & b & HE & TB & LT). exists (shift e b). split; [exact LT|].
  intros v c' k FK Ik Q. destruct (fk_pose g d V o rb HC HR TY AT EX v c' l k FK Il Ik Q) as (f & UP & FR). exists f. split; [exact UP|]. exact (FR e b HE TB).
Qed.

(** C84: so do the shapes: the section that has the name of a visual element places it where the document says. *)
Theorem C84_shapes_partial (g : F) (d : udoc F) o rb : valid_doc d -> convertible_doc d -> axes_turn d -> joints_exact d -> visuals_exact d ->
  NoDup (flat_map visual_names (d_links d)) ->
  urdf2ztk (doc_xml d) = Some (Some o) -> robot_read g (uo_file o) = Some (Some rb) ->
  forall l n y, In l (d_links d) -> nth_error (dl_visuals l) n = Some y ->
  exists ks, find (fun s => String.eqb (fst s) (vis_name (dl_name l) n y)) (uo_shapes o) = Some (vis_name (dl_name l) n y, ks) /\
    forall v c' k, chain_fk (rb_chain rb) v = Some c' -> In k (c_links c') -> l_name k = dl_name l ->
    exists f, upose d (dis_of (c_links c')) (dl_name l) f /\ fcascade (l_frame k) (section_frame ks) = fcascade f (origin_frame (vi_origin y)).
Proof.
  intros V TY AT EX VX ND HC HR l n y Il Hy. destruct (conv_facts g d V o rb HC HR) as (_ & _ & SN & _ & _ & _ & VS).
  destruct (VS l n y Il Hy) as (e & b & HE & TB & IN). exists (frame_keys (frel b (fcascade e (origin_frame (vi_origin y))))). split.
  - assert (ND' : NoDup (map fst (uo_shapes o))) by (rewrite SN; rewrite (flat_map_ext vis_names visual_names); [exact ND|apply vis_names_eq]).
    revert IN ND'. generalize (vis_name (dl_name l) n y) as s, (frame_keys (frel b (fcascade e (origin_frame (vi_origin y))))) as ks. intros s ks. clear. induction (uo_shapes o) as [|[s' ks'] t IH]; [intros []|].
    cbn [map find fst In]. intros [Q|I] ND.
    + injection Q as -> ->. now rewrite String.eqb_refl.
    + inversion ND as [|? ? NI ND']. destruct (String.eqb_spec s' s) as [->|_]; [|auto]. exfalso. apply NI. change s with (fst (s, ks)). now apply in_map.
  - intros v c' k FK Ik Q. destruct (fk_pose g d V o rb HC HR TY AT EX v c' l k FK Il Ik Q) as (f & UP & FR). exists f. split; [exact UP|].
    rewrite frame_back_section, (frame_back_exact _ (VX l y e b Il (nth_error_In _ _ Hy) HE TB)), (FR e b HE TB).
    rewrite <- (shift_frel e b (home_rigid _ _ _ HE) (turned_pos d V _ _ _ HE TB)), <- fcascade_assoc. f_equal.
    rewrite frel_inv, <- fcascade_assoc, frel_spec by exact (turned_rigid _ _ _ TB). rewrite <- frel_inv. apply frel_cascade. exact (home_rigid _ _ _ HE).
Qed.

(** The turning condition holds when no origin of a joint is rotated and the axes are unit vectors other than -z. *)
Lemma home_unrotated d n f : unrotated d -> home d n f -> fatt f = m3id.
Proof.
  intros UR. induction 1 as [l rest HL|x fp I _ IH]; [reflexivity|]. unfold fcascade, origin_frame. cbn [fatt]. rewrite IH, (UR x I), m3mul_id_l. cbn [v3zero vx vy vz].
  unfold m3zyx. rewrite x_sin0, x_cos0. clear -L. vring.
Qed.
Theorem C84_unrotated {UL : UrdfLaws F N E U} (d : udoc F) : unrotated d ->
  (forall x, In x (d_joints d) -> has_axis (dj_type x) = true -> v3sqr (axis_of x) = 1 /\ axis_of x <> V3 0 0 (- (1))) -> axes_turn d.
Proof.
  intros UR AX x f I HA HF. destruct (AX x I HA) as (A1 & A2). rewrite (home_unrotated d _ f UR HF). rewrite !m3v_id. unfold align. rewrite HA. apply x_vaaerr_turns; [vring|exact A1|].
  intros Q. apply A2. destruct (axis_of x) as [a b c]. injection Q as Q1 Q2 Q3. f_equal; cbn in *.
  - rewrite <- Q1. ring.
  - rewrite <- Q2. ring.
  - transitivity ((1 + c) - 1); [ring|]. rewrite Q3. ring.
Qed.

(** C85: the mass of every link is kept, and all mass properties of the first link. *)
Theorem C85_mass (g : F) (d : udoc F) o rb : valid_doc d -> urdf2ztk (doc_xml d) = Some (Some o) -> robot_read g (uo_file o) = Some (Some rb) ->
  forall i l k, nth_error (d_links d) i = Some l -> nth_error (c_links (rb_chain rb)) i = Some k ->
  l_name k = dl_name l /\ mp_mass (b_mp (l_body k)) = mp_mass (lmp l) /\ (i = 0%nat -> mass_exact l -> b_mp (l_body k) = lmp l).
Proof.
  intros V HC HR i l k Hl Hk. destruct (conv_facts g d V o rb HC HR) as (_ & _ & _ & _ & _ & CV & _). pose proof (CV i l k Hl Hk) as CC. split; [apply (cv_name _ _ _ _ _ _ CC)|].
  assert (M : forall m, mp_mass (mp_back m) = mp_mass m).
  { intros m. unfold mp_back. destruct (andb _ _) eqn:Q; [|reflexivity]. apply andb_prop in Q as [Q1 Q2]. symmetry. apply nle_antisym; assumption. }
  destruct (link_cases d V l i Hl) as [[-> _]|[NZ (x & I & Q)]].
  - destruct (cv_root _ _ _ _ _ _ CC eq_refl) as (_ & _ & _ & _ & B). rewrite B. split; [apply M|]. intros _ (M1 & M2). apply mp_back_exact; assumption.
  - destruct (cv_child _ _ _ _ _ _ CC x I Q) as (_ & _ & a & b & e & _ & _ & _ & _ & _ & B). rewrite B. split; [rewrite M; reflexivity|]. intros ->. now contradict NZ.
Qed.

(** C85: a link whose parent's frame is not turned against the first link, and whose center of mass its own turn leaves alone,
    has its center of mass and inertia tensor in the world where the document says. *)
Theorem C85_world_partial (g : F) (d : udoc F) o rb : valid_doc d -> convertible_doc d -> axes_turn d -> joints_exact d ->
  urdf2ztk (doc_xml d) = Some (Some o) -> robot_read g (uo_file o) = Some (Some rb) ->
  forall x l, In x (d_joints d) -> In l (d_links d) -> dj_child x = dl_name l -> mass_exact l ->
  (forall a, turned d (dj_parent x) a -> fatt a = m3id) ->
  (forall e, home d (dl_name l) e -> m3v (align x) (m3v (fatt e) (mp_com (lmp l))) = m3v (fatt e) (mp_com (lmp l))) ->
  forall v c' k, chain_fk (rb_chain rb) v = Some c' -> In k (c_links c') -> l_name k = dl_name l ->
  exists f, upose d (dis_of (c_links c')) (dl_name l) f /\ mp_mass (b_mp (l_body k)) = mp_mass (lmp l) /\
    xform (l_frame k) (mp_com (b_mp (l_body k))) = xform f (mp_com (lmp l)) /\
    m3rot (fatt (l_frame k)) (mp_inertia (b_mp (l_body k))) = m3rot (fatt f) (mp_inertia (lmp l)).
Proof.
  intros V TY AT EX HC HR x l Ix Il Q (M1 & M2) PA CA v c' k FK Ik QN. destruct (fk_pose g d V o rb HC HR TY AT EX v c' l k FK Il Ik QN) as (f & UP & FR). exists f. split; [exact UP|].
  destruct (conv_facts g d V o rb HC HR) as (_ & _ & _ & W & LN & CV & _). destruct (fk_keeps _ _ _ W (fun i k => conv_cache g d V o rb HC HR i k) FK) as (LE & _ & _ & KE).
  apply In_nth_error in Il as (i & Hl). apply In_nth_error in Ik as (j & Hk). pose proof V as (_ & ND & _).
  destruct (nth_same_len (c_links c') (c_links (rb_chain rb)) j k ltac:(congruence) Hk) as (k0 & Hk0).
  destruct (KE j k0 Hk0) as (k' & Hk' & KN & _ & _ & _ & KB). assert (k' = k) by congruence. subst k'.
  assert (j = i).
  { apply (NoDup_nth_error (map dl_name (d_links d))); [exact ND| |].
    - rewrite map_length, <- LN. eapply nth_lt; eauto.
    - rewrite <- (conv_names g d V o rb HC HR) at 1. rewrite !nth_error_map, Hk0, Hl. cbn. now rewrite <- QN, KN. }
  subst j. destruct (cv_child _ _ _ _ _ _ (CV i l k0 Hl Hk0) x Ix Q) as (_ & _ & a & b & e & TA & HE & TB & BE & _ & B).
  rewrite mp_back_exact in B by assumption. rewrite KB, B. cbn [mp_mass mp_com mp_inertia]. split; [reflexivity|].
  rewrite Q in HE, TB. rewrite (FR e b HE TB). pose proof (PA a TA) as AA. pose proof (CA e HE) as CE. pose proof (home_rigid _ _ _ HE) as RE. pose proof (turned_rigid _ _ _ TB) as RB.
  assert (AB : fatt (frel a b) = fatt b) by (unfold frel; cbn [fatt]; rewrite AA; replace (m3tr m3id) with (m3id (F:=F)) by vring; apply m3mul_id_l).
  rewrite AB. split.
  - rewrite xform_cascade. f_equal. unfold xform. cbn [fpos fatt]. unfold shift. rewrite m3mul_v, <- m3tv_tr. rewrite BE. cbn [fatt]. rewrite m3mul_v, CE, rot_tv_v by exact RE. generalize (mp_com (lmp l)). clear -L. vring.
  - unfold fcascade. cbn [fatt]. unfold shift. rewrite !m3rot_mul. f_equal. rewrite m3rot_rotinv by exact RB. unfold m3rot. rewrite <- !m3mul_assoc.
    rewrite (m3tr_tr (fatt e)). set (R := fatt e). assert (T1 : m3mul (m3tr R) R = m3id) by (apply rotation_tr_mul; exact RE).
    transitivity (m3mul (m3mul (m3tr R) R) (m3mul (mp_inertia (lmp l)) (m3mul (m3tr R) R))); [rewrite <- !m3mul_assoc; reflexivity|]. now rewrite T1, m3mul_id_l, m3mul_id_r.
Qed.

(** C85: when no origin is rotated and the axes are the z axis, the chain has the frames and the mass properties of the document. *)
Theorem C85_straight_partial {UL : UrdfLaws F N E U} (g : F) (d : udoc F) o rb : valid_doc d -> convertible_doc d -> unrotated d ->
  (forall x, In x (d_joints d) -> has_axis (dj_type x) = true -> axis_of x = ez) -> joints_exact d ->
  urdf2ztk (doc_xml d) = Some (Some o) -> robot_read g (uo_file o) = Some (Some rb) ->
  forall l v c' k, In l (d_links d) -> chain_fk (rb_chain rb) v = Some c' -> In k (c_links c') -> l_name k = dl_name l ->
  upose d (dis_of (c_links c')) (dl_name l) (l_frame k) /\ (mass_exact l -> b_mp (l_body k) = lmp l).
Proof.
  intros V TY UR AX EX HC HR l v c' k Il FK Ik QN.
  assert (AI : forall x, In x (d_joints d) -> align x = m3id).
  { intros x I. unfold align. destruct (has_axis (dj_type x)) eqn:HA; [|reflexivity]. now rewrite (AX x I HA), x_vaaerr_self, x_aa_0. }
  assert (AT : axes_turn d). { intros x f I HA HF. now rewrite (AI x I), (AX x I HA), m3v_id. }
  assert (TI : forall n b, turned d n b -> fatt b = m3id).
  { intros n b H. destruct H as [l0 rest HL|x f I HF]; [reflexivity|]. cbn [fatt]. rewrite (AI x I), (home_unrotated d _ f UR HF). apply m3mul_id_l. }
  destruct (fk_pose g d V o rb HC HR TY AT EX v c' l k FK Il Ik QN) as (f & UP & FR).
  pose proof V as (_ & _ & _ & _ & RE & _). destruct (turned_ex d V _ (RE l Il)) as (e & b & HE & TB & _). split.
  - rewrite (FR e b HE TB). unfold shift. rewrite (home_unrotated d _ e UR HE), (TI _ b TB). replace (Fr v3zero (m3mul (m3tr m3id) m3id)) with (fid (F:=F)) by vring. now rewrite fcascade_id_r.
  - intros (M1 & M2). destruct (conv_facts g d V o rb HC HR) as (_ & _ & _ & W & LN & CV & _). destruct (fk_keeps _ _ _ W (fun i k => conv_cache g d V o rb HC HR i k) FK) as (LE & _ & _ & KE).
    apply In_nth_error in Il as (i & Hl). apply In_nth_error in Ik as (j & Hk). pose proof V as (_ & ND & _).
    destruct (nth_same_len (c_links c') (c_links (rb_chain rb)) j k ltac:(congruence) Hk) as (k0 & Hk0).
    destruct (KE j k0 Hk0) as (k' & Hk' & KN & _ & _ & _ & KB). assert (k' = k) by congruence. subst k'.
    assert (j = i).
    { apply (NoDup_nth_error (map dl_name (d_links d))); [exact ND| |].
      - rewrite map_length, <- LN. eapply nth_lt; eauto.
      - rewrite <- (conv_names g d V o rb HC HR) at 1. rewrite !nth_error_map, Hk0, Hl. cbn. now rewrite <- QN, KN. }
    subst j. rewrite KB. destruct (link_cases d V l i Hl) as [[-> _]|[_ (x & I & Q)]].
    + destruct (cv_root _ _ _ _ _ _ (CV _ l k0 Hl Hk0) eq_refl) as (_ & _ & _ & _ & ->). apply mp_back_exact; assumption.
    + destruct (cv_child _ _ _ _ _ _ (CV i l k0 Hl Hk0) x I Q) as (_ & _ & a & b1 & e1 & TA & HE1 & TB1 & _ & _ & ->).
      rewrite mp_back_exact by assumption. rewrite (home_unrotated d _ e1 UR HE1). unfold frel. cbn [fatt]. rewrite (TI _ a TA), (TI _ b1 TB1). destruct (lmp l) as [m c t]. cbn [mp_mass mp_com mp_inertia]. f_equal. clear -L. vring.
Qed.

(** C86: the limits of a joint are kept when they are written as attributes. *)
Lemma back_at (g : F) (d : udoc F) o rb : valid_doc d -> urdf2ztk (doc_xml d) = Some (Some o) -> robot_read g (uo_file o) = Some (Some rb) ->
  forall x k, In x (d_joints d) -> In k (c_links (rb_chain rb)) -> l_name k = dj_child x -> joint_back (dj_type x) (lower_of x) (upper_of x) (l_joint k).
Proof.
  intros V HC HR x k I Ik Q. apply In_nth_error in Ik as (i & Hk). destruct (conv_links g d V o rb HC HR i k Hk) as (l & Hl & CC).
  apply (cv_child _ _ _ _ _ _ CC x I). now rewrite <- (cv_name _ _ _ _ _ _ CC).
Qed.
Theorem C86_limits_partial (g : F) (d : udoc F) o rb : valid_doc d -> urdf2ztk (doc_xml d) = Some (Some o) -> robot_read g (uo_file o) = Some (Some rb) ->
  forall x k lo up, In x (d_joints d) -> In k (c_links (rb_chain rb)) -> l_name k = dj_child x -> urange x = Some (lo, up) ->
  (dj_type x = UContinuous -> lower_of x = None /\ upper_of x = None) -> (dj_type x <> UContinuous -> lower_of x <> None /\ upper_of x <> None) ->
  joint_get_min (l_joint k) = [lo] /\ joint_get_max (l_joint k) = [up].
Proof.
  intros V HC HR x k lo up I Ik Q UR C1 C2. pose proof (back_at g d o rb V HC HR x k I Ik Q) as (_ & _ & B).
  unfold urange in UR. destruct (dj_type x) eqn:T; try discriminate; destruct (B eq_refl) as (-> & -> & _).
  2: { injection UR as <- <-. destruct (C1 eq_refl) as [-> ->]. auto. }
  all: destruct (C2 ltac:(discriminate)) as [N1 N2]; unfold lower_of, upper_of in *; destruct (dj_limit x) as [[[a|] [b|]]|]; try (exfalso; apply N1; reflexivity); try (exfalso; apply N2; reflexivity);
    injection UR as <- <-; auto.
Qed.
(** The element dynamics is compared with the name dynamic: damping and friction are lost. *)
Theorem C86_dynamics_refuted (g : F) (d : udoc F) o rb : valid_doc d -> urdf2ztk (doc_xml d) = Some (Some o) -> robot_read g (uo_file o) = Some (Some rb) ->
  forall x k damping friction, In x (d_joints d) -> In k (c_links (rb_chain rb)) -> l_name k = dj_child x -> has_axis (dj_type x) = true ->
  dj_dynamics x = Some (damping, friction) ->
  joint_get_gen a_visc sp_aa fl_dis (l_joint k) = [0] /\ joint_get_gen a_coul sp_aa fl_dis (l_joint k) = [0].
Proof. intros V HC HR x k dp fr I Ik Q HA _. destruct (back_at g d o rb V HC HR x k I Ik Q) as (_ & _ & B). destruct (B HA) as (_ & _ & A). exact A. Qed.
(** The type floating is compared with the name float, and planar is not known: such joints become fixed. *)
Theorem C86_type_refuted (g : F) (d : udoc F) o rb : valid_doc d -> urdf2ztk (doc_xml d) = Some (Some o) -> robot_read g (uo_file o) = Some (Some rb) ->
  forall x k, In x (d_joints d) -> In k (c_links (rb_chain rb)) -> l_name k = dj_child x -> dj_type x = UFloating \/ dj_type x = UPlanar ->
  jtype_of (l_joint k) = TFixed.
Proof. intros V HC HR x k I Ik Q T. destruct (back_at g d o rb V HC HR x k I Ik Q) as (J & _). rewrite J. destruct T as [-> | ->]; reflexivity. Qed.
(** A limit that is left out, zero by the standard, becomes unlimited; a continuous joint gets limits. *)
Theorem C86_default_limit_refuted (g : F) (d : udoc F) o rb : valid_doc d -> urdf2ztk (doc_xml d) = Some (Some o) -> robot_read g (uo_file o) = Some (Some rb) ->
  forall x k up, In x (d_joints d) -> In k (c_links (rb_chain rb)) -> l_name k = dj_child x -> dj_type x = URevolute -> dj_limit x = Some (None, Some up) ->
  urange x = Some (Some 0, Some up) /\ joint_get_min (l_joint k) = [None].
Proof.
  intros V HC HR x k up I Ik Q T LM. destruct (back_at g d o rb V HC HR x k I Ik Q) as (_ & _ & B). rewrite T in B. destruct (B eq_refl) as (-> & _). unfold urange, lower_of. rewrite T, LM. auto.
Qed.
Theorem C86_continuous_refuted (g : F) (d : udoc F) o rb : valid_doc d -> urdf2ztk (doc_xml d) = Some (Some o) -> robot_read g (uo_file o) = Some (Some rb) ->
  forall x k lo up, In x (d_joints d) -> In k (c_links (rb_chain rb)) -> l_name k = dj_child x -> dj_type x = UContinuous -> dj_limit x = Some (Some lo, Some up) ->
  urange x = Some (None, None) /\ joint_get_min (l_joint k) = [Some lo] /\ joint_get_max (l_joint k) = [Some up].
Proof.
  intros V HC HR x k lo up I Ik Q T LM. destruct (back_at g d o rb V HC HR x k I Ik Q) as (_ & _ & B). rewrite T in B. destruct (B eq_refl) as (-> & -> & _). unfold urange, lower_of, upper_of. rewrite T, LM. auto.
Qed.
End P.

(** ** Examples and witnesses *)
Definition qz (z : Z) : Qc := Q2Qc (inject_Z z).
Definition qq (n : Z) (d : positive) : Qc := Q2Qc (n # d).
Definition v3c (v : vec3 Qc) : list Qc := [vx v; vy v; vz v].
Definition frc (f : frame Qc) : list Qc := v3c (fpos f) ++ v3c (mc0 (fatt f)) ++ v3c (mc1 (fatt f)) ++ v3c (mc2 (fatt f)).
Definition q3 (x y z : Z) : vec3 Qc := V3 (qz x) (qz y) (qz z).
Definition org (x y z : Z) : origin Qc := Org (q3 x y z) v3zero.
Section Run.
Context (Z : ZtkLib).
Definition urun (d : udoc Qc) (v : list Qc) : option (urdf_out Qc * robot Qc * chain Qc) :=
  match urdf2ztk (doc_xml d) with
  | Some (Some o) => match robot_read (qz 10) (uo_file o) with Some (Some rb) => option_map (fun c => (o, rb, c)) (chain_fk (rb_chain rb) v) | _ => None end
  | _ => None
  end.
Lemma urun_some d v o rb c : urun d v = Some (o, rb, c) ->
  urdf2ztk (doc_xml d) = Some (Some o) /\ robot_read (qz 10) (uo_file o) = Some (Some rb) /\ chain_fk (rb_chain rb) v = Some c.
Proof.
  unfold urun. intros H. destruct (urdf2ztk (doc_xml d)) as [[o'|]|] eqn:A; try discriminate. destruct (robot_read (qz 10) (uo_file o')) as [[rb'|]|] eqn:B; try discriminate.
  destruct (chain_fk (rb_chain rb') v) as [c'|] eqn:C; [|discriminate]. cbn [option_map] in H. assert (Q : (o', rb', c') = (o, rb, c)) by congruence. inversion Q. subst. auto.
Qed.
Lemma urun_at d v i n (view : urdf_out Qc -> robot Qc -> chain Qc -> link Qc -> list (list Qc)) res :
  match urun d v with Some (o, rb, c) => match nth_error (c_links c) i with Some k => String.eqb (l_name k) n && qlbs (view o rb c k) res | None => false end | None => false end = true ->
  exists o rb c k, urdf2ztk (doc_xml d) = Some (Some o) /\ robot_read (qz 10) (uo_file o) = Some (Some rb) /\ chain_fk (rb_chain rb) v = Some c /\
    In k (c_links c) /\ l_name k = n /\ view o rb c k = res.
Proof.
  destruct (urun d v) as [[[o rb] c]|] eqn:R; [|discriminate]. destruct (nth_error (c_links c) i) as [k|] eqn:K; [|discriminate]. intros H. apply andb_prop in H as [H1 H2]. destruct (urun_some _ _ _ _ _ R) as (A & B & C).
  exists o, rb, c, k. repeat (split; [assumption|]). split; [eapply nth_error_In; eauto|]. split; [now apply String.eqb_eq|now apply qlbs_eq].
Qed.
End Run.

(** A base with a slide along x, a hinge about the direction (3, 0, 4)/5 on it, and a plate fixed to that. *)
Definition uarm : udoc Qc := Doc "arm"
  [DL "base" (Some (Inert (org 0 0 1) (qz 5) (qz 1) (qz 0) (qz 0) (qz 2) (qz 0) (qz 3))) [Vis None (org 0 0 1) "box"];
   DL "slide" (Some (Inert (org 0 2 0) (qz 2) (qz 1) (qz 0) (qz 0) (qz 2) (qz 0) (qz 3))) [Vis (Some "bar"%string) (org 1 2 3) "box"; Vis None (org 3 0 0) "sphere"];
   DL "hinge" None [];
   DL "plate" None [Vis (Some "plate"%string) (org 0 1 0) "cylinder"]]
  [DJ "j1" UPrismatic (org 1 0 0) "base" "slide" (Some (q3 1 0 0)) (Some (Some (qz (-1)), Some (qz 4))) (Some (qz 7, qz 8));
   DJ "j3" UFixed (org 0 0 2) "hinge" "plate" None None None;
   DJ "j2" URevolute (org 0 3 0) "slide" "hinge" (Some (V3 (qq 3 5) (qz 0) (qq 4 5))) (Some (None, Some (qz 2))) None].

Local Ltac lst := cbn; intuition (subst; try discriminate; auto).
Lemma uarm_valid : valid_doc uarm.
Proof.
  split; [discriminate|]. split; [repeat (constructor; [cbn; intuition discriminate|]); constructor|]. split; [repeat (constructor; [cbn; intuition discriminate|]); constructor|].
  split; [intros j [<-|[<-|[<-|[]]]]; cbn; auto 8|].
  assert (R0 : reaches uarm "base") by (apply (re_root uarm (DL "base" (Some (Inert (org 0 0 1) (qz 5) (qz 1) (qz 0) (qz 0) (qz 2) (qz 0) (qz 3))) [Vis None (org 0 0 1) "box"]) (tl (d_links uarm))); reflexivity).
  assert (R1 : reaches uarm "slide") by (apply (re_child uarm (nth 0 (d_joints uarm) (DJ "" UFixed (org 0 0 0) "" "" None None None))); [left; reflexivity|exact R0]).
  assert (R2 : reaches uarm "hinge") by (apply (re_child uarm (nth 2 (d_joints uarm) (DJ "" UFixed (org 0 0 0) "" "" None None None))); [right; right; left; reflexivity|exact R1]).
  assert (R3 : reaches uarm "plate") by (apply (re_child uarm (nth 1 (d_joints uarm) (DJ "" UFixed (org 0 0 0) "" "" None None None))); [right; left; reflexivity|exact R2]).
  split; [intros l [<-|[<-|[<-|[<-|[]]]]]; assumption|].
  split; [intros j l rest [<-|[<-|[<-|[]]]] Q; injection Q as <- _; discriminate|].
  intros l v [<-|[<-|[<-|[<-|[]]]]]; cbn [dl_visuals In]; intros HV; repeat (destruct HV as [<-|HV]; [cbn; auto|]); destruct HV.
Qed.
Lemma uarm_convertible : convertible_doc uarm.
Proof. intros x [<-|[<-|[<-|[]]]]; reflexivity. Qed.
Lemma uarm_turn : axes_turn uarm.
Proof.
  apply C84_unrotated; [intros x [<-|[<-|[<-|[]]]]; reflexivity|]. intros x [<-|[<-|[<-|[]]]] HA; try discriminate HA; (split; [apply qeq; vm_compute; reflexivity|]); intros Q; apply (f_equal (fun v : vec3 Qc => vx v)) in Q; revert Q; apply qne; vm_compute; reflexivity.
Qed.
Lemma uarm_exact : joints_exact uarm /\ visuals_exact uarm.
Proof. split; repeat intro; apply qprints. Qed.
Lemma uarm_names : NoDup (flat_map visual_names (d_links uarm)).
Proof. vm_compute. repeat (constructor; [cbn; intuition discriminate|]). constructor. Qed.
(** The position of the plate and its y axis, which are those of the hinge turned about its axis by 90 degrees. *)
Definition uview (r : urdf_out Qc * robot Qc * chain Qc) : list (list Qc) :=
  let '(o, rb, c) := r in
  map (fun l => v3c (fpos (l_frame l))) (c_links c) ++ map (fun l => dis_of (c_links c) (l_name l)) (c_links c) ++
  map (fun l => v3c (mc2 (fatt (l_frame l)))) (c_links c) ++ map (fun s => v3c (fpos (section_frame (snd s)))) (uo_shapes o).
Example C84_ex (Z : ZtkLib) : exists r, urun Z uarm [qz 2; qz 1] = Some r /\
  uview r = [v3c (q3 0 0 0); v3c (q3 3 0 0); v3c (q3 3 3 0); [qq 99 25; qq 9 5; qq 32 25]] ++ [[]; [qz 2]; [qz 1]; []] ++
            [v3c (q3 0 0 1); v3c (q3 1 0 0); [qq 3 5; qz 0; qq 4 5]; [qq 12 25; qq (-3) 5; qq 16 25]] ++
            [v3c (q3 0 0 1); v3c (q3 (-3) 2 1); v3c (q3 0 0 3); v3c (q3 0 1 0)].
Proof. apply (some_exq _ uview). destruct Z. vm_compute. reflexivity. Qed.
Example C84_ex_meant : valid_doc uarm /\ convertible_doc uarm /\ axes_turn uarm /\ joints_exact uarm /\ visuals_exact uarm /\ NoDup (flat_map visual_names (d_links uarm)).
Proof. exact (conj uarm_valid (conj uarm_convertible (conj uarm_turn (conj (proj1 uarm_exact) (conj (proj2 uarm_exact) uarm_names))))). Qed.

Lemma valid_two n (l0 l1 : dlink Qc) x : dl_name l0 <> dl_name l1 -> dj_parent x = dl_name l0 -> dj_child x = dl_name l1 ->
  (forall v, In v (dl_visuals l0 ++ dl_visuals l1) -> vi_geometry v = "box"%string) -> valid_doc (Doc n [l0; l1] [x]).
Proof.
  intros ND P C VS. split; [discriminate|]. split; [constructor; [intros [Q|[]]; congruence|constructor; [intros []|constructor]]|]. split; [constructor; [intros []|constructor]|].
  split; [intros j [<-|[]]; cbn; rewrite P, C; auto|].
  assert (R0 : reaches (Doc n [l0; l1] [x]) (dl_name l0)) by (eapply re_root; reflexivity).
  split; [intros l [<-|[<-|[]]]; [exact R0|rewrite <- C; constructor; [left; reflexivity|now rewrite P]]|].
  split; [intros j l rest [<-|[]] Q; injection Q as <- _; rewrite C; auto|].
  intros l v [<-|[<-|[]]] I; (rewrite (VS v); [left; reflexivity|apply in_or_app; auto]).
Qed.
Local Ltac two := apply valid_two; [discriminate|reflexivity|reflexivity|intros ? HV; repeat (destruct HV as [<-|HV]; [reflexivity|]); destruct HV].
Definition plain (n : string) : dlink Qc := DL n None [].
Lemma qv3ne (a b : vec3 Qc) : qv3b a b = false -> a <> b.
Proof. intros H ->. enough (qv3b b b = true) by congruence. unfold qv3b, qb. now rewrite !Qeq_bool_refl. Qed.

(** The rotation to the joint axis is made about axes of the first link: a slide along the x axis of a joint frame that is turned
    by 90 degrees about z moves along the x axis of the base, not along its y axis. *)
Definition urot : udoc Qc := Doc "rot" [plain "base"; plain "slide"] [DJ "j" UPrismatic (Org v3zero (q3 0 0 1)) "base" "slide" (Some (q3 1 0 0)) (Some (Some (qz (-5)), Some (qz 5))) None].
Lemma urot_pose q : q "slide"%string = [qz 2] -> upose urot q "slide" (Fr (q3 0 2 0) (m3create (qz 0) (qz (-1)) (qz 0) (qz 1) (qz 0) (qz 0) (qz 0) (qz 0) (qz 1))).
Proof.
  intros Q. set (x := DJ "j" UPrismatic (Org v3zero (q3 0 0 1)) "base" "slide" (Some (q3 1 0 0)) (Some (Some (qz (-5)), Some (qz 5))) None).
  assert (U0 : upose urot q (dj_parent x) fid) by (apply (up_root urot q (plain "base") [plain "slide"]); reflexivity).
  pose proof (um_prismatic (q3 1 0 0) (qz 2)) as M. change (umotion (dj_type x) (axis_of x) [qz 2] (Fr (v3scale (qz 2) (q3 1 0 0)) m3id)) in M. rewrite <- Q in M.
  pose proof (up_child urot q x fid _ (or_introl eq_refl) U0 M) as U1.
  match type of U1 with upose _ _ _ ?f => assert (FE : f = Fr (q3 0 2 0) (m3create (qz 0) (qz (-1)) (qz 0) (qz 1) (qz 0) (qz 0) (qz 0) (qz 0) (qz 1))) end.
  { apply frb_eq. vm_compute. reflexivity. }
  now rewrite <- FE.
Qed.

Lemma urot_valid : valid_doc urot. Proof. unfold urot. two. Qed.
Theorem C84_rotated_refuted (Z : ZtkLib) : exists d o rb v c' k f, valid_doc d /\ convertible_doc d /\ joints_exact d /\
  urdf2ztk (doc_xml d) = Some (Some o) /\ robot_read (qz 10) (uo_file o) = Some (Some rb) /\ chain_fk (rb_chain rb) v = Some c' /\
  In k (c_links c') /\ upose d (dis_of (c_links c')) (l_name k) f /\ fpos (l_frame k) <> fpos f.
Proof.
  destruct (urun_at Z urot [qz 2] 1 "slide" (fun _ _ c k => [dis_of (c_links c) "slide"; v3c (fpos (l_frame k))]) [[qz 2]; v3c (q3 2 0 0)]) as (o & rb & c & k & A & B & C & D & K & W).
  { destruct Z. vm_compute. reflexivity. }
  assert (W1 : dis_of (c_links c) "slide" = [qz 2]) by congruence. assert (W2 : v3c (fpos (l_frame k)) = v3c (q3 2 0 0)) by congruence. clear W.
  exists urot, o, rb, [qz 2], c, k. eexists. split; [exact urot_valid|]. split; [intros x [<-|[]]; reflexivity|]. split; [repeat intro; apply qprints|]. repeat (split; [assumption|]).
  split; [rewrite K; apply (urot_pose _ W1)|]. intros Q. rewrite Q in W2. revert W2. apply qlne. vm_compute. reflexivity.
Qed.

(** The first link of the file has to be the root: otherwise the links are read into a chain that is not a tree from its first
    link, although the same document with the links in another order is one. *)
Definition uord : udoc Qc := Doc "ord" [plain "a"; plain "base"] [DJ "j" UFixed (org 1 0 0) "base" "a" None None None].
Lemma uord_valid : valid_doc (Doc "ord" (rev (d_links uord)) (d_joints uord)). Proof. cbn [rev app d_links uord]. two. Qed.
Theorem C84_order_refuted (Z : ZtkLib) : exists d o rb, valid_doc (Doc (d_name d) (rev (d_links d)) (d_joints d)) /\
  urdf2ztk (doc_xml d) = Some (Some o) /\ robot_read (qz 10) (uo_file o) = Some (Some rb) /\ ~ well_formed (c_links (rb_chain rb)).
Proof.
  destruct (urun_at Z uord [] 0 "a" (fun _ rb c k => map (fun l => match l_parent l with Some p => [qz (Z.of_nat p)] | None => [] end) (c_links (rb_chain rb))) [[qz 1]; []]) as (o & rb & c & k & A & B & C & D & K & W).
  { destruct Z. vm_compute. reflexivity. }
  exists uord, o, rb. split; [exact uord_valid|]. split; [exact A|]. split; [exact B|]. intros WF. destruct (c_links (rb_chain rb)) as [|l0 t] eqn:HL; [discriminate|].
  assert (P : l_parent l0 = None) by (apply (wf_root (l0 :: t) 0 l0 WF eq_refl); reflexivity). cbn [map] in W. rewrite P in W. discriminate W.
Qed.

(** Two visual elements of the same name (in different links): both bodies get the shape of the first one. *)
Definition usame : udoc Qc := Doc "same" [DL "base" None [Vis (Some "v"%string) (org 1 0 0) "box"]; DL "a" None [Vis (Some "v"%string) (org 0 7 0) "box"]] [DJ "j" UFixed (org 0 0 0) "base" "a" None None None].
Lemma usame_valid : valid_doc usame. Proof. unfold usame. two. Qed.
Theorem C84_same_name_refuted (Z : ZtkLib) : exists d o rb l y s, valid_doc d /\ convertible_doc d /\ axes_turn d /\ joints_exact d /\ visuals_exact d /\
  urdf2ztk (doc_xml d) = Some (Some o) /\ robot_read (qz 10) (uo_file o) = Some (Some rb) /\ In l (d_links d) /\ nth_error (dl_visuals l) 0 = Some y /\
  find (fun s => String.eqb (fst s) (vis_name (dl_name l) 0 y)) (uo_shapes o) = Some s /\
  fpos (section_frame (snd s)) <> fpos (origin_frame (vi_origin y)) /\ (forall k, In k (c_links (rb_chain rb)) -> l_frame k = fid).
Proof.
  destruct (urun_at Z usame [] 1 "a" (fun o rb c k => match find (fun s => String.eqb (fst s) "v") (uo_shapes o) with Some s => [v3c (fpos (section_frame (snd s)))] | None => [] end ++
    [flat_map (fun k => if frb (l_frame k) fid then [] else [qz 1]) (c_links (rb_chain rb))]) [v3c (q3 1 0 0); []]) as (o & rb & c & k & A & B & C & D & K & W).
  { destruct Z. vm_compute. reflexivity. }
  destruct (find (fun s => String.eqb (fst s) "v") (uo_shapes o)) as [s|] eqn:FS; [|discriminate W]. cbn [app] in W.
  assert (W1 : v3c (fpos (section_frame (snd s))) = v3c (q3 1 0 0)) by congruence. assert (W2 : flat_map (fun k => if frb (l_frame k) fid then [] else [qz 1]) (c_links (rb_chain rb)) = []) by congruence. clear W.
  exists usame, o, rb, (DL "a" None [Vis (Some "v"%string) (org 0 7 0) "box"]), (Vis (Some "v"%string) (org 0 7 0) "box"), s.
  split; [exact usame_valid|]. split; [intros x [<-|[]]; reflexivity|]. split; [intros x f [<-|[]] HA; discriminate HA|]. split; [repeat intro; apply qprints|]. split; [repeat intro; apply qprints|].
  split; [exact A|]. split; [exact B|]. split; [right; left; reflexivity|]. split; [reflexivity|]. split; [exact FS|]. split.
  - intros Q. rewrite Q in W1. revert W1. apply qlne. vm_compute. reflexivity.
  - intros k' Ik. apply frb_eq. destruct (frb (l_frame k') fid) eqn:Q; [reflexivity|]. exfalso. clear - W2 Ik Q. induction (c_links (rb_chain rb)) as [|l t IH]; [destruct Ik|]. cbn [flat_map] in W2. destruct Ik as [->|Ik].
    + rewrite Q in W2. discriminate W2.
    + apply app_eq_nil in W2 as [_ W2]. auto.
Qed.

(** The center of mass is not brought to the turned frame. *)
Definition ucom : udoc Qc := Doc "com" [plain "base"; DL "a" (Some (Inert (org 1 0 0) (qz 1) (qz 1) (qz 0) (qz 0) (qz 1) (qz 0) (qz 1))) []]
  [DJ "j" URevolute (org 0 0 0) "base" "a" (Some (q3 1 0 0)) (Some (Some (qz (-1)), Some (qz 1))) None].
Lemma ucom_valid : valid_doc ucom. Proof. unfold ucom. two. Qed.
Lemma ucom_turn : axes_turn ucom.
Proof.
  apply C84_unrotated; [intros x [<-|[]]; reflexivity|]. intros x [<-|[]] _. split; [apply qeq; vm_compute; reflexivity|]. apply qv3ne. vm_compute. reflexivity.
Qed.
Lemma ucom_pose q : q "a"%string = [qz 0] -> upose ucom q "a" fid.
Proof.
  intros Q. set (x := DJ "j" URevolute (org 0 0 0) "base" "a" (Some (q3 1 0 0)) (Some (Some (qz (-1)), Some (qz 1))) None).
  assert (U0 : upose ucom q (dj_parent x) fid) by (eapply (up_root ucom q (plain "base")); reflexivity).
  pose proof (um_revolute (q3 1 0 0) (qz 0)) as M. change (umotion (dj_type x) (axis_of x) [qz 0] (Fr v3zero (rodrigues (x_sin (qz 0)) (x_cos (qz 0)) (q3 1 0 0)))) in M. rewrite <- Q in M.
  pose proof (up_child ucom q x fid _ (or_introl eq_refl) U0 M) as U1.
  match type of U1 with upose _ _ _ ?f => assert (FE : f = fid) by (apply frb_eq; vm_compute; reflexivity) end. now rewrite <- FE.
Qed.
Theorem C85_com_refuted (Z : ZtkLib) : exists d o rb l v c' k f, valid_doc d /\ convertible_doc d /\ axes_turn d /\ joints_exact d /\ unrotated d /\
  urdf2ztk (doc_xml d) = Some (Some o) /\ robot_read (qz 10) (uo_file o) = Some (Some rb) /\ chain_fk (rb_chain rb) v = Some c' /\
  In l (d_links d) /\ mass_exact l /\ In k (c_links c') /\ l_name k = dl_name l /\ upose d (dis_of (c_links c')) (l_name k) f /\
  xform (l_frame k) (mp_com (b_mp (l_body k))) <> xform f (mp_com (lmp l)).
Proof.
  destruct (urun_at Z ucom [qz 0] 1 "a" (fun _ _ c k => [dis_of (c_links c) "a"; v3c (xform (l_frame k) (mp_com (b_mp (l_body k))))]) [[qz 0]; v3c (q3 0 0 (-1))]) as (o & rb & c & k & A & B & C & D & K & W).
  { destruct Z. vm_compute. reflexivity. }
  assert (W1 : dis_of (c_links c) "a" = [qz 0]) by congruence. assert (W2 : v3c (xform (l_frame k) (mp_com (b_mp (l_body k)))) = v3c (q3 0 0 (-1))) by congruence. clear W.
  exists ucom, o, rb, (DL "a" (Some (Inert (org 1 0 0) (qz 1) (qz 1) (qz 0) (qz 0) (qz 1) (qz 0) (qz 1))) []), [qz 0], c, k, fid.
  split; [exact ucom_valid|]. split; [intros x [<-|[]]; reflexivity|]. split; [exact ucom_turn|]. split; [repeat intro; apply qprints|]. split; [intros x [<-|[]]; reflexivity|].
  split; [exact A|]. split; [exact B|]. split; [exact C|]. split; [right; left; reflexivity|]. split; [split; [apply qne; vm_compute; reflexivity|apply qv3b_eq]|]. split; [exact D|]. split; [exact K|].
  split; [rewrite K; apply (ucom_pose _ W1)|]. intros Q. rewrite Q in W2. revert W2. apply qlne. vm_compute. reflexivity.
Qed.

(** The inertia tensor of a link on a link that was turned is turned again. *)
Definition plate_in : inertial Qc := Inert (org 0 0 0) (qz 1) (qz 1) (qz 0) (qz 0) (qz 2) (qz 0) (qz 3).
Definition uine : udoc Qc := Doc "ine" [plain "base"; plain "a"; DL "b" (Some plate_in) []]
  [DJ "j" URevolute (org 0 0 0) "base" "a" (Some (q3 1 0 0)) (Some (Some (qz (-1)), Some (qz 1))) None; DJ "k" UFixed (org 0 0 0) "a" "b" None None None].
Lemma uine_valid : valid_doc uine.
Proof.
  split; [discriminate|]. split; [repeat (constructor; [cbn; intuition discriminate|]); constructor|]. split; [repeat (constructor; [cbn; intuition discriminate|]); constructor|].
  split; [intros j [<-|[<-|[]]]; cbn; auto|].
  assert (R0 : reaches uine (dl_name (plain "base"))) by (eapply re_root; reflexivity).
  assert (R1 : reaches uine "a") by (apply (re_child uine (DJ "j" URevolute (org 0 0 0) "base" "a" (Some (q3 1 0 0)) (Some (Some (qz (-1)), Some (qz 1))) None)); [left; reflexivity|exact R0]).
  assert (R2 : reaches uine "b") by (apply (re_child uine (DJ "k" UFixed (org 0 0 0) "a" "b" None None None)); [right; left; reflexivity|exact R1]).
  split; [intros l [<-|[<-|[<-|[]]]]; assumption|]. split; [intros j l rest [<-|[<-|[]]] Q; injection Q as <- _; discriminate|].
  intros l v [<-|[<-|[<-|[]]]] [].
Qed.
Lemma uine_pose q : q "a"%string = [qz 0] -> q "b"%string = [] -> upose uine q "b" fid.
Proof.
  intros Q1 Q2. set (x := DJ "j" URevolute (org 0 0 0) "base" "a" (Some (q3 1 0 0)) (Some (Some (qz (-1)), Some (qz 1))) None). set (y := DJ "k" UFixed (org 0 0 0) "a" "b" None None None : djoint Qc).
  assert (U0 : upose uine q (dj_parent x) fid) by (eapply (up_root uine q (plain "base")); reflexivity).
  pose proof (um_revolute (q3 1 0 0) (qz 0)) as M. change (umotion (dj_type x) (axis_of x) [qz 0] (Fr v3zero (rodrigues (x_sin (qz 0)) (x_cos (qz 0)) (q3 1 0 0)))) in M. rewrite <- Q1 in M.
  pose proof (up_child uine q x fid _ (or_introl eq_refl) U0 M) as U1. match type of U1 with upose _ _ _ ?f => assert (FE : f = fid) by (apply frb_eq; vm_compute; reflexivity) end. rewrite FE in U1.
  pose proof (um_fixed (axis_of y)) as M2. rewrite <- Q2 in M2. pose proof (up_child uine q y fid _ (or_intror (or_introl eq_refl)) U1 M2) as U2.
  match type of U2 with upose _ _ _ ?f => assert (FE2 : f = fid) by (apply frb_eq; vm_compute; reflexivity) end. now rewrite <- FE2.
Qed.
Lemma uine_turn : axes_turn uine.
Proof.
  apply C84_unrotated; [intros x [<-|[<-|[]]]; reflexivity|]. intros x [<-|[<-|[]]] HA; [|discriminate HA]. split; [apply qeq; vm_compute; reflexivity|]. apply qv3ne. vm_compute. reflexivity.
Qed.
Definition diag3 (m : mat3 Qc) : list Qc := [vx (mc0 m); vy (mc1 m); vz (mc2 m)].
Theorem C85_inertia_refuted (Z : ZtkLib) : exists d o rb l v c' k f, valid_doc d /\ convertible_doc d /\ axes_turn d /\ joints_exact d /\ unrotated d /\
  urdf2ztk (doc_xml d) = Some (Some o) /\ robot_read (qz 10) (uo_file o) = Some (Some rb) /\ chain_fk (rb_chain rb) v = Some c' /\
  In l (d_links d) /\ mass_exact l /\ In k (c_links c') /\ l_name k = dl_name l /\ upose d (dis_of (c_links c')) (l_name k) f /\
  m3rot (fatt (l_frame k)) (mp_inertia (b_mp (l_body k))) <> m3rot (fatt f) (mp_inertia (lmp l)).
Proof.
  destruct (urun_at Z uine [qz 0] 2 "b" (fun _ _ c k => [dis_of (c_links c) "a"; dis_of (c_links c) "b"; diag3 (m3rot (fatt (l_frame k)) (mp_inertia (b_mp (l_body k))))]) [[qz 0]; []; map qz [3; 2; 1]%Z]) as (o & rb & c & k & A & B & C & D & K & W).
  { destruct Z. vm_compute. reflexivity. }
  assert (W1 : dis_of (c_links c) "a" = [qz 0]) by congruence. assert (W2 : dis_of (c_links c) "b" = []) by congruence.
  assert (W3 : diag3 (m3rot (fatt (l_frame k)) (mp_inertia (b_mp (l_body k)))) = map qz [3; 2; 1]%Z) by congruence. clear W.
  exists uine, o, rb, (DL "b" (Some plate_in) []), [qz 0], c, k, fid.
  split; [exact uine_valid|]. split; [intros x [<-|[<-|[]]]; reflexivity|]. split; [exact uine_turn|]. split; [repeat intro; apply qprints|]. split; [intros x [<-|[<-|[]]]; reflexivity|].
  split; [exact A|]. split; [exact B|]. split; [exact C|]. split; [right; right; left; reflexivity|]. split; [split; [apply qne; vm_compute; reflexivity|apply qv3b_eq]|]. split; [exact D|]. split; [exact K|].
  split; [rewrite K; apply (uine_pose _ W1 W2)|]. intros Q. rewrite Q in W3. revert W3. apply qlne. vm_compute. reflexivity.
Qed.

(** The slide of the example meets the conditions on the mass properties. *)
Definition uslide : djoint Qc := DJ "j1" UPrismatic (org 1 0 0) "base" "slide" (Some (q3 1 0 0)) (Some (Some (qz (-1)), Some (qz 4))) (Some (qz 7, qz 8)).
Example C85_ex_meant : let l := nth 1 (d_links uarm) (plain "") in
  In uslide (d_joints uarm) /\ dj_child uslide = dl_name l /\ mass_exact l /\ (forall a, turned uarm (dj_parent uslide) a -> fatt a = m3id) /\
  (forall e, home uarm (dl_name l) e -> m3v (align uslide) (m3v (fatt e) (mp_com (lmp l))) = m3v (fatt e) (mp_com (lmp l))) /\ mp_com (lmp l) = q3 0 2 0 /\ align uslide <> m3id.
Proof.
  cbn [nth d_links uarm]. split; [left; reflexivity|]. split; [reflexivity|]. split; [split; [apply qne; vm_compute; reflexivity|apply qv3b_eq]|].
  split; [intros a T; inversion T as [l rest HL Q|x f [<-|[<-|[<-|[]]]] HF Q]; subst; try discriminate Q; reflexivity|].
  split; [intros e HE; rewrite (home_unrotated uarm "slide" e); [apply qv3b_eq; vm_compute; reflexivity|intros x [<-|[<-|[<-|[]]]]; reflexivity|exact HE]|].
  split; [apply qv3b_eq; vm_compute; reflexivity|]. intros Q. apply (f_equal (fun m : mat3 Qc => vx (mc0 m))) in Q. revert Q. apply qne. vm_compute. reflexivity.
Qed.
(** A document with a hinge about z. *)
Definition ustr : udoc Qc := Doc "straight" [plain "base"; DL "a" (Some (Inert (Org (q3 1 2 3) (q3 0 1 0)) (qz 2) (qz 1) (qz 0) (qz 0) (qz 2) (qz 0) (qz 3))) []]
  [DJ "j" UContinuous (org 0 1 0) "base" "a" (Some (q3 0 0 1)) None None].
Lemma ustr_valid : valid_doc ustr. Proof. unfold ustr. two. Qed.
Example C85_ex_straight : valid_doc ustr /\ convertible_doc ustr /\ unrotated ustr /\ (forall x, In x (d_joints ustr) -> has_axis (dj_type x) = true -> axis_of x = ez) /\ joints_exact ustr /\
  mass_exact (nth 1 (d_links ustr) (plain "")).
Proof.
  split; [exact ustr_valid|]. split; [intros x [<-|[]]; reflexivity|]. split; [intros x [<-|[]]; reflexivity|]. split; [intros x [<-|[]] _; apply qv3b_eq; vm_compute; reflexivity|].
  split; [repeat intro; apply qprints|]. split; [apply qne; vm_compute; reflexivity|apply qv3b_eq].
Qed.
Example C85_ex (Z : ZtkLib) : exists o rb c k, urdf2ztk (doc_xml ustr) = Some (Some o) /\ robot_read (qz 10) (uo_file o) = Some (Some rb) /\ chain_fk (rb_chain rb) [qz 1] = Some c /\
  In k (c_links c) /\ l_name k = "a"%string /\ [v3c (fpos (l_frame k)); v3c (mc0 (fatt (l_frame k))); v3c (mp_com (b_mp (l_body k))); diag3 (mp_inertia (b_mp (l_body k)))] =
    [v3c (q3 0 1 0); v3c (q3 0 1 0); v3c (q3 1 2 3); map qz [3; 2; 1]%Z].
Proof. apply (urun_at Z ustr [qz 1] 1 "a" (fun _ _ _ k => [v3c (fpos (l_frame k)); v3c (mc0 (fatt (l_frame k))); v3c (mp_com (b_mp (l_body k))); diag3 (mp_inertia (b_mp (l_body k)))])). destruct Z. vm_compute. reflexivity. Qed.

(** Limits and friction: those of the slide; of the hinge, whose lower limit is left out; and of a document
    with a continuous joint with limits and a floating one. *)
Definition olist (l : list (option Qc)) : list Qc := map (fun o => match o with Some x => x | None => qz 99 end) l.
Definition jview (k : link Qc) : list (list Qc) := [olist (joint_get_min (l_joint k)); olist (joint_get_max (l_joint k)); joint_get_gen a_visc sp_aa fl_dis (l_joint k); joint_get_gen a_coul sp_aa fl_dis (l_joint k)].
Example C86_ex (Z : ZtkLib) : exists o rb c k, urdf2ztk (doc_xml uarm) = Some (Some o) /\ robot_read (qz 10) (uo_file o) = Some (Some rb) /\ chain_fk (rb_chain rb) [qz 0; qz 0] = Some c /\
  In k (c_links c) /\ l_name k = "slide"%string /\ jview k = map (map qz) [[-1]; [4]; [0]; [0]]%Z.
Proof. apply (urun_at Z uarm [qz 0; qz 0] 1 "slide" (fun _ _ _ k => jview k)). destruct Z. vm_compute. reflexivity. Qed.
Example C86_ex_meant : urange uslide = Some (Some (qz (-1)), Some (qz 4)) /\ lower_of uslide <> None /\ upper_of uslide <> None /\ dj_dynamics uslide = Some (qz 7, qz 8).
Proof. repeat split; discriminate. Qed.
Example C86_ex_default (Z : ZtkLib) : exists o rb c k, urdf2ztk (doc_xml uarm) = Some (Some o) /\ robot_read (qz 10) (uo_file o) = Some (Some rb) /\ chain_fk (rb_chain rb) [qz 0; qz 0] = Some c /\
  In k (c_links c) /\ l_name k = "hinge"%string /\ jview k = map (map qz) [[99]; [2]; [0]; [0]]%Z.
Proof. apply (urun_at Z uarm [qz 0; qz 0] 2 "hinge" (fun _ _ _ k => jview k)). destruct Z. vm_compute. reflexivity. Qed.
Definition ucont : udoc Qc := Doc "cont" [plain "base"; plain "a"] [DJ "j" UContinuous (org 0 1 0) "base" "a" (Some (q3 0 0 1)) (Some (Some (qz (-1)), Some (qz 1))) None].
Definition ufloat : udoc Qc := Doc "float" [plain "base"; plain "a"] [DJ "j" UFloating (org 0 1 0) "base" "a" None None None].
Example C86_ex_continuous (Z : ZtkLib) : valid_doc ucont /\ exists o rb c k, urdf2ztk (doc_xml ucont) = Some (Some o) /\ robot_read (qz 10) (uo_file o) = Some (Some rb) /\ chain_fk (rb_chain rb) [qz 0] = Some c /\
  In k (c_links c) /\ l_name k = "a"%string /\ jview k = map (map qz) [[-1]; [1]; [0]; [0]]%Z.
Proof. split; [unfold ucont; two|]. apply (urun_at Z ucont [qz 0] 1 "a" (fun _ _ _ k => jview k)). destruct Z. vm_compute. reflexivity. Qed.
Example C86_ex_floating (Z : ZtkLib) : valid_doc ufloat /\ exists o rb c k, urdf2ztk (doc_xml ufloat) = Some (Some o) /\ robot_read (qz 10) (uo_file o) = Some (Some rb) /\ chain_fk (rb_chain rb) [] = Some c /\
  In k (c_links c) /\ l_name k = "a"%string /\ [[qz (Z.of_nat (joint_size (l_joint k)))]] = [[qz 0]].
Proof. split; [unfold ufloat; two|]. apply (urun_at Z ufloat [] 1 "a" (fun _ _ _ k => [[qz (Z.of_nat (joint_size (l_joint k)))]])). destruct Z. vm_compute. reflexivity. Qed.

Print Assumptions C84_structure.
Print Assumptions C84_poses_partial.
Print Assumptions C84_shapes_partial.
Print Assumptions C84_unrotated.
Print Assumptions C85_mass.
Print Assumptions C85_world_partial.
Print Assumptions C85_straight_partial.
Print Assumptions C86_limits_partial.
Print Assumptions C86_dynamics_refuted.
Print Assumptions C86_type_refuted.
Print Assumptions C86_default_limit_refuted.
Print Assumptions C86_continuous_refuted.
Print Assumptions C84_ex.
Print Assumptions C84_ex_meant.
Print Assumptions C84_rotated_refuted.
Print Assumptions C84_order_refuted.
Print Assumptions C84_same_name_refuted.
Print Assumptions C85_com_refuted.
Print Assumptions C85_inertia_refuted.
Print Assumptions C85_ex_meant.
Print Assumptions C85_ex_straight.
Print Assumptions C85_ex.
Print Assumptions C86_ex.
Print Assumptions C86_ex_meant.
Print Assumptions C86_ex_default.
Print Assumptions C86_ex_continuous.
Print Assumptions C86_ex_floating.
