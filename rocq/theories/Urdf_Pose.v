(** * Urdf_Pose: the poses of the converted chain. *)
From Coq Require Import Bool String List ZArith Arith Lia Permutation Field.
From Verif Require Import Num NumFacts Vec VecFacts Motor_Model Joint_Model Joint_Spec Joint_Proofs Body_Model Body_Proofs Tree Tree_Proofs Link_Model Link_Spec Link_Proofs Chain_Proofs Link_Properties Chain_Properties Kin_Spec Kin_Proofs Jacobi_Proofs Dyn_Proofs IK_Model IK_Usable Conf_Model Ztk_Model Ztk_Spec Ztk_Proofs Ztk_Chain Urdf_Model Urdf_Spec Urdf_Tree Urdf_Doc Urdf_Walk Urdf_Read Urdf_Proofs.
Import ListNotations.

Section UPo.
Context {F : Type} {N : Num F} {L : NumLaws F N} {E : Ext F} {X : ExtLaws F N E} {Z : ZtkLib} {U : UrdfExt F}.
Add Field FFieldUPo : num_field.
Local Ltac vring := intros; vdestruct; vunfold; vsplit; ring.
Local Open Scope num_scope.

Lemma zyx_rotation (a e t : F) : rotation (m3zyx a e t).
Proof.
  assert (H : forall u, x_sin u * x_sin u = 1 - x_cos u * x_cos u) by (intros u; rewrite <- (x_sc u); ring).
  unfold m3zyx. apply rotation_mul; [apply rotation_mul|].
  - pose proof (H a) as Q. split; vunfold; vsplit; ring [Q].
  - pose proof (H e) as Q. split; vunfold; vsplit; ring [Q].
  - pose proof (H t) as Q. split; vunfold; vsplit; ring [Q].
Qed.
Lemma rodrigues_v s c (n v : vec3 F) : m3v (rodrigues s c n) v = v3add v (v3add (v3scale s (v3cross n v)) (v3scale (1 - c) (v3cross n (v3cross n v)))).
Proof. unfold rodrigues. vring. Qed.
Lemma rodrigues_conj s c (r : mat3 F) n : rotation r -> m3mul r (rodrigues s c n) = m3mul (rodrigues s c (m3v r n)) r.
Proof.
  intros H. apply m3_ext_v. intros v. rewrite !m3mul_v, !rodrigues_v, !m3v_add_r, !m3v_scale_r, !rot_cross by exact H. reflexivity.
Qed.
Lemma rodrigues_z t : rodrigues (x_sin t) (x_cos t) ez = rot_z t.
Proof. unfold rodrigues, rot_z. vring. Qed.

Section Doc.
Context (d : udoc F) (V : valid_doc d).
Lemma origin_rigid o : rigid (origin_frame o : frame F).
Proof. apply zyx_rotation. Qed.
Lemma home_rigid n f : home d n f -> rigid f.
Proof. induction 1 as [l rest HL|j fp I _ IH]; [apply rigid_id|]. apply rigid_cascade; [exact IH|apply origin_rigid]. Qed.
Lemma align_rotation j : rotation (align j : mat3 F).
Proof. unfold align. destruct (has_axis _); [apply x_aa_rot|apply rotation_id]. Qed.
Lemma turned_rigid n f : turned d n f -> rigid f.
Proof.
  intros H. destruct H as [l rest HL|j f I HH]; [apply rigid_id|]. unfold rigid. cbn [fatt]. apply rotation_mul; [apply align_rotation|exact (home_rigid _ _ HH)].
Qed.
Lemma home_unique n f : home d n f -> forall g, home d n g -> f = g.
Proof.
  induction 1 as [l rest HL|j fp I _ IH]; intros g G.
  - inversion G as [l' rest' HL' EQ|j' fp' I' G' EQ]; [reflexivity|]. subst. pose proof V as (_ & _ & _ & _ & _ & R & _). exfalso. eapply R; eauto.
  - inversion G as [l' rest' HL' EQ EF|j' fp' I' G' EQ EF].
    + exfalso. pose proof V as (_ & _ & _ & _ & _ & R & _). eapply R; eauto.
    + assert (j' = j) by (eapply child_same; eauto). subst j'. now rewrite (IH _ G').
Qed.
Lemma turned_unique n f : turned d n f -> forall g, turned d n g -> f = g.
Proof.
  intros A g G. destruct A as [l rest HL|j f I HH].
  - inversion G as [l' rest' HL' EQ|j' f' I' G' EQ]; [reflexivity|]. subst. pose proof V as (_ & _ & _ & _ & _ & R & _). exfalso. eapply R; eauto.
  - inversion G as [l' rest' HL' EQ EF|j' f' I' G' EQ EF].
    + exfalso. pose proof V as (_ & _ & _ & _ & _ & R & _). eapply R; eauto.
    + assert (j' = j) by (eapply child_same; eauto). subst j'. now rewrite (home_unique _ _ HH _ G').
Qed.
Lemma home_ex n : reaches d n -> exists e, home d n e.
Proof. induction 1 as [l rest HL|j I _ [e IH]]; eexists; econstructor; eauto. Qed.
Lemma turned_ex n : reaches d n -> exists e b, home d n e /\ turned d n b /\ fpos b = fpos e.
Proof.
  intros R. destruct (home_ex n R) as (e & HE). destruct R as [l rest HL|j I R].
  - exists e, fid. split; [exact HE|]. split; [econstructor; eauto|]. assert (Q : home d (dl_name l) fid) by (econstructor; eauto). now rewrite (home_unique _ _ HE _ Q).
  - exists e, (Fr (fpos e) (m3mul (align j) (fatt e))). split; [exact HE|]. split; [constructor; assumption|reflexivity].
Qed.
Lemma turned_pos n e b : home d n e -> turned d n b -> fpos b = fpos e.
Proof.
  intros HE TB. assert (R : reaches d n) by (clear - HE; induction HE; econstructor; eauto). destruct (turned_ex n R) as (e' & b' & HE' & TB' & Q).
  rewrite (turned_unique _ _ TB _ TB'), (home_unique _ _ HE _ HE'). exact Q.
Qed.
(** The frame of the converted link as seen from the frame of the link. *)
Definition shift (e b : frame F) : mat3 F := m3mul (m3tr (fatt e)) (fatt b).
Lemma shift_frel e b : rigid e -> fpos b = fpos e -> frel e b = Fr v3zero (shift e b).
Proof.
  intros R Q. unfold frel, shift. f_equal. rewrite Q. unfold xforminv. replace (v3sub (fpos e) (fpos e)) with (v3zero (F:=F)) by vring. apply m3tv_0_r.
Qed.
Lemma shift_rotation e b : rigid e -> rigid b -> rotation (shift e b).
Proof. intros A B. apply rotation_mul; [apply rotation_tr, A|exact B]. Qed.

(** A joint of the converted chain moves as the joint of the document. *)
Lemma motion_conj x (r : mat3 F) ds D : convertible (dj_type x) = true -> rotation r -> (has_axis (dj_type x) = true -> m3v r ez = axis_of x) ->
  doc_frame (zjt (dj_type x)) ds = Some D -> exists m, umotion (dj_type x) (axis_of x) ds m /\ fcascade (Fr v3zero r) D = fcascade m (Fr v3zero r).
Proof.
  intros CV RR AX DF. assert (P : forall a b : mat3 F, fcascade (Fr v3zero a) (Fr v3zero b) = Fr v3zero (m3mul a b)) by vring.
  destruct (dj_type x); try discriminate CV; cbn [zjt doc_frame] in DF.
  - destruct ds; [|discriminate]. injection DF as <-. exists fid. split; [constructor|]. rewrite fcascade_id_l, fcascade_id_r. reflexivity.
  - destruct ds as [|t [|? ?]]; try discriminate. injection DF as <-. eexists. split; [constructor|]. rewrite !P, <- rodrigues_z, (rodrigues_conj _ _ _ _ RR), AX by reflexivity. reflexivity.
  - destruct ds as [|t [|? ?]]; try discriminate. injection DF as <-. eexists. split; [constructor|]. rewrite !P, <- rodrigues_z, (rodrigues_conj _ _ _ _ RR), AX by reflexivity. reflexivity.
  - destruct ds as [|t [|? ?]]; try discriminate. injection DF as <-. eexists. split; [constructor|]. rewrite <- (AX eq_refl). unfold trans_z. clear -L. vring.
Qed.

Lemma shift_axis x e b : axes_turn d -> In x (d_joints d) -> has_axis (dj_type x) = true -> home d (dj_child x) e -> turned d (dj_child x) b -> m3v (shift e b) ez = axis_of x.
Proof.
  intros AT I HA HE TB. assert (TB' : turned d (dj_child x) (Fr (fpos e) (m3mul (align x) (fatt e)))) by (constructor; assumption).
  rewrite (turned_unique _ _ TB _ TB'). unfold shift. cbn [fatt]. rewrite !m3mul_v, (AT x e I HA HE), <- m3tv_tr. apply rot_tv_v. exact (home_rigid _ _ HE).
Qed.
Lemma shift_fixed x e b : In x (d_joints d) -> has_axis (dj_type x) = false -> home d (dj_child x) e -> turned d (dj_child x) b -> shift e b = m3id.
Proof.
  intros I HA HE TB. assert (TB' : turned d (dj_child x) (Fr (fpos e) (m3mul (align x) (fatt e)))) by (constructor; assumption).
  rewrite (turned_unique _ _ TB _ TB'). unfold shift, align. cbn [fatt]. rewrite HA, m3mul_id_l. apply rotation_tr_mul. exact (home_rigid _ _ HE).
Qed.

(** ** Forward kinematics of the converted chain *)
Context (h0 h : list (link F)) (shapes : list string) (WF : well_formed h0) (LN : length h0 = length (d_links d))
  (CV : forall c l k, nth_error (d_links d) c = Some l -> nth_error h0 c = Some k -> converted d h0 shapes c l k)
  (AT : axes_turn d) (EX : joints_exact d) (TY : forall x, In x (d_joints d) -> convertible (dj_type x) = true)
  (LE : length h = length h0)
  (KE : forall i k0, nth_error h0 i = Some k0 -> exists k, nth_error h i = Some k /\ l_name k = l_name k0 /\ l_org k = l_org k0 /\ l_parent k = l_parent k0 /\ jtype_of (l_joint k) = jtype_of (l_joint k0))
  (CK : forall i k, nth_error h i = Some k -> cache_ok (l_joint k)) (FO : frames_ok h).

Lemma name_at c l : nth_error (d_links d) c = Some l -> idx d (dl_name l) = c.
Proof. intros Hl. pose proof V as (_ & ND & _). unfold idx. now rewrite (find_name_nth _ c (dl_name l) ND) by (rewrite nth_error_map, Hl; reflexivity). Qed.
Lemma names_h : map l_name h = map dl_name (d_links d).
Proof.
  apply nth_ext_map; [congruence|]. intros c k l Hk Hl. destruct (nth_same_len h h0 c k ltac:(congruence) Hk) as (k0 & Hk0).
  destruct (KE c k0 Hk0) as (k' & Hk' & Q & _). assert (k' = k) by congruence. subst k'. rewrite Q. apply (cv_name _ _ _ _ _ _ (CV c l k0 Hl Hk0)).
Qed.
Lemma dis_at c k : nth_error h c = Some k -> dis_of h (l_name k) = joint_get_dis (l_joint k).
Proof.
  intros Hk. assert (ND : NoDup (map l_name h)) by (rewrite names_h; apply V). unfold dis_of. revert c Hk ND. clear. induction h as [|a t IH]; intros [|c] Hk ND; cbn [nth_error map find] in *; try discriminate.
  - injection Hk as ->. now rewrite String.eqb_refl.
  - inversion ND as [|? ? NI ND']; subst. destruct (String.eqb_spec (l_name a) (l_name k)) as [Q|Q]; [|eauto]. exfalso. apply NI. rewrite Q. apply in_map. eapply nth_error_In; eauto.
Qed.
Lemma pose_of s n : udep d s n -> forall k, nth_error h (idx d s) = Some k -> exists f, upose d (dis_of h) s f /\
  forall e b, home d s e -> turned d s b -> l_frame k = fcascade f (Fr v3zero (shift e b)).
Proof.
  induction 1 as [l rest HL|x n I DP IH]; intros k Hk.
  - assert (Hl : nth_error (d_links d) 0%nat = Some l) by (rewrite HL; reflexivity). rewrite (name_at _ _ Hl) in Hk.
    destruct (nth_same_len h h0 0 k ltac:(congruence) Hk) as (k0 & Hk0). destruct (KE _ k0 Hk0) as (k' & Hk' & _ & QO & QP & QT). assert (k' = k) by congruence. subst k'.
    destruct (cv_root _ _ _ _ _ _ (CV 0%nat l k0 Hl Hk0) eq_refl) as (RP & RT & _ & RO & _).
    exists fid. split; [econstructor; eauto|]. intros e b HE TB. assert (HE' : home d (dl_name l) fid) by (econstructor; eauto). assert (TB' : turned d (dl_name l) fid) by (econstructor; eauto).
    rewrite (home_unique _ _ HE _ HE'), (turned_unique _ _ TB _ TB'). destruct (FO _ k Hk) as (A & _ & B). rewrite QP, RP in B. rewrite B, A.
    destruct (cache_doc (l_joint k) (l_org k) (CK _ k Hk)) as (D & DF & ->). rewrite QT, RT in DF. cbn [doc_frame] in DF. destruct (joint_get_dis (l_joint k)); [|discriminate]. injection DF as <-.
    rewrite QO, RO. unfold shift. cbn [fatt fid]. clear -L. vring.
  - destruct (joint_names d V x I) as [N1 N2]. pose proof N2 as N2'. apply in_map_iff in N2' as (l & QL & IL). apply In_nth_error in IL as (c & Hl).
    pose proof (name_at _ _ Hl) as NC. rewrite QL in NC. rewrite NC in Hk.
    destruct (nth_same_len h h0 c k ltac:(congruence) Hk) as (k0 & Hk0). destruct (KE _ k0 Hk0) as (k' & Hk' & QN & QO & QP & QT). assert (k' = k) by congruence. subst k'.
    pose proof (CV c l k0 Hl Hk0) as CC. destruct (cv_child _ _ _ _ _ _ CC x I (eq_sym QL)) as (RP & (JT & _ & _) & a & b & e & TA & HE & TB & BE & RO & _).
    assert (HQ : exists q, nth_error h (idx d (dj_parent x)) = Some q).
    { pose proof (idx_lt d V _ N1) as LT. rewrite map_length in LT. destruct (nth_error h (idx d (dj_parent x))) eqn:Q; [eauto|]. apply nth_error_None in Q. lia. }
    destruct HQ as (q & Hq). destruct (IH q Hq) as (fp & UP & FP).
    assert (RX : reaches d (dj_parent x)). { apply in_map_iff in N1 as (lp & <- & ILp). pose proof V as (_ & _ & _ & _ & RE & _). auto. }
    destruct (home_ex _ RX) as (ep & HP). specialize (FP ep a HP TA).
    assert (HE' : home d (dj_child x) (fcascade ep (origin_frame (dj_origin x)))) by (constructor; assumption).
    pose proof (home_unique _ _ HE _ HE') as EE.
    destruct (cache_doc (l_joint k) (l_org k) (CK _ k Hk)) as (D & DF & JX). rewrite QT, JT in DF.
    assert (RR : rotation (shift e b)) by (apply shift_rotation; [exact (home_rigid _ _ HE)|exact (turned_rigid _ _ TB)]).
    destruct (motion_conj x (shift e b) _ D (TY x I) RR (fun HA => shift_axis x e b AT I HA HE TB) DF) as (m & UM & CM).
    exists (fcascade fp (fcascade (origin_frame (dj_origin x)) m)). split.
    { constructor; [exact I|exact UP|]. replace (dis_of h (dj_child x)) with (joint_get_dis (l_joint k)); [exact UM|].
      rewrite <- (dis_at c k Hk), QN, (cv_name _ _ _ _ _ _ CC), QL. reflexivity. }
    intros e1 b1 HE1 TB1. rewrite (home_unique _ _ HE1 _ HE), (turned_unique _ _ TB1 _ TB).
    destruct (FO _ k Hk) as (A & _ & B). rewrite QP, RP in B. destruct B as (q' & Hq' & B). assert (q' = q) by congruence. subst q'. rewrite B, A, JX, QO, RO, FP.
    rewrite (frame_back_exact _ (EX x a b I TA TB)).
    assert (R1 := home_rigid _ _ HP). assert (R2 := turned_rigid _ _ TA). assert (R3 := home_rigid _ _ HE).
    rewrite <- (shift_frel ep a R1 (turned_pos _ _ _ HP TA)). rewrite <- (shift_frel e b R3 (turned_pos _ _ _ HE TB)) in CM |- *.
    rewrite <- !fcascade_assoc. f_equal. rewrite <- CM. rewrite !fcascade_assoc. f_equal.
    (* ep^-1 a a^-1 b = o e^-1 b *)
    rewrite (frel_inv ep a), (frel_inv e b), EE.
    transitivity (fcascade (finv ep) b).
    + rewrite <- fcascade_assoc, frel_spec by exact R2. reflexivity.
    + assert (Q : fcascade (origin_frame (dj_origin x)) (finv (fcascade ep (origin_frame (dj_origin x)))) = finv ep).
      { assert (RI : rigid (fcascade ep (origin_frame (dj_origin x)))) by (rewrite <- EE; exact R3).
        rewrite <- (frel_cascade ep (fcascade (origin_frame (dj_origin x)) _) R1), fcascade_assoc.
        pose proof (frel_spec (fcascade ep (origin_frame (dj_origin x))) fid RI) as Q0. rewrite frel_inv, fcascade_id_r in Q0. rewrite Q0, frel_inv. apply fcascade_id_r. }
      rewrite fcascade_assoc, Q. reflexivity.
Qed.
End Doc.

(** Setting displacements keeps what the poses depend on besides them. *)
Lemma fk_keeps (c c' : chain F) v : well_formed (c_links c) -> (forall i k, nth_error (c_links c) i = Some k -> cache_ok (l_joint k)) -> chain_fk c v = Some c' ->
  length (c_links c') = length (c_links c) /\ frames_ok (c_links c') /\ (forall i k, nth_error (c_links c') i = Some k -> cache_ok (l_joint k)) /\
  (forall i k0, nth_error (c_links c) i = Some k0 -> exists k, nth_error (c_links c') i = Some k /\ l_name k = l_name k0 /\ l_org k = l_org k0 /\ l_parent k = l_parent k0 /\ jtype_of (l_joint k) = jtype_of (l_joint k0) /\ b_mp (l_body k) = b_mp (l_body k0)).
Proof.
  intros W CK H. unfold chain_fk, chain_set_joint_dis_all in H. destruct (set_all joint_set_dis (c_links c) v) as [h1|] eqn:S; [|discriminate]. cbn [option_map obind] in H.
  apply set_all_rel in S. unfold chain_update_fk in H. destruct (chain_update_frame (c_set_links h1 c)) as [c1|] eqn:A; [|discriminate]. injection H as <-.
  change (c_links (chain_calc_com c1)) with (c_links c1).
  assert (R : forall l l1, set_rel joint_set_dis v l l1 -> l_name l1 = l_name l /\ l_org l1 = l_org l /\ same_refs l_parent l_child l_sibl l l1 /\ jtype_of (l_joint l1) = jtype_of (l_joint l) /\ b_mp (l_body l1) = b_mp (l_body l) /\ (cache_ok (l_joint l) -> cache_ok (l_joint l1))).
  { intros l l1 Q. unfold set_rel in Q. destruct (l_offset l) as [o|]; [destruct Q as (j & J & ->)|subst l1; repeat split; auto].
    cbn. repeat split; [eapply set_dis_type; eauto|]. intros _. eapply set_dis_cache; eauto. }
  pose proof (forall2_len _ _ _ S) as L1.
  assert (W1 : well_formed h1). { eapply wf_of_refs; [|exact W]. clear - S R. induction S as [|a b t t' Q S IH]; constructor; auto. apply (R _ _ Q). }
  destruct (C24_frame_pass (c_set_links h1 c) W1) as (c1' & A' & P1 & _). assert (c1' = c1) by congruence. subst c1'. change (c_links (c_set_links h1 c)) with h1 in P1.
  assert (K : forall i k0, nth_error (c_links c) i = Some k0 -> exists k1 k, nth_error h1 i = Some k1 /\ nth_error (c_links c1) i = Some k /\ set_rel joint_set_dis v k0 k1 /\ l_joint k = l_joint k1 /\ l_name k = l_name k1 /\ l_org k = l_org k1 /\ l_parent k = l_parent k1 /\ b_mp (l_body k) = b_mp (l_body k1)).
  { intros i k0 H0. destruct (nth_same_len (c_links c) h1 i k0 L1 H0) as (k1 & H1). destruct (proj2 P1 i k1 H1) as (p & Hp & _). exists k1, (upd_frame k1 p).
    split; [exact H1|]. split; [exact Hp|]. split; [eapply forall2_nth_inv; eauto|]. repeat split. }
  split; [rewrite (proj1 P1); exact L1|]. split; [exact (frames_of_pass _ _ P1)|]. split.
  - intros i k Hk. assert (Hi : (i < length (c_links c))%nat) by (rewrite <- L1, <- (proj1 P1); eapply nth_lt; eauto).
    destruct (nth_error (c_links c) i) as [k0|] eqn:H0; [|apply nth_error_None in H0; lia]. destruct (K i k0 H0) as (k1 & k' & _ & Hk' & Q & J & _). assert (k' = k) by congruence. subst k'.
    rewrite J. apply (R _ _ Q). eauto.
  - intros i k0 H0. destruct (K i k0 H0) as (k1 & k & _ & Hk & Q & J & A1 & A2 & A3 & A4). destruct (R _ _ Q) as (B1 & B2 & (B3 & _) & B4 & B5 & _). exists k. split; [exact Hk|]. rewrite J. repeat split; congruence.
Qed.

Lemma vis_names_eq (l : dlink F) : vis_names l = visual_names l.
Proof.
  unfold vis_names, visual_names. generalize (dl_name l) as n, 0%nat as k. intros n. induction (dl_visuals l) as [|v t IH]; intros k; cbn [length seq combine map vshapes]; [reflexivity|].
  now rewrite IH.
Qed.
Lemma visual_nth (l : dlink F) n v : nth_error (dl_visuals l) n = Some v -> In (vis_name (dl_name l) n v) (visual_names l).
Proof.
  intros H. unfold visual_names. assert (G : forall k m (vs : list (visual F)), nth_error vs m = Some v -> In (vis_name (dl_name l) (k + m) v) (map (fun p => vis_name (dl_name l) (fst p) (snd p)) (combine (seq k (length vs)) vs))).
  { clear. intros k m vs. revert k m. induction vs as [|w vs IH]; intros k [|m] H; try discriminate; cbn [length seq combine map].
    - injection H as ->. left. now rewrite Nat.add_0_r.
    - right. replace (k + S m)%nat with (S k + m)%nat by lia. now apply IH. }
  apply (G 0%nat n _ H).
Qed.

(** ** Converted documents *)
Section Conv.
Context (g : F) (d : udoc F) (V : valid_doc d) (o : urdf_out F) (rb : robot F) (HC : urdf2ztk (doc_xml d) = Some (Some o)) (HR : robot_read g (uo_file o) = Some (Some rb)).
Lemma conv_facts :
    rb_name rb = Some (d_name d) /\ rb_shapes rb = flat_map vis_names (d_links d) /\ map fst (uo_shapes o) = flat_map vis_names (d_links d) /\
    well_formed (c_links (rb_chain rb)) /\ length (c_links (rb_chain rb)) = length (d_links d) /\
    (forall c l k, nth_error (d_links d) c = Some l -> nth_error (c_links (rb_chain rb)) c = Some k -> converted d (c_links (rb_chain rb)) (rb_shapes rb) c l k) /\
    (forall l n v, In l (d_links d) -> nth_error (dl_visuals l) n = Some v -> exists e b, home d (dl_name l) e /\ turned d (dl_name l) b /\
       In (vis_name (dl_name l) n v, frame_keys (frel b (fcascade e (origin_frame (vi_origin v))))) (uo_shapes o)).
Proof.
  destruct (convert g d V) as (o' & rb' & HC' & HR' & Q). assert (o' = o) by congruence. subst o'. assert (rb' = rb) by congruence. subst rb'. exact Q.
Qed.
Lemma conv_links i k : nth_error (c_links (rb_chain rb)) i = Some k -> exists l, nth_error (d_links d) i = Some l /\ converted d (c_links (rb_chain rb)) (rb_shapes rb) i l k.
Proof. destruct conv_facts as (_ & _ & _ & _ & LN & CV & _). intros Hk. destruct (nth_same_len (c_links (rb_chain rb)) (d_links d) i k ltac:(congruence) Hk) as (l & Hl). eauto. Qed.
Lemma link_cases l i : nth_error (d_links d) i = Some l -> i = 0%nat /\ (forall x, In x (d_joints d) -> dj_child x <> dl_name l) \/ i <> 0%nat /\ exists x, In x (d_joints d) /\ dj_child x = dl_name l.
Proof.
  intros Hl. pose proof V as (_ & ND & _ & _ & RE & R0 & _). destruct i as [|i].
  - left. split; [reflexivity|]. intros x I. destruct (d_links d) as [|l0 t] eqn:Q; [discriminate|]. injection Hl as ->. eapply R0; eauto.
  - right. split; [discriminate|]. pose proof (RE l (nth_error_In _ _ Hl)) as R. inversion R as [l0 t HL Q|x I RX Q].
    + exfalso. rewrite HL in *. cbn [map nth_error] in *. inversion ND as [|? ? NI _]. apply NI. rewrite Q. apply in_map. eapply nth_error_In; eauto.
    + exists x. auto.
Qed.
Lemma conv_cache i k : nth_error (c_links (rb_chain rb)) i = Some k -> cache_ok (l_joint k).
Proof.
  intros Hk. destruct (conv_links i k Hk) as (l & Hl & CC). destruct (link_cases l i Hl) as [[-> _]|[_ (x & I & Q)]].
  - apply (cv_root _ _ _ _ _ _ CC eq_refl).
  - destruct (cv_child _ _ _ _ _ _ CC x I Q) as (_ & (_ & C & _) & _). exact C.
Qed.
Lemma conv_names : map l_name (c_links (rb_chain rb)) = map dl_name (d_links d).
Proof.
  destruct conv_facts as (_ & _ & _ & _ & LN & CV & _). apply nth_ext_map; [congruence|]. intros i k l Hk Hl. apply (cv_name _ _ _ _ _ _ (CV i l k Hl Hk)).
Qed.
Lemma conv_parents x k : In x (d_joints d) -> In k (c_links (rb_chain rb)) -> l_name k = dj_child x ->
  exists p q, l_parent k = Some p /\ nth_error (c_links (rb_chain rb)) p = Some q /\ l_name q = dj_parent x.
Proof.
  intros I Ik Q. apply In_nth_error in Ik as (i & Hk). destruct (conv_links i k Hk) as (l & Hl & CC). destruct (cv_child _ _ _ _ _ _ CC x I) as (P & _); [now rewrite <- Q, (cv_name _ _ _ _ _ _ CC)|].
  exists (idx d (dj_parent x)). destruct (joint_names d V x I) as [N1 _]. apply in_map_iff in N1 as (lp & QP & ILp). apply In_nth_error in ILp as (p & Hp). pose proof (name_at d V p lp Hp) as NA. rewrite QP in NA. rewrite NA in P |- *.
  destruct conv_facts as (_ & _ & _ & _ & LN & CV & _). destruct (nth_same_len (d_links d) (c_links (rb_chain rb)) p lp ltac:(congruence) Hp) as (q & Hq).
  exists q. split; [exact P|]. split; [exact Hq|]. rewrite (cv_name _ _ _ _ _ _ (CV p lp q Hp Hq)). exact QP.
Qed.
Context (TY : convertible_doc d) (AT : axes_turn d) (EX : joints_exact d).
Lemma link_shift l : In l (d_links d) -> exists e b, home d (dl_name l) e /\ turned d (dl_name l) b /\ link_turn d l (shift e b).
Proof.
  intros I. pose proof V as (_ & _ & _ & _ & RE & _). destruct (turned_ex d V _ (RE l I)) as (e & b & HE & TB & _). exists e, b. split; [exact HE|]. split; [exact TB|].
  split; [apply shift_rotation; [exact (home_rigid _ _ _ HE)|exact (turned_rigid _ _ _ TB)]|]. split.
  - intros x Ix Q. rewrite <- Q in HE, TB. destruct (has_axis (dj_type x)) eqn:HA; [exact (shift_axis d V x e b AT Ix HA HE TB)|exact (shift_fixed d V x e b Ix HA HE TB)].
  - intros NJ. apply In_nth_error in I as (i & Hl). destruct (link_cases l i Hl) as [[-> _]|[_ (x & Ix & Q)]]; [|exfalso; eapply NJ; eauto].
    destruct (d_links d) as [|l0 t] eqn:HL; [discriminate|]. injection Hl as ->. assert (HE' : home d (dl_name l) fid) by (econstructor; eauto). assert (TB' : turned d (dl_name l) fid) by (econstructor; eauto).
    rewrite (home_unique d V _ _ HE _ HE'), (turned_unique d V _ _ TB _ TB'). unfold shift. cbn [fatt fid]. clear -L. vring.
Qed.
Lemma fk_pose v (c' : chain F) l k : chain_fk (rb_chain rb) v = Some c' -> In l (d_links d) -> In k (c_links c') -> l_name k = dl_name l ->
  exists f, upose d (dis_of (c_links c')) (dl_name l) f /\ forall e b, home d (dl_name l) e -> turned d (dl_name l) b -> l_frame k = fcascade f (Fr v3zero (shift e b)).
Proof.
  intros FK Il Ik Q. destruct conv_facts as (_ & _ & _ & W & LN & CV & _). destruct (fk_keeps _ _ _ W (fun i k => conv_cache i k) FK) as (LE & FO & CK & KE).
  assert (KE' : forall i k0, nth_error (c_links (rb_chain rb)) i = Some k0 -> exists k, nth_error (c_links c') i = Some k /\ l_name k = l_name k0 /\ l_org k = l_org k0 /\ l_parent k = l_parent k0 /\ jtype_of (l_joint k) = jtype_of (l_joint k0)).
  { intros i k0 H0. destruct (KE i k0 H0) as (k1 & A & B1 & B2 & B3 & B4 & _). exists k1. auto. }
  destruct (udep_ex d (dl_name l)) as (n & UD). { pose proof V as (_ & _ & _ & _ & RE & _). auto. }
  apply (pose_of d V _ _ _ LN CV AT EX TY LE KE' CK FO _ n UD). apply In_nth_error in Il as (c & Hl). rewrite (name_at d V c l Hl).
  apply In_nth_error in Ik as (i & Hk). pose proof (names_h d _ _ _ LN CV LE KE') as NH. pose proof V as (_ & ND & _).
  assert (i = c); [|congruence]. apply (NoDup_nth_error (map dl_name (d_links d))); [exact ND| |].
  - rewrite <- NH, map_length. eapply nth_lt; eauto.
  - rewrite <- NH at 1. rewrite !nth_error_map, Hk, Hl. cbn. now rewrite Q.
Qed.
End Conv.
End UPo.
