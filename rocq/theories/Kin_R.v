(** * Kin_R: link velocities and accelerations are time derivatives, over the reals (C36, C37). *)

From Coq Require Import String List Reals Lra Lia.
From Verif Require Import Num NumFacts Vec VecFacts Motor_Model Joint_Model Joint_Spec Joint_Proofs Deriv ExtR Body_Model Body_R Joint_R.
From Verif Require Import Tree Tree_Proofs Link_Model Link_Spec Link_Proofs Link_Properties Kin_Spec Kin_Proofs Jacobi_Proofs.
Import ListNotations.
Local Open Scope R_scope.
Notation lkR := (link R).

(** ** Specification *)
Definition joint_of (c : chain R) (i : nat) : joint R := match nth_error (c_links c) i with Some l => l_joint l | None => JFixed end.
Definition frame_of (c : chain R) (i : nat) : frame R := match nth_error (c_links c) i with Some l => l_frame l | None => fid end.
Definition vel_of (c : chain R) (i : nat) : vec6 R := match nth_error (c_links c) i with Some l => l_vel l | None => v6zero end.
Definition acc_of (c : chain R) (i : nat) : vec6 R := match nth_error (c_links c) i with Some l => l_acc l | None => v6zero end.
(** Two states of the same mechanism. *)
Definition same_mech (c c' : chain R) : Prop := length (c_links c) = length (c_links c') /\ c_mass c = c_mass c' /\
  forall i l l', nth_error (c_links c) i = Some l -> nth_error (c_links c') i = Some l' ->
  l_parent l = l_parent l' /\ l_org l = l_org l' /\ jtype_of (l_joint l) = jtype_of (l_joint l') /\ b_mp (l_body l) = b_mp (l_body l').
(** [C s] is the mechanism with the joint state of time s, [P s] the same after the frames and the rates
    have been updated. *)
Definition moves (g : R) (C P : R -> chain R) : Prop :=
  (forall s, well_formed (c_links (C s)) /\ joints_made (c_links (C s)) /\ orgs_rigid (c_links (C s))) /\
  (forall s s', same_mech (C s) (C s')) /\
  forall s, exists c1, chain_update_frame (C s) = Some c1 /\
    (chain_update_vel c1 = Some (P s) \/ chain_update_rate g c1 = Some (P s)).
(** At time t the joint velocities are the rates of the joint displacements. *)
Definition rates_at (C : R -> chain R) (t : R) (k : nat) : Prop :=
  dis_rate (jtype_of (joint_of (C t) k)) (fun s => joint_get_dis (joint_of (C s) k)) t (joint_get_vel (joint_of (C t) k)).
(** At time t the joint accelerations are the rates of the joint velocities. *)
Definition accs_at (C : R -> chain R) (t : R) (k : nat) : Prop :=
  vel_rate (jtype_of (joint_of (C t) k)) (fun s => joint_get_vel (joint_of (C s) k)) t (joint_get_acc (joint_of (C t) k)).

(** ** C36 *)
Lemma made_reachable (j : joint R) : made j -> reachable (jtype_of j) j.
Proof.
  intros (t & j0 & ops & A & B). exists j0, ops. split; [|exact B].
  rewrite (run_type _ _ _ B), (set_dis_type _ _ _ A). now destruct t.
Qed.
Lemma inc_vel_cat (j : joint R) v : joint_inc_vel j v = v6add v (joint_inc_vel j v6zero).
Proof. apply inc_vel_add. Qed.

(** What the passes leave in a link. *)
Definition posed (c p : chain R) : Prop := length (c_links p) = length (c_links c) /\
  forall i l, nth_error (c_links c) i = Some l -> exists l', nth_error (c_links p) i = Some l' /\
    l_joint l' = l_joint l /\ l_org l' = l_org l /\ l_parent l' = l_parent l /\ b_mp (l_body l') = b_mp (l_body l) /\
    l_adj l' = joint_xform (l_joint l) (l_org l) /\ b_wcom (l_body l') = xform (l_frame l') (l_com l') /\
    b_comvel (l_body l') = v3add (vlin (l_vel l')) (v3cross (vang (l_vel l')) (l_com l')) /\
    match l_parent l with
    | None => l_frame l' = fcascade fid (l_adj l') /\ l_vel l' = joint_inc_vel (l_joint l) (xform6lin (l_adj l') v6zero)
    | Some q => l_frame l' = fcascade (frame_of p q) (l_adj l') /\ l_vel l' = joint_inc_vel (l_joint l) (xform6lin (l_adj l') (vel_of p q))
    end.
Lemma posed_of g c c1 p : well_formed (c_links c) -> chain_update_frame c = Some c1 ->
  chain_update_vel c1 = Some p \/ chain_update_rate g c1 = Some p -> posed c p.
Proof.
  intros W H1 H2. destruct (C24_frame_pass c W) as (c1' & A1 & P1 & W1). assert (c1' = c1) by congruence. subst c1'.
  assert (VP : vel_pass (c_links c1) (c_links p)).
  { destruct H2 as [H2|H2].
    - destruct (C24_vel_pass c1 W1) as (p' & A & P & _). assert (p' = p) by congruence. subst p'. now apply vel_pass_vel.
    - destruct (C24_rate_pass g c1 W1) as (p' & A & P & _). assert (p' = p) by congruence. subst p'. now apply (vel_pass_rate g). }
  destruct VP as [LE VP]. split; [rewrite LE; apply (proj1 P1)|].
  intros i l Hl. destruct (pass_keeps _ _ P1 i l Hl) as (l1 & Hl1 & J1 & O1 & Q1 & _ & M1).
  destruct (VP i l1 Hl1) as (v & l' & Hl' & G & AD & OG & JJ & V & CV & Q).
  destruct (frames_of_pass _ _ P1 i l1 Hl1) as (FA & FC & FP).
  destruct G as (G1 & G2 & G3 & G4 & G5 & _).
  exists l'. split; [exact Hl'|]. split; [congruence|]. split; [congruence|]. split; [congruence|]. split; [congruence|].
  split; [congruence|]. split.
  { unfold l_com. rewrite G4, G3, G5. exact FC. }
  split; [exact CV|].
  rewrite Q1 in FP, Q. destruct (l_parent l) as [q|] eqn:Hq.
  - destruct FP as (lq1 & Hlq1 & FP). destruct Q as (lq & Hlq & ->).
    destruct (VP q lq1 Hlq1) as (_ & lq' & Hlq' & (_ & _ & G3' & _) & _). assert (lq' = lq) by congruence. subst lq'.
    unfold frame_of, vel_of. rewrite Hlq. split; [|rewrite V, J1, AD; reflexivity].
    rewrite G3, FP, AD, G3'. reflexivity.
  - split; [rewrite G3, FP, AD; reflexivity|]. rewrite V, J1, AD, Q. reflexivity.
Qed.

Section Moves.
Variables (g : R) (C P : R -> chain R).
Hypothesis MV : moves g C P.
Let WF s := proj1 (proj1 MV s).
Let JM s := proj1 (proj2 (proj1 MV s)).
Let OR s := proj2 (proj2 (proj1 MV s)).
Lemma moves_posed s : posed (C s) (P s).
Proof. destruct (proj2 (proj2 MV) s) as (c1 & A & B). eapply posed_of; [apply WF | exact A | exact B]. Qed.
Lemma moves_nth s t i l : nth_error (c_links (C t)) i = Some l -> exists l', nth_error (c_links (C s)) i = Some l' /\
  l_parent l' = l_parent l /\ l_org l' = l_org l /\ jtype_of (l_joint l') = jtype_of (l_joint l) /\ b_mp (l_body l') = b_mp (l_body l).
Proof.
  intros Hl. destruct (proj1 (proj2 MV) s t) as (LE & _ & H). destruct (nth_error (c_links (C s)) i) as [l'|] eqn:Hl'.
  - exists l'. split; [reflexivity|]. exact (H i l' l Hl' Hl).
  - apply nth_error_None in Hl'. assert (nth_error (c_links (C t)) i <> None) by congruence. apply nth_error_Some in H0. lia.
Qed.
(** The moving frames of a link and of its parent. *)
Lemma frame_step t i l : nth_error (c_links (C t)) i = Some l -> forall s,
  let Y := joint_xform (joint_of (C s) i) (l_org l) in
  rigid Y /\ reachable (jtype_of (l_joint l)) (joint_of (C s) i) /\
  match l_parent l with
  | None => frame_of (P s) i = fcascade fid Y /\ vel_of (P s) i = joint_inc_vel (joint_of (C s) i) (xform6lin Y v6zero)
  | Some q => frame_of (P s) i = fcascade (frame_of (P s) q) Y /\ vel_of (P s) i = joint_inc_vel (joint_of (C s) i) (xform6lin Y (vel_of (P s) q))
  end.
Proof.
  intros Hl s. destruct (moves_nth s t i l Hl) as (ls & Hls & EP & EO & ET & EM).
  destruct (moves_posed s) as [_ PO]. destruct (PO i ls Hls) as (lp & Hlp & A1 & A2 & A3 & A4 & A5 & _ & _ & A6).
  unfold joint_of, frame_of at 1 3, vel_of at 1 3. rewrite Hls, Hlp. cbv zeta. rewrite <- EO.
  split; [apply cache_xform_rigid; [eapply made_cache, JM; exact Hls | eapply OR; exact Hls]|].
  split; [rewrite <- ET; apply made_reachable; eapply JM; exact Hls|].
  rewrite <- EP, <- A5. destruct (l_parent ls); exact A6.
Qed.
Lemma frame_rigid t i l tr : nth_error (c_links (C t)) i = Some l -> lineage (c_links (C t)) i tr -> forall s, rigid (frame_of (P s) i).
Proof.
  intros Hl LG s. revert l Hl. induction LG as [i l0 H0 Hp|i l0 q tr H0 Hp LG IH]; intros l Hl; assert (l0 = l) by congruence; subst l0.
  - destruct (frame_step t i l Hl s) as (RY & _ & FS). rewrite Hp in FS. rewrite (proj1 FS). apply rigid_cascade; [apply rigid_id | exact RY].
  - destruct (frame_step t i l Hl s) as (RY & _ & FS). rewrite Hp in FS. rewrite (proj1 FS).
    destruct (lineage_head _ _ _ LG) as (t' & ->). assert (G : exists lq, nth_error (c_links (C t)) q = Some lq) by (inversion LG; eauto).
    destruct G as (lq & Hq). apply rigid_cascade; [eapply IH; exact Hq | exact RY].
Qed.
Lemma twist_of t i tr : lineage (c_links (C t)) i tr -> (forall k, In k tr -> rates_at C t k) ->
  has_twist (fun s => frame_of (P s) i) t (vel_of (P t) i).
Proof.
  intros LG. induction LG as [i l Hl Hp|i l q tr Hl Hp LG IH]; intros RT.
  - assert (RI := RT i (or_introl eq_refl)).
    assert (FS := frame_step t i l Hl). rewrite Hp in FS. cbv zeta in FS.
    assert (JT : joint_of (C t) i = l_joint l) by (unfold joint_of; rewrite Hl; reflexivity).
    assert (T : has_twist (fun s => joint_xform (joint_of (C s) i) (l_org l)) t (joint_inc_vel (joint_of (C t) i) v6zero)).
    { apply (C04_inc_vel_is_derivative (jtype_of (l_joint l))); [intros s; apply FS|]. unfold rates_at in RI. rewrite JT in RI at 1. exact RI. }
    eapply twist_ext; [intros s; symmetry; apply FS|].
    eapply twist_eq; [apply (twist_cascade (fun _ => fid)); [apply FS | apply twist_const | exact T]|].
    destruct (FS t) as (_ & _ & _ & V). rewrite V. symmetry. apply inc_vel_cat.
  - assert (RI := RT i (or_introl eq_refl)).
    assert (FS := frame_step t i l Hl). rewrite Hp in FS. cbv zeta in FS.
    assert (JT : joint_of (C t) i = l_joint l) by (unfold joint_of; rewrite Hl; reflexivity).
    assert (T : has_twist (fun s => joint_xform (joint_of (C s) i) (l_org l)) t (joint_inc_vel (joint_of (C t) i) v6zero)).
    { apply (C04_inc_vel_is_derivative (jtype_of (l_joint l))); [intros s; apply FS|]. unfold rates_at in RI. rewrite JT in RI at 1. exact RI. }
    eapply twist_ext; [intros s; symmetry; apply FS|].
    eapply twist_eq; [apply (twist_cascade (fun s => frame_of (P s) q)); [apply FS | apply IH; intros; apply RT; now right | exact T]|].
    destruct (FS t) as (_ & _ & _ & V). rewrite V. symmetry. apply inc_vel_cat.
Qed.
End Moves.

(** ** Accelerations *)
Lemma acc_cascade (X Y : R -> frame R) (v w : R -> vec6 R) t a b :
  (forall s, rigid (X s)) -> (forall s, rigid (Y s)) -> has_twist X t (v t) -> has_twist Y t (w t) ->
  has_acc X v t a -> has_acc Y w t b ->
  let p := fpos (Y t) in let o := vang (v t) in let o' := m3tv (fatt (Y t)) o in
  has_acc (fun s => fcascade (X s) (Y s)) (fun s => v6add (xform6lin (Y s) (v s)) (w s)) t
    (V6 (v3add (v3add (m3tv (fatt (Y t)) (v3add (v3add (vlin a) (v3cross (vang a) p)) (v3cross o (v3cross o p))))
                      (v3scale 2 (v3cross o' (vlin (w t))))) (vlin b))
        (v3add (v3add (m3tv (fatt (Y t)) (vang a)) (v3cross o' (vang (w t)))) (vang b))).
Proof.
  intros RX RY TX TY AX AY p o o'. destruct (acc_comp X t v a RX TX AX) as [DL DA].
  assert (EL : v3cross o (m3v (fatt (Y t)) (vlin (w t))) = m3v (fatt (Y t)) (v3cross o' (vlin (w t)))).
  { unfold o'. rewrite rot_cross by apply RY. now rewrite rot_v_tv by apply RY. }
  assert (EA : v3cross o (m3v (fatt (Y t)) (vang (w t))) = m3v (fatt (Y t)) (v3cross o' (vang (w t)))).
  { unfold o'. rewrite rot_cross by apply RY. now rewrite rot_v_tv by apply RY. }
  split.
  - apply D3_ext with (f := fun s => m3v (fatt (X s)) (v3add (v3add (vlin (v s)) (v3cross (vang (v s)) (fpos (Y s)))) (m3v (fatt (Y s)) (vlin (w s))))).
    { intros s. unfold xform6lin, m3tv6, v6linshift, fcascade. cbn [v6add vlin vang fatt]. rewrite m3mul_v. f_equal. rewrite m3v_add_r.
      now rewrite rot_v_tv by apply RY. }
    eapply D3_eq.
    + apply (twist_vec X t (v t)); [exact TX|].
      apply (D3_add (fun s => v3add (vlin (v s)) (v3cross (vang (v s)) (fpos (Y s))))); [|exact (proj1 AY)].
      apply (D3_add (fun s => vlin (v s))); [exact DL|].
      apply D3_cross; [exact DA | exact (proj1 TY)].
    + cbv beta. unfold fcascade. cbn [fatt vlin]. rewrite m3mul_v. f_equal. rewrite !m3v_add_r, m3v_scale_r, rot_v_tv by apply RY.
      rewrite <- EL. fold o p.
      generalize (m3v (fatt (Y t)) (vlin (w t))) (m3v (fatt (Y t)) (vlin b)) (vlin (v t)) (vang a) (vlin a) p o.
      intros. vdestruct. rcomp. vsplit; ring.
  - apply D3_ext with (f := fun s => m3v (fatt (X s)) (v3add (vang (v s)) (m3v (fatt (Y s)) (vang (w s))))).
    { intros s. unfold xform6lin, m3tv6, v6linshift, fcascade. cbn [v6add vlin vang fatt]. rewrite m3mul_v. f_equal. rewrite m3v_add_r.
      now rewrite rot_v_tv by apply RY. }
    eapply D3_eq.
    + apply (twist_vec X t (v t)); [exact TX|]. apply (D3_add (fun s => vang (v s))); [exact DA | exact (proj2 AY)].
    + cbv beta. unfold fcascade. cbn [fatt vang]. rewrite m3mul_v. f_equal. rewrite !m3v_add_r, rot_v_tv by apply RY.
      rewrite <- EA. fold o.
      generalize (m3v (fatt (Y t)) (vang (w t))) (m3v (fatt (Y t)) (vang b)) (vang a) o.
      intros. vdestruct. rcomp. vsplit; ring.
Qed.
Lemma acc_ext X Y v w t a : (forall s, X s = Y s) -> (forall s, v s = w s) -> has_acc X v t a -> has_acc Y w t a.
Proof.
  intros E G [A B]. split; rewrite <- E; (eapply D3_ext; [|eassumption]); intros s; cbv beta; now rewrite E, G.
Qed.
Lemma acc_eq X v t a b : has_acc X v t a -> a = b -> has_acc X v t b. Proof. now intros H <-. Qed.
Lemma acc_mount fo (X : R -> frame R) v t a : has_acc X v t a -> has_acc (fun s => fcascade fo (X s)) v t a.
Proof.
  intros [A B]. split.
  - apply D3_ext with (f := fun s => m3v (fatt fo) (m3v (fatt (X s)) (vlin (v s)))); [intros s; symmetry; apply m3mul_v|].
    cbn [fcascade fatt]. rewrite m3mul_v. now apply D3_m3v_const.
  - apply D3_ext with (f := fun s => m3v (fatt fo) (m3v (fatt (X s)) (vang (v s)))); [intros s; symmetry; apply m3mul_v|].
    cbn [fcascade fatt]. rewrite m3mul_v. now apply D3_m3v_const.
Qed.
Lemma acc_twist X v t d : has_twist X t (v t) -> D3 (fun s => vlin (v s)) t (vlin d) -> D3 (fun s => vang (v s)) t (vang d) ->
  has_acc X v t (V6 (v3add (v3cross (vang (v t)) (vlin (v t))) (vlin d)) (vang d)).
Proof.
  intros T A B. split.
  - apply (twist_vec X t (v t)); assumption.
  - eapply D3_eq; [apply (twist_vec X t (v t)); eassumption|]. cbv beta. rewrite v3cross_diag, v3add_0_l. reflexivity.
Qed.

(** Relative acceleration of a joint. *)
Definition doc_acc (ty : jtype) (q u a : list R) : vec6 R :=
  match ty with
  | TFixed => v6zero
  | TRevol => V6 v3zero (V3 0 0 (at_ a 0))
  | TPrism => V6 (V3 0 0 (at_ a 0)) v3zero
  | TCylin => V6 (V3 0 0 (at_ a 0)) (V3 0 0 (at_ a 1))
  | THooke => let s := sin (at_ q 1) in let c := cos (at_ q 1) in let m := at_ u 0 * at_ u 1 in
      V6 v3zero (V3 (- s * at_ a 0 - c * m) (at_ a 1) (c * at_ a 0 - s * m))
  | TSpher => V6 v3zero (m3tv (raa2m (lin_of q)) (lin_of a))
  | TFloat | TBrFloat => V6 (m3tv (raa2m (ang_of q)) (lin_of a)) (m3tv (raa2m (ang_of q)) (ang_of a))
  end.
Lemma doc_acc_deriv ty q u t a : (forall s, length (q s) = jtype_size ty) -> dis_rate ty q t (u t) -> vel_rate ty u t a ->
  has_acc (fun s => doc_fr ty (q s)) (fun s => doc_twist ty (q s) (u s)) t (doc_acc ty (q t) (u t) a).
Proof.
  intros LQ DR VR. assert (T := doc_twist_deriv ty q t (u t) DR). destruct VR as (_ & _ & VR).
  destruct ty; cbn [jtype_size] in VR.
  - eapply acc_eq; [apply (acc_twist _ (fun s => doc_twist TFixed (q s) (u s)) t v6zero T); apply (D3_const v3zero)|].
    cbn [doc_twist doc_acc vlin vang v6zero]. rcomp. vsplit; ring.
  - assert (H0 := VR 0%nat ltac:(lia)).
    eapply acc_eq; [apply (acc_twist _ (fun s => doc_twist TRevol (q s) (u s)) t (V6 v3zero (V3 0 0 (at_ a 0))) T)|].
    + apply (D3_const v3zero).
    + repeat split; cbn [doc_twist vang vx vy vz]; first [exact H0 | apply D1_const].
    + cbn [doc_twist doc_acc vlin vang]. rcomp. vsplit; ring.
  - assert (H0 := VR 0%nat ltac:(lia)).
    eapply acc_eq; [apply (acc_twist _ (fun s => doc_twist TPrism (q s) (u s)) t (V6 (V3 0 0 (at_ a 0)) v3zero) T)|].
    + repeat split; cbn [doc_twist vlin vx vy vz]; first [exact H0 | apply D1_const].
    + apply (D3_const v3zero).
    + cbn [doc_twist doc_acc vlin vang]. rcomp. vsplit; ring.
  - assert (H0 := VR 0%nat ltac:(lia)). assert (H1 := VR 1%nat ltac:(lia)).
    eapply acc_eq; [apply (acc_twist _ (fun s => doc_twist TCylin (q s) (u s)) t (V6 (V3 0 0 (at_ a 0)) (V3 0 0 (at_ a 1))) T)|].
    + repeat split; cbn [doc_twist vlin vx vy vz]; first [exact H0 | apply D1_const].
    + repeat split; cbn [doc_twist vang vx vy vz]; first [exact H1 | apply D1_const].
    + cbn [doc_twist doc_acc vlin vang]. rcomp. vsplit; ring.
  - assert (H0 := VR 0%nat ltac:(lia)). assert (H1 := VR 1%nat ltac:(lia)).
    destruct DR as (_ & _ & DR). cbn [jtype_size] in DR. assert (Q1 := DR 1%nat ltac:(lia)).
    eapply acc_eq; [apply (acc_twist _ (fun s => doc_twist THooke (q s) (u s)) t (doc_acc THooke (q t) (u t) a) T)|].
    + apply (D3_const v3zero).
    + repeat split; cbn [doc_twist doc_acc vang vx vy vz]; (dsolve; cbv beta; ring).
    + cbn [doc_twist doc_acc vlin vang]. rcomp. vsplit; ring.
  - assert (H0 := VR 0%nat ltac:(lia)). assert (H1 := VR 1%nat ltac:(lia)). assert (H2 := VR 2%nat ltac:(lia)).
    assert (FA : forall s, fatt (doc_fr TSpher (q s)) = raa2m (lin_of (q s))).
    { intros s. unfold doc_fr. specialize (LQ s). cbn [jtype_size] in LQ. rewrite (len3 _ LQ). reflexivity. }
    split.
    + apply D3_ext with (f := fun _ => v3zero); [intros s; symmetry; apply m3v_0_r|]. cbn [doc_acc vlin]. rewrite m3v_0_r. apply D3_const.
    + apply D3_ext with (f := fun s => lin_of (u s)); [intros s; rewrite FA; cbn [doc_twist vang]; symmetry; apply rot_v_tv, raa_rot|].
      rewrite FA. cbn [doc_acc vang]. rewrite rot_v_tv by apply raa_rot. repeat split; assumption.
  - assert (H0 := VR 0%nat ltac:(lia)). assert (H1 := VR 1%nat ltac:(lia)). assert (H2 := VR 2%nat ltac:(lia)).
    assert (H3 := VR 3%nat ltac:(lia)). assert (H4 := VR 4%nat ltac:(lia)). assert (H5 := VR 5%nat ltac:(lia)).
    assert (FA : forall s, fatt (doc_fr TFloat (q s)) = raa2m (ang_of (q s))).
    { intros s. unfold doc_fr. specialize (LQ s). cbn [jtype_size] in LQ. rewrite (len6 _ LQ). reflexivity. }
    split.
    + apply D3_ext with (f := fun s => lin_of (u s)); [intros s; rewrite FA; cbn [doc_twist vlin]; symmetry; apply rot_v_tv, raa_rot|].
      rewrite FA. cbn [doc_acc vlin]. rewrite rot_v_tv by apply raa_rot. repeat split; assumption.
    + apply D3_ext with (f := fun s => ang_of (u s)); [intros s; rewrite FA; cbn [doc_twist vang]; symmetry; apply rot_v_tv, raa_rot|].
      rewrite FA. cbn [doc_acc vang]. rewrite rot_v_tv by apply raa_rot. repeat split; assumption.
  - assert (H0 := VR 0%nat ltac:(lia)). assert (H1 := VR 1%nat ltac:(lia)). assert (H2 := VR 2%nat ltac:(lia)).
    assert (H3 := VR 3%nat ltac:(lia)). assert (H4 := VR 4%nat ltac:(lia)). assert (H5 := VR 5%nat ltac:(lia)).
    assert (FA : forall s, fatt (doc_fr TBrFloat (q s)) = raa2m (ang_of (q s))).
    { intros s. unfold doc_fr. specialize (LQ s). cbn [jtype_size] in LQ. rewrite (len6 _ LQ). reflexivity. }
    split.
    + apply D3_ext with (f := fun s => lin_of (u s)); [intros s; rewrite FA; cbn [doc_twist vlin]; symmetry; apply rot_v_tv, raa_rot|].
      rewrite FA. cbn [doc_acc vlin]. rewrite rot_v_tv by apply raa_rot. repeat split; assumption.
    + apply D3_ext with (f := fun s => ang_of (u s)); [intros s; rewrite FA; cbn [doc_twist vang]; symmetry; apply rot_v_tv, raa_rot|].
      rewrite FA. cbn [doc_acc vang]. rewrite rot_v_tv by apply raa_rot. repeat split; assumption.
Qed.
(** Translation and rotation rates of a floating joint are parallel (in particular one of them may be zero). *)
Definition no_screw (j : joint R) : Prop :=
  match jtype_of j with
  | TFloat | TBrFloat => v3cross (ang_of (joint_get_vel j)) (lin_of (joint_get_vel j)) = v3zero
  | _ => True
  end.
Lemma inc_acc_doc (j : joint R) o a : cache_ok j -> no_screw j ->
  let w := doc_twist (jtype_of j) (joint_get_dis j) (joint_get_vel j) in
  let b := doc_acc (jtype_of j) (joint_get_dis j) (joint_get_vel j) (joint_get_acc j) in
  joint_inc_acc j (joint_inc_acc_on_vel j (v3add o (vang w)) a) =
  V6 (v3add (v3add (vlin a) (v3scale 2 (v3cross o (vlin w)))) (vlin b)) (v3add (v3add (vang a) (v3cross o (vang w))) (vang b)).
Proof.
  intros K NS w b. subst w b. destruct a as [[k1 k2 k3] [m1 m2 m3]]. destruct o as [o1 o2 o3].
  destruct j; unfold no_screw in NS; cbn [joint_inc_acc joint_inc_acc_on_vel jtype_of doc_twist doc_acc] in *;
    unfold joint_get_vel, joint_get_dis, joint_get_acc in *; cbn [joint_get_gen cache_ok] in *; unfold at_ in *; cbn [nth] in *.
  - rcomp. vsplit; ring.
  - rcomp. vsplit; ring.
  - rcomp. unfold n2. cbn [n0 n1 nadd nmul nsub nopp Num_R]. vsplit; ring.
  - rcomp. unfold n2. cbn [n0 n1 nadd nmul nsub nopp Num_R]. vsplit; ring.
  - destruct K as [_ [K1 K2]]. unfold add_ang, hooke_vec. rewrite K1, K2. cbn [x_sin x_cos Ext_R].
    rcomp. vsplit; ring.
  - unfold add_ang. rewrite K. destruct s as [[a1 a2 a3] [b1 b2 b3] [c1 c2 c3] ? ? ?]. unfold lin_of, at_ in *.
    cbn [sp_aa sp_vel sp_acc nth l3 vlin vang vx vy vz x_aa2m Ext_R] in *.
    generalize (m3tv (raa2m (V3 a1 a2 a3)) (V3 b1 b2 b3)) (m3tv (raa2m (V3 a1 a2 a3)) (V3 c1 c2 c3)).
    intros. vdestruct. rcomp. vsplit; ring.
  - rewrite K. destruct f as [[[a1 a2 a3] [a4 a5 a6]] [[b1 b2 b3] [b4 b5 b6]] [[c1 c2 c3] [c4 c5 c6]] ? ?]. unfold lin_of, ang_of, at_, m3tv6 in *.
    cbn [fl_dis fl_vel fl_acc nth l3 l6 app vlin vang vx vy vz x_aa2m Ext_R] in *.
    assert (RR : rotation (raa2m (V3 a4 a5 a6))) by apply raa_rot.
    assert (X : v3cross (m3tv (raa2m (V3 a4 a5 a6)) (V3 b4 b5 b6)) (m3tv (raa2m (V3 a4 a5 a6)) (V3 b1 b2 b3)) = v3zero).
    { rewrite <- rot_cross_t by exact RR. rewrite NS. apply m3tv_0_r. }
    revert X. generalize (m3tv (raa2m (V3 a4 a5 a6)) (V3 b4 b5 b6)) (m3tv (raa2m (V3 a4 a5 a6)) (V3 b1 b2 b3))
      (m3tv (raa2m (V3 a4 a5 a6)) (V3 c1 c2 c3)) (m3tv (raa2m (V3 a4 a5 a6)) (V3 c4 c5 c6)).
    intros u w b b' X. rewrite !v3cross_add_l, X, v3cross_diag. clear X. unfold n2. vdestruct. rcomp. vsplit; ring.
  - rewrite K. destruct f as [[[a1 a2 a3] [a4 a5 a6]] [[b1 b2 b3] [b4 b5 b6]] [[c1 c2 c3] [c4 c5 c6]] ? ?]. unfold lin_of, ang_of, at_, m3tv6 in *.
    cbn [fl_dis fl_vel fl_acc nth l3 l6 app vlin vang vx vy vz x_aa2m Ext_R] in *.
    assert (RR : rotation (raa2m (V3 a4 a5 a6))) by apply raa_rot.
    assert (X : v3cross (m3tv (raa2m (V3 a4 a5 a6)) (V3 b4 b5 b6)) (m3tv (raa2m (V3 a4 a5 a6)) (V3 b1 b2 b3)) = v3zero).
    { rewrite <- rot_cross_t by exact RR. rewrite NS. apply m3tv_0_r. }
    revert X. generalize (m3tv (raa2m (V3 a4 a5 a6)) (V3 b4 b5 b6)) (m3tv (raa2m (V3 a4 a5 a6)) (V3 b1 b2 b3))
      (m3tv (raa2m (V3 a4 a5 a6)) (V3 c1 c2 c3)) (m3tv (raa2m (V3 a4 a5 a6)) (V3 c4 c5 c6)).
    intros u w b b' X. rewrite !v3cross_add_l, X, v3cross_diag. clear X. unfold n2. vdestruct. rcomp. vsplit; ring.
Qed.

(** ** C37 *)
(** [A] holds accelerations computed at the state [p]: by the rate update itself, or by a separate
    acceleration update. *)
Definition accelerated (g : R) (c p A : chain R) : Prop :=
  (A = p /\ exists c1, chain_update_frame c = Some c1 /\ chain_update_rate g c1 = Some p) \/ chain_update_acc g p = Some A.
Definition acc_formula (j : joint R) (Y : frame R) (v pv pa : vec6 R) : vec6 R :=
  joint_inc_acc j (joint_inc_acc_on_vel j (vang v) (m3tv6 (fatt Y)
    (V6 (v3add (vlin (v6linshift pa (fpos Y))) (v3cross (vang pv) (v3cross (vang pv) (fpos Y)))) (vang (v6linshift pa (fpos Y)))))).
Lemma acc_posed g c p A : posed c p -> well_formed (c_links c) -> well_formed (c_links p) -> accelerated g c p A -> forall i l, nth_error (c_links c) i = Some l ->
  exists l' lA, nth_error (c_links p) i = Some l' /\ nth_error (c_links A) i = Some lA /\ l_vel lA = l_vel l' /\ l_frame lA = l_frame l' /\
    b_mp (l_body lA) = b_mp (l_body l) /\
    b_comacc (l_body lA) = v3add (v3add (v3triple (vang (l_vel lA)) (vang (l_vel lA)) (l_com lA)) (v3cross (vang (l_acc lA)) (l_com lA))) (vlin (l_acc lA)) /\
    match l_parent l with
    | None => l_acc lA = acc_formula (l_joint l) (l_adj l') (l_vel l') v6zero (grav g)
    | Some q => l_acc lA = acc_formula (l_joint l) (l_adj l') (l_vel l') (vel_of p q) (acc_of A q)
    end.
Proof.
  intros PO W WP AC i l Hl. destruct (proj2 PO i l Hl) as (l' & Hl' & J & O & Q & M & Adj & _).
  destruct AC as [[-> (c1 & H1 & H2)]|H2].
  - destruct (C24_frame_pass c W) as (c1' & A1 & P1 & W1). assert (c1' = c1) by congruence. subst c1'.
    destruct (C24_rate_pass g c1 W1) as (p' & A2 & P2 & _). assert (p' = p) by congruence. subst p'.
    destruct (pass_keeps _ _ P1 i l Hl) as (l1 & Hl1 & J1 & O1 & Q1 & _ & M1).
    destruct (proj2 P2 i l1 Hl1) as ([pv pa] & HL & C). assert (l' = upd_rate l1 (pv, pa)) by congruence. subst l'.
    exists (upd_rate l1 (pv, pa)), (upd_rate l1 (pv, pa)). do 5 (split; [first [exact Hl' | reflexivity | exact M]|]).
    split; [reflexivity|]. rewrite Q1 in C.
    assert (JJ : l_joint (upd_rate l1 (pv, pa)) = l_joint l1) by reflexivity. rewrite JJ in J. rewrite <- J.
    destruct (l_parent l) as [q|].
    + destruct C as (lq & Hq & E). injection E as E1 E2. unfold vel_of, acc_of. rewrite Hq, <- E1, <- E2. reflexivity.
    + destruct C as (_ & E). injection E as E1 E2. rewrite <- E1. unfold grav. subst pa. reflexivity.
  - destruct (C24_acc_pass g p WP) as (A' & H & P2 & _). assert (A' = A) by congruence. subst A'.
    destruct (proj2 P2 i l' Hl') as ([pv pa] & HL & C). cbn [fst snd] in HL.
    exists l', (upd_acc l' pv pa). split; [exact Hl'|]. split; [exact HL|]. do 2 (split; [reflexivity|]). split; [exact M|]. split; [reflexivity|].
    rewrite Q in C. rewrite <- J. destruct (l_parent l) as [q|].
    + destruct C as (lq & Hq & E). injection E as E1 E2. unfold acc_of. rewrite Hq.
      assert (V : vel_of p q = pv).
      { unfold vel_of. destruct (nth_error (c_links p) q) as [lq'|] eqn:Hq'.
        - destruct (proj2 P2 q lq' Hq') as ([pv' pa'] & HL' & _). assert (lq = upd_acc lq' pv' pa') by (cbn [fst snd] in HL'; congruence). subst lq. rewrite E1. reflexivity.
        - exfalso. apply nth_error_None in Hq'. assert (G : nth_error (c_links A) q <> None) by congruence. apply nth_error_Some in G. rewrite (proj1 P2) in G. lia. }
      rewrite V, <- E2. reflexivity.
    + destruct C as (_ & E). injection E as E1 E2. rewrite E1. subst pa. reflexivity.
Qed.

Section Moves2.
Variables (g : R) (C P : R -> chain R).
Hypothesis MV : moves g C P.
Lemma moves_wf s : well_formed (c_links (P s)).
Proof.
  destruct (proj2 (proj2 MV) s) as (c1 & A & B). destruct (C24_frame_pass (C s) (proj1 (proj1 MV s))) as (c1' & A1 & P1 & W1).
  assert (c1' = c1) by congruence. subst c1'. destruct B as [B|B].
  - destruct (C24_vel_pass c1 W1) as (p' & D & _ & W). congruence.
  - destruct (C24_rate_pass g c1 W1) as (p' & D & _ & W). congruence.
Qed.
Lemma joint_acc t i l : nth_error (c_links (C t)) i = Some l -> (forall s, rates_at C s i) -> accs_at C t i ->
  let j := l_joint l in
  (forall s, has_twist (fun s => joint_xform (joint_of (C s) i) (l_org l)) s (joint_inc_vel (joint_of (C s) i) v6zero)) /\
  joint_inc_vel j v6zero = doc_twist (jtype_of j) (joint_get_dis j) (joint_get_vel j) /\
  has_acc (fun s => joint_xform (joint_of (C s) i) (l_org l)) (fun s => joint_inc_vel (joint_of (C s) i) v6zero) t
    (doc_acc (jtype_of j) (joint_get_dis j) (joint_get_vel j) (joint_get_acc j)).
Proof.
  intros Hl RT AC j. assert (FS := frame_step g C P MV t i l Hl). cbv zeta in FS.
  assert (JT : joint_of (C t) i = j) by (unfold joint_of; rewrite Hl; reflexivity).
  assert (OK : forall s, cache_ok (joint_of (C s) i) /\ jtype_of (joint_of (C s) i) = jtype_of j) by (intros s; apply reachable_ok, FS).
  split; [|split].
  - intros s. apply (C04_inc_vel_is_derivative (jtype_of j)); [intros s'; apply FS|]. specialize (RT s). unfold rates_at in RT.
    rewrite (proj2 (OK s)) in RT. exact RT.
  - rewrite <- JT. apply inc_vel_doc, OK.
  - apply acc_ext with (X := fun s => fcascade (l_org l) (doc_fr (jtype_of j) (joint_get_dis (joint_of (C s) i))))
      (v := fun s => doc_twist (jtype_of j) (joint_get_dis (joint_of (C s) i)) (joint_get_vel (joint_of (C s) i))).
    + intros s. rewrite (xform_doc _ (proj1 (OK s))), (proj2 (OK s)). reflexivity.
    + intros s. rewrite (inc_vel_doc _ (proj1 (OK s))), (proj2 (OK s)). reflexivity.
    + apply acc_mount. assert (RTt := RT t). unfold rates_at in RTt. unfold accs_at in AC. rewrite (proj2 (OK t)) in RTt, AC.
      rewrite <- JT at 2 3 4.
      apply (doc_acc_deriv (jtype_of j) (fun s => joint_get_dis (joint_of (C s) i)) (fun s => joint_get_vel (joint_of (C s) i))); [apply RTt | exact RTt | exact AC].
Qed.
Definition gv : vec3 R := V3 0 0 g.
Lemma acc_step_eq (j : joint R) Y o pv pa R0 : cache_ok j -> no_screw j -> rigid Y ->
  joint_inc_vel j v6zero = doc_twist (jtype_of j) (joint_get_dis j) (joint_get_vel j) ->
  o = joint_inc_vel j (xform6lin Y pv) ->
  let w := joint_inc_vel j v6zero in let b := doc_acc (jtype_of j) (joint_get_dis j) (joint_get_vel j) (joint_get_acc j) in
  let o' := m3tv (fatt Y) (vang pv) in
  let a := V6 (v3sub (vlin pa) (m3tv R0 gv)) (vang pa) in
  let acc := acc_formula j Y o pv pa in
  V6 (v3add (v3add (m3tv (fatt Y) (v3add (v3add (vlin a) (v3cross (vang a) (fpos Y))) (v3cross (vang pv) (v3cross (vang pv) (fpos Y)))))
                      (v3scale 2 (v3cross o' (vlin w)))) (vlin b))
        (v3add (v3add (m3tv (fatt Y) (vang a)) (v3cross o' (vang w))) (vang b)) =
  V6 (v3sub (vlin acc) (m3tv (m3mul R0 (fatt Y)) gv)) (vang acc).
Proof.
  intros K NS RY DT EO w b o' a acc. subst acc. unfold acc_formula.
  assert (O : vang o = v3add o' (vang (doc_twist (jtype_of j) (joint_get_dis j) (joint_get_vel j)))).
  { rewrite EO, inc_vel_cat, DT. unfold o', xform6lin, m3tv6, v6linshift. reflexivity. }
  rewrite O, (inc_acc_doc j o' _ K NS), <- DT. fold w. fold b.
  unfold m3tv6, v6linshift. cbn [vlin vang]. unfold a. cbn [vlin vang].
  f_equal. rewrite (m3tv_tr (m3mul R0 (fatt Y))), m3tr_mul, m3mul_v, <- !m3tv_tr.
  rewrite !m3tv_add_r, m3tv_sub_r.
  generalize (m3tv (fatt Y) (m3tv R0 gv)) (m3tv (fatt Y) (vlin pa)) (m3tv (fatt Y) (v3cross (vang pa) (fpos Y))) (m3tv (fatt Y) (v3cross (vang pv) (v3cross (vang pv) (fpos Y))))
    (v3scale 2 (v3cross o' (vlin w))) (vlin b).
  intros. vdestruct. rcomp. vsplit; ring.
Qed.
Lemma acc_of_link A t i tr : accelerated g (C t) (P t) A -> lineage (c_links (C t)) i tr ->
  (forall k s, In k tr -> rates_at C s k) -> (forall k, In k tr -> accs_at C t k) -> (forall k, In k tr -> no_screw (joint_of (C t) k)) ->
  has_acc (fun s => frame_of (P s) i) (fun s => vel_of (P s) i) t
    (V6 (v3sub (vlin (acc_of A i)) (m3tv (fatt (frame_of (P t) i)) gv)) (vang (acc_of A i))).
Proof.
  intros AC LG. induction LG as [i l Hl Hp|i l q tr Hl Hp LG IH]; intros RT AT NS.
  - assert (FS := frame_step g C P MV t i l Hl). rewrite Hp in FS. cbv zeta in FS.
    assert (JT : joint_of (C t) i = l_joint l) by (unfold joint_of; rewrite Hl; reflexivity).
    destruct (joint_acc t i l Hl (fun s => RT i s (or_introl eq_refl)) (AT i (or_introl eq_refl))) as (JW & JD & JA).
    destruct (acc_posed g _ _ A (moves_posed g C P MV t) (proj1 (proj1 MV t)) (moves_wf t) AC i l Hl) as (l' & lA & Hl' & HA & _ & _ & _ & _ & EA).
    rewrite Hp in EA. destruct (proj2 (moves_posed g C P MV t) i l Hl) as (l'' & Hl'' & _ & _ & _ & _ & Adj & _). assert (l'' = l') by congruence. subst l''.
    assert (AE : acc_of A i = acc_formula (l_joint l) (l_adj l') (vel_of (P t) i) v6zero (grav g)).
    { unfold acc_of, vel_of. now rewrite HA, Hl', EA. }
    assert (YE : l_adj l' = joint_xform (joint_of (C t) i) (l_org l)) by (rewrite JT; exact Adj).
    eapply acc_ext; [intros s; symmetry; apply FS | intros s; destruct (FS s) as (_ & _ & _ & ->); symmetry; apply inc_vel_cat |].
    eapply acc_eq.
    + apply (acc_cascade (fun _ => fid) (fun s => joint_xform (joint_of (C s) i) (l_org l)) (fun _ => v6zero) (fun s => joint_inc_vel (joint_of (C s) i) v6zero) t
        (V6 (v3sub (vlin (grav g)) (m3tv m3id gv)) (vang (grav g)))).
      * intros; apply rigid_id.
      * intros s; apply FS.
      * apply twist_const.
      * apply JW.
      * split; cbn [fid fatt vlin vang v6zero]; rewrite ?m3v_0_r; (eapply D3_eq; [apply D3_const|]); unfold grav, gv; rcomp; vsplit; ring.
      * exact JA.
    + cbv beta zeta. rewrite AE, YE, JT.
      rewrite (acc_step_eq (l_joint l) _ (vel_of (P t) i) v6zero (grav g) m3id).
      * f_equal. f_equal. destruct (FS t) as (_ & _ & -> & _). rewrite JT. reflexivity.
      * rewrite <- JT. apply (reachable_ok _ _ (proj1 (proj2 (FS t)))).
      * rewrite <- JT. apply NS. now left.
      * rewrite <- JT. apply FS.
      * exact JD.
      * rewrite <- JT. apply FS.
  - assert (FS := frame_step g C P MV t i l Hl). rewrite Hp in FS. cbv zeta in FS.
    assert (JT : joint_of (C t) i = l_joint l) by (unfold joint_of; rewrite Hl; reflexivity).
    assert (LQ : exists lq, nth_error (c_links (C t)) q = Some lq) by (inversion LG; eauto). destruct LQ as (lq & Hlq).
    destruct (joint_acc t i l Hl (fun s => RT i s (or_introl eq_refl)) (AT i (or_introl eq_refl))) as (JW & JD & JA).
    destruct (acc_posed g _ _ A (moves_posed g C P MV t) (proj1 (proj1 MV t)) (moves_wf t) AC i l Hl) as (l' & lA & Hl' & HA & _ & _ & _ & _ & EA).
    rewrite Hp in EA. destruct (proj2 (moves_posed g C P MV t) i l Hl) as (l'' & Hl'' & _ & _ & _ & _ & Adj & _). assert (l'' = l') by congruence. subst l''.
    assert (AE : acc_of A i = acc_formula (l_joint l) (l_adj l') (vel_of (P t) i) (vel_of (P t) q) (acc_of A q)).
    { unfold acc_of at 1. unfold vel_of at 1. now rewrite HA, Hl', EA. }
    assert (YE : l_adj l' = joint_xform (joint_of (C t) i) (l_org l)) by (rewrite JT; exact Adj).
    eapply acc_ext; [intros s; symmetry; apply FS | intros s; destruct (FS s) as (_ & _ & _ & ->); symmetry; apply inc_vel_cat |].
    eapply acc_eq.
    + apply (acc_cascade (fun s => frame_of (P s) q) (fun s => joint_xform (joint_of (C s) i) (l_org l)) (fun s => vel_of (P s) q) (fun s => joint_inc_vel (joint_of (C s) i) v6zero) t
        (V6 (v3sub (vlin (acc_of A q)) (m3tv (fatt (frame_of (P t) q)) gv)) (vang (acc_of A q)))).
      * intros s. apply (frame_rigid g C P MV t q lq tr Hlq LG).
      * intros s; apply FS.
      * apply (twist_of g C P MV t q tr LG). intros k Hk. apply RT. now right.
      * apply JW.
      * apply IH; intros; [apply RT | apply AT | apply NS]; now right.
      * exact JA.
    + cbv beta zeta. rewrite AE, YE, JT.
      rewrite (acc_step_eq (l_joint l) _ (vel_of (P t) i) (vel_of (P t) q) (acc_of A q) (fatt (frame_of (P t) q))).
      * f_equal. f_equal. destruct (FS t) as (_ & _ & -> & _). rewrite JT. reflexivity.
      * rewrite <- JT. apply (reachable_ok _ _ (proj1 (proj2 (FS t)))).
      * rewrite <- JT. apply NS. now left.
      * rewrite <- JT. apply FS.
      * exact JD.
      * rewrite <- JT. apply FS.
Qed.
End Moves2.

(** World position of a point of a link, its velocity by rkLinkPointVel and acceleration by rkLinkPointAcc. *)
Definition point_pos (c : chain R) (i : nat) (p : vec3 R) : vec3 R := xform (frame_of c i) p.
Definition point_vel (c : chain R) (i : nat) (p : vec3 R) : vec3 R :=
  match nth_error (c_links c) i with Some l => m3v (fatt (l_frame l)) (link_point_vel l p) | None => v3zero end.
Definition point_acc (c : chain R) (i : nat) (p : vec3 R) : vec3 R :=
  match nth_error (c_links c) i with Some l => m3v (fatt (l_frame l)) (link_point_acc l p) | None => v3zero end.
Definition ang_vel (c : chain R) (i : nat) : vec3 R := m3v (fatt (frame_of c i)) (vang (vel_of c i)).
Definition ang_acc (c : chain R) (i : nat) : vec3 R := m3v (fatt (frame_of c i)) (vang (acc_of c i)).

Lemma moves_at g C P t i tr : moves g C P -> lineage (c_links (C t)) i tr -> forall s, exists l, nth_error (c_links (P s)) i = Some l.
Proof.
  intros MV LG s. assert (exists l0, nth_error (c_links (C t)) i = Some l0) as (l0 & H0) by (inversion LG; eauto).
  destruct (moves_nth g C P MV s t i l0 H0) as (ls & Hs & _). destruct (proj2 (moves_posed g C P MV s) i ls Hs) as (lp & Hp & _). eauto.
Qed.
Lemma vel_point g C P t i tr p : moves g C P -> lineage (c_links (C t)) i tr -> (forall k, In k tr -> rates_at C t k) ->
  D3 (fun s => point_pos (P s) i p) t (point_vel (P t) i p).
Proof.
  intros MV LG RT. assert (T := twist_of g C P MV t i tr LG RT). destruct (moves_at g C P t i tr MV LG t) as (l & Hl).
  unfold vel_of in T. unfold point_vel. rewrite Hl in *. eapply D3_eq; [apply (twist_point _ _ _ p T)|].
  unfold frame_of. rewrite Hl. f_equal. unfold link_point_vel. apply v3add_comm.
Qed.
Lemma acc_point g C P A t i tr p : moves g C P -> accelerated g (C t) (P t) A -> lineage (c_links (C t)) i tr ->
  (forall k s, In k tr -> rates_at C s k) -> (forall k, In k tr -> accs_at C t k) -> (forall k, In k tr -> no_screw (joint_of (C t) k)) ->
  D3 (fun s => point_vel (P s) i p) t (v3sub (point_acc A i p) (V3 0 0 g)) /\
  D3 (fun s => ang_vel (P s) i) t (ang_acc A i).
Proof.
  intros MV AC LG RT AT NS. assert (H := acc_of_link g C P MV A t i tr AC LG RT AT NS).
  assert (exists l0, nth_error (c_links (C t)) i = Some l0) as (l0 & H0) by (inversion LG; eauto).
  assert (RG := frame_rigid g C P MV t i l0 tr H0 LG).
  assert (T := twist_of g C P MV t i tr LG (fun k Hk => RT k t Hk)).
  destruct (acc_comp _ t (fun s => vel_of (P s) i) _ RG T H) as [DL DA]. cbn [vlin vang] in DL, DA.
  destruct (acc_posed g _ _ A (moves_posed g C P MV t) (proj1 (proj1 MV t)) (moves_wf g C P MV t) AC i l0 H0) as (l' & lA & Hl' & HA & EV & EF & _).
  split.
  - apply D3_ext with (f := fun s => m3v (fatt (frame_of (P s) i)) (v3add (v3cross (vang (vel_of (P s) i)) p) (vlin (vel_of (P s) i)))).
    { intros s. destruct (moves_at g C P t i tr MV LG s) as (l & Hl). unfold point_vel, frame_of, vel_of. now rewrite Hl. }
    eapply D3_eq.
    + apply (twist_vec _ t (vel_of (P t) i)); [exact T|].
      apply (D3_add (fun s => v3cross (vang (vel_of (P s) i)) p)); [|exact DL].
      apply D3_cross; [exact DA | apply D3_const].
    + unfold point_acc. rewrite HA. assert (RGt := RG t). unfold frame_of, vel_of, acc_of, gv in *. rewrite Hl', HA, EF in *.
      rewrite <- (rot_v_tv (fatt (l_frame l')) (V3 0 0 g)) by exact RGt. rewrite <- m3v_sub_r. f_equal.
      unfold link_point_acc. rewrite EV. fold (l_frame l').
      rewrite rot_v_tv by exact RGt.
      generalize (vlin (l_vel l')) (vang (l_vel l')) (vlin (l_acc lA)) (vang (l_acc lA)) (m3tv (fatt (l_frame l')) (V3 0 0 g)).
      intros. vdestruct. rcomp. vsplit; ring.
  - assert (FE : frame_of A i = frame_of (P t) i) by (unfold frame_of; now rewrite HA, Hl', EF).
    unfold ang_acc. rewrite FE. exact (proj2 H).
Qed.

(** Mass-weighted sums over the links. *)
Lemma fold_cat (w : lkR -> R) (f : lkR -> vec3 R) h a :
  fold_left (fun p l => v3cat p (w l) (f l)) h a = v3add a (v3sum (map (fun l => v3scale (w l) (f l)) h)).
Proof.
  revert a. induction h as [|l h IH]; intros a; [unfold v3sum; cbn [map fold_left fold_right]; symmetry; apply v3add_0_r|].
  cbn [fold_left map]. rewrite IH. unfold v3sum. cbn [map fold_right]. fold (v3sum (map (fun l => v3scale (w l) (f l)) h)).
  generalize (v3sum (map (fun l => v3scale (w l) (f l)) h)) (f l) (w l). intros. vdestruct. rcomp. vsplit; ring.
Qed.
Definition atl (f : lkR -> vec3 R) (h : list lkR) (i : nat) : vec3 R := match nth_error h i with Some l => f l | None => v3zero end.
Lemma sum_idx (f : lkR -> vec3 R) h : v3sum (map f h) = v3sum (map (atl f h) (seq 0 (length h))).
Proof.
  f_equal. induction h as [|l h IH]; [reflexivity|]. cbn [map length seq]. f_equal. rewrite IH, <- seq_shift, map_map. reflexivity.
Qed.
Lemma D3_sum {A} (F : R -> A -> vec3 R) (d : A -> vec3 R) t l : (forall a, In a l -> D3 (fun s => F s a) t (d a)) ->
  D3 (fun s => v3sum (map (F s) l)) t (v3sum (map d l)).
Proof.
  induction l as [|a l IH]; intros H; [apply (D3_const v3zero)|]. unfold v3sum. cbn [map fold_right].
  apply (D3_add (fun s => F s a)); [apply H; now left|]. apply IH. intros; apply H; now right.
Qed.
Lemma D3_sum_links (H : R -> list lkR) (G : list lkR) f d t n : (forall s, length (H s) = n) -> length G = n ->
  (forall i, (i < n)%nat -> D3 (fun s => atl f (H s) i) t (atl d G i)) -> D3 (fun s => v3sum (map f (H s))) t (v3sum (map d G)).
Proof.
  intros LH LG D. rewrite sum_idx, LG. apply D3_ext with (f := fun s => v3sum (map (atl f (H s)) (seq 0 n))).
  { intros s. now rewrite (sum_idx f), LH. }
  apply (D3_sum (fun s => atl f (H s))). intros i Hi. apply in_seq in Hi. apply D. lia.
Qed.
Lemma moves_len g C P : moves g C P -> forall s t, length (c_links (P s)) = length (c_links (C t)).
Proof. intros MV s t. rewrite (proj1 (moves_posed g C P MV s)). apply (proj1 (proj2 MV) s t). Qed.
Lemma lift_mass f (c c' : chain R) : chain_lift f c = Some c' -> c_mass c' = c_mass c.
Proof. unfold chain_lift. destruct (f _ _); cbn; intros H; [injection H as <-; reflexivity | discriminate]. Qed.
Lemma moves_mass g C P : moves g C P -> forall s t, c_mass (P s) = c_mass (C t).
Proof.
  intros MV s t. destruct (proj2 (proj2 MV) s) as (c1 & A & B).
  transitivity (c_mass c1); [destruct B as [B|B]; exact (lift_mass _ _ _ B)|]. rewrite (lift_mass _ _ _ A). apply (proj1 (proj2 MV) s t).
Qed.
Lemma moves_link g C P : moves g C P -> forall s t i l, nth_error (c_links (C t)) i = Some l -> exists l', nth_error (c_links (P s)) i = Some l' /\
  b_mp (l_body l') = b_mp (l_body l) /\ b_wcom (l_body l') = point_pos (P s) i (l_com l) /\ m3v (fatt (l_frame l')) (b_comvel (l_body l')) = point_vel (P s) i (l_com l).
Proof.
  intros MV s t i l Hl. destruct (moves_nth g C P MV s t i l Hl) as (ls & Hs & _ & _ & _ & EM).
  destruct (proj2 (moves_posed g C P MV s) i ls Hs) as (lp & Hp & _ & _ & _ & A4 & _ & A6 & A7 & _).
  exists lp. split; [exact Hp|]. split; [congruence|]. unfold point_pos, point_vel, frame_of. rewrite Hp.
  assert (EC : l_com lp = l_com l) by (unfold l_com; congruence). rewrite <- EC. split; [exact A6|]. rewrite A7. f_equal. unfold link_point_vel. apply v3add_comm.
Qed.
Lemma D3_scale_const k f t d : D3 f t d -> D3 (fun s => v3scale k (f s)) t (v3scale k d).
Proof.
  intros H. eapply D3_eq; [apply (D3_scale (fun _ => k)); [apply D1_const | exact H]|].
  match goal with |- context [v3scale 0 ?x] => change (v3scale 0 x) with (v3scale (n0 : R) x) end. rewrite v3scale_0_l. apply v3add_0_l.
Qed.

(** ** Theorems *)
(** C36: rkLinkPointVel of any point of any link is the derivative of the position of that point, and the angular
    velocity turns the attitude: att' = [w x] att. *)
Theorem C36_velocity_is_derivative g (C P : R -> chain R) t i tr (p : vec3 R) :
  moves g C P -> lineage (c_links (C t)) i tr -> (forall k, In k tr -> rates_at C t k) ->
  D3 (fun s => point_pos (P s) i p) t (point_vel (P t) i p) /\
  DM (fun s => fatt (frame_of (P s) i)) t (m3mul (m3skew (ang_vel (P t) i)) (fatt (frame_of (P t) i))).
Proof.
  intros MV LG RT. split; [eapply vel_point; eassumption|]. assert (T := twist_of g C P MV t i tr LG RT).
  assert (exists l0, nth_error (c_links (C t)) i = Some l0) as (l0 & H0) by (inversion LG; eauto).
  assert (RG := frame_rigid g C P MV t i l0 tr H0 LG t).
  eapply DM_eq; [apply T|]. unfold ang_vel. rewrite m3skew_rot by exact RG. rewrite rot_tv_v by exact RG. reflexivity.
Qed.
(** C36: rkChainCalcCOMVel gives the derivative of the centre of mass given by rkChainCalcCOM. *)
Theorem C36_com_velocity g (C P : R -> chain R) t :
  moves g C P -> (forall k, (k < length (c_links (C t)))%nat -> rates_at C t k) ->
  D3 (fun s => c_wcom (chain_calc_com (P s))) t (c_comvel (chain_calc_comvel (P t))).
Proof.
  intros MV RT. set (M := c_mass (C t)).
  unfold chain_calc_com, chain_calc_comvel. cbn [c_wcom c_comvel].
  apply D3_ext with (f := fun s => v3sum (map (fun l => v3scale (l_mass l / M) (b_wcom (l_body l))) (c_links (P s)))).
  { intros s. rewrite (fold_cat l_mass (fun l => b_wcom (l_body l))), v3add_0_l, (moves_mass g C P MV s t). fold M.
    induction (c_links (P s)) as [|l h IH]; [unfold v3sum; cbn [map fold_right]; unfold v3div, v3zero; cbn [vx vy vz ndiv n0 Num_R]; unfold Rdiv; now rewrite Rmult_0_l|].
    unfold v3sum in *. cbn [map fold_right]. rewrite IH. generalize (fold_right v3add v3zero (map (fun l => v3scale (l_mass l) (b_wcom (l_body l))) h)) (l_mass l) (b_wcom (l_body l)).
    intros. vdestruct. unfold v3div. rcomp. cbn [ndiv Num_R]. unfold Rdiv. vsplit; ring. }
  rewrite (fold_cat (fun l => ndiv (l_mass l) (c_mass (P t))) (fun l => m3v (fatt (l_frame l)) (b_comvel (l_body l)))), v3add_0_l, (moves_mass g C P MV t t). fold M.
  apply (D3_sum_links (fun s => c_links (P s)) (c_links (P t)) (fun l => v3scale (l_mass l / M) (b_wcom (l_body l))) (fun l => v3scale (ndiv (l_mass l) M) (m3v (fatt (l_frame l)) (b_comvel (l_body l)))) t (length (c_links (C t)))); [intros; now apply (moves_len g) | now apply (moves_len g)|].
  intros i Hi. destruct (nth_error (c_links (C t)) i) as [l|] eqn:Hl; [|apply nth_error_None in Hl; lia].
  destruct (wf_lineage (c_links (C t)) i (proj1 (proj1 MV t)) Hi) as (tr & LG & _).
  apply D3_ext with (f := fun s => v3scale (l_mass l / M) (point_pos (P s) i (l_com l))).
  { intros s. destruct (moves_link g C P MV s t i l Hl) as (l' & Hl' & EM & EW & _). unfold atl. rewrite Hl', EW. unfold l_mass. now rewrite EM. }
  destruct (moves_link g C P MV t t i l Hl) as (l' & Hl' & EM & _ & EV).
  eapply D3_eq; [apply D3_scale_const; eapply (vel_point g); [exact MV | exact LG |]|].
  - intros k Hk. apply RT. eapply lineage_lt; eauto.
  - unfold atl. rewrite Hl', EV. unfold l_mass. now rewrite EM.
Qed.
(** C37: rkLinkPointAcc of any point of any link is the derivative of its velocity plus the gravity put in at the
    root, and the angular acceleration is the derivative of the angular velocity, provided that no floating joint on
    the way to the root translates and rotates in different directions. *)
Theorem C37_acceleration_is_derivative_partial g (C P : R -> chain R) A t i tr (p : vec3 R) :
  moves g C P -> accelerated g (C t) (P t) A -> lineage (c_links (C t)) i tr ->
  (forall k s, In k tr -> rates_at C s k) -> (forall k, In k tr -> accs_at C t k) ->
  (forall k, In k tr -> no_screw (joint_of (C t) k)) ->
  D3 (fun s => point_vel (P s) i p) t (v3sub (point_acc A i p) (V3 0 0 g)) /\
  D3 (fun s => ang_vel (P s) i) t (ang_acc A i).
Proof. apply acc_point. Qed.
(** C37: the same for the centre of mass. *)
Theorem C37_com_acceleration_partial g (C P : R -> chain R) A t :
  moves g C P -> accelerated g (C t) (P t) A -> c_mass (C t) = c_mass (chain_calc_mass (C t)) -> c_mass (C t) <> 0 ->
  (forall k s, (k < length (c_links (C t)))%nat -> rates_at C s k) ->
  (forall k, (k < length (c_links (C t)))%nat -> accs_at C t k /\ no_screw (joint_of (C t) k)) ->
  D3 (fun s => c_comvel (chain_calc_comvel (P s))) t (v3sub (c_comacc (chain_calc_comacc A)) (V3 0 0 g)).
Proof.
  intros MV AC EM NZ RT AT. set (M := c_mass (C t)) in *.
  assert (AP := acc_posed g _ _ A (moves_posed g C P MV t) (proj1 (proj1 MV t)) (moves_wf g C P MV t) AC).
  assert (LA : length (c_links A) = length (c_links (C t))).
  { destruct AC as [[-> _]|AC]; [now apply (moves_len g)|]. destruct (C24_acc_pass g (P t) (moves_wf g C P MV t)) as (A' & H & PP & _).
    assert (A' = A) by congruence. subst A'. rewrite (proj1 PP). now apply (moves_len g). }
  assert (MA : c_mass A = M).
  { destruct AC as [[-> _]|AC]; [now apply (moves_mass g)|]. rewrite (lift_mass _ _ _ AC). now apply (moves_mass g). }
  unfold chain_calc_comvel, chain_calc_comacc. cbn [c_comacc c_comvel]. rewrite MA.
  apply D3_ext with (f := fun s => v3sum (map (fun l => v3scale (l_mass l / M) (m3v (fatt (l_frame l)) (b_comvel (l_body l)))) (c_links (P s)))).
  { intros s. rewrite (moves_mass g C P MV s t). fold M. rewrite (fold_cat (fun l => ndiv (l_mass l) M) (fun l => m3v (fatt (l_frame l)) (b_comvel (l_body l)))), v3add_0_l. reflexivity. }
  rewrite (fold_cat (fun l => ndiv (l_mass l) M) (fun l => m3v (fatt (l_frame l)) (b_comacc (l_body l)))), v3add_0_l.
  assert (SUM : V3 0 0 g = v3sum (map (fun l => v3scale (l_mass l / M) (V3 0 0 g)) (c_links A))).
  { assert (G : forall h, v3sum (map (fun l => v3scale (l_mass l / M) (V3 0 0 g)) h) = v3scale (fold_left (fun m l => m + l_mass l) h 0 / M) (V3 0 0 g)).
    { assert (G0 : forall h a, fold_left (fun m l => m + l_mass l) h a = a + fold_left (fun m l => m + l_mass l) h 0).
      { induction h as [|l h IH]; intros a; cbn [fold_left]; [ring|]. rewrite IH, (IH (0 + l_mass l)). ring. }
      induction h as [|l h IH].
      - unfold v3sum. cbn [map fold_right fold_left]. unfold Rdiv. rewrite Rmult_0_l. rcomp. vsplit; ring.
      - unfold v3sum in *. cbn [map fold_right fold_left]. rewrite IH, (G0 h (0 + l_mass l)). unfold Rdiv. rcomp. vsplit; ring. }
    rewrite G. assert (EQ : fold_left (fun m l => m + l_mass l) (c_links A) 0 = M).
    { rewrite EM. unfold chain_calc_mass. cbn [c_mass].
      assert (LL : forall h h' a, length h = length h' -> (forall i l, nth_error h i = Some l -> exists l', nth_error h' i = Some l' /\ l_mass l' = l_mass l) ->
        fold_left (fun m l => m + l_mass l) h' a = fold_left (fun m l => m + l_mass l) h a).
      { induction h as [|l h IH]; intros [|l' h'] a LE H; try discriminate; [reflexivity|]. cbn [fold_left].
        destruct (H 0%nat l eq_refl) as (x & Hx & Ex). injection Hx as <-. rewrite Ex. apply IH; [now injection LE|]. intros i y Hy. exact (H (S i) y Hy). }
      apply (LL (c_links (C t))); [now rewrite LA|]. intros i l Hl. destruct (AP i l Hl) as (_ & lA & _ & HA & _ & _ & EB & _). exists lA. split; [exact HA|]. unfold l_mass. now rewrite EB. }
    rewrite EQ. unfold Rdiv. rewrite Rinv_r by exact NZ. rcomp. vsplit; ring. }
  rewrite SUM at 1.
  assert (SS : forall (f h : lkR -> vec3 R) l, v3sub (v3sum (map f l)) (v3sum (map h l)) = v3sum (map (fun x => v3sub (f x) (h x)) l)).
  { intros f h l. induction l as [|x l IH]; unfold v3sum in *; cbn [map fold_right]; [apply v3sub_diag|]. rewrite <- IH.
    generalize (f x) (h x) (fold_right v3add v3zero (map f l)) (fold_right v3add v3zero (map h l)). intros. vdestruct. rcomp. vsplit; ring. }
  rewrite SS.
  apply (D3_sum_links (fun s => c_links (P s)) (c_links A) _ _ t (length (c_links (C t)))); [intros; now apply (moves_len g) | exact LA |].
  intros i Hi. destruct (nth_error (c_links (C t)) i) as [l|] eqn:Hl; [|apply nth_error_None in Hl; lia].
  destruct (wf_lineage (c_links (C t)) i (proj1 (proj1 MV t)) Hi) as (tr & LG & _).
  assert (IN : forall k, In k tr -> (k < length (c_links (C t)))%nat) by (intros; eapply lineage_lt; eauto).
  apply D3_ext with (f := fun s => v3scale (l_mass l / M) (point_vel (P s) i (l_com l))).
  { intros s. destruct (moves_link g C P MV s t i l Hl) as (l' & Hl' & EB & _ & EV). unfold atl. rewrite Hl', EV. unfold l_mass. now rewrite EB. }
  destruct (AP i l Hl) as (l' & lA & Hl' & HA & EV & EF & EB & EC & _).
  eapply D3_eq; [apply D3_scale_const; eapply (acc_point g C P A t i tr); try eassumption|].
  - intros k s Hk. apply RT. auto.
  - intros k Hk. apply AT. auto.
  - intros k Hk. apply AT. auto.
  - unfold atl, point_acc. rewrite HA. assert (EL : l_com lA = l_com l) by (unfold l_com; now rewrite EB). assert (EM2 : l_mass lA = l_mass l) by (unfold l_mass; now rewrite EB).
    rewrite EM2, EC, EL. unfold link_point_acc.
    match goal with |- v3scale _ (v3sub ?x _) = _ => generalize x end. intros x. vdestruct. rcomp. vsplit; unfold ndiv; cbn [Num_R]; ring.
Qed.

(** ** Concrete motions *)
Definition jset (ty : jtype) (d v a : list R) : joint R :=
  match obind (joint_assign ty) (fun j => joint_run j [OSetDis d; OSetVel v; OSetAcc a]) with Some j => j | None => JFixed end.
Lemma jset_made ty d v a : (exists j, obind (joint_assign ty) (fun j => joint_run j [OSetDis d; OSetVel v; OSetAcc a]) = Some j) -> made (jset ty d v a).
Proof.
  intros (j & H). unfold jset. rewrite H. unfold obind in H. destruct (joint_assign ty) as [j0|] eqn:A; [|discriminate].
  exists ty, j0, [OSetDis d; OSetVel v; OSetAcc a]. auto.
Qed.
Definition rlink (j : joint R) (o : frame R) (m : R) (q c : option nat) : lkR :=
  Link "l"%string j (Body (MP m (V3 0 1 0) m3id) fid v6zero v6zero v3zero v3zero v3zero [] [] None) None o fid v6zero q c None.
(** A revolute joint at angle sin s, a prismatic joint at s^2/2 mounted on it, a spherical joint spinning at unit rate. *)
Definition Cex (s : R) : chain R :=
  Chain [rlink (jset TRevol [sin s] [cos s] [- sin s]) fid 1 None (Some 1%nat);
         rlink (jset TPrism [s * s / 2] [s] [1]) (Fr (V3 1 0 0) (M3 (V3 1 0 0) (V3 0 0 1) (V3 0 (-1) 0))) 2 (Some 0%nat) (Some 2%nat);
         rlink (jset TSpher [0; 0; s] [0; 0; 1] [0; 0; 0]) (Fr (V3 0 2 1) m3id) 3 (Some 1%nat) None] 6 v3zero v3zero v3zero.
Definition run_rate (g : R) (c : chain R) : chain R :=
  match obind (chain_update_frame c) (chain_update_rate g) with Some c' => c' | None => c end.
Lemma run_rate_ok g c : well_formed (c_links c) -> exists c1, chain_update_frame c = Some c1 /\ chain_update_rate g c1 = Some (run_rate g c).
Proof.
  intros W. destruct (C24_frame_pass c W) as (c1 & A1 & _ & W1). destruct (C24_rate_pass g c1 W1) as (c2 & A2 & _).
  exists c1. split; [exact A1|]. unfold run_rate, obind. now rewrite A1, A2.
Qed.
Lemma sin_phnorm s : rphnorm (sin s) = sin s.
Proof. destruct (SIN_bound s). assert (P := PI2_3_2). apply rphnorm_id; lra. Qed.
Lemma Cex_moves : moves 10 Cex (fun s => run_rate 10 (Cex s)).
Proof.
  assert (W : forall s, well_formed (c_links (Cex s))).
  { intros s. exists (FCons 1 (FCons 2 FNil FNil) FNil). split; [|cbn; apply Permutation.Permutation_refl].
    repeat (econstructor; try reflexivity). }
  split; [|split].
  - intros s. split; [apply W|]. split.
    + intros i l H. do 3 (destruct i as [|i]; [injection H as <-; apply jset_made; eexists; reflexivity|]). destruct i; discriminate.
    + intros i l H. do 3 (destruct i as [|i]; [injection H as <-; unfold rigid, rotation; cbn [l_org rlink]; rcomp; cbn [fatt fid]; rcomp; split; [vsplit|]; ring|]). destruct i; discriminate.
  - intros s s'. split; [reflexivity|]. split; [reflexivity|]. intros i l l' H H'.
    do 3 (destruct i as [|i]; [injection H as <-; injection H' as <-; repeat split|]). destruct i; discriminate.
  - intros s. destruct (run_rate_ok 10 (Cex s) (W s)) as (c1 & A & B). eauto.
Qed.
Lemma Cex_rates k s : (k < 3)%nat -> rates_at Cex s k.
Proof.
  intros H. destruct k as [|[|[|k]]]; [| | |lia]; (split; [intros; reflexivity|]; split; [reflexivity|]).
  - intros i Hi. cbn in Hi. assert (i = 0)%nat as -> by lia.
    apply D1_ext with (f := sin); [intros u; symmetry; exact (sin_phnorm u)|]. apply derivable_pt_lim_sin.
  - intros i Hi. cbn in Hi. assert (i = 0)%nat as -> by lia. apply (half_sq s).
  - exact (proj2 (proj2 (C04_ex_spherical s))).
Qed.
Lemma Cex_accs k s : (k < 3)%nat -> accs_at Cex s k.
Proof.
  intros H. destruct k as [|[|[|k]]]; [| | |lia]; (split; [intros; reflexivity|]; split; [reflexivity|]).
  - intros i Hi. cbn in Hi. assert (i = 0)%nat as -> by lia. apply (derivable_pt_lim_cos s).
  - intros i Hi. cbn in Hi. assert (i = 0)%nat as -> by lia. apply (D1_id s).
  - intros i Hi. cbn in Hi. destruct i as [|[|[|i]]]; [exact (D1_const 0 s)|exact (D1_const 0 s)|exact (D1_const 1 s)|lia].
Qed.
Lemma Cex_lineage t : lineage (c_links (Cex t)) 2 [2; 1; 0]%nat.
Proof. eapply lineage_step; [reflexivity|reflexivity|]. eapply lineage_step; [reflexivity|reflexivity|]. eapply lineage_root; reflexivity. Qed.
(** All hypotheses of C36 and C37 hold for the last link at any time. *)
Example C36_ex t : moves 10 Cex (fun s => run_rate 10 (Cex s)) /\ lineage (c_links (Cex t)) 2 [2; 1; 0]%nat /\
  (forall k s, In k [2; 1; 0]%nat -> rates_at Cex s k).
Proof. split; [exact Cex_moves|]. split; [apply Cex_lineage|]. intros k s H. apply Cex_rates. cbn in H. lia. Qed.
Example C37_ex t : accelerated 10 (Cex t) (run_rate 10 (Cex t)) (run_rate 10 (Cex t)) /\
  (forall k, In k [2; 1; 0]%nat -> accs_at Cex t k) /\ (forall k, In k [2; 1; 0]%nat -> no_screw (joint_of (Cex t) k)) /\
  c_mass (Cex t) = c_mass (chain_calc_mass (Cex t)).
Proof.
  split; [left; split; [reflexivity|]; apply run_rate_ok; apply (proj1 Cex_moves t)|].
  split; [intros k H; apply Cex_accs; cbn in H; lia|]. split; [|cbn; lra].
  intros k H. cbn in H. decompose [or] H; try contradiction; subst k; exact I.
Qed.

(** C37 is false for a floating joint that translates and rotates: the code adds 2 w x v although the relative
    velocity is given in the fixed frame. *)
Definition acceleration_is_derivative : Prop := forall g (C P : R -> chain R) A t i tr (p : vec3 R),
  moves g C P -> accelerated g (C t) (P t) A -> lineage (c_links (C t)) i tr ->
  (forall k s, In k tr -> rates_at C s k) -> (forall k, In k tr -> accs_at C t k) ->
  D3 (fun s => point_vel (P s) i p) t (v3sub (point_acc A i p) (V3 0 0 g)).
Definition Cfl (s : R) : chain R :=
  Chain [rlink (jset TFloat [s; 0; 0; 0; 0; s] [1; 0; 0; 0; 0; 1] [0; 0; 0; 0; 0; 0]) fid 1 None None] 1 v3zero v3zero v3zero.
Theorem C37_float_acceleration_refuted : ~ acceleration_is_derivative.
Proof.
  intros H.
  assert (W : forall s, well_formed (c_links (Cfl s))).
  { intros s. exists FNil. split; [|cbn; apply Permutation.Permutation_refl]. repeat (econstructor; try reflexivity). }
  assert (MV : moves 0 Cfl (fun s => run_rate 0 (Cfl s))).
  { split; [|split].
    - intros s. split; [apply W|]. split.
      + intros i l Hl. destruct i as [|i]; [injection Hl as <-; apply jset_made; eexists; reflexivity|]. destruct i; discriminate.
      + intros i l Hl. destruct i as [|i]; [injection Hl as <-; apply rotation_id|]. destruct i; discriminate.
    - intros s s'. split; [reflexivity|]. split; [reflexivity|]. intros i l l' Hl Hl'.
      destruct i as [|i]; [injection Hl as <-; injection Hl' as <-; repeat split|]. destruct i; discriminate.
    - intros s. destruct (run_rate_ok 0 (Cfl s) (W s)) as (c1 & A & B). eauto. }
  assert (RT : forall k s, In k [0%nat] -> rates_at Cfl s k).
  { intros k s [<-|[]]. split; [intros; reflexivity|]. split; [reflexivity|]. split.
    - repeat split; [exact (D1_id s)|exact (D1_const 0 s)|exact (D1_const 0 s)].
    - exact (proj2 (proj2 (C04_ex_spherical s))). }
  assert (AT : forall k, In k [0%nat] -> accs_at Cfl 0 k).
  { intros k [<-|[]]. split; [intros; reflexivity|]. split; [reflexivity|]. intros i Hi. cbn in Hi.
    do 6 (destruct i as [|i]; [first [exact (D1_const 0 0) | exact (D1_const 1 0)]|]). lia. }
  specialize (H 0 Cfl (fun s => run_rate 0 (Cfl s)) (run_rate 0 (Cfl 0)) 0 0%nat [0%nat] v3zero MV).
  assert (D := H (or_introl (conj eq_refl (run_rate_ok 0 (Cfl 0) (W 0)))) ltac:(eapply lineage_root; reflexivity) RT AT). clear H MV.
  set (j := fun s => jset TFloat [s; 0; 0; 0; 0; s] [1; 0; 0; 0; 0; 1] [0; 0; 0; 0; 0; 0]).
  set (Y := fun s => joint_xform (j s) fid). set (V := fun s => joint_inc_vel (j s) (xform6lin (Y s) v6zero)).
  assert (VE : forall s, point_vel (run_rate 0 (Cfl s)) 0 v3zero = m3v (fatt (fcascade fid (Y s))) (v3add (v3cross (vang (V s)) v3zero) (vlin (V s)))) by reflexivity.
  assert (AE : point_acc (run_rate 0 (Cfl 0)) 0 v3zero = m3v (fatt (fcascade fid (Y 0))) (v3add (v3add (v3triple (vang (V 0)) (vang (V 0)) v3zero)
    (v3cross (vang (acc_formula (j 0) (Y 0) (V 0) v6zero (grav 0))) v3zero)) (vlin (acc_formula (j 0) (Y 0) (V 0) v6zero (grav 0))))) by reflexivity.
  assert (JE : forall s, j s = JFloat (FL (V6 (V3 s 0 0) (V3 0 0 s)) (V6 (V3 1 0 0) (V3 0 0 1)) (V6 (V3 0 0 0) (V3 0 0 0)) v6zero (raa2m (V3 0 0 s)))) by reflexivity.
  destruct D as (_ & D & _). rewrite AE in D.
  assert (D' : D1 (fun _ => 0) 0 2).
  { eapply D1_eq; [eapply D1_ext; [|exact D]|].
    - intros s. cbv beta. rewrite VE. unfold V, Y. rewrite JE, raa_z. cbn [joint_xform joint_inc_vel fl_att fl_dis fl_vel]. unfold xform6lin. rcomp. ring.
    - unfold V, Y, acc_formula. rewrite JE, raa_z, sin_0, cos_0. cbn [joint_xform joint_inc_vel joint_inc_acc joint_inc_acc_on_vel fl_att fl_dis fl_vel fl_acc]. unfold xform6lin, n2, grav, v3triple. rcomp. ring. }
  assert (0 = 2) by (eapply D1_uniq; [apply D1_const | exact D']). lra.
Qed.

Print Assumptions C36_velocity_is_derivative.
Print Assumptions C36_com_velocity.
Print Assumptions C37_acceleration_is_derivative_partial.
Print Assumptions C37_com_acceleration_partial.
Print Assumptions C37_float_acceleration_refuted.
