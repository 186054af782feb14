(** * Zmp_Properties: theorems C43 (zero moment point) and C44 (yaw torque). *)
From Coq Require Import String ZArith QArith Qcanon List Arith Lia Field.
From Verif Require Import Num NumFacts Vec VecFacts Motor_Model Joint_Model Joint_Spec Joint_Proofs Body_Model Body_Proofs
  Tree Tree_Proofs Link_Model Link_Spec Link_Proofs Chain_Proofs Link_Properties Chain_Properties Kin_Spec Kin_Proofs Jacobi_Model Jacobi_Proofs Kin_Properties
  Dyn_Spec Dyn_Proofs Dyn_Properties ExtQ.
Import ListNotations.
Local Open Scope nat_scope.

Section Thms.
Context {F : Type} {N : Num F} {L : NumLaws F N} {E : Ext F} {X : ExtLaws F N E}.
Add Field FField : num_field.
Local Open Scope num_scope.
Notation lk := (link F).

(** The wrench at a link in the world frame: its force and its moment about the world point [o]. *)
Definition world_force (l : lk) : vec3 F := m3v (fatt (l_frame l)) (vlin (l_wrench l)).
Definition world_moment (o : vec3 F) (l : lk) : vec3 F :=
  v3add (m3v (fatt (l_frame l)) (vang (l_wrench l))) (v3cross (v3sub (fpos (l_frame l)) o) (world_force l)).
Definition vertical (v : vec3 F) : Prop := Vec.vx v = 0 /\ Vec.vy v = 0.

Lemma row2_dot (m : mat3 F) v : v3dot (m3row2 m) v = Vec.vz (m3v m v). Proof. destruct m as [[] [] []], v. unfold v3dot. cbn. ring. Qed.
Lemma row2_v (m : mat3 F) : rotation m -> m3v m (m3row2 m) = V3 0 0 1.
Proof.
  intros R. assert (Q : m3row2 m = m3tv m (V3 0 0 1)) by (destruct m as [[] [] []]; vunfold; vsplit; ring). rewrite Q. now apply rot_v_tv.
Qed.
(** The point in the world frame. *)
Lemma zmp_world (r : lk) (z f : F) : rigid (l_frame r) -> f = Vec.vz (world_force r) -> f <> 0 ->
  let p := v3div (v3cat (v3cross (gravity_dir r) (vang (l_wrench r))) (z - Vec.vz (fpos (l_frame r))) (vlin (l_wrench r))) f in
  let q := xform (l_frame r) p in
  Vec.vz q = z /\ vertical (world_moment q r).
Proof.
  intros R Ef NZ p q. unfold q, xform. unfold world_moment.
  assert (RP : m3v (fatt (l_frame r)) p = v3scale (1 / f) (v3add (v3cross (V3 0 0 1) (m3v (fatt (l_frame r)) (vang (l_wrench r)))) (v3scale (z - Vec.vz (fpos (l_frame r))) (world_force r)))).
  { unfold p, world_force. rewrite <- (row2_v _ R) at 1. rewrite <- (rot_cross _ _ _ R). unfold gravity_dir.
    rewrite <- m3v_scale_r, <- m3v_add_r, <- m3v_scale_r. f_equal. generalize (v3cross (m3row2 (fatt (l_frame r))) (vang (l_wrench r))) (vlin (l_wrench r)) (z - Vec.vz (fpos (l_frame r))).
    clear -L NZ. intros [] [] k. unfold v3div, v3cat, v3scale, v3add. cbn. vsplit; field; exact NZ. }
  rewrite RP. revert Ef. clear -L NZ. generalize (world_force r) (m3v (fatt (l_frame r)) (vang (l_wrench r))) (fpos (l_frame r)).
  intros [fx fy fz] [tx ty tz] [px py pz] E. cbn [Vec.vz] in E. subst fz. unfold vertical, v3scale, v3add, v3sub, v3cross. cbn.
  split; [|split]; field; exact NZ.
Qed.

(** C43.  When rkChainZMP gives a point, that is at height z and the moment of the root wrench about it has no
    horizontal component; it gives none exactly when the vertical force is negligible. *)
Theorem C43_zmp (c : chain F) (r : lk) (z : F) : nth_error (c_links c) 0 = Some r -> rigid (l_frame r) ->
  match chain_zmp c z with
  | Some (Some p) => ntiny x_tol (Vec.vz (world_force r)) = false /\ Vec.vz p = z /\ vertical (world_moment p r)
  | Some None => ntiny x_tol (Vec.vz (world_force r)) = true
  | None => False
  end.
Proof.
  intros Hr R. unfold chain_zmp, c_root. rewrite Hr. cbn [option_map]. unfold gravity_dir at 1. rewrite row2_dot. fold (world_force r).
  destruct (ntiny x_tol (Vec.vz (world_force r))) eqn:T; [reflexivity|]. split; [reflexivity|].
  apply zmp_world; [exact R| |].
  - unfold gravity_dir. now rewrite row2_dot.
  - unfold gravity_dir. rewrite row2_dot. fold (world_force r). eapply ntiny_false_neq; [apply x_tol_pos|exact T].
Qed.
(** It is the only such point. *)
Theorem C43_unique (c : chain F) (r : lk) (p q : vec3 F) (z : F) : nth_error (c_links c) 0 = Some r -> rigid (l_frame r) ->
  chain_zmp c z = Some (Some p) -> Vec.vz q = z -> vertical (world_moment q r) -> q = p.
Proof.
  intros Hr R H Zq V. assert (Q := C43_zmp c r z Hr R). rewrite H in Q. destruct Q as (T & Zp & VP).
  assert (NZ : Vec.vz (world_force r) <> 0) by (eapply ntiny_false_neq; [apply x_tol_pos|exact T]).
  revert V VP Zp Zq NZ. unfold world_moment, vertical. clear -L.
  generalize (world_force r) (m3v (fatt (l_frame r)) (vang (l_wrench r))) (fpos (l_frame r)).
  intros [fx fy fz] [tx ty tz] [ox oy oz]. destruct p as [px py pz], q as [qx qy qz]. cbn. intros [A1 A2] [B1 B2] -> -> NZ.
  assert (C1 : fz * (qy - py) = 0) by (transitivity ((tx + ((oy - py) * fz - (oz - z) * fy)) - (tx + ((oy - qy) * fz - (oz - z) * fy))); [ring|rewrite A1, B1; ring]).
  assert (C2 : fz * (qx - px) = 0) by (transitivity ((ty + ((oz - z) * fx - (ox - qx) * fz)) - (ty + ((oz - z) * fx - (ox - px) * fz))); [ring|rewrite A2, B2; ring]).
  apply nmul_eq_0 in C1 as [C1|C1]; [contradiction|]. apply nmul_eq_0 in C2 as [C2|C2]; [contradiction|].
  f_equal; [transitivity (px + (qx - px)); [ring|rewrite C2; ring]|transitivity (py + (qy - py)); [ring|rewrite C1; ring]].
Qed.

(** The moments of what moves the links, about two points. *)
Lemma need_shift (o p : vec3 F) (h : list lk) :
  v3sum (map (need_moment p) h) = v3add (v3sum (map (need_moment o) h)) (v3cross (v3sub o p) (v3sum (map need_force h))).
Proof.
  induction h as [|l h IH]; [cbn [map]; change (v3sum (@nil (vec3 F))) with (v3zero : vec3 F); clear -L; vdestruct; vunfold; vsplit; ring|]. cbn [map]. change (v3sum (?a :: ?l)) with (v3add a (v3sum l)). rewrite IH.
  assert (Q : need_moment p l = v3add (need_moment o l) (v3cross (v3sub o p) (need_force l))).
  { unfold need_moment, need_force. cbv zeta. 
    assert (S : v3sum (map (fun c => v3add (v3cross (v3sub (xform (l_frame l) (wr_p c)) p) (m3v (fatt (l_frame l)) (vlin (wr_w c)))) (m3v (fatt (l_frame l)) (vang (wr_w c)))) (b_extw (l_body l))) =
      v3add (v3sum (map (fun c => v3add (v3cross (v3sub (xform (l_frame l) (wr_p c)) o) (m3v (fatt (l_frame l)) (vlin (wr_w c)))) (m3v (fatt (l_frame l)) (vang (wr_w c)))) (b_extw (l_body l))))
        (v3cross (v3sub o p) (v3sum (map (fun c => m3v (fatt (l_frame l)) (vlin (wr_w c))) (b_extw (l_body l)))))).
    { induction (b_extw (l_body l)) as [|w t IHt]; [cbn [map]; change (v3sum (@nil (vec3 F))) with (v3zero : vec3 F); clear -L; vdestruct; vunfold; vsplit; ring|]. cbn [map]. change (v3sum (?a :: ?l)) with (v3add a (v3sum l)). rewrite IHt.
      generalize (v3sum (map (fun c => m3v (fatt (l_frame l)) (vlin (wr_w c))) t)). 
      generalize (v3sum (map (fun c => v3add (v3cross (v3sub (xform (l_frame l) (wr_p c)) o) (m3v (fatt (l_frame l)) (vlin (wr_w c)))) (m3v (fatt (l_frame l)) (vang (wr_w c)))) t)).
      generalize (xform (l_frame l) (wr_p w)) (m3v (fatt (l_frame l)) (vlin (wr_w w))) (m3v (fatt (l_frame l)) (vang (wr_w w))). clear -L. intros. vdestruct. vunfold. vsplit; ring. }
    rewrite S. generalize (v3sum (map (fun c => m3v (fatt (l_frame l)) (vlin (wr_w c))) (b_extw (l_body l)))).
    generalize (v3sum (map (fun c => v3add (v3cross (v3sub (xform (l_frame l) (wr_p c)) o) (m3v (fatt (l_frame l)) (vlin (wr_w c)))) (m3v (fatt (l_frame l)) (vang (wr_w c)))) (b_extw (l_body l)))).
    generalize (v3scale (l_mass l) (m3v (fatt (l_frame l)) (b_comacc (l_body l)))).
    generalize (m3v (fatt (l_frame l)) (v3add (m3v (mp_inertia (b_mp (l_body l))) (vang (l_acc l))) (v3cross (vang (l_vel l)) (m3v (mp_inertia (b_mp (l_body l))) (vang (l_vel l)))))).
    generalize (xform (l_frame l) (l_com l)). clear -L. intros. vdestruct. vunfold. vsplit; ring. }
  rewrite Q. generalize (need_moment o l) (need_force l) (v3sum (map (need_moment o) h)) (v3sum (map need_force h)). clear -L. intros. vdestruct. vunfold. vsplit; ring.
Qed.
(** After inverse dynamics it is the zero moment point of the whole motion: about it, all that moves the links,
    beyond the external forces on them, has no horizontal moment. *)
Theorem C43_inverse_dynamics (g : F) (c c1 c' : chain F) (v a : list F) (z : F) (p : vec3 F) :
  usable c -> chain_update_frame c = Some c1 -> length v = chain_joint_size c -> length a = chain_joint_size c ->
  chain_id g c1 v a = Some c' -> chain_zmp c' z = Some (Some p) ->
  Vec.vz p = z /\ vertical (v3sum (map (need_moment p) (c_links c'))) /\ ntiny x_tol (Vec.vz (v3sum (map need_force (c_links c')))) = false.
Proof.
  intros U A1 LV LA H Z. destruct (nth_error (c_links c') 0) as [r|] eqn:Hr. 2:{ unfold chain_zmp, c_root in Z. rewrite Hr in Z. discriminate. }
  destruct (C39_root_wrench g c c1 c' v a r U A1 LV LA H Hr) as [A B].
  destruct (id_state _ _ _ _ _ _ U A1 LV LA H) as (W & _ & C & WQ). destruct (C 0%nat r Hr) as (R & _).
  assert (Q := C43_zmp c' r z Hr R). rewrite Z in Q. destruct Q as (T & Zp & VP). split; [exact Zp|]. unfold world_moment, world_force in *. rewrite A in T, VP. rewrite B in VP.
  split; [|exact T]. now rewrite (need_shift (fpos (l_frame r)) p).
Qed.

(** C44.  The moment about the vertical axis through the zero moment point is (torque . force) / vertical force ... *)
Theorem C44_vertical_moment (c : chain F) (r : lk) (z : F) (p : vec3 F) : nth_error (c_links c) 0 = Some r -> rigid (l_frame r) ->
  chain_zmp c z = Some (Some p) ->
  Vec.vz (world_moment p r) = v3dot (vang (l_wrench r)) (vlin (l_wrench r)) / v3dot (gravity_dir r) (vlin (l_wrench r)).
Proof.
  intros Hr R H. assert (Q := C43_zmp c r z Hr R). rewrite H in Q. destruct Q as (T & Zp & V1 & V2).
  assert (NZ : Vec.vz (world_force r) <> 0) by (eapply ntiny_false_neq; [apply x_tol_pos|exact T]).
  unfold gravity_dir. rewrite row2_dot. fold (world_force r). rewrite <- (rot_dot (fatt (l_frame r)) _ _ R). fold (world_force r).
  revert V1 V2 NZ. unfold world_moment. clear -L. generalize (world_force r) (m3v (fatt (l_frame r)) (vang (l_wrench r))) (fpos (l_frame r)).
  intros [fx fy fz] [tx ty tz] [ox oy oz]. destruct p as [px py pz]. unfold v3dot. cbn. intros A B NZ.
  set (mx := tx + _) in A. set (my := ty + _) in B. 
  assert (tx = - ((oy - py) * fz - (oz - pz) * fy)) as -> by (transitivity (mx - ((oy - py) * fz - (oz - pz) * fy)); [unfold mx; ring|rewrite A; ring]). clear mx A.
  assert (ty = - ((oz - pz) * fx - (ox - px) * fz)) as -> by (transitivity (my - ((oz - pz) * fx - (ox - px) * fz)); [unfold my; ring|rewrite B; ring]). clear my B.
  field. exact NZ.
Qed.
(** ... which rkChainYawTorque gives when the vertical torque happens to equal the vertical force: it divides by the former. *)
Theorem C44_yaw_partial (c : chain F) (r : lk) (z : F) (p : vec3 F) : nth_error (c_links c) 0 = Some r -> rigid (l_frame r) ->
  chain_zmp c z = Some (Some p) -> v3dot (gravity_dir r) (vang (l_wrench r)) = v3dot (gravity_dir r) (vlin (l_wrench r)) ->
  chain_yaw_torque c = Some (Vec.vz (world_moment p r)).
Proof.
  intros Hr R H EQ. rewrite (C44_vertical_moment c r z p Hr R H). unfold chain_yaw_torque, c_root. rewrite Hr. cbn [option_map]. do 2 f_equal.
  rewrite <- EQ. apply v3dot_comm.
Qed.
End Thms.

(** ** Witness and examples *)

(** A single link at the world frame on which the ground exerts the force (1, 0, 2) and the torque (1, 0, 1). *)
Definition lone : chain Qc :=
  c_set_links (map (l_set_wrench (V6 (V3 (qz 1) (qz 0) (qz 2)) (V3 (qz 1) (qz 0) (qz 1)))) [mlink "a" (jn TFloat) 1 3])
    (Chain [] (qz 3) v3zero v3zero v3zero).
Lemma lone_ex : exists x, match chain_zmp lone (qz 0), c_root lone, chain_yaw_torque lone with Some (Some p), Some r, Some y => Some (p, r, y) | _, _, _ => None end = Some x /\
  [l3 (fst (fst x)); [Vec.vz (world_moment (fst (fst x)) (snd (fst x)))]; [snd x]] = [[qz 0; Q2Qc (1#2); qz 0]; [Q2Qc (3#2)]; [qz 3]].
Proof. apply (some_exq _ (fun x => [l3 (fst (fst x)); [Vec.vz (world_moment (fst (fst x)) (snd (fst x)))]; [snd x]])). vm_compute. reflexivity. Qed.
Theorem C44_yaw_refuted : ~ (forall (c : chain Qc) (r : link Qc) (z : Qc) (p : vec3 Qc), nth_error (c_links c) 0 = Some r -> rigid (l_frame r) ->
  chain_zmp c z = Some (Some p) -> chain_yaw_torque c = Some (Vec.vz (world_moment p r))).
Proof.
  intros H. destruct lone_ex as ([[p r] y] & R & V). cbn [fst snd] in V. destruct (chain_zmp lone (qz 0)) as [[p0|]|] eqn:Z; try discriminate.
  destruct (c_root lone) as [r0|] eqn:Q; [|discriminate]. destruct (chain_yaw_torque lone) as [y0|] eqn:Y; [|discriminate].
  assert (p0 = p) by congruence. assert (r0 = r) by congruence. assert (y0 = y) by congruence. subst p0 r0 y0.
  assert (RR : rigid (l_frame r)) by (injection Q as <-; apply rotation_id).
  assert (EQ := H lone r (qz 0) p Q RR Z). rewrite Y in EQ. assert (y = Vec.vz (world_moment p r)) as -> by congruence.
  assert (V1 : [Vec.vz (world_moment p r)] = [Q2Qc (3 # 2)]) by congruence. assert (V2 : [Vec.vz (world_moment p r)] = [qz 3]) by congruence.
  rewrite V1 in V2. revert V2. apply qlne. vm_compute. reflexivity.
Qed.

(** A tree of five links with external wrenches, moving: height, horizontal moments of everything about the point, the
    vertical moment and what rkChainYawTorque gives. *)
Definition zrun : option (chain Qc * vec3 Qc * Qc) :=
  obind (chain_update_frame mechw) (fun c1 => obind (chain_id (qz 10) c1 mvel macc) (fun c2 =>
  match chain_zmp c2 (qz 1), chain_yaw_torque c2 with Some (Some p), Some y => Some (c2, p, y) | _, _ => None end)).
Definition zres (x : chain Qc * vec3 Qc * Qc) : list (list Qc) := let '(c2, p, y) := x in
  [[Vec.vz p]; l3 (v3sum (map (need_moment p) (c_links c2)));
   match c_root c2 with Some r => [Vec.vz (world_moment p r)] | None => [] end].
Example C43_ex : exists x, zrun = Some x /\ zres x ++ [l3 (snd (fst x)); [snd x]] =
  [[qz 1]; [qz 0; qz 0; Q2Qc (-1465 # 8)]; [Q2Qc (-1465 # 8)]; [Q2Qc (7 # 2); Q2Qc (103 # 8); qz 1]; [Q2Qc (1465 # 77)]].
Proof. apply (some_exq zrun (fun x => zres x ++ [l3 (snd (fst x)); [snd x]])). vm_compute. reflexivity. Qed.
(** The theorem applied to the same chain, at any height. *)
Example C43_ex_all c1 c2 z p : chain_update_frame mechw = Some c1 -> chain_id (qz 10) c1 mvel macc = Some c2 -> chain_zmp c2 z = Some (Some p) ->
  Vec.vz p = z /\ vertical (v3sum (map (need_moment p) (c_links c2))).
Proof.
  intros A1 A2 A3. destruct mechw_usable as [U SZ]. destruct (C43_inverse_dynamics (qz 10) mechw c1 c2 mvel macc z p) as (B1 & B2 & _); auto; rewrite SZ; reflexivity.
Qed.
(** Without gravity and motion there is no ground force and no point. *)
Example C43_ex_none : obind (chain_update_frame mech) (fun c1 => obind (chain_id (qz 0) c1 z12 z12) (fun c2 => chain_zmp c2 (qz 1))) = Some None.
Proof. vm_compute. reflexivity. Qed.

Print Assumptions C43_zmp.
Print Assumptions C43_unique.
Print Assumptions C43_inverse_dynamics.
Print Assumptions C44_vertical_moment.
Print Assumptions C44_yaw_partial.
Print Assumptions C44_yaw_refuted.
