(** * ABI_Spec: what the forward dynamics properties talk about. *)
From Coq Require Import List Arith.
From Verif Require Import Num Vec Motor_Model Joint_Model Joint_Spec Body_Model Tree Link_Model Link_Spec Kin_Spec ABI_Model.
Import ListNotations.

Section ABISpec.
Context {F : Type} {N : Num F} {E : Ext F} {MI : MInv F}.
Local Open Scope num_scope.
Notation lk := (link F).

(** Velocity and acceleration of the parent of a link; those of the fixed base for a link without parent. *)
Definition parent_motion (h : list lk) (l : lk) : option (vec6 F * vec6 F) :=
  match l_parent l with
  | None => Some (v6zero, v6zero)
  | Some q => option_map (fun p => (l_vel p, l_acc p)) (nth_error h q)
  end.
(** Acceleration of a link from that of its parent by the theorem of relative motion: (v, w) and (a, alpha)
    are the velocity and the acceleration of the link relative to its parent that the joint produces. *)
Definition relative_acc (l : lk) (p : vec6 F * vec6 F) : vec6 F :=
  let R := fatt (l_adj l) in
  let o := fpos (l_adj l) in
  let wp := vang (fst p) in
  let w' := m3tv R wp in
  let rv := joint_inc_vel (l_joint l) v6zero in
  let ra := joint_inc_acc (l_joint l) v6zero in
  V6 (v3add (m3tv R (v3add (v3add (vlin (snd p)) (v3cross (vang (snd p)) o)) (v3cross wp (v3cross wp o))))
            (v3add (v3scale (1 + 1) (v3cross w' (vlin rv))) (vlin ra)))
     (v3add (m3tv R (vang (snd p))) (v3add (v3cross w' (vang rv)) (vang ra))).

(** Newton's and Euler's equations of one link, in its own frame and about its centre of mass: [w] is the wrench
    from its parent, [cs] are the children with the wrenches they get from it, [ew] are wrenches on it at their
    points, [g] is the gravitational acceleration, downward along the world z axis. *)
Definition link_force (g : F) (l : lk) (w : vec6 F) (cs : list lk) (ew : list (wrench F)) : vec3 F :=
  v3add (v3sub (vlin w) (v3sum (map (fun k => m3v (fatt (l_adj k)) (vlin (l_wrench k))) cs)))
        (v3add (v3sum (map (fun e => vlin (wr_w e)) ew)) (m3tv (fatt (l_frame l)) (V3 0 0 (- (l_mass l * g))))).
Definition link_moment (l : lk) (w : vec6 F) (cs : list lk) (ew : list (wrench F)) : vec3 F :=
  let arm p := v3sub p (l_com l) in
  v3add (v3sub (v3sub (vang w) (v3cross (l_com l) (vlin w)))
               (v3sum (map (fun k => v3add (m3v (fatt (l_adj k)) (vang (l_wrench k)))
                                           (v3cross (arm (fpos (l_adj k))) (m3v (fatt (l_adj k)) (vlin (l_wrench k))))) cs)))
        (v3sum (map (fun e => v3add (vang (wr_w e)) (v3cross (arm (wr_p e)) (vlin (wr_w e)))) ew)).
Definition newton_euler (g : F) (l : lk) (cs : list lk) (ew : list (wrench F)) : Prop :=
  let w := vang (l_vel l) in
  let I := mp_inertia (b_mp (l_body l)) in
  link_force g l (l_wrench l) cs ew =
    v3scale (l_mass l) (v3add (vlin (l_acc l)) (v3add (v3cross (vang (l_acc l)) (l_com l)) (v3cross w (v3cross w (l_com l))))) /\
  link_moment l (l_wrench l) cs ew = v3add (m3v I (vang (l_acc l))) (v3cross w (m3v I w)).

(** Force the joint is driven with: the torque of the motor at the velocity and acceleration of the joint
    plus the static friction stored in the joint; nothing drives a free joint. *)
Definition drive (j : joint F) : list F :=
  match j with
  | JFixed => []
  | JRevol r => [motor_driving_trq (rv_m r) (a_vel (rv_a r)) (a_acc (rv_a r)) 0 + a_tf (rv_a r)]
  | JPrism p => [motor_driving_trq (pr_m p) (a_vel (pr_a p)) (a_acc (pr_a p)) 0 + a_tf (pr_a p)]
  | JCylin c => [motor_driving_trq (cy_m c) (a_vel (cy_0 c)) (a_acc (cy_0 c)) 0 + a_tf (cy_0 c); a_tf (cy_1 c)]
  | JHooke k => [motor_driving_trq (hk_m k) (a_vel (hk_0 k)) (a_acc (hk_0 k)) 0 + a_tf (hk_0 k); a_tf (hk_1 k)]
  | JSpher _ => [0; 0; 0]
  | JFloat _ | JBrFloat _ _ _ => [0; 0; 0; 0; 0; 0]
  end.
(** Projection of a wrench on the joint axes. *)
Definition projected (j : joint F) (w : vec6 F) : list F := joint_get_trq (joint_calc_trq j w).

(** The accelerations and wrenches in the chain solve the equations of motion: every link accelerates as the
    joint accelerations require, Newton's and Euler's equations hold with the external wrenches of the body
    and those in its ABI list, and the wrench at every joint is, along its axes, what drives it. *)
Definition dynamics_solved (g : F) (c : achain F) : Prop :=
  let h := c_links (ac_c c) in
  forall i l a, nth_error h i = Some l -> nth_error (ac_a c) i = Some a -> exists p cs ls,
    parent_motion h l = Some p /\ l_acc l = relative_acc l p /\
    children h i = Some cs /\ Forall2 (fun k x => nth_error h k = Some x) cs ls /\
    newton_euler g l ls (b_extw (l_body l) ++ ab_wl a) /\ projected (l_joint l) (l_wrench l) = drive (l_joint l).

(** The same configuration and velocity of a link, and the same body. *)
Definition same_state (l l' : lk) : Prop :=
  (l_name l', l_parent l', l_child l', l_sibl l', l_offset l') = (l_name l, l_parent l, l_child l, l_sibl l, l_offset l) /\
  (l_org l', l_adj l', l_frame l', l_vel l') = (l_org l, l_adj l, l_frame l, l_vel l) /\
  b_mp (l_body l') = b_mp (l_body l) /\ b_extw (l_body l') = b_extw (l_body l) /\
  jtype_of (l_joint l') = jtype_of (l_joint l) /\ joint_motor (l_joint l') = joint_motor (l_joint l) /\
  joint_get_dis (l_joint l') = joint_get_dis (l_joint l) /\ joint_get_vel (l_joint l') = joint_get_vel (l_joint l).

(** The ABI memory belongs to the links and was filled by rkChainABIAlloc from their mass properties. *)
Definition abi_ready (c : achain F) : Prop :=
  Forall2 (fun l a => ab_m a = link_mass_mat l /\ sym3 (mp_inertia (b_mp (l_body l)))) (c_links (ac_c c)) (ac_a c).
(** Joints the algorithm handles: prismatic ones only at the root. *)
Definition handled (l : lk) : Prop :=
  match l_joint l with
  | JFixed | JRevol _ | JFloat _ | JBrFloat _ _ _ => True
  | JPrism _ => l_parent l = None
  | _ => False
  end.
(** The inertia seen along the joint axes is not singular: above the tolerance for one axis, inverted by
    zMatInv for a free joint. *)
Definition regular (j : joint F) (axi iaxi : list (list F)) : Prop :=
  match j with
  | JFixed => True
  | JRevol _ | JPrism _ => ntiny x_tol (elem axi 0 0) = false
  | JFloat _ | JBrFloat _ _ _ => forall v, mat_v6 axi (mat_v6 iaxi v) = v
  | _ => False
  end.
(** In every link and joint after the algorithm. *)
Definition all_regular (c : achain F) : Prop := forall i l a, nth_error (c_links (ac_c c)) i = Some l -> nth_error (ac_a c) i = Some a ->
  handled l /\ regular (l_joint l) (ab_axi a) (ab_iaxi a).
(** The joint does not slide across the axis it turns about: true of every joint but a floating one. *)
Definition no_slide (j : joint F) : Prop := v3cross (vang (joint_inc_vel j v6zero)) (vlin (joint_inc_vel j v6zero)) = v3zero.
(** The chain with the wrenches of the ABI lists among the external wrenches of the bodies. *)
Definition with_contacts (c : achain F) : chain F :=
  c_set_links (map (fun x => let b := l_body (fst x) in
    l_set_body (Body (b_mp b) (b_frame b) (b_vel b) (b_acc b) (b_wcom b) (b_comvel b) (b_comacc b) (b_extw b ++ ab_wl (snd x)) (b_shapes b) (b_stuff b)) (fst x))
    (combine (c_links (ac_c c)) (ac_a c))) (ac_c c).
End ABISpec.
