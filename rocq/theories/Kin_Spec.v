(** * Kin_Spec: what the kinematics properties talk about. *)
From Coq Require Import List Arith.
From Verif Require Import Num Vec Motor_Model Joint_Model Joint_Spec Body_Model Tree Tree_Proofs Link_Model Link_Spec.
Import ListNotations.

Section KinSpec.
Context {F : Type} {N : Num F} {E : Ext F}.
Local Open Scope num_scope.
Notation lk := (link F).

(** [lineage h i t]: [t] lists link [i], its parent, its grandparent, ... up to a link without parent. *)
Inductive lineage (h : list lk) : nat -> list nat -> Prop :=
| lineage_root i l : nth_error h i = Some l -> l_parent l = None -> lineage h i [i]
| lineage_step i l q t : nth_error h i = Some l -> l_parent l = Some q -> lineage h q t -> lineage h i (i :: t).

(** The world frame of the first link of a lineage: product along the lineage, from the root, of the
    frame at which each link is mounted and the documented transformation of its joint. *)
Fixpoint doc_pose (h : list lk) (t : list nat) : option (frame F) :=
  match t with
  | [] => Some fid
  | i :: t' => obind (doc_pose h t') (fun f => obind (nth_error h i) (fun l =>
               obind (doc_frame (jtype_of (l_joint l)) (joint_get_dis (l_joint l))) (fun d =>
               Some (fcascade f (fcascade (l_org l) d)))))
  end.

(** A joint obtained by public calls. *)
Definition made (j : joint F) : Prop := exists t j0 ops, joint_assign t = Some j0 /\ joint_run j0 ops = Some j.
Definition joints_made (h : list lk) : Prop := forall i l, nth_error h i = Some l -> made (l_joint l).
Definition orgs_rigid (h : list lk) : Prop := forall i l, nth_error h i = Some l -> rigid (l_org l).

(** The product of a 3 x n matrix, given by columns, with an n-vector. *)
Fixpoint jmul (m : list (vec3 F)) (v : list F) : vec3 F :=
  match m, v with
  | c :: m', q :: v' => v3add (v3scale q c) (jmul m' v')
  | _, _ => v3zero
  end.

(** Angular velocity of a link, and velocity of the point of it that is at [p] in the link frame,
    both in the world frame. *)
Definition world_angvel (l : lk) : vec3 F := m3v (fatt (l_frame l)) (vang (l_vel l)).
Definition world_pointvel (l : lk) (p : vec3 F) : vec3 F :=
  m3v (fatt (l_frame l)) (v3add (vlin (l_vel l)) (v3cross (vang (l_vel l)) p)).
(** Velocity of the point of a link that is now at [p] in the world. *)
Definition world_vel_at (l : lk) (p : vec3 F) : vec3 F := world_pointvel l (xforminv (l_frame l) p).

(** Sum of mass-weighted velocities and of angular momenta about [p], written out in the world frame. *)
Definition momentum (h : list lk) : vec3 F :=
  v3sum (map (fun l => v3scale (l_mass l) (world_pointvel l (l_com l))) h).
Definition link_ang_momentum (p : vec3 F) (l : lk) : vec3 F :=
  let R := fatt (l_frame l) in
  v3add (v3scale (l_mass l) (v3cross (v3sub (xform (l_frame l) (l_com l)) p) (world_pointvel l (l_com l))))
        (m3v R (m3v (mp_inertia (b_mp (l_body l))) (vang (l_vel l)))).
Definition ang_momentum (h : list lk) (p : vec3 F) : vec3 F := v3sum (map (link_ang_momentum p) h).
(** Frames updated, then joint velocities [v] set and propagated by rkChainUpdateVel or rkChainUpdateRate. *)
Definition motion (g : F) (c : chain F) (v : list F) (c1 c3 : chain F) : Prop :=
  chain_update_frame c = Some c1 /\ exists c2, chain_set_joint_vel_all c1 v = Some c2 /\
  (chain_update_vel c2 = Some c3 \/ chain_update_rate g c2 = Some c3).
(** A chain ready for use. *)
Definition usable (c : chain F) : Prop :=
  well_formed (c_links c) /\ chain_set_offset c = c /\ joints_made (c_links c) /\ orgs_rigid (c_links c).

End KinSpec.
