(** * Conf_Model: joint torsion and link configurations (rk_joint.c 104-135, rk_joint_*.c, rk_link.c
    213-232, rk_chain.c 326-344). *)
From Coq Require Import Bool List Arith.
From Verif Require Import Num Vec Motor_Model Joint_Model Body_Model Tree Link_Model.
Import ListNotations.

(** The external functions used: sqrt, atan2, zVec3DAngle, zMat3DToAA. *)
Class ConfExt (F : Type) := mkConfExt {
  x_sqrt : F -> F;
  x_atan2 : F -> F -> F;                            (* atan2( y, x ) *)
  x_vangle : vec3 F -> vec3 F -> vec3 F -> F;       (* zVec3DAngle( v1, v2, n ) *)
  x_m2aa : mat3 F -> vec3 F                         (* zMat3DToAA *)
}.
(** Rotation by the angle of sine [s] and cosine [c] about the unit vector [n]. *)
Definition rodrigues {F} {N : Num F} (s c : F) (n : vec3 F) : mat3 F :=
  m3add m3id (m3add (m3scale s (m3skew n)) (m3scale (1 - c)%num (m3mul (m3skew n) (m3skew n)))).
Class ConfLaws (F : Type) (N : Num F) (E : Ext F) (C : ConfExt F) : Prop := mkConfLaws {
  x_sqrt_sqr : forall r : F, (0 <= r)%num -> x_sqrt (r * r)%num = r;
  x_atan2_sc : forall r t : F, (0 < r)%num -> x_atan2 (r * x_sin t)%num (r * x_cos t)%num = x_phnorm t;
  x_vangle_rot : forall (u n : vec3 F) (t : F), v3sqr u = 1%num -> v3sqr n = 1%num -> v3dot n u = 0%num ->
    x_vangle u (v3add (v3scale (x_cos t) u) (v3scale (x_sin t) (v3cross n u))) n = x_phnorm t;
  x_aa_axis : forall (n : vec3 F) (t : F), v3sqr n = 1%num -> x_aa2m (v3scale t n) = rodrigues (x_sin t) (x_cos t) n
}.

Section Conf.
Context {F : Type} {N : Num F} {E : Ext F} {C : ConfExt F}.
Local Open Scope num_scope.

(** zFrame3DToVec6DAA / zFrame3DToArrayAA and zVec6DToFrame3DAA / zArrayToFrame3DAA of ZEO. *)
Definition frame_to_aa (f : frame F) : vec6 F := V6 (fpos f) (x_m2aa (fatt f)).
Definition aa_to_frame (v : vec6 F) : frame F := Fr (vlin v) (x_aa2m (vang v)).

(** ** Torsion: from the deviation [d] of a link from the frame at which it is mounted, the displacement
    of the joint and the distortion that remains.  The caller's array of displacements is the list of
    the entries written.  Dividing by zero (the result is not a number) yields [None]. *)

Definition nis0 (x : F) : bool := (x <=? 0) && (0 <=? x).
(** rkJointRevolTorsionDis, rk_joint.c 106-125: angular part of the torsion and displacement. *)
Definition revol_torsion_dis (d : frame F) : option (vec3 F * F) :=
  let R := fatt d in
  let ax := - vy (mc2 R) in
  let ay := vx (mc2 R) in
  let l := x_sqrt (ax * ax + ay * ay) in
  let angle := x_atan2 l (vz (mc2 R)) in
  obind (if ntiny x_tol angle then Some v3zero
         else if nis0 l then None else Some (v3scale (angle / l) (V3 ax ay 0)))
    (fun aa => let rm := x_aa2m aa in
       Some (m3tv R aa, (1 / n2) * (x_vangle (mc0 rm) (mc0 R) (mc2 rm) + x_vangle (mc1 rm) (mc1 R) (mc2 rm)))).
(** rkJointPrismTorsionDis, rk_joint.c 127-136: linear part of the torsion and displacement. *)
Definition prism_torsion_dis (d : frame F) : vec3 F * F :=
  let t := m3tv (fatt d) (fpos d) in (V3 (vx t) (vy t) 0, vz t).
(** _rkJointHookeTorsion, rk_joint_hooke.c 152-165. *)
Definition hooke_torsion (d : frame F) : vec6 F * list F :=
  let R := fatt d in
  let qx := x_atan2 (vz (mc1 R)) (vy (mc1 R)) in
  let q0 := x_atan2 (- vx (mc1 R)) (x_cos qx * vy (mc1 R) + x_sin qx * vz (mc1 R)) in
  let c := x_cos q0 in
  (V6 (m3tv R (fpos d)) (v3scale qx (m3row0 R)), [q0; x_atan2 (c * vx (mc2 R)) (c * vx (mc0 R))]).

(** rkJointTorsion, rk_joint.h 253: rk_joint_fixed.c 40-44, rk_joint_revol.c 132-135, rk_joint_prism.c
    124-129, rk_joint_cylin.c 145-148, rk_joint_hooke.c 152-165, rk_joint_spher.c 138-142,
    rk_joint_float.c 145-148, rk_joint_brfloat.c 155-158. *)
Definition joint_torsion (t : jtype) (d : frame F) : option (vec6 F * list F) :=
  let R := fatt d in
  match t with
  | TFixed => Some (m3tv6 R (frame_to_aa d), [])
  | TRevol => obind (revol_torsion_dis d) (fun '(a, q) => Some (V6 (m3tv R (fpos d)) a, [q]))
  | TPrism => let (p, q) := prism_torsion_dis d in Some (V6 p (m3tv R (x_m2aa R)), [q])
  | TCylin => let (p, z) := prism_torsion_dis d in
              obind (revol_torsion_dis d) (fun '(a, q) => Some (V6 p a, [z; q]))
  | THooke => Some (hooke_torsion d)
  | TSpher => Some (V6 (m3tv R (fpos d)) v3zero, l3 (x_m2aa R))
  | TFloat | TBrFloat => Some (v6zero, l6 (frame_to_aa d))
  end.

(** ** rkLinkConfToJointDis, rk_link.c 213-232: the link, its child, its sibling. *)
Definition conf_joint (l : link F) (org : frame F) : option (joint F) :=
  obind (joint_torsion (jtype_of (l_joint l)) (frel org (l_frame l))) (fun '(_, ds) => joint_set_dis (l_joint l) ds).
Fixpoint conf_to_dis (fuel : nat) (h : list (link F)) (i : nat) : option (list (link F)) :=
  match fuel with
  | O => None
  | S k =>
    obind (nth_error h i) (fun l =>
    obind (match l_parent l with
           | None => Some (l_org l)
           | Some q => option_map (fun lq => fcascade (l_frame lq) (l_org l)) (nth_error h q)
           end) (fun org =>
    obind (conf_joint l org) (fun j =>
    let h1 := set_nth i (l_set_joint j l) h in
    obind (match l_child l with None => Some h1 | Some c => conf_to_dis k h1 c end) (fun h2 =>
    match l_sibl l with None => Some h2 | Some s => conf_to_dis k h2 s end))))
  end.

(** rkChainGetConf, rk_chain.c 327-334: six entries per link. *)
Definition chain_get_conf (c : chain F) : list F := flat_map (fun l => l6 (frame_to_aa (l_frame l))) (c_links c).
(** rkChainSetConf, rk_chain.c 337-344.  Reading outside the vector yields [None]. *)
Fixpoint set_frames (h : list (link F)) (v : list F) : option (list (link F)) :=
  match h with
  | [] => Some []
  | l :: t => obind (rd6 v) (fun a => obind (set_frames t (skipn 6 v)) (fun t' =>
              Some (l_set_body (body_set_frame (l_body l) (aa_to_frame a)) l :: t')))
  end.
Definition chain_set_conf (c : chain F) (v : list F) : option (chain F) :=
  obind (set_frames (c_links c) v) (fun h => option_map (fun h' => c_set_links h' c) (conf_to_dis (c_fuel c) h 0)).
End Conf.
