(** * Dyn_Spec: what the dynamics properties talk about. *)
From Coq Require Import List Arith.
From Verif Require Import Num Vec Joint_Model Joint_Spec Body_Model Tree Link_Model Link_Spec Kin_Spec.
Import ListNotations.

Section DynSpec.
Context {F : Type} {N : Num F} {E : Ext F}.
Local Open Scope num_scope.
Notation lk := (link F).

(** Rate of work of what moves link [l] when its virtual velocity is [v]: the power of m a at the COM
    and of the rate of the angular momentum, less the power of the external wrenches at their points. *)
Definition virtual_power (l : lk) (v : vec6 F) : F :=
  let at_ p := v3add (vlin v) (v3cross (vang v) p) in
  let w := vang (l_vel l) in
  let I := mp_inertia (b_mp (l_body l)) in
  l_mass l * v3dot (b_comacc (l_body l)) (at_ (l_com l))
  + v3dot (v3add (m3v I (vang (l_acc l))) (v3cross w (m3v I w))) (vang v)
  - nsum (map (fun c => v3dot (vlin (wr_w c)) (at_ (wr_p c)) + v3dot (vang (wr_w c)) (vang v)) (b_extw (l_body l))).
(** Sum over the links, the virtual velocities being those of the links of [hv]. *)
Definition total_power (h hv : list lk) : F :=
  nsum (map (fun p => virtual_power (fst p) (l_vel (snd p))) (combine h hv)).

(** Force that moves a link beyond the external forces on it, in the world frame. *)
Definition need_force (l : lk) : vec3 F :=
  let R := fatt (l_frame l) in
  v3sub (v3scale (l_mass l) (m3v R (b_comacc (l_body l))))
        (v3sum (map (fun c => m3v R (vlin (wr_w c))) (b_extw (l_body l)))).
(** Its moment about the world point [o]. *)
Definition need_moment (o : vec3 F) (l : lk) : vec3 F :=
  let R := fatt (l_frame l) in
  let arm p := v3sub (xform (l_frame l) p) o in
  let I := mp_inertia (b_mp (l_body l)) in
  let w := vang (l_vel l) in
  v3sub (v3add (v3cross (arm (l_com l)) (v3scale (l_mass l) (m3v R (b_comacc (l_body l)))))
               (m3v R (v3add (m3v I (vang (l_acc l))) (v3cross w (m3v I w)))))
        (v3sum (map (fun c => v3add (v3cross (arm (wr_p c)) (m3v R (vlin (wr_w c)))) (m3v R (vang (wr_w c)))) (b_extw (l_body l)))).

(** External force on a link, and its moment about the world origin. *)
Definition ext_force (l : lk) : vec3 F := v3sum (map (fun c => m3v (fatt (l_frame l)) (vlin (wr_w c))) (b_extw (l_body l))).
Definition ext_moment (l : lk) : vec3 F :=
  v3sum (map (fun c => v3add (v3cross (xform (l_frame l) (wr_p c)) (m3v (fatt (l_frame l)) (vlin (wr_w c)))) (m3v (fatt (l_frame l)) (vang (wr_w c)))) (b_extw (l_body l))).

(** [d] lists the links below [i], [i] included, each once. *)
Definition subtree (h : list lk) (i : nat) (d : list nat) : Prop :=
  NoDup d /\ forall k, In k d <-> exists t, lineage h k t /\ In i t.
Definition sum_over (h : list lk) (d : list nat) (f : lk -> vec3 F) : vec3 F :=
  v3sum (map (fun k => match nth_error h k with Some l => f l | None => v3zero end) d).
End DynSpec.
