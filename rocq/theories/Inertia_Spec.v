(** * Inertia_Spec: the kinetic product of two motions of a chain, for C83. *)
From Coq Require Import List.
From Verif Require Import Num Vec Joint_Model Body_Model Link_Model.
Import ListNotations.

Section S.
Context {F : Type} {N : Num F}.
Local Open Scope num_scope.
Notation lk := (link F).

(** Mass times the product of the velocities of the centre of mass, plus angular velocity, inertia tensor
    and angular velocity: of one link in two motions. *)
Definition kin_pair (a u : lk) : F :=
  mp_mass (b_mp (l_body a)) * v3dot (b_comvel (l_body a)) (b_comvel (l_body u)) +
  v3dot (m3v (mp_inertia (b_mp (l_body a))) (vang (l_vel a))) (vang (l_vel u)).
(** Sum over the links. *)
Definition kin_product (h k : list lk) : F := nsum (map (fun p => kin_pair (fst p) (snd p)) (combine h k)).

(** [c'] is [c] moving with the joint velocities [u]. *)
Definition moving (c : chain F) (u : list F) (c' : chain F) : Prop :=
  obind (chain_set_joint_vel_all c u) chain_update_vel = Some c'.

(** [tau] are the joint torques computed by inverse dynamics. *)
Definition torques (g : F) (c : chain F) (v a w : list F) (tau : list F) : Prop :=
  obind (chain_id g c v a) (fun c' => chain_get_joint_trq_all c' w) = Some tau.

Definition ldiff (a b : list F) : list F := map (fun p => fst p - snd p) (combine a b).
End S.
