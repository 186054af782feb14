(** * Seq_Spec: sequences of displacements as functions of time. *)
From Coq Require Import String List Arith.
From Verif Require Import Num Vec Motor_Model Joint_Model Body_Model Tree Link_Model Cad_Model Seq_Model.
Import ListNotations.

Section SeqSpec.
Context {F : Type} {N : Num F} {E : Ext F} {C : CadExt F}.
Local Open Scope num_scope.

(** Time at which step [k] begins. *)
Definition elapsed (s : list (step F)) (k : nat) : F := fold_right (fun e t => st_dt e + t) 0 (firstn k s).
(** The first link called [name]. *)
Definition first_named (h : list (link F)) (name : string) (i : nat) (l : link F) : Prop :=
  nth_error h i = Some l /\ l_name l = name /\ forall j l', (j < i)%nat -> nth_error h j = Some l' -> l_name l' <> name.
(** The joints take the displacements [v] as they are: none is beyond a limit or more than half a turn. *)
Definition attainable (c : chain F) (v : list F) : Prop :=
  exists c', chain_set_joint_dis_all c v = Some c' /\ chain_get_joint_dis_all c' (repeat 0 (chain_joint_size c)) = Some v.
(** A sequence made for the chain: vectors of its size, times that pass. *)
Definition suited (c : chain F) (s : list (step F)) : Prop := forall e, In e s -> length (st_v e) = chain_joint_size c /\ st_dt e <> 0.
(** The joints do not move. *)
Definition at_rest (c : chain F) : Prop := forall l, In l (c_links c) -> Forall (fun q => q = 0) (joint_get_vel (l_joint l)).

(** Backward difference of two vectors of rates. *)
Fixpoint quotient (dt : F) (now before : list F) : list F :=
  match now, before with
  | a :: now', b :: before' => (a - b) / dt :: quotient dt now' before'
  | _, _ => []
  end.
(** Velocity and acceleration at step [k], by backward differences with the time step of [k]: displacements are
    subtracted joint by joint (rkChainSubJointDisAll), before the first step the joints are at rest at the first vector. *)
Definition vel_at (c : chain F) (s : list (step F)) (k : nat) : option (list F) :=
  match nth_error s k, nth_error s (pred k) with
  | Some e, Some e' => option_map (map (fun d => d / st_dt e)) (chain_sub_joint_dis_all c (st_v e) (st_v e'))
  | _, _ => None
  end.
Definition acc_at (c : chain F) (s : list (step F)) (k : nat) : option (list F) :=
  match nth_error s k, vel_at c s k with
  | Some e, Some w =>
    match k with
    | O => Some (quotient (st_dt e) w (repeat 0 (length w)))
    | S k' => option_map (quotient (st_dt e) w) (vel_at c s k')
    end
  | _, _ => None
  end.
(** A line of the log files of rk_id shows the state [c] of the chain: the acceleration of the COM without the
    gravity the chain holds, the ZMP on the floor at [z], the attitude of the root link, the angular momentum about
    the COM and the driving torques of all joints. *)
Definition shows (g z : F) (c : chain F) (t : F) (r : idrow F) : Prop :=
  id_t r = t /\ id_com r = c_wcom c /\ id_comvel r = c_comvel c /\ id_comacc r = v3sub (c_comacc c) (V3 0 0 g) /\
  chain_zmp c z = Some (Some (id_zmp r)) /\ id_am r = chain_am c (c_wcom c) /\
  (exists b, nth_error (c_links c) 0 = Some b /\ id_rpy r = x_m2zyx (fatt (l_frame b))) /\
  length (id_trq r) = chain_joint_size c /\
  (forall i l o, nth_error (c_links c) i = Some l -> l_offset l = Some o ->
    firstn (joint_size (l_joint l)) (skipn o (id_trq r)) = joint_get_trq (l_joint l)).
End SeqSpec.
