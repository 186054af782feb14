(** * Motor_Model: motors (rk_motor.c, rk_motor_none.c, rk_motor_trq.c, rk_motor_dc.c). *)

From Coq Require Import List String ZArith.
From Verif Require Import Num.
Import ListNotations.
Set Implicit Arguments.

Section Motor.
Context {F : Type} {N : Num F}.
Local Open Scope num_scope.

(** rkMotorDCPrp, rk_motor_dc.h 15-38. *)
Record dcprp := DC {
  dc_e : F; dc_tf : F;
  dc_k : F; dc_admit : F; dc_max : F; dc_min : F; dc_ratio : F;
  dc_inertia : F; dc_igear : F; dc_compk : F; dc_compl : F }.

(** rkMotorTrqPrp, rk_motor_trq.h 15-21; infinite limits are [None]. *)
Record trqprp := TQ { tq_input : F; tq_min : option F; tq_max : option F }.

(** The function table together with the property record. *)
Inductive mkind := MNone | MDC (p : dcprp) | MTrq (p : trqprp).

(** rkMotor, rk_motor.h: name, prp, com. *)
Record motor := Mot { m_name : option string; m_kind : mkind }.

(** The method tables (rk_motor_com), identified by type. *)
Inductive mcom := ComNone | ComDC | ComTrq.

Definition mcom_of (m : motor) : mcom :=
  match m_kind m with MNone => ComNone | MDC _ => ComDC | MTrq _ => ComTrq end.

(** typestr and size fields: rk_motor_none.c 26-27, rk_motor_dc.c 158-159, rk_motor_trq.c 79-80. *)
Definition mcom_typestr (c : mcom) : string :=
  match c with ComNone => "none" | ComDC => "dc" | ComTrq => "trq" end.
Definition mcom_size (c : mcom) : nat := match c with ComNone => 0%nat | _ => 1%nat end.

(** _rkMotorDCInit, rk_motor_dc.c 12-35. *)
Definition dc_init : dcprp :=
  DC 0 0 (nrat 258 10000) (nrat 42373 100000) (nrat 24 1) (nrat (-24) 1) (nrat 120 1)
     (nrat 165 100000000) (nrat 538 100000000) (nrat 100 1) (nrat 1 1).

(** _rkMotorTrqInit, rk_motor_trq.c 12-17. *)
Definition trq_init : trqprp := TQ 0 None None.

(** rkMotorAssign, rk_motor.c 14-19: keeps the name. *)
Definition motor_assign (m : motor) (c : mcom) : motor :=
  Mot (m_name m) (match c with ComNone => MNone | ComDC => MDC dc_init | ComTrq => MTrq trq_init end).

(** RK_MOTOR_COM_ARRAY, rk_motor.h (NULL-terminated table). *)
Definition motor_com_array : list mcom := [ComNone; ComDC; ComTrq].

(** rkMotorQueryAssign, rk_motor.c 21-31: first table entry with that name; NULL is [None]. *)
Fixpoint motor_query (l : list mcom) (m : motor) (str : string) : option motor :=
  match l with
  | [] => None
  | c :: l' => if String.eqb str (mcom_typestr c) then Some (motor_assign m c) else motor_query l' m str
  end.
Definition motor_query_assign (m : motor) (str : string) : option motor := motor_query motor_com_array m str.

(** _copy methods (memcpy of the property record): rk_motor_dc.c 39-41, rk_motor_trq.c 21-23,
    rk_motor_none.c 12.  [src] and [dst] are the property records. *)
Definition motor_copy_prp (src dst : mkind) : mkind :=
  match src with
  | MNone => dst
  | MDC p => MDC p
  | MTrq p => MTrq p
  end.

(** rkMotorClone, rk_motor.c 40-46. *)
Definition motor_clone (org cln : motor) : motor :=
  let c := motor_assign cln (mcom_of org) in
  Mot (m_name org) (motor_copy_prp (m_kind org) (m_kind c)).

(** rkMotorSetInput: rk_motor_dc.c 43-45, rk_motor_trq.c 25-27, rk_motor_none.c 14. *)
Definition motor_set_input (m : motor) (v : F) : motor :=
  Mot (m_name m)
  (match m_kind m with
   | MNone => MNone
   | MDC p => MDC (DC (clamp v (Some (dc_min p)) (Some (dc_max p))) (dc_tf p) (dc_k p) (dc_admit p)
                      (dc_max p) (dc_min p) (dc_ratio p) (dc_inertia p) (dc_igear p) (dc_compk p) (dc_compl p))
   | MTrq p => MTrq (TQ (clamp v (tq_min p) (tq_max p)) (tq_min p) (tq_max p))
   end).

(** The next four methods write *val; [old] is the previous content of *val,
    which the "none" motor leaves alone (rk_motor_none.c 16-19). *)

(** rkMotorInertia: rk_motor_dc.c 47-49, rk_motor_trq.c 29-31. *)
Definition dc_refl_inertia (p : dcprp) : F := (dc_ratio p * dc_ratio p) * (dc_inertia p + dc_igear p).
Definition motor_inertia (m : motor) (old : F) : F :=
  match m_kind m with MNone => old | MDC p => dc_refl_inertia p | MTrq _ => 0 end.

(** rkMotorInputTrq: rk_motor_dc.c 51-53, rk_motor_trq.c 33-35. *)
Definition dc_input_trq (p : dcprp) : F := dc_admit p * dc_ratio p * dc_k p * dc_e p.
Definition motor_input_trq (m : motor) (old : F) : F :=
  match m_kind m with MNone => old | MDC p => dc_input_trq p | MTrq p => tq_input p end.

(** rkMotorRegistance: rk_motor_dc.c 55-57, rk_motor_trq.c 37-39 (displacement unused). *)
Definition dc_resist (p : dcprp) (vel : F) : F :=
  dc_admit p * ((dc_ratio p * dc_k p) * (dc_ratio p * dc_k p)) * vel.
Definition motor_resist (m : motor) (vel old : F) : F :=
  match m_kind m with MNone => old | MDC p => dc_resist p vel | MTrq _ => 0 end.

(** rkMotorDrivingTrq: rk_motor_dc.c 59-66, rk_motor_trq.c 41-43. *)
Definition motor_driving_trq (m : motor) (vel acc old : F) : F :=
  match m_kind m with
  | MNone => old
  | MDC p => dc_input_trq p - dc_resist p vel - dc_refl_inertia p * acc
  | MTrq p => tq_input p
  end.

(** The stored input of a motor. *)
Definition motor_input (m : motor) : option F :=
  match m_kind m with MNone => None | MDC p => Some (dc_e p) | MTrq p => Some (tq_input p) end.

(** rkMotorArrayClone, rk_motor.c 88-104: element-wise clone. The destination
    elements come from zAlloc (zeroed memory: no name). *)
Definition motor_array_clone (org : list motor) : list motor :=
  map (fun m => motor_clone m (Mot None MNone)) org.

(** rkMotorArrayFind, rk_motor.c 106-115 (zArrayFindName: first element with the name). *)
Definition motor_array_find (arr : list motor) (name : string) : option motor :=
  find (fun m => match m_name m with Some s => String.eqb s name | None => false end) arr.
End Motor.
Arguments dcprp : clear implicits. Arguments trqprp : clear implicits.
Arguments mkind : clear implicits. Arguments motor : clear implicits.
Arguments MNone {F}.
