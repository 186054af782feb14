(** * Motor_Properties: theorems C14, C15, C60. *)

From Coq Require Import List String ZArith QArith Qcanon.
From Verif Require Import Num NumFacts Motor_Model Motor_Proofs.
Import ListNotations.

Section Thms.
Context {F : Type} {N : Num F} {L : NumLaws F N}.
Local Open Scope num_scope.

(** C14: [vs ++ [v]] is any non-empty sequence of requested inputs. *)
Theorem C14_motor_saturation (m : motor F) vs v old :
  has_input m -> limits_ok (fst (motor_limits m)) (snd (motor_limits m)) ->
  let m' := fold_left motor_set_input (vs ++ [v]) m in
  same_but_input m m' /\
  exists e, motor_input m' = Some e /\
    within (fst (motor_limits m)) (snd (motor_limits m)) e /\
    (within (fst (motor_limits m)) (snd (motor_limits m)) v -> e = v) /\
    (0 <= motor_gain m ->
       within (scale_lim (motor_gain m) (fst (motor_limits m))) (scale_lim (motor_gain m) (snd (motor_limits m)))
              (motor_input_trq m' old)).
Proof. exact (saturation m vs v old). Qed.

(** C15: torque balance, resistance opposing the velocity, and with zero input the power bounded by minus the
    rate J v a at which the rotor kinetic energy 1/2 J v^2 changes. [old*] are the previous contents of the
    output arguments. *)
Theorem C15_dc_motor_balance_and_passivity n (p : dcprp F) vel acc old o1 o2 o3 :
  let m := Mot n (MDC p) in
  motor_driving_trq m vel acc old = motor_input_trq m o1 - motor_resist m vel o2 - motor_inertia m o3 * acc /\
  (0 <= dc_admit p -> 0 <= motor_resist m vel o2 * vel) /\
  (0 <= dc_inertia p -> 0 <= dc_igear p -> 0 <= motor_inertia m o3) /\
  (0 <= dc_admit p -> dc_e p = 0 -> motor_driving_trq m vel acc old * vel <= - (motor_inertia m o3 * vel * acc)).
Proof.
  intros m. split; [exact (dc_balance n p vel acc old o1 o2 o3)|].
  split; [exact (resist_passive p vel)|]. split; [exact (refl_inertia_nonneg p)|exact (dc_passive n p vel acc old o3)].
Qed.

(** C60: motor lookup by type and name, and cloning. *)
Theorem C60_motor_lookup_and_clone (m c : motor F) arr s name :
  motor_clone m c = m /\ motor_array_clone arr = arr /\
  match motor_query_assign m s with
  | Some m' => mcom_typestr (mcom_of m') = s /\ m_name m' = m_name m /\ In s ["none"; "dc"; "trq"]%string
  | None => ~ In s ["none"; "dc"; "trq"]%string
  end /\
  match motor_array_find arr name with
  | Some r => exists l1 l2, arr = l1 ++ r :: l2 /\ m_name r = Some name /\ (forall x, In x l1 -> m_name x <> Some name)
  | None => forall x, In x arr -> m_name x <> Some name
  end.
Proof.
  split; [exact (motor_clone_same m c)|]. split; [exact (motor_array_clone_same arr)|].
  split; [exact (motor_query_spec m s) | exact (array_find_spec arr name)].
Qed.
End Thms.

Local Open Scope num_scope.
Definition ex_dc : motor Qc := Mot (Some "m1"%string) (MDC dc_init).
Definition ex_tq : motor Qc := Mot (Some "m2"%string) (MTrq (TQ (Q2Qc 0) (Some (Q2Qc (-1#1))) None)).
Example C14_example : has_input ex_dc /\ limits_ok (fst (motor_limits ex_dc)) (snd (motor_limits ex_dc)) /\
  0 <= motor_gain ex_dc /\
  option_map this (motor_input (fold_left motor_set_input [Q2Qc (5#1); Q2Qc (100#1)] ex_dc)) = Some (24#1)%Q /\
  has_input ex_tq /\ limits_ok (fst (motor_limits ex_tq)) (snd (motor_limits ex_tq)) /\
  option_map this (motor_input (fold_left motor_set_input [Q2Qc (-3#1)] ex_tq)) = Some (-1#1)%Q.
Proof. repeat split; try discriminate; vm_compute; reflexivity. Qed.
Example C15_example : 0 <= dc_admit (dc_init (F:=Qc)) /\ 0 <= dc_inertia (dc_init (F:=Qc)) /\ 0 <= dc_igear (dc_init (F:=Qc)) /\
  dc_e (dc_init (F:=Qc)) = 0 /\
  nltb (motor_driving_trq ex_dc (Q2Qc (2#1)) (Q2Qc (1#1)) (Q2Qc 0) * Q2Qc (2#1)) 0 = true.
Proof. repeat split; vm_compute; reflexivity. Qed.
Example C60_example : motor_query_assign ex_dc "trq" = Some (Mot (Some "m1"%string) (MTrq trq_init)) /\
  motor_query_assign ex_dc "servo" = None /\ motor_array_find [ex_dc; ex_tq] "m2" = Some ex_tq.
Proof. repeat split. Qed.

Print Assumptions C14_motor_saturation.
Print Assumptions C15_dc_motor_balance_and_passivity.
Print Assumptions C60_motor_lookup_and_clone.
