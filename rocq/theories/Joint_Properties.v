(** * Joint_Properties: theorems C01-C03, C05-C12. *)

From Coq Require Import List String ZArith QArith Qcanon.
From Verif Require Import Num NumFacts Vec VecFacts Motor_Model Joint_Model Joint_Spec Joint_Proofs ExtQ.
Import ListNotations.

Section Thms.
Context {F : Type} {N : Num F} {L : NumLaws F N} {E : Ext F} {X : ExtLaws F N E}.
Local Open Scope num_scope.

(** C01: after any displacement-setting call and any later calls that do not
    change the limits, displacements are within the limits. *)
Theorem C01_limits_hold_after_any_history (j j1 j' : joint F) o ops :
  limits_ordered j -> sets_dis o -> joint_step j o = Some j1 ->
  (forall o', In o' ops -> ~ changes_limits o') -> joint_run j1 ops = Some j' ->
  within_limits j' /\ joint_get_min j' = joint_get_min j /\ joint_get_max j' = joint_get_max j.
Proof. exact (history_within j o j1 ops j'). Qed.

(** C02: whatever calls were made since the joint was assigned, the
    transformation is the documented one for the displacement that is read back. *)
Theorem C02_xform_is_documented t (j0 j : joint F) ops :
  joint_assign t = Some j0 -> joint_run j0 ops = Some j ->
  exists f, doc_frame t (joint_get_dis j) = Some f /\ forall fo, joint_xform j fo = fcascade fo f.
Proof.
  intros A R. assert (K := run_cache ops j0 j (assign_cache t j0 A) R).
  assert (T : jtype_of j = t).
  { rewrite (run_type _ _ _ R). rewrite (set_dis_type _ _ _ A). now destruct t. }
  destruct (cache_doc j (@fid F N) K) as (f & D & _). rewrite T in D.
  exists f. split; [exact D|]. intros fo. destruct (cache_doc j fo K) as (g & D' & H).
  rewrite T, D in D'. injection D' as <-. exact H.
Qed.

(** C03: a rigid original frame gives a rigid link frame. *)
Theorem C03_xform_keeps_frames_rigid t (j0 j : joint F) ops fo :
  joint_assign t = Some j0 -> joint_run j0 ops = Some j -> rigid fo -> rigid (joint_xform j fo).
Proof.
  intros A R G. destruct (C02_xform_is_documented t j0 j ops A R) as (f & D & H).
  rewrite H. apply rigid_cascade; [exact G|]. eapply doc_frame_rigid; exact D.
Qed.

(** C05: the acceleration part holds always; the velocity part when every
    requested component is left alone by the limit function (within limits and, for angles, a
    normalised phase).  Missing: requests that are clamped or wrapped, for which the claim is false (below). *)
Theorem C05_continuous_update_acc (j j' : joint F) l dt :
  scalar_axes (jtype_of j) -> dt <> 0 -> joint_set_dis_cnt j l dt = Some j' ->
  rate_of dt (joint_get_vel j) (joint_get_vel j') (joint_get_acc j').
Proof. exact (cnt_acc j l dt j'). Qed.
Theorem C05_continuous_update_vel_partial (j j' : joint F) l dt :
  scalar_axes (jtype_of j) -> dt <> 0 ->
  joint_lim_dis j l = Some (firstn (joint_size j) l) ->
  joint_set_dis_cnt j l dt = Some j' ->
  rate_of dt (joint_get_dis j) (joint_get_dis j') (joint_get_vel j').
Proof. exact (cnt_vel j l dt j'). Qed.

(** C06: the round trip holds for the revolute joint. *)
Theorem C06_pivot_roundtrip_revolute_partial : pivot_roundtrip1 (F:=F) TRevol.
Proof. exact revol_pivot. Qed.

(** C07 *)
Theorem C07_copy_state (src dst : joint F) :
  settled src -> jtype_of src = jtype_of dst -> same_limits src dst ->
  exists dst', joint_copy_state src dst = Some dst' /\ same_state dst' src /\ same_limits dst' dst /\
               jtype_of dst' = jtype_of dst.
Proof. exact (copy_state_same src dst). Qed.

(** C08: the clone of a joint whose limits and friction parameters are all still
    the defaults is identical, so that all later calls agree; for any settled joint
    type, motor, velocity, acceleration and torque agree, and with normalised angles also
    displacement and transformation.  Missing: limits and friction parameters, which are lost (below). *)
Theorem C08_clone_default_partial (j : joint F) :
  settled j -> default_params j -> joint_clone j = Some j.
Proof. exact (clone_default j). Qed.
Theorem C08_clone_state_partial (j c : joint F) :
  settled j -> joint_clone j = Some c ->
  jtype_of c = jtype_of j /\ joint_motor c = joint_motor j /\ joint_get_vel c = joint_get_vel j /\
  joint_get_acc c = joint_get_acc j /\ joint_get_trq c = joint_get_trq j /\
  ((forall d, In d (angles_of j) -> is_norm d) -> same_state c j).
Proof.
  intros S H. destruct (clone_basic j c H) as (A & B & C & D & M). repeat split; try assumption;
  apply (clone_dis j c S); assumption.
Qed.

(** C09 *)
Theorem C09_friction_is_passive (j : joint F) old :
  scalar_axes (jtype_of j) ->
  (forall a, In a (axes_of j) -> 0 <= a_visc a /\ 0 <= a_coul a) ->
  exists D, 0 <= D /\ dotl (joint_get_kfriction j old) (joint_get_vel j) = - elastic_power j - D.
Proof. exact (kfric_power j old). Qed.

(** C10 *)
Theorem C10_torque_dual_to_velocity (j : joint F) w qd j1 v :
  joint_set_vel j qd = Some j1 ->
  dotl (joint_get_trq (joint_calc_trq j w)) qd = v6dot w (v6sub (joint_inc_vel j1 v) v).
Proof. exact (trq_dual_vel j w qd j1 v). Qed.

(** C11 *)
Theorem C11_axes_agree_with_velocity (j : joint F) f v :
  axis_sum (joint_ang_axes j f) (joint_get_vel j) = m3v (fatt f) (v3sub (vang (joint_inc_vel j v)) (vang v)) /\
  axis_sum (joint_lin_axes j f) (joint_get_vel j) = m3v (fatt f) (v3sub (vlin (joint_inc_vel j v)) (vlin v)).
Proof. split; [exact (axes_ang j f v) | exact (axes_lin j f v)]. Qed.

(** C12 *)
Theorem C12_type_lookup (j : joint F) s :
  (forall n, In (s, n) doc_types ->
     exists j', joint_query_assign j s = Some (j', true) /\ joint_typestr j' = s /\ joint_size j' = n /\
                joint_get_dis j' = repeat 0 n) /\
  ((forall n, ~ In (s, n) doc_types) -> joint_query_assign j s = Some (j, false)).
Proof.
  split; [intros n; exact (query_assign_doc j s n)|].
  intros H. unfold joint_query_assign. now rewrite (query_undoc s H).
Qed.
End Thms.

(** ** Findings *)
Local Open Scope num_scope.

(** A prismatic joint with limits [0,1] at 0. *)
Definition ex_prism : joint Qc := JPrism (PR (ax_max (Some (qz 1)) (ax_min (Some (qz 0)) ax_init)) motor_none_assigned).
Definition ex_hooke : joint Qc := JHooke (HK ax_init ax_init (qz 0) (qz 1) (qz 0) (qz 1) motor_none_assigned).
Definition ex_cylin : joint Qc := JCylin (CY ax_init ax_init (qz 0) (qz 1) motor_none_assigned).

(** C05 false: request 2 under the upper limit 1; displacement changes by 1, velocity says 2. *)
Theorem C05_continuous_update_vel_refuted :
  exists (j j' : joint Qc) l dt, scalar_axes (jtype_of j) /\ dt <> 0 /\ joint_set_dis_cnt j l dt = Some j' /\
  ~ rate_of dt (joint_get_dis j) (joint_get_dis j') (joint_get_vel j').
Proof.
  exists ex_prism. eexists. exists [qz 2], (qz 1). split; [exact I|]. split; [apply qne; reflexivity|].
  split; [reflexivity|]. intros (_ & _ & H). specialize (H 0%nat _ _ _ eq_refl eq_refl eq_refl).
  revert H. apply qne. vm_compute. reflexivity.
Qed.

(** C06 false for the prismatic, cylindrical and universal joints. *)
Theorem C06_pivot_prismatic_refuted : ~ pivot_roundtrip1 (F:=Qc) TPrism.
Proof.
  intros H. specialize (H ex_prism ex_prism ex_prism _ (FP 1 (qz 1) (qz 1)) _ [] fp_zero _ eq_refl eq_refl (fun _ x => match x with end) eq_refl eq_refl).
  destruct H as (H & _). cbn in H. injection H as H _ _. discriminate H.
Qed.
Theorem C06_pivot_cylindrical_refuted : ~ pivot_roundtrip2 (F:=Qc) TCylin.
Proof.
  intros H. specialize (H ex_cylin ex_cylin ex_cylin _ (FP 1 (qz 1) (qz 1)) fp_zero _ [] fp_zero fp_zero _ eq_refl eq_refl (fun _ x => match x with end) eq_refl eq_refl).
  destruct H as (H & _). cbn in H. injection H as H _ _. discriminate H.
Qed.
Theorem C06_pivot_universal_refuted : ~ pivot_roundtrip2 (F:=Qc) THooke.
Proof.
  intros H. specialize (H ex_hooke ex_hooke ex_hooke _ (FP 1 (qz 1) (qz 1)) fp_zero _ [] fp_zero fp_zero _ eq_refl eq_refl (fun _ x => match x with end) eq_refl eq_refl).
  destruct H as (H & _). cbn in H. injection H as H _ _. discriminate H.
Qed.

(** C08 false: the clone of a limited joint is unlimited, and the same later call gives a different result. *)
Theorem C08_clone_refuted :
  exists (j c j' c' : joint Qc) l, settled j /\ joint_clone j = Some c /\ joint_get_max c <> joint_get_max j /\
  joint_set_dis j l = Some j' /\ joint_set_dis c l = Some c' /\ joint_get_dis c' <> joint_get_dis j'.
Proof.
  exists (match joint_set_dis ex_prism [qz 0] with Some j => j | None => ex_prism end).
  eexists _, _, _, [qz 2]. split; [|split; [reflexivity|split; [|split; [reflexivity|split; [reflexivity|]]]]].
  - exists ex_prism, (OSetDis [qz 0]). eexists _, []. split; [|split; [exact I|split; [reflexivity|split; [intros ? []|reflexivity]]]].
    intros [|i] lo hi; cbn; [intros [= <-] [= <-]; reflexivity | destruct i; discriminate].
  - cbn. discriminate.
  - cbn. intros H. injection H as H. discriminate H.
Qed.

(** ** Examples: the hypotheses are met by concrete non-trivial cases. *)
Definition ex_ops : list (jop Qc) :=
  [OSetVel [qz 3]; OCalcTrq (V6 (V3 (qz 1) (qz 2) (qz 3)) (V3 (qz 4) (qz 5) (qz 6))); OSetFriction [qz 1];
   OSetDisCNT [qz (-7)] (qz 1); OGetPivot [FP 1 (qz 2) (qz 3)]; OCopyFrom ex_prism].
Example C01_example : exists j1 j', limits_ordered ex_prism /\ joint_step ex_prism (OSetDis [qz 5]) = Some j1 /\
  joint_get_dis j1 = [qz 1] /\ joint_run j1 ex_ops = Some j' /\ (forall o, In o ex_ops -> ~ changes_limits o).
Proof.
  eexists _, _. split; [|split; [reflexivity|split; [|split; [reflexivity|]]]].
  - intros [|i] lo hi; cbn; [intros [= <-] [= <-]; reflexivity | destruct i; discriminate].
  - apply qleq; vm_compute; reflexivity.
  - cbn. intuition subst; auto.
Qed.
Example C02_C03_example : exists j0 j, joint_assign (F:=Qc) TRevol = Some j0 /\
  joint_run j0 [OSetMax [Some (qz 1)]; OSetDis [qz 2]; OSetVel [qz 1]; OSetDisCNT [qz (-1)] (qz 1)] = Some j /\
  joint_get_dis j = [qz (-1)] /\ joint_xform j fid <> fid.
Proof.
  eexists _, _. split; [reflexivity|]. split; [reflexivity|]. split; [apply qleq; vm_compute; reflexivity|].
  intros H. apply (f_equal (fun f => vx (mc0 (fatt f)))) in H. revert H. apply qne. vm_compute. reflexivity.
Qed.
Example C05_example : exists j', joint_lim_dis ex_prism [Q2Qc (1#2)] = Some [Q2Qc (1#2)] /\
  joint_set_dis_cnt ex_prism [Q2Qc (1#2)] (Q2Qc (1#10)) = Some j' /\ joint_get_vel j' = [qz 5].
Proof. eexists. split; [|split; [reflexivity|apply qleq; vm_compute; reflexivity]].
  cbn. do 2 f_equal; apply qeq; vm_compute; reflexivity. Qed.
Definition ex_revol : joint Qc := JRevol (RV (ax_coef (qz 2) (qz 3) (qz 1) (qz 0) (ax_vel (qz (-2)) (ax_dis (qz 1) ax_init))) (qz 0) (qz 1) motor_none_assigned).
Example C06_example : exists j1 j2, joint_set_pivot ex_revol [FP 1 (qz 2) (qz 3)] = Some (j1, [FP 1 (qz 2) (qz 3)]) /\
  joint_run j1 [OSetDis [qz 1]; OGetPivot [fp_zero]; OCopyFrom ex_revol] = Some j2 /\
  option_map snd (joint_get_pivot j2 [fp_zero]) = Some [FP 1 (qz 2) (qz 3)].
Proof. eexists _, _. split; [reflexivity|]. split; reflexivity. Qed.
Definition ex_run (j : joint Qc) (ops : list (jop Qc)) : joint Qc :=
  match joint_run j ops with Some j' => j' | None => JFixed end.
Definition ex_src : joint Qc := ex_run ex_prism [OSetDis [qz 5]; OSetVel [qz 3]].
Example C07_example : settled ex_src /\ same_limits ex_src ex_prism /\ jtype_of ex_src = jtype_of ex_prism /\
  joint_get_dis ex_src = [qz 1] /\ joint_get_dis ex_prism = [qz 0].
Proof.
  split; [|split; [split; reflexivity|split; [reflexivity|split; apply qleq; vm_compute; reflexivity]]].
  exists ex_prism, (OSetDis [qz 5]). eexists _, [OSetVel [qz 3]]. split; [|split; [exact I|split; [reflexivity|split; [|reflexivity]]]].
  - intros [|i] lo hi; cbn; [intros [= <-] [= <-]; reflexivity | destruct i; discriminate].
  - cbn. intuition subst; auto.
Qed.
Definition ex_def : joint Qc := ex_run (joint_alloc TRevol) [OSetDis [qz 1]; OSetVel [qz 3]].
Example C08_example : settled ex_def /\ default_params ex_def /\ joint_get_vel ex_def = [qz 3].
Proof.
  split; [|split].
  - exists (joint_alloc TRevol), (OSetDis [qz 1]). eexists _, [OSetVel [qz 3]].
    split; [|split; [exact I|split; [reflexivity|split; [|reflexivity]]]].
    + intros [|i] lo hi; cbn; [intros [= <-] [= <-]; exact I | destruct i; discriminate].
    + cbn. intuition subst; auto.
  - split; [|discriminate]. cbn. intros a [<-|[]]. cbn. repeat split.
  - reflexivity.
Qed.
Example C09_example : scalar_axes (jtype_of ex_revol) /\
  (forall a, In a (axes_of ex_revol) -> 0 <= a_visc a /\ 0 <= a_coul a) /\
  dotl (joint_get_kfriction ex_revol []) (joint_get_vel ex_revol) = qz (-10) /\ elastic_power ex_revol = qz (-4).
Proof.
  split; [exact I|]. split; [intros a [<-|[]]; split; reflexivity|]. split; apply qeq; vm_compute; reflexivity.
Qed.
Example C10_example : exists j1, joint_set_vel ex_revol [qz 3] = Some j1 /\
  dotl (joint_get_trq (joint_calc_trq ex_revol (V6 v3zero (V3 (qz 1) (qz 2) (qz 5))))) [qz 3] = qz 15 /\
  joint_get_vel j1 = [qz 3].
Proof. eexists. split; [reflexivity|]. split; [apply qeq; vm_compute; reflexivity | reflexivity]. Qed.
Example C12_example : In ("hooke"%string, 2%nat) doc_types /\ (forall n, ~ In ("ball"%string, n) doc_types).
Proof. split; [cbn; auto 10|]. intros n. cbn. intuition discriminate. Qed.

Print Assumptions C01_limits_hold_after_any_history.
Print Assumptions C02_xform_is_documented.
Print Assumptions C03_xform_keeps_frames_rigid.
Print Assumptions C05_continuous_update_acc.
Print Assumptions C05_continuous_update_vel_partial.
Print Assumptions C05_continuous_update_vel_refuted.
Print Assumptions C06_pivot_roundtrip_revolute_partial.
Print Assumptions C06_pivot_prismatic_refuted.
Print Assumptions C06_pivot_cylindrical_refuted.
Print Assumptions C06_pivot_universal_refuted.
Print Assumptions C07_copy_state.
Print Assumptions C08_clone_default_partial.
Print Assumptions C08_clone_state_partial.
Print Assumptions C08_clone_refuted.
Print Assumptions C09_friction_is_passive.
Print Assumptions C10_torque_dual_to_velocity.
Print Assumptions C11_axes_agree_with_velocity.
Print Assumptions C12_type_lookup.
