(** * Joint_R: joint rates are time derivatives, over the reals (C04). *)

From Coq Require Import List Reals Lra Lia.
From Verif Require Import Num NumFacts Vec VecFacts Motor_Model Joint_Model Joint_Spec Joint_Proofs Deriv ExtR.
Import ListNotations.
Local Open Scope R_scope.

(** ** Specification *)
Definition at_ (l : list R) (i : nat) : R := nth i l 0.
Definition lin_of (l : list R) : vec3 R := V3 (at_ l 0) (at_ l 1) (at_ l 2).
Definition ang_of (l : list R) : vec3 R := V3 (at_ l 3) (at_ l 4) (at_ l 5).
(** [u] is the rate at time t of the displacement trajectory q of a joint of type ty.  One- and two-axis joints:
    component-wise derivative.  Spherical and floating joints: u is the angular (and linear) velocity in the
    original frame, i.e. att' = [u x] att. *)
Definition dis_rate (ty : jtype) (q : R -> list R) (t : R) (u : list R) : Prop :=
  (forall s, length (q s) = jtype_size ty) /\ length u = jtype_size ty /\
  match ty with
  | TFixed => True
  | TRevol | TPrism | TCylin | THooke =>
      forall i, (i < jtype_size ty)%nat -> D1 (fun s => at_ (q s) i) t (at_ u i)
  | TSpher => DM (fun s => raa2m (lin_of (q s))) t (m3mul (m3skew (lin_of u)) (raa2m (lin_of (q t))))
  | TFloat | TBrFloat =>
      D3 (fun s => lin_of (q s)) t (lin_of u) /\
      DM (fun s => raa2m (ang_of (q s))) t (m3mul (m3skew (ang_of u)) (raa2m (ang_of (q t))))
  end.
(** [u'] is the rate of the velocity trajectory. *)
Definition vel_rate (ty : jtype) (u : R -> list R) (t : R) (u' : list R) : Prop :=
  (forall s, length (u s) = jtype_size ty) /\ length u' = jtype_size ty /\
  forall i, (i < jtype_size ty)%nat -> D1 (fun s => at_ (u s) i) t (at_ u' i).

(** Frame and relative twist as functions of displacement and velocity. *)
Definition doc_fr (ty : jtype) (q : list R) : frame R := match doc_frame ty q with Some f => f | None => fid end.
Definition doc_twist (ty : jtype) (q u : list R) : vec6 R :=
  match ty with
  | TFixed => v6zero
  | TRevol => V6 v3zero (V3 0 0 (at_ u 0))
  | TPrism => V6 (V3 0 0 (at_ u 0)) v3zero
  | TCylin => V6 (V3 0 0 (at_ u 0)) (V3 0 0 (at_ u 1))
  | THooke => V6 v3zero (V3 (- sin (at_ q 1) * at_ u 0) (at_ u 1) (cos (at_ q 1) * at_ u 0))
  | TSpher => V6 v3zero (m3tv (raa2m (lin_of q)) (lin_of u))
  | TFloat | TBrFloat => V6 (m3tv (raa2m (ang_of q)) (lin_of u)) (m3tv (raa2m (ang_of q)) (ang_of u))
  end.

(** ** Frame derivative *)
Lemma len0 {A} (l : list A) : length l = 0%nat -> l = []. Proof. now destruct l. Qed.
Lemma len1 (l : list R) : length l = 1%nat -> l = [at_ l 0].
Proof. destruct l as [|a [|]]; try discriminate. reflexivity. Qed.
Lemma len2 (l : list R) : length l = 2%nat -> l = [at_ l 0; at_ l 1].
Proof. destruct l as [|a [|b [|]]]; try discriminate. reflexivity. Qed.
Lemma len3 (l : list R) : length l = 3%nat -> l = [at_ l 0; at_ l 1; at_ l 2].
Proof. destruct l as [|a [|b [|c [|]]]]; try discriminate. reflexivity. Qed.
Lemma len6 (l : list R) : length l = 6%nat -> l = [at_ l 0; at_ l 1; at_ l 2; at_ l 3; at_ l 4; at_ l 5].
Proof. destruct l as [|a [|b [|c [|d [|e [|f [|]]]]]]]; try discriminate. reflexivity. Qed.

Lemma twist_ext X Y t v : (forall s, X s = Y s) -> has_twist X t v -> has_twist Y t v.
Proof.
  intros E [A B]. split.
  - rewrite <- E. eapply D3_ext; [|exact A]. intros s; cbv beta; now rewrite E.
  - rewrite <- E. eapply DM_ext; [|exact B]. intros s; cbv beta; now rewrite E.
Qed.
Lemma twist_eq X t v w : has_twist X t v -> v = w -> has_twist X t w. Proof. now intros H <-. Qed.

Ltac rx := unfold rot_z, rot_y, trans_z; cbn [x_sin x_cos x_aa2m Ext_R]; rcomp.
Lemma att_body (A : R -> mat3 R) t w : rotation (A t) -> DM A t (m3mul (m3skew w) (A t)) ->
  DM A t (m3mul (A t) (m3skew (m3tv (A t) w))).
Proof. intros H D. now rewrite <- m3skew_rot. Qed.

Lemma doc_twist_deriv ty q t u : dis_rate ty q t u -> has_twist (fun s => doc_fr ty (q s)) t (doc_twist ty (q t) u).
Proof.
  intros (LQ & LU & H). unfold doc_fr. destruct ty; cbn [jtype_size] in *.
  - apply twist_ext with (X := fun _ => fid); [|apply twist_const]. intros s. rewrite (len0 _ (LQ s)). reflexivity.
  - assert (H0 := H 0%nat ltac:(lia)).
    apply twist_ext with (X := fun s => Fr v3zero (rot_z (at_ (q s) 0))); [intros s; rewrite (len1 _ (LQ s)); reflexivity|].
    split; repeat split; unfold doc_twist; rx; (dsolve; cbv beta; ring).
  - assert (H0 := H 0%nat ltac:(lia)).
    apply twist_ext with (X := fun s => trans_z (at_ (q s) 0)); [intros s; rewrite (len1 _ (LQ s)); reflexivity|].
    split; repeat split; unfold doc_twist; rx; (dsolve; cbv beta; ring).
  - assert (H0 := H 0%nat ltac:(lia)). assert (H1 := H 1%nat ltac:(lia)).
    apply twist_ext with (X := fun s => fcascade (Fr v3zero (rot_z (at_ (q s) 1))) (trans_z (at_ (q s) 0)));
      [intros s; rewrite (len2 _ (LQ s)); reflexivity|].
    split; repeat split; unfold doc_twist; rx; (dsolve; cbv beta; ring).
  - assert (H0 := H 0%nat ltac:(lia)). assert (H1 := H 1%nat ltac:(lia)).
    apply twist_ext with (X := fun s => Fr v3zero (m3mul (rot_z (at_ (q s) 0)) (rot_y (at_ (q s) 1))));
      [intros s; rewrite (len2 _ (LQ s)); reflexivity|].
    assert (S := sin2_cos2 (at_ (q t) 1)). unfold Rsqr in S.
    split; repeat split; unfold doc_twist; rx; (dsolve; cbv beta; apply Rminus_diag_uniq).
    all: set (c0 := cos (at_ (q t) 0)); set (s0 := sin (at_ (q t) 0)); set (u0 := at_ u 0).
    all: set (c1 := cos (at_ (q t) 1)) in *; set (s1 := sin (at_ (q t) 1)) in *; set (u1 := at_ u 1).
    all: match goal with |- ?e = 0 => first [ ring
           | transitivity (s0 * u0 * (s1 * s1 + c1 * c1 - 1)); [ring | rewrite S; ring]
           | transitivity (c0 * u0 * (s1 * s1 + c1 * c1 - 1)); [ring | rewrite S; ring]
           | transitivity (- (s0 * u0 * (s1 * s1 + c1 * c1 - 1))); [ring | rewrite S; ring]
           | transitivity (- (c0 * u0 * (s1 * s1 + c1 * c1 - 1))); [ring | rewrite S; ring] ] end.
  - apply twist_ext with (X := fun s => Fr v3zero (raa2m (lin_of (q s)))); [intros s; rewrite (len3 _ (LQ s)); reflexivity|].
    split.
    + cbn [fpos fatt doc_twist vlin]. rewrite m3v_0_r. apply D3_const.
    + cbn [fpos fatt doc_twist vang]. apply (att_body (fun s => raa2m (lin_of (q s)))); [apply raa_rot | exact H].
  - destruct H as [H1 H2].
    apply twist_ext with (X := fun s => Fr (lin_of (q s)) (raa2m (ang_of (q s)))); [intros s; rewrite (len6 _ (LQ s)); reflexivity|].
    split.
    + cbn [fpos fatt doc_twist vlin]. rewrite rot_v_tv by apply raa_rot. exact H1.
    + cbn [fpos fatt doc_twist vang]. apply (att_body (fun s => raa2m (ang_of (q s)))); [apply raa_rot | exact H2].
  - destruct H as [H1 H2].
    apply twist_ext with (X := fun s => Fr (lin_of (q s)) (raa2m (ang_of (q s)))); [intros s; rewrite (len6 _ (LQ s)); reflexivity|].
    split.
    + cbn [fpos fatt doc_twist vlin]. rewrite rot_v_tv by apply raa_rot. exact H1.
    + cbn [fpos fatt doc_twist vang]. apply (att_body (fun s => raa2m (ang_of (q s)))); [apply raa_rot | exact H2].
Qed.
Lemma doc_fr_rigid ty q : length q = jtype_size ty -> rigid (doc_fr ty q).
Proof.
  intros H. unfold doc_fr. destruct (doc_frame ty q) as [f|] eqn:D; [now apply doc_frame_rigid in D | apply rigid_id].
Qed.
Lemma xform_doc (j : joint R) : cache_ok j -> forall fo, joint_xform j fo = fcascade fo (doc_fr (jtype_of j) (joint_get_dis j)).
Proof. intros K fo. destruct (cache_doc j fo K) as (f & D & H). unfold doc_fr. rewrite D. exact H. Qed.
Lemma inc_vel_doc (j : joint R) : cache_ok j ->
  joint_inc_vel j v6zero = doc_twist (jtype_of j) (joint_get_dis j) (joint_get_vel j).
Proof.
  intros K. destruct j; cbn [joint_inc_vel jtype_of doc_twist]; unfold joint_get_vel, joint_get_dis; cbn [joint_get_gen cache_ok] in *.
  - reflexivity.
  - cbn [at_ nth]. unfold at_; cbn [nth]. rcomp. f_equal; f_equal; ring.
  - cbn [at_ nth]. unfold at_; cbn [nth]. rcomp. f_equal; f_equal; ring.
  - cbn [at_ nth]. unfold at_; cbn [nth]. rcomp. f_equal; f_equal; ring.
  - destruct K as [_ [K1 K2]]. unfold add_ang, hooke_vec. rewrite K1, K2. unfold at_; cbn [nth x_sin x_cos Ext_R]. rcomp. f_equal; f_equal; ring.
  - unfold add_ang. rewrite K. destruct s as [[a1 a2 a3] [b1 b2 b3] ? ? ? ?]. unfold lin_of, at_, v6zero.
    cbn [sp_aa sp_vel nth l3 vlin vang vx vy vz]. rewrite v3add_0_l. reflexivity.
  - rewrite K. destruct f as [[[a1 a2 a3] [a4 a5 a6]] [[b1 b2 b3] [b4 b5 b6]] ? ? ?]. unfold lin_of, ang_of, at_, m3tv6.
    cbn [fl_dis fl_vel nth l3 l6 app vlin vang vx vy vz]. apply v6add_0_l.
  - rewrite K. destruct f as [[[a1 a2 a3] [a4 a5 a6]] [[b1 b2 b3] [b4 b5 b6]] ? ? ?]. unfold lin_of, ang_of, at_, m3tv6.
    cbn [fl_dis fl_vel nth l3 l6 app vlin vang vx vy vz]. apply v6add_0_l.
Qed.

(** ** C04 *)
(** [j s] is the joint at time s: any joint reachable by API calls from an assigned joint of type ty. *)
Definition reachable (ty : jtype) (j : joint R) : Prop :=
  exists j0 ops, joint_assign ty = Some j0 /\ joint_run j0 ops = Some j.
Lemma reachable_ok ty j : reachable ty j -> cache_ok j /\ jtype_of j = ty.
Proof.
  intros (j0 & ops & A & R). split; [eapply run_cache; [eapply assign_cache; exact A | exact R]|].
  rewrite (run_type _ _ _ R), (set_dis_type _ _ _ A). now destruct ty.
Qed.
Theorem C04_inc_vel_is_derivative ty (j : R -> joint R) (fo : frame R) t :
  (forall s, reachable ty (j s)) ->
  dis_rate ty (fun s => joint_get_dis (j s)) t (joint_get_vel (j t)) ->
  has_twist (fun s => joint_xform (j s) fo) t (joint_inc_vel (j t) v6zero).
Proof.
  intros RJ H. destruct (reachable_ok _ _ (RJ t)) as [K T].
  rewrite (inc_vel_doc _ K), T.
  apply twist_ext with (X := fun s => fcascade fo (doc_fr ty (joint_get_dis (j s)))).
  { intros s. destruct (reachable_ok _ _ (RJ s)) as [Ks Ts]. rewrite (xform_doc _ Ks), Ts. reflexivity. }
  eapply twist_eq.
  - apply (twist_cascade (fun _ => fo)); [apply doc_fr_rigid, (proj1 H) | apply twist_const | apply doc_twist_deriv; exact H].
  - rewrite xform6lin_0. apply v6add_0_l.
Qed.
(** The contribution added by rkJointIncVel does not depend on the velocity it is added to. *)
Theorem C04_inc_vel_adds (j : joint R) v : joint_inc_vel j v = v6add v (joint_inc_vel j v6zero).
Proof. exact (inc_vel_add j v). Qed.

(** A cylindrical joint driven by q(s) = (s, s^2/2) within (-1,1). *)
Definition jex (s : R) : option (joint R) :=
  obind (joint_assign TCylin) (fun j => obind (joint_set_dis j [s; s * s / 2]) (fun j => joint_set_vel j [1; s])).
Lemma jex_some s : exists j, jex s = Some j /\ joint_get_dis j = [s; rphnorm (s * s / 2)] /\ joint_get_vel j = [1; s] /\ reachable TCylin j.
Proof.
  eexists. split; [reflexivity|]. split; [reflexivity|]. split; [reflexivity|].
  eexists. exists [OSetDis [s; s * s / 2]; OSetVel [1; s]]. split; reflexivity.
Qed.
Definition jex' (s : R) : joint R := match jex s with Some j => j | None => JFixed end.
Example C04_ex : (forall s, reachable TCylin (jex' s)) /\
  dis_rate TCylin (fun s => joint_get_dis (jex' s)) 1 (joint_get_vel (jex' 1)).
Proof.
  assert (V : forall s, joint_get_dis (jex' s) = [s; rphnorm (s * s / 2)] /\ joint_get_vel (jex' s) = [1; s] /\ reachable TCylin (jex' s)).
  { intros s. destruct (jex_some s) as (j & A & B). unfold jex'. rewrite A. exact B. }
  split; [intros s; apply V|].
  split; [intros s; rewrite (proj1 (V s)); reflexivity|].
  split; [rewrite (proj1 (proj2 (V 1))); reflexivity|].
  intros i Hi. rewrite (proj1 (proj2 (V 1))). cbn in Hi.
  assert (i = 0 \/ i = 1)%nat as [-> | ->] by lia; cbn [at_ nth].
  - apply D1_ext with (f := fun s => s); [intros s; now rewrite (proj1 (V s))|]. apply derivable_pt_lim_id.
  - unfold D1. intros eps Heps.
    assert (G : D1 (fun s => s * s / 2) 1 1).
    { eapply D1_eq; [apply (D1_mul (fun s => s * s) (fun _ => / 2)); [apply (D1_mul (fun s => s)); apply derivable_pt_lim_id | apply D1_const]|]. cbv beta. field. }
    destruct (G eps Heps) as [[del Hd] Hdel].
    assert (Hm : 0 < Rmin del (1/2)) by (apply Rmin_glb_lt; lra).
    exists (mkposreal _ Hm). intros h Hh Hlt. cbn in Hlt, Hdel.
    assert (L1 := Rmin_l del (1/2)). assert (L2 := Rmin_r del (1/2)).
    assert (B1 : Rabs h < 1/2) by lra. apply Rabs_def2 in B1.
    rewrite (proj1 (V (1 + h))), (proj1 (V 1)). cbn [nth at_]. assert (P3 := PI_RGT_0). assert (P4 := PI2_3_2).
    unfold at_; cbn [nth]. rewrite !rphnorm_id by nra. apply Hdel; [exact Hh | lra].
Qed.
(** A spherical joint spinning about z. *)
Example C04_ex_spherical t : dis_rate TSpher (fun s => [0; 0; s]) t [0; 0; 1].
Proof.
  split; [reflexivity|]. split; [reflexivity|]. cbn [lin_of at_ nth]. unfold lin_of, at_; cbn [nth].
  eapply DM_ext; [intros s; symmetry; apply raa_z|]. rewrite raa_z.
  assert (J : D1 (fun s => s) t 1) by apply derivable_pt_lim_id.
  repeat split; rcomp; (dsolve; cbv beta; ring).
Qed.

Print Assumptions C04_inc_vel_is_derivative.
Print Assumptions C04_inc_vel_adds.
