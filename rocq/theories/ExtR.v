(** * ExtR: the external functions on the real numbers (real sine and cosine,
    phase normalisation, Rodrigues formula).  Shows that [ExtLaws] holds of the intended functions and
    supports the derivative theorems. *)

From Coq Require Import Bool List ZArith Reals Lra Lia.
From Verif Require Import Num NumFacts Vec VecFacts Motor_Model Joint_Model Deriv.
Local Open Scope R_scope.

(** zPhaseNormalize: the representative of t modulo 2 pi in (-pi, pi]. *)
Definition rphnorm (t : R) : R := t + 2 * PI * IZR (up ((PI - t) / (2 * PI)) - 1).
(** Rodrigues formula for the angle-axis vector v. *)
Definition raa2m (v : vec3 R) : mat3 R :=
  let n := sqrt (v3sqr v) in
  if Req_EM_T n 0 then m3id
  else m3add m3id (m3add (m3scale (sin n / n) (m3skew v))
                         (m3scale ((1 - cos n) / (n * n)) (m3mul (m3skew v) (m3skew v)))).
(** zAACascade and zMat3DError have no laws; any functions do.  Over R they are left as constants
    and no theorem over R mentions them. *)
#[export] Instance Ext_R : Ext R :=
  mkExt PI rphnorm sin cos raa2m (fun _ _ => v3zero) (fun _ _ => v3zero) (/ 1000000).

Lemma rphnorm_bounds t : - PI < rphnorm t <= PI.
Proof.
  unfold rphnorm. assert (P := PI_RGT_0). destruct (archimed ((PI - t) / (2 * PI))) as [A B].
  set (x := (PI - t) / (2 * PI)) in *. assert (X : PI - t = 2 * PI * x) by (unfold x; field; lra).
  rewrite minus_IZR. set (u := IZR (up x)) in *.
  split.
  - assert (2 * PI * (x - u) < 0) by nra. nra.
  - assert (2 * PI * (u - 1 - x) <= 0) by nra. nra.
Qed.
Lemma rphnorm_id t : - PI < t -> t <= PI -> rphnorm t = t.
Proof.
  intros A B. assert (P := PI_RGT_0). unfold rphnorm.
  assert (U : up ((PI - t) / (2 * PI)) = 1%Z).
  { symmetry. apply tech_up.
    - apply Rmult_lt_reg_r with (2 * PI); [lra|]. unfold Rdiv. rewrite Rmult_assoc, Rinv_l by lra. lra.
    - apply Rplus_le_reg_r with (-1). replace (1 + -1) with 0 by ring.
      replace ((PI - t) / (2 * PI) + 1 + -1) with ((PI - t) / (2 * PI)) by ring.
      apply Rmult_le_pos; [lra | left; apply Rinv_0_lt_compat; lra]. }
  rewrite U. cbn. ring.
Qed.
Lemma rphnorm_period t : exists k : Z, rphnorm t = t + 2 * IZR k * PI.
Proof. eexists. unfold rphnorm. rewrite (Rmult_comm 2 PI), Rmult_assoc, (Rmult_comm PI). reflexivity. Qed.
Lemma sin_kpi t (k : Z) : sin (t + 2 * IZR k * PI) = sin t.
Proof.
  destruct (Z_le_dec 0 k) as [H|H].
  - rewrite <- (Z2Nat.id k H), <- INR_IZR_INZ. apply sin_period.
  - rewrite <- (sin_period (t + 2 * IZR k * PI) (Z.to_nat (- k))).
    rewrite INR_IZR_INZ, Z2Nat.id by lia. rewrite opp_IZR. f_equal. ring.
Qed.
Lemma cos_kpi t (k : Z) : cos (t + 2 * IZR k * PI) = cos t.
Proof.
  destruct (Z_le_dec 0 k) as [H|H].
  - rewrite <- (Z2Nat.id k H), <- INR_IZR_INZ. apply cos_period.
  - rewrite <- (cos_period (t + 2 * IZR k * PI) (Z.to_nat (- k))).
    rewrite INR_IZR_INZ, Z2Nat.id by lia. rewrite opp_IZR. f_equal. ring.
Qed.
Lemma rnlt (x y : R) : nlt x y <-> x < y.
Proof.
  unfold nlt. cbn [nleb Num_R]. split.
  - intros H. apply Rnot_le_lt. intros K. apply Rleb_true in K. congruence.
  - intros H. destruct (Rleb y x) eqn:K; [|reflexivity]. apply Rleb_true in K. lra.
Qed.
Lemma rnle (x y : R) : nle x y <-> x <= y.
Proof. unfold nle. cbn [nleb Num_R]. apply Rleb_true. Qed.

(** The Rodrigues formula gives a rotation. *)
Lemma rodrigues_rot (v : vec3 R) (p q : R) :
  p * p = 2 * q - q * q * v3sqr v ->
  rotation (m3add m3id (m3add (m3scale p (m3skew v)) (m3scale q (m3mul (m3skew v) (m3skew v))))).
Proof.
  destruct v as [x y z]. unfold v3sqr, v3dot. cbn [vx vy vz nadd nmul Num_R]. intros H.
  unfold rotation. rcomp.
  assert (G : 2 * q - q * q * (x * x + y * y + z * z) - p * p = 0) by lra.
  split.
  - assert (K : forall e a b, e - a = (2 * q - q * q * (x * x + y * y + z * z) - p * p) * b -> e = a).
    { intros e a b E. rewrite G in E. lra. }
    vsplit;
    [ apply K with (- (y*y+z*z)) | apply K with (x*y) | apply K with (x*z)
    | apply K with (x*y) | apply K with (- (x*x+z*z)) | apply K with (y*z)
    | apply K with (x*z) | apply K with (y*z) | apply K with (- (x*x+y*y)) ]; ring.
  - apply Rminus_diag_uniq.
    transitivity (- ((2 * q - q * q * (x * x + y * y + z * z) - p * p) * (x * x + y * y + z * z))); [ring | rewrite G; ring].
Qed.
Lemma v3sqr_R (v : vec3 R) : 0 <= v3sqr v.
Proof. destruct v. unfold v3sqr, v3dot. cbn. nra. Qed.
Lemma raa_rot (v : vec3 R) : rotation (raa2m v).
Proof.
  unfold raa2m. cbv zeta. destruct (Req_EM_T (sqrt (v3sqr v)) 0) as [_|NZ]; [apply rotation_id|].
  apply rodrigues_rot. set (n := sqrt (v3sqr v)) in *.
  replace (v3sqr v) with (n * n) by (apply sqrt_sqrt, v3sqr_R).
  assert (S := sin2_cos2 n). unfold Rsqr in S.
  transitivity ((sin n * sin n) / (n * n)); [field; exact NZ|].
  replace (sin n * sin n) with (1 - cos n * cos n) by lra. field. exact NZ.
Qed.
Lemma raa_0 : raa2m v3zero = m3id.
Proof.
  unfold raa2m. cbv zeta. destruct (Req_EM_T (sqrt (v3sqr v3zero)) 0) as [_|NZ]; [reflexivity|].
  exfalso. apply NZ. unfold v3sqr. rewrite v3dot_0_l. apply sqrt_0.
Qed.
#[export] Instance ExtLaws_R : ExtLaws R Num_R Ext_R.
Proof.
  constructor; cbn.
  - intros t. assert (S := sin2_cos2 t). exact S.
  - apply sin_0.
  - apply cos_0.
  - apply rnlt, PI_RGT_0.
  - intros t. apply rnlt, rphnorm_bounds.
  - intros t. apply rnle, rphnorm_bounds.
  - intros t A B. apply rphnorm_id; [now apply rnlt in A | now apply rnle in B].
  - apply raa_rot.
  - apply raa_0.
  - apply rnlt. lra.
Qed.
(** Rotation about z by angle-axis. *)
Lemma raa_z (t : R) : raa2m (V3 0 0 t) = m3create (cos t) (- sin t) 0 (sin t) (cos t) 0 0 0 1.
Proof.
  unfold raa2m. cbv zeta.
  assert (Q : v3sqr (V3 0 0 t) = t * t) by (unfold v3sqr, v3dot; cbn; ring).
  rewrite Q. destruct (Req_EM_T (sqrt (t * t)) 0) as [Z|NZ].
  - assert (t = 0). { destruct (Req_dec t 0) as [H|H]; [exact H|]. exfalso. apply H. apply sqrt_eq_0 in Z; [nra | nra]. }
    subst. rewrite sin_0, cos_0. rcomp. vsplit; ring.
  - assert (T : sqrt (t * t) = Rabs t) by apply sqrt_Rsqr_abs. rewrite T in *.
    unfold Rabs in *. destruct (Rcase_abs t) as [H|H].
    + rewrite sin_neg, cos_neg. rcomp. vsplit; field; lra.
    + rcomp. vsplit; field; lra.
Qed.
