(** * Conf_R: the external functions of the torsion on the real numbers.  Shows that [ConfLaws] holds of the intended
    functions and that every rotation is given back by its angle-axis vector. *)
From Coq Require Import Bool List ZArith Reals Ratan Lra Lia.
From Verif Require Import Num NumFacts Vec VecFacts Motor_Model Joint_Model Joint_Spec Deriv ExtR Conf_Model Conf_Spec.
Local Open Scope R_scope.

(** atan2, with values in (-pi, pi]. *)
Definition ratan2 (y x : R) : R :=
  let r := sqrt (x * x + y * y) in
  if Req_EM_T (r + x) 0 then (if Req_EM_T x 0 then 0 else PI) else 2 * atan (y / (r + x)).
(** Angle from [u] to [v] about [n]. *)
Definition rvangle (u v n : vec3 R) : R := ratan2 (v3dot n (v3cross u v)) (v3dot u v).
(** Twice the axial part, and the angle-axis vector, of a rotation matrix. *)
Definition rtrace (m : mat3 R) : R := vx (mc0 m) + vy (mc1 m) + vz (mc2 m).
Definition raxial (m : mat3 R) : vec3 R :=
  V3 (vz (mc1 m) - vy (mc2 m)) (vx (mc2 m) - vz (mc0 m)) (vy (mc0 m) - vx (mc1 m)).
Definition rhalf (u : vec3 R) : vec3 R := v3scale (PI / sqrt (v3sqr u)) u.
Definition rm2aa (m : mat3 R) : vec3 R :=
  let w := raxial m in
  let l := sqrt (v3sqr w) in
  if Req_EM_T l 0 then
    if Rle_dec 1 (rtrace m) then v3zero
    else if Req_EM_T (vx (mc0 m) + 1) 0 then
      if Req_EM_T (vy (mc1 m) + 1) 0 then rhalf (v3add (mc2 m) ez) else rhalf (v3add (mc1 m) ey)
    else rhalf (v3add (mc0 m) ex)
  else v3scale (ratan2 l (rtrace m - 1) / l) w.
#[export] Instance ConfExt_R : ConfExt R := mkConfExt R sqrt ratan2 rvangle rm2aa.

Lemma rph_sin t : sin (rphnorm t) = sin t.
Proof. destruct (rphnorm_period t) as (k & ->). apply sin_kpi. Qed.
Lemma rph_cos t : cos (rphnorm t) = cos t.
Proof. destruct (rphnorm_period t) as (k & ->). apply cos_kpi. Qed.

Lemma ratan2_sc (r t : R) : 0 < r -> ratan2 (r * sin t) (r * cos t) = rphnorm t.
Proof.
  intros H. rewrite <- (rph_sin t), <- (rph_cos t). destruct (rphnorm_bounds t) as [B1 B2]. set (u := rphnorm t) in *. clearbody u.
  assert (SC := sin2_cos2 u). unfold Rsqr in SC. unfold ratan2. cbv zeta.
  replace (r * cos u * (r * cos u) + r * sin u * (r * sin u)) with (r * r) by (transitivity (r * r * (sin u * sin u + cos u * cos u)); [rewrite SC; ring|ring]).
  rewrite sqrt_square by lra.
  assert (P := PI_RGT_0).
  destruct (Req_dec u PI) as [->|NP].
  - rewrite sin_PI, cos_PI. destruct (Req_EM_T (r + r * -1) 0) as [_|X]; [|exfalso; apply X; ring].
    destruct (Req_EM_T (r * -1) 0) as [X|_]; [exfalso; lra|reflexivity].
  - assert (CH : 0 < cos (u / 2)) by (apply cos_gt_0; lra).
    assert (C2 : cos u = 2 * (cos (u / 2) * cos (u / 2)) - 1).
    { replace u with (2 * (u / 2)) at 1 by field. rewrite cos_2a_cos. ring. }
    assert (S2 : sin u = 2 * sin (u / 2) * cos (u / 2)).
    { replace u with (2 * (u / 2)) at 1 by field. apply sin_2a. }
    assert (RC : 0 < r * (cos (u / 2) * cos (u / 2))) by (repeat apply Rmult_lt_0_compat; assumption).
    destruct (Req_EM_T (r + r * cos u) 0) as [X|_]; [exfalso; rewrite C2 in X; lra|].
    replace (r * sin u / (r + r * cos u)) with (tan (u / 2)).
    + rewrite atan_tan by lra. field.
    + rewrite C2, S2. unfold tan. replace (r + r * (2 * (cos (u / 2) * cos (u / 2)) - 1)) with (2 * (r * (cos (u / 2) * cos (u / 2)))) by ring. field. lra.
Qed.
Lemma unit_angle (s c : R) : s * s + c * c = 1 -> exists t, sin t = s /\ cos t = c.
Proof.
  intros H. assert (C1 : -1 <= c <= 1) by nra. assert (S0 : sqrt (1 - c * c) = Rabs s).
  { replace (1 - c * c) with (Rsqr s) by (unfold Rsqr; lra). apply sqrt_Rsqr_abs. }
  destruct (Rle_dec 0 s) as [P|P].
  - exists (acos c). rewrite sin_acos, cos_acos by lra. unfold Rsqr. rewrite S0, Rabs_right by lra. auto.
  - exists (- acos c). rewrite sin_neg, cos_neg, sin_acos, cos_acos by lra. unfold Rsqr. rewrite S0, Rabs_left by lra. split; ring.
Qed.
Lemma ratan2_unit (s c : R) : s * s + c * c = 1 -> sin (ratan2 s c) = s /\ cos (ratan2 s c) = c.
Proof.
  intros H. destruct (unit_angle s c H) as (t & <- & <-). assert (K := ratan2_sc 1 t ltac:(lra)). rewrite !Rmult_1_l in K.
  rewrite K. split; [apply rph_sin|apply rph_cos].
Qed.

Lemma raa_axis (n : vec3 R) (t : R) : v3sqr n = 1 -> raa2m (v3scale t n) = rodrigues (sin t) (cos t) n.
Proof.
  intros H. unfold raa2m. cbv zeta.
  assert (Q : v3sqr (v3scale t n) = t * t).
  { transitivity (t * t * v3sqr n)%R; [unfold v3sqr; vdestruct; rcomp; ring|]. rewrite H. ring. }
  rewrite Q. unfold rodrigues. destruct n as [x y z]. clear H Q. destruct (Req_EM_T (sqrt (t * t)) 0) as [Z|NZ].
  - assert (t = 0). { destruct (Req_dec t 0) as [H|H]; [exact H|]. exfalso. apply H. apply sqrt_eq_0 in Z; [nra | nra]. }
    subst. rewrite sin_0, cos_0. rcomp. vsplit; ring.
  - assert (T : sqrt (t * t) = Rabs t) by apply sqrt_Rsqr_abs. rewrite T in *.
    unfold Rabs in *. destruct (Rcase_abs t) as [H|H].
    + rewrite sin_neg, cos_neg. rcomp. vsplit; field; lra.
    + rcomp. vsplit; field; lra.
Qed.
#[export] Instance ConfLaws_R : ConfLaws R Num_R Ext_R ConfExt_R.
Proof.
  constructor.
  - intros r H. apply sqrt_square. now apply rnle.
  - intros r t H. apply ratan2_sc. now apply rnlt.
  - intros u n t U NN D. change (rvangle u (v3add (v3scale (cos t) u) (v3scale (sin t) (v3cross n u))) n = rphnorm t).
    rewrite <- (ratan2_sc 1 t) by lra. unfold rvangle. f_equal.
    + transitivity (sin t * (v3sqr n * v3sqr u - v3dot n u * v3dot n u)).
      * unfold v3sqr. vdestruct. rcomp. ring.
      * rewrite U, NN, D. rcomp. ring.
    + transitivity (cos t * v3sqr u).
      * unfold v3sqr. vdestruct. rcomp. ring.
      * rewrite U. rcomp. ring.
  - intros n t H. now apply raa_axis.
Qed.

(** ** Every rotation is given back by its angle-axis vector *)
Lemma rod_half (x y z k : R) : 0 < k -> x*x+y*y+z*z = k ->
  raa2m (rhalf (V3 x y z)) = m3create (2*x*x/k-1) (2*x*y/k) (2*x*z/k) (2*x*y/k) (2*y*y/k-1) (2*y*z/k) (2*x*z/k) (2*y*z/k) (2*z*z/k-1).
Proof.
  intros K EK. assert (SK : 0 < sqrt k) by now apply sqrt_lt_R0. assert (SS : sqrt k * sqrt k = k) by (apply sqrt_sqrt; lra).
  assert (Q : v3sqr (V3 x y z) = k) by (unfold v3sqr; rcomp; lra).
  assert (RH : rhalf (V3 x y z) = v3scale PI (V3 (x / sqrt k) (y / sqrt k) (z / sqrt k))).
  { unfold rhalf. rewrite Q. rcomp. vsplit; field; lra. }
  rewrite RH, raa_axis.
  - rewrite sin_PI, cos_PI. unfold rodrigues. set (q := sqrt k) in *. clearbody q. rewrite <- SS in EK |- *. clear - EK SK.
    assert (Z2 : z * z = q * q - x * x - y * y) by lra.
    assert (XX : x / q * (x / q) + y / q * (y / q) + z / q * (z / q) = 1).
    { transitivity ((x * x + y * y + z * z) / (q * q)); [field; lra|]. rewrite EK. field. lra. }
    replace (2 * x * x / (q * q)) with (2 * (x / q * (x / q))) by (field; lra).
    replace (2 * y * y / (q * q)) with (2 * (y / q * (y / q))) by (field; lra).
    replace (2 * z * z / (q * q)) with (2 * (z / q * (z / q))) by (field; lra).
    replace (2 * x * y / (q * q)) with (2 * (x / q * (y / q))) by (field; lra).
    replace (2 * x * z / (q * q)) with (2 * (x / q * (z / q))) by (field; lra).
    replace (2 * y * z / (q * q)) with (2 * (y / q * (z / q))) by (field; lra).
    set (X := x / q) in *. set (Y := y / q) in *. set (W := z / q) in *. clearbody X Y W. rcomp. vsplit; lra.
  - transitivity ((x * x + y * y + z * z) / (sqrt k * sqrt k)); [unfold v3sqr; rcomp; field; lra|]. rewrite SS, EK. field. lra.
Qed.
Lemma half_turn (a b c e f i : R) : a*a+b*b+c*c = 1 -> b*b+e*e+f*f = 1 -> a + e + i = -1 -> i = a*e - b*b -> e = i*a - c*c -> f = c*b - a*f ->
  let m := m3create a b c b e f c f i in
  raa2m (if Req_EM_T (a + 1) 0 then if Req_EM_T (e + 1) 0 then rhalf (@v3add R Num_R (mc2 m) (@ez R Num_R)) else rhalf (@v3add R Num_R (mc1 m) (@ey R Num_R))
         else rhalf (@v3add R Num_R (mc0 m) (@ex R Num_R))) = m.
Proof.
  intros H1 H2 TM HI HE HF m. unfold m.
  destruct (Req_EM_T (a + 1) 0) as [A0|A0]; [destruct (Req_EM_T (e + 1) 0) as [Ee|Ee]|].
  - assert (P1 : a = -1) by lra. assert (P2 : e = -1) by lra. assert (P3 : i = 1) by lra.
    assert (P4 : b = 0) by (rewrite P1 in H1; nra). assert (P5 : c = 0) by (rewrite P1 in H1; nra). assert (P6 : f = 0) by (rewrite P2 in H2; nra).
    rewrite P1, P2, P3, P4, P5, P6.
    replace (@v3add R Num_R (mc2 (m3create (-1) 0 0 0 (-1) 0 0 0 1)) (@ez R Num_R)) with (V3 0 0 2) by (rcomp; vsplit; lra).
    rewrite (rod_half 0 0 2 4) by lra. rcomp. vsplit; lra.
  - assert (P1 : a = -1) by lra. assert (P4 : b = 0) by (rewrite P1 in H1; nra). assert (P5 : c = 0) by (rewrite P1 in H1; nra).
    rewrite P1, P4, P5 in *.
    replace (@v3add R Num_R (mc1 (m3create (-1) 0 0 0 e f 0 f i)) (@ey R Num_R)) with (V3 0 (e + 1) f) by (rcomp; vsplit; lra).
    assert (0 < e + 1) by nra. rewrite (rod_half 0 (e + 1) f (2 * (e + 1))) by lra.
    rcomp. vsplit; try (field; lra). apply (Rmult_eq_reg_l (e + 1)); [|lra]. transitivity (f * f - (e + 1)); [field; lra|]. replace i with (- e) by lra. lra.
  - replace (@v3add R Num_R (mc0 (m3create a b c b e f c f i)) (@ex R Num_R)) with (V3 (a + 1) b c) by (rcomp; vsplit; lra).
    assert (0 < a + 1) by nra. rewrite (rod_half (a + 1) b c (2 * (a + 1))) by lra.
    rcomp. vsplit; try (field; lra).
    + apply (Rmult_eq_reg_l (a + 1)); [|lra]. transitivity (b * b - (a + 1)); [field; lra|]. lra.
    + apply (Rmult_eq_reg_l (a + 1)); [|lra]. transitivity (b * c); [field; lra|]. lra.
    + apply (Rmult_eq_reg_l (a + 1)); [|lra]. transitivity (b * c); [field; lra|]. lra.
    + apply (Rmult_eq_reg_l (a + 1)); [|lra]. transitivity (c * c - (a + 1)); [field; lra|]. lra.
Qed.
Section Log.
Context (a b c d e f g h i : R).   (* columns (a,d,g) (b,e,h) (c,f,i) *)
Let m := m3create a b c d e f g h i.
Context (ROT : rotation m).
Let tr := a + e + i.
Let w0 := h - f.  Let w1 := c - g.  Let w2 := d - b.

Lemma rot_eqs : (a*a+d*d+g*g = 1 /\ b*b+e*e+h*h = 1 /\ c*c+f*f+i*i = 1 /\ a*b+d*e+g*h = 0 /\ b*c+e*f+h*i = 0 /\ c*a+f*d+i*g = 0) /\
  (a*a+b*b+c*c = 1 /\ d*d+e*e+f*f = 1 /\ g*g+h*h+i*i = 1 /\ a*d+b*e+c*f = 0 /\ d*g+e*h+f*i = 0 /\ g*a+h*b+i*c = 0) /\
  (a = e*i - h*f /\ d = h*c - b*i /\ g = b*f - e*c) /\ (b = f*g - i*d /\ e = i*a - c*g /\ h = c*d - f*a) /\ (c = d*h - g*e /\ f = g*b - a*h /\ i = a*e - d*b).
Proof.
  destruct (proj1 (rotation_cols m) ROT) as ((Q0 & Q1 & Q2 & D01 & D12 & D20) & _).
  destruct (proj1 (rotation_cols _) (rotation_tr _ ROT)) as ((P0 & P1 & P2 & E01 & E12 & E20) & _).
  destruct (rotation_cross m ROT) as (C2 & C0 & C1).
  unfold m in *. revert Q0 Q1 Q2 D01 D12 D20 P0 P1 P2 E01 E12 E20 C0 C1 C2. rcomp. intros.
  injection C0; injection C1; injection C2; intros. repeat split; lra.
Qed.
Lemma log_norm : w0 * w0 + w1 * w1 + w2 * w2 = 4 - (tr - 1) * (tr - 1).
Proof. destruct rot_eqs as ((A1 & A2 & A3 & A4 & A5 & A6) & (B1 & B2 & B3 & B4 & B5 & B6) & (C1 & C2 & C3) & (D1 & D2 & D3) & (E1 & E2 & E3)). unfold w0, w1, w2, tr. lra. Qed.
Lemma log_alg : m3scale (2 * (1 + tr)) (m3sub m m3id) = m3add (m3scale (1 + tr) (m3skew (V3 w0 w1 w2))) (m3mul (m3skew (V3 w0 w1 w2)) (m3skew (V3 w0 w1 w2))).
Proof.
  destruct rot_eqs as ((A1 & A2 & A3 & A4 & A5 & A6) & (B1 & B2 & B3 & B4 & B5 & B6) & (C1 & C2 & C3) & (D1 & D2 & D3) & (E1 & E2 & E3)).
  unfold m, w0, w1, w2, tr. rcomp. vsplit; lra.
Qed.

Lemma raa_log_coords : raa2m (rm2aa m) = m.
Proof.
  assert (LN := log_norm). assert (LA := log_alg).
  unfold rm2aa. cbv zeta.
  assert (WE : raxial m = V3 w0 w1 w2) by reflexivity. assert (TE : rtrace m = tr) by (unfold m, rtrace, tr; rcomp; ring).
  rewrite WE, TE. assert (QE : v3sqr (V3 w0 w1 w2) = w0*w0+w1*w1+w2*w2) by (unfold v3sqr; rcomp; ring). rewrite QE.
  assert (QP : 0 <= w0*w0+w1*w1+w2*w2) by nra.
  assert (SS : sqrt (w0*w0+w1*w1+w2*w2) * sqrt (w0*w0+w1*w1+w2*w2) = w0*w0+w1*w1+w2*w2) by now apply sqrt_sqrt.
  assert (SP : 0 <= sqrt (w0*w0+w1*w1+w2*w2)) by apply sqrt_pos.
  set (l := sqrt (w0*w0+w1*w1+w2*w2)) in *. clearbody l.
  destruct (Req_EM_T l 0) as [L0|LN0].
  - subst l. assert (W0 : w0 = 0) by nra. assert (W1 : w1 = 0) by nra. assert (W2 : w2 = 0) by nra.
    destruct (Rle_dec 1 tr) as [T|T].
    + assert (T3 : tr = 3) by nra. rewrite W0, W1, W2, T3 in LA. revert LA. unfold m. rcomp. intros LA. injection LA; intros.
      refine (eq_trans raa_0 _). rcomp. vsplit; lra.
    + assert (TM : tr = -1) by nra.
      destruct rot_eqs as ((A1 & A2 & A3 & A4 & A5 & A6) & (B1 & B2 & B3 & B4 & B5 & B6) & (C1 & C2 & C3) & (D1 & D2 & D3) & (E1 & E2 & E3)).
      assert (HF : h = f) by (unfold w0 in W0; lra). assert (GC : g = c) by (unfold w1 in W1; lra). assert (DB : d = b) by (unfold w2 in W2; lra).
      unfold tr in TM. unfold m. rewrite HF, GC, DB in *. apply half_turn; lra.
  - assert (LP : 0 < l) by lra. assert (T1 : 1 + tr <> 0) by (intros X; assert (tr = -1) by lra; nra).
    assert (T3 : 3 - tr <> 0) by (intros X; assert (tr = 3) by lra; nra).
    destruct (unit_angle (l / 2) ((tr - 1) / 2)) as (t & ST & CT).
    { transitivity ((l * l + (tr - 1) * (tr - 1)) / 4); [field|]. rewrite SS, LN. field. }
    replace (ratan2 l (tr - 1)) with (rphnorm t) by (rewrite <- (ratan2_sc 2 t) by lra; f_equal; [rewrite ST|rewrite CT]; field).
    replace (v3scale (rphnorm t / l) (V3 w0 w1 w2)) with (v3scale (rphnorm t) (V3 (w0 / l) (w1 / l) (w2 / l))) by (rcomp; vsplit; field; lra).
    rewrite raa_axis.
    + rewrite rph_sin, rph_cos, ST, CT.
      assert (KE : (1 - (tr - 1) / 2) / (l * l) = 1 / (2 * (1 + tr))).
      { rewrite SS, LN. replace (4 - (tr - 1) * (tr - 1)) with ((3 - tr) * (1 + tr)) by ring. field. auto. }
      transitivity (m3add m3id (m3add (m3scale (1 / 2) (m3skew (V3 w0 w1 w2))) (m3scale (1 / (2 * (1 + tr))) (m3mul (m3skew (V3 w0 w1 w2)) (m3skew (V3 w0 w1 w2)))))).
      * rewrite <- KE. unfold rodrigues. clear - LP. generalize w0 w1 w2 tr. intros. rcomp. vsplit; field; lra.
      * transitivity (m3add m3id (m3scale (1 / (2 * (1 + tr))) (m3scale (2 * (1 + tr)) (m3sub m m3id)))).
        -- rewrite LA. clear - T1. generalize w0 w1 w2. revert T1. generalize tr. intros. rcomp. vsplit; field; lra.
        -- unfold m. clear - T1. revert T1. generalize tr. intros. rcomp. vsplit; field; lra.
    + transitivity ((w0*w0+w1*w1+w2*w2) / (l * l)); [unfold v3sqr; rcomp; field; lra|]. rewrite <- SS. field. lra.
Qed.
End Log.
Lemma raa_log (m : mat3 R) : rotation m -> aa_exact m.
Proof. destruct m as [[a d g] [b e h] [c f i]]. intros H. exact (raa_log_coords a b c d e f g h i H). Qed.
Lemma raa_back (v : vec3 R) : v3sqr v < PI * PI -> rm2aa (raa2m v) = v.
Proof.
  intros H. assert (P0 := PI_RGT_0). assert (Q0 : 0 <= v3sqr v) by apply v3sqr_R.
  assert (SS : sqrt (v3sqr v) * sqrt (v3sqr v) = v3sqr v) by now apply sqrt_sqrt. assert (SP := sqrt_pos (v3sqr v)).
  destruct (Req_dec (sqrt (v3sqr v)) 0) as [Z|NZ].
  - assert (V0 : v = v3zero).
    { rewrite Z in SS. destruct v as [x y z]. revert SS. unfold v3sqr. rcomp. intros. assert (x = 0) by nra. assert (y = 0) by nra. assert (z = 0) by nra. now subst. }
    rewrite V0, raa_0. unfold rm2aa. cbv zeta.
    assert (A0 : v3sqr (raxial (m3id : mat3 R)) = 0) by (unfold raxial, v3sqr; rcomp; ring). rewrite A0, sqrt_0.
    destruct (Req_EM_T 0 0) as [_|X]; [|congruence]. destruct (Rle_dec 1 (rtrace (m3id : mat3 R))) as [_|X]; [reflexivity|].
    exfalso. apply X. unfold rtrace. rcomp. lra.
  - set (t := sqrt (v3sqr v)) in *. assert (TP : 0 < t) by lra. assert (TL : t < PI) by nra.
    assert (EV : v = v3scale t (v3scale (/ t) v)) by (destruct v; rcomp; vsplit; field; exact NZ).
    assert (U : v3sqr (v3scale (/ t) v) = 1).
    { transitivity (/ t * / t * v3sqr v); [unfold v3sqr; destruct v; rcomp; ring|]. rewrite <- SS. field. exact NZ. }
    rewrite EV at 1. rewrite raa_axis by exact U. clear SS SP Q0 H. set (n := v3scale (/ t) v) in *.
    assert (SN : 0 < sin t) by now apply sin_gt_0.
    assert (AX : raxial (rodrigues (sin t) (cos t) n) = v3scale (2 * sin t) n) by (clear; unfold raxial, rodrigues; destruct n; rcomp; vsplit; ring).
    assert (TR : rtrace (rodrigues (sin t) (cos t) n) = 1 + 2 * cos t).
    { transitivity (3 - 2 * (1 - cos t) * v3sqr n); [clear; unfold rtrace, rodrigues, v3sqr; destruct n; rcomp; ring|]. rewrite U. ring. }
    unfold rm2aa. cbv zeta. rewrite AX, TR.
    assert (LL : sqrt (v3sqr (v3scale (2 * sin t) n)) = 2 * sin t).
    { replace (v3sqr (v3scale (2 * sin t) n)) with ((2 * sin t) * (2 * sin t)); [apply sqrt_square; lra|].
      transitivity ((2 * sin t) * (2 * sin t) * v3sqr n); [rewrite U; ring|]. clear. unfold v3sqr. destruct n. rcomp. ring. }
    rewrite LL. destruct (Req_EM_T (2 * sin t) 0) as [X|_]; [exfalso; lra|].
    replace (1 + 2 * cos t - 1) with (2 * cos t) by ring. rewrite ratan2_sc by lra.
    replace (rphnorm t) with t by (symmetry; apply (@x_ph_id R Num_R Ext_R _ t); [apply rnlt; cbn; lra|apply rnle; cbn; lra]).
    transitivity (v3scale t n); [|now rewrite <- EV]. clear - SN. destruct n. rcomp. vsplit; field; lra.
Qed.
