(** * ExtQ: an executable instance of the external functions on the rationals.

    Used only for [Example]s and [_refuted] witnesses.  Sine and cosine are
    replaced by the rational parametrisation of the circle and the angle-axis
    attitude by the Cayley transform; both satisfy [ExtLaws]. *)

From Coq Require Import Bool List ZArith QArith Qcanon Qround Ring Field Lia Lqa.
From Verif Require Import Num NumFacts Vec VecFacts Motor_Model Joint_Model.

Definition qpi : Qc := Q2Qc (22 # 7).
(** t - 2 pi ceil((t - pi)/(2 pi)), in (-pi, pi]. *)
Definition qphnorm (t : Qc) : Qc :=
  let p2 := (qpi + qpi)%Qc in
  (t - p2 * Q2Qc (inject_Z (Qceiling (this ((t - qpi) / p2)%Qc))))%Qc.
Definition qsin (t : Qc) : Qc := ((t + t) / (1 + t * t))%Qc.
Definition qcos (t : Qc) : Qc := ((1 - t * t) / (1 + t * t))%Qc.
Definition qaa2m (v : vec3 Qc) : mat3 Qc :=
  let k := ((1 + 1) / (1 + v3sqr v))%Qc in
  m3add m3id (m3scale k (m3add (m3skew v) (m3mul (m3skew v) (m3skew v)))).
(** Cayley vector of a rotation (inverse of [qaa2m]); m = current, ms = reference. *)
Definition qm2aa (m : mat3 Qc) : vec3 Qc :=
  let t := (1 + (vx (mc0 m) + vy (mc1 m) + vz (mc2 m)))%Qc in
  v3div (V3 (vz (mc1 m) - vy (mc2 m)) (vx (mc2 m) - vz (mc0 m)) (vy (mc0 m) - vx (mc1 m)))%Qc t.
Definition qm3err (m ms : mat3 Qc) : vec3 Qc := qm2aa (m3mul m (m3tr ms)).

#[export] Instance Ext_Qc : Ext Qc :=
  mkExt qpi qphnorm qsin qcos qaa2m (fun a b => qm2aa (m3mul (qaa2m b) (qaa2m a))) qm3err (Q2Qc (1 # 1000000)).

Lemma qnlt (x y : Qc) : nlt x y <-> (x < y)%Qc.
Proof.
  unfold nlt. cbn [nleb Num_Qc]. split.
  - intros H. apply Qcnot_le_lt. intros K. apply Qcleb_true in K. congruence.
  - intros H. destruct (Qcleb y x) eqn:K; [|reflexivity]. apply Qcleb_true in K.
    now apply Qcle_not_lt in K.
Qed.

Lemma sqr1_neq0 (t : Qc) : (1 + t * t <> 0)%Qc.
Proof.
  intros H.
  assert (K : nlt (0 : Qc)%num (1 + t * t)%num).
  { apply nlt_0_add_l; [apply nlt_0_1 | apply nle_0_sqr]. }
  cbn [n0 n1 nadd nmul Num_Qc] in K. rewrite H in K. now apply nlt_irrefl in K.
Qed.
Lemma sqr3_neq0 (v : vec3 Qc) : (1 + v3sqr v <> 0)%Qc.
Proof.
  intros H.
  assert (K : nlt (0 : Qc)%num (1 + v3sqr v)%num).
  { apply nlt_0_add_l; [apply nlt_0_1 |].
    unfold v3sqr, v3dot. apply nle_0_add; [apply nle_0_add|]; apply nle_0_sqr. }
  cbn [n0 n1 nadd Num_Qc] in K. rewrite H in K. now apply nlt_irrefl in K.
Qed.

Lemma qaa_rot (v : vec3 Qc) : rotation (qaa2m v).
Proof.
  assert (K := sqr3_neq0 v). destruct v as [x y z].
  unfold rotation, qaa2m. unfold v3sqr, v3dot in *. cbn [vx vy vz] in *.
  cbn [nadd nmul Num_Qc] in K.
  split.
  - vunfold. cbn [n0 n1 nadd nmul nsub nopp Num_Qc]. vsplit; field; exact K.
  - vunfold. cbn [n0 n1 nadd nmul nsub nopp Num_Qc]. field; exact K.
Qed.

Section Phase.
Local Open Scope Q_scope.
Lemma qph_bounds (t : Qc) :
  (- qpi < qphnorm t)%Qc /\ (qphnorm t <= qpi)%Qc.
Proof.
  unfold qphnorm. set (n := Qceiling (this ((t - qpi) / (qpi + qpi))%Qc)).
  assert (H1 := Qle_ceiling (this ((t - qpi) / (qpi + qpi))%Qc)).
  assert (H2 := Qceiling_lt (this ((t - qpi) / (qpi + qpi))%Qc)).
  fold n in H1, H2.
  assert (E : this ((t - qpi) / (qpi + qpi))%Qc == (this t - (22#7)) / (44#7)).
  { unfold Qcdiv, Qcminus, Qcopp, Qcplus, Qcmult, Qcinv, qpi. cbn [this Q2Qc].
    rewrite !Qred_correct. setoid_replace ((22#7)+(22#7)) with (44#7) by reflexivity. reflexivity. }
  rewrite E in H1, H2.
  assert (E2 : this (t - (qpi + qpi) * Q2Qc (inject_Z n))%Qc == this t - (44#7) * inject_Z n).
  { unfold Qcminus, Qcopp, Qcplus, Qcmult, qpi. cbn [this Q2Qc].
    rewrite !Qred_correct. setoid_replace ((22#7)+(22#7)) with (44#7) by reflexivity. reflexivity. }
  assert (K : (this t - (22#7)) / (44#7) * (44#7) == this t - (22#7)) by (field; discriminate).
  split.
  - unfold Qclt. rewrite E2. unfold qpi. change (this (- Q2Qc (22#7))%Qc) with (-22#7).
    assert (H : inject_Z (n - 1) * (44#7) < (this t - (22#7)) / (44#7) * (44#7)).
    { apply Qmult_lt_compat_r; [reflexivity | exact H2]. }
    rewrite K in H. unfold Z.sub in H. rewrite inject_Z_plus in H.
    change (inject_Z (-(1))) with (-1#1) in H.
    lra.
  - unfold Qcle. rewrite E2. unfold qpi. change (this (Q2Qc (22#7))) with (22#7).
    assert (H : (this t - (22#7)) / (44#7) * (44#7) <= inject_Z n * (44#7)).
    { apply Qmult_le_compat_r; [exact H1 | discriminate]. }
    rewrite K in H.
    lra.
Qed.
Lemma qph_id (t : Qc) : (- qpi < t)%Qc -> (t <= qpi)%Qc -> qphnorm t = t.
Proof.
  intros H1 H2. unfold qphnorm.
  assert (E : this ((t - qpi) / (qpi + qpi))%Qc == (this t - (22#7)) / (44#7)).
  { unfold Qcdiv, Qcminus, Qcopp, Qcplus, Qcmult, Qcinv, qpi. cbn [this Q2Qc].
    rewrite !Qred_correct. setoid_replace ((22#7)+(22#7)) with (44#7) by reflexivity. reflexivity. }
  assert (n : Qceiling (this ((t - qpi) / (qpi + qpi))%Qc) = 0%Z).
  { rewrite E.
    assert (A : (this t - (22#7)) / (44#7) <= 0).
    { apply Qle_shift_div_r; [reflexivity|]. unfold Qcle, qpi in H2. change (this (Q2Qc (22#7))) with (22#7) in H2.
      lra. }
    assert (B : -1#1 < (this t - (22#7)) / (44#7)).
    { apply Qlt_shift_div_l; [reflexivity|]. unfold Qclt, qpi in H1.
      change (this (- Q2Qc (22#7))%Qc) with (-22#7) in H1.
      lra. }
    assert (C := Qceiling_resp_le _ _ A). change (Qceiling 0) with 0%Z in C.
    assert (D := Qle_ceiling ((this t - (22#7)) / (44#7))).
    assert (G : (-1 < Qceiling ((this t - (22#7)) / (44#7)))%Z).
    { rewrite Zlt_Qlt. eapply Qlt_le_trans; [exact B | exact D]. }
    lia. }
  rewrite n. change (Q2Qc (inject_Z 0)) with (0%Qc). ring.
Qed.
End Phase.

#[export] Instance ExtLaws_Qc : ExtLaws Qc Num_Qc Ext_Qc.
Proof.
  constructor.
  - intros t. assert (K := sqr1_neq0 t). cbn. unfold qsin, qcos. field. exact K.
  - apply Qc_is_canon. reflexivity.
  - apply Qc_is_canon. reflexivity.
  - reflexivity.
  - intros t. apply qnlt. apply (qph_bounds t).
  - intros t. apply Qcleb_true. apply (qph_bounds t).
  - intros t H1 H2. apply qph_id; [now apply qnlt | now apply Qcleb_true].
  - apply qaa_rot.
  - unfold x_aa2m. cbn. unfold qaa2m. vunfold. cbn [n0 n1 nadd nmul nsub nopp Num_Qc]. vsplit; field; discriminate.
  - reflexivity.
Qed.

(** Helpers for examples. *)
Lemma qeq (x y : Qc) : Qeq_bool (this x) (this y) = true -> x = y.
Proof. intros H. apply Qc_is_canon. now apply Qeq_bool_iff. Qed.
Lemma qne (x y : Qc) : Qeq_bool (this x) (this y) = false -> x <> y.
Proof. intros H ->. rewrite (proj2 (Qeq_bool_iff y y)) in H; [discriminate | reflexivity]. Qed.
Definition qz (z : Z) : Qc := Q2Qc (inject_Z z).
Fixpoint qlb (a b : list Qc) : bool :=
  match a, b with
  | nil, nil => true
  | cons x a', cons y b' => Qeq_bool (this x) (this y) && qlb a' b'
  | _, _ => false
  end.
Lemma qleq (a b : list Qc) : qlb a b = true -> a = b.
Proof.
  revert b. induction a as [|x a IH]; destruct b as [|y b]; cbn; try discriminate; [reflexivity|].
  intros H. apply andb_prop in H as [H1 H2]. f_equal; [now apply qeq | now apply IH].
Qed.
Lemma qlne (a b : list Qc) : qlb a b = false -> a <> b.
Proof.
  intros H ->. revert H. induction b as [|y b IH]; cbn; [discriminate|].
  rewrite (proj2 (Qeq_bool_iff y y)) by reflexivity. exact IH.
Qed.
(** Existence of a computed result with a decidable property, evaluated once. *)
Lemma some_ex {A} (o : option A) (P : A -> bool) :
  match o with Some a => P a | None => false end = true -> exists a, o = Some a /\ P a = true.
Proof. destruct o as [a|]; [eauto|discriminate]. Qed.
Fixpoint qlbs (a b : list (list Qc)) : bool :=
  match a, b with
  | nil, nil => true
  | cons x a', cons y b' => qlb x y && qlbs a' b'
  | _, _ => false
  end.
Lemma qlbs_eq (a b : list (list Qc)) : qlbs a b = true -> a = b.
Proof.
  revert b. induction a as [|x a IH]; destruct b as [|y b]; cbn; try discriminate; [reflexivity|].
  intros H. apply andb_prop in H as [H1 H2]. f_equal; [now apply qleq | now apply IH].
Qed.
Lemma some_exq {A} (o : option A) (f : A -> list (list Qc)) (r : list (list Qc)) :
  match o with Some a => qlbs (f a) r | None => false end = true -> exists a, o = Some a /\ f a = r.
Proof. intros H. apply some_ex in H as (a & A1 & A2). exists a. split; [exact A1 | now apply qlbs_eq]. Qed.
