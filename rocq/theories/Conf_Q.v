(** * Conf_Q: the external functions of the torsion on the rationals, for examples and witnesses.
    The square root is exact on squares of rationals; the angle belongs to the rational parametrisation of
    the circle in [ExtQ]. *)
From Coq Require Import Bool List ZArith Znumtheory QArith Qcanon Qreduction Ring Field Lia.
From Verif Require Import Num NumFacts Vec VecFacts Motor_Model Joint_Model ExtQ Conf_Model.

Definition qsqrt (q : Qc) : Qc := Q2Qc (Z.sqrt (Qnum (this q)) # Pos.sqrt (Qden (this q))).
Definition qatan2 (y x : Qc) : Qc := qphnorm (y / (qsqrt (x * x + y * y) + x))%Qc.
Definition qvangle (u v n : vec3 Qc) : Qc := qatan2 (v3dot n (v3cross u v)) (v3dot u v).
#[export] Instance ConfExt_Qc : ConfExt Qc := mkConfExt Qc qsqrt qatan2 qvangle qm2aa.

Lemma gcd_sqr (n d : Z) : Z.gcd n d = 1%Z -> Z.gcd (n * n) (d * d) = 1%Z.
Proof.
  intros H. apply Zgcd_1_rel_prime in H. apply Zgcd_1_rel_prime.
  apply rel_prime_sym, rel_prime_mult; apply rel_prime_sym, rel_prime_mult; auto.
Qed.
Lemma qsqrt_sqr (r : Qc) : (0 <= r)%Qc -> qsqrt (r * r)%Qc = r.
Proof.
  intros H. destruct r as [[n d] K]. unfold qsqrt, Qcmult. cbn [this Q2Qc].
  assert (G : Z.gcd n (Zpos d) = 1%Z) by (apply (Qred_identity2 (n # d)); exact K).
  assert (R : Qred ((n # d) * (n # d)) = (n * n # d * d)).
  { unfold Qmult. cbn [Qnum Qden]. apply Qred_identity. cbn [Qnum Qden]. rewrite Pos2Z.inj_mul. now apply gcd_sqr. }
  rewrite R. cbn [Qnum Qden]. apply Qc_is_canon. cbn [this Q2Qc]. rewrite Qred_correct.
  assert (N0 : (0 <= n)%Z). { unfold Qcle, Qle in H. cbn in H. lia. }
  rewrite (Z.sqrt_square n N0). assert (D : Pos.sqrt (d * d) = d).
  { assert (Z.sqrt (Zpos (d * d)) = Zpos d) by (rewrite Pos2Z.inj_mul; apply Z.sqrt_square; lia). cbn in H0. congruence. }
  rewrite D. reflexivity.
Qed.
Lemma qatan2_sc (r t : Qc) : (0 < r)%Qc -> qatan2 (r * qsin t) (r * qcos t) = qphnorm t.
Proof.
  intros H. unfold qatan2. f_equal. assert (K := sqr1_neq0 t).
  replace (r * qcos t * (r * qcos t) + r * qsin t * (r * qsin t))%Qc with (r * r)%Qc by (unfold qsin, qcos; field; exact K).
  rewrite qsqrt_sqr by (now apply Qclt_le_weak).
  assert (R0 : r <> 0%Qc) by (intros ->; discriminate H).
  unfold qsin, qcos. field. split; [exact K|].
  match goal with |- ?a <> _ => change a with (r * (1 + t * t) + r * (1 - t * t))%Qc end.
  intros Z. assert (Z2 : ((1 + 1) * r)%Qc = 0%Qc) by (rewrite <- Z; ring).
  apply Qcmult_integral in Z2 as [Z2|Z2]; [discriminate Z2|contradiction].
Qed.
#[export] Instance ConfLaws_Qc : ConfLaws Qc Num_Qc Ext_Qc ConfExt_Qc.
Proof.
  constructor.
  - intros r H. apply qsqrt_sqr. now apply Qcleb_true.
  - intros r t H. apply qatan2_sc. now apply qnlt.
  - intros u n t U NN D. change (x_vangle u (v3add (v3scale (x_cos t) u) (v3scale (x_sin t) (v3cross n u))) n) with
      (qvangle u (v3add (v3scale (qcos t) u) (v3scale (qsin t) (v3cross n u))) n).
    change (x_phnorm t) with (qphnorm t). rewrite <- (qatan2_sc 1 t) by reflexivity. unfold qvangle. f_equal.
    + transitivity (qsin t * (v3sqr n * v3sqr u - v3dot n u * v3dot n u))%num.
      * unfold v3sqr. vdestruct. vunfold. cbn [nadd nmul nsub Num_Qc]. ring.
      * rewrite U, NN, D. cbn [n0 n1 nmul nsub Num_Qc]. ring.
    + transitivity (qcos t * v3sqr u)%num.
      * unfold v3sqr. vdestruct. vunfold. cbn [nadd nmul nsub Num_Qc]. ring.
      * rewrite U. cbn [n1 nmul Num_Qc]. ring.
  - intros n t H. change (x_aa2m (v3scale t n)) with (qaa2m (v3scale t n)). unfold qaa2m, rodrigues.
    assert (S : v3sqr (v3scale t n) = (t * t)%num).
    { transitivity (t * t * v3sqr n)%num; [unfold v3sqr; vdestruct; vunfold; cbn [nadd nmul Num_Qc]; ring|]. rewrite H. cbn. ring. }
    rewrite S. cbn [nadd nmul Num_Qc]. assert (K := sqr1_neq0 t).
    change (x_sin t) with (qsin t). change (x_cos t) with (qcos t). unfold qsin, qcos. destruct n as [x y z].
    clear H S. vunfold. cbn [n0 n1 nadd nmul nsub nopp Num_Qc]. vsplit; field; exact K.
Qed.
