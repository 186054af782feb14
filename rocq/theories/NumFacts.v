(** * NumFacts: consequences of the ordered field laws, and the instances. *)

From Coq Require Import Bool Ring Field QArith Qcanon Reals Lra.
From Verif Require Import Num.

Lemma Rleb_true x y : Rleb x y = true <-> (x <= y)%R.
Proof. unfold Rleb; destruct (Rle_dec x y); split; intros; auto; discriminate. Qed.

#[export] Instance NumLaws_R : NumLaws R Num_R.
Proof.
  constructor; cbn [n0 n1 nadd nmul nsub nopp ndiv ninv nleb Num_R]; intros;
    rewrite ?Rleb_true in *.
  - exact Rfield.
  - destruct (Rle_or_lt x y); [left | right]; lra.
  - lra.
  - lra.
  - lra.
  - now apply Rmult_le_pos.
Qed.

Lemma Qcleb_true x y : Qcleb x y = true <-> (x <= y)%Qc.
Proof. unfold Qcleb, Qcle. apply Qle_bool_iff. Qed.

#[export] Instance NumLaws_Qc : NumLaws Qc Num_Qc.
Proof.
  constructor; cbn [n0 n1 nadd nmul nsub nopp ndiv ninv nleb Num_Qc]; intros;
    rewrite ?Qcleb_true in *.
  - exact Qcft.
  - destruct (Qclt_le_dec x y) as [H|H]; [left; now apply Qclt_le_weak | now right].
  - now apply Qcle_antisym.
  - eapply Qcle_trans; eauto.
  - apply Qcplus_le_compat; [assumption | apply Qcle_refl].
  - rewrite <- (Qcmult_0_l y). now apply Qcmult_le_compat_r.
Qed.

Section Facts.
Context {F : Type} {N : Num F} {L : NumLaws F N}.
Add Field FField : num_field.
Open Scope num_scope.

Lemma nle_refl x : x <= x.
Proof. destruct (nleb_total x x); assumption. Qed.
Lemma nle_trans x y z : x <= y -> y <= z -> x <= z.
Proof. apply nleb_trans. Qed.
Lemma nle_antisym x y : x <= y -> y <= x -> x = y.
Proof. apply nleb_antisym. Qed.
Lemma nlt_nle x y : x < y <-> ~ y <= x.
Proof. unfold nlt, nle; destruct (nleb y x); split; intros; auto; try discriminate; now destruct H. Qed.
Lemma nle_or_lt x y : x <= y \/ y < x.
Proof. unfold nlt, nle; destruct (nleb x y); auto. Qed.
Lemma nlt_le x y : x < y -> x <= y.
Proof. unfold nlt, nle; intros H. destruct (nleb_total x y); congruence. Qed.
Lemma nltb_lt x y : nltb x y = true <-> x < y.
Proof. unfold nltb, nlt; destruct (nleb y x); cbn; split; intros; auto; discriminate. Qed.
Lemma nltb_ge x y : nltb x y = false <-> y <= x.
Proof. unfold nltb, nle; destruct (nleb y x); cbn; split; intros; auto; discriminate. Qed.

Lemma nle_add x y z : x <= y -> x + z <= y + z.
Proof. apply nleb_add. Qed.
Lemma nle_add_r_inv x y z : x + z <= y + z -> x <= y.
Proof.
  intros H. apply (nle_add _ _ (- z)) in H.
  replace (x + z + - z) with x in H by ring.
  replace (y + z + - z) with y in H by ring. exact H.
Qed.
Lemma nle_sub_iff x y : x <= y <-> 0 <= y - x.
Proof.
  split; intros H.
  - apply (nle_add _ _ (- x)) in H. replace (x + - x) with 0 in H by ring.
    replace (y - x) with (y + - x) by ring. exact H.
  - apply (nle_add _ _ x) in H. replace (0 + x) with x in H by ring.
    replace (y - x + x) with y in H by ring. exact H.
Qed.
Lemma nle_add2 x y z w : x <= y -> z <= w -> x + z <= y + w.
Proof.
  intros. apply nle_trans with (y + z); [now apply nle_add|].
  replace (y + z) with (z + y) by ring. replace (y + w) with (w + y) by ring. now apply nle_add.
Qed.
Lemma nle_0_add x y : 0 <= x -> 0 <= y -> 0 <= x + y.
Proof. intros. replace 0 with (0 + 0) by ring. now apply nle_add2. Qed.
Lemma nle_0_mul x y : 0 <= x -> 0 <= y -> 0 <= x * y.
Proof. apply nleb_mul. Qed.
Lemma nle_opp x y : x <= y -> - y <= - x.
Proof. intros H. apply nle_sub_iff. replace (- x - - y) with (y - x) by ring. now apply -> nle_sub_iff. Qed.
Lemma nle_opp0 x : x <= 0 <-> 0 <= - x.
Proof.
  split; intros H.
  - apply nle_opp in H. replace (- 0) with 0 in H by ring. exact H.
  - apply nle_opp in H. replace (- 0) with 0 in H by ring. replace (- - x) with x in H by ring. exact H.
Qed.
Lemma nle_0_sqr x : 0 <= x * x.
Proof.
  destruct (nle_or_lt 0 x) as [H|H].
  - now apply nle_0_mul.
  - apply nlt_le in H. apply nle_opp0 in H.
    replace (x * x) with (- x * - x) by ring. now apply nle_0_mul.
Qed.
Lemma n1_neq_0 : (1:F) <> 0.
Proof. exact (F_1_neq_0 num_field). Qed.
Lemma nle_0_1 : 0 <= (1:F).
Proof. replace 1 with (1 * 1) by ring. apply nle_0_sqr. Qed.
Lemma nlt_0_1 : 0 < (1:F).
Proof.
  apply nlt_nle. intros H. apply n1_neq_0. apply nle_antisym; [exact H | apply nle_0_1].
Qed.
Lemma nlt_le_neq x y : x < y <-> x <= y /\ x <> y.
Proof.
  split.
  - intros H. split; [now apply nlt_le|]. intros E. apply nlt_nle in H. apply H. rewrite E. apply nle_refl.
  - intros [H E]. apply nlt_nle. intros H'. apply E. now apply nle_antisym.
Qed.
Lemma nlt_neq x y : x < y -> x <> y.
Proof. intros H. now apply nlt_le_neq in H. Qed.
Lemma nlt_neq' x y : x < y -> y <> x.
Proof. intros H E. apply nlt_neq in H. congruence. Qed.
Lemma nle_lt_trans x y z : x <= y -> y < z -> x < z.
Proof.
  intros H1 H2. apply nlt_nle. intros H3. apply nlt_nle in H2. apply H2. eapply nle_trans; eauto.
Qed.
Lemma nlt_le_trans x y z : x < y -> y <= z -> x < z.
Proof.
  intros H1 H2. apply nlt_nle. intros H3. apply nlt_nle in H1. apply H1. eapply nle_trans; eauto.
Qed.
Lemma nlt_trans x y z : x < y -> y < z -> x < z.
Proof. intros H1 H2. eapply nlt_le_trans; [exact H1 | now apply nlt_le]. Qed.
Lemma nlt_irrefl x : ~ x < x.
Proof. intros H. apply nlt_neq in H. congruence. Qed.
Lemma nlt_0_add_l x y : 0 < x -> 0 <= y -> 0 < x + y.
Proof.
  intros Hx Hy. eapply nlt_le_trans; [exact Hx|]. apply nle_sub_iff.
  replace (x + y - x) with y by ring. exact Hy.
Qed.
Lemma nlt_0_add_r x y : 0 <= x -> 0 < y -> 0 < x + y.
Proof. intros. replace (x + y) with (y + x) by ring. now apply nlt_0_add_l. Qed.
Lemma n2_neq_0 : (n2:F) <> 0.
Proof.
  unfold n2. apply nlt_neq'. apply nlt_0_add_l; [apply nlt_0_1 | apply nle_0_1].
Qed.
Lemma nmul_eq_0 x y : x * y = 0 -> x = 0 \/ y = 0.
Proof.
  intros H. destruct (nle_or_lt x 0) as [H1|H1].
  - destruct (nle_or_lt 0 x) as [H2|H2].
    + left. now apply nle_antisym.
    + right. apply nlt_neq in H2. replace y with ((x * y) / x) by (field; exact H2).
      rewrite H. field. exact H2.
  - right. apply nlt_neq' in H1. replace y with ((x * y) / x) by (field; exact H1).
    rewrite H. field. exact H1.
Qed.
Lemma nlt_0_mul x y : 0 < x -> 0 < y -> 0 < x * y.
Proof.
  intros Hx Hy. apply nlt_le_neq. split.
  - apply nle_0_mul; now apply nlt_le.
  - intros E. symmetry in E. apply nmul_eq_0 in E. destruct E as [E|E]; subst; eapply nlt_irrefl; eauto.
Qed.
Lemma nle_mul_l x y z : 0 <= z -> x <= y -> z * x <= z * y.
Proof.
  intros Hz H. apply nle_sub_iff. replace (z * y - z * x) with (z * (y - x)) by ring.
  apply nle_0_mul; [exact Hz | now apply -> nle_sub_iff].
Qed.
Lemma nlt_0_inv x : 0 < x -> 0 < 1 / x.
Proof.
  intros Hx. apply nlt_nle. intros H.
  assert (Hx' := nlt_neq' _ _ Hx).
  apply (nle_mul_l _ _ x) in H; [|now apply nlt_le].
  replace (x * (1 / x)) with 1 in H by (field; exact Hx').
  replace (x * 0) with 0 in H by ring.
  eapply nlt_irrefl. eapply nlt_le_trans; [apply nlt_0_1 | exact H].
Qed.
Lemma nle_0_div x y : 0 <= x -> 0 < y -> 0 <= x / y.
Proof.
  intros Hx Hy. assert (Hy' := nlt_neq' _ _ Hy).
  replace (x / y) with (x * (1 / y)) by (field; exact Hy').
  apply nle_0_mul; [exact Hx|]. apply nlt_le. now apply nlt_0_inv.
Qed.
Lemma nsqr_eq_0 x : x * x = 0 -> x = 0.
Proof. intros H. now destruct (nmul_eq_0 _ _ H). Qed.
Lemma nadd_nonneg_eq_0 x y : 0 <= x -> 0 <= y -> x + y = 0 -> x = 0 /\ y = 0.
Proof.
  intros Hx Hy E. assert (x = 0).
  { apply nle_antisym; [|exact Hx]. replace x with (- y) by (replace y with (0 - x) by (rewrite <- E; ring); ring).
    apply nle_opp0. replace (- - y) with y by ring. exact Hy. }
  split; [assumption|]. subst. rewrite <- E. ring.
Qed.

Lemma ntiny_false_neq tol x : 0 < tol -> ntiny tol x = false -> x <> 0.
Proof.
  unfold ntiny. intros Ht H E. subst. apply nltb_ge in H. unfold nabs in H.
  assert (Hr := nle_refl 0). unfold nle in Hr. rewrite Hr in H.
  eapply nlt_irrefl. eapply nlt_le_trans; eauto.
Qed.

(** ** clamp *)
Lemma clamp_within v lo hi : limits_ok lo hi -> within lo hi (clamp v lo hi).
Proof.
  unfold limits_ok, within, clamp. destruct lo as [l|], hi as [h|]; intros H.
  - destruct (nltb v l) eqn:E1.
    + destruct (nltb h l) eqn:E2; [apply nltb_lt in E2; apply nlt_nle in E2; tauto|].
      split; auto. apply nle_refl.
    + apply nltb_ge in E1. destruct (nltb h v) eqn:E2.
      * split; auto. apply nle_refl.
      * apply nltb_ge in E2. auto.
  - split; auto. destruct (nltb v l) eqn:E1; [apply nle_refl | now apply nltb_ge in E1].
  - split; auto. destruct (nltb h v) eqn:E1; [apply nle_refl | now apply nltb_ge in E1].
  - auto.
Qed.
Lemma clamp_id v lo hi : within lo hi v -> clamp v lo hi = v.
Proof.
  unfold within, clamp. intros [H1 H2].
  assert (E : match lo with Some l => if nltb v l then l else v | None => v end = v).
  { destruct lo as [l|]; auto. apply nltb_ge in H1. now rewrite H1. }
  rewrite E. destruct hi as [h|]; auto. apply nltb_ge in H2. now rewrite H2.
Qed.
Lemma clamp_idem v lo hi : limits_ok lo hi -> clamp (clamp v lo hi) lo hi = clamp v lo hi.
Proof. intros H. apply clamp_id. now apply clamp_within. Qed.

Lemma nsgn_mul x : 0 <= x * nsgn x.
Proof.
  unfold nsgn. destruct (nltb 0 x) eqn:E1.
  - apply nltb_lt in E1. replace (x * 1) with x by ring. now apply nlt_le.
  - destruct (nltb x 0) eqn:E2.
    + apply nltb_lt in E2. replace (x * - (1)) with (- x) by ring. apply nle_opp0 . now apply nlt_le.
    + replace (x * 0) with 0 by ring. apply nle_refl.
Qed.
Lemma nabs_nonneg x : 0 <= nabs x.
Proof.
  unfold nabs. destruct (0 <=? x) eqn:E; [exact E|].
  apply -> nle_opp0. apply nlt_le. exact E.
Qed.
End Facts.
