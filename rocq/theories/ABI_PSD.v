(** * ABI_PSD: articulated inertias are positive semidefinite. *)
From Coq Require Import List Arith Lia Permutation Field.
From Verif Require Import Num NumFacts Vec VecFacts Motor_Model Joint_Model Joint_Spec Joint_Proofs Body_Model Body_Proofs
  Tree Tree_Proofs Link_Model Link_Spec Link_Proofs Chain_Proofs Link_Properties Chain_Properties Kin_Spec Kin_Proofs
  Dyn_Spec Dyn_Proofs Walk Walk_Proofs ABI_Model ABI_Spec ABI_Alg ABI_Proofs.
Import ListNotations.
Local Open Scope nat_scope.

Section A.
Context {F : Type} {N : Num F} {L : NumLaws F N} {E : Ext F} {MI : MInv F}.
Add Field FField : num_field.
Local Open Scope num_scope.
Notation lk := (link F).
Notation al := (alink F).
Local Ltac vring := intros; vdestruct; vunfold; vsplit; ring.

Lemma not_tiny_pos tol h : 0 < tol -> 0 <= h -> ntiny tol h = false -> 0 < h.
Proof. intros T H D. apply nlt_le_neq. split; [exact H|]. intros Q. eapply ntiny_false_neq; eauto. Qed.
Lemma inv1_psd (a b c r : F) : 0 < x_tol -> 0 <= c -> 0 <= r -> (forall t, 0 <= a - (1 + 1) * t * b + t * t * c) -> 0 <= a - inv1 (r + c) * (b * b).
Proof.
  intros TL C R H. unfold inv1. destruct (ntiny x_tol (r + c)) eqn:T.
  - specialize (H 0). assert (a - 0 * (b * b) = a - (1 + 1) * 0 * b + 0 * 0 * c) as -> by ring. exact H.
  - assert (P : 0 < r + c) by (eapply not_tiny_pos; eauto; now apply nle_0_add). assert (NZ : r + c <> 0) by now apply nlt_neq'.
    specialize (H (b / (r + c))).
    assert (a - 1 / (r + c) * (b * b) = (a - (1 + 1) * (b / (r + c)) * b + b / (r + c) * (b / (r + c)) * c) + b / (r + c) * (b / (r + c)) * r) as -> by (field; exact NZ).
    apply nle_0_add; [exact H|]. apply nle_0_mul; [apply nle_0_sqr|exact R].
Qed.
Lemma psd6_add (a b : mat6 F) : psd6 a -> psd6 b -> psd6 (m6add a b).
Proof. intros A B v. rewrite m6v_add_l, v6dot_add_r. apply nle_0_add; auto. Qed.
Lemma psd6_zero : psd6 (m6zero : mat6 F).
Proof. intros v. rewrite m6zero_v, v6dot_0_r. apply nle_refl. Qed.
Lemma psd6_xform f (m : mat6 F) : sym6 m -> psd6 m -> psd6 (joint_xform_mat6 f m).
Proof. intros S P v. rewrite xm6_spec by assumption. rewrite <- xform6_power. apply P. Qed.
Lemma sym6_dot (m : mat6 F) a b : sym6 m -> v6dot a (m6v m b) = v6dot b (m6v m a).
Proof. intros S. rewrite m6tr_v, S. apply v6dot_comm. Qed.
(** Removing the part of the inertia that the axis z yields. *)
Lemma psd6_less (m : mat6 F) z r : 0 < x_tol -> sym6 m -> psd6 m -> 0 <= r ->
  psd6 (m6add (m6scaledyad (- inv1 (r + v6dot z (m6v m z))) (m6v m z) (m6v m z)) m).
Proof.
  intros TL S P R v. rewrite m6v_add_l, m6scaledyad_v, v6dot_add_r, v6dot_scale_r. rewrite (v6dot_comm (m6v m z) v).
  set (a := v6dot v (m6v m v)). set (b := v6dot v (m6v m z)). set (c := v6dot z (m6v m z)).
  assert (- inv1 (r + c) * b * b + a = a - inv1 (r + c) * (b * b)) as -> by ring.
  apply inv1_psd; auto; [apply P|]. intros t. specialize (P (v6sub v (v6scale t z))). revert P.
  assert (v6dot (v6sub v (v6scale t z)) (m6v m (v6sub v (v6scale t z))) = a - (1 + 1) * t * b + t * t * c) as ->; [|auto].
  assert (m6v m (v6sub v (v6scale t z)) = v6sub (m6v m v) (v6scale t (m6v m z))) as -> by vring.
  rewrite !v6dot_sub_l, !v6dot_sub_r, !v6dot_scale_l, !v6dot_scale_r. unfold a, b, c. rewrite (sym6_dot m z v S). ring.
Qed.
Definition rotor_ok (j : joint F) : Prop := match joint_motor j with Some m => 0 <= motor_inertia m 0 | None => True end.
Lemma give_psd br j (m : mat6 F) f ax : 0 < x_tol -> sym6 m -> psd6 m -> rotor_ok j -> not_cylin j ->
  psd6 (joint_give_abi br j m f (snd (joint_axis_inertia br j m ax))).
Proof.
  intros TL S P RT NC. destruct j; try contradiction; cbn [joint_give_abi joint_axis_inertia snd].
  - apply psd6_xform; assumption.
  - change (elem [[inv1 (motor_inertia (rv_m r) 0 + vz (mc2 (maa m)))]] 0 0) with (inv1 (motor_inertia (rv_m r) 0 + vz (mc2 (maa m)))).
    rewrite (sym_colza m S). apply psd6_xform.
    + apply m6add_sym; auto. apply dyad_sym.
    + assert (Z : m6colza m = m6v m (zang 1)) by (rewrite m6v_zang; vring).
      assert (C : vz (mc2 (maa m)) = v6dot (zang 1) (m6v m (zang 1))) by (unfold zang; vring). rewrite C, Z. apply psd6_less; auto.
  - change (elem [[inv1 (motor_inertia (pr_m p) 0 + vz (mc2 (mll m)))]] 0 0) with (inv1 (motor_inertia (pr_m p) 0 + vz (mc2 (mll m)))).
    rewrite (sym_colz m S). apply psd6_xform.
    + apply m6add_sym; auto. apply dyad_sym.
    + assert (Z : m6colz m = m6v m (zlin 1)) by (rewrite m6v_zlin; vring).
      assert (C : vz (mc2 (mll m)) = v6dot (zlin 1) (m6v m (zlin 1))) by (unfold zlin; vring). rewrite C, Z. apply psd6_less; auto.
  - exact psd6_zero.
  - exact psd6_zero.
  - exact psd6_zero.
  - destruct br; [apply psd6_xform; assumption|exact psd6_zero].
Qed.
Lemma mass_mat_psd (l : lk) : 0 <= l_mass l -> psd3 (mp_inertia (b_mp (l_body l))) -> psd6 (link_mass_mat l).
Proof.
  intros M P v. unfold link_mass_mat. specialize (P (vang v)). revert M P. generalize (l_mass l) (l_com l) (mp_inertia (b_mp (l_body l))). intros m c J M P.
  set (u := v3add (vlin v) (v3cross (vang v) c)).
  match goal with |- nle 0 ?x => assert (x = m * v3dot u u + v3dot (vang v) (m3v J (vang v))) as -> end.
  { unfold u. clear -L. revert v m c J. vring. }
  apply nle_0_add; [apply nle_0_mul; [exact M|]|exact P]. unfold v3dot. apply nle_0_add; [apply nle_0_add|]; apply nle_0_sqr.
Qed.
Lemma driving_rotor (j : joint F) : rotor_ok j -> rotor_ok (joint_driving_torque j).
Proof. destruct j; auto. Qed.
Lemma pick_in (h : list al) t q : In q (pick h t) -> exists c, In c t /\ nth_error h c = Some q.
Proof.
  induction t as [|c t IH]; cbn; [contradiction|]. destruct (nth_error h c) eqn:HC; [intros [<-|I]; [exists c; auto|]|intros I];
     destruct (IH I) as (c' & A & B); exists c'; auto.
Qed.
Definition sound (l : al) : Prop := sym6 (ab_i (al_a l)) /\ psd6 (ab_i (al_a l)) /\ not_cylin (al_joint l) /\ rotor_ok (al_joint l).
Lemma backed_psd br (h1 h2 : list al) f : 0 < x_tol -> backed (abi_back br) (abi_give br) h1 h2 f ->
  (forall i l, In i (ids f) -> nth_error h1 i = Some l -> sound l) ->
  forall i l, In i (ids f) -> nth_error h2 i = Some l -> sound l /\ exists l0, l = abi_back br l0.
Proof.
  intros TL. induction f as [|i k IHk r IHr]; cbn [backed ids]; [contradiction|]. intros (l1 & H1 & H2 & HK & HR) HY j l I Hl.
  assert (IK := IHk HK (fun a b Ia => HY a b (or_intror (in_or_app _ _ _ (or_introl Ia))))).
  destruct I as [<-|I].
  - rewrite H2 in Hl. assert (l = abi_back br (fold_right (abi_give br) l1 (pick h2 (roots k)))) by congruence. clear Hl. subst l. split; [|eauto].
    destruct (HY i l1 (or_introl eq_refl) H1) as (S & P & NC & RT).
    destruct (fold_give br l1 (pick h2 (roots k))) as (A1 & A2 & _). unfold sound, abi_back, al_joint. cbn [al_set_joint al_map_a al_a al_l ab_set_axi ab_set_b ab_i l_set_joint l_joint].
    rewrite A1, A2.
    assert (KS : forall q, In q (pick h2 (roots k)) -> sound q /\ exists l0, q = abi_back br l0).
    { intros q Iq. destruct (pick_in _ _ _ Iq) as (c & Ic & Hc). exact (IK c q (roots_ids _ _ Ic) Hc). }
    split; [|split; [|split; [now apply driving_not_cylin|now apply driving_rotor]]].
    + apply sumI_sym; [exact S|]. intros q Iq. destruct (KS q Iq) as ((Sq & _ & Nq & _) & _). now apply give_sym.
    + revert KS. generalize (pick h2 (roots k)). clear -P TL L. induction l as [|q t IH]; intros KS; [exact P|]. cbn [sumI fold_right]. apply psd6_add; [apply IH; intros; apply KS; cbn; auto|].
      destruct (KS q (or_introl eq_refl)) as ((Sq & Pq & Nq & Rq) & (q0 & Q)). unfold gI.
      assert (AX := back_axi br q0). rewrite <- Q in AX. cbv zeta in AX. assert (X2 := f_equal snd AX). cbn [snd] in X2. rewrite X2. now apply give_psd.
  - apply in_app_or in I as [I|I]; [eapply IK; eauto|]. eapply IHr; eauto. intros a b Ia. apply HY. right. apply in_or_app. auto.
Qed.
End A.
