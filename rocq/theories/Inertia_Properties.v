(** * Inertia_Properties: theorems C83. *)
From Coq Require Import String ZArith QArith Qcanon List Arith Lia Field.
From Verif Require Import Num NumFacts Vec VecFacts Motor_Model Joint_Model Joint_Spec Joint_Proofs Body_Model Body_Proofs
  Tree Tree_Proofs Link_Model Link_Spec Link_Proofs Chain_Proofs Link_Properties Chain_Properties Kin_Spec Kin_Proofs
  Jacobi_Model Jacobi_Proofs Kin_Properties Dyn_Spec Dyn_Proofs Dyn_Properties ExtQ Inertia_Spec Inertia_Proofs.
Import ListNotations.
Local Open Scope nat_scope.

Section Thms.
Context {F : Type} {N : Num F} {L : NumLaws F N} {E : Ext F}.
Add Field FFieldJ : num_field.
Local Open Scope num_scope.

Definition zeros (c : chain F) : list F := repeat 0 (chain_joint_size c).

(** C83: inverse dynamics and motions with given joint velocities exist on every tree. *)
Theorem C83_defined g (c : chain F) v a w u : well_formed (c_links c) -> offsets_set c ->
  length v = chain_joint_size c -> length a = chain_joint_size c -> length w = chain_joint_size c -> length u = chain_joint_size c ->
  exists tau cu, torques g c v a w tau /\ length tau = chain_joint_size c /\ moving c u cu.
Proof.
  intros W O LV LA LW LU. destruct (torques_power g c v a w W O LV LA LW) as (ra & tau & _ & T & LT & _).
  apply offsets_placed in O. rewrite chain_joint_size_total in *. destruct (vel_run c u W O ltac:(lia)) as (cu & M & _). eauto.
Qed.

(** C83: how the torques of rkChainID depend on the joint accelerations.  For any joint velocities [v],
    gravity [g] and external wrenches on the links, the torques for the accelerations [a] and [b] differ,
    in their power along [u], by the kinetic products of the motions with joint velocities [a], [b] and [u]. *)
Theorem C83_inertia g (c ca cb cu : chain F) v a b u w ta tb : well_formed (c_links c) -> offsets_set c ->
  length v = chain_joint_size c -> length a = chain_joint_size c -> length b = chain_joint_size c -> length u = chain_joint_size c -> length w = chain_joint_size c ->
  torques g c v a w ta -> torques g c v b w tb -> moving c a ca -> moving c b cb -> moving c u cu ->
  dotl ta u - dotl tb u = kin_product (c_links ca) (c_links cu) - kin_product (c_links cb) (c_links cu).
Proof.
  intros W O LV LA LB LU LW TA TB MA MB MU.
  destruct (torques_of _ _ _ _ _ _ W O LV LA LW TA) as (ra & RA & _ & PA). destruct (torques_of _ _ _ _ _ _ W O LV LB LW TB) as (rb & RB & _ & PB).
  apply offsets_placed in O. pose proof (chain_joint_size_total c) as SZ.
  pose proof (vel_of c a ca W O ltac:(lia) MA) as VA. pose proof (vel_of c b cb W O ltac:(lia) MB) as VB. pose proof (vel_of c u cu W O ltac:(lia) MU) as VU.
  rewrite (PA u _ LU VU), (PB u _ LU VU). eapply power_difference; eauto.
Qed.

Lemma torque_length g (c : chain F) v a w tau : well_formed (c_links c) -> offsets_set c ->
  length v = chain_joint_size c -> length a = chain_joint_size c -> length w = chain_joint_size c -> torques g c v a w tau -> length tau = chain_joint_size c.
Proof. intros W O LV LA LW T. now destruct (torques_of _ _ _ _ _ _ W O LV LA LW T) as (? & _ & H & _). Qed.
Lemma dotl_ldiff_l (s t u : list F) : length s = length t -> dotl (ldiff s t) u = dotl s u - dotl t u.
Proof.
  revert t u. induction s as [|x s IH]; intros [|y t] [|z u] H; cbn in H; try discriminate; cbn; try ring.
  change (map _ (combine s t)) with (ldiff s t). rewrite IH by lia. ring.
Qed.

(** C83: the difference does not depend on the velocities, on gravity or on where the torques are written. *)
Theorem C83_velocity_free g g' (c : chain F) v v' a b w w' ta tb ta' tb' : well_formed (c_links c) -> offsets_set c ->
  length v = chain_joint_size c -> length v' = chain_joint_size c -> length a = chain_joint_size c -> length b = chain_joint_size c ->
  length w = chain_joint_size c -> length w' = chain_joint_size c ->
  torques g c v a w ta -> torques g c v b w tb -> torques g' c v' a w' ta' -> torques g' c v' b w' tb' ->
  ldiff ta tb = ldiff ta' tb'.
Proof.
  intros W O LV LV' LA LB LW LW' TA TB TA' TB'.
  pose proof (torque_length _ _ _ _ _ _ W O LV LA LW TA) as E1. pose proof (torque_length _ _ _ _ _ _ W O LV LB LW TB) as E2.
  pose proof (torque_length _ _ _ _ _ _ W O LV' LA LW' TA') as E3. pose proof (torque_length _ _ _ _ _ _ W O LV' LB LW' TB') as E4.
  apply dotl_ext; [rewrite !ldiff_length by congruence; congruence|]. intros u LU. rewrite ldiff_length in LU by congruence.
  rewrite !dotl_ldiff_l by congruence. assert (LU' : length u = chain_joint_size c) by congruence.
  destruct (C83_defined g c v a w u W O LV LA LW LU') as (_ & cu & _ & _ & MU).
  destruct (C83_defined g c v a w a W O LV LA LW LA) as (_ & ca & _ & _ & MA). destruct (C83_defined g c v a w b W O LV LA LW LB) as (_ & cb & _ & _ & MB).
  rewrite (C83_inertia g c ca cb cu v a b u w ta tb), (C83_inertia g' c ca cb cu v' a b u w' ta' tb'); auto.
Qed.

Lemma ldiff_zeros n : ldiff (repeat 0 n) (repeat 0 n) = repeat 0 n.
Proof. induction n as [|n IH]; [reflexivity|]. cbn. change (map _ (combine (repeat 0 n) (repeat 0 n))) with (ldiff (repeat 0 n) (repeat 0 n)). rewrite IH. f_equal. ring. Qed.
Lemma kin_zero (c cz cu : chain F) u : well_formed (c_links c) -> offsets_set c -> length u = chain_joint_size c -> moving c (zeros c) cz -> moving c u cu ->
  kin_product (c_links cz) (c_links cu) = 0.
Proof.
  intros W O LU MZ MU. apply offsets_placed in O. pose proof (chain_joint_size_total c) as SZ.
  assert (LZ : length (zeros c) = chain_joint_size c) by apply repeat_length.
  pose proof (vel_of c (zeros c) cz W O ltac:(lia) MZ) as VZ. pose proof (vel_of c u cu W O ltac:(lia) MU) as VU.
  rewrite <- (kin_product_sub (c_links cz) (c_links cz) (c_links cz) (c_links cu) (c_links c) (zeros c) (zeros c) u W VZ VZ); [ring| |exact VU].
  unfold zeros. rewrite ldiff_zeros. exact VZ.
Qed.

(** C83: the inertia matrix is symmetric: with symmetric inertia tensors, accelerations [a] act on [u] as
    [u] on [a], whatever velocities and gravity the two are computed with. *)
Theorem C83_symmetric g g' (c : chain F) v v' a u w ta t0 tu t0' : well_formed (c_links c) -> offsets_set c ->
  length v = chain_joint_size c -> length v' = chain_joint_size c -> length a = chain_joint_size c -> length u = chain_joint_size c -> length w = chain_joint_size c ->
  Forall (fun l => sym3 (mp_inertia (b_mp (l_body l)))) (c_links c) ->
  torques g c v a w ta -> torques g c v (zeros c) w t0 -> torques g' c v' u w tu -> torques g' c v' (zeros c) w t0' ->
  dotl ta u - dotl t0 u = dotl tu a - dotl t0' a.
Proof.
  intros W O LV LV' LA LU LW SY TA T0 TU T0'. assert (LZ : length (zeros c) = chain_joint_size c) by apply repeat_length.
  destruct (C83_defined g c v a w u W O LV LA LW LU) as (_ & cu & _ & _ & MU).
  destruct (C83_defined g c v a w a W O LV LA LW LA) as (_ & ca & _ & _ & MA). destruct (C83_defined g c v a w (zeros c) W O LV LA LW LZ) as (_ & cz & _ & _ & MZ).
  rewrite (C83_inertia g c ca cz cu v a (zeros c) u w ta t0), (C83_inertia g' c cu cz ca v' u (zeros c) a w tu t0'); auto.
  rewrite (kin_zero c cz cu u), (kin_zero c cz ca a); auto.
  enough (kin_product (c_links ca) (c_links cu) = kin_product (c_links cu) (c_links ca)) as -> by ring.
  apply offsets_placed in O. pose proof (chain_joint_size_total c) as SZ.
  pose proof (vel_of c a ca W O ltac:(lia) MA) as VA. pose proof (vel_of c u cu W O ltac:(lia) MU) as VU.
  apply kin_product_sym; [rewrite (at_len VA), (at_len VU); reflexivity|]. intros i x y Hx Hy.
  destruct (nth_error (c_links c) i) as [l|] eqn:Hl. 2:{ apply nth_error_None in Hl. apply nth_lt in Hx. rewrite (at_len VA) in Hx. lia. }
  destruct (proj2 VA i l Hl) as (? & x' & ? & X1 & _ & _ & X2 & _). destruct (proj2 VU i l Hl) as (? & y' & ? & Y1 & _ & _ & Y2 & _).
  assert (x' = x) by congruence. assert (y' = y) by congruence. subst. rewrite X2, Y2. split; [reflexivity|].
  rewrite Forall_forall in SY. apply SY. eapply nth_error_In; eauto.
Qed.

Lemma kin_self (c : chain F) : kin_product (c_links c) (c_links c) = n2 * chain_ke c.
Proof.
  unfold chain_ke, kin_product.
  assert (G : forall h e, n2 * fold_left (fun e (l : link F) => e + body_ke (l_body l)) h e = n2 * e + nsum (map (fun p => kin_pair (fst p) (snd p)) (combine h h))).
  { induction h as [|l h IH]; intros e; cbn [fold_left combine map]; [unfold nsum; cbn; ring|]. rewrite IH. change (nsum (?y :: ?t)) with (y + nsum t). cbn [fst snd].
    assert (n2 * body_ke (l_body l) = kin_pair l l) as <-.
    { unfold body_ke, kin_pair, l_vel. rewrite (v3dot_comm (m3v _ _)). unfold v3sqr.
      generalize (v3dot (vang (b_vel (l_body l))) (m3v (mp_inertia (b_mp (l_body l))) (vang (b_vel (l_body l))))) (v3dot (b_comvel (l_body l)) (b_comvel (l_body l))) (mp_mass (b_mp (l_body l))).
      intros x y z. field. apply n2_neq_0. }
    ring. }
  rewrite G. ring.
Qed.
(** C83: along the difference of the accelerations the power is twice the kinetic energy rkChainKE finds
    when that difference is the joint velocity. *)
Theorem C83_energy g (c cd : chain F) v a b w ta tb : well_formed (c_links c) -> offsets_set c ->
  length v = chain_joint_size c -> length a = chain_joint_size c -> length b = chain_joint_size c -> length w = chain_joint_size c ->
  torques g c v a w ta -> torques g c v b w tb -> moving c (ldiff a b) cd ->
  dotl (ldiff ta tb) (ldiff a b) = n2 * chain_ke cd.
Proof.
  intros W O LV LA LB LW TA TB MD.
  pose proof (torque_length _ _ _ _ _ _ W O LV LA LW TA) as E1. pose proof (torque_length _ _ _ _ _ _ W O LV LB LW TB) as E2.
  assert (LD : length (ldiff a b) = chain_joint_size c) by (rewrite ldiff_length; congruence).
  destruct (C83_defined g c v a w a W O LV LA LW LA) as (_ & ca & _ & _ & MA). destruct (C83_defined g c v a w b W O LV LA LW LB) as (_ & cb & _ & _ & MB).
  rewrite dotl_ldiff_l by congruence. rewrite (C83_inertia g c ca cb cd v a b (ldiff a b) w ta tb); auto. rewrite <- kin_self.
  apply offsets_placed in O. pose proof (chain_joint_size_total c) as SZ.
  pose proof (vel_of c a ca W O ltac:(lia) MA) as VA. pose proof (vel_of c b cb W O ltac:(lia) MB) as VB. pose proof (vel_of c (ldiff a b) cd W O ltac:(lia) MD) as VD.
  exact (kin_product_sub _ _ _ _ _ _ _ _ W VA VB VD VD).
Qed.
(** With masses and inertia tensors that are not negative, it is not negative ... *)
Theorem C83_nonneg g (c : chain F) v a b w ta tb : well_formed (c_links c) -> offsets_set c ->
  length v = chain_joint_size c -> length a = chain_joint_size c -> length b = chain_joint_size c -> length w = chain_joint_size c ->
  Forall (fun l => 0 <= mp_mass (b_mp (l_body l)) /\ psd3 (mp_inertia (b_mp (l_body l)))) (c_links c) ->
  torques g c v a w ta -> torques g c v b w tb -> 0 <= dotl (ldiff ta tb) (ldiff a b).
Proof.
  intros W O LV LA LB LW PH TA TB. assert (LD : length (ldiff a b) = chain_joint_size c) by (rewrite ldiff_length; congruence).
  destruct (C83_defined g c v a w (ldiff a b) W O LV LA LW LD) as (_ & cd & _ & _ & MD).
  rewrite (C83_energy g c cd v a b w ta tb); auto. apply nle_0_mul; [unfold n2; apply nle_0_add; apply nle_0_1|].
  apply offsets_placed in O. pose proof (chain_joint_size_total c) as SZ. pose proof (vel_of c (ldiff a b) cd W O ltac:(lia) MD) as VD.
  assert (PD : Forall (fun l => 0 <= mp_mass (b_mp (l_body l)) /\ psd3 (mp_inertia (b_mp (l_body l)))) (c_links cd)).
  { apply Forall_forall. intros x Hx. apply In_nth_error in Hx as (i & Hi). destruct (nth_error (c_links c) i) as [l|] eqn:Hl.
    2:{ apply nth_error_None in Hl. apply nth_lt in Hi. rewrite (at_len VD) in Hi. lia. }
    destruct (proj2 VD i l Hl) as (? & x' & ? & X1 & _ & _ & X2 & _). assert (x' = x) by congruence. subst. rewrite X2.
    rewrite Forall_forall in PH. apply PH. eapply nth_error_In; eauto. }
  unfold chain_ke. assert (G : forall h e, 0 <= e -> Forall (fun l => 0 <= mp_mass (b_mp (l_body l)) /\ psd3 (mp_inertia (b_mp (l_body l)))) h -> 0 <= fold_left (fun e (l : link F) => e + body_ke (l_body l)) h e).
  { induction h as [|l h IH]; intros e He Hh; cbn; [exact He|]. inversion Hh as [|? ? [H1 H2] H3]; subst. apply IH; [|exact H3]. apply nle_0_add; [exact He|]. now apply ke_nonneg. }
  apply G; [apply nle_refl|exact PD].
Qed.
(** ... and if no motion of the joints is without kinetic energy, the torques determine the accelerations. *)
Theorem C83_determined g (c : chain F) v a b w ta : well_formed (c_links c) -> offsets_set c ->
  length v = chain_joint_size c -> length a = chain_joint_size c -> length b = chain_joint_size c -> length w = chain_joint_size c ->
  (forall u cu, length u = chain_joint_size c -> moving c u cu -> chain_ke cu = 0 -> Forall (fun x => x = 0) u) ->
  torques g c v a w ta -> torques g c v b w ta -> a = b.
Proof.
  intros W O LV LA LB LW PD TA TB. assert (LD : length (ldiff a b) = chain_joint_size c) by (rewrite ldiff_length; congruence).
  destruct (C83_defined g c v a w (ldiff a b) W O LV LA LW LD) as (_ & cd & _ & _ & MD). apply ldiff_zero; [congruence|].
  apply (PD _ cd LD MD). pose proof (C83_energy g c cd v a b w ta ta W O LV LA LB LW TA TB MD) as H.
  rewrite dotl_ldiff_l in H by reflexivity. destruct (nmul_eq_0 n2 (chain_ke cd)) as [Z|Z]; [rewrite <- H; ring|exfalso|exact Z].
  exact (n2_neq_0 Z).
Qed.

(** A body of mass [m] sliding along and turning about an axis: a case for the last theorem. *)
Definition spindle (m : F) : chain F :=
  Chain [Link EmptyString (joint_alloc TCylin) (Body (MP m v3zero (M3 (V3 1 0 0) (V3 0 1 0) (V3 0 0 1))) fid v6zero v6zero v3zero v3zero v3zero [] [] None)
    (Some 0%nat) fid fid v6zero None None None] m v3zero v3zero v3zero.
Example C83_ex_spindle m : 0 < m -> well_formed (c_links (spindle m)) /\ offsets_set (spindle m) /\ chain_joint_size (spindle m) = 2%nat /\
  forall u cu, length u = 2%nat -> moving (spindle m) u cu -> chain_ke cu = 0 -> Forall (fun x => x = 0) u.
Proof.
  intros PM. split; [|split; [reflexivity|split; [reflexivity|]]].
  - exists FNil. split; [|cbn; auto]. cbn. repeat (eexists || split).
  - intros [|x [|y [|]]] cu LU M K; cbn in LU; try discriminate. clear LU.
    assert (H : exists z t, z = x /\ t = y /\ n2 * chain_ke cu = m * (z * z) + t * t).
    { exists x, y. do 2 (split; [reflexivity|]). unfold moving in M. cbn in M. injection M as <-. rewrite <- kin_self. unfold kin_product, kin_pair, nsum. cbn. vunfold. cbn. ring. }
    destruct H as (z & t & -> & -> & H). rewrite K in H.
    assert (Z : m * (x * x) + y * y = 0) by (rewrite <- H; ring).
    destruct (nadd_nonneg_eq_0 (m * (x * x)) (y * y)) as [Z1 Z2]; [apply nle_0_mul; [now apply nlt_le|apply nle_0_sqr]|apply nle_0_sqr|exact Z|].
    apply nsqr_eq_0 in Z2. apply nmul_eq_0 in Z1 as [Z1|Z1]; [exfalso; revert Z1; now apply nlt_neq'|]. apply nsqr_eq_0 in Z1. auto.
Qed.
End Thms.

(** ** Concrete cases: the chain of C38 with its frames updated, two sets of velocities and gravity. *)
Definition mframed : chain Qc := match chain_update_frame mechw with Some c => c | None => mechw end.
Definition tq (g : Z) (v a : list Qc) : list Qc := match obind (chain_id (qz g) mframed v a) (fun c => chain_get_joint_trq_all c z12) with Some t => t | None => [] end.
Definition mv (u : list Qc) : list (link Qc) := match obind (chain_set_joint_vel_all mframed u) chain_update_vel with Some c => c_links c | None => [] end.
Definition mrun : option (list (list Qc)) := Some
  [[dotl (ldiff (tq 10 mvel macc) (tq 10 mvel z12)) mvirt; kin_product (mv macc) (mv mvirt); dotl (ldiff (tq 3 mvirt macc) (tq 3 mvirt z12)) mvirt;
    dotl (ldiff (tq 3 macc mvirt) (tq 3 macc z12)) macc];
   [dotl (ldiff (tq 10 mvel macc) (tq 10 mvel z12)) macc]].
Example C83_ex : exists x, mrun = Some x /\ x = zq [[-466; -466; -466; -466]; [498]]%Z.
Proof. apply (some_exq mrun (fun x => x)). vm_compute. reflexivity. Qed.
(** The hypotheses hold for that chain. *)
Example C83_ex_usable c : chain_update_frame mechw = Some c -> well_formed (c_links c) /\ offsets_set c /\ chain_joint_size c = 12.
Proof.
  intros H. destruct mechw_usable as [U SZ]. destruct (usable_frames _ _ U H) as (W & P & T & _). split; [exact W|]. split.
  - unfold offsets_set, chain_set_offset. rewrite P. destruct c; reflexivity.
  - rewrite chain_joint_size_total, T. exact SZ.
Qed.
Example C83_ex_physical : sym3 (mp_inertia (b_mp (l_body (mlink "r" (jn TRevol) 2 1)))) /\ psd3 (mp_inertia (b_mp (l_body (mlink "r" (jn TRevol) 2 1)))).
Proof.
  split; [reflexivity|]. intros [x y z].
  assert (v3dot (V3 x y z) (m3v (mp_inertia (b_mp (l_body (mlink "r" (jn TRevol) 2 1)))) (V3 x y z)) =
    ((x + y) * (x + y) + (x * x + ((1+1) * (y * y) + (1+1) * (1+1) * (z * z))))%num) as ->.
  { change (mp_inertia (b_mp (l_body (mlink "r" (jn TRevol) 2 1)))) with (M3 (V3 (qz 2) (qz 1) (qz 0)) (V3 (qz 1) (qz 3) (qz 0)) (V3 (qz 0) (qz 0) (qz 4))).
    replace (qz 2) with (1 + 1)%Qc by (vm_compute; reflexivity). replace (qz 3) with (1 + 1 + 1)%Qc by (vm_compute; reflexivity).
    replace (qz 4) with (1 + 1 + 1 + 1)%Qc by (vm_compute; reflexivity). replace (qz 1) with 1%Qc by (vm_compute; reflexivity). replace (qz 0) with 0%Qc by (vm_compute; reflexivity).
    vunfold. cbn [nadd nmul n0 n1 Num_Qc]. ring. }
  repeat (apply nle_0_add || apply nle_0_sqr || apply nle_0_mul || apply nle_0_1).
Qed.

Print Assumptions C83_defined.
Print Assumptions C83_inertia.
Print Assumptions C83_velocity_free.
Print Assumptions C83_symmetric.
Print Assumptions C83_energy.
Print Assumptions C83_nonneg.
Print Assumptions C83_determined.
