(** * IKEval_Properties: the error an inverse kinematics solver reports (C79). *)
From Coq Require Import String ZArith QArith Qcanon List Arith Lia Bool Field.
From Verif Require Import Num NumFacts Vec VecFacts Motor_Model Joint_Model Joint_Spec Joint_Proofs Joint_Properties ExtQ Body_Model Tree Link_Model Link_Spec Link_Properties Chain_Proofs Chain_Properties Jacobi_Model Kin_Spec Jacobi_Proofs Kin_Properties
  IK_Model IK_Laws IK_Gauss IK_Spec IK_Cells IK_Index IK_Dims IK_Rows IK_Usable IK_Quad IKCell_Properties IKRow_Properties IKSolve_Properties.
Import ListNotations.
Local Open Scope nat_scope.

Section Thms.
Context {F : Type} {N : Num F} {L : NumLaws F N} {E : Ext F} {I : IKExt F}.
Add Field FFieldEV : num_field.

Definition enabled (ce : cell F) : bool := existsb (on (ce_mode ce)) [AX; AY; AZ].
(** Weighted square of an error, over all axes and over the enabled ones. *)
Definition axes_square (axes : list axis) (w e : vec3 F) : F := fold_right (fun ax t => comp ax w * (comp ax e * comp ax e) + t)%num 0%num axes.
Definition whole_square (w e : vec3 F) : F := axes_square [AX; AY; AZ] w e.
(** [total c l x]: the errors of the enabled cells of [l] in the posture of [c], squared with the weights, add up to [x]. *)
Inductive total (c : chain F) : list (nat * cell F) -> F -> Prop :=
| total_nil : total c [] 0%num
| total_off a ce l x : enabled ce = false -> total c l x -> total c ((a, ce) :: l) x
| total_on a ce l x e : enabled ce = true -> cell_err c ce = Some e -> total c l x -> total c ((a, ce) :: l) (whole_square (a_w (ce_attr ce)) e + x)%num.
(** Every enabled cell has no error. *)
Definition met (c : chain F) (l : list (nat * cell F)) : Prop :=
  forall x e, In x l -> enabled (snd x) = true -> cell_err c (snd x) = Some e -> e = v3zero.
(** Every enabled axis of every cell has no error. *)
Definition axes_met (c : chain F) (l : list (nat * cell F)) : Prop :=
  forall ce ax e, In (ce, ax) (active l) -> cell_err c ce = Some e -> comp ax e = 0%num.
Definition positive_weights (l : list (nat * cell F)) : Prop := forall x ax, In x l -> (0 < comp ax (a_w (ce_attr (snd x))))%num.
(** What is used of the square root. *)
Definition sqrt_zero : Prop := forall x : F, (0 <= x)%num -> (x_sqrt x = 0%num <-> x = 0%num).

Lemma off_enabled (ce : cell F) : mode_off (ce_mode ce) = negb (enabled ce).
Proof. unfold mode_off, enabled. cbn. destruct (m_x _), (m_y _), (m_z _); reflexivity. Qed.
Lemma wsqr_whole (w e : vec3 F) : v3wsqr e w = whole_square w e.
Proof. unfold v3wsqr, whole_square, axes_square. cbn. ring. Qed.
Definition cell_reports (c : chain F) (ce ce' : cell F) : Prop :=
  if enabled ce then exists e, cell_err c ce = Some e /\ ce_eval ce' = x_sqrt (whole_square (a_w (ce_attr ce)) e) else ce' = ce.
Lemma eq_cell_total c s (ce : cell F) q ev r : eq_cell c s ce q ev = Some r -> cell_reports c ce (fst (fst r)) /\
  if enabled ce then exists e, cell_err c ce = Some e /\ snd r = (ev + whole_square (a_w (ce_attr ce)) e)%num else snd r = ev.
Proof.
  unfold eq_cell, cell_reports. rewrite off_enabled. destruct (enabled ce); cbn [negb]; [|intros H; injection H as <-; auto].
  unfold obind. destruct (cell_cmat c ce _) as [jm|]; [|discriminate]. destruct (cell_err c ce) as [e|]; [|discriminate].
  cbv zeta. set (ce1 := ce_set_eval _ ce). set (r1 := if m_force (ce_mode ce1) then _ else _).
  destruct (cell_eq c s _ _ _ _ q) as [q1|]; [|discriminate]. destruct (cell_eq c s _ _ _ _ q1) as [q2|]; [|discriminate]. destruct (cell_eq c s _ _ _ _ q2) as [q3|]; [|discriminate].
  intros H; injection H as <-. cbn [fst snd]. split; exists e; (split; [reflexivity|]); rewrite <- wsqr_whole; [|reflexivity].
  unfold r1. destruct (m_force _); [|reflexivity]. unfold cell_acm. destruct (ce_kind ce1); reflexivity.
Qed.
Lemma eq_cells_total c s (l : list (nat * cell F)) : forall q ev r, eq_cells c s l q ev = Some r ->
  Forall2 (fun x y => fst y = fst x /\ cell_reports c (snd x) (snd y)) l (fst (fst r)) /\ exists x, total c l x /\ snd r = (ev + x)%num.
Proof.
  induction l as [|[a ce] l IH]; intros q ev r H; cbn [eq_cells] in H.
  - injection H as <-. split; [constructor|]. exists 0%num. split; [constructor|]. cbn. ring.
  - unfold obind in H. cbn [fst snd] in H. destruct (eq_cell c s ce q ev) as [r1|] eqn:A; [|discriminate]. destruct (eq_cells c s l _ _) as [r2|] eqn:B; [|discriminate].
    injection H as <-. cbn [fst snd]. apply eq_cell_total in A as [A1 A2]. apply IH in B as [B1 (x & B2 & B3)]. split; [constructor; auto|]. rewrite B3.
    destruct (enabled ce) eqn:En; [destruct A2 as (e & A2 & ->)|rewrite A2].
    + exists (whole_square (a_w (ce_attr ce)) e + x)%num. split; [now constructor|ring].
    + exists x. split; [now constructor|reflexivity].
Qed.
Lemma joint_vel_eval (s : solver F) : s_eval (joint_vel_ad s) = s_eval s.
Proof. unfold joint_vel_ad. cbv zeta. destruct (x_le _ _); reflexivity. Qed.
Lemma joint_vel_cells (s : solver F) : s_cells (joint_vel_ad s) = s_cells s.
Proof. unfold joint_vel_ad. cbv zeta. destruct (x_le _ _); reflexivity. Qed.
Lemma rate_total c (s s' : solver F) : ik_solve_rate c s = Some s' ->
  Forall2 (fun x y => fst y = fst x /\ cell_reports c (snd x) (snd y)) (s_cells s) (s_cells s') /\ exists x, total c (s_cells s) x /\ s_eval s' = x_sqrt x.
Proof.
  unfold ik_solve_rate, ik_eq, obind. destruct (eq_cells c s _ _ _) as [r|] eqn:A; [|discriminate]. cbn [option_map].
  set (s1 := IK _ _ _ _ _ _ _ _ _ _ _ _ _). destruct (s_jidx (joint_vel_ad s1)); [|discriminate]. destruct (scatter _ _ _ _); [|discriminate]. cbn [option_map]. intros H; injection H as <-.
  cbn [s_cells s_eval s_set_vel]. rewrite joint_vel_eval, joint_vel_cells. cbn [s_eval s_cells s1]. apply eq_cells_total in A as [A1 (x & A2 & A3)]. split; [exact A1|].
  exists x. split; [exact A2|]. rewrite A3. f_equal. ring.
Qed.
Lemma comps_zero (e : vec3 F) : (forall ax, comp ax e = 0%num) -> e = v3zero.
Proof. intros H. destruct e as [x y z]. pose proof (H AX). pose proof (H AY). pose proof (H AZ). cbn in *. subst. reflexivity. Qed.
Lemma axes_nonneg axes (w e : vec3 F) : (forall ax, 0 < comp ax w)%num -> (0 <= axes_square axes w e)%num.
Proof.
  intros W. induction axes as [|ax l IH]; cbn [axes_square fold_right]; [apply nle_refl|]. fold (axes_square l w e).
  apply nle_0_add; [|exact IH]. apply nle_0_mul; [apply nlt_le, W|apply nle_0_sqr].
Qed.
Lemma axes_zero axes (w e : vec3 F) : (forall ax, 0 < comp ax w)%num -> axes_square axes w e = 0%num -> forall ax, In ax axes -> comp ax e = 0%num.
Proof.
  intros W. induction axes as [|ax l IH]; cbn [axes_square fold_right]; [easy|]. fold (axes_square l w e). intros H.
  apply nadd_nonneg_eq_0 in H as [H1 H2]; [|apply nle_0_mul; [apply nlt_le, W|apply nle_0_sqr]|now apply axes_nonneg].
  intros a [<-|Ha]; [|now apply IH]. apply nsqr_eq_0. apply nmul_eq_0 in H1 as [H1|H1]; [|exact H1]. pose proof (W ax) as P. rewrite H1 in P. now apply nlt_irrefl in P.
Qed.
Lemma whole_zero (w e : vec3 F) : (forall ax, 0 < comp ax w)%num -> (whole_square w e = 0%num <-> e = v3zero).
Proof.
  intros W. split; [|intros ->; unfold whole_square, axes_square; cbn; ring]. intros H. apply comps_zero. intros ax.
  apply (axes_zero _ w e W H). destruct ax; cbn; auto.
Qed.
Lemma total_nonneg c l x : positive_weights l -> total c l x -> (0 <= x)%num.
Proof.
  intros W T. induction T; [apply nle_refl|apply IHT; intros y ax Hy; apply W; now right|]. apply nle_0_add; [|apply IHT; intros y ax Hy; apply W; now right].
  apply axes_nonneg. intros ax. apply (W (a, ce)). now left.
Qed.
Lemma total_zero c l x : positive_weights l -> total c l x -> (x = 0%num <-> met c l).
Proof.
  intros W T. unfold met. induction T as [|a ce l x En T IH|a ce l x e En Er T IH].
  - split; [easy|reflexivity].
  - rewrite IH by (intros y ax Hy; apply W; now right). split; intros H y e Hy E1 E2; [destruct Hy as [<-|Hy]; [cbn [snd] in E1; congruence|eauto]|]. apply (H y); [now right|exact E1|exact E2].
  - assert (W' : positive_weights l) by (intros y ax Hy; apply W; now right).
    assert (Wc : forall ax, (0 < comp ax (a_w (ce_attr ce)))%num) by (intros ax; apply (W (a, ce)); now left).
    split.
    + intros H. apply nadd_nonneg_eq_0 in H as [H1 H2]; [|now apply axes_nonneg|now apply (total_nonneg c l)]. apply whole_zero in H1; [|exact Wc].
      intros y e' [<-|Hy] E1 E2; [cbn [snd] in E2; congruence|]. now apply (proj1 (IH W') H2 y).
    + intros H. assert (e = v3zero) as -> by (apply (H (a, ce)); [now left|exact En|exact Er]).
      assert (x = 0%num) as -> by (apply (IH W'); intros y e' Hy; apply (H y); now right). rewrite (proj2 (whole_zero _ _ Wc) eq_refl). ring.
Qed.

(** The error rkIKSolveRate leaves in the solver and in the enabled cells: weighted norms of the errors of the posture
    it was called in.  It vanishes exactly when no enabled cell has an error. *)
Theorem C79_rate : forall (c : chain F) (s s' : solver F), sqrt_zero -> positive_weights (s_cells s) -> ik_solve_rate c s = Some s' ->
  Forall2 (fun x y => fst y = fst x /\ cell_reports c (snd x) (snd y)) (s_cells s) (s_cells s') /\
  (exists x, total c (s_cells s) x /\ s_eval s' = x_sqrt x) /\ (s_eval s' = 0%num <-> met c (s_cells s)).
Proof.
  intros c s s' Z W H. destruct (rate_total c s s' H) as [A (x & B1 & B2)]. split; [exact A|]. split; [eauto|].
  rewrite B2, <- (total_zero c _ x W B1). apply Z. exact (total_nonneg c _ x W B1).
Qed.
(** rkIKSolveOne: the error is the one before the step. *)
Theorem C79_step : forall (c c' : chain F) (s s' : solver F) dis d' dt, sqrt_zero -> positive_weights (s_cells s) -> ik_solve_one c s dis dt = Some (c', s', d') ->
  (exists x, total c (s_cells s) x /\ s_eval s' = x_sqrt x) /\ (s_eval s' = 0%num <-> met c (s_cells s)).
Proof.
  intros c c' s s' dis d' dt Z W H. unfold ik_solve_one, obind in H. destruct (ik_solve_rate c s) as [s1|] eqn:A; [|discriminate].
  destruct (chain_cat_joint_dis_all c dis dt _); [|discriminate]. destruct (chain_set_joint_dis_all c _); [|discriminate]. destruct (chain_get_joint_dis_all _ _); [|discriminate].
  destruct (chain_update_fk _); [|discriminate]. injection H as _ <- _. apply (C79_rate c s s1 Z W A).
Qed.
End Thms.

(** ** Concrete cases *)
Lemma qsqrt_zero : @sqrt_zero Qc Num_Qc IKExt_Qc.
Proof. intros x _. reflexivity. Qed.
Definition weights_pos (l : list (nat * cell Qc)) : bool := forallb (fun x => forallb (fun ax => negb (nleb (comp ax (a_w (ce_attr (snd x)))) (qz 0))) [AX; AY; AZ]) l.
Lemma weights_pos_spec l : weights_pos l = true -> positive_weights l.
Proof.
  intros H x ax Hx. unfold weights_pos in H. rewrite forallb_forall in H. specialize (H x Hx). rewrite forallb_forall in H.
  specialize (H ax ltac:(destruct ax; cbn; auto)). apply negb_true_iff in H. exact H.
Qed.
Definition after (hist : list (op Qc)) : option (chain Qc * solver Qc * solver Qc) :=
  obind (run mech (ik_create mech) hist) (fun r => option_map (pair r) (ik_solve_rate (fst r) (snd r))).
Definition evals (r : chain Qc * solver Qc * solver Qc) : list (list Qc) := [[s_eval (snd r)]; map (fun x => ce_eval (snd x)) (s_cells (snd r))].
Definition after_pos (o : option (chain Qc * solver Qc * solver Qc)) : bool := match o with Some r => weights_pos (s_cells (snd (fst r))) | None => false end.
(** Two enabled cells and a disabled one; the square root of this instance is the identity. *)
(** Two enabled cells and a disabled one; the square root of this instance is the identity. *)
Example C79_ex : exists r, after rows_hist = Some r /\ evals r = zq [[41]; [39; 2; 0]]%Z.
Proof. apply (some_exq _ evals). vm_compute. reflexivity. Qed.
(** The hypotheses hold in this case. *)
Lemma after_inv hist r : after hist = Some r -> ik_solve_rate (fst (fst r)) (snd (fst r)) = Some (snd r).
Proof.
  unfold after. destruct (run mech (ik_create mech) hist) as [r0|]; [|discriminate]. cbn [obind]. destruct (ik_solve_rate (fst r0) (snd r0)) as [s'|] eqn:A; [|discriminate].
  intros H. injection H as <-. exact A.
Qed.
Lemma after_weights hist r : after hist = Some r -> after_pos (after hist) = true -> positive_weights (s_cells (snd (fst r))).
Proof. intros ->. apply weights_pos_spec. Qed.
Example C79_ex_theorem r : after rows_hist = Some r -> (s_eval (snd r) = qz 0 <-> met (fst (fst r)) (s_cells (snd (fst r)))).
Proof.
  intros H. apply (C79_rate (fst (fst r)) (snd (fst r)) (snd r) qsqrt_zero); [apply (after_weights _ _ H); vm_compute; reflexivity|exact (after_inv _ _ H)].
Qed.

(** A cell constrained along x only, without error along x: the reported error counts the other axes. *)
Definition xonly : list (op Qc) :=
  [MoveTo mdis; JReg 1 (qz 1); CReg 10 WldPos (at_ 4 0) full; CSetRef 10 (V3 (qz 3) (qz 0) (qz 0)); CSetMode 10 (Mode true false false false)].
Definition axis_errs (r : chain Qc * solver Qc * solver Qc) : list (list Qc) :=
  [[s_eval (snd r)]; map (fun x => match cell_err (fst (fst r)) (fst x) with Some e => comp (snd x) e | None => qz 1 end) (active (s_cells (snd (fst r))))].
Example C79_ex_xonly : exists r, after xonly = Some r /\ axis_errs r = zq [[59]; [0]]%Z.
Proof. apply (some_exq _ axis_errs). vm_compute. reflexivity. Qed.
Theorem C79_axes_refuted : ~ forall (c : chain Qc) (s s' : solver Qc), positive_weights (s_cells s) -> ik_solve_rate c s = Some s' ->
  axes_met c (s_cells s) -> s_eval s' = qz 0.
Proof.
  intros H. destruct C79_ex_xonly as (r & A & B). injection B as B1 B2.
  assert (K : s_eval (snd r) = qz 0).
  { apply (H (fst (fst r)) (snd (fst r)) (snd r)); [apply (after_weights _ _ A); vm_compute; reflexivity|exact (after_inv _ _ A)|].
    intros ce ax e Hin He. apply In_nth_error in Hin as (k & Hk).
    pose proof (map_nth_error (fun x => match cell_err (fst (fst r)) (fst x) with Some e => comp (snd x) e | None => qz 1 end) k _ Hk) as Q.
    rewrite B2 in Q. cbn [fst snd] in Q. rewrite He in Q. destruct k as [|k]; [|destruct k; discriminate Q]. injection Q as <-. reflexivity. }
  rewrite B1 in K. revert K. vm_compute. discriminate.
Qed.

Print Assumptions C79_rate.
Print Assumptions C79_step.
Print Assumptions C79_axes_refuted.
