(** * Seq_Grav: what gravity adds to the accelerations of inverse dynamics. *)
From Coq Require Import Bool String List Arith Lia Field.
From Verif Require Import Num NumFacts Vec VecFacts Motor_Model Joint_Model Joint_Spec Joint_Proofs Body_Model Tree Tree_Proofs
  Link_Model Link_Spec Link_Proofs Chain_Proofs Link_Properties Chain_Properties Kin_Spec Kin_Proofs Kin_Properties Jacobi_Proofs IK_Usable Ztk_Model Ztk_Proofs Ztk_Chain Urdf_Proofs Cad_Model Seq_Model Seq_Spec Seq_Proofs Seq_Step.
Import ListNotations.

Section Grav.
Context {F : Type} {N : Num F} {L : NumLaws F N} {E : Ext F} {X : ExtLaws F N E}.
Add Field FFieldSgr : num_field.
Local Open Scope num_scope.
Notation lk := (link F).
Local Ltac vring := intros; vdestruct; vunfold; vsplit; ring.

(** Frames as an update leaves them. *)
Definition posed_tree (h : list lk) : Prop := forall i l, nth_error h i = Some l ->
  match l_parent l with
  | None => l_frame l = fcascade fid (l_adj l)
  | Some q => exists lq, nth_error h q = Some lq /\ l_frame l = fcascade (l_frame lq) (l_adj l)
  end.
Lemma frame_pass_posed (h h1 : list lk) : processed_down upd_frame l_frame fid h h1 -> posed_tree h1.
Proof.
  intros [LE D] i l1 H1. destruct (nth_error h i) as [l|] eqn:Hl; [|apply nth_error_None in Hl; pose proof (nth_lt _ _ _ H1); lia].
  destruct (D i l Hl) as (p & Hp & Q). assert (l1 = upd_frame l p) by congruence. subst l1. cbn [l_parent upd_frame l_set_body l_set_adj]. destruct (l_parent l) as [q|]; [|destruct Q as [_ ->]; reflexivity].
  destruct Q as (lq & Hq & ->). exists lq. split; [exact Hq|reflexivity].
Qed.
Lemma inc_shift (j : joint F) w a d : joint_inc_acc j (joint_inc_acc_on_vel j w (v6add a d)) = v6add (joint_inc_acc j (joint_inc_acc_on_vel j w a)) d.
Proof.
  destruct j as [|r|p|cy|hk|s|f|f ef et]; cbn [joint_inc_acc joint_inc_acc_on_vel]; unfold add_ang, n2; try reflexivity.
  - generalize (a_vel (rv_a r)) (a_acc (rv_a r)). vring.
  - generalize (a_vel (pr_a p)) (a_acc (pr_a p)). vring.
  - generalize (a_vel (cy_0 cy)) (a_vel (cy_1 cy)) (a_acc (cy_0 cy)) (a_acc (cy_1 cy)). vring.
  - generalize (hooke_vec hk (a_vel (hk_0 hk)) (a_vel (hk_1 hk))) (hooke_vec hk (a_acc (hk_0 hk)) (a_acc (hk_1 hk))) (a_vel (hk_0 hk)) (a_vel (hk_1 hk)) (hk_c1 hk) (hk_s1 hk). vring.
  - generalize (m3tv (sp_att s) (sp_vel s)) (m3tv (sp_att s) (sp_acc s)). vring.
  - generalize (m3tv6 (fl_att f) (fl_vel f)) (m3tv6 (fl_att f) (fl_acc f)). vring.
  - generalize (m3tv6 (fl_att f) (fl_vel f)) (m3tv6 (fl_att f) (fl_acc f)). vring.
Qed.
Lemma rate_shift (l : lk) pv pa G : let l' := upd_rate l (pv, v6add pa (V6 G v3zero)) in let l0 := upd_rate l (pv, pa) in let R := m3tv (fatt (l_adj l)) G in
  l_vel l' = l_vel l0 /\ l_acc l' = v6add (l_acc l0) (V6 R v3zero) /\ b_comacc (l_body l') = v3add (b_comacc (l_body l0)) R.
Proof.
  cbv zeta. assert (A : l_acc (upd_rate l (pv, v6add pa (V6 G v3zero))) = v6add (l_acc (upd_rate l (pv, pa))) (V6 (m3tv (fatt (l_adj l)) G) v3zero)).
  { unfold upd_rate, upd_acc, upd_vel, l_acc, l_vel. cbn. rewrite <- inc_shift. f_equal. f_equal. generalize (fatt (l_adj l)) (fpos (l_adj l)). vring. }
  split; [reflexivity|]. split; [exact A|]. unfold upd_rate, upd_acc, upd_vel, l_acc, l_vel in A |- *. cbn in A |- *. unfold body_update_comacc. cbn. rewrite A.
  match goal with |- context [v6add ?x (V6 (m3tv ?m G) _)] => generalize x (m3tv m G) end. generalize (mp_com (b_mp (l_body l))). generalize (joint_inc_vel (l_joint l) (xform6lin (l_adj l) pv)). vring.
Qed.
Lemma m3tv_mul' (a b : mat3 F) v : m3tv (m3mul a b) v = m3tv b (m3tv a v). Proof. vring. Qed.
Lemma pass_shift g (h hg h0 : list lk) : well_formed h -> posed_tree h ->
  processed_down upd_rate (fun l => (l_vel l, l_acc l)) (v6zero, grav g) h hg -> processed_down upd_rate (fun l => (l_vel l, l_acc l)) (v6zero, grav 0) h h0 ->
  forall i l lg l0, nth_error h i = Some l -> nth_error hg i = Some lg -> nth_error h0 i = Some l0 ->
    l_vel lg = l_vel l0 /\ l_acc lg = v6add (l_acc l0) (V6 (m3tv (fatt (l_frame l)) (V3 0 0 g)) v3zero) /\ b_comacc (l_body lg) = v3add (b_comacc (l_body l0)) (m3tv (fatt (l_frame l)) (V3 0 0 g)).
Proof.
  intros W PT [LG DG] [L0 D0] i l lg l0 Hl Hg H0. destruct (wf_lineage h i W (nth_lt _ _ _ Hl)) as (t & T & _). revert l lg l0 Hl Hg H0.
  induction T as [i lx HX PX|i lx q t HX PX T IH]; intros l lg l0 Hl Hg H0; assert (lx = l) by congruence; subst lx;
    destruct (DG i l Hl) as (pg & Hpg & QG); destruct (D0 i l Hl) as (p0 & Hp0 & Q0); assert (lg = upd_rate l pg) by congruence; assert (l0 = upd_rate l p0) by congruence; subst lg l0;
    pose proof (PT i l Hl) as PF; rewrite PX in PF, QG, Q0.
  - destruct QG as [_ ->], Q0 as [_ ->]. rewrite PF, fcascade_id_l. replace (grav g) with (v6add (grav 0) (V6 (V3 0 0 g) v3zero)) by (unfold grav; vring). apply rate_shift.
  - destruct QG as (qg & Hqg & ->), Q0 as (q0 & Hq0 & ->). destruct PF as (lq & Hq & PF). destruct (IH lq qg q0 Hq Hqg Hq0) as (A & B & _). rewrite A, B, PF. change (fatt (fcascade (l_frame lq) (l_adj l))) with (m3mul (fatt (l_frame lq)) (fatt (l_adj l))). rewrite m3tv_mul'. apply rate_shift.
Qed.
Definition pushed (G : vec3 F) (a b : lk) : Prop := l_mass a = l_mass b /\ l_frame a = l_frame b /\ rotation (fatt (l_frame b)) /\
  b_comacc (l_body a) = v3add (b_comacc (l_body b)) (m3tv (fatt (l_frame b)) G).
Lemma com_push M G (hg h0 : list lk) : M <> 0 -> Forall2 (pushed G) hg h0 -> forall z s m, v3scale (m / M) G = s ->
  fold_left (fun p l => v3cat p (l_mass l / M) (m3v (fatt (l_frame l)) (b_comacc (l_body l)))) hg (v3add z s) =
  v3add (fold_left (fun p l => v3cat p (l_mass l / M) (m3v (fatt (l_frame l)) (b_comacc (l_body l)))) h0 z) (v3scale (fold_left (fun m l => m + l_mass l) h0 m / M) G).
Proof.
  intros NM. induction 1 as [|a b hg h0 (A1 & A2 & A3 & A4) _ IH]; intros z s m HS; cbn [fold_left]; [now rewrite HS|].
  rewrite A1, A2, A4. rewrite <- (IH _ (v3add s (v3scale (l_mass b / M) G)) (m + l_mass b)).
  - f_equal. rewrite m3v_add_r. replace (m3v (fatt (l_frame b)) (m3tv (fatt (l_frame b)) G)) with G by (transitivity (m3v (m3mul (fatt (l_frame b)) (m3tr (fatt (l_frame b)))) G); [rewrite (rotation_mul_tr _ A3), m3v_id; reflexivity|generalize (fatt (l_frame b)); clear -L; vring]). generalize (m3v (fatt (l_frame b)) (b_comacc (l_body b))). clear -L. vring.
  - rewrite <- HS. clear -L NM. destruct G. unfold v3scale, v3add. cbn. f_equal; field; exact NM.
Qed.
Lemma grav_com g (c cg c0 : chain F) : well_formed (c_links c) -> posed_tree (c_links c) -> (forall i l, nth_error (c_links c) i = Some l -> rotation (fatt (l_frame l))) ->
  c_mass c = fold_left (fun m l => m + l_mass l) (c_links c) 0 -> c_mass c <> 0 ->
  chain_update_id g c = Some cg -> chain_update_id 0 c = Some c0 -> c_comacc cg = v3add (c_comacc c0) (V3 0 0 g).
Proof.
  intros W PT RO MS NM A B.
  destruct (C24_rate_pass g c W) as (x & QA & PA & WA). destruct (C24_rate_pass 0 c W) as (y & QB & PB & WB). destruct (C24_wrench_pass x WA) as (xw & QX & [LX PX] & WX). destruct (C24_wrench_pass y WB) as (yw & QY & [LY PY] & WY).
  unfold chain_update_id, obind in A, B. rewrite QA, QX in A. rewrite QB, QY in B. cbn [option_map] in A, B. injection A as <-. injection B as <-.
  assert (MX : c_mass xw = c_mass c /\ c_mass yw = c_mass c).
  { clear -QA QB QX QY. unfold chain_update_rate, chain_update_wrench, chain_lift in *. destruct (update_rate (c_fuel c) (c_links c) 0 (v6zero, grav g)); [|discriminate]. destruct (update_rate (c_fuel c) (c_links c) 0 (v6zero, grav 0)); [|discriminate].
    injection QA as <-. injection QB as <-. destruct (update_wrench _ _ _) in QX; [|discriminate]. destruct (update_wrench _ _ _) in QY; [|discriminate]. injection QX as <-. injection QY as <-. split; reflexivity. }
  destruct MX as [M1 M2]. cbn [c_comacc chain_calc_comacc chain_calc_comvel c_links c_mass]. rewrite M1, M2.
  pose proof PA as [LA DA]. pose proof PB as [LB DB].
  assert (P : Forall2 (pushed (V3 0 0 g)) (c_links xw) (c_links yw) /\ Forall2 (fun a b : lk => l_mass a = l_mass b) (c_links yw) (c_links c)).
  { assert (ALL : forall i a b, nth_error (c_links xw) i = Some a -> nth_error (c_links yw) i = Some b -> pushed (V3 0 0 g) a b /\ exists l, nth_error (c_links c) i = Some l /\ l_mass b = l_mass l).
    { intros i a b Ha Hb. destruct (nth_error (c_links c) i) as [l|] eqn:Hl; [|apply nth_error_None in Hl; pose proof (nth_lt _ _ _ Ha); lia].
      destruct (DA i l Hl) as (pa & Hpa & _). destruct (DB i l Hl) as (pb & Hpb & _). destruct (PX i _ Hpa) as (cs & ls & _ & _ & Hq). destruct (PY i _ Hpb) as (cs' & ls' & _ & _ & Hq').
      assert (a = wr_post (wr_pre (upd_rate l pa)) ls) by congruence. assert (b = wr_post (wr_pre (upd_rate l pb)) ls') by congruence. subst a b.
      destruct (pass_shift g (c_links c) (c_links x) (c_links y) W PT PA PB i l _ _ Hl Hpa Hpb) as (_ & _ & CA). split; [|exists l; split; reflexivity].
      split; [reflexivity|]. split; [reflexivity|]. split; [exact (RO i l Hl)|exact CA]. }
    split; apply forall2_of_nth; [lia| |lia|].
    - intros i a b Ha Hb. apply (ALL i a b Ha Hb).
    - intros i b l Hb Hl. destruct (nth_error (c_links xw) i) as [a|] eqn:Ha; [|apply nth_error_None in Ha; pose proof (nth_lt _ _ _ Hb); lia]. destruct (ALL i a b Ha Hb) as (_ & l' & Hl' & Q). congruence. }
  destruct P as [P PM]. replace v3zero with (v3add v3zero (v3scale (0 / c_mass c) (V3 0 0 g))) at 1 by (clear -L NM; unfold v3scale, v3add, v3zero; cbn; f_equal; field; exact NM).
  rewrite (com_push (c_mass c) (V3 0 0 g) _ _ NM P v3zero _ 0 eq_refl). f_equal.
  rewrite (fold_rel (fun a b => l_mass a = l_mass b) (fun m l => m + l_mass l) (c_links yw) (c_links c)); [|intros z a b Q; now rewrite Q|exact PM]. rewrite <- MS. clear -L NM. unfold v3scale. cbn. f_equal; field; exact NM.
Qed.
Lemma posed_rel (h h1 : list lk) : Forall2 (fun l l' => l_parent l' = l_parent l /\ l_frame l' = l_frame l /\ l_adj l' = l_adj l) h h1 -> posed_tree h -> posed_tree h1.
Proof.
  intros R P i l1 H1. pose proof (forall2_len _ _ _ R) as LL. destruct (nth_error h i) as [l|] eqn:Hl; [|apply nth_error_None in Hl; pose proof (nth_lt _ _ _ H1); lia].
  destruct (Forall2_nth _ _ _ R i l Hl) as (l1' & H1' & A & B & D). assert (l1' = l1) by congruence. subst l1'. specialize (P i l Hl). rewrite A, B, D. destruct (l_parent l) as [q|]; [|exact P].
  destruct P as (lq & Hq & Q). destruct (Forall2_nth _ _ _ R q lq Hq) as (lq' & Hq' & _ & B' & _). exists lq'. split; [exact Hq'|]. now rewrite B'.
Qed.
Lemma id_gravity (c c1 c2 : chain F) g v w a : usable c -> c_mass c = fold_left (fun m l => m + l_mass l) (c_links c) 0 -> c_mass c <> 0 ->
  length v = chain_joint_size c -> length w = chain_joint_size c -> length a = chain_joint_size c ->
  chain_fk c v = Some c1 -> chain_id g c1 w a = Some c2 -> exists c3, chain_id 0 c1 w a = Some c3 /\ v3sub (c_comacc c2) (V3 0 0 g) = c_comacc c3.
Proof.
  intros U MS NM LV LW LA HF HI. destruct (fk_step c U c v (near_c0 c U) LV) as (c' & d & Q1 & _ & _ & _ & NC & _). replace c' with c1 in NC by congruence. clear c' Q1 d.
  destruct (near_set c U joint_set_dis v c set_dis_ok (near_c0 c U) LV) as (k & A0 & B0 & W0).
  destruct (near_set c U joint_set_vel w c1 set_vel_ok NC LW) as (e1 & E1 & F1 & WE1). assert (NE1 : near c (c_set_links e1 c1)) by (eapply near_base; [exact NC|apply set_vel_base|exact F1|exact WE1]).
  destruct (near_set c U joint_set_acc a (c_set_links e1 c1) set_acc_ok NE1 LA) as (e2 & E2 & F2 & WE2). cbn [c_links c_set_links] in E2, F2.
  unfold chain_id, chain_set_joint_rate_all in HI |- *. rewrite set_rate_all_split, E1 in HI |- *. cbn [obind] in HI |- *. rewrite E2 in HI |- *. cbn [option_map obind] in HI |- *.
  destruct (proj2 (C24_fk_id_total 0 (c_set_links e2 c1) WE2)) as (c3 & Q3 & _). exists c3. split; [exact Q3|].
  assert (SC : chain_set_joint_dis_all c v = Some (c_set_links k c)) by (unfold chain_set_joint_dis_all; rewrite A0; reflexivity).
  destruct (usable_set_dis c (c_set_links k c) v U LV SC) as [(WK & _ & JK & OK) _].
  unfold chain_fk in HF. rewrite SC in HF. cbn [obind] in HF. unfold chain_update_fk in HF. destruct (C24_frame_pass (c_set_links k c) WK) as (f & QF & PF & WF). rewrite QF in HF. cbn [option_map] in HF.
  assert (LK : c_links c1 = c_links f /\ c_mass c1 = c_mass c) by (injection HF as <-; cbn; split; [reflexivity|]; clear -QF; unfold chain_update_frame, chain_lift in QF; destruct (update_frame _ _ _ _); [injection QF as <-; reflexivity|discriminate]).
  destruct LK as [LK MK].
  assert (KR : Forall2 (fun l l' : lk => l_parent l' = l_parent l /\ l_frame l' = l_frame l /\ l_adj l' = l_adj l) (c_links f) e2 /\ Forall2 (fun l l' : lk => l_mass l = l_mass l') (c_links f) e2).
  { rewrite <- LK. assert (XS : forall set u (l l' : lk), set_rel set u l l' -> l_parent l' = l_parent l /\ l_frame l' = l_frame l /\ l_adj l' = l_adj l /\ l_mass l = l_mass l') by (intros set u l l' H; unfold set_rel in H; destruct (l_offset l); [destruct H as (j & _ & ->)|subst l']; repeat split).
    split.
    - eapply (F2_trans (fun l l' : lk => l_parent l' = l_parent l /\ l_frame l' = l_frame l /\ l_adj l' = l_adj l)); [intros p q r (? & ? & ?) (? & ? & ?); repeat split; congruence| |]; [eapply F2_mono; [|exact F1]|eapply F2_mono; [|exact F2]]; intros p q H; destruct (XS _ _ _ _ H) as (? & ? & ? & ?); auto.
    - eapply (F2_trans (fun l l' : lk => l_mass l = l_mass l')); [intros; congruence| |]; [eapply F2_mono; [|exact F1]|eapply F2_mono; [|exact F2]]; intros p q H; destruct (XS _ _ _ _ H) as (? & ? & ? & ?); auto. }
  destruct KR as [KR KM]. assert (PT : posed_tree e2) by (eapply posed_rel; [exact KR|eapply frame_pass_posed; exact PF]).
  rewrite (grav_com g (c_set_links e2 c1) c2 c3 WE2 PT); [generalize (c_comacc c3); clear -L; vring| | | |exact HI|exact Q3].
  - intros i l Hl. cbn in Hl. pose proof (forall2_len _ _ _ KR) as LL. destruct (nth_error (c_links f) i) as [lf|] eqn:Hf; [|apply nth_error_None in Hf; pose proof (nth_lt _ _ _ Hl); lia].
    destruct (Forall2_nth _ _ _ KR i lf Hf) as (l' & Hl' & _ & B & _). assert (l' = l) by congruence. subst l'. rewrite B. exact (proj2 (C31_frames_rigid (c_set_links k c) f i lf WK JK OK QF Hf)).
  - cbn [c_mass c_links c_set_links]. rewrite MK, MS. rewrite <- (fold_rel (fun a b => l_mass a = l_mass b) (fun m l => m + l_mass l) (c_links f) e2); [|intros z p q Q; now rewrite Q|exact KM].
    pose proof PF as [LP DP]. cbn [c_links c_set_links] in LP, DP. pose proof (forall2_len _ _ _ B0) as LB. apply (fold_rel (fun a b => l_mass a = l_mass b)); [intros z p q Q; now rewrite Q|]. apply forall2_of_nth; [lia|].
    intros i p q Hp Hq. destruct (Forall2_nth _ _ _ B0 i p Hp) as (p' & Hp' & S). destruct (DP i p' Hp') as (fr & Hfr & _). assert (q = upd_frame p' fr) by congruence. subst q.
    transitivity (l_mass p'); [|reflexivity]. clear -S. unfold set_rel in S. destruct (l_offset p); [destruct S as (j & _ & ->)|subst p']; reflexivity.
  - cbn. now rewrite MK.
Qed.
End Grav.
