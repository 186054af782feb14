(** * IK_R: the velocity constrained by an inverse kinematics cell and the rate of its error, over the reals (C66). *)
From Coq Require Import String List Reals Lra Lia.
From Verif Require Import Num NumFacts Vec VecFacts Motor_Model Joint_Model Joint_Spec Joint_Proofs Deriv ExtR Body_Model Body_R Joint_R.
From Verif Require Import Tree Tree_Proofs Link_Model Link_Spec Link_Proofs Link_Properties Kin_Spec Kin_Proofs Jacobi_Model Jacobi_Proofs Kin_R IK_Model IKRow_Properties.
Import ListNotations.
Local Open Scope R_scope.

(** [e s] is the error of the cell at time s, [q] the velocity its rows compute from the joint velocities at time t
    (IKRow_Properties, C48_rows_motion). *)
Definition error_of (P : R -> chain R) (ce : cell R) (e : R -> vec3 R) : Prop := forall s, cell_err (chain_calc_com (P s)) ce = Some (e s).
Definition velocity_at (P : R -> chain R) (t : R) (ce : cell R) (q : vec3 R) : Prop := cell_velocity (chain_calc_com (P t)) (P t) ce q.

Lemma point_rate g (C P : R -> chain R) t i p : moves g C P -> (forall k, (k < length (c_links (C t)))%nat -> rates_at C t k) ->
  (i < length (c_links (C t)))%nat -> D3 (fun s => point_pos (P s) i p) t (point_vel (P t) i p).
Proof.
  intros MV RT H. destruct (wf_lineage (c_links (C t)) i (proj1 (proj1 MV t)) H) as (tr & LG & _).
  apply (C36_velocity_is_derivative g C P t i tr p MV LG). intros k Hk. apply RT. eapply lineage_lt; eauto.
Qed.
Lemma link_point_pos (P : R -> chain R) s i l p : nth_error (c_links (P s)) i = Some l -> xform (l_frame l) p = point_pos (P s) i p.
Proof. intros H. unfold point_pos, frame_of. rewrite H. reflexivity. Qed.
Lemma link_point_world (P : R -> chain R) s i l p : nth_error (c_links (P s)) i = Some l -> world_pointvel l p = point_vel (P s) i p.
Proof.
  intros H. unfold point_vel, world_pointvel, link_point_vel. rewrite H. f_equal. apply v3add_comm.
Qed.
Lemma xform_origin (f : frame R) : xform f v3zero = fpos f.
Proof. destruct f as [p a]. unfold xform. vdestruct. rcomp. vsplit; ring. Qed.

(** A world position or COM cell: the velocity of its rows is the rate at which its error decreases.  Missing: the
    link-to-link position cell (the two theorems below), and the attitude cells, since the error of ZEO's attitude
    comparison is not interpreted. *)
Theorem C66_error_rate_partial g (C P : R -> chain R) t (ce : cell R) e q :
  moves g C P -> (forall k, (k < length (c_links (C t)))%nat -> rates_at C t k) -> ce_kind ce = WldPos \/ ce_kind ce = COM ->
  error_of P ce e -> velocity_at P t ce q -> D3 e t (v3opp q).
Proof.
  intros MV RT K Er Ve. unfold error_of, cell_err in Er. unfold velocity_at, cell_velocity in Ve. destruct K as [K|K]; rewrite K in *.
  - destruct Ve as (l & Hl & ->). set (i := a_id (ce_attr ce)) in *. set (p := a_ap (ce_attr ce)) in *. rewrite (link_point_world P t i l p Hl).
    assert (Li : (i < length (c_links (C t)))%nat). { rewrite <- (moves_len g C P MV t t). apply nth_error_Some. congruence. }
    apply D3_ext with (f := fun s => v3sub (ce_pos ce) (point_pos (P s) i p)).
    { intros s. specialize (Er s). cbn [c_links chain_calc_com] in Er. destruct (nth_error (c_links (P s)) i) as [ls|] eqn:Hs; [|discriminate].
      cbn in Er. injection Er as <-. rewrite (link_point_pos P s i ls p Hs). reflexivity. }
    eapply D3_eq; [apply D3_sub; [apply D3_const|apply (point_rate g C P t i p MV RT Li)]|]. generalize (point_vel (P t) i p). intros v. vdestruct. rcomp. vsplit; ring.
  - subst q. apply D3_ext with (f := fun s => v3sub (ce_pos ce) (c_wcom (chain_calc_com (P s)))). { intros s. specialize (Er s). injection Er as <-. reflexivity. }
    eapply D3_eq; [apply D3_sub; [apply D3_const|apply (C36_com_velocity g C P t MV RT)]|]. generalize (c_comvel (chain_calc_comvel (P t))). intros v. vdestruct. rcomp. vsplit; ring.
Qed.
(** The link-to-link position cell: the error changes also with the rotation of the first link, which the rows leave out. *)
Theorem C66_relative_error_rate g (C P : R -> chain R) t (ce : cell R) e q :
  moves g C P -> (forall k, (k < length (c_links (C t)))%nat -> rates_at C t k) -> ce_kind ce = L2LPos ->
  error_of P ce e -> velocity_at P t ce q ->
  let i := a_id (ce_attr ce) in let arm := v3sub (point_pos (P t) (a_sub (ce_attr ce)) (a_ap (ce_attr ce))) (fpos (frame_of (P t) i)) in
  D3 e t (v3opp (v3add q (v3cross (ang_vel (P t) i) arm))).
Proof.
  intros MV RT K Er Ve i arm. unfold error_of, cell_err in Er. unfold velocity_at, cell_velocity in Ve. rewrite K in *.
  destruct Ve as (l & ls & Hl & Hls & ->). fold i in Hl. set (j := a_sub (ce_attr ce)) in *. set (p := a_ap (ce_attr ce)) in *.
  assert (Li : (i < length (c_links (C t)))%nat). { rewrite <- (moves_len g C P MV t t). apply nth_error_Some. congruence. }
  assert (Lj : (j < length (c_links (C t)))%nat). { rewrite <- (moves_len g C P MV t t). apply nth_error_Some. congruence. }
  apply D3_ext with (f := fun s => v3sub (ce_pos ce) (v3sub (point_pos (P s) j p) (point_pos (P s) i v3zero))).
  { intros s. specialize (Er s). cbn [c_links chain_calc_com] in Er. fold i j p in Er. destruct (nth_error (c_links (P s)) j) as [l1|] eqn:H1; [|discriminate].
    destruct (nth_error (c_links (P s)) i) as [l2|] eqn:H2; [|discriminate]. cbn [obind] in Er. injection Er as <-.
    rewrite <- (link_point_pos P s j l1 p H1), <- (link_point_pos P s i l2 _ H2), xform_origin. reflexivity. }
  eapply D3_eq; [apply D3_sub; [apply D3_const|apply D3_sub; [apply (point_rate g C P t j p MV RT Lj)|apply (point_rate g C P t i v3zero MV RT Li)]]|].
  rewrite (link_point_world P t j ls p Hls). unfold world_vel_at. rewrite (link_point_world P t i l _ Hl).
  assert (RG : rigid (frame_of (P t) i)).
  { destruct (wf_lineage (c_links (C t)) i (proj1 (proj1 MV t)) Li) as (tr & LG & _).
    destruct (nth_error (c_links (C t)) i) as [l0|] eqn:H0; [|apply nth_error_None in H0; lia]. exact (frame_rigid g C P MV t i l0 tr H0 LG t). }
  unfold arm, ang_vel, vel_of. rewrite (link_point_pos P t j ls p Hls) in *. unfold frame_of in *. rewrite Hl in *. clear arm.
  assert (G : forall x, m3v (fatt (l_frame l)) (link_point_vel l (xforminv (l_frame l) x)) =
    v3add (v3cross (m3v (fatt (l_frame l)) (vang (l_vel l))) (v3sub x (fpos (l_frame l)))) (m3v (fatt (l_frame l)) (link_point_vel l v3zero))).
  { intros x. unfold link_point_vel, xforminv. rewrite v3cross_0_r, v3add_0_l, m3v_add_r, rot_cross, rot_v_tv by exact RG. reflexivity. }
  unfold point_vel. rewrite Hls, Hl, G.
  match goal with |- _ = v3opp (v3add (v3sub ?a (v3add ?b ?d)) _) => generalize a b d end. intros a b d. vdestruct. rcomp. vsplit; ring.
Qed.
Definition error_rate : Prop := forall g (C P : R -> chain R) t (ce : cell R) e q,
  moves g C P -> (forall k, (k < length (c_links (C t)))%nat -> rates_at C t k) -> ce_kind ce = L2LPos ->
  error_of P ce e -> velocity_at P t ce q -> D3 e t (v3opp q).
(** The origin of a turning link and another point of the same link: no relative velocity, but the error turns. *)
Definition turn_cell : cell R := Cell 0 L2LPos (Attr 0 0 (V3 1 0 0) (V3 1 1 1)) (Mode true true true false) v3zero m3id (Q4 0 0 0 0) 0.
Lemma turn_false g (C P : R -> chain R) : error_rate -> moves g C P -> (forall k, (k < length (c_links (C 0%R)))%nat -> rates_at C 0 k) ->
  (forall s, exists l, nth_error (c_links (P s)) 0 = Some l) ->
  vy (v3cross (ang_vel (P 0) 0) (v3sub (point_pos (P 0) 0 (V3 1 0 0)) (fpos (frame_of (P 0) 0)))) = 1 -> False.
Proof.
  intros H MV RT NX A. set (e := fun s => match cell_err (chain_calc_com (P s)) turn_cell with Some v => v | None => v3zero end).
  assert (Er : error_of P turn_cell e).
  { intros s. unfold e, cell_err. cbn [ce_kind turn_cell ce_attr a_sub a_id c_links chain_calc_com]. destruct (NX s) as (l & ->). reflexivity. }
  destruct (NX 0) as (l & Hl).
  assert (Ve : exists q, velocity_at P 0 turn_cell q). { unfold velocity_at, cell_velocity. cbn [ce_kind turn_cell ce_attr a_sub a_id]. eexists. exists l, l. eauto. }
  destruct Ve as (q & Ve).
  pose proof (H g C P 0 turn_cell e q MV RT eq_refl Er Ve) as D1.
  pose proof (C66_relative_error_rate g C P 0 turn_cell e q MV RT eq_refl Er Ve) as D2. cbv zeta in D2.
  pose proof (D3_uniq _ _ _ _ D1 D2) as U. apply (f_equal (fun v => vy v)) in U.
  cbn [turn_cell ce_attr a_sub a_id a_ap] in U. match type of U with vy (v3opp q) = vy (v3opp (v3add q ?x)) => change (- vy q = - (vy q + vy x)) in U end. rewrite A in U. lra.
Qed.
Definition Crv (s : R) : chain R := Chain [rlink (jset TRevol [sin s] [cos s] [- sin s]) fid 1 None None] 1 v3zero v3zero v3zero.
Lemma Crv_wf s : well_formed (c_links (Crv s)).
Proof. exists FNil. split; [|cbn; apply Permutation.Permutation_refl]. repeat (econstructor; try reflexivity). Qed.
Lemma Crv_moves : moves 10 Crv (fun s => run_rate 10 (Crv s)).
Proof.
  split; [|split].
  - intros s. split; [apply Crv_wf|]. split.
    + intros i l Hl. destruct i as [|i]; [injection Hl as <-; apply jset_made; eexists; reflexivity|]. destruct i; discriminate.
    + intros i l Hl. destruct i as [|i]; [injection Hl as <-; apply rotation_id|]. destruct i; discriminate.
  - intros s s'. split; [reflexivity|]. split; [reflexivity|]. intros i l l' Hl Hl'.
    destruct i as [|i]; [injection Hl as <-; injection Hl' as <-; repeat split|]. destruct i; discriminate.
  - intros s. destruct (run_rate_ok 10 (Crv s) (Crv_wf s)) as (c1 & A & B). eauto.
Qed.
Lemma Crv_rates k s : (k < 1)%nat -> rates_at Crv s k.
Proof.
  intros H. destruct k as [|k]; [|lia]. split; [intros; reflexivity|]. split; [reflexivity|].
  intros i Hi. cbn in Hi. assert (i = 0)%nat as -> by lia.
  apply D1_ext with (f := sin); [intros u; symmetry; exact (sin_phnorm u)|]. apply derivable_pt_lim_sin.
Qed.
Lemma Crv_turn : vy (v3cross (ang_vel (run_rate 10 (Crv 0)) 0) (v3sub (point_pos (run_rate 10 (Crv 0)) 0 (V3 1 0 0)) (fpos (frame_of (run_rate 10 (Crv 0)) 0)))) = 1.
Proof.
  set (j := jset TRevol [sin 0] [cos 0] [- sin 0]). set (Y := joint_xform j fid). set (V := joint_inc_vel j (xform6lin Y v6zero)).
  assert (WE : ang_vel (run_rate 10 (Crv 0)) 0 = m3v (fatt (fcascade fid Y)) (vang V)) by reflexivity.
  assert (PE : point_pos (run_rate 10 (Crv 0)) 0 (V3 1 0 0) = xform (fcascade fid Y) (V3 1 0 0)) by reflexivity.
  assert (FE : frame_of (run_rate 10 (Crv 0)) 0 = fcascade fid Y) by reflexivity.
  assert (JE : j = JRevol (RV (ax_acc (- sin 0) (ax_vel (cos 0) (ax_dis (rphnorm (sin 0)) (ax_dis (rphnorm 0) ax_init)))) (sin (rphnorm (sin 0))) (cos (rphnorm (sin 0))) motor_none_assigned)) by reflexivity.
  assert (P0 : rphnorm (sin 0) = 0) by (rewrite sin_phnorm; apply sin_0).
  rewrite WE, PE, FE. unfold V, Y. rewrite JE, P0, cos_0, sin_0. cbn [joint_xform joint_inc_vel rv_a rv_s rv_c]. unfold xform6lin, rotz_att. rcomp. cbn. ring.
Qed.
Theorem C66_relative_cell_refuted : ~ error_rate.
Proof.
  intros H. apply (turn_false 10 Crv (fun s => run_rate 10 (Crv s)) H Crv_moves); [intros k Hk; apply Crv_rates; exact Hk| |exact Crv_turn].
  intros s. apply (moves_at 10 Crv (fun s => run_rate 10 (Crv s)) s 0%nat [0%nat] Crv_moves). eapply lineage_root; reflexivity.
Qed.
(** The hypotheses hold for a point of the last link of the mechanism of C36. *)
Definition hand_cell : cell R := Cell 0 WldPos (Attr 2 0 (V3 1 0 0) (V3 1 1 1)) (Mode true true true false) v3zero m3id (Q4 0 0 0 0) 0.
Lemma hand_rate g (C P : R -> chain R) t : moves g C P -> (forall k, (k < length (c_links (C t)))%nat -> rates_at C t k) ->
  (forall s, exists l, nth_error (c_links (P s)) 2 = Some l) -> exists e q, error_of P hand_cell e /\ velocity_at P t hand_cell q /\ D3 e t (v3opp q).
Proof.
  intros MV RT NX. set (e := fun s => match cell_err (chain_calc_com (P s)) hand_cell with Some v => v | None => v3zero end).
  assert (Er : error_of P hand_cell e). { intros s. unfold e, cell_err. cbn [ce_kind hand_cell ce_attr a_sub a_id c_links chain_calc_com]. destruct (NX s) as (l & ->). reflexivity. }
  destruct (NX t) as (l & Hl). exists e, (world_pointvel l (V3 1 0 0)).
  assert (Ve : velocity_at P t hand_cell (world_pointvel l (V3 1 0 0))) by (exists l; split; [exact Hl|reflexivity]).
  split; [exact Er|]. split; [exact Ve|]. apply (C66_error_rate_partial g C P t hand_cell e _ MV RT); auto.
Qed.
Example C66_ex t : exists e q, error_of (fun s => run_rate 10 (Cex s)) hand_cell e /\ velocity_at (fun s => run_rate 10 (Cex s)) t hand_cell q /\ D3 e t (v3opp q).
Proof.
  apply (hand_rate 10 Cex (fun s => run_rate 10 (Cex s)) t Cex_moves); [intros k Hk; apply Cex_rates; exact Hk|].
  intros s. apply (moves_at 10 Cex (fun s => run_rate 10 (Cex s)) s 2%nat [2; 1; 0]%nat Cex_moves (Cex_lineage s)).
Qed.

Print Assumptions C66_error_rate_partial.
Print Assumptions C66_relative_error_rate.
Print Assumptions C66_relative_cell_refuted.

