(** * Imp_R: impedance references of the inverse kinematics solver, over the reals (C80). *)
From Coq Require Import String List Reals Lra Lia.
From Verif Require Import Num NumFacts Vec VecFacts Motor_Model Joint_Model Joint_Spec Joint_Proofs Deriv ExtR Body_Model Body_R Joint_R.
From Verif Require Import Tree Tree_Proofs Link_Model Link_Spec Link_Proofs Link_Properties Kin_Spec Kin_Proofs Jacobi_Model Jacobi_Proofs Kin_R IK_Model IKRow_Properties IK_R.
Import ListNotations.
Local Open Scope R_scope.

(** On every axis, the velocity [r] asked for exceeds the present velocity [v] by what a spring of stiffness k stretched by
    [e] and a damper of coefficient c moved with [v] give. *)
Definition spring_damper (p : imp R) (e v r : vec3 R) : Prop :=
  forall ax, comp ax r - comp ax v = comp ax (i_k p) * comp ax e - comp ax (i_c p) * comp ax v.
Lemma imp_srv_spring p e v : spring_damper p e v (imp_srv e v p).
Proof. intros ax. unfold imp_srv, v3amp, v3add, v3sub. destruct ax; cbn; ring. Qed.

(** rkIKImpWldPos along a motion: [v] is the derivative of the position of the attention point in the world. *)
Theorem C80_position g (C P : R -> chain R) t (a : cattr R) (p : imp R) ref r :
  moves g C P -> (forall k, (k < length (c_links (C t)))%nat -> rates_at C t k) -> imp_wld_pos (P t) a p ref = Some r ->
  exists v, D3 (fun s => point_pos (P s) (a_id a) (a_ap a)) t v /\ spring_damper p (v3sub ref (point_pos (P t) (a_id a) (a_ap a))) v r.
Proof.
  intros MV RT H. unfold imp_wld_pos in H. destruct (nth_error (c_links (P t)) (a_id a)) as [l|] eqn:Hl; [|discriminate]. cbn [obind] in H. injection H as <-.
  assert (Li : (a_id a < length (c_links (C t)))%nat). { rewrite <- (moves_len g C P MV t t). apply nth_error_Some. congruence. }
  exists (point_vel (P t) (a_id a) (a_ap a)). split; [exact (point_rate g C P t (a_id a) (a_ap a) MV RT Li)|].
  rewrite <- (link_point_pos P t (a_id a) l (a_ap a) Hl). unfold point_vel. rewrite Hl. apply imp_srv_spring.
Qed.
(** rkIKImpWldAtt: [v] is the angular velocity with which the attitude turns, and the error is zMat3DError's. *)
Theorem C80_attitude g (C P : R -> chain R) t (a : cattr R) (p : imp R) ref r :
  moves g C P -> (forall k, (k < length (c_links (C t)))%nat -> rates_at C t k) -> imp_wld_att (P t) a p ref = Some r ->
  exists v, DM (fun s => fatt (frame_of (P s) (a_id a))) t (m3mul (m3skew v) (fatt (frame_of (P t) (a_id a)))) /\
    spring_damper p (x_m3err ref (fatt (frame_of (P t) (a_id a)))) v r.
Proof.
  intros MV RT H. unfold imp_wld_att in H. destruct (nth_error (c_links (P t)) (a_id a)) as [l|] eqn:Hl; [|discriminate]. cbn [obind] in H. injection H as <-.
  assert (Li : (a_id a < length (c_links (C t)))%nat). { rewrite <- (moves_len g C P MV t t). apply nth_error_Some. congruence. }
  destruct (wf_lineage (c_links (C t)) (a_id a) (proj1 (proj1 MV t)) Li) as (tr & LG & _).
  exists (ang_vel (P t) (a_id a)). split.
  - apply (C36_velocity_is_derivative g C P t (a_id a) tr v3zero MV LG). intros k Hk. apply RT. eapply lineage_lt; eauto.
  - unfold ang_vel, frame_of, vel_of. rewrite Hl. apply imp_srv_spring.
Qed.
(** rkIKImpWldCOM, after rkChainCalcCOM and rkChainCalcCOMVel. *)
Theorem C80_com g (C P : R -> chain R) t (p : imp R) ref :
  moves g C P -> (forall k, (k < length (c_links (C t)))%nat -> rates_at C t k) ->
  exists v, D3 (fun s => c_wcom (chain_calc_com (P s))) t v /\
    spring_damper p (v3sub ref (c_wcom (chain_calc_com (P t)))) v (imp_wld_com (chain_calc_comvel (chain_calc_com (P t))) p ref).
Proof.
  intros MV RT. exists (c_comvel (chain_calc_comvel (P t))). split; [exact (C36_com_velocity g C P t MV RT)|].
  unfold imp_wld_com. replace (c_comvel (chain_calc_comvel (chain_calc_com (P t)))) with (c_comvel (chain_calc_comvel (P t))) by reflexivity.
  replace (c_wcom (chain_calc_comvel (chain_calc_com (P t)))) with (c_wcom (chain_calc_com (P t))) by reflexivity. apply imp_srv_spring.
Qed.

(** The hypotheses hold for the hand of the mechanism of C36. *)
Example C80_ex t : let P := fun s => run_rate 10 (Cex s) in let p := Imp (V3 10 10 10) (V3 (1/10) (1/10) (1/10)) in
  exists r v, imp_wld_pos (P t) (Attr 2 0 (V3 1 0 0) (V3 1 1 1)) p (V3 1 2 3) = Some r /\ D3 (fun s => point_pos (P s) 2 (V3 1 0 0)) t v /\
  spring_damper p (v3sub (V3 1 2 3) (point_pos (P t) 2 (V3 1 0 0))) v r.
Proof.
  intros P p. assert (Hr : exists r, imp_wld_pos (P t) (Attr 2 0 (V3 1 0 0) (V3 1 1 1)) p (V3 1 2 3) = Some r).
  { destruct (moves_at 10 Cex P t 2%nat [2; 1; 0]%nat Cex_moves (Cex_lineage t) t) as (l & Hl). unfold imp_wld_pos. cbn [a_id]. rewrite Hl. eexists. reflexivity. }
  destruct Hr as (r & Hr). destruct (C80_position 10 Cex P t _ p _ r Cex_moves (fun k Hk => Cex_rates k t Hk) Hr) as (v & A & B). exists r, v. auto.
Qed.

Print Assumptions C80_position.
Print Assumptions C80_attitude.
Print Assumptions C80_com.
