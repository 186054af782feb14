(** * Body_R: theorem C21 over the real numbers. *)

From Coq Require Import List String Reals Lra.
From Verif Require Import Num NumFacts Vec VecFacts Body_Model Body_Proofs Deriv.
Import ListNotations.
Local Open Scope R_scope.

(** A body with mass property [m] moving with frame X, twist v and acceleration a, after rkBodyUpdateCOM
    and rkBodyUpdateCOMRate. *)
Definition moving (m : mp R) (X : R -> frame R) (v a : R -> vec6 R) (s : R) : body R :=
  body_update_comrate (body_update_com (Body m (X s) (v s) (a s) v3zero v3zero v3zero [] [] None)).

Section M.
Variables (m : mp R) (X : R -> frame R) (v a : R -> vec6 R) (t : R).
Hypothesis RX : forall s, rigid (X s).
Hypothesis TX : has_twist X t (v t).
Hypothesis AX : has_acc X v t (a t).
Let B := moving m X v a.

Lemma com_motion : D3 (fun s => b_wcom (B s)) t (m3v (fatt (X t)) (b_comvel (B t))).
Proof. apply (twist_point X t (v t) (mp_com m) TX). Qed.
Lemma comvel_motion : D3 (fun s => m3v (fatt (X s)) (b_comvel (B s))) t (m3v (fatt (X t)) (b_comacc (B t))).
Proof.
  destruct (acc_comp X t v (a t) RX TX AX) as [Dv Dw].
  eapply D3_eq.
  - apply (twist_vec X t (v t)); [exact TX|].
    apply (D3_add (fun s => vlin (v s)) (fun s => v3cross (vang (v s)) (mp_com m))); [exact Dv|].
    apply D3_cross; [exact Dw | apply D3_const].
  - f_equal. unfold B, moving. cbn.
    generalize (vlin (v t)) (vang (v t)) (mp_com m) (vlin (a t)) (vang (a t)).
    intros. vdestruct. rcomp. vsplit; ring.
Qed.
Lemma D3_m3v_const (k : mat3 R) f d : D3 f t d -> D3 (fun s => m3v k (f s)) t (m3v k d).
Proof.
  intros H. eapply D3_eq; [apply (D3_mv (fun _ => k)); [apply DM_const | exact H]|].
  rewrite m3v_zero_l. apply v3add_0_l.
Qed.
Lemma am_motion : D3 (fun s => m3v (fatt (X s)) (m3v (mp_inertia m) (vang (v s)))) t
  (m3v (fatt (X t)) (vang (body_net_wrench (B t)))).
Proof.
  destruct (acc_comp X t v (a t) RX TX AX) as [Dv Dw].
  eapply D3_eq; [apply (twist_vec X t (v t)); [exact TX|]; apply D3_m3v_const; exact Dw|].
  reflexivity.
Qed.
Lemma ke_motion : sym3 (mp_inertia m) ->
  D1 (fun s => body_ke (B s)) t
     (v3dot (vlin (body_net_wrench (B t))) (b_comvel (B t)) + v3dot (vang (body_net_wrench (B t))) (vang (v t))).
Proof.
  intros S. destruct (acc_comp X t v (a t) RX TX AX) as [Dv Dw].
  assert (C := twist_comp X t (v t) (fun s => b_comvel (B s)) (b_comacc (B t)) RX TX comvel_motion).
  cbv beta in C.
  set (I := mp_inertia m). set (u := fun s => b_comvel (B s)) in *.
  assert (K : D1 (fun s => (v3dot (vang (v s)) (m3v I (vang (v s))) + mp_mass m * v3dot (u s) (u s)) * (1/2)) t
    (((v3dot (vang (a t)) (m3v I (vang (v t))) + v3dot (vang (v t)) (m3v I (vang (a t))))
      + mp_mass m * (v3dot (v3sub (b_comacc (B t)) (v3cross (vang (v t)) (u t))) (u t)
                     + v3dot (u t) (v3sub (b_comacc (B t)) (v3cross (vang (v t)) (u t))))) * (1/2))).
  { eapply D1_eq.
    - apply (D1_mul (fun s => v3dot (vang (v s)) (m3v I (vang (v s))) + mp_mass m * v3dot (u s) (u s)) (fun _ => 1/2)); [|apply D1_const].
      apply (D1_add (fun s => v3dot (vang (v s)) (m3v I (vang (v s))))).
      + apply D1_dot; [exact Dw | apply D3_m3v_const; exact Dw].
      + apply (D1_mul (fun _ => mp_mass m)); [apply D1_const | apply D1_dot; exact C].
    - cbv beta. change (b_comvel (B t)) with (u t). ring. }
  eapply D1_eq; [exact K|].
  change (body_net_wrench (B t)) with
    (V6 (v3scale (mp_mass m) (b_comacc (B t))) (v3add (v3cross (vang (v t)) (m3v I (vang (v t)))) (m3v I (vang (a t))))).
  cbn [vlin vang]. change (b_comvel (B t)) with (u t).
  rewrite (v3dot_comm (v3sub _ _) (u t)), v3dot_sub_r, v3dot_cross_self_r, v3dot_scale_l, v3dot_add_l.
  rewrite (v3dot_comm (v3cross _ _) (vang (v t))), v3dot_cross_self_l, (v3dot_comm (b_comacc _) (u t)), (v3dot_comm (m3v I (vang (a t)))).
  replace (v3dot (vang (a t)) (m3v I (vang (v t)))) with (v3dot (vang (v t)) (m3v I (vang (a t)))).
  - cbn [n0 n1 nadd nmul nsub nopp Num_R]. field.
  - rewrite v3dot_m3v, m3tv_tr. unfold sym3 in S. fold I in S. rewrite S. apply v3dot_comm.
Qed.
End M.

(** C21: along any motion whose stored twist and acceleration are the derivatives of the frame,
    the stored COM velocity and acceleration are the derivatives of the COM position, the net wrench is the
    derivative of linear and angular momentum, and its power is the derivative of the kinetic energy. *)
Theorem C21_com_rates (m : mp R) (X : R -> frame R) (v a : R -> vec6 R) t :
  (forall s, rigid (X s)) -> has_twist X t (v t) -> has_acc X v t (a t) ->
  D3 (fun s => b_wcom (moving m X v a s)) t (m3v (fatt (X t)) (b_comvel (moving m X v a t))) /\
  D3 (fun s => m3v (fatt (X s)) (b_comvel (moving m X v a s))) t (m3v (fatt (X t)) (b_comacc (moving m X v a t))).
Proof. intros. split; [now apply com_motion | now apply comvel_motion]. Qed.
Theorem C21_net_wrench_is_momentum_rate (m : mp R) (X : R -> frame R) (v a : R -> vec6 R) t :
  (forall s, rigid (X s)) -> has_twist X t (v t) -> has_acc X v t (a t) ->
  D3 (fun s => v3scale (mp_mass m) (m3v (fatt (X s)) (b_comvel (moving m X v a s)))) t
     (m3v (fatt (X t)) (vlin (body_net_wrench (moving m X v a t)))) /\
  D3 (fun s => m3v (fatt (X s)) (body_am (moving m X v a s) (mp_com m))) t
     (m3v (fatt (X t)) (vang (body_net_wrench (moving m X v a t)))).
Proof.
  intros RX TX AX. split.
  - eapply D3_eq; [apply (D3_scale (fun _ => mp_mass m)); [apply D1_const | now apply comvel_motion]|].
    match goal with |- context [v3scale 0 ?x] => change (v3scale 0 x) with (v3scale (n0 : R) x) end.
    rewrite v3scale_0_l, v3add_0_l. change (vlin (body_net_wrench (moving m X v a t))) with
      (v3scale (mp_mass m) (b_comacc (moving m X v a t))). now rewrite m3v_scale_r.
  - eapply D3_ext; [|now apply (am_motion m X v a t)]. intros s. cbv beta. f_equal. unfold body_am.
    change (mp_com (b_mp (moving m X v a s))) with (mp_com m). rewrite v3sub_diag, v3cross_0_l, v3scale_0_r, v3add_0_l. reflexivity.
Qed.
Theorem C21_power_is_energy_rate (m : mp R) (X : R -> frame R) (v a : R -> vec6 R) t :
  (forall s, rigid (X s)) -> has_twist X t (v t) -> has_acc X v t (a t) -> sym3 (mp_inertia m) ->
  D1 (fun s => body_ke (moving m X v a s)) t
     (v6dot (body_net_wrench (moving m X v a t)) (V6 (b_comvel (moving m X v a t)) (vang (b_vel (moving m X v a t))))).
Proof. intros RX TX AX S. exact (ke_motion m X v a t RX TX AX S). Qed.

(** A concrete motion: rotation about z at angle s^2/2 (rate s, acceleration 1) with fixed origin. *)
Definition Xex (s : R) : frame R :=
  let q := s * s / 2 in Fr v3zero (m3create (cos q) (- sin q) 0 (sin q) (cos q) 0 0 0 1).
Definition vex (s : R) : vec6 R := V6 v3zero (V3 0 0 s).
Definition aex (s : R) : vec6 R := V6 v3zero (V3 0 0 1).
Lemma half_sq t : D1 (fun s => s * s / 2) t t.
Proof. eapply D1_eq; [apply (D1_mul (fun s => s * s) (fun _ => / 2)); [apply (D1_mul (fun s => s)); apply derivable_pt_lim_id | apply D1_const]|]. cbv beta. field. Qed.
Lemma D1_id t : D1 (fun s => s) t 1. Proof. apply derivable_pt_lim_id. Qed.
Example C21_ex t : (forall s, rigid (Xex s)) /\ has_twist Xex t (vex t) /\ has_acc Xex vex t (aex t).
Proof.
  assert (H := half_sq t). assert (J := D1_id t).
  split; [|split].
  - intros s. unfold rigid, rotation, Xex. cbn [fatt]. rcomp. assert (G := sin2_cos2 (s * s / 2)). unfold Rsqr in G.
    split; [vsplit|]; try ring; (etransitivity; [|exact G]; ring).
  - split.
    + repeat split; unfold Xex, vex; rcomp; (dsolve; cbv beta; ring).
    + repeat split; unfold Xex, vex; rcomp; (dsolve; cbv beta; ring).
  - split; repeat split; unfold Xex, vex, aex; rcomp; (dsolve; cbv beta; ring).
Qed.

Print Assumptions C21_com_rates.
Print Assumptions C21_net_wrench_is_momentum_rate.
Print Assumptions C21_power_is_energy_rate.
