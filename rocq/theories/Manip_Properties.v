(** * Manip_Properties: the measure of manipulability vanishes where a direction is lost (C100). *)
From Coq Require Import String ZArith QArith Qcanon List Arith Lia Bool Field.
From Coq Require Rdefinitions R_sqrt RIneq.
From Verif Require Import Conf_Q Num NumFacts Vec VecFacts Motor_Model Joint_Model Joint_Spec Body_Model Body_Proofs Tree Link_Model Link_Spec Link_Proofs Chain_Proofs Link_Properties Chain_Properties Kin_Spec Kin_Proofs Jacobi_Model Jacobi_Proofs Kin_Properties
  Manip_Model ExtR ExtQ.
Import ListNotations.

Section Manip.
Context {F : Type} {N : Num F} {L : NumLaws F N}.
Local Ltac vring := intros; vdestruct; vunfold; vsplit; ring.
Add Field FFieldMan : num_field.
Local Open Scope num_scope.
Definition lost (J : list (vec3 F)) (y : vec3 F) : Prop := forall c, In c J -> v3dot y c = 0.
(** A square root as far as needed. *)
Definition root_ok (sqrt : F -> F) : Prop := forall x, 0 <= x -> (0 <= sqrt x /\ (sqrt x = 0 <-> x = 0)).

(** The matrix of cofactors, and the quadratic forms. *)
Definition cof (m : mat3 F) : mat3 F := M3 (v3cross (mc1 m) (mc2 m)) (v3cross (mc2 m) (mc0 m)) (v3cross (mc0 m) (mc1 m)).
Definition quad (m : mat3 F) (u : vec3 F) : F := v3dot u (m3v m u).
Definition sym (m : mat3 F) : Prop := m3tr m = m.
Notation G := mul_mat_matt.
Lemma G_sym J : sym (G J).
Proof.
  induction J as [|c J IH]; [reflexivity|]. unfold sym in *. cbn [mul_mat_matt fold_right]. fold (G J).
  transitivity (m3add (m3tr (m3dyad c c)) (m3tr (G J))); [generalize (G J); clear -L; vring|]. rewrite IH. f_equal. clear -L. vring.
Qed.
Lemma quad_cons c J u : quad (G (c :: J)) u = v3dot u c * v3dot u c + quad (G J) u.
Proof. cbn [mul_mat_matt fold_right]. fold (G J). unfold quad. generalize (G J). clear -L. vring. Qed.
Lemma quad_nonneg J u : 0 <= quad (G J) u.
Proof.
  induction J as [|c J IH]; [replace (quad (G []) u) with (0 : F) by (clear -L; unfold quad; change (G []) with (m3zero (F := F)); vring); apply nle_refl|]. rewrite quad_cons. apply nle_0_add; [apply nle_0_sqr|exact IH].
Qed.
Lemma quad_zero J u : quad (G J) u = 0 -> lost J u.
Proof.
  induction J as [|c J IH]; intros H x []; rewrite quad_cons in H; apply nadd_nonneg_eq_0 in H; try apply nle_0_sqr; try apply quad_nonneg.
  - subst x. apply nsqr_eq_0, H.
  - now apply IH.
Qed.
Lemma sym_form m : sym m -> exists a b c d e f, m = M3 (V3 a b c) (V3 b d e) (V3 c e f).
Proof. destruct m as [[a1 a2 a3] [b1 b2 b3] [c1 c2 c3]]. unfold sym, m3tr. cbn. intros H. injection H as H1 H2 H3 H4 H5 H6. subst. repeat eexists. Qed.
Lemma cof_cons c J u : quad (cof (G (c :: J))) u = quad (cof (G J)) u + quad (G J) (v3cross c u).
Proof.
  cbn [mul_mat_matt fold_right]. fold (G J). destruct (sym_form _ (G_sym J)) as (a1 & a2 & a3 & a4 & a5 & a6 & ->). clear -L. unfold quad, cof. vring.
Qed.
Lemma cof_nonneg J u : 0 <= quad (cof (G J)) u.
Proof.
  induction J as [|c J IH]; [replace (quad (cof (G [])) u) with (0 : F) by (clear -L; unfold quad, cof; change (G []) with (m3zero (F := F)); vring); apply nle_refl|]. rewrite cof_cons. apply nle_0_add; [exact IH|apply quad_nonneg].
Qed.
Lemma cof_zero J u : quad (cof (G J)) u = 0 -> forall b c, In b J -> In c J -> v3dot u (v3cross b c) = 0.
Proof.
  induction J as [|d J IH]; intros H b c; [intros []|]. rewrite cof_cons in H. apply nadd_nonneg_eq_0 in H; [|apply cof_nonneg|apply quad_nonneg]. destruct H as [H1 H2]. apply quad_zero in H2.
  intros [<-|Hb] [<-|Hc].
  - clear -L. vring.
  - specialize (H2 c Hc). transitivity (- v3dot (v3cross d u) c); [clear -L; vring|rewrite H2; ring].
  - specialize (H2 b Hb). transitivity (v3dot (v3cross d u) b); [clear -L; vring|exact H2].
  - now apply IH.
Qed.
Lemma det_cons c J : m3det (G (c :: J)) = m3det (G J) + quad (cof (G J)) c.
Proof. cbn [mul_mat_matt fold_right]. fold (G J). destruct (sym_form _ (G_sym J)) as (a1 & a2 & a3 & a4 & a5 & a6 & ->). clear -L. unfold quad, cof. vring. Qed.
Lemma det_nonneg J : 0 <= m3det (G J).
Proof. induction J as [|c J IH]; [replace (m3det (G [])) with (0 : F) by (clear -L; change (G []) with (m3zero (F := F)); vring); apply nle_refl|]. rewrite det_cons. apply nle_0_add; [exact IH|apply cof_nonneg]. Qed.
Definition triple (a b c : vec3 F) : F := v3dot a (v3cross b c).
Lemma det_zero J : m3det (G J) = 0 -> forall a b c, In a J -> In b J -> In c J -> triple a b c = 0.
Proof.
  induction J as [|d J IH]; intros H a b c; [intros []|]. rewrite det_cons in H. apply nadd_nonneg_eq_0 in H; [|apply det_nonneg|apply cof_nonneg]. destruct H as [H1 H2].
  pose proof (cof_zero _ _ H2) as H3. unfold triple in *.
  intros [<-|Ha] [<-|Hb] [<-|Hc]; try (clear -L; vring).
  - now apply H3.
  - transitivity (v3dot d (v3cross c a)); [clear -L; vring|now apply H3].
  - transitivity (v3dot d (v3cross a b)); [clear -L; vring|now apply H3].
  - now apply IH.
Qed.

Lemma zero_dec (a : vec3 F) : a = v3zero \/ a <> v3zero.
Proof.
  destruct (nle_or_lt (v3sqr a) 0) as [H|H].
  - left. apply v3sqr_0. apply nle_antisym; [exact H|apply v3sqr_nonneg].
  - right. intros ->. apply nlt_neq in H. apply H. clear -L. vring.
Qed.
Lemma some_or_all {A} (P : A -> Prop) (l : list A) : (forall a, P a \/ ~ P a) -> (exists a, In a l /\ P a) \/ (forall a, In a l -> ~ P a).
Proof.
  intros D. induction l as [|a l IH]; [right; intros ? []|]. destruct (D a) as [H|H]; [left; exists a; cbn; auto|]. destruct IH as [(b & B1 & B2)|IH]; [left; exists b; cbn; auto|].
  right. intros b [<-|Hb]; auto.
Qed.
Lemma perp (a : vec3 F) : exists y, y <> v3zero /\ v3dot y a = 0.
Proof.
  destruct a as [x y z]. destruct (nle_or_lt (x * x) 0) as [H|H].
  - exists ex. split; [intros Q; apply (f_equal (@vx F)) in Q; exact (n1_neq_0 Q)|]. assert (x = 0) by (apply nsqr_eq_0, nle_antisym; [exact H|apply nle_0_sqr]). subst x. unfold v3dot, ex. cbn [vx vy vz]. ring.
  - exists (V3 (- y) x 0). split; [|unfold v3dot; cbn [vx vy vz]; ring]. intros Q. apply (f_equal (@vy F)) in Q. cbn in Q. apply nlt_neq in H. apply H. rewrite Q. ring.
Qed.
Lemma parallel (a c y : vec3 F) : a <> v3zero -> v3cross a c = v3zero -> v3dot y a = 0 -> v3dot y c = 0.
Proof.
  intros NZ C Y. assert (Q : v3sqr a * v3dot y c = v3dot y a * v3dot a c + v3dot y (v3cross (v3cross a c) a)) by (clear -L; unfold v3sqr; vring). rewrite C, Y in Q.
  replace (0 * v3dot a c + v3dot y (v3cross v3zero a)) with (0 : F) in Q by (clear -L; vring). apply nmul_eq_0 in Q. destruct Q as [Q|Q]; [apply v3sqr_0 in Q; contradiction|exact Q].
Qed.
Lemma flat J : (forall a b c, In a J -> In b J -> In c J -> triple a b c = 0) -> exists y, y <> v3zero /\ lost J y.
Proof.
  intros H. destruct (some_or_all (fun a => a <> v3zero) J) as [(a & Ha & NZ)|AZ].
  { intros a. destruct (zero_dec a) as [->|K]; [right; intros K; now apply K|now left]. }
  - destruct (some_or_all (fun b => v3cross a b <> v3zero) J) as [(b & Hb & NC)|AP].
    { intros b. destruct (zero_dec (v3cross a b)) as [->|K]; [right; intros K; now apply K|now left]. }
    + exists (v3cross a b). split; [exact NC|]. intros c Hc. transitivity (triple c a b); [unfold triple; clear -L; vring|now apply H].
    + destruct (perp a) as (y & Y1 & Y2). exists y. split; [exact Y1|]. intros c Hc. apply (parallel a c y NZ); [|exact Y2]. destruct (zero_dec (v3cross a c)) as [K|K]; [exact K|now destruct (AP c Hc)].
  - destruct (perp v3zero) as (y & Y1 & _). exists y. split; [exact Y1|]. intros c Hc. destruct (zero_dec c) as [->|K]; [clear -L; vring|now destruct (AZ c Hc)].
Qed.
Lemma lost_mul J y : lost J y -> m3v (G J) y = v3zero.
Proof.
  induction J as [|c J IH]; intros H; [change (G []) with (m3zero (F := F)); clear -L; vring|]. cbn [mul_mat_matt fold_right]. fold (G J).
  transitivity (v3add (v3scale (v3dot y c) c) (m3v (G J) y)); [generalize (G J); clear -L; vring|]. rewrite IH by (intros x Hx; apply H; now right). rewrite (H c (or_introl eq_refl)). clear -L. vring.
Qed.
Lemma det_times (m : mat3 F) y : m3v m y = v3zero -> v3scale (m3det m) y = v3zero.
Proof.
  intros H. transitivity (V3 (v3dot (m3v m y) (v3cross (mc1 m) (mc2 m))) (v3dot (m3v m y) (v3cross (mc2 m) (mc0 m))) (v3dot (m3v m y) (v3cross (mc0 m) (mc1 m)))); [clear -L; vring|]. rewrite H. clear -L. vring.
Qed.
Lemma scale_zero k (y : vec3 F) : y <> v3zero -> v3scale k y = v3zero -> k = 0.
Proof.
  intros NZ H. destruct (nle_or_lt (k * k) 0) as [K|K]; [apply nsqr_eq_0, nle_antisym; [exact K|apply nle_0_sqr]|]. exfalso. apply NZ. apply v3sqr_0. assert (Q : (k * k) * v3sqr y = 0).
  { transitivity (v3sqr (v3scale k y)); [clear -L; unfold v3sqr; vring|]. rewrite H. clear -L. unfold v3sqr. vring. }
  apply nmul_eq_0 in Q. destruct Q as [Q|Q]; [apply nlt_neq in K; now destruct K|exact Q].
Qed.
(** The measure is no less than zero, and zero exactly if there is a direction that no column has a component in. *)
Theorem C100_zero : forall sqrt J, root_ok sqrt -> 0 <= jacobi_manip sqrt J /\ (jacobi_manip sqrt J = 0 <-> exists y, y <> v3zero /\ lost J y).
Proof.
  intros sqrt J S. destruct (S _ (det_nonneg J)) as [S1 S2]. split; [exact S1|]. unfold jacobi_manip. rewrite S2. split.
  - intros H. apply flat. now apply det_zero.
  - intros (y & NZ & H). apply (scale_zero _ y NZ). now apply det_times, lost_mul.
Qed.
(** Of three columns it is the volume they span; a further column does not lower it; rotation of all columns does not change it. *)
Theorem C100_volume : forall sqrt a b c, jacobi_manip sqrt [a; b; c] = sqrt (triple a b c * triple a b c).
Proof. intros. unfold jacobi_manip. f_equal. unfold triple. cbn [mul_mat_matt fold_right]. clear -L. vring. Qed.
Lemma nle_more x y : 0 <= y -> x <= x + y.
Proof. intros H. apply nle_sub_iff. now replace (x + y - x) with y by ring. Qed.
Theorem C100_more : forall sqrt J K c, (forall x y, x <= y -> sqrt x <= sqrt y) -> jacobi_manip sqrt (J ++ K) <= jacobi_manip sqrt (J ++ c :: K).
Proof.
  intros sqrt J K c M. apply M. apply (proj1 (A := m3det (G (J ++ K)) <= m3det (G (J ++ c :: K))) (B := forall u, quad (cof (G (J ++ K))) u <= quad (cof (G (J ++ c :: K))) u /\ quad (G (J ++ K)) u <= quad (G (J ++ c :: K)) u)).
  induction J as [|d J IH]; cbn [app].
  - split; [rewrite det_cons; apply nle_more, cof_nonneg|]. intros u. rewrite cof_cons, quad_cons. split; [apply nle_more, quad_nonneg|]. replace (v3dot u c * v3dot u c + quad (G K) u) with (quad (G K) u + v3dot u c * v3dot u c) by ring. apply nle_more, nle_0_sqr.
  - destruct IH as [I1 I2]. rewrite !det_cons. split; [apply nle_add2; [exact I1|apply I2]|]. intros u. rewrite !cof_cons, !quad_cons. split; apply nle_add2; try apply I2. apply nle_refl.
Qed.
Lemma quad_rot (r : mat3 F) J u : rotation r -> quad (G (map (m3v r) J)) (m3v r u) = quad (G J) u.
Proof.
  intros R. induction J as [|c J IH]; [change (G (map (m3v r) [])) with (m3zero (F := F)); change (G []) with (m3zero (F := F)); clear -L; unfold quad; vring|]. cbn [map]. rewrite !quad_cons, IH, rot_dot by exact R. reflexivity.
Qed.
Lemma cof_rot (r : mat3 F) J u : rotation r -> quad (cof (G (map (m3v r) J))) (m3v r u) = quad (cof (G J)) u.
Proof.
  intros R. induction J as [|c J IH]; [change (G (map (m3v r) [])) with (m3zero (F := F)); change (G []) with (m3zero (F := F)); clear -L; unfold quad, cof; vring|]. cbn [map].
  rewrite !cof_cons, IH. rewrite <- rot_cross by exact R. now rewrite quad_rot.
Qed.
Theorem C100_rotated : forall sqrt (r : mat3 F) J, rotation r -> jacobi_manip sqrt (map (m3v r) J) = jacobi_manip sqrt J.
Proof.
  intros sqrt r J R. unfold jacobi_manip. f_equal. induction J as [|c J IH]; [reflexivity|]. cbn [map]. rewrite !det_cons, IH. f_equal. now apply cof_rot.
Qed.

(** ** Chains *)
Context {E : Ext F} {X : ExtLaws F N E}.
Lemma jmul_dot J : forall v y, lost J y -> v3dot y (jmul J v) = 0.
Proof.
  induction J as [|c J IH]; intros [|q v] y H; cbn [jmul]; try (clear -L; vring). transitivity (q * v3dot y c + v3dot y (jmul J v)); [generalize (jmul J v); clear -L; vring|].
  rewrite (H c (or_introl eq_refl)), IH by (intros x Hx; apply H; now right). ring.
Qed.
Lemma jmul_zeros J : forall n, jmul J (repeat 0 n) = v3zero.
Proof. induction J as [|c J IH]; intros [|n]; cbn [jmul repeat]; try reflexivity. rewrite IH. clear -L. vring. Qed.
Lemma unit_rates J : forall c, In c J -> exists v, length v = length J /\ jmul J v = c.
Proof.
  induction J as [|d J IH]; intros c; [intros []|]. intros [<-|H].
  - exists (1 :: repeat 0 (length J)). cbn [length jmul]. rewrite repeat_length, jmul_zeros. split; [reflexivity|]. clear -L. vring.
  - destruct (IH c H) as (v & V1 & V2). exists (0 :: v). cbn [length jmul]. rewrite V1, V2. split; [reflexivity|]. clear -L. vring.
Qed.
(** A Jacobian whose product with the rates is the velocity in question. *)
Lemma manip_lost sqrt J n (vel : list F -> vec3 F -> Prop) : root_ok sqrt -> length J = n -> (forall v, length v = n -> vel v (jmul J v)) -> (forall v a b, vel v a -> vel v b -> a = b) ->
  (jacobi_manip sqrt J = 0 <-> exists y, y <> v3zero /\ forall v u, length v = n -> vel v u -> v3dot y u = 0).
Proof.
  intros S LJ H1 H2. rewrite (proj2 (C100_zero sqrt J S)). split; intros (y & NZ & H); exists y; (split; [exact NZ|]).
  - intros v u LV V. rewrite (H2 v u _ V (H1 v LV)). now apply jmul_dot.
  - intros c Hc. destruct (unit_rates J c Hc) as (v & V1 & V2). rewrite <- V2. apply (H v); [congruence|]. apply H1. congruence.
Qed.
Definition rates_to (g : F) (c c1 : chain F) (i : nat) (see : link F -> vec3 F) (v : list F) (u : vec3 F) : Prop := exists c3 l, motion g c v c1 c3 /\ nth_error (c_links c3) i = Some l /\ u = see l.
Lemma geom_len (h k : list (link F)) : geom h k -> length k = length h.
Proof. intros H. induction H; cbn; congruence. Qed.
Lemma motion_frame g (c c1 c1' c3 : chain F) v : chain_update_frame c = Some c1 -> motion g c v c1' c3 -> c1' = c1.
Proof. intros A (B & _). congruence. Qed.
Lemma manip_chain sqrt g (c c1 : chain F) i see (jac : option (list (vec3 F))) : root_ok sqrt -> usable c -> chain_update_frame c = Some c1 -> (i < length (c_links c))%nat ->
  (forall v c3 l, length v = chain_joint_size c -> motion g c v c1 c3 -> nth_error (c_links c3) i = Some l -> exists J, jac = Some J /\ length J = chain_joint_size c /\ jmul J v = see l) ->
  exists J, jac = Some J /\ (jacobi_manip sqrt J = 0 <-> exists y, y <> v3zero /\ forall v u, length v = chain_joint_size c -> rates_to g c c1 i see v u -> v3dot y u = 0).
Proof.
  intros S U A Hi H. assert (RT : forall v, length v = chain_joint_size c -> exists c3 l, motion g c v c1 c3 /\ nth_error (c_links c3) i = Some l).
  { intros v LV. destruct (C32_motion_exists g c v U LV) as (c1' & c3 & M). pose proof (motion_frame _ _ _ _ _ _ A M) as ->. exists c3. destruct (motion_state g c c1 c3 v U LV M) as (G0 & _).
    destruct (C24_frame_pass c (proj1 U)) as (c1' & A' & P & _). assert (c1' = c1) by congruence. subst c1'.
    destruct (nth_error (c_links c3) i) as [l|] eqn:Q; [eauto|]. apply nth_error_None in Q. rewrite (geom_len _ _ G0), (proj1 P) in Q. lia. }
  destruct (RT (repeat 0 (chain_joint_size c)) (repeat_length _ _)) as (c0 & l0 & M0 & N0). destruct (H _ _ _ (repeat_length _ _) M0 N0) as (J & J1 & J2 & _). exists J. split; [exact J1|].
  assert (HU : forall v u, length v = chain_joint_size c -> rates_to g c c1 i see v u -> u = jmul J v).
  { intros v u LV (c3 & l & M & Hl & ->). destruct (H v c3 l LV M Hl) as (J' & Q1 & _ & Q2). replace J with J' by congruence. now symmetry. }
  rewrite (manip_lost sqrt J (chain_joint_size c) (fun v u => length v = chain_joint_size c /\ rates_to g c c1 i see v u) S J2).
  - split; intros (y & NZ & K); exists y; (split; [exact NZ|]); intros v u LV; [intros R; apply (K v u LV); auto|intros [_ R]; now apply (K v u LV)].
  - intros v LV. split; [exact LV|]. destruct (RT v LV) as (c3 & l & M & Hl). exists c3, l. split; [exact M|]. split; [exact Hl|]. destruct (H v c3 l LV M Hl) as (J' & Q1 & _ & Q2). congruence.
  - intros v a b [LV R1] [_ R2]. rewrite (HU v a LV R1). symmetry. now apply HU.
Qed.
(** The measure of the Jacobian of a point of a link vanishes exactly if there is a direction of the world in which no joint
    rates move the point; likewise that of the angular Jacobian and turning of the link. *)
Theorem C100_point : forall sqrt g (c c1 : chain F) i p m, root_ok sqrt -> usable c -> chain_update_frame c = Some c1 -> (i < length (c_links c))%nat -> length m = chain_joint_size c ->
  exists J, wld_lin_jacobi c1 i p m = Some J /\
    (jacobi_manip sqrt J = 0 <-> exists y, y <> v3zero /\ forall v u, length v = chain_joint_size c -> rates_to g c c1 i (fun l => world_pointvel l p) v u -> v3dot y u = 0).
Proof.
  intros sqrt g c c1 i p m S U A Hi LM. apply (manip_chain sqrt g c c1 i _ _ S U A Hi). intros v c3 l LV M Hl.
  destruct (C32_linear g c c1 c3 v m i l p U LV LM M Hl) as (J & B1 & B2 & B3). exists J. rewrite B2. auto.
Qed.
Theorem C100_turn : forall sqrt g (c c1 : chain F) i m, root_ok sqrt -> usable c -> chain_update_frame c = Some c1 -> (i < length (c_links c))%nat -> length m = chain_joint_size c ->
  exists J, wld_ang_jacobi c1 i m = Some J /\
    (jacobi_manip sqrt J = 0 <-> exists y, y <> v3zero /\ forall v u, length v = chain_joint_size c -> rates_to g c c1 i world_angvel v u -> v3dot y u = 0).
Proof.
  intros sqrt g c c1 i m S U A Hi LM. apply (manip_chain sqrt g c c1 i _ _ S U A Hi). intros v c3 l LV M Hl.
  destruct (C32_angular g c c1 c3 v m i l U LV LM M Hl) as (J & B1 & B2 & B3). exists J. rewrite B2. auto.
Qed.
End Manip.

(** *** Square roots *)
Lemma root_R : root_ok R_sqrt.sqrt.
Proof.
  intros x H. apply rnle in H. split; [apply rnle, R_sqrt.sqrt_pos|]. split; intros Q; [apply R_sqrt.sqrt_eq_0; assumption|]. change (@n0 _ Num_R) with Rdefinitions.R0 in *. rewrite Q. exact R_sqrt.sqrt_0.
Qed.
Lemma root_Q : root_ok qsqrt.
Proof.
  intros q H. apply Qcleb_true in H. unfold qsqrt. destruct q as [[n d] K]. cbn [this Qnum Qden]. assert (HN : (0 <= n)%Z) by (unfold Qcle, Qle in H; cbn in H; lia). pose proof (Z.sqrt_nonneg n) as SN.
  assert (Z1 : forall a b, Q2Qc (a # b) = 0%Qc <-> a = 0%Z).
  { intros a b. split; intros Q.
    - apply Q2Qc_eq_iff in Q. unfold Qeq in Q. cbn in Q. lia.
    - apply Q2Qc_eq_iff. unfold Qeq. cbn. lia. }
  split; [apply Qcleb_true; unfold Qcle; cbn [this Q2Qc]; rewrite Qred_correct; unfold Qle; cbn; lia|]. rewrite (Z1 (Z.sqrt n)). split; intros Q.
  - assert (Hn : n = 0%Z) by (destruct (Z.sqrt_spec n HN) as [_ S2]; rewrite Q in S2; lia). apply Qc_is_canon. unfold Qeq. cbn. lia.
  - apply (f_equal this) in Q. cbn in Q. injection Q as -> _. reflexivity.
Qed.

(** *** Examples *)
Lemma some_inj {A} (a b : A) : Some a = Some b -> a = b.
Proof. congruence. Qed.
(** One hinge: the point cannot leave its circle; its velocities have no vertical component. *)
Definition hinge : chain Qc := chain_set_offset (Chain [Link "h" (jn TRevol) body_init None fid fid v6zero None None None] (qz 1) v3zero v3zero v3zero).
Lemma hinge_usable : usable hinge.
Proof.
  split; [|split; [reflexivity|split]].
  - apply (C23_complete_tree (c_links hinge) []); [|constructor|cbn; lia|cbn; lia| |reflexivity].
    + intros [|i] l H; [cbn in H; injection H as <-; repeat split|destruct i; discriminate].
    + intros k H. cbn in H. cbn. lia.
  - intros [|i] l H; [cbn in H; injection H as <-; exact (jn_made TRevol)|destruct i; discriminate].
  - intros [|i] l H; [cbn in H; injection H as <-; apply rotation_id|destruct i; discriminate].
Qed.
Definition measure (c : chain Qc) (i : nat) (p : vec3 Qc) (n : nat) : option Qc := obind (chain_update_frame c) (fun c1 => option_map (jacobi_manip qsqrt) (wld_lin_jacobi c1 i p (repeat v3zero n))).
Lemma hinge_measure : measure hinge 0 (V3 (qz 1) (qz 0) (qz 0)) 1 = Some (qz 0).
Proof. vm_compute. reflexivity. Qed.
Example C100_ex_hinge : exists c1 y, chain_update_frame hinge = Some c1 /\ y <> v3zero /\ forall v u, length v = 1%nat -> rates_to (qz 10) hinge c1 0 (fun l => world_pointvel l (V3 (qz 1) (qz 0) (qz 0))) v u -> v3dot y u = qz 0.
Proof.
  destruct (C24_frame_pass _ (proj1 hinge_usable)) as (c1 & A & _). exists c1. pose proof hinge_measure as H. unfold measure in H. rewrite A in H. cbn [obind] in H.
  destruct (C100_point qsqrt (qz 10) hinge c1 0 (V3 (qz 1) (qz 0) (qz 0)) (repeat v3zero 1) root_Q hinge_usable A (le_n 1) eq_refl) as (J & B1 & B2). rewrite B1 in H. cbn [option_map] in H. apply some_inj in H.
  destruct (proj1 B2 H) as (y & Y1 & Y2). exists y. auto.
Qed.
(** The chain of five links with a floating base: the point can be moved in all directions. *)
Lemma mech_measure : option_map (fun x => nleb x (qz 0)) (measure mech 4 p0 12) = Some false.
Proof. vm_compute. reflexivity. Qed.
Lemma moves_all (c : chain Qc) i p n : usable c -> chain_joint_size c = n -> (i < length (c_links c))%nat -> option_map (fun x => nleb x (qz 0)) (measure c i p n) = Some false ->
  forall y, y <> v3zero -> exists c1, chain_update_frame c = Some c1 /\ ~ (forall v u, length v = n -> rates_to (qz 10) c c1 i (fun l => world_pointvel l p) v u -> v3dot y u = qz 0).
Proof.
  intros U SZ Hi H y Y. destruct (C24_frame_pass _ (proj1 U)) as (c1 & A & _). exists c1. split; [exact A|]. intros K. unfold measure in H. rewrite A in H. cbn [obind] in H.
  destruct (C100_point qsqrt (qz 10) c c1 i p (repeat v3zero n) root_Q U A Hi) as (J & B1 & B2); [rewrite repeat_length; now symmetry|]. rewrite B1 in H. cbn [option_map] in H. rewrite SZ in B2.
  rewrite (proj2 B2) in H; [discriminate H|]. exists y. split; [exact Y|exact K].
Qed.
Lemma mech_len : (4 < length (c_links mech))%nat.
Proof. apply Nat.ltb_lt. vm_compute. reflexivity. Qed.
Example C100_ex_mech : forall y, y <> v3zero -> exists c1, chain_update_frame mech = Some c1 /\ ~ (forall v u, length v = 12%nat -> rates_to (qz 10) mech c1 4 (fun l => world_pointvel l p0) v u -> v3dot y u = qz 0).
Proof. exact (moves_all mech 4 p0 12 (proj1 mech_usable) (proj2 mech_usable) mech_len mech_measure). Qed.
Example C100_ex_volume : jacobi_manip qsqrt [V3 (qz 1) (qz 0) (qz 0); V3 (qz 1) (qz 2) (qz 0); V3 (qz 5) (qz 7) (qz 3)] = qz 6.
Proof. vm_compute. reflexivity. Qed.

Print Assumptions C100_zero.
Print Assumptions C100_volume.
Print Assumptions C100_more.
Print Assumptions C100_rotated.
Print Assumptions C100_point.
Print Assumptions C100_turn.
Print Assumptions root_R.
