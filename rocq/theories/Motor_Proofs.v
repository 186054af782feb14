(** * Motor_Proofs: specification vocabulary and lemmas for the motor properties. *)

From Coq Require Import List String ZArith Ring Field Bool.
From Verif Require Import Num NumFacts Motor_Model.
Import ListNotations.

Section P.
Context {F : Type} {N : Num F} {L : NumLaws F N}.
Add Field FField : num_field.
Local Open Scope num_scope.

(** *** Specification *)
(** The input limits of a motor ([None, None] for the "none" motor, which has no input). *)
Definition motor_limits (m : motor F) : option F * option F :=
  match m_kind m with
  | MNone => (None, None)
  | MDC p => (Some (dc_min p), Some (dc_max p))
  | MTrq p => (tq_min p, tq_max p)
  end.
(** The factor from the stored input to the input torque, per motor class. *)
Definition motor_gain (m : motor F) : F :=
  match m_kind m with MNone => 0 | MDC p => dc_admit p * dc_ratio p * dc_k p | MTrq _ => 1 end.
Definition has_input (m : motor F) : Prop := m_kind m <> MNone.
(** Two motors that differ at most in the stored input. *)
Definition same_but_input (m m' : motor F) : Prop :=
  m_name m' = m_name m /\
  match m_kind m, m_kind m' with
  | MNone, MNone => True
  | MDC p, MDC p' => exists e, p' = DC e (dc_tf p) (dc_k p) (dc_admit p) (dc_max p) (dc_min p) (dc_ratio p)
                                     (dc_inertia p) (dc_igear p) (dc_compk p) (dc_compl p)
  | MTrq p, MTrq p' => tq_min p' = tq_min p /\ tq_max p' = tq_max p
  | _, _ => False
  end.
Definition scale_lim (k : F) (o : option F) : option F := option_map (fun x => k * x) o.

(** *** Lemmas *)
Lemma same_refl m : same_but_input m m.
Proof. split; [reflexivity|]. destruct m as [n [|[]|[]]]; cbn; auto. eexists; reflexivity. Qed.
Lemma same_trans a b c : same_but_input a b -> same_but_input b c -> same_but_input a c.
Proof.
  intros [N1 H1] [N2 H2]. split; [congruence|].
  destruct (m_kind a), (m_kind b), (m_kind c); try contradiction; auto.
  - destruct H1 as [e ->], H2 as [e' ->]. exists e'. reflexivity.
  - destruct H1, H2. split; congruence.
Qed.
Lemma set_input_same m v : same_but_input m (motor_set_input m v).
Proof. split; [reflexivity|]. destruct m as [n [|[]|[]]]; cbn; auto. eexists; reflexivity. Qed.
Lemma same_limits_of m m' : same_but_input m m' -> motor_limits m' = motor_limits m.
Proof.
  intros [_ H]. unfold motor_limits. destruct (m_kind m), (m_kind m'); try contradiction; auto.
  - destruct H as [e ->]. reflexivity.
  - destruct H as [-> ->]. reflexivity.
Qed.
Lemma same_gain m m' : same_but_input m m' -> motor_gain m' = motor_gain m.
Proof.
  intros [_ H]. unfold motor_gain. destruct (m_kind m), (m_kind m'); try contradiction; auto.
  destruct H as [e ->]. reflexivity.
Qed.
Lemma set_inputs_same vs : forall m, same_but_input m (fold_left motor_set_input vs m).
Proof.
  induction vs as [|v vs IH]; cbn; intros m; [apply same_refl|].
  eapply same_trans; [apply set_input_same | apply IH].
Qed.
Lemma same_has_input m m' : same_but_input m m' -> has_input m -> has_input m'.
Proof. intros [_ H] K. unfold has_input in *. destruct (m_kind m), (m_kind m'); try contradiction; discriminate. Qed.
Lemma set_input_value m v : has_input m ->
  motor_input (motor_set_input m v) = Some (clamp v (fst (motor_limits m)) (snd (motor_limits m))).
Proof. intros H. destruct m as [n [|p|p]]; [now destruct H| |]; reflexivity. Qed.
Lemma input_trq_gain m e old : has_input m -> motor_input m = Some e -> motor_input_trq m old = motor_gain m * e.
Proof.
  intros H K. destruct m as [n [|p|p]]; [now destruct H| |]; cbn in *; injection K as <-;
  unfold motor_input_trq, motor_gain, dc_input_trq; cbn; ring.
Qed.
Lemma within_scale k lo hi e : 0 <= k -> within lo hi e -> within (scale_lim k lo) (scale_lim k hi) (k * e).
Proof.
  intros K [H1 H2]. split.
  - destruct lo; cbn; [|exact I]. now apply nle_mul_l.
  - destruct hi; cbn; [|exact I]. now apply nle_mul_l.
Qed.
Lemma saturation m vs v old : has_input m -> limits_ok (fst (motor_limits m)) (snd (motor_limits m)) ->
  let m' := fold_left motor_set_input (vs ++ [v]) m in
  same_but_input m m' /\
  exists e, motor_input m' = Some e /\
    within (fst (motor_limits m)) (snd (motor_limits m)) e /\
    (within (fst (motor_limits m)) (snd (motor_limits m)) v -> e = v) /\
    (0 <= motor_gain m ->
       within (scale_lim (motor_gain m) (fst (motor_limits m))) (scale_lim (motor_gain m) (snd (motor_limits m)))
              (motor_input_trq m' old)).
Proof.
  intros Hi LO m'. split; [apply set_inputs_same|].
  unfold m'. rewrite fold_left_app. cbn [fold_left].
  assert (S := set_inputs_same vs m). set (m1 := fold_left motor_set_input vs m) in *.
  assert (Hi1 := same_has_input _ _ S Hi). assert (Lm := same_limits_of _ _ S).
  assert (V := set_input_value m1 v Hi1). rewrite Lm in V.
  eexists. split; [exact V|]. split; [now apply clamp_within|]. split; [now apply clamp_id|].
  intros G. rewrite (input_trq_gain (motor_set_input m1 v) _ old (same_has_input _ _ (set_input_same m1 v) Hi1) V).
  rewrite (same_gain _ _ (same_trans _ _ _ S (set_input_same m1 v))).
  apply within_scale; [exact G|]. now apply clamp_within.
Qed.

Lemma resist_passive p vel : 0 <= dc_admit p -> 0 <= dc_resist p vel * vel.
Proof.
  intros H. unfold dc_resist.
  replace (dc_admit p * (dc_ratio p * dc_k p * (dc_ratio p * dc_k p)) * vel * vel)
    with (dc_admit p * ((dc_ratio p * dc_k p * vel) * (dc_ratio p * dc_k p * vel))) by ring.
  apply nle_0_mul; [exact H | apply nle_0_sqr].
Qed.
Lemma dc_balance n p vel acc old o1 o2 o3 : let m := Mot n (MDC p) in
  motor_driving_trq m vel acc old = motor_input_trq m o1 - motor_resist m vel o2 - motor_inertia m o3 * acc.
Proof. reflexivity. Qed.
Lemma dc_passive n p vel acc old o3 : 0 <= dc_admit p -> dc_e p = 0 -> let m := Mot n (MDC p) in
  motor_driving_trq m vel acc old * vel <= - (motor_inertia m o3 * vel * acc).
Proof.
  intros A E m. cbn. apply nle_sub_iff. unfold dc_input_trq. rewrite E.
  replace (- (dc_refl_inertia p * vel * acc) -
    (dc_admit p * dc_ratio p * dc_k p * 0 - dc_resist p vel - dc_refl_inertia p * acc) * vel)
    with (dc_resist p vel * vel) by ring.
  now apply resist_passive.
Qed.
Lemma refl_inertia_nonneg p : 0 <= dc_inertia p -> 0 <= dc_igear p -> 0 <= dc_refl_inertia p.
Proof. intros A B. unfold dc_refl_inertia. apply nle_0_mul; [apply nle_0_sqr | now apply nle_0_add]. Qed.

(** *** Lookup and cloning *)
Lemma motor_clone_same (m c : motor F) : motor_clone m c = m.
Proof. destruct m as [n []]; reflexivity. Qed.
Lemma motor_array_clone_same (l : list (motor F)) : motor_array_clone l = l.
Proof. unfold motor_array_clone. induction l as [|m l IH]; cbn [map]; [reflexivity|]. now rewrite motor_clone_same, IH. Qed.
Lemma motor_query_spec (m : motor F) s :
  match motor_query_assign m s with
  | Some m' => mcom_typestr (mcom_of m') = s /\ m_name m' = m_name m /\ In s ["none"; "dc"; "trq"]%string
  | None => ~ In s ["none"; "dc"; "trq"]%string
  end.
Proof.
  unfold motor_query_assign, motor_com_array, motor_query; cbn [mcom_typestr].
  destruct (String.eqb_spec s "none") as [->|A]; [repeat split; cbn; tauto|].
  destruct (String.eqb_spec s "dc") as [->|B]; [repeat split; cbn; tauto|].
  destruct (String.eqb_spec s "trq") as [->|C]; [repeat split; cbn; tauto|].
  cbn. intuition congruence.
Qed.
Lemma array_find_spec (arr : list (motor F)) name :
  match motor_array_find arr name with
  | Some m => exists l1 l2, arr = l1 ++ m :: l2 /\ m_name m = Some name /\ (forall x, In x l1 -> m_name x <> Some name)
  | None => forall x, In x arr -> m_name x <> Some name
  end.
Proof.
  unfold motor_array_find. induction arr as [|m arr IH]; cbn [find]; [intros x []|].
  destruct (m_name m) as [s|] eqn:Nm.
  - destruct (String.eqb_spec s name) as [->|K].
    + exists [], arr. repeat split; auto.
    + destruct (find _ arr) as [r|].
      * destruct IH as (l1 & l2 & -> & H1 & H2). exists (m :: l1), l2. repeat split; auto.
        intros x [<-|I]; [congruence | now apply H2].
      * intros x [<-|I]; [congruence | now apply IH].
  - destruct (find _ arr) as [r|].
    + destruct IH as (l1 & l2 & -> & H1 & H2). exists (m :: l1), l2. repeat split; auto.
      intros x [<-|I]; [congruence | now apply H2].
    + intros x [<-|I]; [congruence | now apply IH].
Qed.
End P.
