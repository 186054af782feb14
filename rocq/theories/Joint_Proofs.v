(** * Joint_Proofs: lemmas for the joint properties. *)

From Coq Require Import List String ZArith Ring Field Bool.
From Verif Require Import Num NumFacts Vec VecFacts Motor_Model Joint_Model Joint_Spec.
Import ListNotations.

Ltac rd_inv H :=
  unfold obind, option_map, rd1, rd2, rd3, rd6 in H;
  repeat match type of H with
  | context [match ?l with [] => _ | _ :: _ => _ end] => is_var l; destruct l; try discriminate H
  end;
  try discriminate H.

Section P.
Context {F : Type} {N : Num F} {L : NumLaws F N} {E : Ext F} {X : ExtLaws F N E}.
Add Field FField : num_field.
Local Open Scope num_scope.

(** ** Limits *)
Lemma limits_ordered_set_dis_within (j : joint F) l j' :
  limits_ordered j -> joint_set_dis j l = Some j' -> within_limits j'.
Proof.
  intros LO H. unfold limits_ordered, within_limits in *.
  destruct j; cbn in H; rd_inv H; injection H as <-; cbn in *; intros i lo hi d H1 H2 H3;
  specialize (LO i lo hi H1 H2);
  repeat (destruct i as [|i]; cbn in H1, H2, H3;
          [injection H1 as <-; injection H2 as <-; injection H3 as <-;
           solve [apply clamp_within; exact LO | split; exact I] | ]);
  destruct i; discriminate H1.
Qed.

Definition lims (j : joint F) := (joint_get_min j, joint_get_max j).

Lemma set_dis_lims (j : joint F) l j' : joint_set_dis j l = Some j' -> lims j' = lims j.
Proof. intros H. destruct j; cbn in H; rd_inv H; injection H as <-; reflexivity. Qed.
Lemma set_gen_lims g gs gf (j : joint F) l j' :
  (forall v a, a_min (g v a) = a_min a) -> (forall v a, a_max (g v a) = a_max a) ->
  joint_set_gen g gs gf j l = Some j' -> lims j' = lims j.
Proof.
  intros H1 H2 H. destruct j; cbn in H; rd_inv H; injection H as <-; unfold lims; cbn; rewrite ?H1, ?H2; reflexivity.
Qed.
Lemma set_gen_dis g gs gf (j : joint F) l j' :
  (forall v a, a_dis (g v a) = a_dis a) -> (forall v s, sp_aa (gs v s) = sp_aa s) ->
  (forall v f, fl_dis (gf v f) = fl_dis f) ->
  joint_set_gen g gs gf j l = Some j' -> joint_get_dis j' = joint_get_dis j.
Proof.
  intros H1 H2 H3 H. destruct j; cbn in H; rd_inv H; injection H as <-; cbn; rewrite ?H1, ?H2, ?H3; reflexivity.
Qed.
Lemma set_gen_both g gs gf (j : joint F) l j' :
  joint_set_gen g gs gf j l = Some j' ->
  (forall v a, a_dis (g v a) = a_dis a) -> (forall v s, sp_aa (gs v s) = sp_aa s) ->
  (forall v f, fl_dis (gf v f) = fl_dis f) ->
  (forall v a, a_min (g v a) = a_min a) -> (forall v a, a_max (g v a) = a_max a) ->
  joint_get_dis j' = joint_get_dis j /\ lims j' = lims j.
Proof. intros. split; [eapply set_gen_dis | eapply set_gen_lims]; eassumption. Qed.
Lemma set_dis_cnt_lims (j : joint F) l dt j' : joint_set_dis_cnt j l dt = Some j' -> lims j' = lims j.
Proof. intros H. destruct j; cbn in H; rd_inv H; injection H as <-; reflexivity. Qed.
Lemma set_dis_cnt_dis (j : joint F) l dt j' : joint_set_dis_cnt j l dt = Some j' ->
  exists j1, joint_set_dis j l = Some j1 /\ joint_get_dis j' = joint_get_dis j1 /\ lims j' = lims j1.
Proof.
  intros H. destruct j; cbn in H; rd_inv H; injection H as <-;
    (eexists; split; [reflexivity | split; reflexivity]).
Qed.
Lemma copy_state_dis (src dst j' : joint F) : joint_copy_state src dst = Some j' ->
  exists j1, joint_set_dis dst (joint_get_dis src) = Some j1 /\ joint_get_dis j' = joint_get_dis j1 /\ lims j' = lims j1.
Proof.
  unfold joint_copy_state, obind. intros H.
  destruct (joint_set_dis dst (joint_get_dis src)) as [j1|]; [|discriminate].
  destruct (joint_set_vel j1 _) as [j2|] eqn:E2; [|discriminate].
  destruct (joint_set_acc j2 _) as [j3|] eqn:E3; [|discriminate].
  exists j1. split; [reflexivity|]. unfold joint_set_vel, joint_set_acc, joint_set_trq in *.
  assert (A2 := set_gen_both _ _ _ _ _ _ E2). assert (A3 := set_gen_both _ _ _ _ _ _ E3).
  assert (A4 := set_gen_both _ _ _ _ _ _ H). cbn in A2, A3, A4.
  destruct A2 as [A2 B2]; [reflexivity..|]. destruct A3 as [A3 B3]; [reflexivity..|].
  destruct A4 as [A4 B4]; [reflexivity..|]. split; congruence.
Qed.

(** Calls other than displacement and limit setters change neither. *)
Lemma set_motor_same (j : joint F) m :
  joint_get_dis (joint_set_motor j m) = joint_get_dis j /\ lims (joint_set_motor j m) = lims j.
Proof. destruct j; split; reflexivity. Qed.
Lemma step_other (j : joint F) o j' :
  ~ sets_dis o -> ~ changes_limits o -> joint_step j o = Some j' ->
  joint_get_dis j' = joint_get_dis j /\ lims j' = lims j.
Proof.
  intros S C H. destruct o; cbn in S, C; try (now destruct S); try (now destruct C); cbn in H.
  - apply (set_gen_both _ _ _ _ _ _ H); reflexivity.
  - apply (set_gen_both _ _ _ _ _ _ H); reflexivity.
  - apply (set_gen_both _ _ _ _ _ _ H); reflexivity.
  - injection H as <-. destruct j; split; reflexivity.
  - destruct j; cbn in H; rd_inv H; injection H as <-; split; reflexivity.
  - destruct j; cbn in H; rd_inv H; injection H as <-; split; reflexivity.
  - destruct j; cbn in H; rd_inv H; injection H as <-; split; reflexivity.
  - unfold joint_motor_set_input in H. destruct (joint_motor j) as [m|]; [|injection H as <-; split; reflexivity].
    destruct (m_kind m); [injection H as <-; split; reflexivity| |]; rd_inv H; injection H as <-; apply set_motor_same.
  - injection H as <-. apply set_motor_same.
  - injection H as <-. destruct j; split; reflexivity.
Qed.
Lemma step_sets_dis (j : joint F) o j' :
  sets_dis o -> joint_step j o = Some j' ->
  exists l j1, joint_set_dis j l = Some j1 /\ joint_get_dis j' = joint_get_dis j1 /\ lims j' = lims j1.
Proof.
  intros S H. destruct o; cbn in S; try contradiction; cbn in H.
  - exists l, j'. repeat split. exact H.
  - destruct (set_dis_cnt_dis _ _ _ _ H) as (j1 & K). exists l, j1. exact K.
  - exists [0;0;0;0;0;0], j'. repeat split. exact H.
  - destruct (copy_state_dis _ _ _ H) as (j1 & K). exists (joint_get_dis src), j1. exact K.
Qed.
Lemma step_lims (j : joint F) o j' :
  ~ changes_limits o -> joint_step j o = Some j' -> lims j' = lims j.
Proof.
  intros C H.
  assert (D : sets_dis o \/ ~ sets_dis o) by (destruct o; cbn; auto).
  destruct D as [D|D].
  - destruct (step_sets_dis _ _ _ D H) as (l & j1 & H1 & _ & H3). rewrite H3. now apply set_dis_lims in H1.
  - now apply (step_other _ _ _ D C H).
Qed.
Lemma lims_eq (j j' : joint F) : lims j' = lims j -> joint_get_min j' = joint_get_min j /\ joint_get_max j' = joint_get_max j.
Proof. unfold lims. intros H. injection H. auto. Qed.
Lemma within_limits_eq (j j' : joint F) : lims j' = lims j -> joint_get_dis j' = joint_get_dis j ->
  within_limits j -> within_limits j'.
Proof. intros H1 H2 W. apply lims_eq in H1 as [H1 H3]. unfold within_limits in *. now rewrite H1, H2, H3. Qed.
Lemma limits_ordered_eq (j j' : joint F) : lims j' = lims j -> limits_ordered j -> limits_ordered j'.
Proof. intros H1 W. apply lims_eq in H1 as [H1 H3]. unfold limits_ordered in *. now rewrite H1, H3. Qed.

Lemma step_within (j : joint F) o j' :
  limits_ordered j -> within_limits j -> ~ changes_limits o -> joint_step j o = Some j' ->
  within_limits j' /\ limits_ordered j'.
Proof.
  intros LO W C H. assert (HL := step_lims _ _ _ C H). split; [|now apply (limits_ordered_eq j)].
  assert (D : sets_dis o \/ ~ sets_dis o) by (destruct o; cbn; auto).
  destruct D as [D|D].
  - destruct (step_sets_dis _ _ _ D H) as (l & j1 & H1 & H2 & H3).
    apply (within_limits_eq j1); try assumption. eapply limits_ordered_set_dis_within; eassumption.
  - destruct (step_other _ _ _ D C H) as [H1 H2]. now apply (within_limits_eq j).
Qed.
Lemma sets_dis_within (j : joint F) o j' :
  limits_ordered j -> sets_dis o -> joint_step j o = Some j' -> within_limits j'.
Proof.
  intros LO D H. destruct (step_sets_dis _ _ _ D H) as (l & j1 & H1 & H2 & H3).
  apply (within_limits_eq j1); try assumption. eapply limits_ordered_set_dis_within; eassumption.
Qed.
Lemma sets_dis_not_limits (o : jop F) : sets_dis o -> ~ changes_limits o.
Proof. destruct o; cbn; auto. Qed.

Lemma run_within ops : forall (j j' : joint F),
  limits_ordered j -> within_limits j -> (forall o, In o ops -> ~ changes_limits o) ->
  joint_run j ops = Some j' -> within_limits j' /\ lims j' = lims j.
Proof.
  induction ops as [|o ops IH]; cbn; intros j j' LO W C H.
  - injection H as <-. auto.
  - unfold obind in H. destruct (joint_step j o) as [j1|] eqn:S; [|discriminate].
    assert (Co : ~ changes_limits o) by (apply C; now left).
    destruct (step_within _ _ _ LO W Co S) as [W1 LO1].
    destruct (IH j1 j' LO1 W1 (fun o' I => C o' (or_intror I)) H) as [W2 L2].
    split; [exact W2|]. rewrite L2. exact (step_lims _ _ _ Co S).
Qed.

Lemma history_within (j : joint F) o j1 ops j' :
  limits_ordered j -> sets_dis o -> joint_step j o = Some j1 ->
  (forall o', In o' ops -> ~ changes_limits o') -> joint_run j1 ops = Some j' ->
  within_limits j' /\ joint_get_min j' = joint_get_min j /\ joint_get_max j' = joint_get_max j.
Proof.
  intros LO D S C R.
  assert (HL := step_lims _ _ _ (sets_dis_not_limits _ D) S).
  assert (W := sets_dis_within _ _ _ LO D S).
  destruct (run_within ops j1 j' (limits_ordered_eq _ _ HL LO) W C R) as [W2 L2].
  split; [exact W2|]. rewrite HL in L2. now apply lims_eq.
Qed.

(** ** Cached values *)
Definition cache_ok (j : joint F) : Prop :=
  match j with
  | JFixed | JPrism _ => True
  | JRevol r => rv_s r = x_sin (a_dis (rv_a r)) /\ rv_c r = x_cos (a_dis (rv_a r))
  | JCylin c => cy_s c = x_sin (a_dis (cy_1 c)) /\ cy_c c = x_cos (a_dis (cy_1 c))
  | JHooke h => (hk_s0 h = x_sin (a_dis (hk_0 h)) /\ hk_c0 h = x_cos (a_dis (hk_0 h))) /\
                (hk_s1 h = x_sin (a_dis (hk_1 h)) /\ hk_c1 h = x_cos (a_dis (hk_1 h)))
  | JSpher s => sp_att s = x_aa2m (sp_aa s)
  | JFloat f | JBrFloat f _ _ => fl_att f = x_aa2m (vang (fl_dis f))
  end.
Lemma set_dis_cache (j : joint F) l j' : joint_set_dis j l = Some j' -> cache_ok j'.
Proof. intros H. destruct j; cbn in H; rd_inv H; injection H as <-; cbn; auto. Qed.
Lemma set_gen_cache g gs gf (j : joint F) l j' :
  (forall v a, a_dis (g v a) = a_dis a) -> (forall v s, sp_aa (gs v s) = sp_aa s) ->
  (forall v s, sp_att (gs v s) = sp_att s) -> (forall v f, fl_att (gf v f) = fl_att f) ->
  (forall v f, fl_dis (gf v f) = fl_dis f) ->
  cache_ok j -> joint_set_gen g gs gf j l = Some j' -> cache_ok j'.
Proof.
  intros H1 H2 H3 H4 H5 K H. destruct j; cbn in H; rd_inv H; injection H as <-; cbn in *;
    rewrite ?H1, ?H2, ?H3, ?H4, ?H5; assumption.
Qed.
Lemma set_motor_cache (j : joint F) m : cache_ok j -> cache_ok (joint_set_motor j m).
Proof. now destruct j. Qed.
Lemma copy_state_cache (src dst j' : joint F) : joint_copy_state src dst = Some j' -> cache_ok j'.
Proof.
  unfold joint_copy_state, obind. intros H.
  destruct (joint_set_dis dst (joint_get_dis src)) as [j1|] eqn:E1; [|discriminate].
  destruct (joint_set_vel j1 _) as [j2|] eqn:E2; [|discriminate].
  destruct (joint_set_acc j2 _) as [j3|] eqn:E3; [|discriminate].
  apply set_dis_cache in E1.
  unfold joint_set_vel, joint_set_acc, joint_set_trq in *.
  apply set_gen_cache in E2; try assumption; try reflexivity.
  apply set_gen_cache in E3; try assumption; try reflexivity.
  apply set_gen_cache in H; try assumption; try reflexivity.
Qed.
Lemma step_cache (j : joint F) o j' : cache_ok j -> joint_step j o = Some j' -> cache_ok j'.
Proof.
  intros K H. destruct o; cbn in H.
  - eapply set_dis_cache; eassumption.
  - destruct j; cbn in H; rd_inv H; injection H as <-; exact K.
  - destruct j; cbn in H; rd_inv H; injection H as <-; exact K.
  - eapply set_gen_cache; [..|exact H]; try exact K; reflexivity.
  - eapply set_gen_cache; [..|exact H]; try exact K; reflexivity.
  - eapply set_gen_cache; [..|exact H]; try exact K; reflexivity.
  - destruct j; cbn in H; rd_inv H; injection H as <-; cbn; auto.
  - injection H as <-. destruct j; exact K.
  - destruct j; cbn in H; rd_inv H; injection H as <-; exact K.
  - destruct j; cbn in H; rd_inv H; injection H as <-; exact K.
  - destruct j; cbn in H; rd_inv H; injection H as <-; exact K.
  - unfold joint_motor_set_input in H. destruct (joint_motor j) as [m|]; [|injection H as <-; exact K].
    destruct (m_kind m); [injection H as <-; exact K| |]; rd_inv H; injection H as <-; now apply set_motor_cache.
  - injection H as <-. now apply set_motor_cache.
  - injection H as <-. destruct j; exact K.
  - eapply set_dis_cache; eassumption.
  - eapply copy_state_cache; eassumption.
Qed.
Lemma run_cache ops : forall (j j' : joint F), cache_ok j -> joint_run j ops = Some j' -> cache_ok j'.
Proof.
  induction ops as [|o ops IH]; cbn; intros j j' K H.
  - now injection H as <-.
  - unfold obind in H. destruct (joint_step j o) as [j1|] eqn:S; [|discriminate].
    apply (IH j1); [|exact H]. eapply step_cache; eassumption.
Qed.
Lemma assign_cache t (j : joint F) : joint_assign t = Some j -> cache_ok j.
Proof. unfold joint_assign, joint_neutral. apply set_dis_cache. Qed.

Lemma cache_doc (j : joint F) fo : cache_ok j ->
  exists f, doc_frame (jtype_of j) (joint_get_dis j) = Some f /\ joint_xform j fo = fcascade fo f.
Proof.
  intros K. destruct fo as [p m]. destruct j; cbn in *.
  - eexists; split; [reflexivity|]. symmetry. apply fcascade_id_r.
  - eexists; split; [reflexivity|]. destruct K as [K1 K2]. unfold rotz_att, rot_z. rewrite K1, K2. vprep; ring.
  - eexists; split; [reflexivity|]. unfold trans_z. vprep; ring.
  - eexists; split; [reflexivity|]. destruct K as [K1 K2]. unfold rotz_att, rot_z, trans_z. rewrite K1, K2. vprep; ring.
  - eexists; split; [reflexivity|]. destruct K as [[K1 K2] [K3 K4]]. unfold rot_z, rot_y, zyx_sc.
    rewrite K1, K2, K3, K4. vprep; ring.
  - eexists; split; [reflexivity|]. rewrite K. unfold fcascade, xform. cbn [fpos fatt].
    rewrite m3v_0_r, v3add_0_l. destruct (sp_aa s); reflexivity.
  - eexists; split; [reflexivity|]. rewrite K. destruct (fl_dis f) as [[] []]. reflexivity.
  - eexists; split; [reflexivity|]. rewrite K. destruct (fl_dis f) as [[] []]. reflexivity.
Qed.

Lemma rot_z_rotation t : rotation (rot_z t).
Proof.
  assert (H := x_sc t). unfold rotation, rot_z. split.
  - vunfold. vsplit; try ring; rewrite <- H; ring.
  - vunfold. transitivity (x_sin t * x_sin t + x_cos t * x_cos t); [ring | exact H].
Qed.
Lemma rot_y_rotation t : rotation (rot_y t).
Proof.
  assert (H := x_sc t). unfold rotation, rot_y. split.
  - vunfold. vsplit; try ring; rewrite <- H; ring.
  - vunfold. transitivity (x_sin t * x_sin t + x_cos t * x_cos t); [ring | exact H].
Qed.
Lemma doc_frame_rigid t ds f : doc_frame t ds = Some f -> rigid f.
Proof.
  destruct t; cbn; intros H; repeat (destruct ds as [|? ds]; try discriminate H); injection H as <-;
    unfold rigid; cbn [fatt].
  - apply rotation_id.
  - apply rot_z_rotation.
  - apply rotation_id.
  - cbn. apply rotation_mul; [apply rot_z_rotation | apply rotation_id].
  - apply rotation_mul; [apply rot_z_rotation | apply rot_y_rotation].
  - apply x_aa_rot.
  - apply x_aa_rot.
  - apply x_aa_rot.
Qed.

(** ** Continuous update *)
Lemma cnt_acc (j : joint F) l dt j' : scalar_axes (jtype_of j) -> dt <> 0 -> joint_set_dis_cnt j l dt = Some j' ->
  rate_of dt (joint_get_vel j) (joint_get_vel j') (joint_get_acc j').
Proof.
  intros T D H. destruct j; cbn in T; try contradiction; cbn in H; rd_inv H; injection H as <-;
  (split; [reflexivity|split; [reflexivity|]]);
  intros i b a v; repeat (destruct i as [|i]; cbn; [intros [= <-] [= <-] [= <-]; field; exact D|]);
  destruct i; discriminate.
Qed.
Lemma cnt_vel (j : joint F) l dt j' : scalar_axes (jtype_of j) -> dt <> 0 ->
  joint_lim_dis j l = Some (firstn (joint_size j) l) ->
  joint_set_dis_cnt j l dt = Some j' ->
  rate_of dt (joint_get_dis j) (joint_get_dis j') (joint_get_vel j').
Proof.
  intros T D R H. destruct j; cbn in T; try contradiction; cbn in H; rd_inv H; injection H as <-;
  cbn in R; 
  repeat match type of R with Some (_ :: _) = Some (_ :: _) => idtac end;
  (split; [reflexivity|split; [reflexivity|]]);
  injection R; intros;
  match goal with K : nth_error _ _ = Some ?v |- ?v * dt = _ => idtac | _ => idtac end;
  repeat (match goal with i : nat |- _ => destruct i as [|i] end; cbn in *;
    [repeat match goal with K : Some _ = Some _ |- _ => injection K as <- end;
     repeat match goal with K : lim_rot _ _ = _ |- _ => rewrite K | K : lim_lin _ _ = _ |- _ => rewrite K end; field; exact D|]);
  match goal with i : nat |- _ => destruct i; discriminate end.
Qed.

(** ** Friction pivot *)
Lemma step_type (j : joint F) o j' : joint_step j o = Some j' -> jtype_of j' = jtype_of j.
Proof.
  intros H. destruct o; cbn in H.
  1-7, 9-11: destruct j; cbn in H; rd_inv H; injection H as <-; reflexivity.
  - injection H as <-. destruct j; reflexivity.
  - unfold joint_motor_set_input in H. destruct (joint_motor j) as [m|]; [|now injection H as <-].
    destruct (m_kind m); [now injection H as <-| |]; rd_inv H; injection H as <-; destruct j; reflexivity.
  - injection H as <-. destruct j; reflexivity.
  - injection H as <-. destruct j; reflexivity.
  - destruct j; cbn in H; rd_inv H; injection H as <-; reflexivity.
  - unfold joint_copy_state, obind in H.
    destruct (joint_set_dis j (joint_get_dis src)) as [j1|] eqn:E1; [|discriminate].
    destruct (joint_set_vel j1 _) as [j2|] eqn:E2; [|discriminate].
    destruct (joint_set_acc j2 _) as [j3|] eqn:E3; [|discriminate].
    transitivity (jtype_of j3); [|transitivity (jtype_of j2); [|transitivity (jtype_of j1)]].
    + unfold joint_set_trq in H. destruct j3; cbn in H; unfold option_map in H;
        repeat match type of H with context [match ?x with Some _ => _ | None => _ end] => destruct x as [[]|]; [|discriminate] | context [match ?x with Some _ => _ | None => _ end] => destruct x; [|discriminate] end; injection H as <-; reflexivity.
    + unfold joint_set_acc in E3. destruct j2; cbn in E3; unfold option_map in E3;
        repeat match type of E3 with context [match ?x with Some _ => _ | None => _ end] => destruct x as [[]|]; [|discriminate] | context [match ?x with Some _ => _ | None => _ end] => destruct x; [|discriminate] end; injection E3 as <-; reflexivity.
    + unfold joint_set_vel in E2. destruct j1; cbn in E2; unfold option_map in E2;
        repeat match type of E2 with context [match ?x with Some _ => _ | None => _ end] => destruct x as [[]|]; [|discriminate] | context [match ?x with Some _ => _ | None => _ end] => destruct x; [|discriminate] end; injection E2 as <-; reflexivity.
    + destruct j; cbn in E1; unfold option_map in E1;
        repeat match type of E1 with context [match ?x with Some _ => _ | None => _ end] => destruct x as [[]|]; [|discriminate] | context [match ?x with Some _ => _ | None => _ end] => destruct x; [|discriminate] end; injection E1 as <-; reflexivity.
Qed.

Lemma run_type ops : forall (j j' : joint F), joint_run j ops = Some j' -> jtype_of j' = jtype_of j.
Proof.
  induction ops as [|o ops IH]; cbn; intros j j' H.
  - now injection H as <-.
  - unfold obind in H. destruct (joint_step j o) as [j1|] eqn:S; [|discriminate].
    rewrite (IH _ _ H). eapply step_type; eassumption.
Qed.

Definition pivots (j : joint F) : list (fpivot F) := map a_fp (axes_of j).
Lemma set_dis_piv (j : joint F) l j' : joint_set_dis j l = Some j' -> pivots j' = pivots j.
Proof. intros H. destruct j; cbn in H; rd_inv H; injection H as <-; reflexivity. Qed.
Lemma set_gen_piv g gs gf (j : joint F) l j' : joint_set_gen g gs gf j l = Some j' ->
  (forall v a, a_fp (g v a) = a_fp a) -> pivots j' = pivots j.
Proof. intros H K. destruct j; cbn in H; rd_inv H; injection H as <-; unfold pivots; cbn; rewrite ?K; reflexivity. Qed.
Lemma copy_state_piv (src dst j' : joint F) : joint_copy_state src dst = Some j' -> pivots j' = pivots dst.
Proof.
  unfold joint_copy_state, obind. intros H.
  destruct (joint_set_dis dst (joint_get_dis src)) as [j1|] eqn:E1; [|discriminate].
  destruct (joint_set_vel j1 _) as [j2|] eqn:E2; [|discriminate].
  destruct (joint_set_acc j2 _) as [j3|] eqn:E3; [|discriminate].
  rewrite (set_gen_piv _ _ _ _ _ _ H), (set_gen_piv _ _ _ _ _ _ E3), (set_gen_piv _ _ _ _ _ _ E2); try reflexivity.
  eapply set_dis_piv; eassumption.
Qed.
Lemma revol_step_piv (j : joint F) o j' : jtype_of j = TRevol -> ~ sets_pivot o -> joint_step j o = Some j' ->
  pivots j' = pivots j.
Proof.
  intros T S H. destruct j; cbn in T; try discriminate. destruct o; cbn in S; try (now destruct S).
  1-7, 9: cbn in H; rd_inv H; injection H as <-; reflexivity.
  - injection H as <-; reflexivity.
  - cbn in H; rd_inv H; injection H as <-; reflexivity.
  - cbn in H. unfold joint_motor_set_input in H. cbn in H.
    destruct (m_kind (rv_m r)); [injection H as <-; reflexivity| |]; rd_inv H; injection H as <-; reflexivity.
  - injection H as <-; reflexivity.
  - injection H as <-; reflexivity.
  - cbn in H. injection H as <-; reflexivity.
  - eapply copy_state_piv; exact H.
Qed.
Lemma revol_run_piv ops : forall (j j' : joint F), jtype_of j = TRevol -> (forall o, In o ops -> ~ sets_pivot o) ->
  joint_run j ops = Some j' -> pivots j' = pivots j.
Proof.
  induction ops as [|o ops IH]; cbn; intros j j' T S H.
  - now injection H as <-.
  - unfold obind in H. destruct (joint_step j o) as [j1|] eqn:S1; [|discriminate].
    rewrite (IH j1 j').
    + eapply revol_step_piv; [exact T| |exact S1]. apply S; now left.
    + rewrite (step_type _ _ _ S1). exact T.
    + intros o' I. apply S. now right.
    + exact H.
Qed.
Lemma revol_pivot : pivot_roundtrip1 (F:=F) TRevol.
Proof.
  intros j j1 j2 j3 p out ops buf buf' T S O R G.
  destruct j; cbn in T; try discriminate. cbn in S. injection S as <- <-.
  set (j1 := JRevol _) in R.
  assert (T1 : jtype_of j1 = TRevol) by reflexivity.
  assert (P := revol_run_piv _ _ _ T1 O R). assert (T2 := run_type _ _ _ R). rewrite T1 in T2.
  destruct j2; cbn in T2; try discriminate. cbn in G. injection G as <- <-.
  unfold pivots, j1 in P. cbn in P. injection P as P. now rewrite P.
Qed.

(** ** Stability: setting a joint to its own displacement *)
Definition stable (j : joint F) : Prop := joint_lim_dis j (joint_get_dis j) = Some (joint_get_dis j).
Definition is_norm (t : F) : Prop := - x_pi < t /\ t <= x_pi.
Lemma clamp_cases (v : F) lo hi : limits_ok lo hi ->
  clamp v lo hi = v \/ (lo = Some (clamp v lo hi) /\ v < clamp v lo hi) \/ (hi = Some (clamp v lo hi) /\ clamp v lo hi < v).
Proof.
  intros LO. unfold clamp. destruct lo as [l|].
  - destruct (nltb v l) eqn:B.
    + destruct hi as [h|].
      * assert (C : nltb h l = false) by (apply nltb_ge; exact LO). rewrite C.
        right; left. split; [reflexivity|]. now apply nltb_lt.
      * right; left. split; [reflexivity|]. now apply nltb_lt.
    + destruct hi as [h|]; [|now left]. destruct (nltb h v) eqn:C; [|now left].
      right; right. split; [reflexivity|]. now apply nltb_lt.
  - destruct hi as [h|]; [|now left]. destruct (nltb h v) eqn:C; [|now left].
    right; right. split; [reflexivity|]. now apply nltb_lt.
Qed.
Lemma clamp_lo (v : F) l hi : limits_ok (Some l) hi -> v < l -> clamp v (Some l) hi = l.
Proof.
  intros LO H. unfold clamp. apply nltb_lt in H. rewrite H. destruct hi as [h|]; [|reflexivity].
  assert (C : nltb h l = false) by (apply nltb_ge; exact LO). now rewrite C.
Qed.
Lemma clamp_hi (v : F) lo h : limits_ok lo (Some h) -> h < v -> clamp v lo (Some h) = h.
Proof.
  intros LO H. unfold clamp. destruct lo as [l|].
  - assert (B : nltb v l = false) by (apply nltb_ge; apply nlt_le in H; exact (nle_trans _ _ _ LO H)).
    rewrite B. apply nltb_lt in H. now rewrite H.
  - apply nltb_lt in H. now rewrite H.
Qed.
Lemma clamp_ph_stable v (lo hi : option F) : limits_ok lo hi ->
  clamp (x_phnorm (clamp (x_phnorm v) lo hi)) lo hi = clamp (x_phnorm v) lo hi.
Proof.
  intros LO.
  assert (W : within lo hi (clamp (x_phnorm v) lo hi)) by (apply clamp_within; exact LO).
  assert (V : x_phnorm (x_phnorm v) = x_phnorm v) by (apply x_ph_id; [apply x_ph_lo | apply x_ph_hi]).
  destruct (clamp_cases (x_phnorm v) lo hi LO) as [K|[[K D]|[K D]]].
  - rewrite K, V. exact K.
  - remember (clamp (x_phnorm v) lo hi) as d eqn:Ed. clear Ed. subst lo.
    assert (D' := nlt_trans _ _ _ (x_ph_lo v) D).
    destruct (nle_or_lt d x_pi) as [D1|D1].
    + rewrite (x_ph_id D' D1). now apply clamp_id.
    + apply clamp_lo; [exact LO|]. apply (nle_lt_trans _ _ _ (x_ph_hi d) D1).
  - remember (clamp (x_phnorm v) lo hi) as d eqn:Ed. clear Ed. subst hi.
    assert (D' := nlt_le_trans _ _ _ D (x_ph_hi v)). apply nlt_le in D'.
    destruct (nle_or_lt d (- x_pi)) as [D1|D1].
    + apply clamp_hi; [exact LO|]. apply (nle_lt_trans _ _ _ D1 (x_ph_lo d)).
    + rewrite (x_ph_id D1 D'). now apply clamp_id.
Qed.

Lemma lim_dis_eq (j j' : joint F) l : jtype_of j' = jtype_of j -> lims j' = lims j -> joint_lim_dis j' l = joint_lim_dis j l.
Proof.
  intros T K. unfold lims in K.
  destruct j, j'; cbn in T; try discriminate T; try reflexivity; cbn in K; injection K; intros;
    cbn; unfold lim_rot, lim_lin; repeat match goal with H : _ = _ :> option F |- _ => rewrite H; clear H end; reflexivity.
Qed.
Lemma stable_eq (j j' : joint F) : jtype_of j' = jtype_of j -> lims j' = lims j -> joint_get_dis j' = joint_get_dis j ->
  stable j -> stable j'.
Proof. intros T K D S. unfold stable in *. rewrite D, (lim_dis_eq j j' _ T K). exact S. Qed.
Lemma set_dis_lim (j : joint F) l j' : joint_set_dis j l = Some j' -> joint_lim_dis j l = Some (joint_get_dis j').
Proof. intros H. destruct j; cbn in H; rd_inv H; injection H as <-; reflexivity. Qed.
Lemma set_dis_stable (j : joint F) l j' : limits_ordered j -> joint_set_dis j l = Some j' -> stable j'.
Proof.
  intros LO H. unfold stable.
  assert (T : forall i lo hi, nth_error (joint_get_min j) i = Some lo -> nth_error (joint_get_max j) i = Some hi -> limits_ok lo hi)
    by exact LO.
  destruct j; cbn in H; rd_inv H; injection H as <-; cbn; unfold lim_rot, lim_lin; cbn;
    try reflexivity;
    assert (T0 := T 0%nat _ _ eq_refl eq_refl); try assert (T1 := T 1%nat _ _ eq_refl eq_refl); cbn in *;
    rewrite ?clamp_ph_stable by assumption; rewrite ?clamp_idem by assumption; reflexivity.
Qed.
Lemma step_sets_dis_type (j : joint F) o j' : sets_dis o -> joint_step j o = Some j' ->
  exists l j1, joint_set_dis j l = Some j1 /\ joint_get_dis j' = joint_get_dis j1 /\ lims j' = lims j1 /\ jtype_of j' = jtype_of j1.
Proof.
  intros S H. destruct (step_sets_dis _ _ _ S H) as (l & j1 & H1 & H2 & H3).
  exists l, j1. repeat split; try assumption.
  rewrite (step_type _ _ _ H). symmetry. exact (step_type j (OSetDis l) j1 H1).
Qed.
Lemma step_stable (j : joint F) o j' : limits_ordered j -> stable j -> ~ changes_limits o -> joint_step j o = Some j' -> stable j'.
Proof.
  intros LO S C H.
  assert (D : sets_dis o \/ ~ sets_dis o) by (destruct o; cbn; auto).
  destruct D as [D|D].
  - destruct (step_sets_dis_type _ _ _ D H) as (l & j1 & H1 & H2 & H3 & H4).
    apply (stable_eq j1); try assumption. eapply set_dis_stable; eassumption.
  - destruct (step_other _ _ _ D C H) as [H1 H2]. apply (stable_eq j); try assumption. eapply step_type; eassumption.
Qed.
Lemma run_stable ops : forall (j j' : joint F), limits_ordered j -> stable j -> (forall o, In o ops -> ~ changes_limits o) ->
  joint_run j ops = Some j' -> stable j'.
Proof.
  induction ops as [|o ops IH]; cbn; intros j j' LO S C H.
  - now injection H as <-.
  - unfold obind in H. destruct (joint_step j o) as [j1|] eqn:S1; [|discriminate].
    assert (Co : ~ changes_limits o) by (apply C; now left).
    apply (IH j1); [| |intros o' I; apply C; now right|exact H].
    + apply (limits_ordered_eq j); [|exact LO]. exact (step_lims _ _ _ Co S1).
    + eapply step_stable; eassumption.
Qed.
Lemma sets_dis_cache (j : joint F) o j' : sets_dis o -> joint_step j o = Some j' -> cache_ok j'.
Proof.
  intros S H. destruct o; cbn in S; try contradiction; cbn in H.
  - eapply set_dis_cache; eassumption.
  - destruct j; cbn in H; rd_inv H; injection H as <-; cbn; auto.
  - eapply set_dis_cache; eassumption.
  - eapply copy_state_cache; eassumption.
Qed.
Lemma settled_stable (j : joint F) : settled j -> stable j /\ cache_ok j.
Proof.
  intros (j0 & o & j1 & ops & LO & D & S & C & R). split.
  - destruct (step_sets_dis_type _ _ _ D S) as (l & j2 & H1 & H2 & H3 & H4).
    apply (run_stable ops j1); try assumption.
    + apply (limits_ordered_eq j0); [|exact LO]. exact (step_lims _ _ _ (sets_dis_not_limits _ D) S).
    + apply (stable_eq j2); try assumption. eapply set_dis_stable; eassumption.
  - eapply run_cache; [|exact R]. eapply sets_dis_cache; eassumption.
Qed.

(** ** Copying state *)
Lemma same_cache_xform (a b : joint F) : jtype_of a = jtype_of b -> cache_ok a -> cache_ok b ->
  joint_get_dis a = joint_get_dis b -> forall fo, joint_xform a fo = joint_xform b fo.
Proof.
  intros T Ka Kb D fo. destruct (cache_doc a fo Ka) as (f & A1 & A2). destruct (cache_doc b fo Kb) as (g & B1 & B2).
  rewrite T, D, B1 in A1. injection A1 as <-. now rewrite A2, B2.
Qed.
Lemma get_gen_length g gs gf (j : joint F) : List.length (joint_get_gen g gs gf j) = joint_size j.
Proof. destruct j; reflexivity. Qed.
Lemma set_dis_total (j : joint F) l : (joint_size j <= List.length l)%nat -> exists j', joint_set_dis j l = Some j'.
Proof.
  intros H. destruct j; cbn in H |- *; repeat (destruct l; [cbn in H; exfalso; Lia.lia|]); cbn; eexists; reflexivity.
Qed.
Lemma set_gen_total g gs gf (j : joint F) l : (joint_size j <= List.length l)%nat -> exists j', joint_set_gen g gs gf j l = Some j'.
Proof.
  intros H. destruct j; cbn in H |- *; repeat (destruct l; [cbn in H; exfalso; Lia.lia|]); cbn; eexists; reflexivity.
Qed.
Lemma step_size (j j' : joint F) : jtype_of j' = jtype_of j -> joint_size j' = joint_size j.
Proof. unfold joint_size. now intros ->. Qed.
Lemma set_gen_type g gs gf (j : joint F) l j' : joint_set_gen g gs gf j l = Some j' -> jtype_of j' = jtype_of j.
Proof. intros H. destruct j; cbn in H; rd_inv H; injection H as <-; reflexivity. Qed.
Lemma set_dis_type (j : joint F) l j' : joint_set_dis j l = Some j' -> jtype_of j' = jtype_of j.
Proof. intros H. destruct j; cbn in H; rd_inv H; injection H as <-; reflexivity. Qed.
Lemma copy_state_total (src dst : joint F) : jtype_of src = jtype_of dst -> exists j', joint_copy_state src dst = Some j'.
Proof.
  intros T. assert (S : joint_size src = joint_size dst) by (unfold joint_size; now rewrite T).
  unfold joint_copy_state, obind.
  destruct (set_dis_total dst (joint_get_dis src)) as [j1 H1]; [unfold joint_get_dis; rewrite get_gen_length; Lia.lia|].
  rewrite H1. apply set_dis_type, step_size in H1.
  unfold joint_set_vel, joint_set_acc, joint_set_trq.
  edestruct set_gen_total as [j2 H2]; [|rewrite H2]; [unfold joint_get_vel; rewrite get_gen_length; Lia.lia|].
  apply set_gen_type, step_size in H2.
  edestruct set_gen_total as [j3 H3]; [|rewrite H3]; [unfold joint_get_acc; rewrite get_gen_length; Lia.lia|].
  apply set_gen_type, step_size in H3.
  apply set_gen_total. unfold joint_get_trq; rewrite get_gen_length; Lia.lia.
Qed.

Lemma copy_state_vals (src dst j' : joint F) : jtype_of src = jtype_of dst -> joint_copy_state src dst = Some j' ->
  joint_get_vel j' = joint_get_vel src /\ joint_get_acc j' = joint_get_acc src /\ joint_get_trq j' = joint_get_trq src /\
  joint_lim_dis dst (joint_get_dis src) = Some (joint_get_dis j').
Proof.
  intros T H. destruct src, dst; cbn in T; try discriminate T; cbn in H; injection H as <-; repeat split; reflexivity.
Qed.
Lemma copy_state_same (src dst : joint F) : settled src -> jtype_of src = jtype_of dst -> same_limits src dst ->
  exists dst', joint_copy_state src dst = Some dst' /\ same_state dst' src /\ same_limits dst' dst /\ jtype_of dst' = jtype_of dst.
Proof.
  intros S T [L1 L2]. destruct (settled_stable _ S) as [St Ch].
  destruct (copy_state_total src dst T) as [d H]. exists d. split; [exact H|].
  destruct (copy_state_vals _ _ _ T H) as (V & A & Q & D).
  assert (LL : lims src = lims dst) by (unfold lims; congruence).
  rewrite (lim_dis_eq src dst) in D by (symmetry; assumption).
  unfold stable in St. rewrite St in D. injection D as D.
  assert (Td : jtype_of d = jtype_of dst) by exact (step_type dst (OCopyFrom src) d H).
  split; [|split].
  - repeat split; try assumption; [now symmetry|]. apply same_cache_xform; try congruence.
    eapply copy_state_cache; eassumption.
  - assert (K := step_lims dst (OCopyFrom src) d (fun x => x) H). now apply lims_eq in K.
  - exact Td.
Qed.

(** ** Cloning *)
Lemma motor_clone_eq (m c : motor F) : motor_clone m c = m.
Proof. destruct m as [n []]; reflexivity. Qed.
Lemma x_ph_idem (t : F) : x_phnorm (x_phnorm t) = x_phnorm t.
Proof. apply x_ph_id; [apply x_ph_lo | apply x_ph_hi]. Qed.
Lemma clone_default (j : joint F) : settled j -> default_params j -> joint_clone j = Some j.
Proof.
  intros S [D B]. destruct (settled_stable _ S) as [St Ch]. unfold stable in St.
  destruct j; cbn in D, St, Ch; cbn; try reflexivity.
  - destruct r as [[] s c m]; cbn in *. destruct (D _ (or_introl eq_refl)) as (?&?&?&?&?&?&?&?&?). cbn in *. subst.
    unfold lim_rot in St; cbn in St. unfold revol_setdis, lim_rot; cbn. injection St as St. rewrite motor_clone_eq, St. destruct Ch; subst. reflexivity.
  - destruct p as [[] m]; cbn in *. destruct (D _ (or_introl eq_refl)) as (?&?&?&?&?&?&?&?&?). cbn in *. subst.
    rewrite motor_clone_eq. reflexivity.
  - destruct c as [[] [] s c m]; cbn in *. destruct (D _ (or_introl eq_refl)) as (?&?&?&?&?&?&?&?&?).
    destruct (D _ (or_intror (or_introl eq_refl))) as (?&?&?&?&?&?&?&?&?). cbn in *. subst.
    unfold lim_rot in St; cbn in St. unfold cylin_setdis, lim_rot; cbn. injection St as St. rewrite motor_clone_eq, St. destruct Ch; subst. reflexivity.
  - destruct h as [[] [] s0 c0 s1 c1 m]; cbn in *. destruct (D _ (or_introl eq_refl)) as (?&?&?&?&?&?&?&?&?).
    destruct (D _ (or_intror (or_introl eq_refl))) as (?&?&?&?&?&?&?&?&?). cbn in *. subst.
    unfold lim_rot in St; cbn in St. unfold hooke_setdis, lim_rot; cbn. injection St as St St'. rewrite motor_clone_eq, St, St'.
    destruct Ch as [[] []]; subst. reflexivity.
  - destruct s; cbn in *. rewrite motor_clone_eq. unfold spher_setdis. cbn. vdestruct. cbn. cbn in Ch. rewrite Ch. reflexivity.
  - destruct f; cbn in *. unfold float_setdis; cbn. vdestruct. cbn in *. rewrite Ch. reflexivity.
  - destruct (B _ _ _ eq_refl) as [-> ->]. destruct f; cbn in *. unfold float_setdis; cbn. vdestruct. cbn in *. rewrite Ch. reflexivity.
Qed.
Lemma clone_basic (j c : joint F) : joint_clone j = Some c ->
  jtype_of c = jtype_of j /\ joint_get_vel c = joint_get_vel j /\ joint_get_acc c = joint_get_acc j /\
  joint_get_trq c = joint_get_trq j /\ joint_motor c = joint_motor j.
Proof.
  intros H. destruct j; cbn in H; injection H as <-; cbn; rewrite ?motor_clone_eq; repeat split; try reflexivity.
Qed.
Lemma clone_dis (j c : joint F) : settled j ->
  (forall d, In d (angles_of j) -> is_norm d) -> joint_clone j = Some c -> same_state c j.
Proof.
  intros S Nm H. destruct (clone_basic _ _ H) as (T & V & A & Q & _).
  destruct (settled_stable _ S) as [_ Ch].
  assert (D : joint_get_dis c = joint_get_dis j /\ cache_ok c).
  { destruct j; cbn in H; injection H as <-; cbn; unfold lim_rot; cbn;
      try (pose proof (Nm _ (or_introl eq_refl)) as [? ?]); try (pose proof (Nm _ (or_intror (or_introl eq_refl))) as [? ?]); cbn in *;
      rewrite ?x_ph_id by assumption; repeat split. }
  destruct D as [D Cc]. repeat split; try assumption. apply same_cache_xform; assumption.
Qed.
Lemma copy_state_motor (src dst j' : joint F) : jtype_of src = jtype_of dst -> joint_copy_state src dst = Some j' ->
  joint_motor j' = joint_motor dst.
Proof.
  intros T H. destruct src, dst; cbn in T; try discriminate T; cbn in H; injection H as <-; reflexivity.
Qed.
Lemma clone_lim_dis (j c : joint F) : joint_clone j = Some c -> (forall x, In x (angles_of j) -> is_norm x) ->
  joint_lim_dis c (joint_get_dis j) = Some (joint_get_dis j).
Proof.
  intros H Nm. destruct j; cbn in H; injection H as <-; cbn in Nm |- *; unfold lim_rot; cbn;
    try (pose proof (Nm _ (or_introl eq_refl)) as [? ?]); try (pose proof (Nm _ (or_intror (or_introl eq_refl))) as [? ?]); cbn in *;
    rewrite ?x_ph_id by assumption; reflexivity.
Qed.
(** Copying the state once more, as rkChainClone does, changes nothing that can be read. *)
Lemma clone_copy (j c d : joint F) : joint_clone j = Some c -> joint_copy_state j c = Some d ->
  jtype_of d = jtype_of j /\ joint_get_vel d = joint_get_vel j /\ joint_get_acc d = joint_get_acc j /\
  joint_get_trq d = joint_get_trq j /\ joint_motor d = joint_motor j /\ cache_ok d /\
  (settled j -> (forall x, In x (angles_of j) -> is_norm x) -> same_state d j).
Proof.
  intros H K. assert (Cc := copy_state_cache _ _ _ K).
  destruct (clone_basic _ _ H) as (T & V & A & Q & M).
  assert (M' := copy_state_motor _ _ _ (eq_sym T) K).
  destruct (copy_state_vals _ _ _ (eq_sym T) K) as (V' & A' & Q' & D').
  assert (T' : jtype_of d = jtype_of j) by (rewrite <- T; exact (step_type c (OCopyFrom j) d K)).
  split; [exact T'|]. do 3 (split; [assumption|]). split; [congruence|split; [exact Cc|]].
  intros S Nm. destruct (settled_stable _ S) as [_ Ch].
  rewrite (clone_lim_dis _ _ H Nm) in D'. injection D' as D'.
  repeat split; try assumption; [now symmetry|]. apply same_cache_xform; try assumption. now symmetry.
Qed.

(** ** Friction, duality, axes *)
Lemma rest_power (a : ax1 F) : rest_trq a * a_vel a =
  - (a_stiff a * a_dis a * a_vel a) - (a_visc a * (a_vel a * a_vel a) + a_coul a * (a_vel a * nsgn (a_vel a))).
Proof. unfold rest_trq. ring. Qed.
Lemma axis_dissip (a : ax1 F) : 0 <= a_visc a -> 0 <= a_coul a ->
  0 <= a_visc a * (a_vel a * a_vel a) + a_coul a * (a_vel a * nsgn (a_vel a)).
Proof.
  intros H1 H2. apply nle_0_add; apply nle_0_mul; try assumption; [apply nle_0_sqr | apply nsgn_mul].
Qed.
Lemma kfric_power (j : joint F) old : scalar_axes (jtype_of j) ->
  (forall a, In a (axes_of j) -> 0 <= a_visc a /\ 0 <= a_coul a) ->
  exists D, 0 <= D /\ dotl (joint_get_kfriction j old) (joint_get_vel j) = - elastic_power j - D.
Proof.
  intros T C. destruct j; cbn in T; try contradiction; cbn in C;
  pose proof (C _ (or_introl eq_refl)) as [C1 C2];
  pose proof (axis_dissip _ C1 C2) as D1;
  try (pose proof (C _ (or_intror (or_introl eq_refl))) as [C3 C4]; pose proof (axis_dissip _ C3 C4) as D2);
  cbn; unfold elastic_power; cbn; rewrite ?rest_power.
  1,2: eexists; split; [exact D1 | ring].
  all: eexists; split; [exact (nle_0_add _ _ D1 D2) | ring].
Qed.

Lemma inc_vel_add (j : joint F) v : joint_inc_vel j v = v6add v (joint_inc_vel j v6zero).
Proof.
  destruct j; cbn [joint_inc_vel]; unfold add_ang; try (vdestruct; vunfold; vsplit; ring).
Qed.
Lemma trq_dual (j : joint F) w v :
  dotl (joint_get_trq (joint_calc_trq j w)) (joint_get_vel j) = v6dot w (v6sub (joint_inc_vel j v) v).
Proof.
  assert (K : forall a b : vec6 F, v6sub (v6add a b) a = b) by (intros; vprep; ring).
  rewrite inc_vel_add, K.
  destruct j as [|r|p|c|h|s|f|f ef et]; cbn -[v6dot m3v m3tv m3v6 m3tv6]; unfold add_ang, hooke_vec, m3v6, m3tv6, v6add, v6zero; 
    try (destruct w as [[] []]; vunfold; ring).
Qed.

Lemma dotl_app_nil (a b c : list F) : List.length a = List.length b -> dotl a (b ++ c) = dotl a b.
Proof.
  revert b. induction a as [|x a IH]; destruct b as [|y b]; cbn; intros H; try discriminate; try reflexivity.
  f_equal. apply IH. now injection H.
Qed.
Lemma trq_dual_vel (j : joint F) w qd j1 v : joint_set_vel j qd = Some j1 ->
  dotl (joint_get_trq (joint_calc_trq j w)) qd = v6dot w (v6sub (joint_inc_vel j1 v) v).
Proof.
  intros H. rewrite <- trq_dual.
  assert (T : joint_get_trq (joint_calc_trq j1 w) = joint_get_trq (joint_calc_trq j w) /\
              exists rest, qd = joint_get_vel j1 ++ rest).
  { destruct j; cbn in H; rd_inv H; injection H as <-; (split; [reflexivity|]); cbn; eexists; reflexivity. }
  destruct T as [-> [rest ->]]. apply dotl_app_nil.
  unfold joint_get_trq, joint_get_vel. rewrite !get_gen_length.
  apply set_gen_type in H. unfold joint_size. rewrite H. now destruct j.
Qed.

Lemma axes_ang (j : joint F) f v :
  axis_sum (joint_ang_axes j f) (joint_get_vel j) = m3v (fatt f) (v3sub (vang (joint_inc_vel j v)) (vang v)).
Proof.
  destruct j as [|r|p|c|h|s|g|g ef et]; cbn; unfold add_ang, hooke_vec; destruct f as [fp fm], v as [v1 v2]; cbn.
  7,8: destruct g as [? gv ? ? gm]; cbn.
  6: destruct s as [? gv ? ? gm ?]; cbn.
  all: vdestruct; vunfold; vsplit; ring.
Qed.
Lemma axes_lin (j : joint F) f v :
  axis_sum (joint_lin_axes j f) (joint_get_vel j) = m3v (fatt f) (v3sub (vlin (joint_inc_vel j v)) (vlin v)).
Proof.
  destruct j as [|r|p|c|h|s|g|g ef et]; cbn; unfold add_ang, hooke_vec; destruct f as [fp fm], v as [v1 v2]; cbn.
  7,8: destruct g as [? gv ? ? gm]; cbn.
  6: destruct s as [? gv ? ? gm ?]; cbn.
  all: vdestruct; vunfold; vsplit; ring.
Qed.

(** ** Type lookup *)
Lemma query_in l s t : joint_query l s = Some t -> In t l /\ jtype_str t = s.
Proof.
  induction l as [|u l IH]; cbn; [discriminate|].
  destruct (String.eqb (jtype_str u) s) eqn:B; intros H.
  - injection H as <-. apply String.eqb_eq in B. auto.
  - destruct (IH H). auto.
Qed.
Lemma ph0 : x_phnorm 0 = 0 :> F.
Proof.
  assert (P := x_pi_pos). apply x_ph_id.
  - apply (nlt_le_neq). split.
    + apply nlt_le in P. assert (K := nle_opp _ _ P). replace (- 0) with (0 : F) in K by ring. exact K.
    + intros H. apply nlt_neq in P. apply P. transitivity (- - x_pi); [rewrite H|]; ring.
  - now apply nlt_le.
Qed.
Lemma assign_neutral t : exists j : joint F, joint_assign t = Some j /\ joint_typestr j = jtype_str t /\
  joint_size j = jtype_size t /\ joint_get_dis j = repeat 0 (jtype_size t).
Proof.
  destruct t; cbn; eexists; (split; [reflexivity|]); cbn; unfold lim_rot, lim_lin; cbn; rewrite ?ph0; repeat split.
Qed.
Lemma query_doc s n : In (s, n) doc_types -> exists t, joint_query joint_com_array s = Some t /\ jtype_str t = s /\ jtype_size t = n.
Proof.
  cbn. intros H. repeat (destruct H as [H|H]; [injection H as <- <-; eexists; repeat split; reflexivity|]). contradiction.
Qed.
Lemma query_undoc s : (forall n, ~ In (s, n) doc_types) -> joint_query joint_com_array s = None.
Proof.
  intros H. destruct (joint_query joint_com_array s) as [t|] eqn:Q; [|reflexivity].
  apply query_in in Q as [I <-]. exfalso. apply (H (jtype_size t)). destruct t; cbn; auto 10.
Qed.
Lemma query_assign_doc (j : joint F) s n : In (s, n) doc_types ->
  exists j', joint_query_assign j s = Some (j', true) /\ joint_typestr j' = s /\ joint_size j' = n /\
             joint_get_dis j' = repeat 0 n.
Proof.
  intros I. destruct (query_doc _ _ I) as (t & Q & S & Sz). destruct (assign_neutral t) as (j' & A & B & C & D).
  exists j'. unfold joint_query_assign. rewrite Q, A. cbn. subst. auto.
Qed.
End P.
