(** * Seq_Proofs: the state of a chain after a step depends on the last vectors only. *)
From Coq Require Import Bool String List Arith Lia Field.
From Verif Require Import Num NumFacts Vec VecFacts Motor_Model Joint_Model Joint_Spec Joint_Proofs Body_Model Tree Tree_Proofs
  Link_Model Link_Spec Link_Proofs Chain_Proofs Link_Properties Chain_Properties Kin_Spec Kin_Proofs Kin_Properties Jacobi_Proofs Ztk_Model Ztk_Proofs Ztk_Chain Urdf_Proofs Cad_Model Seq_Model Seq_Spec.
Import ListNotations.

Section Erase.
Context {F : Type} {N : Num F} {L : NumLaws F N} {E : Ext F} {C : CadExt F}.
Add Field FFieldSeq : num_field.
Local Open Scope num_scope.
Notation lk := (link F).

(** ** Joints up to their torques, up to their rates and torques, up to their whole state *)
Definition jmap (fa : ax1 F -> ax1 F) (fs : spher F -> spher F) (ff : floatj F -> floatj F) (cache : bool) (j : joint F) : joint F :=
  let k (x : F) := if cache then x else 0 in
  match j with
  | JFixed => JFixed
  | JRevol r => JRevol (RV (fa (rv_a r)) (k (rv_s r)) (k (rv_c r)) (rv_m r))
  | JPrism p => JPrism (PR (fa (pr_a p)) (pr_m p))
  | JCylin c => JCylin (CY (fa (cy_0 c)) (fa (cy_1 c)) (k (cy_s c)) (k (cy_c c)) (cy_m c))
  | JHooke h => JHooke (HK (fa (hk_0 h)) (fa (hk_1 h)) (k (hk_s0 h)) (k (hk_c0 h)) (k (hk_s1 h)) (k (hk_c1 h)) (hk_m h))
  | JSpher s => JSpher (fs s)
  | JFloat f => JFloat (ff f)
  | JBrFloat f a b => JBrFloat (ff f) a b
  end.
Definition jtrq := jmap (ax_trq 0) (fun s => SP (sp_aa s) (sp_vel s) (sp_acc s) v3zero (sp_att s) (sp_m s))
  (fun f => FL (fl_dis f) (fl_vel f) (fl_acc f) v6zero (fl_att f)) true.
Definition jrate := jmap (fun a => ax_trq 0 (ax_vel 0 (ax_acc 0 a))) (fun s => SP (sp_aa s) v3zero v3zero v3zero (sp_att s) (sp_m s))
  (fun f => FL (fl_dis f) v6zero v6zero v6zero (fl_att f)) true.
Definition jbase := jmap (fun a => ax_dis 0 (ax_trq 0 (ax_vel 0 (ax_acc 0 a)))) (fun s => SP v3zero v3zero v3zero v3zero m3id (sp_m s))
  (fun f => FL v6zero v6zero v6zero v6zero m3id) false.
Local Ltac jr := repeat match goal with
  | r : revol F |- _ => destruct r | p : prism F |- _ => destruct p | c : cylin F |- _ => destruct c
  | h : hooke F |- _ => destruct h | s : spher F |- _ => destruct s | f : floatj F |- _ => destruct f | a : ax1 F |- _ => destruct a end.
Local Ltac jd := repeat match goal with j : joint F |- _ => destruct j end; jr.
Local Ltac je H := cbn in H; try discriminate H; first [injection H; clear H; intros; subst|clear H].
Local Ltac inj H := first [injection H; clear H; intros; subst|clear H].

Lemma trq_rate j j' : jtrq j = jtrq j' -> jrate j = jrate j'.
Proof. intros H. jd; je H; reflexivity. Qed.
Lemma rate_base j j' : jrate j = jrate j' -> jbase j = jbase j'.
Proof. intros H. jd; je H; reflexivity. Qed.
Lemma base_size j j' : jbase j = jbase j' -> joint_size j = joint_size j'.
Proof. intros H. jd; je H; reflexivity. Qed.
Lemma base_type j j' : jbase j = jbase j' -> jtype_of j = jtype_of j'.
Proof. intros H. jd; je H; reflexivity. Qed.
Lemma rate_xform j j' : jrate j = jrate j' -> joint_xform j = joint_xform j'.
Proof. intros H. jd; je H; reflexivity. Qed.
Lemma rate_dis j j' : jrate j = jrate j' -> joint_get_dis j = joint_get_dis j'.
Proof. intros H. jd; je H; reflexivity. Qed.
Lemma trq_vel j j' : jtrq j = jtrq j' -> joint_inc_vel j = joint_inc_vel j' /\ joint_inc_acc_on_vel j = joint_inc_acc_on_vel j' /\ joint_inc_acc j = joint_inc_acc j'.
Proof. intros H. jd; je H; (split; [reflexivity|split; reflexivity]). Qed.
Lemma calc_trq_eq j j' w : jtrq j = jtrq j' -> joint_calc_trq j w = joint_calc_trq j' w.
Proof. intros H. jd; je H; reflexivity. Qed.
Lemma calc_trq_trq j w : jtrq (joint_calc_trq j w) = jtrq j.
Proof. destruct j; reflexivity. Qed.

(** Setting displacements. *)
Lemma set_dis_rate j j' l k : jbase j = jbase j' -> joint_set_dis j l = Some k -> exists k', joint_set_dis j' l = Some k' /\ jrate k = jrate k'.
Proof. intros B H. destruct j, j'; jr; je B; cbn in H; rd_inv H; inj H; cbn; eexists; (split; [reflexivity|reflexivity]). Qed.
Lemma set_dis_base j l k : joint_set_dis j l = Some k -> jbase k = jbase j.
Proof. intros H. destruct j; jr; cbn in H; rd_inv H; inj H; reflexivity. Qed.
Lemma set_dis_vel j l k : joint_set_dis j l = Some k -> joint_get_vel k = joint_get_vel j.
Proof. intros H. destruct j; jr; cbn in H; rd_inv H; inj H; reflexivity. Qed.
Lemma set_cnt_rate j l dt k : joint_set_dis_cnt j l dt = Some k -> exists k', joint_set_dis j l = Some k' /\ jrate k = jrate k'.
Proof. intros H. destruct j; jr; cbn in H; rd_inv H; inj H; cbn; eexists; (split; [reflexivity|reflexivity]). Qed.
Lemma set_rates j v w a b : joint_set_vel j v = Some a -> joint_set_acc a w = Some b -> jrate b = jrate j /\ joint_get_vel b = firstn (joint_size j) v /\ joint_get_acc b = firstn (joint_size j) w.
Proof.
  intros A B. assert (S : joint_size a = joint_size j) by (unfold joint_size; now rewrite (proj2 (set_vel_ok) _ _ _ A)).
  split; [|split; [rewrite (set_acc_vel _ _ _ B); eapply set_vel_get; eauto|rewrite <- S; eapply set_acc_get; eauto]].
  clear S. destruct j; jr; cbn in A; rd_inv A; inj A; cbn in B; rd_inv B; inj B; reflexivity.
Qed.
(** Torques are all that can differ between joints with the same displacements and rates. *)
Lemma trq_of j j' : jrate j = jrate j' -> joint_get_vel j = joint_get_vel j' -> joint_get_acc j = joint_get_acc j' -> jtrq j = jtrq j'.
Proof.
  intros H V A. jd; je H; cbn in V, A; inj V; inj A; vdestruct; cbn in *; subst; reflexivity.
Qed.
Lemma cnt_rates j l dt k prev : cache_ok j -> joint_get_dis j = firstn (joint_size j) prev -> joint_set_dis_cnt j l dt = Some k ->
  exists d, joint_sub_dis j l prev = Some d /\ joint_get_vel k = map (fun x => x / dt) d /\ joint_get_acc k = quotient dt (map (fun x => x / dt) d) (joint_get_vel j).
Proof.
  intros CO D H. destruct j; jr; cbn in H, CO; rd_inv H; inj H; unfold joint_size in D; cbn in D;
  repeat match type of D with context [match ?p with [] => _ | _ :: _ => _ end] => destruct p; cbn in D; try discriminate D end; try (inj D).
  all: cbn; vdestruct; cbn in *; subst.
  1-5: eexists; (split; [reflexivity|split; reflexivity]).
  all: eexists; (split; [reflexivity|split; reflexivity]).
Qed.

(** ** Links that agree on more and more *)
Definition lfix (l : lk) := (l_name l, b_mp (l_body l), b_extw (l_body l), l_offset l, l_org l, (l_parent l, l_child l, l_sibl l)).
Definition posed (l : lk) := (l_adj l, l_frame l, b_wcom (l_body l)).
Definition moving (l : lk) := (l_vel l, l_acc l, b_comvel (l_body l), b_comacc (l_body l)).
Definition S0 (l l' : lk) : Prop := lfix l = lfix l' /\ jbase (l_joint l) = jbase (l_joint l').
Definition S1 (l l' : lk) : Prop := lfix l = lfix l' /\ jrate (l_joint l) = jrate (l_joint l').
Definition S2 (l l' : lk) : Prop := S1 l l' /\ posed l = posed l'.
Definition S3 (l l' : lk) : Prop := lfix l = lfix l' /\ jtrq (l_joint l) = jtrq (l_joint l') /\ posed l = posed l'.
Definition S4 (l l' : lk) : Prop := S3 l l' /\ moving l = moving l'.
Definition S5 (l l' : lk) : Prop := S4 l l' /\ l_wrench l = l_wrench l' /\ l_joint l = l_joint l'.
Lemma S10 l l' : S1 l l' -> S0 l l'. Proof. intros [A B]. split; [exact A|now apply rate_base]. Qed.
Lemma S50 l l' : S5 l l' -> S0 l l'. Proof. intros [[[A _] _] [_ B]]. split; [exact A|now rewrite B]. Qed.
Lemma S20 l l' : S2 l l' -> S0 l l'. Proof. intros [A _]. now apply S10. Qed.
Lemma S0_trans a b c : S0 a b -> S0 b c -> S0 a c. Proof. intros [A B] [A' B']. split; congruence. Qed.
Lemma S0_sym a b : S0 a b -> S0 b a. Proof. intros [A B]. split; congruence. Qed.
Lemma S0_refl a : S0 a a. Proof. split; reflexivity. Qed.
Local Ltac tup H := unfold lfix, posed, moving in H; injection H; clear H; intros.
Lemma fix_refs l l' : lfix l = lfix l' -> same_refs l_parent l_child l_sibl l l'.
Proof. intros H. tup H. repeat split; congruence. Qed.
Lemma F2_mono {A B} (P Q : A -> B -> Prop) l m : (forall a b, P a b -> Q a b) -> Forall2 P l m -> Forall2 Q l m.
Proof. intros H. induction 1; constructor; auto. Qed.
Lemma F2_sym {A} (P : A -> A -> Prop) l m : (forall a b, P a b -> P b a) -> Forall2 P l m -> Forall2 P m l.
Proof. intros H. induction 1; constructor; auto. Qed.
Lemma F2_trans {A} (P : A -> A -> Prop) l m n : (forall a b c, P a b -> P b c -> P a c) -> Forall2 P l m -> Forall2 P m n -> Forall2 P l n.
Proof. intros T H. revert n. induction H as [|a b l m H _ IH]; intros n G; inversion G; subst; constructor; eauto. Qed.
Lemma F2_refl {A} (P : A -> A -> Prop) l : (forall a, P a a) -> Forall2 P l l.
Proof. intros T. induction l; constructor; auto. Qed.

Lemma down_rel {P} (upd : lk -> P -> lk) (par : lk -> P) p0 (R R' : lk -> lk -> Prop) h h1 d d1 :
  processed_down upd par p0 h h1 -> processed_down upd par p0 d d1 -> well_formed h ->
  (forall l l', R l l' -> lfix l = lfix l') -> (forall l l' p, R l l' -> R' (upd l p) (upd l' p)) -> (forall l l', R' l l' -> par l = par l') ->
  Forall2 R h d -> Forall2 R' h1 d1.
Proof.
  intros [LH PH] [LD PD] W RF UP PR RR. pose proof (forall2_len _ _ _ RR) as LE.
  assert (K : forall i t, lineage h i t -> forall a b, nth_error h1 i = Some a -> nth_error d1 i = Some b -> R' a b).
  { induction 1 as [i l Hl HP|i l q t Hl HP _ IH]; intros a b Ha Hb;
    (destruct (Forall2_nth _ _ _ RR i l Hl) as (m & Hm & RM); destruct (PH i l Hl) as (p & Q1 & X1); destruct (PD i m Hm) as (p' & Q2 & X2);
     assert (a = upd l p) by congruence; assert (b = upd m p') by congruence; subst a b;
     assert (HP' : l_parent m = l_parent l) by (pose proof (RF _ _ RM) as Z; tup Z; congruence); rewrite HP in X1, HP'; rewrite HP' in X2).
    - destruct X1 as [_ ->], X2 as [_ ->]. now apply UP.
    - destruct X1 as (lq & Z1 & ->), X2 as (mq & Z2 & ->). rewrite (PR lq mq); [now apply UP|]. now apply IH. }
  apply forall2_of_nth; [lia|]. intros i a b Ha Hb. pose proof (nth_lt _ _ _ Ha) as Hi. rewrite LH in Hi.
  destruct (wf_lineage h i W Hi) as (t & LT & _). eapply K; eauto.
Qed.
Lemma pick_rel (R' : lk -> lk -> Prop) (h1 d1 : list lk) is : length d1 = length h1 -> (forall i a b, In i is -> nth_error h1 i = Some a -> nth_error d1 i = Some b -> R' a b) ->
  Forall2 R' (pick h1 is) (pick d1 is).
Proof.
  intros LE. induction is as [|i is IH]; intros H; [constructor|]. cbn [pick].
  assert (G : Forall2 R' (pick h1 is) (pick d1 is)) by (apply IH; intros j a b I; apply H; now right).
  destruct (nth_error h1 i) as [a|] eqn:Qa; destruct (nth_error d1 i) as [b|] eqn:Qb; [constructor; [eapply H; eauto; now left|exact G]| | |exact G].
  - apply nth_error_None in Qb. pose proof (nth_lt _ _ _ Qa). lia.
  - apply nth_error_None in Qa. pose proof (nth_lt _ _ _ Qb). lia.
Qed.
Lemma up_rel (pre : lk -> lk) (upd : lk -> list lk -> lk) (R R' : lk -> lk -> Prop) h h1 d d1 f :
  solved_up pre upd h h1 f -> solved_up pre upd d d1 f ->
  (forall l l' cs cs', R l l' -> Forall2 R' cs cs' -> R' (upd (pre l) cs) (upd (pre l') cs')) ->
  Forall2 R h d -> length d1 = length h1 -> forall i a b, In i (ids f) -> nth_error h1 i = Some a -> nth_error d1 i = Some b -> R' a b.
Proof.
  intros SH SD UP RR LE. induction f as [|j k IHk r IHr]; intros i a b I Ha Hb; [destruct I|].
  destruct SH as (l & A1 & B1 & C1 & D1). destruct SD as (m & A2 & B2 & C2 & D2). cbn [ids] in I. destruct I as [<-|I].
  - destruct (Forall2_nth _ _ _ RR j l A1) as (m' & Hm & RM). assert (m' = m) by congruence. subst m'.
    assert (a = upd (pre l) (pick h1 (roots k))) by congruence. assert (b = upd (pre m) (pick d1 (roots k))) by congruence. subst a b.
    apply UP; [exact RM|]. apply pick_rel; [exact LE|]. intros i a b I Ha' Hb'. eapply (IHk C1 C2); eauto using roots_ids.
  - apply in_app_or in I as [I|I]; [eapply IHk|eapply IHr]; eauto.
Qed.

(** ** The passes *)
Definition crel (P : lk -> lk -> Prop) (c d : chain F) : Prop := Forall2 P (c_links c) (c_links d) /\ c_mass c = c_mass d.
Lemma rel_wf (P : lk -> lk -> Prop) (h d : list lk) : (forall a b, P a b -> lfix a = lfix b) -> Forall2 P h d -> well_formed h -> well_formed d.
Proof. intros Q R W. eapply wf_of_refs; [|exact W]. eapply F2_mono; [|exact R]. intros a b H. apply fix_refs. auto. Qed.
Lemma fold_rel {B} (P : lk -> lk -> Prop) (f : B -> lk -> B) h d : (forall z a b, P a b -> f z a = f z b) -> Forall2 P h d -> forall z, fold_left f h z = fold_left f d z.
Proof. intros Q. induction 1 as [|a b h d H _ IH]; intros z; [reflexivity|]. cbn. rewrite (Q z a b H). apply IH. Qed.
Lemma fk_rel c c1 d d1 : well_formed (c_links c) -> crel S1 c d -> chain_update_fk c = Some c1 -> chain_update_fk d = Some d1 ->
  well_formed (c_links c1) /\ crel S2 c1 d1 /\ c_wcom c1 = c_wcom d1.
Proof.
  intros W [R M] A B. pose proof (rel_wf _ _ _ (fun a b H => proj1 H) R W) as WD.
  destruct (C24_frame_pass c W) as (x & QA & PA & WA). destruct (C24_frame_pass d WD) as (y & QB & PB & WB).
  assert (K : Forall2 S2 (c_links x) (c_links y)).
  { eapply (down_rel upd_frame l_frame fid S1 S2); [exact PA|exact PB|exact W|intros ? ? [? _]; assumption| | |exact R].
    - intros l l' p [Hf Hj]. assert (Hx := rate_xform _ _ Hj). tup Hf. split; [split; [unfold lfix, upd_frame; cbn; congruence|exact Hj]|].
      unfold posed, upd_frame. cbn. rewrite Hx. congruence.
    - intros l l' [_ Hp]. tup Hp. congruence. }
  unfold chain_update_fk in A, B. unfold chain_update_frame, chain_lift in QA, QB, A, B. destruct (update_frame (c_fuel c) (c_links c) 0 fid) as [hc|]; [|discriminate]. destruct (update_frame (c_fuel d) (c_links d) 0 fid) as [hd|]; [|discriminate].
  cbn [option_map] in *. injection QA as QA. injection QB as QB. injection A as A. injection B as B. subst x y c1 d1. split; [exact WA|]. split; [split; [exact K|exact M]|]. cbn [c_wcom chain_calc_com c_links c_set_links c_mass] in *. rewrite M. f_equal.
  apply (fold_rel S2); [|exact K]. intros z a b [[Hf _] Hp]. tup Hf. tup Hp. unfold l_mass. congruence.
Qed.
Lemma rate_step l l' p : S3 l l' -> S4 (upd_rate l p) (upd_rate l' p).
Proof.
  intros (Hf & Hj & Hp). destruct (trq_vel _ _ Hj) as (E1 & E2 & E3).
  assert (A1 : l_adj l = l_adj l') by (clear -Hp; tup Hp; congruence). assert (A2 : b_mp (l_body l) = b_mp (l_body l')) by (clear -Hf; tup Hf; congruence).
  split; [split; [exact Hf|split; [exact Hj|exact Hp]]|]. unfold moving, upd_rate, upd_acc, upd_vel, l_vel, l_acc. cbn. rewrite A1, A2, E1, E2, E3. reflexivity.
Qed.
Lemma wrench_step l l' cs cs' : S4 l l' -> Forall2 S5 cs cs' -> S5 (wr_post (wr_pre l) cs) (wr_post (wr_pre l') cs').
Proof.
  intros [(Hf & Hj & Hp) Hm] HC.
  assert (A1 : b_mp (l_body l) = b_mp (l_body l')) by (clear -Hf; tup Hf; congruence). assert (A2 : b_extw (l_body l) = b_extw (l_body l')) by (clear -Hf; tup Hf; congruence).
  assert (A3 : b_vel (l_body l) = b_vel (l_body l') /\ b_acc (l_body l) = b_acc (l_body l') /\ b_comacc (l_body l) = b_comacc (l_body l')) by (clear -Hm; tup Hm; unfold l_vel, l_acc in *; repeat split; congruence).
  destruct A3 as (A3 & A4 & A5).
  assert (WR : l_wrench (wr_pre l) = l_wrench (wr_pre l')) by (unfold wr_pre, body_net_wrench, l_com; cbn; rewrite A1, A3, A4, A5; reflexivity).
  assert (W2 : l_wrench (wr_post (wr_pre l) cs) = l_wrench (wr_post (wr_pre l') cs')).
  { unfold wr_post. cbn -[wr_pre]. rewrite WR. f_equal; [|unfold body_ext_wrench, wr_pre; cbn; rewrite A2; reflexivity].
    apply (fold_rel S5); [|exact HC]. intros z a b [[(_ & _ & Qp) _] [Qw _]]. tup Qp. congruence. }
  split; [split; [split; [exact Hf|split; [|exact Hp]]|exact Hm]|split; [exact W2|]].
  - unfold wr_post, wr_pre. cbn. rewrite !calc_trq_trq. exact Hj.
  - change (joint_calc_trq (l_joint l) (l_wrench (wr_post (wr_pre l) cs)) = joint_calc_trq (l_joint l') (l_wrench (wr_post (wr_pre l') cs'))). rewrite W2. now apply calc_trq_eq.
Qed.
Lemma id_rel g c c1 d d1 : well_formed (c_links c) -> crel S3 c d -> c_wcom c = c_wcom d -> chain_update_id g c = Some c1 -> chain_update_id g d = Some d1 ->
  well_formed (c_links c1) /\ crel S5 c1 d1 /\ c_wcom c1 = c_wcom d1 /\ c_comvel c1 = c_comvel d1 /\ c_comacc c1 = c_comacc d1.
Proof.
  intros W [R M] MC A B. pose proof (rel_wf _ _ _ (fun a b H => proj1 H) R W) as WD.
  destruct (C24_rate_pass g c W) as (x & QA & PA & WA). destruct (C24_rate_pass g d WD) as (y & QB & PB & WB).
  assert (K : Forall2 S4 (c_links x) (c_links y)).
  { eapply (down_rel upd_rate (fun l => (l_vel l, l_acc l)) (v6zero, grav g) S3 S4); [exact PA|exact PB|exact W|intros ? ? [? _]; assumption|apply rate_step| |exact R].
    intros l l' [_ Hp]. tup Hp. congruence. }
  assert (MX : c_mass x = c_mass c /\ c_wcom x = c_wcom c /\ c_mass y = c_mass d /\ c_wcom y = c_wcom d).
  { clear -QA QB. unfold chain_update_rate, chain_lift in *. destruct (update_rate (c_fuel c) (c_links c) 0 (v6zero, grav g)); [|discriminate]. destruct (update_rate (c_fuel d) (c_links d) 0 (v6zero, grav g)); [|discriminate].
    injection QA as <-. injection QB as <-. repeat split. }
  destruct MX as (M1 & M2 & M3 & M4).
  unfold chain_update_id, obind in A, B. rewrite QA in A. rewrite QB in B.
  destruct (walk_up_wf wr_pre wr_post (c_links x) (c_fuel x)) as (h1 & U1 & L1 & T1 & _); [intros; repeat split|intros; repeat split|exact WA|unfold c_fuel; lia|].
  destruct (walk_up_wf wr_pre wr_post (c_links y) (c_fuel y)) as (h2 & U2 & L2 & T2 & _); [intros; repeat split|intros; repeat split|exact WB|unfold c_fuel; lia|].
  pose proof (forall2_len _ _ _ K) as LK.
  destruct (C24_wrench_pass x WA) as (xw & QX & _ & WX). destruct (C24_wrench_pass y WB) as (yw & QY & _ & WY).
  rewrite QX in A. rewrite QY in B. unfold chain_update_wrench, chain_lift, update_wrench in QX, QY. rewrite U1 in QX. rewrite U2 in QY. cbn [option_map] in *. injection QX as <-. injection QY as <-. injection A as <-. injection B as <-.
  assert (K5 : Forall2 S5 h1 h2).
  { apply forall2_of_nth; [lia|]. intros i a b Ha Hb. pose proof WA as [k TK].
    assert (TK2 : tree_of (c_links y) k) by (eapply well_formed_refs; [| |exact TK]; [lia|]; intros j l Hl; destruct (Forall2_nth _ _ _ K j l Hl) as (l' & Hl' & [[Q _] _]); exists l'; split; [exact Hl'|now apply fix_refs]).
    eapply (up_rel wr_pre wr_post S4 S5); [apply (T1 k TK)|apply (T2 k TK2)|apply wrench_step|exact K|lia| |exact Ha|exact Hb].
    apply (tree_in _ _ _ TK). pose proof (nth_lt _ _ _ Ha). lia. }
  assert (MASS : forall a b, S5 a b -> l_mass a = l_mass b /\ l_frame a = l_frame b /\ b_comvel (l_body a) = b_comvel (l_body b) /\ b_comacc (l_body a) = b_comacc (l_body b)).
  { intros a b [[(Hf & _ & Hp) Hm] _]. tup Hf. tup Hp. tup Hm. unfold l_mass. repeat split; congruence. }
  split; [exact WX|]. split; [split; [exact K5|cbn; congruence]|]. cbn. split; [congruence|]. rewrite M1, M3, M.
  split; (apply (fold_rel S5); [|exact K5]; intros z a b H; destruct (MASS a b H) as (Q1 & Q2 & Q3 & Q4); rewrite Q1, Q2, ?Q3, ?Q4; reflexivity).
Qed.

(** What the passes keep. *)
Definition kept (l l' : lk) : Prop := lfix l = lfix l' /\ jtrq (l_joint l) = jtrq (l_joint l').
Lemma fk_kept c c1 : well_formed (c_links c) -> chain_update_fk c = Some c1 -> Forall2 (fun l l' => lfix l = lfix l' /\ l_joint l = l_joint l') (c_links c) (c_links c1) /\ c_mass c1 = c_mass c.
Proof.
  intros W A. destruct (C24_frame_pass c W) as (x & QA & [LA PA] & WA). unfold chain_update_fk in A. rewrite QA in A. injection A as <-. split.
  - apply forall2_of_nth; [cbn; congruence|]. intros i l l' Hl Hl'. destruct (PA i l Hl) as (p & Hp & _). cbn in Hl'. assert (l' = upd_frame l p) by congruence. subst l'. split; reflexivity.
  - clear -QA. unfold chain_update_frame, chain_lift in QA. destruct (update_frame (c_fuel c) (c_links c) 0 fid); [|discriminate]. injection QA as <-. reflexivity.
Qed.
Lemma id_kept g c c1 : well_formed (c_links c) -> chain_update_id g c = Some c1 -> Forall2 kept (c_links c) (c_links c1) /\ c_mass c1 = c_mass c.
Proof.
  intros W A. destruct (C24_rate_pass g c W) as (x & QA & [LA PA] & WA). destruct (C24_wrench_pass x WA) as (y & QX & [LX PX] & _). unfold chain_update_id, obind in A. rewrite QA, QX in A. injection A as <-. split.
  - apply forall2_of_nth; [cbn; congruence|]. intros i l l' Hl Hl'. destruct (PA i l Hl) as (p & Hp & _). destruct (PX i _ Hp) as (cs & ls & _ & _ & Hq). cbn in Hl'. assert (l' = wr_post (wr_pre (upd_rate l p)) ls) by congruence. subst l'.
    split; [reflexivity|]. unfold wr_post. cbn. now rewrite calc_trq_trq.
  - cbn. clear -QA QX. unfold chain_update_rate, chain_update_wrench, chain_lift in *. destruct (update_rate (c_fuel c) (c_links c) 0 (v6zero, grav g)); [|discriminate]. injection QA as <-. destruct (update_wrench _ _ _); [|discriminate]. injection QX as <-. reflexivity.
Qed.
Lemma trq_gets j j' : jtrq j = jtrq j' -> joint_get_dis j = joint_get_dis j' /\ joint_get_vel j = joint_get_vel j' /\ (cache_ok j -> cache_ok j').
Proof. intros H. jd; je H; (split; [reflexivity|split; [reflexivity|]]); intros H; exact H. Qed.
Lemma rate_cache j j' : jrate j = jrate j' -> cache_ok j -> cache_ok j'.
Proof. intros H K. jd; je H; exact K. Qed.
Lemma set_vel_base j l k : joint_set_vel j l = Some k -> jbase k = jbase j.
Proof. intros H. destruct j; jr; cbn in H; rd_inv H; inj H; reflexivity. Qed.
Lemma set_acc_base j l k : joint_set_acc j l = Some k -> jbase k = jbase j.
Proof. intros H. destruct j; jr; cbn in H; rd_inv H; inj H; reflexivity. Qed.
Lemma size0 (j : joint F) : joint_size j = 0%nat -> j = JFixed.
Proof. destruct j; intros H; try discriminate H. reflexivity. Qed.
Lemma sub_type j j' d v : jtype_of j = jtype_of j' -> joint_sub_dis j d v = joint_sub_dis j' d v.
Proof. destruct j, j'; intros H; try discriminate H; reflexivity. Qed.
Lemma rd_total (l : list F) : ((1 <= length l)%nat -> exists a, rd1 l = Some a) /\ ((2 <= length l)%nat -> exists a b, rd2 l = Some (a, b)) /\
  ((3 <= length l)%nat -> exists a, rd3 l = Some a) /\ ((6 <= length l)%nat -> exists a, rd6 l = Some a).
Proof. destruct l as [|? [|? [|? [|? [|? [|? ?]]]]]]; cbn; repeat split; intros; try lia; eauto. Qed.
Lemma sub_total j d v : (joint_size j <= length d)%nat -> (joint_size j <= length v)%nat -> exists r, joint_sub_dis j d v = Some r /\ length r = joint_size j.
Proof.
  intros A B. destruct (rd_total d) as (A1 & A2 & A3 & A6). destruct (rd_total v) as (B1 & B2 & B3 & B6). destruct j; unfold joint_size in *; cbn [jtype_of jtype_size joint_sub_dis] in *.
  1: eauto.
  1,2: destruct (A1 A) as (? & ->), (B1 B) as (? & ->); eauto.
  1,2: destruct (A2 A) as (? & ? & ->), (B2 B) as (? & ? & ->); eauto.
  1: destruct (A3 A) as (? & ->), (B3 B) as (? & ->); eauto.
  all: destruct (A6 A) as (? & ->), (B6 B) as (? & ->); eauto.
Qed.
End Erase.
