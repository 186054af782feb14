(** * Ikapp_Hold: the state of rk_ik between steps, and steps that ask for nothing. *)
From Coq Require Import List Arith Lia Bool Field.
From Verif Require Import Num NumFacts Vec VecFacts Motor_Model Joint_Model Joint_Spec Joint_Proofs Body_Model Tree Tree_Proofs Link_Model Link_Spec Link_Properties Chain_Proofs Chain_Properties Jacobi_Model Kin_Spec Kin_Proofs Jacobi_Proofs
  Urdf_Proofs IK_Model IK_Laws IK_Spec IK_Cells IK_Index IK_Dims IK_Rows IK_Usable Kin_Properties IKCell_Properties IKSeq_Properties IKRow_Properties IKSolve_Properties Ikapp_Model Ikapp_Spec Ikapp_Proofs.
Import ListNotations.

Section Hold.
Context {F : Type} {N : Num F} {L : NumLaws F N} {E : Ext F} {X : ExtLaws F N E} {I : IKExt F}.
Add Field FFieldIkH : num_field.
Notation registered c ops := (asked_all (length (c_links c)) (movable c) ops).

Lemma run_more (a : list (op F)) : forall b (c : chain F) s, run c s (a ++ b) = obind (run c s a) (fun r => run (fst r) (snd r) b).
Proof. induction a as [|o a IH]; intros b c s; [reflexivity|]. cbn [run app]. destruct (run_op c s o) as [r|]; [cbn; apply IH|reflexivity]. Qed.
Lemma run_next (c c1 c2 : chain F) (s s1 s2 : solver F) ops o : run c s ops = Some (c1, s1) -> run_op c1 s1 o = Some (c2, s2) -> run c s (ops ++ [o]) = Some (c2, s2).
Proof. intros R H. rewrite run_more, R. cbn. rewrite H. reflexivity. Qed.
(** A call that registers and unregisters no joint. *)
Definition no_joint (o : op F) : bool := match o with JReg _ _ | JUnreg _ | JRegAll _ => false | _ => true end.
Lemma registered_next (c : chain F) ops o : no_joint o = true -> registered c (ops ++ [o]) = registered c ops.
Proof. intros H. unfold asked_all. rewrite fold_left_app. destruct o; try discriminate; reflexivity. Qed.

(** The chain, the joints it started with, the calls so far. *)
Definition state_ok (c : chain F) (ops : list (op F)) (c1 : chain F) (s : solver F) : Prop :=
  run c (ik_create c) ops = Some (c1, s) /\ same_joints c c1 /\ good c (registered c ops) c1 s.
Context (c : chain F) (LE : le_laws x_le) (O : chain_set_offset c = c).

Lemma good_same f c1 (s s' : solver F) : s_vel s' = s_vel s -> (forall x, In x (s_cells s') -> fit (length (c_links c)) (snd x)) -> good c f c1 s -> good c f c1 s'.
Proof. intros V K (A & B & D & Q & _). split; [exact A|]. split; [exact B|]. split; [exact D|]. split; [eapply quiet_vel; eauto|exact K]. Qed.
Lemma state_same ops c1 (s s' : solver F) o : no_joint o = true -> run_op c1 s o = Some (c1, s') -> s_vel s' = s_vel s -> (forall x, In x (s_cells s') -> fit (length (c_links c)) (snd x)) ->
  state_ok c ops c1 s -> state_ok c (ops ++ [o]) c1 s'.
Proof.
  intros NJ H V K (R & J & G). split; [eapply run_next; eauto|]. split; [exact J|]. rewrite registered_next by exact NJ. eapply good_same; eauto.
Qed.
Lemma good_fit f c1 s x : good c f c1 s -> In x (s_cells s) -> fit (length (c_links c)) (snd x).
Proof. intros (_ & _ & _ & _ & K). apply K. Qed.
Lemma deact_ok ops c1 (s : solver F) : state_ok c ops c1 s -> state_ok c (ops ++ [Deactivate]) c1 (ik_deactivate s).
Proof.
  intros G. apply (state_same ops c1 s); auto. intros x Hx. unfold ik_deactivate in Hx. cbn in Hx. apply in_map_iff in Hx as (y & <- & Hy). apply (good_fit _ _ _ y (proj2 (proj2 G))) in Hy.
  exact Hy.
Qed.
Lemma bind_ok ops c1 (s s' : solver F) : ik_bind c1 s = Some s' -> state_ok c ops c1 s -> state_ok c (ops ++ [Bind]) c1 s'.
Proof.
  intros B G. apply (state_same ops c1 s); auto; [cbn; now rewrite B| |]; unfold ik_bind in B; (destruct (bind_cells c1 (s_cells s)) as [l|] eqn:Q; [|discriminate]); injection B as <-; [reflexivity|].
  cbn. intros [a ce'] Hx. destruct (bind_in c1 _ _ Q a ce' Hx) as (ce & H1 & H2). eapply bind_fit; [exact H2|]. exact (good_fit _ _ _ (a, ce) (proj2 (proj2 G)) H1).
Qed.
Lemma seq_ok ops c1 (s : solver F) e : (forall x ax, In x (sq_entries e) -> 0 <= comp ax (e_w x))%num -> state_ok c ops c1 s -> state_ok c (ops ++ [SetSeq e]) c1 (seq_set s e).
Proof.
  intros W G. pose proof (C67_sequence c c1 s ops e (proj1 G)) as K. cbn [run_op option_map] in K. injection K as K.
  apply (state_same ops c1 s); auto; rewrite K; [reflexivity|]. cbn. intros x Hx. apply in_map_iff in Hx as (y & <- & Hy). cbn. apply follows_fit; [exact W|]. exact (good_fit _ _ _ y (proj2 (proj2 G)) Hy).
Qed.
Lemma acm_ok ops c1 (s : solver F) : state_ok c ops c1 s -> state_ok c (ops ++ [AcmZero]) c1 (ik_acm_zero s).
Proof. intros G. apply (state_same ops c1 s); auto. apply (tolds_fit _ _ _ (acm_told s)). intros x. apply (good_fit _ _ _ x (proj2 (proj2 G))). Qed.
Lemma one_ok ops c1 (s : solver F) d dt c2 s2 d2 : wanted c (registered c ops) <> [] -> ik_solve_one c1 s d dt = Some (c2, s2, d2) -> state_ok c ops c1 s -> state_ok c (ops ++ [One d dt]) c2 s2.
Proof.
  intros W H (R & J & (Po & Or & St & Q & K)). pose proof (posed_usable _ Po) as U. pose proof (one_rate _ _ _ _ _ _ _ H) as Rt.
  assert (Ro : run_op c1 s (One d dt) = Some (c2, s2)) by (cbn; rewrite H; reflexivity).
  assert (R2 := run_next _ _ _ _ _ _ _ _ R Ro). split; [exact R2|]. destruct (run_inv LE _ c (fun _ => None) (ik_create c) c2 s2 (create_inv c) R2) as [_ J2]. split; [exact J2|].
  rewrite registered_next by reflexivity. split; [eapply solve_one_posed; eauto|]. split; [eapply respects_ordered; [exact Or|eapply one_respects; eauto]|]. split; [eapply one_steady; eauto|]. split.
  - pose proof (C47_only_registered_move_partial c c1 s s2 ops LE O R W Rt) as Mg. apply (quiet_same c1 c); [now apply same_sym|]. eapply merged_quiet; [|exact Mg]. eapply quiet_same; eauto.
  - apply (tolds_fit _ _ _ (rate_told _ _ _ Rt)). exact K.
Qed.
Lemma steps_ok n : forall ops c1 (s : solver F) d c2 s2 d2, wanted c (registered c ops) <> [] -> steps n (c1, s, d) = Some (c2, s2, d2) -> state_ok c ops c1 s ->
  same_joints c c2 /\ good c (registered c ops) c2 s2.
Proof.
  induction n as [|n IH]; cbn [steps fst snd]; intros ops c1 s d c2 s2 d2 W H G; [injection H as <- <- _; apply G|]. unfold obind in H.
  destruct (ik_solve_one c1 s d 1%num) as [[[c3 s3] d3]|] eqn:A; [|discriminate]. pose proof (one_ok _ _ _ _ _ _ _ _ W A G) as G3.
  pose proof (IH (ops ++ [One d 1%num]) c3 s3 d3 c2 s2 d2) as K. rewrite registered_next in K by reflexivity. auto.
Qed.
Lemma solve_ok ops c1 (s : solver F) v tol iter c2 s2 d2 r : wanted c (registered c ops) <> [] -> ik_solve c1 s v tol iter = Some (c2, s2, d2, r) -> state_ok c ops c1 s ->
  state_ok c (ops ++ [Solve v tol iter]) c2 s2.
Proof.
  intros W H G. destruct (C50_report _ _ _ _ _ _ _ _ _ H) as (d0 & n & _ & _ & S & _). pose proof (acm_ok _ _ _ G) as Ga.
  pose proof (steps_ok n (ops ++ [AcmZero]) c1 (ik_acm_zero s) d0 c2 s2 d2) as K. rewrite registered_next in K by reflexivity. specialize (K W S Ga).
  split; [|split; [apply K|rewrite registered_next by reflexivity; apply K]]. eapply run_next; [exact (proj1 G)|]. cbn. rewrite H. reflexivity.
Qed.
(** The vector handed back. *)
Lemma solve_dis ops c1 (s : solver F) v tol iter c2 s2 d2 r : state_ok c ops c1 s -> length v = chain_joint_size c -> ik_solve c1 s v tol iter = Some (c2, s2, d2, r) ->
  d2 = displacements c2 /\ length d2 = chain_joint_size c.
Proof.
  intros (R & J & (Po & Or & _)) Lv H. pose proof (posed_usable _ Po) as U. destruct (C50_report _ _ _ _ _ _ _ _ _ H) as (d0 & n & D & _ & S & _).
  assert (Lv1 : length v = chain_joint_size c1) by (rewrite (same_joints_total c c1 J); exact Lv). rewrite (get_chain c1 v (proj1 (proj2 U)) Lv1) in D. injection D as <-.
  assert (D2 : d2 = displacements c2).
  { destruct n as [|n]; [cbn in S; injection S as <- _ <-; reflexivity|]. exact (proj2 (steps_respect n c1 _ _ c2 s2 d2 U Or (dis_size c1) S)). }
  split; [exact D2|]. rewrite D2, dis_size. assert (J2 : same_joints c c2); [|apply same_joints_total; exact J2].
  assert (Rs : run_op c1 s (Solve v tol iter) = Some (c2, s2)) by (cbn; rewrite H; reflexivity).
  apply (run_inv LE _ c (fun _ => None) (ik_create c) c2 s2 (create_inv c) (run_next _ _ _ _ _ _ _ _ R Rs)).
Qed.

(** ** Nothing to correct *)
Lemma calm_told c1 l l' : tolds l' = tolds l -> calm c1 l -> calm c1 l'.
Proof.
  intros T H x Hx. destruct (tolds_in _ _ _ T Hx) as (y & Hy & _ & K). specialize (H y Hy). rewrite (told_err c1 _ _ K). unfold told in K. injection K as K1 K2 K3 K4 K5 K6. unfold valid in *. rewrite K2, K3, K4. exact H.
Qed.
Lemma solve_rest tol k : forall i rest ops c1 (s : solver F), wanted c (registered c ops) <> [] ->
  (forall i w, In i (wanted c (registered c ops)) -> registered c ops i = Some w -> (0 < w)%num) -> unit_turns c1 ->
  state_ok c ops c1 s -> calm c1 (s_cells s) -> exists s2 r, solve_loop tol k i rest c1 s (displacements c1) = Some (c1, s2, displacements c1, r).
Proof.
  induction k as [|k IH]; intros i rest ops c1 s W Wj T G Ca; cbn [solve_loop]; [eauto|].
  destruct G as (R & J & G). pose proof G as (Po & Or & St & Q & K).
  destruct (rate_rest c c1 s ops LE O R Po W Wj Ca (quiet_same c c1 _ s J Q)) as (s1 & Rt & V & _).
  pose proof (one_same c1 s s1 1%num Po St T Rt V) as On. rewrite On. cbn [obind fst snd]. destruct (match rest with Some e => ntiny tol (s_eval s1 - e)%num | None => false end); [eauto|].
  apply (IH _ _ (ops ++ [One (displacements c1) 1%num])); rewrite ?registered_next by reflexivity; auto.
  - eapply one_ok; [exact W|exact On|]. split; [exact R|]. split; [exact J|exact G].
  - eapply calm_told; [exact (rate_told _ _ _ Rt)|exact Ca].
Qed.
Context (ERR : forall m : mat3 F, rotation m -> x_m3err m m = v3zero).
Lemma posed_rot (c1 : chain F) i l : posed c1 -> nth_error (c_links c1) i = Some l -> rotation (fatt (l_frame l)).
Proof.
  intros (c0 & (W & _ & JM & OR) & H) Hl. unfold chain_update_fk in H. destruct (chain_update_frame c0) as [c2|] eqn:A; [|discriminate]. injection H as <-. cbn [c_links chain_calc_com] in Hl.
  apply (C31_frames_rigid c0 c2 i l W JM OR A Hl).
Qed.
Lemma bind_total ops c1 (s : solver F) : state_ok c ops c1 s -> exists s', ik_bind c1 s = Some s'.
Proof.
  intros (_ & J & (_ & _ & _ & _ & K)). unfold ik_bind. pose proof (same_joints_len c c1 J) as Ln. rewrite <- Ln in K.
  assert (T : forall l, (forall x, In x l -> fit (length (c_links c1)) (snd x)) -> bind_cells c1 l <> None).
  { induction l as [|x l IH]; [discriminate|]. intros H. cbn [bind_cells]. destruct (H x (or_introl eq_refl)) as (_ & Vd & _ & Bd). specialize (IH (fun y Hy => H y (or_intror Hy))).
    destruct (bind_cells c1 l) as [t|]; [|easy]. unfold cell_bind, cell_bound, valid in *. destruct (snd x) as [ci [] a m p t0 q v]; cbn in *; try contradiction; try discriminate.
    - apply nth_error_Some in Vd. destruct (nth_error (c_links c1) (a_id a)); easy.
    - apply nth_error_Some in Vd. destruct (nth_error (c_links c1) (a_id a)); easy.
    - destruct Vd as [V1 V2]. apply nth_error_Some in V1, V2. destruct (nth_error (c_links c1) (a_sub a)), (nth_error (c_links c1) (a_id a)); easy.
    - destruct Vd as [V1 V2]. apply nth_error_Some in V1, V2. destruct (nth_error (c_links c1) (a_sub a)), (nth_error (c_links c1) (a_id a)); easy. }
  specialize (T _ K). destruct (bind_cells c1 (s_cells s)); [eexists; reflexivity|easy].
Qed.
Lemma unnamed_last (s : solver F) e id : unnamed s e -> In id (map (fun x => ce_id (snd x)) (s_cells s)) -> last_for id (sq_entries e) = None.
Proof.
  intros U H. apply in_map_iff in H as (x & <- & Hx). unfold last_for. destruct (find _ _) as [y|] eqn:Q; [|reflexivity]. apply find_some in Q as [Q1 Q2]. apply in_rev in Q1. apply Nat.eqb_eq in Q2. exfalso. exact (U x y Hx Q1 Q2).
Qed.
Lemma empty_rest tol iter ops c1 (s : solver F) v e : wanted c (registered c ops) <> [] ->
  (forall i w, In i (wanted c (registered c ops)) -> registered c ops i = Some w -> (0 < w)%num) -> unit_turns c1 ->
  state_ok c ops c1 s -> length v = chain_joint_size c -> unnamed s e ->
  exists sb s2 r, ik_bind c1 (ik_deactivate s) = Some sb /\ ik_solve c1 (seq_set sb e) v tol iter = Some (c1, s2, displacements c1, r).
Proof.
  intros W Wj T G Lv Em. pose proof (deact_ok _ _ _ G) as Gd. destruct (bind_total _ _ _ Gd) as (sb & B). exists sb. pose proof (bind_ok _ _ _ _ B Gd) as Gb.
  assert (Bi : forall a ce, In (a, ce) (s_cells sb) -> cell_err c1 ce = Some v3zero /\ last_for (ce_id ce) (sq_entries e) = None).
  { intros a ce Hx. destruct Gb as (_ & _ & Gb). destruct (good_fit _ _ _ _ Gb Hx) as (F1 & F2 & F3 & F4).
    destruct (C51_bind_zero_error_partial c1 (ik_deactivate s) sb a ce (fun i l => posed_rot c1 i l (proj1 (proj2 (proj2 G)))) ERR B Hx F4) as (Z1 & _ & ce0 & Z2 & Z3 & _). split; [exact Z1|].
    apply (unnamed_last s e _ Em). rewrite Z3. unfold ik_deactivate in Z2. cbn in Z2. apply in_map_iff in Z2 as (y & Z2 & Hy). injection Z2 as _ <-. apply in_map_iff. exists y. split; [reflexivity|exact Hy]. }
  assert (Sq : seq_set sb e = sb).
  { pose proof (C67_sequence c c1 sb _ e (proj1 Gb)) as K. cbn [run_op option_map] in K. injection K as K. rewrite K. rewrite (map_ext_in _ (fun x => x)), map_id; [destruct sb; reflexivity|].
    intros [a ce] Hx. cbn [fst snd]. unfold follows. rewrite (proj2 (Bi a ce Hx)). reflexivity. }
  rewrite Sq. pose proof (acm_ok _ _ _ Gb) as Ga. destruct G as (_ & J & G). pose proof G as (Po & _). pose proof (posed_usable _ Po) as U.
  assert (Lv1 : length v = chain_joint_size c1) by (rewrite (same_joints_total c c1 J); exact Lv). unfold ik_solve. rewrite (get_chain c1 v (proj1 (proj2 U)) Lv1). cbn [obind].
  match goal with |- context [solve_loop tol ?k] => destruct (solve_rest tol k 0 None (((ops ++ [Deactivate]) ++ [Bind]) ++ [AcmZero]) c1 (ik_acm_zero sb)) as (s2 & r & S) end; rewrite ?registered_next by reflexivity; auto.
  - eapply calm_told; [apply acm_told|]. intros [a ce] Hx. destruct Gb as (_ & _ & Gb). destruct (good_fit _ _ _ _ Gb Hx) as (F1 & F2 & F3 & F4). rewrite (same_joints_len c c1 J). repeat split; auto.
    intros _. exact (proj1 (Bi a ce Hx)).
  - exists s2, r. split; [exact B|exact S].
Qed.

(** ** Every step is defined *)
Lemma cat_total (j : joint F) d k v : joint_size j <= length d -> joint_size j <= length v -> exists r, joint_cat_dis j d k v = Some r.
Proof.
  intros D V. destruct j; cbn in D, V; repeat (destruct d as [|? d]; cbn in D; [lia|]); repeat (destruct v as [|? v]; cbn in V; [lia|]); cbn; eauto.
Qed.
Lemma cat_all_total k (h : list (link F)) : forall o (d v : list F), placed o h -> (o + total h <= length d)%nat -> (o + total h <= length v)%nat ->
  exists r, map_all2 (fun j d v => joint_cat_dis j d k v) h d v = Some r.
Proof.
  induction h as [|l h IH]; intros o d v P D V; [eexists; reflexivity|]. apply placed_cons in P as [Of P]. rewrite total_cons in *. cbn [map_all2]. rewrite Of.
  destruct (Nat.ltb_spec 0 (lsize l)) as [Sz|Sz]; [|apply (IH (o + lsize l)%nat); auto; lia].
  destruct (cat_total (l_joint l) (skipn o d) k (skipn o v)) as (r & Q); [rewrite skipn_length; unfold lsize in *; lia|rewrite skipn_length; unfold lsize in *; lia|].
  rewrite Q. cbn [obind]. assert (Lr : length (firstn (joint_size (l_joint l)) r) <= lsize l) by (rewrite firstn_length; unfold lsize; lia).
  assert (Wr := write_at_ok o (firstn (joint_size (l_joint l)) r) d ltac:(lia)). rewrite Wr. cbn [obind]. apply write_at_len in Wr. apply (IH (o + lsize l)%nat); auto; lia.
Qed.
Lemma fit_ready c1 (ce : cell F) : posed c1 -> fit (length (c_links c1)) ce -> cell_ready c1 ce.
Proof. intros (c0 & U & Fk) (_ & V & _). eapply valid_ready; eauto. Qed.
Lemma one_total ops c1 (s : solver F) d dt : wanted c (registered c ops) <> [] ->
  (forall i w, In i (wanted c (registered c ops)) -> registered c ops i = Some w -> (0 < w)%num) ->
  state_ok c ops c1 s -> length d = chain_joint_size c1 -> exists x, ik_solve_one c1 s d dt = Some x.
Proof.
  intros W Wj (R & J & G) Ld. pose proof G as (Po & Or & _ & _ & K). rewrite <- (same_joints_len c c1 J) in K. pose proof (posed_usable _ Po) as U.
  destruct (C49_minimiser c c1 s ops LE O R W (fun x Hx => fit_ready _ _ Po (K x Hx)) (fun x ax Hx => proj1 (proj2 (proj2 (K x Hx))) ax) Wj) as (s1 & Rt & _).
  unfold ik_solve_one. rewrite Rt. cbn [obind]. assert (P : placed 0 (c_links c1)) by exact (offsets_placed c1 (proj1 (proj2 U))).
  assert (Vl : length (s_vel s1) = chain_joint_size c1).
  { destruct (run_inv LE _ c (fun _ => None) (ik_create c) c1 s (create_inv c) R) as [H _]. exact (i_vel _ _ _ (solve_rate_inv LE c1 _ s s1 H Rt)). }
  unfold chain_cat_joint_dis_all. destruct (cat_all_total dt (c_links c1) 0 d (s_vel s1) P) as (d1 & Q); [rewrite <- chain_joint_size_total; lia|rewrite <- chain_joint_size_total; lia|]. rewrite Q. cbn [obind].
  apply map_all2_len in Q. unfold chain_set_joint_dis_all. destruct (set_all_spec joint_set_dis d1 (c_links c1) 0) as (h & Sa & _); [split; [intros; now apply set_dis_total|intros; eapply set_dis_type; eauto]|exact P|rewrite <- chain_joint_size_total; lia|].
  assert (Ac : chain_set_joint_dis_all c1 d1 = Some (c_set_links h c1)) by (unfold chain_set_joint_dis_all; rewrite Sa; reflexivity).
  rewrite Sa. cbn [option_map obind]. pose proof (usable_set _ _ _ U Ac) as U2.
  rewrite (get_chain (c_set_links h c1) d1 (proj1 (proj2 U2))) by (rewrite (same_joints_total _ _ (set_dis_joints _ _ _ Ac)); congruence). cbn [obind].
  destruct (C24_frame_pass (c_set_links h c1) (proj1 U2)) as (c2 & A2 & _). unfold chain_update_fk. rewrite A2. cbn. eauto.
Qed.
Lemma loop_total tol k : forall i rest ops c1 (s : solver F) d, wanted c (registered c ops) <> [] ->
  (forall i w, In i (wanted c (registered c ops)) -> registered c ops i = Some w -> (0 < w)%num) ->
  state_ok c ops c1 s -> length d = chain_joint_size c1 -> exists x, solve_loop tol k i rest c1 s d = Some x.
Proof.
  induction k as [|k IH]; intros i rest ops c1 s d W Wj G Ld; cbn [solve_loop]; [eauto|].
  destruct (one_total ops c1 s d 1%num W Wj G Ld) as ([[c2 s2] d2] & On). rewrite On. cbn [obind fst snd]. destruct (match rest with Some e => ntiny tol (s_eval s2 - e)%num | None => false end); [eauto|].
  apply (IH _ _ (ops ++ [One d 1%num])); rewrite ?registered_next by reflexivity; auto.
  - eapply one_ok; eauto.
  - destruct G as (_ & _ & (Po & _)). apply (one_dis c1 s d 1%num c2 s2 d2 (posed_usable _ Po) Ld On).
Qed.
Lemma solve_total tol iter ops c1 (s : solver F) v : wanted c (registered c ops) <> [] ->
  (forall i w, In i (wanted c (registered c ops)) -> registered c ops i = Some w -> (0 < w)%num) ->
  state_ok c ops c1 s -> length v = chain_joint_size c -> exists x, ik_solve c1 s v tol iter = Some x.
Proof.
  intros W Wj G Lv. pose proof G as (_ & J & (Po & _)). pose proof (posed_usable _ Po) as U. unfold ik_solve.
  rewrite (get_chain c1 v (proj1 (proj2 U))) by (rewrite (same_joints_total c c1 J); exact Lv). cbn [obind].
  apply (loop_total _ _ _ _ (ops ++ [AcmZero])); rewrite ?registered_next by reflexivity; auto using acm_ok, dis_size.
Qed.
End Hold.
