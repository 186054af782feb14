(** * Ikapp_Proofs: a chain that is where its references are does not move. *)
From Coq Require Import List Arith Lia Bool Field.
From Verif Require Import Num NumFacts Vec VecFacts Motor_Model Joint_Model Joint_Spec Joint_Proofs Body_Model Tree Tree_Proofs Link_Model Link_Spec Link_Properties Chain_Proofs Chain_Properties Jacobi_Model Kin_Spec Kin_Proofs Jacobi_Proofs
  Urdf_Proofs IK_Model IK_Laws IK_Spec IK_Cells IK_Index IK_Dims IK_Rows IK_Usable Kin_Properties IKCell_Properties IKSeq_Properties IKRow_Properties IKSolve_Properties Ikapp_Model Ikapp_Spec.
Import ListNotations.

Section Still.
Context {F : Type} {N : Num F} {L : NumLaws F N} {E : Ext F} {X : ExtLaws F N E} {I : IKExt F}.
Add Field FFieldIkA : num_field.
Notation lk := (link F).

(** ** Forward kinematics once more *)
Lemma nth_same {A} (l : list A) : forall m, (forall i, nth_error l i = nth_error m i) -> l = m.
Proof.
  induction l as [|a l IH]; intros [|b m] H; auto; try (specialize (H 0); discriminate). pose proof (H 0) as H0. cbn in H0. injection H0 as <-.
  f_equal. apply IH. intros i. exact (H (S i)).
Qed.
Lemma upd_frame_twice (l : lk) p : upd_frame (upd_frame l p) p = upd_frame l p.
Proof. reflexivity. Qed.
Lemma frame_again (h h1 h2 : list lk) : well_formed h -> processed_down upd_frame l_frame fid h h1 -> processed_down upd_frame l_frame fid h1 h2 -> h2 = h1.
Proof.
  intros W [L1 P1] [L2 P2].
  assert (K : forall i t, lineage h i t -> forall a b, nth_error h1 i = Some a -> nth_error h2 i = Some b -> b = a).
  { induction 1 as [i l Hl HP|i l q t Hl HP _ IH]; intros a b Ha Hb;
    (destruct (P1 i l Hl) as (p & Q1 & X1); destruct (P2 i a Ha) as (p' & Q2 & X2);
     assert (a = upd_frame l p) by congruence; assert (b = upd_frame a p') by congruence; subst a b;
     cbn [l_parent upd_frame] in X2; rewrite HP in X1; assert (HP' : l_parent (upd_frame l p) = l_parent l) by reflexivity; rewrite HP', HP in X2).
    - destruct X1 as [_ ->], X2 as [_ ->]. apply upd_frame_twice.
    - destruct X1 as (lq & Z1 & ->), X2 as (mq & Z2 & ->). rewrite (IH lq mq Z1 Z2). apply upd_frame_twice. }
  apply nth_same. intros i. destruct (nth_error h1 i) as [a|] eqn:Ha.
  - pose proof (nth_lt _ _ _ Ha) as Hi. rewrite L1 in Hi. destruct (wf_lineage h i W Hi) as (t & LT & _).
    destruct (nth_error h2 i) as [b|] eqn:Hb; [f_equal; eapply K; eauto|]. apply nth_error_None in Hb. lia.
  - apply nth_error_None in Ha. apply nth_error_None. lia.
Qed.
Lemma fk_again (c : chain F) : posed c -> chain_update_fk c = Some c.
Proof.
  intros (c0 & (W & _) & A). unfold chain_update_fk in A. destruct (C24_frame_pass c0 W) as (c1 & B & P1 & W1). rewrite B in A. injection A as <-.
  destruct (C24_frame_pass (chain_calc_com c1) W1) as (c2 & B2 & P2 & _). unfold chain_update_fk. rewrite B2. cbn [option_map].
  pose proof (frame_again _ _ _ W P1 P2) as Q.
  assert (M : c2 = c_set_links (c_links c2) (chain_calc_com c1)).
  { unfold chain_update_frame, chain_lift in B2. destruct (update_frame _ _ _ _); [|discriminate]. injection B2 as <-. reflexivity. }
  rewrite M, Q. destruct c1; reflexivity.
Qed.

(** ** Joints that are set to where they are *)
Lemma set_same (j : joint F) l : cache_ok j -> stable j -> firstn (joint_size j) l = joint_get_dis j -> joint_set_dis j l = Some j.
Proof.
  intros C S Q. unfold stable in S. rewrite <- Q, lim_dis_firstn in S. assert (LS := S). clear S.
  destruct (set_dis_total j l) as (k & K).
  { apply (f_equal (@length F)) in Q. rewrite get_dis_len, firstn_length in Q. lia. }
  rewrite K. pose proof (set_dis_lim _ _ _ K) as Lm. rewrite LS, Q in Lm. injection Lm as Lm. f_equal. symmetry.
  pose proof (set_dis_cache _ _ _ K) as Ck.
  destruct j; cbn in K; rd_inv K; injection K as <-; try reflexivity.
  all: cbn in Lm, C, Ck; try (injection Lm; intros).
  - destruct r as [a sn cs m]. cbn in *. unfold revol_setdis. cbn. destruct C as [C1 C2]. subst sn cs. rewrite <- H. destruct a; reflexivity.
  - destruct p as [a m]. cbn in *. unfold prism_setdis. cbn. rewrite <- H. destruct a; reflexivity.
  - destruct c as [a b sn cs m]. cbn in *. unfold cylin_setdis. cbn. destruct C as [C1 C2]. subst sn cs. rewrite <- H, <- H0. destruct a, b; reflexivity.
  - destruct h as [a b s0 c0 s1 c1 m]. cbn in *. unfold hooke_setdis. cbn. destruct C as [[C1 C2] [C3 C4]]. subst. rewrite <- H, <- H0. destruct a, b; reflexivity.
  - destruct s as [[x y z] v a t m o]. cbn in *. subst. reflexivity.
  - destruct f as [[[x y z] [u v w]] vel acc t m]. cbn in *. subst. reflexivity.
  - destruct f as [[[x y z] [u v w]] vel acc t m]. cbn in *. subst. reflexivity.
Qed.
Lemma zero_skip o n m : (o + m <= n)%nat -> exists t, skipn o (repeat (0 : F)%num n) = repeat 0%num m ++ t.
Proof.
  intros H. exists (repeat 0%num (n - o - m)). rewrite <- repeat_app. replace n with (o + (m + (n - o - m)))%nat at 1 by lia. rewrite repeat_app, skipn_app, skipn_all2 by (rewrite repeat_length; lia).
  rewrite repeat_length, Nat.sub_diag. reflexivity.
Qed.
Lemma cat_same (j : joint F) d k t : (turns j = true -> aa_unit) -> joint_size j <= length d -> joint_cat_dis j d k (repeat 0%num (joint_size j) ++ t) = Some (firstn (joint_size j) d).
Proof.
  intros T H. destruct j; cbn in *; repeat (destruct d as [|? d]; cbn in H; [lia|]); cbn.
  - reflexivity.
  - do 2 f_equal. ring.
  - do 2 f_equal. ring.
  - do 2 f_equal; [ring|f_equal; ring].
  - do 2 f_equal; [ring|f_equal; ring].
  - assert (Z : v3scale k (V3 0 0 0)%num = v3zero) by (unfold v3scale, v3zero; cbn; f_equal; ring). rewrite Z, (T eq_refl). reflexivity.
  - assert (Z : v3scale k (V3 0 0 0)%num = v3zero) by (unfold v3scale, v3zero; cbn; f_equal; ring). rewrite Z, (T eq_refl). cbn. do 2 f_equal; [ring|]. f_equal; [ring|]. f_equal. ring.
  - assert (Z : v3scale k (V3 0 0 0)%num = v3zero) by (unfold v3scale, v3zero; cbn; f_equal; ring). rewrite Z, (T eq_refl). cbn. do 2 f_equal; [ring|]. f_equal; [ring|]. f_equal. ring.
Qed.
Lemma write_same o n (d : list F) : (o + n <= length d)%nat -> write_at o (firstn n (skipn o d)) d = Some d.
Proof.
  intros H. assert (Le : length (firstn n (skipn o d)) = n) by (rewrite firstn_length, skipn_length; lia).
  rewrite write_at_ok by (rewrite Le; lia). rewrite Le. f_equal. rewrite <- (firstn_skipn o d) at 4. f_equal. rewrite <- (firstn_skipn n (skipn o d)) at 2. f_equal. rewrite skipn_skipn. f_equal. lia.
Qed.
Lemma cat_all k (d : list F) n (h : list lk) : forall s, placed s h -> (s + total h <= length d)%nat -> (s + total h <= n)%nat -> (forall l, In l h -> turns (l_joint l) = true -> aa_unit) ->
  map_all2 (fun j d v => joint_cat_dis j d k v) h d (repeat 0%num n) = Some d.
Proof.
  induction h as [|l h IH]; intros s P D V T; [reflexivity|]. apply placed_cons in P as [O P]. rewrite total_cons in *. cbn [map_all2]. rewrite O.
  destruct (Nat.ltb_spec 0 (lsize l)) as [Sz|Sz].
  - destruct (zero_skip s n (lsize l)) as (t & Q); [lia|]. rewrite Q. unfold lsize at 1. rewrite cat_same; [|apply T; now left|rewrite skipn_length; unfold lsize in *; lia]. cbn [obind].
    rewrite firstn_firstn, Nat.min_id. fold (lsize l). rewrite write_same by lia. cbn [obind]. apply (IH (s + lsize l)%nat); auto; try lia. intros a Ha. apply T. now right.
  - apply (IH (s + lsize l)%nat); auto; try lia. intros a Ha. apply T. now right.
Qed.
Lemma set_all_same (h : list lk) v : (forall l o, In l h -> l_offset l = Some o -> joint_set_dis (l_joint l) (skipn o v) = Some (l_joint l)) -> set_all joint_set_dis h v = Some h.
Proof.
  induction h as [|l h IH]; intros H; [reflexivity|]. cbn [set_all]. rewrite (IH (fun a o Ha => H a o (or_intror Ha))). destruct (l_offset l) as [o|] eqn:O; [|reflexivity].
  rewrite (H l o (or_introl eq_refl) O). cbn. destruct l; reflexivity.
Qed.
(** All joints hold their displacements when these are set. *)
Definition steady (c : chain F) : Prop := forall l, In l (c_links c) -> stable (l_joint l).
Lemma dis_size (c : chain F) : length (displacements c) = chain_joint_size c.
Proof. unfold displacements. rewrite chain_joint_size_total. exact (flat_map_length joint_get_dis (c_links c) get_dis_len). Qed.
Lemma set_chain_same (c : chain F) : usable c -> steady c -> chain_set_joint_dis_all c (displacements c) = Some c.
Proof.
  intros (W & O & JM & _) S. unfold chain_set_joint_dis_all. rewrite set_all_same; [destruct c; reflexivity|].
  intros l o Hl Ho. apply In_nth_error in Hl as (i & Hi). pose proof (offsets_placed c O) as P. apply set_same; [eapply made_cache; eauto|apply S; eapply nth_error_In; eauto|].
  pose proof (placed_nth 0 (c_links c) i l P Hi) as Po. rewrite Ho in Po. destruct (Nat.ltb 0 (lsize l)); [|discriminate]. injection Po as ->.
  exact (flat_map_slice joint_get_dis (c_links c) i l get_dis_len Hi).
Qed.
Lemma get_chain (c : chain F) v : chain_set_offset c = c -> length v = chain_joint_size c -> chain_get_joint_dis_all c v = Some (displacements c).
Proof.
  intros O Lv. unfold chain_get_joint_dis_all. rewrite (get_all_spec joint_get_dis (c_links c) get_dis_len 0 v (offsets_placed c O)) by (rewrite <- chain_joint_size_total; lia).
  rewrite skipn_all2 by (rewrite <- chain_joint_size_total; lia). rewrite app_nil_r. reflexivity.
Qed.
Lemma one_same (c : chain F) s s1 dt : posed c -> steady c -> (forall l, In l (c_links c) -> turns (l_joint l) = true -> aa_unit) ->
  ik_solve_rate c s = Some s1 -> s_vel s1 = repeat 0%num (chain_joint_size c) -> ik_solve_one c s (displacements c) dt = Some (c, s1, displacements c).
Proof.
  intros Po S T R V. pose proof (posed_usable c Po) as U. assert (O := proj1 (proj2 U)). unfold ik_solve_one. rewrite R. cbn [obind]. unfold chain_cat_joint_dis_all. rewrite V.
  rewrite (cat_all dt (displacements c) (chain_joint_size c) (c_links c) 0 (offsets_placed c O)); [|rewrite dis_size, chain_joint_size_total; lia|rewrite chain_joint_size_total; lia|exact T].
  cbn [obind]. rewrite (set_chain_same c U S). cbn [obind]. rewrite (get_chain c _ O (dis_size c)). cbn [obind]. rewrite (fk_again c Po). reflexivity.
Qed.

(** ** No error, no velocity *)
Notation registered c ops := (asked_all (length (c_links c)) (movable c) ops).
Definition reg_at (c : chain F) (f : nat -> option F) (i : nat) : bool := movable c i && match f i with Some _ => true | None => false end.
(** Joints that are not registered have no velocity. *)
Definition quiet (c : chain F) (f : nat -> option F) (s : solver F) : Prop := forall i l, nth_error (c_links c) i = Some l -> reg_at c f i = false ->
  link_slice l (s_vel s) = link_slice l (repeat 0%num (chain_joint_size c)).
Lemma all_zero (l : list F) : (forall x, In x l -> x = 0%num) -> l = repeat 0%num (length l).
Proof. induction l as [|a l IH]; intros H; [reflexivity|]. cbn. rewrite <- IH by (intros x Hx; apply H; now right). f_equal. apply H. now left. Qed.
Lemma part_zero o n m x : In x (firstn n (skipn o (repeat (0 : F)%num m))) -> x = 0%num.
Proof.
  intros H. assert (K : In x (repeat (0 : F)%num m)); [|exact (repeat_spec _ _ _ K)].
  rewrite <- (firstn_skipn o (repeat 0%num m)). apply in_or_app. right. rewrite <- (firstn_skipn n (skipn o _)). apply in_or_app. now left.
Qed.
Lemma quiet_merged c f (s : solver F) : inv c f s -> wanted c f <> [] -> placed 0 (c_links c) -> quiet c f s ->
  merged c f (repeat 0%num (length (s_jvel s))) (s_vel s) (repeat 0%num (chain_joint_size c)).
Proof.
  intros H W P Q. pose proof (put_merged c f s (repeat 0%num (length (s_jvel s))) (s_vel s) H W P (repeat_length _ _) (i_vel _ _ _ H)) as [Lp Sl].
  split; [apply repeat_length|]. intros i l Hl. specialize (Sl i l Hl). fold (reg_at c f i) in *. destruct (reg_at c f i) eqn:Rg.
  - rewrite chain_joint_size_total in *. rewrite (link_slice_nth (c_links c) i l) in Sl by auto. rewrite (link_slice_nth (c_links c) i l) by (auto; rewrite repeat_length; reflexivity).
    injection Sl as Sl. apply (f_equal (@length F)) in Sl as Ln. f_equal. fold (lsize l) in *.
    rewrite (all_zero (firstn _ (skipn _ (repeat 0%num (total (c_links c)))))) by (intros x Hx; eapply part_zero; exact Hx).
    rewrite (all_zero (firstn _ (skipn (wanted_column c f i) _))) by (intros x Hx; eapply part_zero; exact Hx). rewrite <- Ln. f_equal.
    rewrite !firstn_length, !skipn_length, repeat_length, Lp. reflexivity.
  - symmetry. exact (Q i l Hl Rg).
Qed.
Lemma merged_quiet c f x (s s' : solver F) : quiet c f s -> merged c f x (s_vel s) (s_vel s') -> quiet c f s'.
Proof. intros Q [_ M] i l Hl Rg. rewrite (M i l Hl). fold (reg_at c f i). rewrite Rg. exact (Q i l Hl Rg). Qed.
Lemma quiet_vel c f (s s' : solver F) : s_vel s' = s_vel s -> quiet c f s -> quiet c f s'.
Proof. intros V Q i l Hl Rg. rewrite V. eauto. Qed.
Lemma dot_zeros (r : list F) : forall n, dot r (repeat 0%num n) = 0%num.
Proof. induction r as [|x r IH]; intros [|n]; cbn; auto. rewrite IH. ring. Qed.
Lemma wsum_zeros (w : list F) : forall n, IK_Quad.wsum w (repeat 0%num n) = 0%num.
Proof. induction w as [|x r IH]; intros [|n]; cbn; auto. rewrite IH. ring. Qed.
Lemma vsub_zeros0 (m : list (list F)) n : forall k, IK_Quad.vsub (map (fun row => dot row (repeat 0%num n)) m) (repeat 0%num k) = repeat 0%num (Nat.min (length m) k).
Proof. induction m as [|r m IH]; intros [|k]; cbn; auto. rewrite IH, dot_zeros. f_equal. ring. Qed.

(** Enabled cells have no error and are not forced. *)
Definition calm (c : chain F) (l : list (nat * cell F)) : Prop := forall x, In x l -> m_force (ce_mode (snd x)) = false /\ valid (length (c_links c)) (snd x) /\
  (forall ax, 0 <= comp ax (a_w (ce_attr (snd x))))%num /\ (mode_off (ce_mode (snd x)) = false -> cell_err c (snd x) = Some v3zero).
Lemma active_in l (ce : cell F) ax : In (ce, ax) (active l) -> exists a, In (a, ce) l /\ mode_off (ce_mode ce) = false.
Proof.
  intros K. unfold active in K. apply in_flat_map in K as ([a ce'] & K1 & K2). apply in_map_iff in K2 as (ax' & K2 & K3). injection K2 as -> ->. cbn [snd] in K3.
  exists a. split; [exact K1|]. apply filter_In in K3 as [_ K3]. unfold mode_off. destruct ax; cbn [on] in K3; rewrite K3; rewrite ?orb_true_r; reflexivity.
Qed.
Lemma comp_zero ax : comp ax (@v3zero F N) = 0%num.
Proof. destruct ax; reflexivity. Qed.
Lemma rate_rest (c c' : chain F) (s : solver F) ops : le_laws x_le -> chain_set_offset c = c -> run c (ik_create c) ops = Some (c', s) -> posed c' ->
  wanted c (registered c ops) <> [] -> (forall i w, In i (wanted c (registered c ops)) -> registered c ops i = Some w -> (0 < w)%num) ->
  calm c' (s_cells s) -> quiet c' (registered c ops) s ->
  exists s', ik_solve_rate c' s = Some s' /\ s_vel s' = repeat 0%num (chain_joint_size c') /\ quiet c' (registered c ops) s'.
Proof.
  intros LE O R (c0 & U0 & Fk) W Wj Ca Qu.
  assert (Rd : forall x, In x (s_cells s) -> cell_ready c' (snd x)) by (intros x Hx; eapply valid_ready; [exact U0|exact Fk|apply Ca; exact Hx]).
  destruct (C49_minimiser c c' s ops LE O R W Rd (fun x ax Hx => proj1 (proj2 (proj2 (Ca x Hx))) ax) Wj) as (s' & Rt & Lj & Wn & Mi).
  destruct (C48_rows c c' s ops LE O R W Rd) as (s1 & Q & Rw & Rows).
  pose proof (C47_only_registered_move_partial c c' s s' ops LE O R W Rt) as Mg.
  destruct (run_inv LE ops c (fun _ => None) (ik_create c) c' s (create_inv c) R) as [H J]. fold (registered c ops) in H.
  assert (P : placed 0 (c_links c')) by (eapply placed_key; [exact J|exact (offsets_placed c O)]).
  assert (W' : wanted c' (registered c ops) <> []) by (rewrite (same_joints_wanted c c' _ J); exact W).
  exists s'. split; [exact Rt|].
  assert (Sj : s_jvel s' = repeat 0%num (length (s_jvel s'))).
  { symmetry. apply (proj2 (Mi (repeat 0%num (length (s_jvel s'))) (repeat_length _ _))).
    assert (Us : used s' (s_csrv s') = used s1 (s_csrv s1) /\ used s' (s_cwe s') = used s1 (s_cwe s1)).
    { unfold ik_solve_rate in Rt. rewrite Q in Rt. cbn [obind] in Rt. destruct (s_jidx (joint_vel_ad s1)); [|discriminate]. cbn [obind] in Rt. destruct (scatter _ _ _ _); [|discriminate]. injection Rt as <-.
      unfold joint_vel_ad. destruct (x_le _ _); split; reflexivity. }
    assert (Zb : used s' (s_csrv s') = repeat 0%num (length (used s' (s_csrv s')))).
    { apply all_zero. rewrite (proj1 Us). intros b Hb. apply In_nth_error in Hb as (k & Hk).
      assert (Lk : (k < s_rows s1)%nat) by (apply nth_error_Some_length in Hk || idtac; assert (Z := proj1 (nth_error_Some (used s1 (s_csrv s1)) k) ltac:(congruence)); unfold used in Z; rewrite firstn_length in Z; lia).
      destruct (nth_error (active (s_cells s)) k) as [[ce ax]|] eqn:Ak. 2:{ apply nth_error_None in Ak. lia. }
      destruct (Rows k ce ax Ak) as (jm & r & row & b' & _ & (e & Er & Rf) & _ & B4 & _ & _ & Eq). apply nth_firstn in Hk. assert (b' = b) by congruence. subst b'.
      destruct (active_in _ _ _ (nth_error_In _ _ Ak)) as (a & Ia & Off). destruct (Ca _ Ia) as (Fo & _ & _ & Ze). cbn [snd] in *. rewrite (Ze Off) in Er. injection Er as <-. rewrite Fo in Rf. subst r.
      specialize (Eq _ _ (repeat_length _ _) (quiet_merged c' _ s H W' P Qu)). rewrite !dot_zeros, comp_zero in Eq.
      transitivity (0 - (0 - b))%num; [ring|]. rewrite Eq. ring. }
    assert (Z0 : damped_cost s' (repeat 0%num (length (s_jvel s'))) = 0%num).
    { unfold damped_cost. rewrite Zb, vsub_zeros0, !wsum_zeros. ring. }
    rewrite Z0. apply nle_antisym; [|rewrite <- Z0; apply Mi; apply repeat_length].
    assert (Fw : Forall (fun x => 0 <= x)%num (used s' (s_cwe s'))).
    { apply Forall_forall. rewrite (proj2 Us). intros w Hw. apply In_nth_error in Hw as (k & Hk).
      assert (Lk : (k < s_rows s1)%nat) by (assert (Z := proj1 (nth_error_Some (used s1 (s_cwe s1)) k) ltac:(congruence)); unfold used in Z; rewrite firstn_length in Z; lia).
      destruct (nth_error (active (s_cells s)) k) as [[ce ax]|] eqn:Ak. 2:{ apply nth_error_None in Ak. lia. }
      destruct (Rows k ce ax Ak) as (_ & _ & _ & _ & _ & _ & _ & _ & B5 & _). apply nth_firstn in Hk. assert (w = comp ax (a_w (ce_attr ce))) as -> by congruence.
      destruct (active_in _ _ _ (nth_error_In _ _ Ak)) as (a & Ia & Off). apply (Ca _ Ia). }
    unfold damped_cost. cbv zeta. apply nle_0_add; apply IK_Quad.wsum_nonneg; [exact Fw|].
    apply Forall_forall. intros w Hw. apply in_map_iff in Hw as (w0 & <- & Hw). apply nle_0_add; [|now apply IK_Quad.wsum_nonneg]. rewrite Wn in Hw. unfold wanted_weights in Hw. apply in_flat_map in Hw as (i & Hi & Hw).
    destruct (registered c ops i) as [w'|] eqn:Fi; [|destruct Hw]. apply repeat_spec in Hw. subst w0. apply nlt_le. eauto. }
  split; [|exact (merged_quiet _ _ _ _ _ Qu Mg)].
  assert (Ls : length (s_jvel s') = length (s_jvel s)).
  { rewrite Lj, <- Wn. pose proof (solve_rate_inv LE c' _ s s' H Rt) as H'. destruct (i_idx _ _ _ H W') as (I1 & _ & I3). destruct (i_idx _ _ _ H' W') as (_ & _ & I3'). rewrite I3', <- I3.
    destruct (i_stale _ _ _ H _ I1) as (_ & _ & _ & _ & I5). exact I5. }
  rewrite Sj, Ls in Mg. eapply merged_unique; [exact P|exact Mg|]. apply quiet_merged; auto.
Qed.

(** ** What a rate computation leaves of the cells *)
Definition told (ce : cell F) := (ce_id ce, ce_kind ce, ce_attr ce, ce_mode ce, ce_pos ce, ce_att ce).
Definition tolds (l : list (nat * cell F)) := map (fun x => (fst x, told (snd x))) l.
Lemma tolds_in l l' x : tolds l' = tolds l -> In x l' -> exists y, In y l /\ fst y = fst x /\ told (snd x) = told (snd y).
Proof.
  intros T Hx. pose proof (in_map (fun x => (fst x, told (snd x))) _ _ Hx) as K. fold (tolds l') in K. rewrite T in K. unfold tolds in K. apply in_map_iff in K as (y & K & Hy).
  exists y. split; [exact Hy|]. injection K as K1 K2 K3 K4 K5 K6 K7. split; [exact K1|]. unfold told. congruence.
Qed.
Lemma told_err c (a b : cell F) : told a = told b -> cell_err c a = cell_err c b.
Proof. destruct a, b. unfold told. cbn. intros H. injection H as -> -> -> -> -> ->. reflexivity. Qed.
Lemma cell_acm_told (ce : cell F) e : told (fst (cell_acm ce e)) = told ce.
Proof. unfold cell_acm. destruct (ce_kind ce); reflexivity. Qed.
Lemma eq_cell_told c s (ce : cell F) q ev r : eq_cell c s ce q ev = Some r -> told (fst (fst r)) = told ce.
Proof.
  unfold eq_cell. destruct (mode_off _); [intros H; injection H as <-; reflexivity|]. unfold obind.
  destruct (cell_cmat _ _ _); [|discriminate]. destruct (cell_err _ _); [|discriminate].
  destruct (cell_eq _ _ _ _ _ _ _); [|discriminate]. destruct (cell_eq _ _ _ _ _ _ _); [|discriminate]. destruct (cell_eq _ _ _ _ _ _ _); [|discriminate].
  intros H; injection H as <-. cbn [fst]. destruct (m_force _); [rewrite cell_acm_told|]; reflexivity.
Qed.
Lemma eq_cells_told c s l : forall q ev r, eq_cells c s l q ev = Some r -> tolds (fst (fst r)) = tolds l.
Proof.
  induction l as [|x l IH]; cbn [eq_cells]; intros q ev r H; [injection H as <-; reflexivity|]. unfold obind in H.
  destruct (eq_cell c s (snd x) q ev) as [a|] eqn:A; [|discriminate]. destruct (eq_cells c s l _ _) as [b|] eqn:B; [|discriminate]. injection H as <-.
  unfold tolds in *. cbn [map fst snd]. rewrite (eq_cell_told _ _ _ _ _ _ A), (IH _ _ _ B). reflexivity.
Qed.
Lemma rate_told c (s s' : solver F) : ik_solve_rate c s = Some s' -> tolds (s_cells s') = tolds (s_cells s).
Proof.
  unfold ik_solve_rate, ik_eq. destruct (eq_cells _ _ _ _ _) as [r|] eqn:A; [|discriminate]. cbn [option_map obind]. apply eq_cells_told in A.
  unfold joint_vel_ad. cbv zeta. match goal with |- context [x_le ?a ?b] => destruct (x_le a b) end; cbn; (destruct (s_jidx s); [|discriminate]; cbn; destruct (scatter _ _ _ _); [|discriminate]; intros H; injection H as <-; exact A).
Qed.
Lemma one_rate c (s : solver F) d dt c2 s2 d2 : ik_solve_one c s d dt = Some (c2, s2, d2) -> ik_solve_rate c s = Some s2.
Proof.
  unfold ik_solve_one. destruct (ik_solve_rate c s) as [s1|]; [|discriminate]. cbn [obind]. destruct (chain_cat_joint_dis_all _ _ _ _); [|discriminate]. cbn [obind].
  destruct (chain_set_joint_dis_all _ _); [|discriminate]. cbn [obind]. destruct (chain_get_joint_dis_all _ _); [|discriminate]. cbn [obind]. destruct (chain_update_fk _); [|discriminate]. cbn [obind]. congruence.
Qed.
Lemma steps_told n : forall c (s : solver F) d c2 s2 d2, steps n (c, s, d) = Some (c2, s2, d2) -> tolds (s_cells s2) = tolds (s_cells s).
Proof.
  induction n as [|n IH]; cbn [steps fst snd]; intros c s d c2 s2 d2 H; [injection H as _ <- _; reflexivity|]. unfold obind in H.
  destruct (ik_solve_one c s d 1%num) as [[[c1 s1] d1]|] eqn:A; [|discriminate]. rewrite (IH _ _ _ _ _ _ H). exact (rate_told _ _ _ (one_rate _ _ _ _ _ _ _ A)).
Qed.
Lemma acm_told (s : solver F) : tolds (s_cells (ik_acm_zero s)) = tolds (s_cells s).
Proof. unfold ik_acm_zero, tolds. cbn. rewrite map_map. reflexivity. Qed.
Lemma solve_told c (s : solver F) v tol iter c2 s2 d2 r : ik_solve c s v tol iter = Some (c2, s2, d2, r) -> tolds (s_cells s2) = tolds (s_cells s).
Proof.
  intros H. destruct (C50_report _ _ _ _ _ _ _ _ _ H) as (d0 & n & _ & _ & S & _). rewrite (steps_told _ _ _ _ _ _ _ S). apply acm_told.
Qed.

(** ** Steady chains stay steady *)
Lemma set_steady (c c1 : chain F) v : all_ordered c -> steady c -> chain_set_joint_dis_all c v = Some c1 -> steady c1.
Proof.
  intros O S A l1 Hl. unfold chain_set_joint_dis_all in A. destruct (set_all joint_set_dis (c_links c) v) as [h|] eqn:Q; [|discriminate]. injection A as <-. cbn in Hl.
  apply set_all_rel in Q. apply In_nth_error in Hl as (i & Hl). destruct (Forall2_nth_r _ _ _ Q i l1 Hl) as (l & H0 & RR). unfold set_rel in RR.
  destruct (l_offset l); [|subst l1; apply S; eapply nth_error_In; eauto]. destruct RR as (j & J & ->). cbn. eapply set_dis_stable; [exact (O i l H0)|exact J].
Qed.
Lemma joints_steady (c c1 : chain F) : map (fun l : lk => l_joint l) (c_links c1) = map (fun l : lk => l_joint l) (c_links c) -> steady c -> steady c1.
Proof.
  intros M S l Hl. pose proof (in_map (fun l : lk => l_joint l) _ _ Hl) as K. cbv beta in K. rewrite M in K. apply in_map_iff in K as (l0 & <- & H0). auto.
Qed.
Lemma one_steady (c : chain F) s d dt c2 s2 d2 : usable c -> all_ordered c -> steady c -> ik_solve_one c s d dt = Some (c2, s2, d2) -> steady c2.
Proof.
  intros U O S H. unfold ik_solve_one, obind in H. destruct (ik_solve_rate c s); [|discriminate]. destruct (chain_cat_joint_dis_all _ _ _ _); [|discriminate].
  destruct (chain_set_joint_dis_all c _) as [c1|] eqn:A; [|discriminate]. destruct (chain_get_joint_dis_all _ _); [|discriminate].
  destruct (chain_update_fk c1) as [c3|] eqn:B; [|discriminate]. injection H as <- _ _.
  eapply joints_steady; [apply fk_joints; [eapply usable_set; eauto|exact B]|eapply set_steady; eauto].
Qed.

(** ** The state between steps *)
Definition fit (n : nat) (ce : cell F) : Prop := m_force (ce_mode ce) = false /\ valid n ce /\ (forall ax, 0 <= comp ax (a_w (ce_attr ce)))%num /\ bindable (ce_kind ce).
Definition good (c : chain F) (f : nat -> option F) (c1 : chain F) (s : solver F) : Prop :=
  posed c1 /\ all_ordered c1 /\ steady c1 /\ quiet c f s /\ forall x, In x (s_cells s) -> fit (length (c_links c)) (snd x).
Lemma told_fit n (a b : cell F) : told a = told b -> fit n b -> fit n a.
Proof. destruct a, b. unfold told, fit, valid. cbn. intros H. injection H as -> -> -> -> -> ->. auto. Qed.
Lemma tolds_fit n l l' : tolds l' = tolds l -> (forall x, In x l -> fit n (snd x)) -> forall x, In x l' -> fit n (snd x).
Proof. intros T H x Hx. destruct (tolds_in _ _ _ T Hx) as (y & Hy & _ & K). eapply told_fit; [exact K|auto]. Qed.
Lemma bind_fit c n (ce ce' : cell F) : cell_bind c ce = Some ce' -> fit n ce -> fit n ce'.
Proof.
  unfold cell_bind, cell_bound. destruct ce as [i k a m p t q v]. cbn. intros H. unfold fit, valid. cbn.
  destruct k; cbn in H; unfold obind in H; repeat match type of H with match ?t with _ => _ end = _ => destruct t; [|discriminate H] end; injection H as <-; cbn; auto.
Qed.
Lemma follows_fit n l (ce : cell F) : (forall e ax, In e l -> 0 <= comp ax (e_w e))%num -> fit n ce -> fit n (follows l ce).
Proof.
  intros W. unfold follows. destruct (last_for (ce_id ce) l) as [e|] eqn:Q; [|auto]. unfold last_for in Q. apply find_some in Q as [Q _]. apply in_rev in Q.
  unfold fit, followed, valid. cbn. intros (A & B & _ & D). repeat split; auto.
Qed.
Lemma quiet_same (c c' : chain F) f s : same_joints c c' -> quiet c f s -> quiet c' f s.
Proof.
  intros J Q i l' Hl Rg. assert (J' : same_joints c' c) by (unfold same_joints in *; congruence). destruct (same_joints_nth c' c i l' J' Hl) as (l & Hl0 & K).
  unfold reg_at in Rg. rewrite (same_joints_movable c c' i J) in Rg. specialize (Q i l Hl0 Rg). rewrite (same_joints_total c c' J). unfold lkey in K. injection K as K1 K2.
  unfold link_slice in *. rewrite <- K1, <- K2 || rewrite K1, K2 in Q. exact Q.
Qed.
Lemma same_sym (c c' : chain F) : same_joints c c' -> same_joints c' c.
Proof. unfold same_joints. congruence. Qed.
End Still.
