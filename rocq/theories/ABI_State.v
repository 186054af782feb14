(** * ABI_State: the state of the chain before and after rkChainABI. *)
From Coq Require Import List Arith Lia Permutation Field.
From Verif Require Import Num NumFacts Vec VecFacts Motor_Model Joint_Model Joint_Spec Joint_Proofs Body_Model Body_Proofs
  Tree Tree_Proofs Link_Model Link_Spec Link_Proofs Chain_Proofs Link_Properties Chain_Properties Kin_Spec Kin_Proofs
  Jacobi_Model Jacobi_Proofs Dyn_Spec Dyn_Proofs Walk Walk_Proofs ABI_Model ABI_Spec ABI_Alg ABI_Proofs.
Import ListNotations.
Local Open Scope nat_scope.

Section A.
Context {F : Type} {N : Num F} {L : NumLaws F N} {E : Ext F} {X : ExtLaws F N E} {MI : MInv F}.
Add Field FField : num_field.
Local Open Scope num_scope.
Notation lk := (link F).
Notation al := (alink F).
Notation lsame := (@same_refs lk l_parent l_child l_sibl).

(** What posing the chain leaves of a link. *)
Definition posed (l l' : lk) : Prop :=
  lsame l l' /\ l_name l' = l_name l /\ l_offset l' = l_offset l /\ l_org l' = l_org l /\ b_mp (l_body l') = b_mp (l_body l) /\
  b_extw (l_body l') = b_extw (l_body l) /\ jtype_of (l_joint l') = jtype_of (l_joint l).
Lemma posed_refl l : posed l l. Proof. repeat split. Qed.
Lemma posed_trans a b d : posed a b -> posed b d -> posed a d.
Proof. intros ((A1&A2&A3)&A4&A5&A6&A7&A8&A9) ((B1&B2&B3)&B4&B5&B6&B7&B8&B9). unfold posed, same_refs. repeat split; congruence. Qed.
Lemma forall2_trans {A} (R : A -> A -> Prop) : (forall a b d, R a b -> R b d -> R a d) -> forall l m n, Forall2 R l m -> Forall2 R m n -> Forall2 R l n.
Proof. intros T l m n H. revert n. induction H; intros n HN; inversion HN; subst; constructor; eauto. Qed.
Lemma forall2_refl {A} (R : A -> A -> Prop) : (forall a, R a a) -> forall l, Forall2 R l l.
Proof. intros T l. induction l; constructor; auto. Qed.
Lemma set_posed set v (h h' : list lk) : set_ok set -> Forall2 (set_rel set v) h h' -> Forall2 posed h h'.
Proof.
  intros OK. induction 1 as [|l l' t t' S R IH]; constructor; auto. unfold set_rel in S. destruct (l_offset l); [|subst; apply posed_refl].
  destruct S as (j & J & ->). unfold posed. repeat split. cbn. exact (proj2 OK _ _ _ J).
Qed.
Lemma down_posed {P} (upd : lk -> P -> lk) par p0 (h h' : list lk) : (forall l p, posed l (upd l p)) -> processed_down upd par p0 h h' -> Forall2 posed h h'.
Proof.
  intros U [LE D]. apply forall2_nth_eq; [auto|]. intros i l Hl. destruct (D i l Hl) as (p & Hp & _). eauto.
Qed.
Lemma posed_wf (h h' : list lk) : Forall2 posed h h' -> well_formed h -> well_formed h'.
Proof. intros H [k T]. exists k. eapply well_formed_refs; [| |exact T]; [now rewrite (Forall2_len _ _ _ H)|]. intros i l Hl. destruct (Forall2_nth _ _ _ H i l Hl) as (l' & Hl' & Q & _). eauto. Qed.
Lemma posed_placed (h h' : list lk) : Forall2 posed h h' -> forall s, placed s h -> placed s h'.
Proof.
  induction 1 as [|l l' t t' S R IH]; intros s P; [exact P|]. apply placed_cons in P as [A B]. apply placed_cons.
  destruct S as (_&_&S1&_&_&_&S2). assert (lsize l' = lsize l) as Z by (unfold lsize, joint_size; now rewrite S2). rewrite S1, Z. auto.
Qed.
Lemma posed_total (h h' : list lk) : Forall2 posed h h' -> total h' = total h.
Proof.
  induction 1 as [|l l' t t' S R IH]; [reflexivity|]. change (total (l' :: t')) with (lsize l' + total t')%nat. change (total (l :: t)) with (lsize l + total t)%nat.
  destruct S as (_&_&_&_&_&_&S2). assert (lsize l' = lsize l) as -> by (unfold lsize, joint_size; now rewrite S2). congruence.
Qed.
Lemma made_set_dis (j j' : joint F) v : made j -> joint_set_dis j v = Some j' -> made j'.
Proof.
  intros (t & j0 & ops & A & R) S. exists t, j0, (ops ++ [OSetDis v]). split; [exact A|]. clear A. revert j0 R.
  induction ops as [|o ops IH]; intros j0 R; cbn [joint_run app] in *.
  - injection R as ->. cbn [joint_step]. now rewrite S.
  - destruct (joint_step j0 o); [cbn [obind] in *; eauto|discriminate].
Qed.
Lemma made_set_vel (j j' : joint F) v : made j -> joint_set_vel j v = Some j' -> made j'.
Proof.
  intros (t & j0 & ops & A & R) S. exists t, j0, (ops ++ [OSetVel v]). split; [exact A|]. clear A. revert j0 R.
  induction ops as [|o ops IH]; intros j0 R; cbn [joint_run app] in *.
  - injection R as ->. cbn [joint_step]. now rewrite S.
  - destruct (joint_step j0 o); [cbn [obind] in *; eauto|discriminate].
Qed.
Definition all_made (h : list lk) : Prop := Forall (fun l => made (l_joint l)) h.
Lemma set_rel_made set v (h h' : list lk) : (forall (j j' : joint F) v, made j -> set j v = Some j' -> made j') -> Forall2 (set_rel set v) h h' -> all_made h -> all_made h'.
Proof.
  intros M. induction 1 as [|l l' t t' S R IH]; intros A; [constructor|]. inversion A; subst. constructor; [|now apply IH].
  unfold set_rel in S. destruct (l_offset l); [|now subst]. destruct S as (j & J & ->). cbn. eauto.
Qed.
Lemma made_rot (j : joint F) : made j -> rot_ok j.
Proof. intros M. apply made_cache in M. destruct j; cbn in *; auto; rewrite M; apply x_aa_rot. Qed.
Lemma down_joint {P} (upd : lk -> P -> lk) par p0 (h h' : list lk) : (forall l p, l_joint (upd l p) = l_joint l) -> processed_down upd par p0 h h' -> all_made h -> all_made h'.
Proof.
  intros U [LE D] A. apply Forall_forall. intros l' I. apply In_nth_error in I as [i Hi]. destruct (nth_error h i) as [l|] eqn:Hl. 2:{ apply nth_error_None in Hl. apply nth_lt in Hi. lia. }
  destruct (D i l Hl) as (p & Hp & _). assert (l' = upd l p) by congruence. subst. rewrite U. apply (proj1 (Forall_forall _ _) A). eapply nth_error_In; eauto.
Qed.

(** The chain as rkChainABI sees it when it starts the passes. *)
Record posed_chain (c : chain F) (dis vel : list F) (c4 : chain F) : Prop := {
  pc_posed : Forall2 posed (c_links c) (c_links c4);
  pc_wf : well_formed (c_links c4);
  pc_placed : placed 0 (c_links c4);
  pc_total : total (c_links c4) = chain_joint_size c;
  pc_made : all_made (c_links c4);
  pc_frames : frames_ok (c_links c4);
  pc_composed : composed (c_links c4);
  pc_vel : exists h3, processed_down upd_vel l_vel v6zero h3 (c_links c4);
  pc_getvel : flat_map (fun l => joint_get_vel (l_joint l)) (c_links c4) = vel;
  pc_getdis : exists c1, chain_set_joint_dis_all c dis = Some c1 /\
     Forall2 (fun l1 l4 => joint_get_dis (l_joint l4) = joint_get_dis (l_joint l1)) (c_links c1) (c_links c4) }.
Lemma set_vel_dis (j j' : joint F) v : joint_set_vel j v = Some j' -> joint_get_dis j' = joint_get_dis j.
Proof. destruct j; cbn; unfold option_map; intros H; repeat match type of H with context [match ?x with _ => _ end] => destruct x; try discriminate end; injection H as <-; reflexivity. Qed.
Lemma frames_composed (h : list lk) : well_formed h -> all_made h -> orgs_rigid h -> frames_ok h -> composed h.
Proof.
  intros W M OR FR i l Hl. split.
  - destruct (wf_lineage h i W (nth_lt _ _ _ Hl)) as (t & LT & _).
    destruct (frames_rigid h) with (i := i) (t := t) as (l' & Hl' & _ & R2); auto.
    { intros a la Ha. apply made_cache. exact (proj1 (Forall_forall _ _) M la (nth_error_In _ _ Ha)). }
    assert (l' = l) by congruence. now subst l'.
  - destruct (FR i l Hl) as (_ & _ & Q). destruct (l_parent l); auto.
Qed.
Lemma pose_chain (c : chain F) dis vel : usable c -> length dis = chain_joint_size c -> length vel = chain_joint_size c ->
  exists c4, obind (chain_set_joint_dis_all c dis) (fun x => obind (chain_set_joint_vel_all x vel) (fun x => obind (chain_update_fk x) chain_update_vel)) = Some c4 /\ posed_chain c dis vel c4.
Proof.
  intros (W & O & JM & OR) LD LV. apply offsets_placed in O. rewrite chain_joint_size_total in *.
  destruct (set_all_spec joint_set_dis dis (c_links c) 0 set_dis_ok O) as (h1 & A1 & R1); [lia|].
  assert (P1 := set_posed _ _ _ _ set_dis_ok R1).
  destruct (set_all_spec joint_set_vel vel h1 0 set_vel_ok (posed_placed _ _ P1 _ O)) as (h2 & A2 & R2); [rewrite (posed_total _ _ P1); lia|].
  assert (P2 := set_posed _ _ _ _ set_vel_ok R2).
  assert (M0 : all_made (c_links c)) by (apply Forall_forall; intros l I; apply In_nth_error in I as [i Hi]; eauto).
  assert (M2 : all_made h2) by (eapply set_rel_made; [apply made_set_vel|exact R2|]; eapply set_rel_made; [apply made_set_dis|exact R1|exact M0]).
  unfold chain_set_joint_dis_all. rewrite A1. cbn [option_map obind]. unfold chain_set_joint_vel_all. cbn [c_links c_set_links]. rewrite A2. cbn [option_map obind].
  set (c2 := c_set_links h2 (c_set_links h1 c)).
  assert (W2 : well_formed (c_links c2)) by (eapply posed_wf; [exact P2|]; eapply posed_wf; [exact P1|exact W]).
  destruct (C24_frame_pass c2 W2) as (c3 & A3 & D3 & W3). unfold chain_update_fk. rewrite A3. cbn [option_map obind].
  assert (P3 : Forall2 posed (c_links c2) (c_links c3)) by (eapply down_posed; [|exact D3]; intros; repeat split).
  assert (W3' : well_formed (c_links (chain_calc_com c3))) by exact W3.
  destruct (C24_vel_pass _ W3') as (c4 & A4 & D4 & W4).
  assert (P4 : Forall2 posed (c_links c3) (c_links c4)) by (eapply down_posed; [|exact D4]; intros; repeat split).
  assert (PP : Forall2 posed (c_links c) (c_links c4)).
  { eapply (forall2_trans posed posed_trans); [exact P1|]. eapply (forall2_trans posed posed_trans); [exact P2|]. eapply (forall2_trans posed posed_trans); [exact P3|exact P4]. }
  assert (M4 : all_made (c_links c4)) by (eapply down_joint; [|exact D4|]; [reflexivity|]; eapply down_joint; [|exact D3|exact M2]; reflexivity).
  assert (FR : frames_ok (c_links c4)).
  { pose proof (frames_of_pass _ _ D3) as FR. intros i l4 H4. destruct D4 as [L4 D4]. destruct (nth_error (c_links c3) i) as [l3|] eqn:H3. 2:{ apply nth_error_None in H3. apply nth_lt in H4. cbn in L4. lia. }
    destruct (D4 i l3 H3) as (p & Hp & _). assert (l4 = upd_vel l3 p) by congruence. subst l4. destruct (FR i l3 H3) as (B1 & B2 & B3). do 2 (split; [assumption|]).
    change (l_parent (upd_vel l3 p)) with (l_parent l3). destruct (l_parent l3) as [q|]; [|exact B3]. destruct B3 as (lq & Hq & B3). destruct (D4 q lq Hq) as (pq & Hpq & _). exists (upd_vel lq pq). split; [exact Hpq|exact B3]. }
  assert (OR4 : orgs_rigid (c_links c4)).
  { intros i l4 H4. destruct (Forall2_nth_r _ _ _ PP i l4 H4) as (l & Hl & _ & _ & _ & Z & _). rewrite Z. eauto. }
  exists c4. split; [exact A4|]. split; auto.
  - eapply posed_placed; eauto.
  - rewrite chain_joint_size_total. eapply posed_total; eauto.
  - now apply frames_composed.
  - exists (c_links c3). exact D4.
  - destruct (C28_vel_roundtrip (c_set_links h1 c) vel vel) as (c2' & Q1 & Q2); [apply placed_offsets; cbn; eapply posed_placed; eauto| | |].
    1,2: rewrite chain_joint_size_total; cbn [c_links c_set_links]; rewrite (posed_total _ _ P1); lia.
    unfold chain_set_joint_vel_all in Q1. cbn [c_links c_set_links] in Q1. rewrite A2 in Q1. injection Q1 as <-. unfold chain_get_joint_vel_all in Q2. cbn [c_links c_set_links] in Q2.
    rewrite (get_all_spec joint_get_vel h2 get_vel_len 0 vel) in Q2.
    2:{ eapply posed_placed; [exact P2|]. eapply posed_placed; [exact P1|exact O]. }
    2:{ rewrite (posed_total _ _ P2), (posed_total _ _ P1). lia. }
    rewrite skipn_all2 in Q2 by (rewrite (posed_total _ _ P2), (posed_total _ _ P1); lia). cbn [firstn app] in Q2. rewrite app_nil_r in Q2.
    assert (Q3 : flat_map (fun l => joint_get_vel (l_joint l)) h2 = vel) by congruence. rewrite <- Q3.
    assert (KJ : Forall2 (fun l l' => l_joint l' = l_joint l) h2 (c_links c4)).
    { apply forall2_nth_eq. { destruct D3 as [L3 _], D4 as [L4 _]. cbn in L3, L4. congruence. }
      intros i l Hl. destruct D3 as [_ D3]. destruct (D3 i l Hl) as (p3 & H3 & _). destruct D4 as [_ D4]. destruct (D4 i _ H3) as (p4 & H4 & _). eexists. split; [exact H4|reflexivity]. }
    clear -KJ. induction KJ as [|l l' t t' Q R IH]; [reflexivity|]. cbn [flat_map]. now rewrite Q, IH.
  - exists (c_set_links h1 c). split; [unfold chain_set_joint_dis_all; now rewrite A1|]. apply forall2_nth_eq. { cbn. rewrite (Forall2_len _ _ _ P2). cbn in P3. rewrite (Forall2_len _ _ _ P3). apply (Forall2_len _ _ _ P4). }
    cbn [c_links c_set_links]. intros i l Hl. destruct (Forall2_nth _ _ _ R2 i l Hl) as (l2 & H2 & RR). destruct D3 as [_ D3]. destruct (D3 i l2 H2) as (p3 & H3 & _). destruct D4 as [_ D4]. destruct (D4 i _ H3) as (p4 & H4 & _).
    eexists. split; [exact H4|]. change (joint_get_dis (l_joint l2) = joint_get_dis (l_joint l)). unfold set_rel in RR. destruct (l_offset l); [|now subst]. destruct RR as (j & J & ->). cbn. eapply set_vel_dis; eauto.
Qed.

(** *** Equations of motion *)
Lemma wl_net_app (a b : wlist F) : wl_net (a ++ b) = v6add (wl_net a) (wl_net b).
Proof. rewrite !wl_net_sum, map_app. apply v6sum_app. Qed.
Lemma ac_nth_l (c : achain F) i (l : lk) (a : abi F) : nth_error (c_links (ac_c c)) i = Some l -> nth_error (ac_a c) i = Some a -> nth_error (ac_links c) i = Some (AL l a).
Proof. intros A B. rewrite ac_nth, A, B. reflexivity. Qed.
Lemma ac_nth_of (c : achain F) i x : nth_error (ac_links c) i = Some x -> nth_error (c_links (ac_c c)) i = Some (al_l x) /\ nth_error (ac_a c) i = Some (al_a x).
Proof. rewrite ac_nth. destruct (nth_error (c_links (ac_c c)) i); [|discriminate]. destruct (nth_error (ac_a c) i); [|discriminate]. intros H. injection H as <-. auto. Qed.
Lemma run_solved g (c c' : achain F) k h1 h2 : abi_ready c -> all_made (c_links (ac_c c)) ->
  abi_run g c c' k h1 h2 -> ac_br c' = false -> all_regular c' -> dynamics_solved g c' /\ Forall2 finished (c_links (ac_c c)) (c_links (ac_c c')) /\ map ab_wl (ac_a c') = map ab_wl (ac_a c).
Proof.
  intros RD M RUN BR REG.
  assert (RO : forall i l, nth_error (ac_links c) i = Some l -> rot_ok (al_joint l)).
  { intros i l Hl; apply ac_nth_of in Hl as [Hl _]; apply made_rot; exact (proj1 (Forall_forall _ _) M _ (nth_error_In _ _ Hl)). }
  assert (RG : links_regular c') by (intros i l Hl; apply ac_nth_of in Hl as [A B]; exact (REG i _ _ A B)).
  pose proof (abi_point g c c' k h1 h2 x_tol_pos RD RO RUN BR RG) as P.
  destruct RUN as (_ & _ & _ & _ & _ & _ & _ & _ & (W' & LA') & LL).
  assert (LE : length (ac_a c) = length (c_links (ac_c c))) by (symmetry; eapply Forall2_len; exact RD).
  assert (LC : length (c_links (ac_c c)) = length (c_links (ac_c c'))).
  { unfold ac_links in LL. rewrite !map_length, !combine_length, LE, LA', !Nat.min_id in LL. auto. }
  assert (AT : forall i l, nth_error (c_links (ac_c c)) i = Some l -> exists a, nth_error (ac_a c) i = Some a).
  { intros i l Hl. destruct (nth_error (ac_a c) i) eqn:Q; eauto. apply nth_error_None in Q. apply nth_lt in Hl. lia. }
  assert (FIN : Forall2 finished (c_links (ac_c c)) (c_links (ac_c c'))).
  { apply forall2_nth_eq; [exact LC|]. intros i l Hl. destruct (AT i l Hl) as [a Ha].
    destruct (P i _ (ac_nth_l _ _ _ _ Hl Ha)) as (l3 & v & pa & cs & ks & H3 & FI & _). apply ac_nth_of in H3 as [H3 _]. eauto. }
  split; [|split; [exact FIN|]].
  - intros i l a Hl Ha. destruct (Forall2_nth_r _ _ _ FIN i l Hl) as (l0 & Hl0 & _). destruct (AT i l0 Hl0) as [a0 Ha0].
    destruct (P i _ (ac_nth_l _ _ _ _ Hl0 Ha0)) as (l3 & v & pa & cs & ks & H3 & FI & PV & PA & CH & KS & WL & WR & MM & AC & PJ).
    assert (l3 = AL l a) by (rewrite (ac_nth_l _ _ _ _ Hl Ha) in H3; congruence). subst l3. cbn [al_l al_a] in *.
    destruct FI as (F1 & F2 & F3 & F4 & F5 & F6 & F7 & F8 & F9 & F10 & F11 & F12).
    exists (v, pa), cs, (map al_l ks). split; [|split; [|split; [exact CH|split; [|split; [|exact PJ]]]]].
    + unfold parent_motion. rewrite F1. unfold parent_vel, al_parent in PV. unfold al_parent in PA. cbn [al_l] in PV, PA. destruct (l_parent l0) as [q|].
      * destruct PA as [[? _]|(q' & lq & Q1 & Q2 & ->)]; [discriminate|]. injection Q1 as <-. apply ac_nth_of in Q2 as [Q2 _]. rewrite Q2. cbn [option_map].
        destruct (Forall2_nth_r _ _ _ FIN q _ Q2) as (lq0 & Hq0 & FQ). destruct (AT q lq0 Hq0) as [aq Haq]. rewrite (ac_nth_l _ _ _ _ Hq0 Haq) in PV. cbn in PV. injection PV as <-.
        destruct FQ as (_&_&_&_&_&_&_&_&_&_&FQ&_). unfold al_acc. now rewrite FQ.
      * destruct PA as [[_ ->]|(q' & lq & Q1 & _)]; [|discriminate]. congruence.
    + rewrite AC. destruct F12 as (_ & J2 & J3 & _). unfold abi_init. cbn [al_a al_l ab_c]. rewrite F7, <- F7.
      apply relative_acc_form; [|now rewrite J2|now rewrite J3].
      destruct (REG i l a Hl Ha) as [HH _]. unfold handled in HH. destruct (l_joint l); auto.
    + clear -KS. induction KS as [|x y t u Q R IH]; constructor; auto. now apply ac_nth_of in Q as [Q _].
    + apply spatial_newton_euler. rewrite WR. unfold abi_init. cbn [al_a al_l ab_b ab_w]. rewrite MM, map_map. unfold al_acc. cbn [al_l].
      assert (E1 : link_mass_mat l0 = link_mass_mat l) by (unfold link_mass_mat, l_mass, l_com; now rewrite F8).
      rewrite <- E1, F11, WL, wl_net_app. unfold abi_grav. unfold l_mass, l_com. rewrite F8, F9, F10. unfold body_ext_wrench. f_equal. f_equal.
      generalize (wl_net (ab_wl a0)) (wl_net (b_extw (l_body l0))) (m3tv (fatt (l_frame l0)) (V3 0 0 (- g * mp_mass (b_mp (l_body l0))))) (mp_com (b_mp (l_body l0))). clear -L. vring.
  - assert (Q : Forall2 (fun a a' => ab_wl a' = ab_wl a) (ac_a c) (ac_a c')).
    { apply forall2_nth_eq; [congruence|]. intros i a Ha. destruct (nth_error (c_links (ac_c c)) i) as [l|] eqn:Hl. 2:{ apply nth_error_None in Hl. apply nth_lt in Ha. lia. }
      destruct (P i _ (ac_nth_l _ _ _ _ Hl Ha)) as (l3 & v & pa & cs & ks & H3 & _ & _ & _ & _ & _ & WL & _). apply ac_nth_of in H3 as [_ H3]. eauto. }
    clear -Q. induction Q; cbn [map]; congruence.
Qed.
Lemma finished_same (l l' : lk) : finished l l' -> same_state l l'.
Proof.
  intros (F1 & F2 & F3 & F4 & F5 & F6 & F7 & F8 & F9 & F10 & F11 & J1 & _ & _ & _ & _ & J6 & J7 & J8 & _).
  unfold same_state. rewrite F1, F2, F3, F4, F5, F6, F7, F10, F11. do 2 (split; [reflexivity|]). do 5 (split; [assumption|]). assumption.
Qed.
Lemma ready_posed (c d : achain F) : ac_a d = ac_a c -> Forall2 posed (c_links (ac_c c)) (c_links (ac_c d)) -> abi_ready c -> abi_ready d.
Proof.
  unfold abi_ready. intros -> P R. revert P. generalize (c_links (ac_c d)). induction R as [|l x t u Q R IH]; intros h' P; inversion P as [|? l' ? t' S P']; subst; constructor; auto.
  destruct S as (_&_&_&_&S&_). unfold link_mass_mat, l_mass, l_com in *. now rewrite S.
Qed.
Lemma finished_posed (l l' : lk) : finished l l' -> posed l l'.
Proof. intros (F1 & F2 & F3 & F4 & F5 & F6 & F7 & F8 & F9 & F10 & F11 & J1 & _). unfold posed, same_refs. repeat split; congruence. Qed.
Lemma run_finished g (c c' : achain F) k h1 h2 : length (ac_a c) = length (c_links (ac_c c)) -> abi_run g c c' k h1 h2 -> Forall2 finished (c_links (ac_c c)) (c_links (ac_c c')).
Proof.
  intros LA (IN & BK & FW & _ & T0 & T1 & T2 & T3 & (W' & LA') & LL).
  assert (LC : length (c_links (ac_c c)) = length (c_links (ac_c c'))).
  { unfold ac_links in LL. rewrite !map_length, !combine_length, LA, LA', !Nat.min_id in LL. auto. }
  apply forall2_nth_eq; [exact LC|]. intros i l Hl.
  destruct (nth_error (ac_a c) i) as [a|] eqn:Ha. 2:{ apply nth_error_None in Ha. apply nth_lt in Hl. lia. }
  pose proof (ac_nth_l _ _ _ _ Hl Ha) as H0. destruct IN as [LI IN]. destruct (IN i _ H0) as (v & _ & H1).
  destruct (find_kids_in _ _ (atree_in _ _ _ _ T1 H1)) as [ki FK]. destruct (backed_find _ _ _ _ _ _ _ BK FK) as (l1 & Q1 & H2).
  assert (l1 = abi_init g v (AL l a)) by congruence. subst l1.
  destruct (fwded_point al_parent al_child al_sibl _ _ _ _ _ _ _ _ i _ _ _ (proj1 T2) FW (atree_in _ _ _ _ T2 H2)) as (l2 & s & p & Q2 & _ & _ & H3 & _).
  assert (l2 = abi_back (ac_br c) (fold_right (abi_give (ac_br c)) (abi_init g v (AL l a)) (pick h2 (roots ki)))) by congruence.
  apply ac_nth_of in H3 as [H3 _]. eexists. split; [exact H3|].
  destruct (fold_give (ac_br c) (abi_init g v (AL l a)) (pick h2 (roots ki))) as (A1 & _).
  assert (A2 : al_l l2 = l_set_joint (joint_driving_torque (l_joint l)) l).
  { subst l2. unfold abi_back. cbn [al_set_joint al_l al_map_a]. unfold al_joint. now rewrite A1. }
  unfold abi_fwd_wrench, abi_fwd. cbn [snd al_set_wrench al_set_acc al_set_joint al_l]. rewrite A2. unfold finished.
  do 11 (split; [reflexivity|]). eapply jkept_trans; [apply jkept_driving|]. unfold al_joint. rewrite A2. cbn [l_joint l_set_joint l_set_wrench l_set_body]. apply jkept_qacc.
Qed.
Lemma chain_abi_run g (c : achain F) dis vel acc : usable (ac_c c) -> abi_ready c -> chain_joint_size (ac_c c) <> 0%nat ->
  length dis = chain_joint_size (ac_c c) -> length vel = chain_joint_size (ac_c c) -> length acc = chain_joint_size (ac_c c) ->
  exists c4 c' qdd k h1 h2, chain_abi g c dis vel acc = Some (c', Some qdd) /\ posed_chain (ac_c c) dis vel c4 /\
    obind (chain_set_joint_dis_all (ac_c c) dis) (fun x => obind (chain_set_joint_vel_all x vel) (fun x => obind (chain_update_fk x) chain_update_vel)) = Some c4 /\
    chain_abi_update_wrench g (AC c4 (ac_a c) (ac_br c)) = Some c' /\ abi_ready (AC c4 (ac_a c) (ac_br c)) /\
    abi_run g (AC c4 (ac_a c) (ac_br c)) c' k h1 h2 /\ chain_get_joint_acc_all (ac_c c') acc = Some qdd.
Proof.
  intros U RD NZ LD LV LA. destruct (pose_chain (ac_c c) dis vel U LD LV) as (c4 & A4 & PC).
  assert (W4 : awf (AC c4 (ac_a c) (ac_br c))).
  { split; cbn [ac_c ac_a]; [apply PC|]. rewrite <- (Forall2_len _ _ _ (pc_posed _ _ _ _ PC)). symmetry. eapply Forall2_len, RD. }
  assert (NZ4 : chain_joint_size (ac_c (AC c4 (ac_a c) (ac_br c))) <> 0%nat).
  { cbn [ac_c]. rewrite chain_joint_size_total, (pc_total _ _ _ _ PC). exact NZ. }
  destruct (update_wrench_run g _ W4 NZ4) as (c' & k & h1 & h2 & A5 & RUN).
  assert (R4 : abi_ready (AC c4 (ac_a c) (ac_br c))) by (eapply (ready_posed c); [reflexivity|apply PC|exact RD]).
  assert (GA : exists qdd, chain_get_joint_acc_all (ac_c c') acc = Some qdd).
  { assert (PF : Forall2 posed (c_links c4) (c_links (ac_c c'))).
    { generalize (run_finished g _ _ _ _ _ (proj2 W4) RUN). cbn [ac_c]. clear. induction 1; constructor; auto. now apply finished_posed. }
    eexists. unfold chain_get_joint_acc_all. apply (get_all_spec joint_get_acc _ get_acc_len 0); [eapply posed_placed; [exact PF|apply PC]|].
    rewrite (posed_total _ _ PF), (pc_total _ _ _ _ PC). lia. }
  destruct GA as [qdd GA]. exists c4, c', qdd, k, h1, h2.
  assert (R : chain_abi g c dis vel acc = Some (c', Some qdd)).
  { unfold chain_abi. destruct (Nat.eqb_spec (chain_joint_size (ac_c c)) 0); [contradiction|]. unfold ac_on_chain. rewrite A4. cbn [option_map obind]. rewrite A5. cbn [obind]. now rewrite GA. }
  do 5 (split; [assumption|]). split; [exact RUN|exact GA].
Qed.
End A.
