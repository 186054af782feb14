(** * Dyn_Properties: theorems C38, C39. *)
From Coq Require Import String ZArith QArith Qcanon List Arith Lia Permutation.
From Verif Require Import Num NumFacts Vec VecFacts Motor_Model Joint_Model Joint_Spec Joint_Proofs Body_Model Body_Proofs
  Tree Tree_Proofs Link_Model Link_Spec Link_Proofs Chain_Proofs Link_Properties Chain_Properties Kin_Spec Kin_Proofs Jacobi_Model Jacobi_Proofs Kin_Properties Dyn_Spec Dyn_Proofs ExtQ.
Import ListNotations.
Local Open Scope nat_scope.

Section Thms.
Context {F : Type} {N : Num F} {L : NumLaws F N} {E : Ext F}.
Local Open Scope num_scope.
Notation lk := (link F).

(** C38: the joint torques found by rkChainUpdateID do the same work, along any virtual joint velocities
    [u], as the inertial forces less the external wrenches do along the link velocities which
    rkChainSetJointVelAll and rkChainUpdateVel derive from [u]. *)
Theorem C38_virtual_power (g : F) (c c' cu cv : chain F) (u w : list F) :
  well_formed (c_links c) -> offsets_set c -> length u = chain_joint_size c -> length w = chain_joint_size c ->
  chain_update_id g c = Some c' -> chain_set_joint_vel_all c u = Some cu -> chain_update_vel cu = Some cv ->
  exists tau, chain_get_joint_trq_all c' w = Some tau /\ length tau = length u /\
    dotl tau u = total_power (c_links c') (c_links cv).
Proof.
  intros W O LU LW H SU UV. apply offsets_placed in O. rewrite chain_joint_size_total in *.
  pose proof (id_kept _ _ _ W H) as K. pose proof (kept_placed _ _ K _ O) as PL. pose proof (kept_total _ _ K) as TT.
  exists (flat_map (fun l => joint_get_trq (l_joint l)) (c_links c')). split; [|split].
  - unfold chain_get_joint_trq_all. rewrite (get_all_spec joint_get_trq _ get_trq_len 0 w PL) by lia.
    rewrite skipn_all2 by lia. cbn [firstn app]. now rewrite app_nil_r.
  - rewrite (flat_map_length _ _ get_trq_len). lia.
  - rewrite <- (id_power g c c' cu cv u W O (eq_sym LU) H SU UV). rewrite <- (dot_flat joint_get_trq _ get_trq_len 0 u PL). reflexivity.
Qed.
End Thms.

Section Thms2.
Context {F : Type} {N : Num F} {L : NumLaws F N} {E : Ext F} {X : ExtLaws F N E}.
Local Open Scope num_scope.
Notation lk := (link F).

(** C39: after rkChainID on a chain with up-to-date frames, the wrench kept for link [i] is, in the
    world frame, the sum over the links below and including [i] of the forces that move them less the
    external forces, and the sum of their moments about the origin of link [i]. *)
Theorem C39_link_wrench (g : F) (c c1 c' : chain F) (v a : list F) (i : nat) (d : list nat) (l : lk) :
  usable c -> chain_update_frame c = Some c1 -> length v = chain_joint_size c -> length a = chain_joint_size c ->
  chain_id g c1 v a = Some c' -> subtree (c_links c') i d -> nth_error (c_links c') i = Some l ->
  m3v (fatt (l_frame l)) (vlin (l_wrench l)) = sum_over (c_links c') d need_force /\
  m3v (fatt (l_frame l)) (vang (l_wrench l)) = sum_over (c_links c') d (need_moment (fpos (l_frame l))).
Proof.
  intros U A1 LV LA H SD Hl. destruct (id_state _ _ _ _ _ _ U A1 LV LA H) as (W & _ & C & WQ).
  eapply wrench_subtree; eauto.
Qed.
(** The wrench at the root counts every link of the chain. *)
Theorem C39_root_wrench (g : F) (c c1 c' : chain F) (v a : list F) (l : lk) :
  usable c -> chain_update_frame c = Some c1 -> length v = chain_joint_size c -> length a = chain_joint_size c ->
  chain_id g c1 v a = Some c' -> nth_error (c_links c') 0 = Some l ->
  m3v (fatt (l_frame l)) (vlin (l_wrench l)) = v3sum (map need_force (c_links c')) /\
  m3v (fatt (l_frame l)) (vang (l_wrench l)) = v3sum (map (need_moment (fpos (l_frame l))) (c_links c')).
Proof.
  intros U A1 LV LA H Hl. destruct (id_state _ _ _ _ _ _ U A1 LV LA H) as (W & _ & C & WQ).
  assert (SD : subtree (c_links c') 0 (seq 0 (length (c_links c')))).
  { split; [apply seq_NoDup|]. intros k. rewrite in_seq. split.
    - intros [_ LT]. destruct (wf_lineage _ k W LT) as (t & T & _). exists t. split; [exact T|].
      destruct (lineage_zero _ _ _ W T) as (t' & -> & _). apply in_or_app. right. left. reflexivity.
    - intros (t & T & _). split; [lia|]. destruct (lineage_head _ _ _ T) as (t' & ->). eapply lineage_lt; [exact T|left; reflexivity]. }
  destruct (wrench_subtree _ W C WQ 0 _ l SD Hl) as [A B]. rewrite A, B. clear.
  assert (G : forall (f : lk -> vec3 F) h, map (fun k => match nth_error h k with Some l => f l | None => v3zero end) (seq 0 (length h)) = map f h).
  { intros f h. apply nth_ext with (d := v3zero) (d' := v3zero); rewrite !map_length, ?seq_length; [reflexivity|]. intros n Hn.
    rewrite (nth_indep (map f h) v3zero (match nth_error h n with Some l => f l | None => v3zero end)) by (now rewrite map_length).
    rewrite (nth_indep _ v3zero ((fun k => match nth_error h k with Some l => f l | None => v3zero end) 0%nat)) by (now rewrite map_length, seq_length).
    rewrite (map_nth (fun k => match nth_error h k with Some l => f l | None => v3zero end)). rewrite seq_nth by auto. cbn [plus].
    destruct (nth_error h n) as [x|] eqn:Hx; [|apply nth_error_None in Hx; lia].
    symmetry. apply nth_error_nth. now apply map_nth_error. }
  unfold sum_over. rewrite !G. auto.
Qed.
(** rkChainCalcExtWrench adds up the external wrenches in the world frame about its origin, unless the net
    wrench of some link is within the tolerance of zero without being zero. *)
Theorem C39_ext_wrench (c c1 : chain F) : usable c -> chain_update_frame c = Some c1 ->
  (forall i l, nth_error (c_links c1) i = Some l -> v6tiny (body_ext_wrench (l_body l)) = true -> body_ext_wrench (l_body l) = v6zero) ->
  chain_ext_wrench c1 = V6 (v3sum (map ext_force (c_links c1))) (v3sum (map ext_moment (c_links c1))).
Proof.
  intros U A1 T. destruct (usable_frames _ _ U A1) as (_ & _ & _ & C1). unfold chain_ext_wrench. rewrite <- v6sum_parts.
  assert (G : forall h w, (forall i l, nth_error h i = Some l -> rigid (l_frame l) /\ (v6tiny (body_ext_wrench (l_body l)) = true -> body_ext_wrench (l_body l) = v6zero)) ->
    fold_left (fun w l => let ew := body_ext_wrench (l_body l) in if v6tiny ew then w
       else v6add w (v6angshift (m3v6 (fatt (l_frame l)) ew) (fpos (l_frame l)))) h w = v6add w (v6sum (map (fun l => V6 (ext_force l) (ext_moment l)) h))).
  { induction h as [|l h IH]; intros w H; cbn [fold_left map]; [unfold v6sum; cbn [fold_right]; now rewrite v6add_0_r|].
    change (v6sum (?a :: ?l)) with (v6add a (v6sum l)). rewrite IH by (intros i x Hx; exact (H (S i) x Hx)).
    destruct (H 0%nat l eq_refl) as [R Z]. cbv zeta. rewrite v6add_assoc. f_equal.
    rewrite <- ext_world by exact R. destruct (v6tiny _); [|reflexivity]. rewrite Z by reflexivity. now rewrite xform6ang_0, v6add_0_r. }
  rewrite G; [now rewrite v6add_0_l|]. intros i l Hl. split; [apply (C1 i l Hl)|eauto].
Qed.
End Thms2.

(** ** Concrete cases: the chain of Kin_Properties with external wrenches on two links. *)
Definition pushed (l : link Qc) (w : list (wrench Qc)) : link Qc :=
  let b := l_body l in l_set_body (Body (b_mp b) (b_frame b) (b_vel b) (b_acc b) (b_wcom b) (b_comvel b) (b_comacc b) w (b_shapes b) (b_stuff b)) l.
Definition push_at (h : list (link Qc)) (i : nat) (w : list (wrench Qc)) : list (link Qc) :=
  match nth_error h i with Some l => lset i (pushed l w) h | None => h end.
Definition wa : wrench Qc := Wr (V6 (V3 (qz 1) (qz 2) (qz 0)) (V3 (qz 0) (qz 1) (qz 0))) (V3 (qz 0) (qz 1) (qz 1)).
Definition wb : wrench Qc := Wr (V6 (V3 (qz 0) (qz (-3)) (qz 5)) (V3 (qz 2) (qz 0) (qz 1))) (V3 (qz 1) (qz 0) (qz 2)).
Definition mechw : chain Qc := c_set_links (push_at (push_at (c_links mech) 2 [wa; wb]) 4 [wb]) mech.
Definition alike (l l' : link Qc) : Prop :=
  l_joint l' = l_joint l /\ l_org l' = l_org l /\ l_offset l' = l_offset l /\ same_refs l_parent l_child l_sibl l l'.
Lemma push_alike w i (h : list (link Qc)) : Forall2 alike h (push_at h i w).
Proof.
  unfold push_at. destruct (nth_error h i) as [l|] eqn:H.
  - revert i H. induction h as [|a h IH]; intros [|i] H; try discriminate; cbn in H; cbn.
    + injection H as ->. constructor; [repeat split|]. clear. induction h; constructor; auto. repeat split.
    + constructor; [repeat split|]. apply IH. exact H.
  - clear. induction h; constructor; auto. repeat split.
Qed.
Lemma alike_usable (c : chain Qc) h : Forall2 alike (c_links c) h -> usable c -> usable (c_set_links h c) /\ chain_joint_size (c_set_links h c) = chain_joint_size c.
Proof.
  intros A (W & O & J & R). split.
  - split; [|split; [|split]].
    + eapply wf_of_refs; [|exact W]. eapply Forall2_impl2; [|exact A]. intros a b Q. apply Q.
    + apply offsets_placed in O. enough (P : placed 0 h) by (unfold chain_set_offset; cbn [c_links c_set_links]; now rewrite P).
      revert O. generalize 0. clear -A. induction A as [|l l' t t' (K1 & _ & K2 & _) A IH]; intros s P; [exact P|]. apply placed_cons in P as [P1 P2]. apply placed_cons.
      unfold lsize in *. rewrite K1, K2. auto.
    + intros i l' H. destruct (Forall2_nth_r _ _ _ A i l' H) as (l & Hl & -> & _). eauto.
    + intros i l' H. destruct (Forall2_nth_r _ _ _ A i l' H) as (l & Hl & _ & -> & _). eauto.
  - rewrite !chain_joint_size_total. cbn [c_links c_set_links]. clear -A. induction A as [|l l' t t' (K1 & _) A IH]; [reflexivity|].
    change (total (l' :: t')) with (lsize l' + total t'). change (total (l :: t)) with (lsize l + total t). unfold lsize. rewrite K1, IH. reflexivity.
Qed.
Lemma alike_trans (a b d : list (link Qc)) : Forall2 alike a b -> Forall2 alike b d -> Forall2 alike a d.
Proof.
  intros A. revert d. induction A as [|l l' t t' H A IH]; intros d B; inversion B as [|? z ? ? H' B']; subst; constructor; eauto.
  destruct H as (P1 & P2 & P3 & P4 & P5 & P6), H' as (Q1 & Q2 & Q3 & Q4 & Q5 & Q6). repeat split; congruence.
Qed.
Lemma mechw_usable : usable mechw /\ chain_joint_size mechw = 12.
Proof.
  destruct mech_usable as [U S]. rewrite <- S. apply alike_usable; [|exact U]. eapply alike_trans; apply push_alike.
Qed.
Definition macc : list Qc := map qz [0; 1; 1; 2; 0; -1; 1; 0; 2; 1; 3; 1]%Z.
Definition mvirt : list Qc := map qz [1; 1; 0; -2; 0; 1; 1; 2; 0; 1; -1; 3]%Z.
Definition z12 : list Qc := repeat (qz 0) 12.
(** Frames, inverse dynamics with [mvel], [macc], and the virtual velocities [mvirt]. *)
Definition drun : option (chain Qc * chain Qc * chain Qc) :=
  obind (chain_update_frame mechw) (fun c1 => obind (chain_set_joint_rate_all c1 mvel macc) (fun c2 =>
  obind (chain_update_id (qz 10) c2) (fun c3 => obind (chain_set_joint_vel_all c2 mvirt) (fun cu =>
  option_map (pair (c1, c3)) (chain_update_vel cu))))).
Definition dres (x : chain Qc * chain Qc * chain Qc) : list (list Qc) := let '(_, c3, cv) := x in
  [match chain_get_joint_trq_all c3 z12 with Some t => [dotl t mvirt] | None => [] end; [total_power (c_links c3) (c_links cv)];
   match nth_error (c_links c3) 1 with Some l => l3 (m3v (fatt (l_frame l)) (vlin (l_wrench l))) ++ l3 (sum_over (c_links c3) [4; 1; 2] need_force) ++
      l3 (m3v (fatt (l_frame l)) (vang (l_wrench l))) ++ l3 (sum_over (c_links c3) [4; 1; 2] (need_moment (fpos (l_frame l)))) | None => [] end;
   l6 (chain_ext_wrench c3) ++ l3 (v3sum (map ext_moment (c_links c3)))].
Example C38_ex : exists x, drun = Some x /\ dres x =
  zq [[-256]; [-256]; [-13; 32; -7; -13; 32; -7; 78; -23; -138; 78; -23; -138]; [1; -10; 4; 1; -11; -26; 1; -11; -26]]%Z.
Proof. apply (some_exq drun dres). vm_compute. reflexivity. Qed.
(** The theorem applied to the same chain. *)
Example C38_ex_all c1 c2 c3 cu cv : chain_update_frame mechw = Some c1 -> chain_set_joint_rate_all c1 mvel macc = Some c2 ->
  chain_update_id (qz 10) c2 = Some c3 -> chain_set_joint_vel_all c2 mvirt = Some cu -> chain_update_vel cu = Some cv ->
  exists tau, chain_get_joint_trq_all c3 z12 = Some tau /\ dotl tau mvirt = total_power (c_links c3) (c_links cv).
Proof.
  intros A1 A2 A3 A4 A5. destruct mechw_usable as [U SZ]. destruct (usable_frames _ _ U A1) as (W1 & P1 & T1 & _). rewrite SZ in T1.
  destruct (rate_kept c1 c2 mvel macc P1 T1 eq_refl A2) as [K2 S2]. pose proof (kept_total _ _ K2) as T2.
  destruct (C38_virtual_power (qz 10) c2 c3 cu cv mvirt z12) as (t & H1 & _ & H2); auto.
  - eapply wf_of_refs; eauto.
  - pose proof (kept_placed _ _ K2 _ P1) as P2. unfold offsets_set, chain_set_offset. rewrite P2. destruct c2; reflexivity.
  - rewrite chain_joint_size_total, T2, T1. reflexivity.
  - rewrite chain_joint_size_total, T2, T1. reflexivity.
  - eauto.
Qed.
Example C39_ex_subtree : subtree (c_links mechw) 1 [4; 1; 2].
Proof.
  split; [repeat constructor; cbn; intuition discriminate|]. intros k. split.
  - intros [<-|[<-|[<-|[]]]].
    + exists [4; 1; 0]. split; [|cbn; auto]. repeat (eapply lineage_step; [reflexivity|reflexivity|]). eapply lineage_root; reflexivity.
    + exists [1; 0]. split; [|cbn; auto]. repeat (eapply lineage_step; [reflexivity|reflexivity|]). eapply lineage_root; reflexivity.
    + exists [2; 1; 0]. split; [|cbn; auto]. repeat (eapply lineage_step; [reflexivity|reflexivity|]). eapply lineage_root; reflexivity.
  - intros (t & H & I1). destruct (lineage_head _ _ _ H) as (t' & ->). assert (K : k < 5) by (apply (lineage_lt _ _ _ H k); left; reflexivity).
    assert (k = 1 \/ k = 2 \/ k = 4 \/ k = 0 \/ k = 3) as [-> | [-> | [-> | [-> | ->]]]] by lia; try (cbn; auto; fail); exfalso.
    + inversion H as [? l Hl Pl|? l q t Hl Pl H2]; subst.
      * cbn in I1. lia.
      * injection Hl as <-. discriminate Pl.
    + inversion H as [? l Hl Pl|? l q t Hl Pl H2]; subst.
      * cbn in I1. lia.
      * injection Hl as <-. injection Pl as <-. destruct I1 as [X|I1]; [discriminate X|].
        inversion H2 as [? l Hl Pl|? l q t Hl Pl H3]; subst.
        -- cbn in I1. lia.
        -- injection Hl as <-. discriminate Pl.
Qed.

Print Assumptions C38_virtual_power.
Print Assumptions C39_link_wrench.
Print Assumptions C39_root_wrench.
Print Assumptions C39_ext_wrench.
