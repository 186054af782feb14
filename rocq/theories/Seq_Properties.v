(** * Seq_Properties: what rk_fk and rk_id print along a sequence (C90, C91). *)
From Coq Require Import Bool String List Arith Lia Field ZArith QArith Qcanon.
From Verif Require Import Num NumFacts Vec VecFacts Motor_Model Joint_Model Joint_Spec Joint_Proofs Body_Model Tree Tree_Proofs ExtQ
  Link_Model Link_Spec Link_Proofs Chain_Proofs Link_Properties Chain_Properties Kin_Spec Kin_Proofs Kin_Properties Jacobi_Proofs IK_Usable Ztk_Model Ztk_Proofs Ztk_Chain Urdf_Proofs Cad_Model Seq_Model Seq_Spec Seq_Proofs Seq_Step Seq_Grav.
Import ListNotations.

Section Thms.
Context {F : Type} {N : Num F} {L : NumLaws F N} {E : Ext F} {C : CadExt F}.
Local Open Scope num_scope.

Lemma found_first (h : list (link F)) name i l : first_named h name i l -> find_name (map (@l_name F) h) name = Some i.
Proof.
  intros (H & NM & MI). revert i H MI. induction h as [|a h IH]; intros [|i] H MI; try discriminate; cbn [map find_name].
  - injection H as ->. now rewrite NM, String.eqb_refl.
  - destruct (String.eqb_spec (l_name a) name) as [Q|_]; [exfalso; exact (MI 0%nat a (Nat.lt_0_succ _) eq_refl Q)|]. rewrite (IH i H); [reflexivity|]. intros j l' J Hj. apply (MI (S j) l'); [lia|exact Hj].
Qed.
Lemma found_none (h : list (link F)) name : (forall l, In l h -> l_name l <> name) -> find_name (map (@l_name F) h) name = None.
Proof.
  induction h as [|a h IH]; intros H; [reflexivity|]. cbn [map find_name]. destruct (String.eqb_spec (l_name a) name) as [Q|_]; [exfalso; exact (H a (or_introl eq_refl) Q)|]. rewrite IH; [reflexivity|]. intros l I. apply H. now right.
Qed.
Lemma crel_nth (P : link F -> link F -> Prop) (c d : chain F) i l : crel P c d -> nth_error (c_links d) i = Some l -> exists l', nth_error (c_links c) i = Some l' /\ P l' l.
Proof.
  intros [R _] H. pose proof (forall2_len _ _ _ R) as LL. destruct (nth_error (c_links c) i) as [l'|] eqn:Q; [|apply nth_error_None in Q; pose proof (nth_lt _ _ _ H); lia].
  destruct (Forall2_nth _ _ _ R i l' Q) as (l2 & Q2 & X). exists l'. split; [reflexivity|]. congruence.
Qed.
Definition fk_shows (c0 : chain F) (i : nat) (t : F) (e : step F) (r : fkrow F) : Prop :=
  exists c' l', chain_fk c0 (st_v e) = Some c' /\ nth_error (c_links c') i = Some l' /\ fk_t r = t /\ fk_pos r = fpos (l_frame l') /\ fk_rpy r = x_m2zyx (fatt (l_frame l')).
Lemma fk_rows (c0 : chain F) (U : usable c0) i l (full s : list (step F)) : nth_error (c_links c0) i = Some l -> forall pre c, full = pre ++ s -> near c0 c ->
  (forall e, In e s -> length (st_v e) = chain_joint_size c0) ->
  exists rows, fk_loop i c (elapsed full (length pre)) s = Some rows /\ length rows = length s /\
    forall k e, nth_error s k = Some e -> exists r, nth_error rows k = Some r /\ fk_shows c0 i (elapsed full (length pre + k)) e r.
Proof.
  intros HI. induction s as [|e s IH]; intros pre c HF NC LV; [exists []; split; [reflexivity|split; [reflexivity|intros [|k] e H; discriminate]]|].
  destruct (fk_step c0 U c (st_v e) NC (LV e (or_introl eq_refl))) as (c' & d & Q1 & Q2 & R2 & _ & NC' & ND).
  assert (NE : nth_error full (length pre) = Some e) by (rewrite HF, nth_error_app2, Nat.sub_diag; [reflexivity|lia]).
  destruct (IH (pre ++ [e]) c') as (rows & QL & LL & QR); [rewrite HF, <- app_assoc; reflexivity|exact NC'|intros e1 I; apply LV; now right|].
  rewrite app_length in QL, QR. cbn [length] in QL, QR. rewrite Nat.add_1_r in QL.
  destruct ND as [_ [ND _]]. assert (exists l', nth_error (c_links d) i = Some l') as (ld & HD).
  { pose proof (forall2_len _ _ _ ND) as LD. destruct (nth_error (c_links d) i) as [x|] eqn:Q; [eauto|]. apply nth_error_None in Q. pose proof (nth_lt _ _ _ HI). lia. }
  destruct (crel_nth S2 c' d i ld R2 HD) as (lc & HC & [_ HP]). unfold posed in HP. injection HP as _ HP _.
  cbn [fk_loop]. rewrite Q1. cbn [obind]. unfold fk_out. rewrite HC. cbn [option_map obind]. rewrite <- (elapsed_S full (length pre) e NE). rewrite QL. cbn [option_map].
  eexists. split; [reflexivity|]. split; [cbn; congruence|]. intros [|k] e1 H1; cbn [nth_error] in *.
  - injection H1 as <-. eexists. split; [reflexivity|]. exists d, ld. rewrite Nat.add_0_r. repeat split; auto; cbn [fk_pos fk_rpy]; congruence.
  - destruct (QR k e1 H1) as (r & A & B). exists r. split; [exact A|]. replace (length pre + S k)%nat with (length pre + 1 + k)%nat by lia. exact B.
Qed.

(** C90: rk_fk prints a line for every step of the sequence.  Line [k] carries the time passed before step [k] and the
    pose the link with the given name has when rkChainFK is called on the chain as read with the vector of step [k]
    alone: nothing is left of earlier steps. *)
Theorem C90_rows (c : chain F) name i l (s : list (step F)) : usable c -> first_named (c_links c) name i l -> s <> [] ->
  (forall e, In e s -> length (st_v e) = chain_joint_size c) ->
  exists rows, rk_fk c name s = Some (Some rows) /\ length rows = length s /\
    forall k e, nth_error s k = Some e -> exists r c' l', nth_error rows k = Some r /\
      chain_fk c (st_v e) = Some c' /\ nth_error (c_links c') i = Some l' /\
      fk_t r = elapsed s k /\ fk_pos r = fpos (l_frame l') /\ fk_rpy r = x_m2zyx (fatt (l_frame l')).
Proof.
  intros U FN NE LV. unfold rk_fk. rewrite (found_first _ _ _ _ FN). destruct s as [|e s]; [contradiction|].
  destruct (fk_step c U c (st_v e) (near_c0 c U) (LV e (or_introl eq_refl))) as (c' & d & Q1 & _ & _ & _ & NC & _). rewrite Q1. cbn [obind].
  destruct (fk_rows c U i l (e :: s) (e :: s) (proj1 FN) [] c' eq_refl NC LV) as (rows & A & B & D). cbn [length] in A, D. change (elapsed (e :: s) 0) with (0 : F) in A. rewrite A. cbn [option_map].
  exists rows. split; [reflexivity|]. split; [exact B|]. intros k e1 H. destruct (D k e1 H) as (r & X & c1 & l1 & Y). exists r, c1, l1. split; [exact X|]. exact Y.
Qed.
(** C90: without a link of that name nothing is printed. *)
Theorem C90_unknown (c : chain F) name s : (forall l, In l (c_links c) -> l_name l <> name) -> rk_fk c name s = Some None.
Proof. intros H. unfold rk_fk. now rewrite found_none. Qed.

Lemma out_shows (c0 : chain F) (U : usable c0) g z c t r : near c0 c -> id_out g z c t (repeat 0 (chain_joint_size c0)) = Some r -> shows g z c t r.
Proof.
  intros NC H. pose proof (out_trq c0 U g z c t _ r NC (repeat_length _ _) H) as LT. destruct NC as [_ [RC _]]. destruct (rel_placed _ _ RC) as [TC PC]. specialize (PC 0%nat (c0_placed c0 U)).
  unfold id_out in H. destruct (chain_zmp c z) as [[p|]|] eqn:QZ; [|discriminate|discriminate]. cbn [obind] in H. unfold c_root in H. destruct (nth_error (c_links c) 0) as [b|] eqn:QB; [|discriminate]. cbn [obind] in H.
  rewrite chain_joint_size_total in H. unfold chain_get_joint_trq_all in H. rewrite (get_all_spec joint_get_trq (c_links c) trq_len 0 _) in H by (auto; rewrite repeat_length; lia).
  cbn [firstn app Nat.add] in H. rewrite skipn_all2 in H by (rewrite repeat_length; lia). rewrite app_nil_r in H. cbn [option_map] in H. injection H as <-.
  cbn [id_trq] in LT. unfold shows. cbn. repeat split; auto.
  - exists b. split; [assumption|reflexivity].
  - rewrite LT, !chain_joint_size_total. congruence.
  - intros i l o Hl Ho. rewrite (placed_nth 0 _ i l PC Hl) in Ho. destruct (0 <? lsize l)%nat; [|discriminate]. injection Ho as <-. cbn [Nat.add]. apply (flat_map_slice joint_get_trq); [exact trq_len|exact Hl].
Qed.
Lemma id_is_rows (c : chain F) g (s : list (step F)) : usable c -> at_rest c -> suited c s -> (forall e, In e s -> attainable c (st_v e)) -> s <> [] ->
  rk_id g c s = omap (row_at c g 0 s) (seq 0 (length s)).
Proof.
  intros U RE SU AT NE. unfold rk_id. destruct s as [|e s]; [contradiction|]. destruct (SU e (or_introl eq_refl)) as [LE _].
  destruct (fk_step c U c (st_v e) (near_c0 c U) LE) as (c' & d & Q1 & _). rewrite Q1. cbn [obind].
  apply (id_rows c U g 0 (st_v e) (e :: s) c' RE); [|exists e, s; auto|exact Q1]. intros e1 I. split; [apply (SU e1 I)|exact (AT e1 I)].
Qed.
Lemma id_near (c : chain F) (U : usable c) g d1 d2 v w a : length v = chain_joint_size c -> chain_fk c v = Some d1 -> length w = chain_joint_size c -> length a = chain_joint_size c ->
  chain_id g d1 w a = Some d2 -> near c d2.
Proof.
  intros LV HF LW LA HI. destruct (fk_step c U c v (near_c0 c U) LV) as (c' & d & Q1 & _ & _ & _ & NC & _). replace c' with d1 in NC by congruence.
  destruct (near_set c U joint_set_vel w d1 set_vel_ok NC LW) as (e1 & E1 & F1 & WE1). assert (NE1 : near c (c_set_links e1 d1)) by (eapply near_base; [exact NC|apply set_vel_base|exact F1|exact WE1]).
  destruct (near_set c U joint_set_acc a (c_set_links e1 d1) set_acc_ok NE1 LA) as (e2 & E2 & F2 & WE2). cbn [c_links c_set_links] in E2, F2.
  assert (NE2 : near c (c_set_links e2 d1)) by (eapply (near_base c joint_set_acc a (c_set_links e1 d1)); [exact NE1|apply set_acc_base|exact F2|exact WE2]).
  unfold chain_id, chain_set_joint_rate_all in HI. rewrite set_rate_all_split, E1 in HI. cbn [obind] in HI. rewrite E2 in HI. cbn [option_map obind] in HI.
  destruct (proj2 (C24_fk_id_total g (c_set_links e2 d1) WE2)) as (x & QX & WX). replace x with d2 in WX by congruence. eapply near_kept; [exact NE2|exact (id_kept g (c_set_links e2 d1) d2 WE2 HI)|exact WX].
Qed.
Lemma vel_len (c : chain F) (U : usable c) s k w : suited c s -> vel_at c s k = Some w -> length w = chain_joint_size c.
Proof.
  intros SU H. unfold vel_at in H. destruct (nth_error s k) as [e|] eqn:Q; [|discriminate]. destruct (nth_error s (pred k)) as [e'|] eqn:Q'; [|discriminate].
  destruct (SU e (nth_error_In _ _ Q)) as [L1 _]. destruct (SU e' (nth_error_In _ _ Q')) as [L2 _]. rewrite chain_joint_size_total in *.
  destruct (sub_all (c_links c) 0 (st_v e) (st_v e') (c0_placed c U)) as (x & X1 & X2 & _); [lia|lia|]. unfold chain_sub_joint_dis_all in H. rewrite X1 in H. injection H as <-. rewrite map_length. lia.
Qed.
Lemma acc_len (c : chain F) (U : usable c) s k a : suited c s -> acc_at c s k = Some a -> length a = chain_joint_size c.
Proof.
  intros SU H. unfold acc_at in H. destruct (nth_error s k) as [e|]; [|discriminate]. destruct (vel_at c s k) as [w|] eqn:W; [|discriminate]. pose proof (vel_len c U s k w SU W) as LW. destruct k as [|k].
  - injection H as <-. rewrite quotient_len; [exact LW|now rewrite repeat_length].
  - destruct (vel_at c s k) as [w'|] eqn:W'; [|discriminate]. injection H as <-. rewrite quotient_len; [exact LW|]. rewrite LW. symmetry. exact (vel_len c U s k w' SU W').
Qed.

(** C91: rk_id prints a line for every step of the sequence.  Line [k] carries the time passed before step [k] and shows
    the state the chain as read gets from rkChainFK with the vector of step [k] and rkChainID with the backward
    differences of the sequence there, for sequences of displacements the joints can take. *)
Theorem C91_rows (c : chain F) g (s : list (step F)) rows : usable c -> at_rest c -> suited c s -> (forall e, In e s -> attainable c (st_v e)) ->
  rk_id g c s = Some rows -> length rows = length s /\
    forall k e r, nth_error s k = Some e -> nth_error rows k = Some r -> exists w a c1 c2, vel_at c s k = Some w /\ acc_at c s k = Some a /\
      chain_fk c (st_v e) = Some c1 /\ chain_id g c1 w a = Some c2 /\ shows g 0 c2 (elapsed s k) r.
Proof.
  intros U RE SU AT H. assert (NE : s <> []) by (intros ->; discriminate). rewrite (id_is_rows c g s U RE SU AT NE) in H. apply omap_forall2 in H. split; [pose proof (forall2_len _ _ _ H) as LL; rewrite seq_length in LL; congruence|].
  intros k e r He Hr. assert (HK : nth_error (seq 0 (length s)) k = Some k) by (pose proof (nth_lt _ _ _ He) as LK; rewrite (nth_error_nth' _ 0%nat) by (now rewrite seq_length); f_equal; now rewrite seq_nth).
  destruct (Forall2_nth _ _ _ H k k HK) as (r' & Hr' & RA). replace r' with r in RA by congruence. unfold row_at in RA. rewrite He in RA. cbn [obind] in RA.
  destruct (vel_at c s k) as [w|] eqn:W; [|discriminate]. destruct (acc_at c s k) as [a|] eqn:A; [|discriminate]. cbn [obind] in RA. destruct (chain_fk c (st_v e)) as [c1|] eqn:Q1; [|discriminate]. cbn [obind] in RA.
  destruct (chain_id g c1 w a) as [c2|] eqn:Q2; [|discriminate]. cbn [obind] in RA. exists w, a, c1, c2. do 4 (split; [first [reflexivity|assumption]|]). eapply out_shows; [exact U| |exact RA].
  eapply id_near; [exact U|apply (SU e (nth_error_In _ _ He))|exact Q1|exact (vel_len c U s k w SU W)|exact (acc_len c U s k a SU A)|exact Q2].
Qed.
(** C91: it gets to the end if at every step the ground force is enough for a ZMP. *)
Theorem C91_total (c : chain F) g (s : list (step F)) : usable c -> at_rest c -> suited c s -> (forall e, In e s -> attainable c (st_v e)) -> s <> [] ->
  (forall k e w a c1 c2, nth_error s k = Some e -> vel_at c s k = Some w -> acc_at c s k = Some a -> chain_fk c (st_v e) = Some c1 -> chain_id g c1 w a = Some c2 ->
    exists p, chain_zmp c2 0 = Some (Some p)) ->
  exists rows, rk_id g c s = Some rows.
Proof.
  intros U RE SU AT NE ZM. rewrite (id_is_rows c g s U RE SU AT NE). apply omap_some. intros k IK. apply in_seq in IK. destruct (nth_error s k) as [e|] eqn:He; [|apply nth_error_None in He; lia].
  destruct (nth_error s (pred k)) as [e'|] eqn:He'; [|apply nth_error_None in He'; lia]. destruct (SU e (nth_error_In _ _ He)) as [L1 _].
  assert (VT : forall j, (j < length s)%nat -> exists w, vel_at c s j = Some w).
  { intros j LJ. unfold vel_at. destruct (nth_error s j) as [f|] eqn:Hf; [|apply nth_error_None in Hf; lia]. destruct (nth_error s (pred j)) as [f'|] eqn:Hf'; [|apply nth_error_None in Hf'; lia].
    destruct (SU f (nth_error_In _ _ Hf)) as [M1 _]. destruct (SU f' (nth_error_In _ _ Hf')) as [M2 _]. rewrite chain_joint_size_total in M1, M2. destruct (sub_all (c_links c) 0 (st_v f) (st_v f') (c0_placed c U)) as (x & X1 & _); [lia|lia|].
    unfold chain_sub_joint_dis_all. rewrite X1. eexists. reflexivity. }
  destruct (VT k) as (w & W); [lia|]. assert (exists a, acc_at c s k = Some a) as (a & A).
  { unfold acc_at. rewrite He, W. destruct k as [|k]; [eauto|]. destruct (VT k) as (w' & W'); [lia|]. rewrite W'. eexists. reflexivity. }
  destruct (fk_step c U c (st_v e) (near_c0 c U) L1) as (c1 & d & Q1 & _ & _ & _ & NC & _).
  pose proof (vel_len c U s k w SU W) as LW. pose proof (acc_len c U s k a SU A) as LA.
  destruct (near_set c U joint_set_vel w c1 set_vel_ok NC LW) as (e1 & E1 & F1 & WE1). assert (NE1 : near c (c_set_links e1 c1)) by (eapply near_base; [exact NC|apply set_vel_base|exact F1|exact WE1]).
  destruct (near_set c U joint_set_acc a (c_set_links e1 c1) set_acc_ok NE1 LA) as (e2 & E2 & F2 & WE2). cbn [c_links c_set_links] in E2, F2.
  destruct (proj2 (C24_fk_id_total g (c_set_links e2 c1) WE2)) as (c2 & Q2 & WC2). assert (QI : chain_id g c1 w a = Some c2) by (unfold chain_id, chain_set_joint_rate_all; rewrite set_rate_all_split, E1; cbn [obind]; rewrite E2; exact Q2).
  pose proof (id_near c U g c1 c2 (st_v e) w a L1 Q1 LW LA QI) as [W2 [N2 _]]. destruct (ZM k e w a c1 c2 He W A Q1 QI) as (p & ZP).
  unfold row_at. rewrite He. cbn [obind]. rewrite W, A. cbn [obind]. rewrite Q1. cbn [obind]. rewrite QI. cbn [obind]. unfold id_out. rewrite ZP. cbn [obind].
  destruct (c_root c2) as [b|] eqn:B; [|unfold chain_zmp in ZP; rewrite B in ZP; discriminate]. cbn [obind]. destruct (rel_placed _ _ N2) as [T2 P2]. unfold chain_get_joint_trq_all.
  rewrite (get_all_spec joint_get_trq (c_links c2) trq_len 0 _ (P2 0%nat (c0_placed c U))) by (rewrite repeat_length, chain_joint_size_total; lia). eexists. reflexivity.
Qed.
(** C91: the acceleration printed is that of the motion alone, as rkChainID finds it without gravity, if the chain has
    its mass computed and the mass is not zero. *)
Theorem C91_acceleration {X : ExtLaws F N E} (c : chain F) g (s : list (step F)) rows : usable c -> at_rest c -> suited c s -> (forall e, In e s -> attainable c (st_v e)) ->
  c_mass c = fold_left (fun m l => m + l_mass l) (c_links c) 0 -> c_mass c <> 0 -> rk_id g c s = Some rows ->
  forall k e r, nth_error s k = Some e -> nth_error rows k = Some r -> exists w a c1 c3, vel_at c s k = Some w /\ acc_at c s k = Some a /\
    chain_fk c (st_v e) = Some c1 /\ chain_id 0 c1 w a = Some c3 /\ id_comacc r = c_comacc c3.
Proof.
  intros U RE SU AT MS NM H k e r He Hr. destruct (C91_rows c g s rows U RE SU AT H) as [_ R]. destruct (R k e r He Hr) as (w & a & c1 & c2 & Q1 & Q2 & Q3 & Q4 & SH).
  destruct (id_gravity c c1 c2 g (st_v e) w a U MS NM) as (c3 & Q5 & QA); [apply (SU e (nth_error_In _ _ He))|exact (vel_len c U s k w SU Q1)|exact (acc_len c U s k a SU Q2)|exact Q3|exact Q4|].
  exists w, a, c1, c3. do 4 (split; [assumption|]). destruct SH as (_ & _ & _ & SA & _). now rewrite SA.
Qed.
End Thms.

(** ** Concrete cases: a lift carrying a turning arm, and a lift alone. *)
#[local] Instance Seq_Qc : CadExt Qc := mkCadExt (fun m => mc0 m).
Definition crane_links : list (link Qc) := [mlink "lift" (jn TPrism) 0 2; mlink "arm" (jn TRevol) 1 1].
Definition crane_tree : list (link Qc) := match add_children crane_links [(0, 1)%nat] with Some h => h | None => [] end.
Definition crane : chain Qc := chain_calc_mass (chain_set_offset (Chain crane_tree (qz 0) v3zero v3zero v3zero)).
Lemma crane_usable : usable crane.
Proof.
  split; [|split; [|split]].
  - assert (LG : legal (length crane_links) [] [(0, 1)%nat]).
    { constructor; [cbn; lia|cbn; lia|cbn; lia| |constructor]. intros H. apply below_inv in H. destruct H as [H|(? & I & H)]; [discriminate H|destruct I]. }
    assert (W : well_formed crane_tree).
    { apply (C23_complete_tree crane_links [(0, 1)%nat]); [|exact LG|cbn; lia|cbn; lia| |reflexivity].
      - intros i l. do 2 (destruct i as [|i]; [intros H; injection H as <-; repeat split|]). destruct i; discriminate.
      - intros c H. cbn in H. cbn. lia. }
    eapply wf_of_refs; [|exact W]. repeat constructor.
  - reflexivity.
  - intros i l H. do 2 (destruct i as [|i]; [injection H as <-; apply jn_made|]). destruct i; discriminate.
  - intros i l H. do 2 (destruct i as [|i]; [injection H as <-; apply rotation_id|]). destruct i; discriminate.
Qed.
Definition hoist : list (step Qc) := [ST [qz 0; qz 0] (qz 1); ST [qz 1; qz 1] (qz 1); ST [qz 3; qz 2] (qz 2)].
Lemma attain_run (c : chain Qc) v : obind (chain_set_joint_dis_all c v) (fun c' => chain_get_joint_dis_all c' (repeat (qz 0) (chain_joint_size c))) = Some v -> attainable c v.
Proof. intros H. destruct (chain_set_joint_dis_all c v) as [c'|] eqn:Q; [|discriminate]. exists c'. split; [exact Q|exact H]. Qed.
Lemma crane_rest : at_rest crane.
Proof. intros l [<-|[<-|[]]]; repeat constructor. Qed.
Lemma qn0 (q : Qc) : Qeq_bool (this q) 0 = false -> q <> 0%num.
Proof. intros H Q. rewrite Q in H. discriminate H. Qed.
Lemma hoist_suited : suited crane hoist.
Proof. intros e [<-|[<-|[<-|[]]]]; (split; [reflexivity|apply qn0; reflexivity]). Qed.
Lemma hoist_attainable e : In e hoist -> attainable crane (st_v e).
Proof. intros [<-|[<-|[<-|[]]]]; apply attain_run; vm_compute; reflexivity. Qed.

(** A line of rk_fk (time, position, and the stand-in for the three angles, the first axis) and of rk_id. *)
Definition fk_nums (r : fkrow Qc) : list Q := map this (fk_t r :: l3 (fk_pos r) ++ l3 (fk_rpy r)).
Definition id_nums (r : idrow Qc) : list Q :=
  map this (id_t r :: l3 (id_com r) ++ l3 (id_comvel r) ++ l3 (id_comacc r) ++ l3 (id_zmp r) ++ l3 (id_am r) ++ id_trq r).
Example C90_ex : first_named (c_links crane) "arm" 1 (nth 1 (c_links crane) (link_new "" JFixed)) /\ hoist <> [] /\
  (forall e, In e hoist -> length (st_v e) = chain_joint_size crane) /\
  option_map (option_map (map fk_nums)) (rk_fk crane "arm" hoist) =
  Some (Some [[0; 1; 0; 2; 1; 0; 0]; [1; 1; 0; 3; 0; 1; 0]; [2; 1; 0; 5; -3 # 5; 4 # 5; 0]]%Q).
Proof.
  split; [split; [reflexivity|split; [reflexivity|]]; intros [|j] l' J H; [injection H as <-; discriminate|lia]|]. split; [discriminate|]. split; [intros e I; apply (hoist_suited e I)|]. vm_compute. reflexivity.
Qed.
Example C90_ex_unknown : rk_fk crane "hook" hoist = Some None.
Proof. apply C90_unknown. intros l [<-|[<-|[]]]; discriminate. Qed.
Example C91_ex : usable crane /\ at_rest crane /\ suited crane hoist /\ (forall e, In e hoist -> attainable crane (st_v e)) /\
  option_map (map id_nums) (rk_id (qz 10) crane hoist) = Some
    [[0; 1 # 3; 1; 5 # 3; 0; 0; 0; 0; 0; 0; 1 # 3; 1; 0; 0; 0; 0; 30; 0];
     [1; 0; 2 # 3; 8 # 3; 0; -1 # 3; 1; 1 # 3; -1 # 3; 1; -4 # 33; 26 # 33; 0; 4 # 3; 0; 4; 33; 5];
     [2; 1 # 15; 7 # 15; 14 # 3; 1 # 10; -2 # 15; 1; 1 # 60; 7 # 60; 0; 17 # 300; 119 # 300; 0; 8 # 15; 2 # 5; 34 # 15; 30; -5 # 4]]%Q.
Proof.
  split; [exact crane_usable|]. split; [exact crane_rest|]. split; [exact hoist_suited|]. split; [exact hoist_attainable|]. vm_compute. reflexivity.
Qed.

Example C91_ex_acceleration : c_mass crane = fold_left (fun m l => m + l_mass l)%num (c_links crane) 0%num /\ c_mass crane <> 0%num /\
  option_map (map (fun r => map this (l3 (id_comacc r)))) (rk_id (qz 0) crane (firstn 1 hoist)) = None /\
  (exists rows, rk_id (qz 10) crane hoist = Some rows /\ option_map (fun r => map this (l3 (id_comacc r))) (nth_error rows 1) = Some [1 # 3; -1 # 3; 1]%Q).
Proof.
  split; [reflexivity|]. split; [apply qn0; reflexivity|]. split; [vm_compute; reflexivity|]. destruct (rk_id (qz 10) crane hoist) as [rows|] eqn:Q.
  - exists rows. split; [reflexivity|]. assert (X : option_map (fun rows => option_map (fun r => map this (l3 (id_comacc r))) (nth_error rows 1)) (rk_id (qz 10) crane hoist) = Some (Some [1 # 3; -1 # 3; 1]%Q)) by (vm_compute; reflexivity).
    rewrite Q in X. exact (f_equal (fun o => match o with Some x => x | None => None end) X).
  - assert (X : match rk_id (qz 10) crane hoist with Some _ => true | None => false end = true) by (vm_compute; reflexivity). rewrite Q in X. discriminate X.
Qed.

(** C90, C91 are false for an empty sequence: its first vector is read. *)
Definition empty_handled : Prop := forall (c : chain Qc) name i l g, usable c -> first_named (c_links c) name i l -> rk_fk c name [] <> None /\ rk_id g c [] <> None.
Theorem C90_empty_refuted : ~ empty_handled.
Proof. intros H. destruct (H crane "lift"%string 0%nat _ (qz 10) crane_usable (conj eq_refl (conj eq_refl (fun j l' J => match Nat.nlt_0_r j J with end)))) as [A _]. exact (A eq_refl). Qed.

(** C91 is false for a joint that turns more than half a turn: the angle is kept within half a turn, but the next
    angle of the sequence is compared with it as it is, so the velocity is off by a turn per time step. *)
Definition any_angle : Prop := forall (c : chain Qc) g s rows, usable c -> at_rest c -> suited c s -> rk_id g c s = Some rows ->
  forall k e r, nth_error s k = Some e -> nth_error rows k = Some r -> exists w a c1 c2, vel_at c s k = Some w /\ acc_at c s k = Some a /\
    chain_fk c (st_v e) = Some c1 /\ chain_id g c1 w a = Some c2 /\ shows g 0%num c2 (elapsed s k) r.
Definition spin : list (step Qc) := [ST [qz 0; qz 3] (qz 1); ST [qz 0; qz 4] (qz 1); ST [qz 0; qz 5] (qz 1)].
Definition due (g : Qc) (c : chain Qc) (s : list (step Qc)) (k : nat) : option (list Q) :=
  obind (nth_error s k) (fun e => obind (vel_at c s k) (fun w => obind (acc_at c s k) (fun a => obind (chain_fk c (st_v e)) (fun c1 =>
  option_map (fun c2 => map this (l3 (c_comvel c2))) (chain_id g c1 w a))))).
Definition seen (g : Qc) (c : chain Qc) (s : list (step Qc)) (k : nat) : option (list Q) :=
  obind (rk_id g c s) (fun rows => option_map (fun r => map this (l3 (id_comvel r))) (nth_error rows k)).
Lemma due_seen g c s rows k e r : rk_id g c s = Some rows -> nth_error s k = Some e -> nth_error rows k = Some r ->
  (exists w a c1 c2, vel_at c s k = Some w /\ acc_at c s k = Some a /\ chain_fk c (st_v e) = Some c1 /\ chain_id g c1 w a = Some c2 /\ shows g 0%num c2 (elapsed s k) r) ->
  due g c s k = seen g c s k.
Proof.
  intros R He Hr (w & a & c1 & c2 & Q1 & Q2 & Q3 & Q4 & SH). unfold due, seen. rewrite R, He. cbn [obind]. rewrite Hr, Q1, Q2. cbn [obind]. rewrite Q3. cbn [obind]. rewrite Q4. cbn [option_map].
  destruct SH as (_ & _ & SV & _). rewrite SV. reflexivity.
Qed.
Lemma seen_some g c s k : seen g c s k <> None -> exists rows r, rk_id g c s = Some rows /\ nth_error rows k = Some r.
Proof. unfold seen. destruct (rk_id g c s) as [rows|]; [|intros H; elim H; reflexivity]. cbn [obind]. destruct (nth_error rows k) as [r|] eqn:Q; [|intros H; elim H; reflexivity]. intros _. exists rows, r. auto. Qed.
Lemma spin_suited : suited crane spin.
Proof. intros e [<-|[<-|[<-|[]]]]; (split; [reflexivity|apply qn0; reflexivity]). Qed.
Lemma spin_off : due (qz 10) crane spin 2 <> seen (qz 10) crane spin 2.
Proof. vm_compute. discriminate. Qed.
Lemma spin_runs : seen (qz 10) crane spin 2 <> None.
Proof. vm_compute. discriminate. Qed.
Theorem C91_turn_refuted : ~ any_angle.
Proof.
  intros H. destruct (seen_some _ _ _ _ spin_runs) as (rows & r & G1 & G2). apply spin_off. apply (due_seen _ _ _ rows 2 (ST [qz 0; qz 5] (qz 1)) r G1 eq_refl G2).
  exact (H crane (qz 10) spin rows crane_usable crane_rest spin_suited G1 2%nat (ST [qz 0; qz 5] (qz 1)) r eq_refl G2).
Qed.
(** The velocities are not those between the printed times when the time steps differ: line [k] is printed after the
    time step of line [k-1], but the difference of the vectors is divided by the time step of [k]. *)
Definition even_pace : Prop := forall (c : chain Qc) g s rows, usable c -> at_rest c -> suited c s -> (forall e, In e s -> attainable c (st_v e)) -> rk_id g c s = Some rows ->
  forall k e e' r r', nth_error s k = Some e -> nth_error s (S k) = Some e' -> nth_error rows k = Some r -> nth_error rows (S k) = Some r' ->
  exists x a c1 c2, chain_sub_joint_dis_all c (st_v e') (st_v e) = Some x /\ acc_at c s (S k) = Some a /\ chain_fk c (st_v e') = Some c1 /\
    chain_id g c1 (map (fun q => q / (id_t r' - id_t r))%num x) a = Some c2 /\ id_comvel r' = c_comvel c2.
Definition paced (g : Qc) (c : chain Qc) (s : list (step Qc)) (k : nat) : option (list Q) :=
  obind (nth_error s k) (fun e => obind (nth_error s (S k)) (fun e' => obind (rk_id g c s) (fun rows => obind (nth_error rows k) (fun r => obind (nth_error rows (S k)) (fun r' =>
  obind (chain_sub_joint_dis_all c (st_v e') (st_v e)) (fun x => obind (acc_at c s (S k)) (fun a => obind (chain_fk c (st_v e')) (fun c1 =>
  option_map (fun c2 => map this (l3 (c_comvel c2))) (chain_id g c1 (map (fun q => q / (id_t r' - id_t r))%num x) a))))))))).
Lemma paced_seen g c s rows k e e' r r' : rk_id g c s = Some rows -> nth_error s k = Some e -> nth_error s (S k) = Some e' -> nth_error rows k = Some r -> nth_error rows (S k) = Some r' ->
  (exists x a c1 c2, chain_sub_joint_dis_all c (st_v e') (st_v e) = Some x /\ acc_at c s (S k) = Some a /\ chain_fk c (st_v e') = Some c1 /\
    chain_id g c1 (map (fun q => q / (id_t r' - id_t r))%num x) a = Some c2 /\ id_comvel r' = c_comvel c2) -> paced g c s k = seen g c s (S k).
Proof.
  intros R He He' Hr Hr' (x & a & c1 & c2 & Q1 & Q2 & Q3 & Q4 & SV). unfold paced, seen. rewrite He, He', R. cbn [obind]. rewrite Hr, Hr'. cbn [obind]. rewrite Q1. cbn [obind]. rewrite Q2. cbn [obind]. rewrite Q3. cbn [obind]. rewrite Q4. cbn [option_map]. rewrite SV. reflexivity.
Qed.
Lemma hoist_off : paced (qz 10) crane hoist 1 <> seen (qz 10) crane hoist 2.
Proof. vm_compute. discriminate. Qed.
Lemma hoist_runs : seen (qz 10) crane hoist 1 <> None /\ seen (qz 10) crane hoist 2 <> None.
Proof. split; vm_compute; discriminate. Qed.
Theorem C91_uneven_refuted : ~ even_pace.
Proof.
  intros H. destruct (seen_some _ _ _ _ (proj1 hoist_runs)) as (rows & r & G1 & G2). destruct (seen_some _ _ _ _ (proj2 hoist_runs)) as (rows' & r' & G1' & G2'). rewrite G1 in G1'. apply (f_equal (fun o => match o with Some x => x | None => rows end)) in G1'. subst rows'.
  apply hoist_off. apply (paced_seen _ _ _ rows 1 (ST [qz 1; qz 1] (qz 1)) (ST [qz 3; qz 2] (qz 2)) r r' G1 eq_refl eq_refl G2 G2').
  exact (H crane (qz 10) hoist rows crane_usable crane_rest hoist_suited hoist_attainable G1 1%nat _ _ r r' eq_refl eq_refl G2 G2').
Qed.
(** C91 cannot do without the ground force: in free fall rkChainZMP gives nothing and an uninitialised vector is printed. *)
Definition always_zmp : Prop := forall (c : chain Qc) g s, usable c -> at_rest c -> suited c s -> (forall e, In e s -> attainable c (st_v e)) -> s <> [] -> rk_id g c s <> None.
Definition fall : list (step Qc) := [ST [qz 0; qz 0] (qz 1); ST [qz (-10); qz 0] (qz 1)].
Theorem C91_fall_refuted : ~ always_zmp.
Proof.
  intros H. apply (H crane (qz 10) fall crane_usable crane_rest); [| |discriminate|vm_compute; reflexivity].
  - intros e [<-|[<-|[]]]; (split; [reflexivity|apply qn0; reflexivity]).
  - intros e [<-|[<-|[]]]; apply attain_run; vm_compute; reflexivity.
Qed.

Print Assumptions C90_rows.
Print Assumptions C90_unknown.
Print Assumptions C90_empty_refuted.
Print Assumptions C91_rows.
Print Assumptions C91_total.
Print Assumptions C91_acceleration.
Print Assumptions C91_turn_refuted.
Print Assumptions C91_uneven_refuted.
Print Assumptions C91_fall_refuted.
