(** * Seq_Step: a step of rk_fk and of rk_id on a chain with a history, against the same on the chain as read. *)
From Coq Require Import Bool String List Arith Lia Field.
From Verif Require Import Num NumFacts Vec VecFacts Motor_Model Joint_Model Joint_Spec Joint_Proofs Body_Model Tree Tree_Proofs
  Link_Model Link_Spec Link_Proofs Chain_Proofs Link_Properties Chain_Properties Kin_Spec Kin_Proofs Kin_Properties Jacobi_Proofs IK_Usable Ztk_Model Ztk_Proofs Ztk_Chain Urdf_Proofs Cad_Model Seq_Model Seq_Spec Seq_Proofs.
Import ListNotations.

Section Step.
Context {F : Type} {N : Num F} {L : NumLaws F N} {E : Ext F} {C : CadExt F}.
Add Field FFieldSst : num_field.
Local Open Scope num_scope.
Notation lk := (link F).
Local Ltac tup H := unfold lfix, posed, moving in H; injection H; clear H; intros.

(** ** Vectors *)
Lemma quotient_len dt (a : list F) : forall b, length a = length b -> length (quotient dt a b) = length a.
Proof. induction a as [|x a IH]; intros [|y b] H; try discriminate; [reflexivity|]. cbn. f_equal. apply IH. now injection H. Qed.
Lemma quotient_skipn dt o (a : list F) : forall b, length a = length b -> skipn o (quotient dt a b) = quotient dt (skipn o a) (skipn o b).
Proof. revert a. induction o as [|o IH]; intros a b H; [reflexivity|]. destruct a, b; try discriminate; [reflexivity|]. cbn. apply IH. now injection H. Qed.
Lemma quotient_firstn dt n (a : list F) : forall b, firstn n (quotient dt a b) = quotient dt (firstn n a) (firstn n b).
Proof. revert a. induction n as [|n IH]; intros a b; [destruct a; reflexivity|]. destruct a, b; try reflexivity. cbn. f_equal. apply IH. Qed.
Lemma quotient_slice dt o n (a b : list F) : length a = length b -> slice o n (quotient dt a b) = quotient dt (slice o n a) (slice o n b).
Proof. intros H. unfold slice. now rewrite quotient_skipn, quotient_firstn. Qed.
Lemma map_slice (f : F -> F) o n (a : list F) : slice o n (map f a) = map f (slice o n a).
Proof. unfold slice. now rewrite skipn_map, firstn_map. Qed.

(** rkChainSubJointDisAll, joint by joint. *)
Lemma write_slice k vals (v r : list F) : write_at k vals v = Some r -> length r = length v /\ firstn k r = firstn k v /\ slice k (length vals) r = vals /\ (forall o, (k + length vals <= o)%nat -> skipn o r = skipn o v).
Proof.
  unfold write_at. destruct (Nat.leb_spec (k + length vals) (length v)); [|discriminate]. intros Q. injection Q as <-.
  assert (L1 : length (firstn k v) = k) by (rewrite firstn_length; lia). split; [|split; [|split]].
  - rewrite !app_length, L1, skipn_length. lia.
  - rewrite firstn_app, L1, Nat.sub_diag, firstn_O, app_nil_r, firstn_firstn. f_equal. lia.
  - unfold slice. rewrite skipn_app, L1, Nat.sub_diag, skipn_O. rewrite (skipn_all2 (n:=k) (firstn k v)) by lia. cbn [app]. rewrite firstn_app, Nat.sub_diag, firstn_O, app_nil_r. apply firstn_all2. lia.
  - intros o Ho. rewrite skipn_app_ge by lia. rewrite L1. rewrite skipn_app_ge by lia. rewrite Chain_Proofs.skipn_skipn. f_equal. lia.
Qed.
Lemma sub_all (h : list lk) : forall s d v, placed s h -> (s + total h <= length d)%nat -> (s + total h <= length v)%nat ->
  exists r, map_all2 joint_sub_dis h d v = Some r /\ length r = length d /\ firstn s r = firstn s d /\
    forall i l o, nth_error h i = Some l -> l_offset l = Some o -> joint_sub_dis (l_joint l) (skipn o d) (skipn o v) = Some (slice o (lsize l) r).
Proof.
  induction h as [|l h IH]; intros s d v P LD LV; [exists d; split; [reflexivity|split; [reflexivity|split; [reflexivity|intros [|i] ? ? H; discriminate]]]|].
  apply placed_cons in P as [A B]. cbn [total fold_right] in LD, LV. fold (total h) in LD, LV. cbn [map_all2]. rewrite A. destruct (Nat.ltb_spec 0 (lsize l)) as [Hn|Hn].
  - destruct (sub_total (l_joint l) (skipn s d) (skipn s v)) as (x & Hx & Lx); [rewrite skipn_length; unfold lsize in *; lia|rewrite skipn_length; unfold lsize in *; lia|]. rewrite Hx. cbn [obind].
    assert (FX : firstn (joint_size (l_joint l)) x = x) by (apply firstn_all2; lia). rewrite FX.
    destruct (write_at s x d) as [d'|] eqn:W. 2:{ unfold write_at in W. destruct (Nat.leb_spec (s + length x) (length d)); [discriminate|]. unfold lsize in *. lia. }
    cbn [obind]. destruct (write_slice _ _ _ _ W) as (W1 & W2 & W3 & W4). rewrite Lx in W3, W4. fold (lsize l) in W3, W4.
    destruct (IH (s + lsize l)%nat d' v B) as (r & R1 & R2 & R3 & R4); [lia|lia|]. exists r. split; [exact R1|]. split; [lia|]. split.
    + transitivity (firstn s (firstn (s + lsize l) r)); [rewrite firstn_firstn; f_equal; lia|]. rewrite R3, firstn_firstn. replace (Nat.min s (s + lsize l)) with s by lia. exact W2.
    + intros [|i] m o Hm Ho.
      * cbn in Hm. injection Hm as <-. assert (o = s) by congruence. subst o. rewrite Hx. f_equal. rewrite <- W3. unfold slice.
        rewrite !firstn_skipn_comm. now rewrite R3.
      * cbn in Hm. pose proof (placed_nth _ _ _ _ B Hm) as PO. rewrite Ho in PO. destruct (Nat.ltb 0 (lsize m)); [|discriminate]. injection PO as PO.
        rewrite <- (R4 i m o Hm Ho). rewrite W4 by lia. reflexivity.
  - assert (Z : lsize l = 0%nat) by lia. rewrite Z, Nat.add_0_r in B. destruct (IH s d v B) as (r & R1 & R2 & R3 & R4); [lia|lia|]. exists r. split; [exact R1|]. split; [exact R2|]. split; [exact R3|].
    intros [|i] m o Hm Ho; [cbn in Hm; injection Hm as <-; congruence|]. now apply (R4 i).
Qed.

(** ** Against the chain as read *)
Lemma rel_placed (h d : list lk) : Forall2 S0 h d -> total h = total d /\ forall s, placed s d -> placed s h.
Proof.
  induction 1 as [|a b h d [Hf Hj] _ [IT IH]]; [split; auto|]. assert (SZ : lsize a = lsize b) by (apply base_size; exact Hj). assert (OF : l_offset a = l_offset b) by (tup Hf; congruence).
  split; [cbn [total fold_right]; fold (total h) (total d); congruence|]. intros s P. apply placed_cons in P as [A B]. apply placed_cons. rewrite SZ, OF. auto.
Qed.
Lemma rel_set (set set' : joint F -> list F -> option (joint F)) v (h d h1 d1 : list lk) :
  (forall j j' l k, jbase j = jbase j' -> set j l = Some k -> exists k', set' j' l = Some k' /\ jrate k = jrate k') ->
  placed 0 d -> Forall2 S0 h d -> Forall2 (set_rel set v) h h1 -> Forall2 (set_rel set' v) d d1 -> Forall2 S1 h1 d1.
Proof.
  intros SS. generalize 0%nat as s. intros s P R. revert s P h1 d1. induction R as [|a b h d [Hf Hj] _ IH]; intros s P h1 d1 A B; inversion A as [|a1 ? h1' ? Xa A']; inversion B as [|b1 ? d1' ? Xb B']; subst; constructor.
  - apply placed_cons in P as [PO _]. assert (OF : l_offset a = l_offset b) by (pose proof Hf as Z; tup Z; congruence). unfold set_rel in Xa, Xb. rewrite OF in Xa. destruct (l_offset b) as [o|] eqn:O.
    + destruct Xa as (j & J & ->), Xb as (j' & J' & ->). destruct (SS _ _ _ _ Hj J) as (k' & K & Q). assert (k' = j') by congruence. subst k'. split; [exact Hf|exact Q].
    + subst y y0. split; [exact Hf|]. destruct (Nat.ltb_spec 0 (lsize b)); [congruence|]. assert (SZ : lsize a = lsize b) by (apply base_size; exact Hj).
      rewrite (size0 (l_joint a)), (size0 (l_joint b)) by (unfold lsize in *; lia). reflexivity.
  - apply placed_cons in P as [_ P]. eapply IH; eauto.
Qed.
Context (c0 : chain F) (U : usable c0).
Definition near (c : chain F) : Prop := well_formed (c_links c) /\ crel S0 c c0.
Lemma c0_placed : placed 0 (c_links c0).
Proof. destruct U as (_ & O & _). now apply offsets_placed. Qed.
Lemma near_c0 : near c0.
Proof. split; [apply U|]. split; [apply F2_refl; apply S0_refl|reflexivity]. Qed.
Lemma near_set set v c : set_ok set -> near c -> length v = chain_joint_size c0 -> exists h1, set_all set (c_links c) v = Some h1 /\ Forall2 (set_rel set v) (c_links c) h1 /\ well_formed h1.
Proof.
  intros SO [W [R _]] LV. destruct (rel_placed _ _ R) as [T P]. rewrite chain_joint_size_total in LV.
  destruct (set_all_spec set v (c_links c) 0 SO (P 0%nat c0_placed)) as (h1 & A & B); [lia|]. exists h1. split; [exact A|]. split; [exact B|].
  eapply wf_of_refs; [|exact W]. eapply F2_mono; [|exact B]. intros a b Q. unfold set_rel in Q. destruct (l_offset a); [destruct Q as (j & _ & ->)|subst b]; repeat split.
Qed.
Lemma fk_step c v : near c -> length v = chain_joint_size c0 ->
  exists c' d, chain_fk c v = Some c' /\ chain_fk c0 v = Some d /\ crel S2 c' d /\ c_wcom c' = c_wcom d /\ near c' /\ near d.
Proof.
  intros NC LV. destruct (near_set joint_set_dis v c set_dis_ok NC LV) as (h1 & A1 & B1 & W1). destruct (near_set joint_set_dis v c0 set_dis_ok near_c0 LV) as (d1 & A2 & B2 & W2).
  pose proof NC as [W [R M]].
  assert (R1 : crel S1 (c_set_links h1 c) (c_set_links d1 c0)) by (split; [eapply (rel_set joint_set_dis joint_set_dis); [apply set_dis_rate|apply c0_placed|exact R|exact B1|exact B2]|exact M]).
  destruct (proj1 (C24_fk_id_total 0 (c_set_links h1 c) W1)) as (c' & Q1 & _). destruct (proj1 (C24_fk_id_total 0 (c_set_links d1 c0) W2)) as (d & Q2 & WD).
  destruct (fk_rel (c_set_links h1 c) c' (c_set_links d1 c0) d W1 R1 Q1 Q2) as (W' & R2 & WC). exists c', d. unfold chain_fk, chain_set_joint_dis_all. rewrite A1, A2. cbn [option_map obind].
  assert (ND : near d).
  { split; [exact WD|]. destruct (fk_kept (c_set_links d1 c0) d W2 Q2) as [K KM]. split; [|exact KM]. eapply F2_trans; [apply S0_trans| |]; [apply F2_sym; [apply S0_sym|]; eapply F2_mono; [|exact K]; intros a b [Z1 Z2]; split; [exact Z1|now rewrite Z2]|].
    change (c_links (c_set_links d1 c0)) with d1. apply F2_sym; [apply S0_sym|]. eapply F2_mono; [|exact B2]. intros a b Q. unfold set_rel in Q. destruct (l_offset a); [destruct Q as (j & J & ->)|subst b; apply S0_refl]. split; [reflexivity|]. symmetry. eapply set_dis_base; eauto. }
  split; [exact Q1|]. split; [exact Q2|]. split; [exact R2|]. split; [exact WC|]. split; [|exact ND]. split; [exact W'|]. destruct R2 as [R2 M2]. destruct ND as [_ [ND MD]]. split; [|congruence].
  eapply F2_trans; [apply S0_trans| |exact ND]. eapply F2_mono; [|exact R2]. apply S20.
Qed.

Lemma near_base set v c h1 : near c -> (forall j l k, set j l = Some k -> jbase k = jbase j) -> Forall2 (set_rel set v) (c_links c) h1 -> well_formed h1 -> near (c_set_links h1 c).
Proof.
  intros [W [R M]] SB B W1. split; [exact W1|]. split; [|exact M]. cbn [c_links c_set_links]. eapply F2_trans; [apply S0_trans| |exact R]. apply F2_sym; [apply S0_sym|]. eapply F2_mono; [|exact B].
  intros a b Q. unfold set_rel in Q. destruct (l_offset a); [destruct Q as (j & J & ->)|subst b; apply S0_refl]. split; [reflexivity|]. symmetry. eapply SB; eauto.
Qed.
Lemma near_kept c c' : near c -> Forall2 kept (c_links c) (c_links c') /\ c_mass c' = c_mass c -> well_formed (c_links c') -> near c'.
Proof.
  intros [W [R M]] [K KM] W'. split; [exact W'|]. split; [|congruence]. eapply F2_trans; [apply S0_trans| |exact R]. apply F2_sym; [apply S0_sym|]. eapply F2_mono; [|exact K].
  intros a b [A B]. split; [exact A|]. now apply rate_base, trq_rate.
Qed.
Definition held (c : chain F) (prev pvel : list F) : Prop := forall i l o, nth_error (c_links c) i = Some l -> l_offset l = Some o ->
  cache_ok (l_joint l) /\ joint_get_dis (l_joint l) = slice o (lsize l) prev /\ joint_get_vel (l_joint l) = slice o (lsize l) pvel.
Definition same (c d : chain F) : Prop := crel S5 c d /\ c_wcom c = c_wcom d /\ c_comvel c = c_comvel d /\ c_comacc c = c_comacc d.
Lemma attain v i l o k : length v = chain_joint_size c0 -> attainable c0 v -> nth_error (c_links c0) i = Some l -> l_offset l = Some o -> joint_set_dis (l_joint l) (skipn o v) = Some k -> joint_get_dis k = slice o (lsize l) v.
Proof.
  intros LV (c' & A & B) Hl Ho Hk. destruct (C28_dis_roundtrip c0 v (repeat 0 (chain_joint_size c0)) (proj1 (proj2 U)) LV (repeat_length _ _)) as (c1 & r & A1 & B1 & _ & _ & Q).
  assert (c1 = c') by congruence. subst c1. assert (r = v) by congruence. subst r. specialize (Q i l o Hl Ho). unfold slice at 1 in Q. rewrite lim_dis_firstn in Q. rewrite (set_dis_lim _ _ _ Hk) in Q. injection Q as Q. exact Q.
Qed.
Lemma id_step g c v dt prev pvel : near c -> held c prev pvel -> length v = chain_joint_size c0 -> length prev = chain_joint_size c0 -> length pvel = chain_joint_size c0 -> attainable c0 v ->
  exists c' x d1 d2, chain_fkcnt g c v dt = Some c' /\ chain_sub_joint_dis_all c0 v prev = Some x /\ length x = chain_joint_size c0 /\ chain_fk c0 v = Some d1 /\
    chain_id g d1 (map (fun q => q / dt) x) (quotient dt (map (fun q => q / dt) x) pvel) = Some d2 /\ same c' d2 /\ near c' /\ held c' v (map (fun q => q / dt) x).
Proof.
  intros NC HC LV LP LQ AT. set (n := chain_joint_size c0) in *. pose proof NC as [W [R M]].
  destruct (near_set (fun j l => joint_set_dis_cnt j l dt) v c (set_cnt_ok dt) NC LV) as (h1 & A1 & B1 & W1). destruct (near_set joint_set_dis v c0 set_dis_ok near_c0 LV) as (k1 & A2 & B2 & W2).
  assert (R1 : crel S1 (c_set_links h1 c) (c_set_links k1 c0)).
  { split; [|exact M]. eapply (rel_set (fun j l => joint_set_dis_cnt j l dt) joint_set_dis); [|apply c0_placed|exact R|exact B1|exact B2].
    intros j j' l k HB HK. destruct (set_cnt_rate _ _ _ _ HK) as (k' & Q1 & Q2). destruct (set_dis_rate _ _ _ _ HB Q1) as (k'' & Q3 & Q4). exists k''. split; [exact Q3|congruence]. }
  destruct (proj1 (C24_fk_id_total 0 (c_set_links h1 c) W1)) as (c1 & Q1 & WC1). destruct (proj1 (C24_fk_id_total 0 (c_set_links k1 c0) W2)) as (d1 & Q2 & WD1).
  destruct (fk_rel (c_set_links h1 c) c1 (c_set_links k1 c0) d1 W1 R1 Q1 Q2) as (_ & [R2 M2] & WC).
  destruct (fk_kept (c_set_links h1 c) c1 W1 Q1) as [KC KCM]. destruct (fk_kept (c_set_links k1 c0) d1 W2 Q2) as [KD KDM].
  assert (ND : near d1).
  { eapply near_kept; [|split; [eapply F2_mono; [|exact KD]|exact KDM]|exact WD1]; [eapply near_base; [apply near_c0|apply set_dis_base|exact B2|exact W2]|]. intros a b [Z1 Z2]. split; [exact Z1|now rewrite Z2]. }
  destruct (sub_all (c_links c0) 0 v prev c0_placed) as (x & X1 & X2 & _ & X4); [rewrite <- chain_joint_size_total; fold n; lia|rewrite <- chain_joint_size_total; fold n; lia|].
  set (w := map (fun q => q / dt) x). set (a := quotient dt w pvel). assert (LX : length x = n) by congruence. assert (LW : length w = n) by (unfold w; rewrite map_length; exact LX). assert (LA : length a = n) by (unfold a; rewrite quotient_len; lia).
  destruct (near_set joint_set_vel w d1 set_vel_ok ND LW) as (e1 & E1 & F1 & WE1). assert (NE1 : near (c_set_links e1 d1)) by (eapply near_base; [exact ND|apply set_vel_base|exact F1|exact WE1]).
  destruct (near_set joint_set_acc a (c_set_links e1 d1) set_acc_ok NE1 LA) as (e2 & E2 & F2 & WE2). cbn [c_links c_set_links] in E2, F2.
  assert (NE2 : near (c_set_links e2 d1)) by (eapply (near_base joint_set_acc a (c_set_links e1 d1)); [exact NE1|apply set_acc_base|exact F2|exact WE2]).
  pose proof (forall2_len _ _ _ B1) as L1. pose proof (forall2_len _ _ _ KC) as L2. cbn [c_links c_set_links] in L2, KC, KD. pose proof (forall2_len _ _ _ R2) as L3. pose proof (forall2_len _ _ _ F1) as L4. pose proof (forall2_len _ _ _ F2) as L5. pose proof (forall2_len _ _ _ R) as L6.
  (* the joints of c1 *)
  assert (J1 : forall i l1 o, nth_error (c_links c1) i = Some l1 -> l_offset l1 = Some o -> cache_ok (l_joint l1) /\ joint_get_dis (l_joint l1) = slice o (lsize l1) v /\ joint_get_vel (l_joint l1) = slice o (lsize l1) w /\ joint_get_acc (l_joint l1) = slice o (lsize l1) a).
  { intros i l1 o Hl1 Ho. destruct (nth_error (c_links c) i) as [l|] eqn:Hl; [|apply nth_error_None in Hl; pose proof (nth_lt _ _ _ Hl1); lia].
    destruct (Forall2_nth _ _ _ B1 i l Hl) as (lh & Hlh & XR). destruct (Forall2_nth _ _ _ KC i lh Hlh) as (l1' & Hl1' & [Z1 Z2]). assert (l1' = l1) by congruence. subst l1'.
    destruct (Forall2_nth _ _ _ R i l Hl) as (l0 & Hl0 & [Y1 Y2]).
    assert (OL : l_offset lh = l_offset l) by (clear -XR; unfold set_rel in XR; destruct (l_offset l) as [q|] eqn:O; [destruct XR as (j & _ & ->); exact O|subst lh; exact O]).
    assert (O1 : l_offset l = Some o) by (clear -Z1 OL Ho; tup Z1; congruence). assert (O0 : l_offset l0 = Some o) by (clear -Y1 O1; tup Y1; congruence).
    unfold set_rel in XR. rewrite O1 in XR. destruct XR as (k & HK & ->). cbn [l_joint l_set_joint] in Z2. rewrite <- Z2.
    assert (SK : joint_size k = lsize l) by (unfold joint_size, lsize, joint_size; now rewrite (proj2 (set_cnt_ok dt) _ _ _ HK)). assert (SL : lsize l1 = lsize l) by (unfold lsize; rewrite <- Z2; exact SK). assert (S00 : lsize l = lsize l0) by (apply base_size; exact Y2).
    rewrite SL. destruct (HC i l o Hl O1) as (H1 & H2 & H3).
    destruct (set_cnt_rate _ _ _ _ HK) as (k' & K1 & K2). destruct (set_dis_rate _ _ _ _ Y2 K1) as (k'' & K3 & K4).
    destruct (cnt_rates (l_joint l) (skipn o v) dt k (skipn o prev) H1 H2 HK) as (d & D1 & D2 & D3).
    assert (DX : d = slice o (lsize l) x) by (rewrite (sub_type (l_joint l) (l_joint l0)) in D1 by (apply base_type; exact Y2); rewrite (X4 i l0 o Hl0 O0) in D1; injection D1 as D1; rewrite S00; symmetry; exact D1).
    split; [eapply rate_cache; [symmetry; exact K2|eapply set_dis_cache; exact K1]|]. split; [|split].
    - rewrite (rate_dis k k'') by congruence. rewrite S00. eapply attain; eauto.
    - rewrite D2, DX. unfold w. now rewrite map_slice.
    - rewrite D3, DX, H3. unfold a. rewrite quotient_slice by lia. unfold w. now rewrite map_slice. }
  assert (R3 : crel S3 c1 (c_set_links e2 d1)).
  { split; [|exact M2]. cbn [c_links c_set_links]. apply forall2_of_nth; [lia|]. intros i l1 m2 Hl1 Hm2.
    destruct (Forall2_nth _ _ _ R2 i l1 Hl1) as (m & Hm & [[Z1 Z2] Z3]). destruct (Forall2_nth _ _ _ F1 i m Hm) as (m1 & Hm1 & XV). destruct (Forall2_nth _ _ _ F2 i m1 Hm1) as (m2' & Hm2' & XA). assert (m2' = m2) by congruence. subst m2'.
    assert (OF : l_offset l1 = l_offset m) by (clear -Z1; tup Z1; congruence). unfold set_rel in XV. destruct (l_offset m) as [o|] eqn:O.
    - destruct XV as (j & J & ->). unfold set_rel in XA. cbn [l_offset l_set_joint] in XA. rewrite O in XA. destruct XA as (j2 & J2 & ->). cbn [l_joint l_set_joint] in J2. destruct (set_rates _ _ _ _ _ J J2) as (T1 & T2 & T3). destruct (J1 i l1 o Hl1 OF) as (_ & _ & V1 & V2).
      assert (SZ : joint_size (l_joint m) = lsize l1) by (symmetry; apply base_size, rate_base; exact Z2). rewrite SZ in T2, T3. split; [exact Z1|]. split; [|exact Z3]. cbn [l_joint l_set_joint]. unfold slice in V1, V2. apply trq_of; congruence.
    - subst m1. unfold set_rel in XA. rewrite O in XA. subst m2. split; [exact Z1|]. split; [|exact Z3].
      destruct ND as [_ [ND _]]. pose proof (placed_nth 0 (c_links d1) i m (proj2 (rel_placed _ _ ND) 0%nat c0_placed) Hm) as PO. rewrite O in PO. destruct (Nat.ltb_spec 0 (lsize m)); [discriminate|].
      assert (SZ : lsize l1 = lsize m) by (apply base_size, rate_base; exact Z2). rewrite (size0 (l_joint l1)), (size0 (l_joint m)) by (unfold lsize in *; lia). reflexivity. }
  destruct (proj2 (C24_fk_id_total g c1 WC1)) as (c' & Q3 & WC'). destruct (proj2 (C24_fk_id_total g (c_set_links e2 d1) WE2)) as (d2 & Q4 & WD2).
  destruct (id_rel g c1 c' (c_set_links e2 d1) d2 WC1 R3 WC Q3 Q4) as (_ & R5 & C1 & C2 & C3).
  destruct (id_kept g (c_set_links e2 d1) d2 WE2 Q4) as [KE KEM]. destruct (id_kept g c1 c' WC1 Q3) as [KF KFM].
  pose proof (near_kept _ _ NE2 (conj KE KEM) WD2) as ND2.
  exists c', x, d1, d2. unfold chain_fkcnt, chain_set_joint_dis_cnt_all. rewrite A1. cbn [option_map obind]. rewrite Q1. cbn [obind]. split; [exact Q3|]. split; [exact X1|]. split; [exact LX|].
  unfold chain_fk, chain_set_joint_dis_all. rewrite A2. cbn [option_map obind]. split; [exact Q2|]. fold w a. unfold chain_id, chain_set_joint_rate_all. rewrite set_rate_all_split, E1. cbn [obind]. rewrite E2. cbn [option_map obind]. split; [exact Q4|].
  split; [split; [exact R5|split; [exact C1|split; [exact C2|exact C3]]]|]. split.
  - destruct ND2 as [_ [N2 MD2]]. destruct R5 as [R5 M5]. split; [exact WC'|]. split; [|congruence]. eapply F2_trans; [apply S0_trans| |exact N2]. eapply F2_mono; [|exact R5]. apply S50.
  - intros i l' o Hl' Ho. pose proof (forall2_len _ _ _ KF) as L7. destruct (nth_error (c_links c1) i) as [l1|] eqn:Hl1; [|apply nth_error_None in Hl1; pose proof (nth_lt _ _ _ Hl'); lia].
    destruct (Forall2_nth _ _ _ KF i l1 Hl1) as (l2 & Hl2 & [Z1 Z2]). assert (l2 = l') by congruence. subst l2. assert (O1 : l_offset l1 = Some o) by (clear -Z1 Ho; tup Z1; congruence).
    destruct (J1 i l1 o Hl1 O1) as (V1 & V2 & V3 & _). destruct (trq_gets _ _ Z2) as (G1 & G2 & G3). assert (SZ : lsize l' = lsize l1) by (symmetry; apply base_size, rate_base, trq_rate; exact Z2).
    rewrite SZ. split; [apply G3; exact V1|]. split; congruence.
Qed.

(** ** Output *)
Lemma near_same c d : near c -> same c d -> Forall2 S0 (c_links d) (c_links c0).
Proof. intros [_ [R _]] [[R5 _] _]. eapply F2_trans; [apply S0_trans| |exact R]. apply F2_sym; [apply S0_sym|]. eapply F2_mono; [|exact R5]. apply S50. Qed.
Lemma trq_len (j : joint F) : length (joint_get_trq j) = joint_size j.
Proof. apply get_gen_length. Qed.
Lemma out_same g z c d t q q' : near c -> same c d -> length q = chain_joint_size c0 -> length q' = chain_joint_size c0 -> id_out g z c t q = id_out g z d t q'.
Proof.
  intros NC SM LQ LQ'. pose proof (near_same c d NC SM) as RD. destruct NC as [W [RC _]]. destruct SM as ([R5 _] & C1 & C2 & C3). destruct (rel_placed _ _ RC) as [TC PC]. destruct (rel_placed _ _ RD) as [TD PD].
  assert (AM : chain_am c (c_wcom c) = chain_am d (c_wcom d)).
  { rewrite C1. unfold chain_am. apply (fold_rel S5); [|exact R5]. intros y a b [[(Hf & _ & Hp) Hm] _]. unfold body_am. tup Hf. tup Hp. tup Hm. unfold l_vel in *. congruence. }
  assert (TQ : chain_get_joint_trq_all c q = chain_get_joint_trq_all d q').
  { unfold chain_get_joint_trq_all. rewrite chain_joint_size_total in LQ, LQ'. rewrite (get_all_spec joint_get_trq (c_links c) trq_len 0 q) by (auto using c0_placed; lia). rewrite (get_all_spec joint_get_trq (c_links d) trq_len 0 q') by (auto using c0_placed; lia).
    cbn [firstn app Nat.add]. rewrite !skipn_all2 by lia. f_equal. f_equal. clear -R5. induction R5 as [|a b h e [_ [_ H]] _ IH]; [reflexivity|]. cbn. now rewrite H, IH. }
  assert (RT : match c_root c, c_root d with Some r, Some r' => S5 r r' | None, None => True | _, _ => False end) by (clear -R5; unfold c_root; destruct R5; cbn; auto).
  assert (ZM : chain_zmp c z = chain_zmp d z).
  { unfold chain_zmp. destruct (c_root c) as [r|], (c_root d) as [r'|]; try contradiction; [|reflexivity]. cbn [option_map]. destruct RT as [[(_ & _ & Hp) _] [Hw _]]. tup Hp. unfold gravity_dir. rewrite Hw. repeat match goal with H : _ r = _ r' |- _ => rewrite H end. reflexivity. }
  unfold id_out. rewrite ZM, AM, TQ, C1, C2, C3. destruct (chain_zmp d z) as [[p|]|]; [|reflexivity|reflexivity]. cbn [obind]. destruct (c_root c) as [r|], (c_root d) as [r'|]; try contradiction; [|reflexivity]. cbn [obind].
  destruct RT as [[(_ & _ & Hp) _] _]. tup Hp. repeat match goal with H : _ r = _ r' |- _ => rewrite H end. reflexivity.
Qed.
Lemma elapsed_S (s : list (step F)) k e : nth_error s k = Some e -> elapsed s (S k) = elapsed s k + st_dt e.
Proof.
  unfold elapsed. revert k. induction s as [|a s IH]; intros [|k] H; try discriminate; [injection H as <-; cbn; ring|]. cbn in H. rewrite (firstn_cons (S k)), (firstn_cons k). cbn [fold_right]. rewrite (IH k H). ring.
Qed.
Definition row_at (g z : F) (s : list (step F)) (k : nat) : option (idrow F) :=
  obind (nth_error s k) (fun e => obind (vel_at c0 s k) (fun w => obind (acc_at c0 s k) (fun a => obind (chain_fk c0 (st_v e)) (fun d1 =>
  obind (chain_id g d1 w a) (fun d2 => id_out g z d2 (elapsed s k) (repeat 0 (chain_joint_size c0))))))).
Lemma out_trq g z c t q r : near c -> length q = chain_joint_size c0 -> id_out g z c t q = Some r -> length (id_trq r) = chain_joint_size c0.
Proof.
  intros NC LQ H. unfold id_out in H. destruct (chain_zmp c z) as [[p|]|]; [|discriminate|discriminate]. cbn [obind] in H. destruct (c_root c); [|discriminate]. cbn [obind] in H.
  destruct NC as [_ [RC _]]. destruct (rel_placed _ _ RC) as [TC PC]. rewrite chain_joint_size_total in *. unfold chain_get_joint_trq_all in H. rewrite (get_all_spec joint_get_trq (c_links c) trq_len 0 q) in H by (auto using c0_placed; lia).
  injection H as <-. cbn [id_trq firstn app Nat.add]. rewrite skipn_all2 by lia. rewrite app_nil_r, flat_map_length by exact trq_len. lia.
Qed.
Lemma loop_rows g z (s full : list (step F)) : forall pre c q prev pvel, full = pre ++ s -> near c -> held c prev pvel -> length q = chain_joint_size c0 ->
  length prev = chain_joint_size c0 -> length pvel = chain_joint_size c0 ->
  (forall e, In e s -> length (st_v e) = chain_joint_size c0 /\ attainable c0 (st_v e)) ->
  (s <> [] -> exists e, nth_error full (pred (length pre)) = Some e /\ prev = st_v e) ->
  match length pre with O => pvel = repeat 0 (chain_joint_size c0) | S k => vel_at c0 full k = Some pvel end ->
  id_loop g z c (elapsed full (length pre)) q s = omap (row_at g z full) (seq (length pre) (length s)).
Proof.
  induction s as [|e s IH]; intros pre c q prev pvel HF NC HC LQ LP LV AT HP HV; [reflexivity|].
  destruct (AT e (or_introl eq_refl)) as [Le Ae]. assert (NE : nth_error full (length pre) = Some e) by (rewrite HF, nth_error_app2, Nat.sub_diag; [reflexivity|lia]).
  destruct HP as (e' & Ne' & Hprev); [discriminate|].
  destruct (id_step g c (st_v e) (st_dt e) prev pvel NC HC Le LP LV Ae) as (c' & x & d1 & d2 & Q1 & Q2 & LX & Q3 & Q4 & SM & NC' & HC'). rewrite Hprev in Q2.
  assert (VA : vel_at c0 full (length pre) = Some (map (fun q0 => q0 / st_dt e) x)) by (unfold vel_at; rewrite NE, Ne', Q2; reflexivity).
  assert (AA : acc_at c0 full (length pre) = Some (quotient (st_dt e) (map (fun q0 => q0 / st_dt e) x) pvel)).
  { unfold acc_at. rewrite NE, VA. destruct (length pre) as [|k]; [now rewrite HV, map_length, LX|now rewrite HV]. }
  cbn [id_loop seq length omap]. rewrite Q1. cbn [obind]. unfold row_at at 1. rewrite NE, VA, AA. cbn [obind]. rewrite Q3. cbn [obind]. rewrite Q4. cbn [obind].
  rewrite (out_same g z c' d2 _ q (repeat 0 (chain_joint_size c0)) NC' SM LQ (repeat_length _ _)).
  destruct (id_out g z d2 (elapsed full (length pre)) (repeat 0 (chain_joint_size c0))) as [r|] eqn:QO; [|reflexivity]. cbn [obind].
  assert (LT : length (id_trq r) = chain_joint_size c0).
  { rewrite <- (out_same g z c' d2 _ q (repeat 0 (chain_joint_size c0)) NC' SM LQ (repeat_length _ _)) in QO. exact (out_trq g z c' _ q r NC' LQ QO). }
  rewrite <- (elapsed_S _ _ _ NE). specialize (IH (pre ++ [e]) c' (id_trq r) (st_v e) (map (fun q0 => q0 / st_dt e) x)). rewrite app_length in IH. cbn [length] in IH. rewrite Nat.add_1_r in IH.
  rewrite IH; [reflexivity|rewrite HF, <- app_assoc; reflexivity|exact NC'|exact HC'|exact LT|exact Le|now rewrite map_length| | |exact VA].
  - intros e1 I. apply AT. now right.
  - intros _. exists e. split; [exact NE|reflexivity].
Qed.

(** ** The start *)
Lemma zeros_slice o m n : (o + m <= n)%nat -> slice o m (repeat 0 n) = repeat (0 : F) m.
Proof.
  intros H. unfold slice. replace n with (o + (m + (n - o - m)))%nat by lia. rewrite !repeat_app, skipn_app, skipn_all2, repeat_length, Nat.sub_diag by now rewrite repeat_length.
  cbn [app skipn]. rewrite firstn_app, repeat_length, Nat.sub_diag, firstn_O, app_nil_r, firstn_all2 by now rewrite repeat_length. reflexivity.
Qed.
Lemma rest_zeros (l : list F) : Forall (fun q => q = 0) l -> l = repeat 0 (length l).
Proof. induction 1 as [|a l -> _ IH]; [reflexivity|]. cbn. now f_equal. Qed.
Lemma start_held v d : length v = chain_joint_size c0 -> attainable c0 v -> at_rest c0 -> chain_fk c0 v = Some d -> near d /\ held d v (repeat 0 (chain_joint_size c0)).
Proof.
  intros LV AT RE HD. destruct (fk_step c0 v near_c0 LV) as (d' & d'' & Q1 & Q2 & _ & _ & ND & _). replace d' with d in ND by congruence. split; [exact ND|].
  destruct (near_set joint_set_dis v c0 set_dis_ok near_c0 LV) as (k1 & A2 & B2 & W2). unfold chain_fk, chain_set_joint_dis_all in HD. rewrite A2 in HD. cbn [option_map obind] in HD.
  destruct (fk_kept (c_set_links k1 c0) d W2 HD) as [K _]. cbn [c_links c_set_links] in K. intros i l' o Hl' Ho.
  pose proof (forall2_len _ _ _ K) as L1. pose proof (forall2_len _ _ _ B2) as L2.
  destruct (nth_error (c_links c0) i) as [l|] eqn:Hl; [|apply nth_error_None in Hl; pose proof (nth_lt _ _ _ Hl'); lia].
  destruct (Forall2_nth _ _ _ B2 i l Hl) as (m & Hm & X). destruct (Forall2_nth _ _ _ K i m Hm) as (l1 & Hl1 & [Z1 Z2]). assert (l1 = l') by congruence. subst l1.
  assert (OL : l_offset m = l_offset l) by (clear -X; unfold set_rel in X; destruct (l_offset l) as [q|] eqn:O; [destruct X as (j & _ & ->); exact O|subst m; exact O]).
  assert (O1 : l_offset l = Some o) by (clear -Z1 OL Ho; tup Z1; congruence). unfold set_rel in X. rewrite O1 in X. destruct X as (k & HK & ->). cbn [l_joint l_set_joint] in Z2.
  assert (SZ : lsize l' = lsize l) by (unfold lsize; rewrite <- Z2; apply base_size; eapply set_dis_base; exact HK).
  rewrite SZ, <- Z2. split; [eapply set_dis_cache; exact HK|]. split; [eapply attain; eauto|]. rewrite (set_dis_vel _ _ _ HK).
  pose proof (placed_nth 0 (c_links c0) i l c0_placed Hl) as PO. rewrite zeros_slice.
  - assert (LJ : length (joint_get_vel (l_joint l)) = lsize l) by apply get_gen_length. rewrite <- LJ. apply rest_zeros. apply RE. eapply nth_error_In; eauto.
  - rewrite O1 in PO. destruct (0 <? lsize l)%nat; [|discriminate]. injection PO as PO. rewrite chain_joint_size_total, PO. clear -Hl. revert i Hl. generalize (c_links c0) as h.
    induction h as [|a h IH]; intros [|i] H; try discriminate; cbn [firstn total fold_right]; [injection H as <-; fold (total h); unfold lsize; lia|]. fold (total h). fold (total (firstn i h)). specialize (IH i H). lia.
Qed.
Lemma id_rows g z v (s : list (step F)) d : at_rest c0 -> (forall e, In e s -> length (st_v e) = chain_joint_size c0 /\ attainable c0 (st_v e)) ->
  (exists e s', s = e :: s' /\ v = st_v e) -> chain_fk c0 v = Some d -> id_loop g z d 0 (repeat 0 (chain_joint_size c0)) s = omap (row_at g z s) (seq 0 (length s)).
Proof.
  intros RE AT (e & s' & HS & HV) HD. destruct (AT e) as [LV AV]; [rewrite HS; now left|]. rewrite <- HV in *. destruct (start_held v d LV AV RE HD) as [ND HH].
  refine (loop_rows g z s s [] d _ v _ eq_refl ND HH (repeat_length _ _) LV (repeat_length _ _) AT _ eq_refl). intros _. exists e. split; [rewrite HS; reflexivity|exact HV].
Qed.
End Step.
