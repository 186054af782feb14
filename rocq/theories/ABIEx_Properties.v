(** * ABIEx_Properties: theorems C41 (articulated body inertias), C42 (trial forces) and C63 (incremental update). *)
From Coq Require Import String ZArith QArith Qcanon List Arith Lia Permutation.
From Verif Require Import Num NumFacts Vec VecFacts Motor_Model Joint_Model Joint_Spec Joint_Proofs Body_Model Body_Proofs
  Tree Tree_Proofs Link_Model Link_Spec Link_Proofs Chain_Proofs Link_Properties Chain_Properties Kin_Spec Kin_Proofs Jacobi_Model Jacobi_Proofs Kin_Properties
  Dyn_Spec Dyn_Proofs Dyn_Properties Walk Walk_Proofs Walk_Ex ABI_Model ABI_Spec ABI_Alg ABI_Proofs ABI_State ABI_ID ExtQ ABI_Q ABI_Properties
  ABI_PSD ABIEx_Spec ABI_Ex ABI_Trial ABI_Two.
Import ListNotations.
Local Open Scope nat_scope.

Section Thms.
Context {F : Type} {N : Num F} {L : NumLaws F N} {E : Ext F} {X : ExtLaws F N E} {MI : MInv F}.
Local Open Scope num_scope.
Notation lk := (link F).
Notation al := (alink F).
Notation whole k := (FCons 0 k FNil).

(** ** C41 *)
Definition massive (l : lk) : Prop :=
  0 <= l_mass l /\ psd3 (mp_inertia (b_mp (l_body l))) /\ jtype_of (l_joint l) <> TCylin /\ (forall m, joint_motor (l_joint l) = Some m -> 0 <= motor_inertia m 0).
Lemma init_sound g v (c : achain F) i l : abi_ready c -> Forall massive (c_links (ac_c c)) -> nth_error (ac_links c) i = Some l -> sound (abi_init g v l).
Proof.
  intros RD M Hl. rewrite ac_nth in Hl. destruct (nth_error (c_links (ac_c c)) i) as [x|] eqn:HX; [|discriminate]. destruct (nth_error (ac_a c) i) as [a|] eqn:HA; [|discriminate].
  assert (l = AL x a) by congruence. subst l. rewrite Forall_forall in M. destruct (M x (nth_error_In _ _ HX)) as (M1 & M2 & M3 & M4).
  assert (R : ab_m a = link_mass_mat x /\ sym3 (mp_inertia (b_mp (l_body x)))).
  { unfold abi_ready in RD. clear - RD HX HA. revert i HX HA. induction RD as [|x' a' t t' H _ IH]; intros [|i] HX HA; try discriminate; cbn in *; [|eauto].
    assert (x' = x) by congruence. assert (a' = a) by congruence. subst. exact H. }
  destruct R as [R1 R2]. unfold sound, abi_init. cbn [al_a ab_i]. rewrite R1. split; [now apply mass_mat_sym|]. split; [now apply mass_mat_psd|].
  unfold al_joint. cbn [al_l]. split.
  - destruct (l_joint x); cbn; auto.
  - unfold rotor_ok. destruct (joint_motor (l_joint x)) eqn:Q; auto.
Qed.

(** Whatever the state of the chain is, the inertias that the backward pass computes are symmetric and positive
    semidefinite, if the masses, inertia tensors and rotor inertias are and no joint is cylindrical. *)
Theorem C41_inertias_psd (g : F) (c : achain F) : well_formed (c_links (ac_c c)) -> abi_ready c -> Forall massive (c_links (ac_c c)) ->
  exists c1 c2, chain_abi_init g c = Some c1 /\ chain_abi_backward c1 = Some c2 /\ length (inertias c2) = length (c_links (ac_c c)) /\
    Forall (fun m => sym6 m /\ psd6 m) (inertias c2).
Proof.
  intros W RD M. assert (LE : length (ac_a c) = length (c_links (ac_c c))) by (symmetry; eapply Forall2_len, RD).
  destruct (awf_atree c (conj W LE)) as (k & T & _). destruct (init_all_spec g _ _ T) as (h1 & I1 & IN & T1).
  destruct (back_all_spec (ac_br c) (S (length h1)) h1 k T1) as (h2 & I2 & L2 & B2 & T2); [lia|].
  exists (ac_put c (ac_br c) h1), (ac_put c (ac_br c) h2). split; [unfold chain_abi_init, ac_lift; now rewrite I1|]. split.
  { unfold chain_abi_backward, ac_lift. rewrite ac_links_put, ac_put_fuel. change (ac_br (ac_put c (ac_br c) h1)) with (ac_br c). rewrite I2. reflexivity. }
  unfold inertias. cbn [ac_put ac_a]. split; [rewrite !map_length, L2, (proj1 IN); now apply ac_links_len|].
  apply Forall_forall. intros m I. apply In_nth_error in I as [i I]. rewrite !nth_error_map in I. destruct (nth_error h2 i) as [l2|] eqn:H2; [|discriminate].
  assert (m = ab_i (al_a l2)) by (cbn in I; congruence). subst m.
  destruct (backed_psd (ac_br c) h1 h2 _ x_tol_pos B2) with (i := i) (l := l2) as ((S1 & S2 & _) & _); auto.
  - intros j l Ij H1. destruct (whole_nth _ _ _ T Ij) as [l0 H0]. destruct (proj2 IN j l0 H0) as (v & _ & H1'). assert (l = abi_init g v l0) by congruence. subst. eapply init_sound; eauto.
  - eapply atree_in; eauto.
Qed.
(** So are those the whole algorithm leaves behind. *)
Theorem C41_update_psd (g : F) (c : achain F) : well_formed (c_links (ac_c c)) -> abi_ready c -> Forall massive (c_links (ac_c c)) -> chain_joint_size (ac_c c) <> 0%nat ->
  exists c' cw, chain_abi_update g c = Some c' /\ chain_abi_update_wrench g c = Some cw /\
    Forall (fun m => sym6 m /\ psd6 m) (inertias c') /\ Forall (fun m => sym6 m /\ psd6 m) (inertias cw).
Proof.
  intros W RD M NZ. assert (LE : length (ac_a c) = length (c_links (ac_c c))) by (symmetry; eapply Forall2_len, RD).
  destruct (awf_atree c (conj W LE)) as (k & T & _). destruct (to_back g c k (conj W LE) T NZ) as (h2 & (_ & _ & _ & T2 & L2 & _) & H).
  destruct (C41_inertias_psd g c W RD M) as (c1 & c2 & H1 & H2 & _ & P).
  rewrite H1 in H. cbn [obind] in H. rewrite H2 in H. assert (c2 = ac_put c (ac_br c) h2) by congruence. subst c2.
  unfold chain_abi_update, chain_abi_update_wrench. destruct (Nat.eqb_spec (chain_joint_size (ac_c c)) 0) as [|_]; [contradiction|]. rewrite H1. cbn [obind]. rewrite H2. cbn [obind].
  destruct (fwd_spec (ac_br c) (S (length h2)) h2 k T2) as (h3 & F1 & F2 & F3 & F4); [lia|].
  destruct (fwd_wrench_spec (ac_br c) (S (length h2)) h2 k T2) as (br' & h3' & G1 & _ & G2 & G3 & G4); [lia|].
  rewrite forward_put, forward_wrench_put, F1, G1. do 2 eexists. split; [reflexivity|]. split; [reflexivity|].
  unfold inertias in *. cbn [ac_put ac_a fst snd] in *. rewrite map_map in P.
  split; rewrite map_map.
  - rewrite <- (both_map (fun l => ab_i (al_a l)) h2 h3 k T2 F2); [exact P|]. eapply both_imp; [|exact F3]. intros l m [p ->]. reflexivity.
  - rewrite <- (both_map (fun l => ab_i (al_a l)) h2 h3' k T2 G2); [exact P|]. intros i Ii.
    destruct (fwded_point al_parent al_child al_sibl _ _ _ _ _ _ _ _ i _ _ _ (proj1 T2) G3 Ii) as (l' & s & p & Q1 & _ & _ & Q2 & _).
    exists l'. eexists. split; [exact Q1|]. split; [exact Q2|]. reflexivity.
Qed.

(** ** C63 *)
Lemma load_load ws ws' (c : achain F) : length ws = length (ac_a c) -> length ws' = length (ac_a c) -> load ws (load ws' c) = load ws c.
Proof.
  intros A B. unfold load. cbn [ac_a ac_c ac_br]. f_equal. revert ws ws' A B. generalize (ac_a c) as m. clear. induction m as [|a m IH]; intros [|w ws] [|w' ws'] A B; try discriminate; [reflexivity|].
  cbn. f_equal. apply IH; cbn in *; congruence.
Qed.
Lemma unload_put (c : achain F) b h : unload (ac_put c b h) = ac_put c b (map (al_wl []) h).
Proof.
  unfold unload. rewrite load_put by (cbn; now rewrite !map_length). f_equal. cbn [ac_put ac_a]. clear. induction h as [|l h IH]; [reflexivity|]. cbn in *. f_equal. exact IH.
Qed.
Lemma load_unload ws (c : achain F) : length ws = length (ac_a c) -> load ws (unload c) = load ws c.
Proof. intros H. apply load_load; [exact H|]. now rewrite map_length. Qed.
Lemma update_ready g (c : achain F) B : awf c -> chain_joint_size (ac_c c) <> 0%nat -> (forall i l, nth_error (ac_links c) i = Some l -> one_br B (ac_br c) l) ->
  exists k h2 h3, chain_abi_update g c = Some (ac_put c (ac_br c) h3) /\ length h3 = length (ac_links c) /\ ready_for B g c k h2 (map (al_wl []) h3).
Proof.
  intros W NZ OB. destruct (awf_atree c W) as (k & T & _). destruct (update_settled g c k B W T NZ OB) as (h2 & h3 & BA & U & LE & T3 & SE).
  exists k, h2, h3. split; [exact U|]. split; [exact LE|]. unfold ready_for. do 3 (split; [assumption|]). split; [now rewrite map_length|]. split; [|exact SE].
  eapply atree_ext; [now rewrite map_length| |exact T3]. intros i l Hl. rewrite nth_error_map, Hl. eexists; split; [reflexivity|]. repeat split.
Qed.
Lemma zero_rate_twice (l : lk) : zero_rate (zero_rate l) = zero_rate l. Proof. reflexivity. Qed.
Lemma zero_size (c : achain F) : chain_joint_size (ac_c (chain_zero_rate c)) = chain_joint_size (ac_c c).
Proof.
  rewrite !chain_joint_size_total. cbn [chain_zero_rate ac_c c_links c_set_links]. symmetry. apply total_types. induction (c_links (ac_c c)); constructor; auto.
Qed.
Lemma load_keeps {A} (f : abi F -> A) ws (c : achain F) : (forall w a, f (ab_set_wl w a) = f a) -> length ws = length (ac_a c) -> map f (ac_a (load ws c)) = map f (ac_a c).
Proof.
  intros H. cbn [load ac_a]. revert ws. induction (ac_a c) as [|a m IH]; intros [|w ws] LE; try discriminate; [reflexivity|]. cbn. rewrite H. f_equal. apply IH. cbn in LE. congruence.
Qed.
Lemma more_keeps {A} (f : abi F -> A) ws (c : achain F) : (forall w a, f (ab_set_wl w a) = f a) -> length ws = length (ac_a c) -> map f (ac_a (more ws c)) = map f (ac_a c).
Proof.
  intros H. cbn [more ac_a]. revert ws. induction (ac_a c) as [|a m IH]; intros [|w ws] LE; try discriminate; [reflexivity|]. cbn. rewrite H. f_equal. apply IH. cbn in LE. congruence.
Qed.

(** After rkChainABIUpdate, rkChainABIUpdateAddExForce with the wrenches [ws] in the lists of the links ends with
    the chain, the biases and the inertias that rkChainABIUpdate computes from scratch when the wrenches [ws] act
    besides those that were in the lists from the beginning. *)
Theorem C63_incremental (g : F) (c : achain F) (ws : list (wlist F)) : well_formed (c_links (ac_c c)) -> length (ac_a c) = length (c_links (ac_c c)) -> length ws = length (ac_a c) ->
  exists c1 c2 cw, chain_abi_update g c = Some c1 /\ chain_abi_ex (load ws c1) = Some c2 /\ chain_abi_update g (more ws c) = Some cw /\
    ac_c c2 = ac_c cw /\ biases c2 = biases cw /\ inertias c2 = inertias cw.
Proof.
  intros W LE LW. destruct (Nat.eq_dec (chain_joint_size (ac_c c)) 0) as [Z|NZ].
  - assert (Z2 : chain_joint_size (ac_c (load ws (chain_zero_rate c))) = 0%nat) by (rewrite <- Z; exact (zero_size c)).
    exists (chain_zero_rate c), (chain_zero_rate (load ws (chain_zero_rate c))), (chain_zero_rate (more ws c)).
    split; [unfold chain_abi_update; now rewrite Z|]. split; [unfold chain_abi_ex; now rewrite Z2|].
    split; [unfold chain_abi_update; change (ac_c (more ws c)) with (ac_c c); now rewrite Z|]. split; [|split].
    + cbn [chain_zero_rate ac_c c_set_links c_links]. unfold c_set_links. cbn. f_equal. rewrite map_map. reflexivity.
    + unfold biases. transitivity (map ab_b (ac_a c)); [exact (load_keeps ab_b ws (chain_zero_rate c) (fun _ _ => eq_refl) LW)|symmetry; exact (more_keeps ab_b ws c (fun _ _ => eq_refl) LW)].
    + unfold inertias. transitivity (map ab_i (ac_a c)); [exact (load_keeps ab_i ws (chain_zero_rate c) (fun _ _ => eq_refl) LW)|symmetry; exact (more_keeps ab_i ws c (fun _ _ => eq_refl) LW)].
  - destruct (update_ready g c (eq (ac_br c)) (conj W LE) NZ) as (k & h2 & h3 & U & L3 & R); [intros i l _; split; auto|].
    destruct (ex_same _ g c k ws h2 _ R LW eq_refl) as (h6 & g3 & A1 & A2 & A3 & A4 & A5 & _).
    exists (ac_put c (ac_br c) h3), (ac_put c (ac_br c) h6), (ac_put c (ac_br c) g3). split; [exact U|]. split.
    { rewrite <- A1, <- unload_put, load_unload; [reflexivity|]. cbn. rewrite map_length, L3, LW, LE. symmetry. now apply ac_links_len. }
    split; [exact A2|]. eapply same_out_chains; eauto.
Qed.
(** The same with the variants that compute the wrenches at the joints, for chains without breakable joints. *)
Theorem C63_incremental_wrench (g : F) (c : achain F) (ws : list (wlist F)) : well_formed (c_links (ac_c c)) -> length (ac_a c) = length (c_links (ac_c c)) -> length ws = length (ac_a c) ->
  Forall (fun l => jtype_of (l_joint l) <> TBrFloat) (c_links (ac_c c)) ->
  exists c1 c2 cw, chain_abi_update g c = Some c1 /\ chain_abi_ex_wrench (load ws c1) = Some c2 /\ chain_abi_update_wrench g (more ws c) = Some cw /\
    ac_c c2 = ac_c cw /\ biases c2 = biases cw /\ inertias c2 = inertias cw /\ ac_br c2 = ac_br cw.
Proof.
  intros W LE LW NB. destruct (Nat.eq_dec (chain_joint_size (ac_c c)) 0) as [Z|NZ].
  - assert (Z2 : chain_joint_size (ac_c (load ws (chain_zero_rate c))) = 0%nat) by (rewrite <- Z; exact (zero_size c)).
    exists (chain_zero_rate c), (chain_zero_rate (load ws (chain_zero_rate c))), (chain_zero_rate (more ws c)).
    split; [unfold chain_abi_update; now rewrite Z|]. split; [unfold chain_abi_ex_wrench; now rewrite Z2|].
    split; [unfold chain_abi_update_wrench; change (ac_c (more ws c)) with (ac_c c); now rewrite Z|]. split; [|split; [|split; [|reflexivity]]].
    + cbn [chain_zero_rate ac_c c_set_links c_links]. unfold c_set_links. cbn. f_equal. rewrite map_map. reflexivity.
    + unfold biases. transitivity (map ab_b (ac_a c)); [exact (load_keeps ab_b ws (chain_zero_rate c) (fun _ _ => eq_refl) LW)|symmetry; exact (more_keeps ab_b ws c (fun _ _ => eq_refl) LW)].
    + unfold inertias. transitivity (map ab_i (ac_a c)); [exact (load_keeps ab_i ws (chain_zero_rate c) (fun _ _ => eq_refl) LW)|symmetry; exact (more_keeps ab_i ws c (fun _ _ => eq_refl) LW)].
  - destruct (update_ready g c (fun _ => True) (conj W LE) NZ) as (k & h2 & h3 & U & L3 & R).
    { intros i l Hl. split; [exact I|]. intros BF. exfalso. rewrite ac_nth in Hl. destruct (nth_error (c_links (ac_c c)) i) as [x|] eqn:HX; [|discriminate].
      destruct (nth_error (ac_a c) i) as [a|]; [|discriminate]. assert (l = AL x a) by congruence. subst l. rewrite Forall_forall in NB. apply (NB x (nth_error_In _ _ HX)).
      unfold al_joint in BF. cbn [al_l] in BF. now destruct (l_joint x). }
    destruct (ex_wrench_same g c k ws h2 _ R LW) as (br' & h6 & g3 & A1 & A2 & A3 & A4 & A5).
    exists (ac_put c (ac_br c) h3), (ac_put c br' h6), (ac_put c br' g3). split; [exact U|]. split.
    { rewrite <- A1, <- unload_put, load_unload; [reflexivity|]. cbn. rewrite map_length, L3, LW, LE. symmetry. now apply ac_links_len. }
    split; [exact A2|]. destruct (same_out_chains c br' h6 g3 k A3 A4 A5) as (B1 & B2 & B3). auto.
Qed.

(** A chain without joint coordinates is at rest after any of the updates, and nothing else of it changes. *)
Theorem C42_no_joints (g : F) (c : achain F) (x x2 : option (nat * wrench F)) (dis vel acc : list F) : chain_joint_size (ac_c c) = 0%nat ->
  exists c1, chain_abi_update g c = Some c1 /\ chain_abi_update_wrench g c = Some c1 /\ chain_abi_ex c = Some c1 /\ chain_abi_ex_wrench c = Some c1 /\
    chain_abi_ex_two c x x2 = Some c1 /\ chain_abi g c dis vel acc = Some (c1, None) /\
    Forall (fun l => b_vel (l_body l) = v6zero /\ b_acc (l_body l) = v6zero) (c_links (ac_c c1)) /\
    map l_frame (c_links (ac_c c1)) = map l_frame (c_links (ac_c c)) /\ map l_joint (c_links (ac_c c1)) = map l_joint (c_links (ac_c c)) /\
    ac_a c1 = ac_a c /\ ac_br c1 = ac_br c.
Proof.
  intros Z. exists (chain_zero_rate c). unfold chain_abi_update, chain_abi_update_wrench, chain_abi_ex, chain_abi_ex_wrench, chain_abi_ex_two, chain_abi. rewrite Z.
  do 6 (split; [reflexivity|]). cbn [chain_zero_rate ac_c ac_a ac_br c_set_links c_links]. rewrite !map_map. split.
  - apply Forall_forall. intros l I. apply in_map_iff in I as (l0 & <- & _). split; reflexivity.
  - repeat split.
Qed.

(** ** C42 *)
(** What of a link is not its joint. *)
Definition frame_of (l : lk) : lk := l_set_joint JFixed l.
(** Whatever trials are made between rkChainABIPushPrpAccBias and now, each of them taken back, the links have the
    accelerations, biases and inertias the regular update gave them, and the next trial gives what the whole
    algorithm computes with the forces of that trial alone.  Missing: the accelerations of the joints are not
    restored (see C42_joint_acc_refuted); chains without joint coordinates (see C42_no_joints). *)
Theorem C42_trials_partial (g : F) (c : achain F) (ts : list (trial F)) : well_formed (c_links (ac_c c)) -> length (ac_a c) = length (c_links (ac_c c)) ->
  chain_joint_size (ac_c c) <> 0%nat -> Forall (trial_ok c) ts ->
  exists c1 c2, chain_abi_update g c = Some c1 /\ run_trials (chain_abi_push (unload c1)) ts = Some c2 /\
    biases c2 = biases c1 /\ accs c2 = accs c1 /\ inertias c2 = inertias c1 /\ ac_br c2 = ac_br c1 /\ quiet c2 /\
    map frame_of (c_links (ac_c c2)) = map frame_of (c_links (ac_c c1)) /\
    map (fun l => (joint_get_dis (l_joint l), joint_get_vel (l_joint l), joint_motor (l_joint l))) (c_links (ac_c c2)) =
    map (fun l => (joint_get_dis (l_joint l), joint_get_vel (l_joint l), joint_motor (l_joint l))) (c_links (ac_c c1)) /\
    forall t, trial_ok c t -> exists c3 cw, evaluate c2 t = Some c3 /\ chain_abi_update g (under t c) = Some cw /\
      ac_c c3 = ac_c cw /\ biases c3 = biases cw /\ inertias c3 = inertias cw.
Proof.
  intros W LE NZ OK. destruct (update_ready g c (eq (ac_br c)) (conj W LE) NZ) as (k & h2 & h3 & U & L3 & R); [intros i l _; split; auto|].
  set (h4 := map (al_wl []) h3) in *. set (h := map abi_push h4).
  assert (T3 : atree h3 k).
  { destruct R as (_ & _ & _ & _ & T4 & _). eapply atree_ext; [| |exact T4]; [unfold h4; now rewrite map_length|]. intros i l Hl. unfold h4 in Hl. rewrite nth_error_map in Hl.
    destruct (nth_error h3 i) as [l'|]; [|discriminate]. exists l'. split; [reflexivity|]. assert (l = al_wl [] l') by (cbn in Hl; congruence). subst. repeat split. }
  assert (T4 : atree h4 k) by apply R.
  assert (K : keeps (ac_br c) k h4 h).
  { apply both_of; [exact T4|]. intros i l Hl. exists (abi_push l). split; [unfold h; rewrite nth_error_map, Hl; reflexivity|]. unfold held.
    split; [exact (after_refl _ l)|]. split; [reflexivity|]. split; [|split; [reflexivity|split; reflexivity]].
    unfold h4 in Hl. rewrite nth_error_map in Hl. destruct (nth_error h3 i) as [l'|]; [|discriminate]. assert (l = al_wl [] l') by (cbn in Hl; congruence). subst. reflexivity. }
  destruct (trials_keep g c k ts h2 h4 h R) as (h7 & A1 & A2 & A3); [unfold h; now rewrite map_length|exact K|exact OK|].
  assert (L4 : length h4 = length h3) by (unfold h4; now rewrite map_length).
  assert (B37 : both h3 h7 (fun l3 l7 => held (ac_br c) (al_wl [] l3) l7) (ids (whole k))).
  { apply both_of; [exact T3|]. intros i l Hl. assert (H4 : nth_error h4 i = Some (al_wl [] l)) by (unfold h4; rewrite nth_error_map, Hl; reflexivity).
    destruct (both_nth _ _ _ _ i _ T4 A3 H4) as (m & Hm & HH). eauto. }
  assert (MP : forall {A} (f : al -> A), (forall l3 l7, held (ac_br c) (al_wl [] l3) l7 -> f l3 = f l7) -> map f h7 = map f h3).
  { intros A f Hf. symmetry. apply (both_map f h3 h7 k T3); [congruence|]. eapply both_imp; [|exact B37]. intros l m HH. now apply Hf. }
  exists (ac_put c (ac_br c) h3), (ac_put c (ac_br c) h7). split; [exact U|]. split.
  { rewrite unload_put. fold h4. unfold chain_abi_push. rewrite ac_links_put. exact A1. }
  unfold biases, accs, inertias. cbn [ac_put ac_c ac_a ac_br c_links c_set_links]. rewrite !map_map.
  split. { apply (MP _ (fun l => ab_b (al_a l))). intros l3 l7 (_ & _ & _ & H & _). symmetry. exact H. }
  split. { apply (MP _ (fun l => l_acc (al_l l))). intros l3 l7 (_ & H & _). symmetry. exact H. }
  split. { apply (MP _ (fun l => ab_i (al_a l))). intros l3 l7 ((_ & _ & H & _) & _). symmetry. exact H. }
  split; [reflexivity|].
  assert (R7 : ready_for (eq (ac_br c)) g c k h2 h7) by (eapply keeps_ready; eauto).
  split.
  { unfold quiet. cbn [ac_put ac_a]. apply Forall_forall. intros a I. apply in_map_iff in I as (l & <- & I). apply In_nth_error in I as [i I].
    destruct R7 as (_ & _ & _ & _ & T7 & SE). destruct (SE i) as (l2 & l' & _ & B2 & _ & B4 & _); [eapply atree_in; eauto|]. congruence. }
  split.
  { apply (MP _ (fun l => frame_of (al_l l))). intros l3 l7 ((S & _) & H & _). revert S H. unfold skel, frame_of, al_acc, l_acc, al_wl. cbn [al_map_a al_l].
    destruct (al_l l3) as [? ? []], (al_l l7) as [? ? []]. unfold l_set_joint, l_set_body, b_set_acc. cbn. intros S H. injection S. intros. subst. reflexivity. }
  split.
  { apply (MP _ (fun l => (joint_get_dis (l_joint (al_l l)), joint_get_vel (l_joint (al_l l)), joint_motor (l_joint (al_l l))))).
    intros l3 l7 ((_ & _ & _ & _ & _ & _ & _ & J) & _). destruct J as (_ & _ & _ & _ & _ & J1 & J2 & J3 & _). unfold al_joint in *. cbn [al_wl al_map_a al_l] in *. congruence. }
  intros [x x2|ws] OT; cbn [evaluate under trial_ok] in *.
  - destruct (two_same g c k x x2 h2 h7 R7 (proj1 OT) (proj2 OT)) as (h8 & g3 & C1 & C2 & C3 & C4 & C5 & _).
    exists (ac_put c (ac_br c) h8), (ac_put c (ac_br c) g3). split; [exact C1|]. split; [exact C2|]. exact (same_out_chains c (ac_br c) h8 g3 k C3 C4 C5).
  - destruct (ex_same _ g c k ws h2 h7 R7 OT eq_refl) as (h8 & g3 & C1 & C2 & C3 & C4 & C5 & _).
    exists (ac_put c (ac_br c) h8), (ac_put c (ac_br c) g3). split; [exact C1|]. split; [exact C2|]. exact (same_out_chains c (ac_br c) h8 g3 k C3 C4 C5).
Qed.
End Thms.

(** ** Examples *)
Section Psd.
Context {F : Type} {N : Num F} {L : NumLaws F N}.
Add Field FField : num_field.
Local Open Scope num_scope.
Lemma psd_213 : psd3 (M3 (V3 (1 + 1) 1 0) (V3 1 (1 + 1 + 1) 0) (V3 0 0 (1 + 1 + 1 + 1))).
Proof.
  intros [x y z]. vunfold.
  match goal with |- 0 <= ?t => replace t with (x * x + (x + y) * (x + y) + (y * y + y * y) + ((z * z + z * z) + (z * z + z * z))) by ring end.
  repeat apply nle_0_add; apply nle_0_sqr.
Qed.
End Psd.
Definition fine (j : joint Qc) : bool :=
  (match j with JCylin _ => false | _ => true end && match joint_motor j with Some m => nleb 0%num (motor_inertia m 0%num) | None => true end)%bool.
Lemma mech5_massive a b c d e : forallb fine [a; b; c; d; e] = true -> Forall massive (c_links (mech5 [a; b; c; d; e])).
Proof.
  intros FI. rewrite forallb_forall in FI. apply Forall_forall. intros l I. apply In_nth_error in I as [i H].
  unfold mech5 in H. cbn [c_links chain_calc_mass chain_set_offset c_set_links] in H. rewrite set_offsets_nth in H.
  destruct (nth_error (tree5 [a; b; c; d; e]) i) as [l0|] eqn:Q; [|discriminate].
  assert (J : l_body l = l_body l0 /\ l_joint l = l_joint l0) by (cbn in H; injection H as <-; split; reflexivity). destruct J as [JB JJ].
  assert (IJ : In (l_joint l0) [a; b; c; d; e] /\ nleb 0%num (mp_mass (b_mp (l_body l0))) = true /\
    mp_inertia (b_mp (l_body l0)) = M3 (V3 (qz 2) (qz 1) (qz 0)) (V3 (qz 1) (qz 3) (qz 0)) (V3 (qz 0) (qz 0) (qz 4))).
  { do 5 (destruct i as [|i]; [injection Q as <-; split; [cbn; auto 10|]; split; vm_compute; reflexivity|]). destruct i; discriminate. }
  destruct IJ as (I1 & I2 & I3). apply FI in I1. unfold fine in I1. apply andb_prop in I1 as [K1 K2]. unfold massive, l_mass. rewrite JB, JJ, I3. split; [exact I2|]. split.
  - replace (M3 (V3 (qz 2) (qz 1) (qz 0)) (V3 (qz 1) (qz 3) (qz 0)) (V3 (qz 0) (qz 0) (qz 4))) with (M3 (V3 (1 + 1) 1 0) (V3 1 (1 + 1 + 1) 0) (V3 0 0 (1 + 1 + 1 + 1)))%num; [apply psd_213|].
    repeat f_equal; apply qeq; vm_compute; reflexivity.
  - split; [destruct (l_joint l0); discriminate|]. intros m Hm. rewrite Hm in K2. exact K2.
Qed.
(** Floating base, a DC motor, a spherical joint, a breakable joint and a prismatic joint. *)
Definition kmech : achain Qc := chain_abi_alloc false (mech5 [jn TFloat; jdc; jn TSpher; jn TBrFloat; jn TPrism]).
Lemma kmech_wf : well_formed (c_links (ac_c kmech)).
Proof. apply mech5_usable. repeat constructor; (apply jdc_made || apply jn_made). Qed.
Example C41_ex : exists c1 c2, chain_abi_init (qz 10) kmech = Some c1 /\ chain_abi_backward c1 = Some c2 /\ length (inertias c2) = length (c_links (ac_c kmech)) /\
  Forall (fun m => sym6 m /\ psd6 m) (inertias c2).
Proof.
  apply C41_inertias_psd; [exact kmech_wf|apply C40_alloc_ready, sym_links|]. apply mech5_massive. vm_compute. reflexivity.
Qed.
Definition rows6 (m : mat6 Qc) : list (list Qc) := map (fun v => l6 (m6v m v))
  [V6 (V3 (qz 1) (qz 0) (qz 0)) v3zero; V6 (V3 (qz 0) (qz 1) (qz 0)) v3zero; V6 (V3 (qz 0) (qz 0) (qz 1)) v3zero;
   V6 v3zero (V3 (qz 1) (qz 0) (qz 0)); V6 v3zero (V3 (qz 0) (qz 1) (qz 0)); V6 v3zero (V3 (qz 0) (qz 0) (qz 1))].
(** The inertias of links 0 and 1 are not those of the rigid bodies. *)
Example C41_ex_value : exists c2, obind (chain_abi_init (qz 10) kmech) chain_abi_backward = Some c2 /\
  (negb (qlbs (rows6 (hd m6zero (inertias c2))) (rows6 (hd m6zero (map ab_m (ac_a c2))))) && negb (qlbs (rows6 (nth 1 (inertias c2) m6zero)) (rows6 (nth 1 (map ab_m (ac_a c2)) m6zero))))%bool = true.
Proof. apply (some_ex (obind (chain_abi_init (qz 10) kmech) chain_abi_backward)). vm_compute. reflexivity. Qed.

(** A chain in motion with contact forces: the one rkChainABI leaves behind in C40_ex. *)
Lemma moved_ok (g : Qc) (c : achain Qc) dis vel z x n : usable (ac_c c) -> abi_ready c -> chain_joint_size (ac_c c) = n -> n <> 0 -> length dis = n -> length vel = n -> length z = n ->
  chain_abi g c dis vel z = Some x ->
  well_formed (c_links (ac_c (fst x))) /\ length (ac_a (fst x)) = length (c_links (ac_c (fst x))) /\ chain_joint_size (ac_c (fst x)) <> 0 /\ length (ac_a (fst x)) = length (ac_a c).
Proof.
  intros U RD SZ NZ LD LV LZ H.
  destruct (chain_abi_run g c dis vel z U RD) as (c4 & c' & qdd & k & h1 & h2 & H' & PC & H4 & H5 & R4 & RUN & GA); try congruence.
  rewrite H' in H. assert (x = (c', Some qdd)) by congruence. subst x. cbn [fst].
  assert (LE : length (ac_a c) = length (c_links c4)) by (rewrite <- (Forall2_len _ _ _ (pc_posed _ _ _ _ PC)); symmetry; eapply Forall2_len, RD).
  pose proof (run_finished g (AC c4 (ac_a c) (ac_br c)) c' k h1 h2 LE RUN) as FI. cbn [ac_c] in FI.
  assert (PF : Forall2 posed (c_links c4) (c_links (ac_c c'))) by (eapply forall2_imp; [|exact FI]; apply finished_posed).
  assert (LA : length (ac_a c') = length (c_links (ac_c c'))) by (destruct RUN as (_ & _ & _ & _ & _ & _ & _ & _ & (_ & LA) & _); exact LA).
  split; [eapply posed_wf; [exact PF|]; eapply posed_wf; [apply PC|apply U]|]. split; [exact LA|].
  split; [|rewrite LA, LE; symmetry; eapply Forall2_len; exact PF].
  rewrite chain_joint_size_total. rewrite (posed_total _ _ PF). rewrite (pc_total _ _ _ _ PC). congruence.
Qed.
Definition extra : list (wlist Qc) := [[]; [wa]; []; [wb; wa]; []].
Definition accl (c : achain Qc) : list (list Qc) := map l6 (accs c) ++ map l6 (biases c).
Definition qdds (c : achain Qc) : list (list Qc) := map (fun l => joint_get_acc (l_joint l)) (c_links (ac_c c)).
Definition incr (c : achain Qc) (ws : list (wlist Qc)) : option (achain Qc * achain Qc * achain Qc) :=
  obind (chain_abi_update (qz 10) c) (fun c1 => obind (chain_abi_ex (load ws c1)) (fun c2 => option_map (fun cw => (c1, c2, cw)) (chain_abi_update (qz 10) (more ws c)))).
(** The forces change accelerations, biases and joint accelerations. *)
Definition incr_seen (c : achain Qc) : bool :=
  match incr c extra with
  | Some (c1, c2, cw) => qlbs (accl c2) (accl cw) && qlbs (qdds c2) (qdds cw) && negb (qlbs (map l6 (accs c1)) (map l6 (accs c2))) && negb (qlbs (qdds c1) (qdds c2))
  | None => false
  end.
Example C63_ex : exists x, chain_abi (qz 10) amech adis avel z9 = Some x /\ incr_seen (fst x) = true.
Proof. apply (some_ex (chain_abi (qz 10) amech adis avel z9) (fun x => incr_seen (fst x))). vm_compute. reflexivity. Qed.
Lemma apply_C63 (c : achain Qc) dis vel z x n ws : usable (ac_c c) -> abi_ready c -> chain_joint_size (ac_c c) = n -> n <> 0 -> length dis = n -> length vel = n -> length z = n ->
  chain_abi (qz 10) c dis vel z = Some x -> length ws = length (ac_a c) ->
  exists c1 c2 cw, chain_abi_update (qz 10) (fst x) = Some c1 /\ chain_abi_ex (load ws c1) = Some c2 /\ chain_abi_update (qz 10) (more ws (fst x)) = Some cw /\
    ac_c c2 = ac_c cw /\ biases c2 = biases cw /\ inertias c2 = inertias cw.
Proof.
  intros U RD SZ NZ LD LV LZ H LW. destruct (moved_ok _ _ _ _ _ _ n U RD SZ NZ LD LV LZ H) as (A & B & _ & C). apply C63_incremental; auto. congruence.
Qed.
Example C63_ex_applied : exists x c1 c2 cw, chain_abi (qz 10) amech adis avel z9 = Some x /\ chain_abi_update (qz 10) (fst x) = Some c1 /\
  chain_abi_ex (load extra c1) = Some c2 /\ chain_abi_update (qz 10) (more extra (fst x)) = Some cw /\ ac_c c2 = ac_c cw.
Proof.
  destruct C63_ex as (x & R & _).
  destruct (apply_C63 amech adis avel z9 x 9 extra amech_usable amech_ready amech_size) as (c1 & c2 & cw & A & B & C & D & _); [discriminate|reflexivity..|exact R|reflexivity|].
  exists x, c1, c2, cw. auto.
Qed.
(** Without taking the state back the function must not be called again: the bias of link 3 is corrected twice. *)
Definition twice (c : achain Qc) : option (achain Qc * achain Qc) :=
  obind (chain_abi_update (qz 10) c) (fun c1 => obind (chain_abi_ex (load extra c1)) (fun c2 => option_map (pair c2) (chain_abi_ex c2))).
Definition twice_seen (c : achain Qc) : bool := match twice c with Some (c2, c3) => negb (qlbs (map l6 (accs c2)) (map l6 (accs c3))) | None => false end.
Example C63_again_ex : exists x, chain_abi (qz 10) amech adis avel z9 = Some x /\ twice_seen (fst x) = true.
Proof. apply (some_ex (chain_abi (qz 10) amech adis avel z9) (fun x => twice_seen (fst x))). vm_compute. reflexivity. Qed.

Definition trials : list (trial Qc) := [Two (Some (2, wa)) (Some (3, wb)); Full extra; Two None (Some (4, wb)); Two (Some (1, wa)) (Some (1, wb))].
Definition next : trial Qc := Two (Some (4, wa)) (Some (2, wb)).
Definition tried (c : achain Qc) : option (achain Qc * achain Qc * achain Qc) :=
  obind (chain_abi_update (qz 10) c) (fun c1 => obind (run_trials (chain_abi_push (unload c1)) trials) (fun c2 => option_map (fun c3 => (c1, c2, c3)) (evaluate c2 next))).
(** Links as before, next trial different from both, joint accelerations not as before. *)
Definition tried_seen (c : achain Qc) : bool :=
  match tried c with Some (c1, c2, c3) => qlbs (accl c1) (accl c2) && negb (qlbs (accl c1) (accl c3)) && negb (qlbs (qdds c1) (qdds c2)) | None => false end.
Example C42_ex : exists x, chain_abi (qz 10) amech adis avel z9 = Some x /\ tried_seen (fst x) = true.
Proof. apply (some_ex (chain_abi (qz 10) amech adis avel z9) (fun x => tried_seen (fst x))). vm_compute. reflexivity. Qed.
Lemma trials_ok (c : achain Qc) : length (ac_a c) = 5 -> Forall (trial_ok c) trials.
Proof. intros H. unfold trials, trial_ok, on_chain. rewrite H. repeat constructor. Qed.
Lemma apply_C42 (c : achain Qc) dis vel z x n : usable (ac_c c) -> abi_ready c -> chain_joint_size (ac_c c) = n -> n <> 0 -> length dis = n -> length vel = n -> length z = n ->
  chain_abi (qz 10) c dis vel z = Some x -> length (ac_a c) = 5 ->
  exists c1 c2, chain_abi_update (qz 10) (fst x) = Some c1 /\ run_trials (chain_abi_push (unload c1)) trials = Some c2 /\ biases c2 = biases c1 /\ accs c2 = accs c1.
Proof.
  intros U RD SZ NZ LD LV LZ H LA. destruct (moved_ok _ _ _ _ _ _ n U RD SZ NZ LD LV LZ H) as (A & B & C & D).
  destruct (C42_trials_partial (qz 10) (fst x) trials A B C) as (c1 & c2 & Q1 & Q2 & Q3 & Q4 & _); [apply trials_ok; congruence|]. eauto 10.
Qed.
Example C42_ex_applied : exists x c1 c2, chain_abi (qz 10) amech adis avel z9 = Some x /\ chain_abi_update (qz 10) (fst x) = Some c1 /\
  run_trials (chain_abi_push (unload c1)) trials = Some c2 /\ biases c2 = biases c1 /\ accs c2 = accs c1.
Proof.
  destruct C42_ex as (x & R & _). destruct (apply_C42 amech adis avel z9 x 9 amech_usable amech_ready amech_size) as (c1 & c2 & A); [discriminate|reflexivity..|exact R|reflexivity|].
  exists x, c1, c2. split; [exact R|exact A].
Qed.

(** The accelerations of the joints stay those of the last trial: rkChainGetJointAccAll sees the trial although the
    state was pushed before and popped after it (rk_abi.c 353-384 save and restore the link only). *)
Definition one_trial (c : achain Qc) (t : trial Qc) (z : list Qc) : option (list Qc * list Qc) :=
  obind (chain_abi_update (qz 10) c) (fun c1 => obind (run_trials (chain_abi_push (unload c1)) [t]) (fun c2 =>
  obind (chain_get_joint_acc_all (ac_c c1) z) (fun q1 => option_map (pair q1) (chain_get_joint_acc_all (ac_c c2) z)))).
Lemma one_trial_spec c t z x : one_trial c t z = Some x -> exists c1 c2, chain_abi_update (qz 10) c = Some c1 /\ run_trials (chain_abi_push (unload c1)) [t] = Some c2 /\
  chain_get_joint_acc_all (ac_c c1) z = Some (fst x) /\ chain_get_joint_acc_all (ac_c c2) z = Some (snd x).
Proof.
  unfold one_trial. destruct (chain_abi_update (qz 10) c) as [c1|]; [|discriminate]. cbn [obind]. destruct (run_trials _ [t]) as [c2|] eqn:R; [|discriminate]. cbn [obind].
  destruct (chain_get_joint_acc_all (ac_c c1) z) as [q1|] eqn:G1; [|discriminate]. cbn [obind]. destruct (chain_get_joint_acc_all (ac_c c2) z) as [q2|] eqn:G2; [|discriminate].
  cbn [option_map]. intros H. assert (x = (q1, q2)) by congruence. subst. exists c1, c2. auto.
Qed.
Theorem C42_joint_acc_refuted : exists t, trial_ok amech t /\ exists c1 c2 q1 q2,
  chain_abi_update (qz 10) amech = Some c1 /\ run_trials (chain_abi_push (unload c1)) [t] = Some c2 /\
  chain_get_joint_acc_all (ac_c c1) z9 = Some q1 /\ chain_get_joint_acc_all (ac_c c2) z9 = Some q2 /\ q1 <> q2.
Proof.
  exists (Two (Some (4, wa)) None). split; [split; [cbn; lia|exact I]|].
  assert (H : exists x, one_trial amech (Two (Some (4, wa)) None) z9 = Some x /\ negb (qlb (fst x) (snd x)) = true) by (apply some_ex; vm_compute; reflexivity).
  destruct H as (x & R & G). apply one_trial_spec in R as (c1 & c2 & A & B & C & D). exists c1, c2, (fst x), (snd x). do 4 (split; [assumption|]). apply qlne. now apply negb_true_iff.
Qed.
(** If the contact forces of the regular update are left in the lists (against the note at rk_abi.c 273-278), the
    trial corrects biases it does not restore. *)
Definition careless (c : achain Qc) (t : trial Qc) : option (achain Qc * achain Qc) :=
  obind (chain_abi_update (qz 10) c) (fun c1 => option_map (pair c1) (run_trials (chain_abi_push c1) [t])).
Lemma careless_spec c t x : careless c t = Some x -> chain_abi_update (qz 10) c = Some (fst x) /\ run_trials (chain_abi_push (fst x)) [t] = Some (snd x).
Proof.
  unfold careless. destruct (chain_abi_update (qz 10) c) as [c1|]; [|discriminate]. cbn [obind]. destruct (run_trials _ [t]) as [c2|] eqn:R; [|discriminate].
  cbn [option_map]. intros H. assert (x = (c1, c2)) by congruence. subst. auto.
Qed.
Theorem C42_lists_refuted : exists t, trial_ok amech t /\ exists c1 c2,
  chain_abi_update (qz 10) amech = Some c1 /\ run_trials (chain_abi_push c1) [t] = Some c2 /\ biases c2 <> biases c1.
Proof.
  exists (Two (Some (4, wa)) None). split; [split; [cbn; lia|exact I]|].
  assert (H : exists x, careless amech (Two (Some (4, wa)) None) = Some x /\ negb (qlbs (map l6 (biases (snd x))) (map l6 (biases (fst x)))) = true) by (apply some_ex; vm_compute; reflexivity).
  destruct H as (x & R & G). apply careless_spec in R as [A B]. exists (fst x), (snd x). split; [exact A|]. split; [exact B|]. intros Q. rewrite Q in G.
  apply negb_true_iff in G. revert G. generalize (map l6 (biases (fst x))). intros q G.
  assert (qlbs q q = true); [|congruence]. clear. induction q as [|a q IH]; [reflexivity|]. cbn [qlbs]. rewrite IH, andb_true_r. induction a as [|y a IA]; [reflexivity|].
  cbn [qlb]. rewrite IA, andb_true_r. apply Qeq_bool_iff. reflexivity.
Qed.

(** The lists themselves are as before the trial, also at a link that had a force in its list. *)
Definition listed (c : achain Qc) : list nat := map (fun a => length (ab_wl a)) (ac_a c).
Example C42_ex_lists : exists x, careless amech (Two (Some (2, wb)) (Some (2, wa))) = Some x /\ (listed (fst x), listed (snd x)) = ([0; 0; 2; 0; 0], [0; 0; 2; 0; 0]).
Proof.
  assert (H : exists x, careless amech (Two (Some (2, wb)) (Some (2, wa))) = Some x /\ (if list_eq_dec Nat.eq_dec (listed (fst x)) [0; 0; 2; 0; 0] then if list_eq_dec Nat.eq_dec (listed (snd x)) [0; 0; 2; 0; 0] then true else false else false) = true) by (apply some_ex; vm_compute; reflexivity).
  destruct H as (x & R & G). exists x. split; [exact R|]. destruct (list_eq_dec _ _ _) as [->|]; [|discriminate]. destruct (list_eq_dec _ _ _) as [->|]; [reflexivity|discriminate].
Qed.

(** Five links fixed to each other, the last one left with a velocity. *)
Definition stuck : achain Qc := chain_abi_alloc false (Chain (map (fun l => l_set_body (b_set_vel (V6 (V3 (qz 1) (qz 0) (qz 0)) v3zero) (l_body l)) (l_set_joint JFixed l)) (c_links (ac_c amech))) (qz 1) v3zero v3zero v3zero).
Example C42_ex_no_joints : chain_joint_size (ac_c stuck) = 0 /\ exists l, nth_error (c_links (ac_c stuck)) 4 = Some l /\ b_vel (l_body l) <> v6zero.
Proof. split; [vm_compute; reflexivity|]. eexists. split; [reflexivity|]. intros H. apply (f_equal (fun v => this (vx (vlin v)))) in H. vm_compute in H. discriminate H. Qed.

Print Assumptions C41_inertias_psd.
Print Assumptions C41_update_psd.
Print Assumptions C42_trials_partial.
Print Assumptions C42_no_joints.
Print Assumptions C42_joint_acc_refuted.
Print Assumptions C42_lists_refuted.
Print Assumptions C63_incremental.
Print Assumptions C63_incremental_wrench.
