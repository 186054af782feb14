(** * Dyn_R: the energy balance of inverse dynamics, over the reals (C62). *)

From Coq Require Import String List Reals Lra Lia Arith.
From Verif Require Import Num NumFacts Vec VecFacts Motor_Model Joint_Model Joint_Spec Joint_Proofs Deriv ExtR Body_Model Body_Proofs Body_R Joint_R.
From Verif Require Import Tree Tree_Proofs Link_Model Link_Spec Link_Proofs Chain_Proofs Link_Properties Chain_Properties Kin_Spec Kin_Proofs Jacobi_Proofs Kin_R
  Dyn_Spec Dyn_Proofs Dyn_Properties.
Import ListNotations.
Local Open Scope R_scope.

(** ** Specification *)
(** [P s] is the mechanism [C s] after the frames have been updated and inverse dynamics has been run. *)
Definition driven (g : R) (C P : R -> chain R) : Prop :=
  (forall s, well_formed (c_links (C s)) /\ joints_made (c_links (C s)) /\ orgs_rigid (c_links (C s))) /\
  (forall s s', same_mech (C s) (C s')) /\
  forall s, exists c1, chain_update_frame (C s) = Some c1 /\ chain_update_id g c1 = Some (P s).
(** Kinetic energy of rkChainKE plus the potential m g z of the links. *)
Definition energy (g : R) (c : chain R) : R :=
  chain_ke c + nsum (map (fun l => l_mass l * g * vz (b_wcom (l_body l))) (c_links c)).
(** Power of the external wrenches on a link. *)
Definition ext_power (l : lkR) : R :=
  nsum (map (fun c => v3dot (vlin (wr_w c)) (v3add (vlin (l_vel l)) (v3cross (vang (l_vel l)) (wr_p c))) + v3dot (vang (wr_w c)) (vang (l_vel l))) (b_extw (l_body l))).

(** ** Proofs *)
Lemma driven_moves g C P : driven g C P -> moves g C (fun s => run_rate g (C s)).
Proof.
  intros (W & S & _). split; [exact W|]. split; [exact S|]. intros s.
  destruct (run_rate_ok g (C s) (proj1 (W s))) as (c1 & A & B). eauto.
Qed.
(** Running inverse dynamics leaves the bodies as the rate update makes them. *)
Lemma driven_bodies g C P : driven g C P -> forall s, length (c_links (P s)) = length (c_links (C s)) /\
  forall i l, nth_error (c_links (run_rate g (C s))) i = Some l -> exists l', nth_error (c_links (P s)) i = Some l' /\ l_body l' = l_body l.
Proof.
  intros DR s. destruct DR as (W & _ & H). destruct (H s) as (c1 & A & B). specialize (W s). destruct W as (W & _).
  destruct (C24_frame_pass (C s) W) as (c1' & A' & P1 & W1). assert (c1' = c1) by congruence. subst c1'.
  destruct (C24_rate_pass g c1 W1) as (c2 & H2 & D2 & W2).
  assert (RR : run_rate g (C s) = c2) by (unfold run_rate, obind; now rewrite A, H2). rewrite RR.
  destruct (C24_wrench_pass c2 W2) as (c3 & H3 & U3 & _). unfold chain_update_id, obind in B. rewrite H2, H3 in B. cbn in B. injection B as <-.
  cbn. split; [rewrite (proj1 U3), (proj1 D2); apply P1|]. intros i l Hl. destruct (proj2 U3 i l Hl) as (cs & ls & _ & _ & X). eexists. split; [exact X|reflexivity].
Qed.
Lemma run_len g C P : driven g C P -> forall s, length (c_links (run_rate g (C s))) = length (c_links (C s)).
Proof. intros D s. exact (moves_len g C _ (driven_moves g C P D) s s). Qed.

(** Sums over the links of a moving mechanism. *)
Definition atr (f : lkR -> R) (h : list lkR) (i : nat) : R := match nth_error h i with Some l => f l | None => 0 end.
Lemma rsum_idx (f : lkR -> R) h : nsum (map f h) = nsum (map (atr f h) (seq 0 (length h))).
Proof. f_equal. induction h as [|l h IH]; [reflexivity|]. cbn [map length seq]. f_equal. rewrite IH, <- seq_shift, map_map. reflexivity. Qed.
Lemma D1_sum {A} (G : R -> A -> R) (d : A -> R) t l : (forall a, In a l -> D1 (fun s => G s a) t (d a)) ->
  D1 (fun s => nsum (map (G s) l)) t (nsum (map d l)).
Proof.
  induction l as [|a l IH]; intros H; [apply (D1_const 0)|]. cbn [map].
  change (nsum (d a :: map d l)) with (d a + nsum (map d l)).
  apply (D1_add (fun s => G s a) (fun s => nsum (map (G s) l))); [apply H; now left|]. apply IH. intros; apply H; now right.
Qed.
Lemma D1_sum_links (H : R -> list lkR) (G : list lkR) f d t n : (forall s, length (H s) = n) -> length G = n ->
  (forall i, (i < n)%nat -> D1 (fun s => atr f (H s) i) t (atr d G i)) -> D1 (fun s => nsum (map f (H s))) t (nsum (map d G)).
Proof.
  intros LH LG D. rewrite rsum_idx, LG. apply D1_ext with (f := fun s => nsum (map (atr f (H s)) (seq 0 n))).
  { intros s. now rewrite (rsum_idx f), LH. }
  apply (D1_sum (fun s => atr f (H s))). intros i Hi. apply in_seq in Hi. apply D. lia.
Qed.
Lemma ke_sum (c : chain R) : chain_ke c = nsum (map (fun l => body_ke (l_body l)) (c_links c)).
Proof.
  unfold chain_ke. assert (G : forall h a, fold_left (fun e (l : lkR) => (e + body_ke (l_body l))%num) h a = a + nsum (map (fun l => body_ke (l_body l)) h)).
  { induction h as [|l h IH]; intros a; cbn [fold_left map]; [unfold nsum; cbn; ring|]. rewrite IH.
    change (nsum (?x :: ?y)) with (x + nsum y). cbn [nadd Num_R]. ring. }
  rewrite G. cbn [n0 Num_R]. ring.
Qed.
Lemma nsum_add {A} (f h : A -> R) l : nsum (map f l) + nsum (map h l) = nsum (map (fun x => f x + h x) l).
Proof. induction l as [|x l IH]; [unfold nsum; cbn; ring|]. cbn [map]. change (nsum (?x :: ?y)) with (x + nsum y). rewrite <- IH. ring. Qed.
Lemma dot_flat2 (f h : joint R -> list R) (l : list lkR) : (forall j, length (f j) = joint_size j) -> (forall j, length (h j) = joint_size j) ->
  dotl (flat_map (fun x => f (l_joint x)) l) (flat_map (fun x => h (l_joint x)) l) = nsum (map (fun x => dotl (f (l_joint x)) (h (l_joint x))) l).
Proof.
  intros Lf Lh. induction l as [|x l IH]; [reflexivity|]. cbn [flat_map map]. change (nsum (?x :: ?y)) with (x + nsum y).
  rewrite dotl_app, dotl_app_nil by congruence. rewrite Lf, <- (Lh (l_joint x)), skipn_app, skipn_all, Nat.sub_diag. cbn [skipn app]. now rewrite IH.
Qed.

Lemma combine_self {A} (l : list A) : combine l l = map (fun x => (x, x)) l.
Proof. induction l as [|x l IH]; [reflexivity|]. cbn. now rewrite IH. Qed.

(** Energy of one link. *)
Definition link_energy (g : R) (l : lkR) : R := body_ke (l_body l) + l_mass l * g * vz (b_wcom (l_body l)).
Lemma link_energy_rate g C P t i : driven g C P -> (i < length (c_links (C t)))%nat ->
  (forall k s, (k < length (c_links (C t)))%nat -> rates_at C s k) ->
  (forall k, (k < length (c_links (C t)))%nat -> accs_at C t k /\ no_screw (joint_of (C t) k)) ->
  (forall l, In l (c_links (C t)) -> sym3 (mp_inertia (b_mp (l_body l)))) ->
  D1 (fun s => atr (link_energy g) (c_links (P s)) i) t (atr (fun l => virtual_power l (l_vel l) + ext_power l) (c_links (P t)) i).
Proof.
  intros DR Hi RT AT SY. set (Q := fun s => run_rate g (C s)). assert (MV := driven_moves g C P DR). fold Q in MV.
  destruct (nth_error (c_links (C t)) i) as [l0|] eqn:H0. 2:{ apply nth_error_None in H0. lia. }
  destruct (wf_lineage (c_links (C t)) i (proj1 (proj1 MV t)) Hi) as (tr & LG & _).
  assert (IN : forall k, In k tr -> (k < length (c_links (C t)))%nat) by (intros; eapply lineage_lt; eauto).
  assert (ACC : accelerated g (C t) (Q t) (Q t)) by (left; split; [reflexivity|]; apply run_rate_ok; apply (proj1 MV t)).
  assert (HA := acc_of_link g C Q MV (Q t) t i tr ACC LG (fun k s Hk => RT k s (IN k Hk)) (fun k Hk => proj1 (AT k (IN k Hk))) (fun k Hk => proj2 (AT k (IN k Hk)))).
  assert (T := twist_of g C Q MV t i tr LG (fun k Hk => RT k t (IN k Hk))).
  assert (RG := frame_rigid g C Q MV t i l0 tr H0 LG).
  destruct (acc_comp _ t (fun s => vel_of (Q s) i) _ RG T HA) as [DL DA]. cbn [vlin vang] in DL, DA.
  assert (DZ := vel_point g C Q t i tr (l_com l0) MV LG (fun k Hk => RT k t (IN k Hk))).
  set (m := l_mass l0). set (I0 := mp_inertia (b_mp (l_body l0))). set (p := l_com l0) in *.
  assert (ES : forall s, atr (link_energy g) (c_links (P s)) i =
    (v3dot (vang (vel_of (Q s) i)) (m3v I0 (vang (vel_of (Q s) i)))
     + m * v3dot (v3add (vlin (vel_of (Q s) i)) (v3cross (vang (vel_of (Q s) i)) p)) (v3add (vlin (vel_of (Q s) i)) (v3cross (vang (vel_of (Q s) i)) p))) * (1 / 2)
    + m * g * vz (point_pos (Q s) i p)).
  { intros s. destruct (moves_nth g C Q MV s t i l0 H0) as (ls & Hs & _ & _ & _ & EM).
    destruct (proj2 (moves_posed g C Q MV s) i ls Hs) as (lq & Hq & _ & _ & _ & A4 & _ & A6 & A7 & _).
    destruct (proj2 (driven_bodies g C P DR s) i lq Hq) as (lp & Hp & EB).
    unfold atr, link_energy, vel_of, point_pos, frame_of. rewrite Hp, Hq. unfold body_ke, l_mass. rewrite EB, A6, A7.
    assert (MP : b_mp (l_body lq) = b_mp (l_body l0)) by congruence.
    unfold m, I0, p, l_com, l_mass, l_vel. rewrite MP. unfold v3sqr. reflexivity. }
  eapply D1_ext; [intros s; symmetry; apply ES|].
  destruct (acc_posed g _ _ (Q t) (moves_posed g C Q MV t) (proj1 (proj1 MV t)) (moves_wf g C Q MV t) ACC i l0 H0) as (l' & lA & Hl' & HA' & EV & EF & EB & EC & _).
  assert (lA = l') by congruence. subst lA.
  destruct (proj2 (driven_bodies g C P DR t) i l' Hl') as (lp & Hp & EP).
  assert (DZ1 : D1 (fun s => vz (point_pos (Q s) i p)) t (vz (point_vel (Q t) i p))) by (unfold D3 in DZ; apply DZ).
  eapply D1_eq.
  - apply D1_add.
    + apply (D1_mul _ (fun _ => 1/2)); [|apply D1_const].
      apply (D1_add (fun s => v3dot (vang (vel_of (Q s) i)) (m3v I0 (vang (vel_of (Q s) i))))).
      * apply D1_dot; [exact DA | apply D3_m3v_const; exact DA].
      * apply (D1_mul (fun _ => m)); [apply D1_const|]. apply D1_dot.
        1,2: apply (D3_add (fun s => vlin (vel_of (Q s) i))); [exact DL|]; apply D3_cross; [exact DA | apply D3_const].
    + apply (D1_mul (fun _ => m * g)); [apply D1_const | exact DZ1].
  - cbv beta. unfold atr. rewrite Hp. unfold virtual_power, ext_power.
    unfold l_vel, l_acc, l_mass, l_com. rewrite EP. fold (l_vel l') (l_acc l') (l_mass l') (l_com l').
    assert (Em : l_mass l' = m) by (unfold l_mass, m; now rewrite EB). assert (Ep : l_com l' = p) by (unfold l_com, p; now rewrite EB).
    assert (EI : mp_inertia (b_mp (l_body l')) = I0) by (unfold I0; now rewrite EB).
    rewrite Em, Ep, EI, EC, Ep. unfold point_vel, vel_of, acc_of, frame_of, gv. rewrite Hl'.
    set (X := nsum (map _ _)). cbn [vlin vang].
    assert (SI : forall a b, v3dot a (m3v I0 b) = v3dot b (m3v I0 a)).
    { intros a b. rewrite v3dot_m3v, m3tv_tr. assert (S0 := SY l0 (nth_error_In _ _ H0)). unfold sym3 in S0. fold I0 in S0. rewrite S0. apply v3dot_comm. }
    assert (GZ : vz (m3v (fatt (l_frame l')) (link_point_vel l' p)) * g = v3dot (link_point_vel l' p) (m3tv (fatt (l_frame l')) (V3 0 0 g))).
    { generalize (link_point_vel l' p) (l_frame l'). intros. vdestruct. rcomp. ring. }
    rewrite (v3dot_add_l (m3v I0 (vang (l_acc l')))). rewrite (v3dot_comm (v3cross _ _) (vang (l_vel l'))), v3dot_cross_self_l.
    rewrite (SI (vang (l_acc l'))), (v3dot_comm (m3v I0 (vang (l_acc l')))).
    replace (0 * vz (point_pos (Q t) i p) + m * g * vz (m3v (fatt (l_frame l')) (link_point_vel l' p))) with (m * (vz (m3v (fatt (l_frame l')) (link_point_vel l' p)) * g)) by ring.
    rewrite GZ. unfold link_point_vel.
    generalize (v3dot (vang (l_vel l')) (m3v I0 (vang (l_acc l')))) (m3tv (fatt (l_frame l')) (V3 0 0 g)) (vlin (l_vel l')) (vang (l_vel l')) (vlin (l_acc l')) (vang (l_acc l')) X p m.
    intros. vdestruct. rcomp. field.
Qed.

(** C62: along any motion of a mechanism whose floating joints do not translate and rotate in different
    directions, the rate of kinetic plus potential energy is the power of the joint torques found by inverse
    dynamics plus the power of the external wrenches. *)
Theorem C62_energy_balance_partial g (C P : R -> chain R) t (w w' : list R) :
  driven g C P -> offsets_set (C t) -> length w = chain_joint_size (C t) -> length w' = chain_joint_size (C t) ->
  (forall k s, (k < length (c_links (C t)))%nat -> rates_at C s k) ->
  (forall k, (k < length (c_links (C t)))%nat -> accs_at C t k /\ no_screw (joint_of (C t) k)) ->
  (forall l, In l (c_links (C t)) -> sym3 (mp_inertia (b_mp (l_body l)))) ->
  exists tau qd, chain_get_joint_trq_all (P t) w = Some tau /\ chain_get_joint_vel_all (P t) w' = Some qd /\
    D1 (fun s => energy g (P s)) t (dotl tau qd + nsum (map ext_power (c_links (P t)))).
Proof.
  intros DR O LW LW' RT AT SY.
  destruct (proj2 (proj2 DR) t) as (c1 & A & B). destruct (proj1 DR t) as (W & JM & OR).
  destruct (usable_frames (C t) c1 (conj W (conj O (conj JM OR))) A) as (W1 & PL1 & TT1 & _). pose proof (id_kept _ _ _ W1 B) as K.
  pose proof (kept_placed _ _ K _ PL1) as PL. pose proof (kept_total _ _ K) as TT.
  exists (flat_map (fun l => joint_get_trq (l_joint l)) (c_links (P t))), (flat_map (fun l => joint_get_vel (l_joint l)) (c_links (P t))).
  split; [|split].
  - unfold chain_get_joint_trq_all. rewrite (get_all_spec joint_get_trq _ get_trq_len 0 w PL) by lia.
    rewrite skipn_all2 by lia. cbn [firstn app]. now rewrite app_nil_r.
  - unfold chain_get_joint_vel_all. rewrite (get_all_spec joint_get_vel _ get_vel_len 0 w' PL) by lia.
    rewrite skipn_all2 by lia. cbn [firstn app]. now rewrite app_nil_r.
  - rewrite (dot_flat2 joint_get_trq joint_get_vel _ get_trq_len get_vel_len), (id_own_power g c1 (P t) W1 B).
    unfold total_power. rewrite combine_self. rewrite map_map, nsum_add. cbn [fst snd].
    apply D1_ext with (f := fun s => nsum (map (link_energy g) (c_links (P s)))).
    { intros s. unfold energy. rewrite ke_sum. symmetry. apply nsum_add. }
    apply (D1_sum_links (fun s => c_links (P s)) (c_links (P t)) _ _ t (length (c_links (C t)))).
    + intros s. rewrite (proj1 (driven_bodies g C P DR s)). apply (proj1 (proj2 DR) s t).
    + apply (proj1 (driven_bodies g C P DR t)).
    + intros i Hi. now apply (link_energy_rate g C P t i).
Qed.

(** ** Concrete motions *)
Definition run_id (g : R) (c : chain R) : chain R :=
  match obind (chain_update_frame c) (chain_update_id g) with Some c' => c' | None => c end.
Lemma run_id_ok g c : well_formed (c_links c) -> exists c1, chain_update_frame c = Some c1 /\ chain_update_id g c1 = Some (run_id g c).
Proof.
  intros W. destruct (C24_frame_pass c W) as (c1 & A1 & _ & W1). destruct (C24_rate_pass g c1 W1) as (c2 & A2 & _ & W2).
  destruct (C24_wrench_pass c2 W2) as (c3 & A3 & _).
  exists c1. split; [exact A1|]. unfold run_id, chain_update_id, obind. now rewrite A1, A2, A3.
Qed.
Definition elink (j : joint R) (off : option nat) (o : frame R) (m : R) (e : list (wrench R)) (q c : option nat) : lkR :=
  Link "l"%string j (Body (MP m (V3 0 1 0) (m3create 2 1 0 1 3 0 0 0 4)) fid v6zero v6zero v3zero v3zero v3zero e [] None) off o fid v6zero q c None.
(** The mechanism of C36_ex with an inertia that is not diagonal and a force and a couple on its last link. *)
Definition Cen (s : R) : chain R :=
  Chain [elink (jset TRevol [sin s] [cos s] [- sin s]) (Some 0%nat) fid 1 [] None (Some 1%nat);
         elink (jset TPrism [s * s / 2] [s] [1]) (Some 1%nat) (Fr (V3 1 0 0) (M3 (V3 1 0 0) (V3 0 0 1) (V3 0 (-1) 0))) 2 [] (Some 0%nat) (Some 2%nat);
         elink (jset TSpher [0; 0; s] [0; 0; 1] [0; 0; 0]) (Some 2%nat) (Fr (V3 0 2 1) m3id) 3
           [Wr (V6 (V3 1 2 s) (V3 0 (-1) 1)) (V3 1 0 1)] (Some 1%nat) None] 6 v3zero v3zero v3zero.
Example C62_ex t : driven 10 Cen (fun s => run_id 10 (Cen s)) /\ offsets_set (Cen t) /\ chain_joint_size (Cen t) = 5%nat /\
  (forall k s, (k < 3)%nat -> rates_at Cen s k) /\ (forall k, (k < 3)%nat -> accs_at Cen t k /\ no_screw (joint_of (Cen t) k)) /\
  (forall l, In l (c_links (Cen t)) -> sym3 (mp_inertia (b_mp (l_body l)))).
Proof.
  assert (W : forall s, well_formed (c_links (Cen s))).
  { intros s. exists (FCons 1 (FCons 2 FNil FNil) FNil). split; [|cbn; apply Permutation.Permutation_refl].
    repeat (econstructor; try reflexivity). }
  assert (JE : forall s k, joint_of (Cen s) k = joint_of (Cex s) k).
  { intros s k. unfold joint_of. do 3 (destruct k as [|k]; [reflexivity|]). now destruct k. }
  split; [|split; [reflexivity|split; [reflexivity|split; [|split]]]].
  - split; [|split].
    + intros s. split; [apply W|]. split.
      * intros i l H. do 3 (destruct i as [|i]; [injection H as <-; apply jset_made; eexists; reflexivity|]). destruct i; discriminate.
      * intros i l H. do 3 (destruct i as [|i]; [injection H as <-; unfold rigid, rotation; cbn [l_org elink]; rcomp; cbn [fatt fid]; rcomp; split; [vsplit|]; ring|]). destruct i; discriminate.
    + intros s s'. split; [reflexivity|]. split; [reflexivity|]. intros i l l' H H'.
      do 3 (destruct i as [|i]; [injection H as <-; injection H' as <-; repeat split|]). destruct i; discriminate.
    + intros s. apply (run_id_ok 10 (Cen s) (W s)).
  - intros k s H. assert (X := Cex_rates k s H). unfold rates_at in *. rewrite JE. unfold dis_rate in *.
    destruct k as [|[|[|k]]]; [exact X|exact X|exact X|lia].
  - intros k H. assert (X := Cex_accs k t H). split; [destruct k as [|[|[|k]]]; [exact X|exact X|exact X|lia]|].
    destruct k as [|[|[|k]]]; [exact I|exact I|exact I|lia].
  - intros l H. cbn in H. decompose [or] H; try contradiction; subst l; reflexivity.
Qed.

(** C62 is false for a floating joint that translates and rotates in different directions: the acceleration of
    C37_float_acceleration_refuted makes the torques feed energy into a body that loses it. *)
Definition energy_balance : Prop := forall g (C P : R -> chain R) t (w w' : list R),
  driven g C P -> offsets_set (C t) -> length w = chain_joint_size (C t) -> length w' = chain_joint_size (C t) ->
  (forall k s, (k < length (c_links (C t)))%nat -> rates_at C s k) ->
  (forall k, (k < length (c_links (C t)))%nat -> accs_at C t k) ->
  (forall l, In l (c_links (C t)) -> sym3 (mp_inertia (b_mp (l_body l)))) ->
  exists tau qd, chain_get_joint_trq_all (P t) w = Some tau /\ chain_get_joint_vel_all (P t) w' = Some qd /\
    D1 (fun s => energy g (P s)) t (dotl tau qd + nsum (map ext_power (c_links (P t)))).
Definition Cf2 (s : R) : chain R :=
  Chain [elink (jset TFloat [0; s; 0; 0; 0; s] [0; 1; 0; 0; 0; 1] [0; 0; 0; 0; 0; 0]) (Some 0%nat) fid 1 [] None None] 1 v3zero v3zero v3zero.
Theorem C62_float_energy_refuted : ~ energy_balance.
Proof.
  intros H.
  assert (W : forall s, well_formed (c_links (Cf2 s))).
  { intros s. exists FNil. split; [|cbn; apply Permutation.Permutation_refl]. repeat (econstructor; try reflexivity). }
  assert (DV : driven 0 Cf2 (fun s => run_id 0 (Cf2 s))).
  { split; [|split].
    - intros s. split; [apply W|]. split.
      + intros i l Hl. destruct i as [|i]; [injection Hl as <-; apply jset_made; eexists; reflexivity|]. destruct i; discriminate.
      + intros i l Hl. destruct i as [|i]; [injection Hl as <-; apply rotation_id|]. destruct i; discriminate.
    - intros s s'. split; [reflexivity|]. split; [reflexivity|]. intros i l l' Hl Hl'.
      destruct i as [|i]; [injection Hl as <-; injection Hl' as <-; repeat split|]. destruct i; discriminate.
    - intros s. apply (run_id_ok 0 (Cf2 s) (W s)). }
  destruct (H 0 Cf2 (fun s => run_id 0 (Cf2 s)) 0 [0;0;0;0;0;0] [0;0;0;0;0;0] DV eq_refl eq_refl eq_refl) as (tau & qd & E1 & E2 & D).
  { intros k s Hk. assert (k = 0)%nat as -> by (cbn in Hk; lia). split; [intros; reflexivity|]. split; [reflexivity|]. split.
    - repeat split; [exact (D1_const 0 s)|exact (D1_id s)|exact (D1_const 0 s)].
    - exact (proj2 (proj2 (C04_ex_spherical s))). }
  { intros k Hk. assert (k = 0)%nat as -> by (cbn in Hk; lia). split; [intros; reflexivity|]. split; [reflexivity|]. intros i Hi. cbn in Hi.
    do 6 (destruct i as [|i]; [first [exact (D1_const 0 0) | exact (D1_const 1 0)]|]). lia. }
  { intros l [<-|[]]. reflexivity. }
  clear H DV.
  set (j := fun s => jset TFloat [0; s; 0; 0; 0; s] [0; 1; 0; 0; 0; 1] [0; 0; 0; 0; 0; 0]).
  set (Y := fun s => joint_xform (j s) fid). set (V := fun s => joint_inc_vel (j s) (xform6lin (Y s) v6zero)).
  set (A := acc_formula (j 0) (Y 0) (V 0) v6zero (grav 0)).
  assert (JE : forall s, j s = JFloat (FL (V6 (V3 0 s 0) (V3 0 0 s)) (V6 (V3 0 1 0) (V3 0 0 1)) (V6 (V3 0 0 0) (V3 0 0 0)) v6zero (raa2m (V3 0 0 s)))) by reflexivity.
  set (I0 := m3create 2 1 0 1 3 0 0 0 4 : mat3 R). set (p := V3 0 1 0 : vec3 R).
  set (cv := fun s => v3add (vlin (V s)) (v3cross (vang (V s)) p)).
  assert (EE : forall s, energy 0 (run_id 0 (Cf2 s)) = 0 + (v3dot (vang (V s)) (m3v I0 (vang (V s))) + 1 * v3sqr (cv s)) * (1 / n2)
    + (1 * 0 * vz (xform (fcascade fid (Y s)) p) + 0)) by (intros s; reflexivity).
  set (f := v3scale 1 (v3add (v3add (v3triple (vang (V 0)) (vang (V 0)) p) (v3cross (vang A) p)) (vlin A))).
  set (W0 := v6sub (v6angshift (V6 f (v3add (v3cross (vang (V 0)) (m3v I0 (vang (V 0)))) (m3v I0 (vang A)))) p) v6zero).
  assert (TE : chain_get_joint_trq_all (run_id 0 (Cf2 0)) [0;0;0;0;0;0] = Some (joint_get_trq (joint_calc_trq (j 0) W0))) by reflexivity.
  assert (VE : chain_get_joint_vel_all (run_id 0 (Cf2 0)) [0;0;0;0;0;0] = Some (joint_get_vel (j 0))) by reflexivity.
  assert (XE : nsum (map ext_power (c_links (run_id 0 (Cf2 0)))) = 0 + 0) by reflexivity.
  assert (tau = joint_get_trq (joint_calc_trq (j 0) W0)) by congruence. assert (qd = joint_get_vel (j 0)) by congruence. subst tau qd. clear E1 E2.
  rewrite (trq_dual (j 0) W0 (xform6lin (Y 0) v6zero)), XE in D.
  assert (D' : D1 (fun s => (6 - 2 * sin s) * (1 / 2)) 0 1).
  { eapply D1_eq; [eapply D1_ext; [|exact D]|].
    - intros s. cbv beta. rewrite EE. unfold cv, V, Y, I0, p, m3create. rewrite JE, raa_z. cbn [joint_xform joint_inc_vel fl_att fl_dis fl_vel]. unfold xform6lin, n2, v3sqr. rcomp.
      cbn [ndiv Num_R]. assert (X := sin2_cos2 s). unfold Rsqr in X. replace (cos s * cos s) with (1 - sin s * sin s) by lra. field_simplify. nra.
    - unfold W0, f, A, V, Y, acc_formula, I0, p, m3create. rewrite JE, raa_z, sin_0, cos_0. cbn [joint_xform joint_inc_vel joint_inc_acc joint_inc_acc_on_vel fl_att fl_dis fl_vel fl_acc].
      unfold xform6lin, n2, grav, v3triple. rcomp. field. }
  assert (D2 : D1 (fun s => (6 - 2 * sin s) * (1 / 2)) 0 (-1)).
  { eapply D1_eq; [apply (D1_mul (fun s => 6 - 2 * sin s) (fun _ => 1 / 2)); [apply (D1_sub (fun _ => 6)); [apply D1_const|]; apply (D1_mul (fun _ => 2)); [apply D1_const|apply derivable_pt_lim_sin]|apply D1_const]|]. cbv beta. rewrite cos_0. field. }
  assert (1 = -1) by (eapply D1_uniq; [exact D' | exact D2]). lra.
Qed.

Print Assumptions C62_energy_balance_partial.
Print Assumptions C62_float_energy_refuted.
