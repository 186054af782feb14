(** * Payload_Properties: inverse dynamics is linear in the mass properties of the links (C109). *)
From Coq Require Import String ZArith QArith Qcanon List Arith Lia Bool Field Permutation.
From Verif Require Import Conf_Q Num NumFacts Vec VecFacts Motor_Model Joint_Model Joint_Spec Joint_Proofs Body_Model Body_Proofs Body_Properties Tree Tree_Proofs Link_Model Link_Spec Link_Proofs Chain_Proofs Link_Properties Chain_Properties Kin_Spec Kin_Proofs Jacobi_Model Jacobi_Proofs Conf_Proofs Kin_Properties ExtQ.
From Verif Require Import Dyn_Spec Dyn_Proofs Move_Properties.
Import ListNotations.

Section Payload.
Context {F : Type} {N : Num F} {L : NumLaws F N} {E : Ext F} {X : ExtLaws F N E}.
Local Open Scope num_scope.
Local Ltac vring := intros; vdestruct; vunfold; vsplit; ring.
Add Field FFieldPl : num_field.
Notation lk := (link F).

(** The chain with other mass properties and external forces on its links. *)
Definition reload1 (m : mp F * wlist F) (l : lk) : lk :=
  let b := l_body l in l_set_body (Body (fst m) (b_frame b) (b_vel b) (b_acc b) (b_wcom b) (b_comvel b) (b_comacc b) (snd m) (b_shapes b) (b_stuff b)) l.
Fixpoint reload_all (ms : list (mp F * wlist F)) (h : list lk) : list lk :=
  match ms, h with m :: ms', l :: h' => reload1 m l :: reload_all ms' h' | _, _ => h end.
Definition reload (ms : list (mp F * wlist F)) (c : chain F) : chain F := c_set_links (reload_all ms (c_links c)) c.
(** Mass, first moment, moment of inertia about the origin of the link, and external wrench. *)
Definition mixed (x y : F) (d a e : mp F * wlist F) : Prop :=
  mp_mass (fst d) = x * mp_mass (fst a) + y * mp_mass (fst e) /\
  v3scale (mp_mass (fst d)) (mp_com (fst d)) = v3add (v3scale x (v3scale (mp_mass (fst a)) (mp_com (fst a)))) (v3scale y (v3scale (mp_mass (fst e)) (mp_com (fst e)))) /\
  mp_org_inertia (fst d) = m3add (m3scale x (mp_org_inertia (fst a))) (m3scale y (mp_org_inertia (fst e))) /\
  wl_net (snd d) = v6add (v6scale x (wl_net (snd a))) (v6scale y (wl_net (snd e))).
Definition own (l : lk) : mp F * wlist F := (b_mp (l_body l), b_extw (l_body l)).

(** ** Kinematics do not see the masses *)
(** What the kinematic passes read and write of a link. *)
Definition strip (l : lk) : lk :=
  let b := l_body l in Link (l_name l) (l_joint l) (Body (MP 0 v3zero m3id) (b_frame b) (b_vel b) (b_acc b) v3zero v3zero v3zero [] (b_shapes b) (b_stuff b)) (l_offset l) (l_org l) (l_adj l) v6zero (l_parent l) (l_child l) (l_sibl l).
Definition peq (l l' : lk) : Prop := strip l = strip l'.
Lemma peq_nth (h k : list lk) i l : Forall2 peq h k -> nth_error h i = Some l -> exists l', nth_error k i = Some l' /\ peq l l'.
Proof. intros R. revert i. induction R as [|a b h k S R IH]; intros [|i] H; try discriminate H; [injection H as <-; now exists b|]. exact (IH i H). Qed.
Lemma peq_none (h k : list lk) i : Forall2 peq h k -> nth_error h i = None -> nth_error k i = None.
Proof. intros R. revert i. induction R as [|a b h k S R IH]; intros [|i] H; try discriminate H; [reflexivity..|]. exact (IH i H). Qed.
Lemma peq_set i l l' (h k : list lk) : Forall2 peq h k -> peq l l' -> Forall2 peq (set_nth i l h) (set_nth i l' k).
Proof. intros R S. revert i. induction R as [|a b h k Q R IH]; intros [|i]; cbn [set_nth]; constructor; auto. Qed.
Lemma peq_refs l l' : peq l l' -> l_parent l = l_parent l' /\ l_child l = l_child l' /\ l_sibl l = l_sibl l'.
Proof. intros S. repeat split; [exact (f_equal l_parent S)|exact (f_equal l_child S)|exact (f_equal l_sibl S)]. Qed.
Definition orel {A} (R : A -> A -> Prop) (x y : option A) : Prop := match x, y with Some a, Some b => R a b | None, None => True | _, _ => False end.
Lemma walk_down_peq {P} (upd : lk -> P -> lk) (par : lk -> P) : (forall l l' p, peq l l' -> peq (upd l p) (upd l' p)) -> (forall l l', peq l l' -> par l = par l') ->
  forall fuel h k i p, Forall2 peq h k -> orel (Forall2 peq) (walk_down l_parent l_child l_sibl upd par fuel h i p) (walk_down l_parent l_child l_sibl upd par fuel k i p).
Proof.
  intros UP PR. induction fuel as [|n IH]; intros h k i p Q; [exact I|]. cbn [walk_down]. destruct (nth_error h i) as [l|] eqn:Hl.
  2: { rewrite (peq_none h k i Q Hl). exact I. }
  destruct (peq_nth h k i l Q Hl) as (l' & -> & S). specialize (UP l l' p S) as SU. pose proof (peq_set i _ _ _ _ Q SU) as Q1. destruct (peq_refs _ _ SU) as (_ & CH & _). rewrite <- CH, <- (PR _ _ SU).
  assert (Q2 : orel (Forall2 peq) (match l_child (upd l p) with None => Some (set_nth i (upd l p) h) | Some c => walk_down l_parent l_child l_sibl upd par n (set_nth i (upd l p) h) c (par (upd l p)) end)
     (match l_child (upd l p) with None => Some (set_nth i (upd l' p) k) | Some c => walk_down l_parent l_child l_sibl upd par n (set_nth i (upd l' p) k) c (par (upd l p)) end))
    by (destruct (l_child (upd l p)); [apply IH; exact Q1|exact Q1]).
  destruct (match l_child (upd l p) with None => Some (set_nth i (upd l p) h) | Some c => _ end) as [h2|], (match l_child (upd l p) with None => Some (set_nth i (upd l' p) k) | Some c => _ end) as [k2|]; try contradiction Q2; [|exact I].
  cbn [orel] in Q2. destruct (nth_error h2 i) as [l2|] eqn:H2; [|rewrite (peq_none _ _ i Q2 H2); exact I]. destruct (peq_nth _ _ i l2 Q2 H2) as (l2' & -> & S2). destruct (peq_refs _ _ S2) as (PA & _ & SI). rewrite <- PA, <- SI.
  destruct (l_sibl l2) as [s|]; [|exact Q2]. destruct (l_parent l2) as [q|]; [|exact I]. destruct (nth_error h2 q) as [lq|] eqn:Hq; [|rewrite (peq_none _ _ q Q2 Hq); exact I].
  destruct (peq_nth _ _ q lq Q2 Hq) as (lq' & -> & Sq). rewrite <- (PR _ _ Sq). now apply IH.
Qed.
Lemma peq_frame l l' p : peq l l' -> peq (upd_frame l p) (upd_frame l' p).
Proof.
  intros S. unfold peq. transitivity (strip (upd_frame (strip l) p)); [reflexivity|]. rewrite S. reflexivity.
Qed.
Lemma peq_rate l l' p : peq l l' -> peq (upd_rate l p) (upd_rate l' p).
Proof. intros S. unfold peq. transitivity (strip (upd_rate (strip l) p)); [reflexivity|]. rewrite S. reflexivity. Qed.
Lemma peq_par l l' : peq l l' -> (l_vel l, l_acc l) = (l_vel l', l_acc l').
Proof. intros S. exact (f_equal (fun l => (l_vel l, l_acc l)) S). Qed.
Lemma peq_lframe l l' : peq l l' -> l_frame l = l_frame l'.
Proof. intros S. exact (f_equal l_frame S). Qed.
Lemma peq_set_all set (h k : list lk) v : Forall2 peq h k -> orel (Forall2 peq) (set_all set h v) (set_all set k v).
Proof.
  intros R. induction R as [|a b h k S R IH]; [constructor|]. cbn [set_all]. rewrite <- (f_equal l_offset S : l_offset a = l_offset b), <- (f_equal l_joint S : l_joint a = l_joint b).
  destruct (l_offset a) as [o|].
  - destruct (set (l_joint a) (skipn o v)) as [j|]; [|exact I]. cbn [obind]. destruct (set_all set h v), (set_all set k v); try contradiction IH; [|exact I]. constructor; [|exact IH].
    unfold peq. transitivity (l_set_joint j (strip a)); [reflexivity|]. rewrite S. reflexivity.
  - destruct (set_all set h v), (set_all set k v); try contradiction IH; [|exact I]. constructor; [exact S|exact IH].
Qed.
Lemma reload_peq ms h : Forall2 peq h (reload_all ms h).
Proof.
  revert h. induction ms as [|m ms IH]; intros h; cbn [reload_all]; [induction h; constructor; [reflexivity|assumption]|]. destruct h as [|l h]; constructor; [reflexivity|apply IH].
Qed.
Lemma reload_own ms h : length ms = length h -> map own (reload_all ms h) = ms.
Proof. revert h. induction ms as [|[m w] ms IH]; intros [|l h] Q; try discriminate Q; [reflexivity|]. injection Q as Q. cbn [reload_all map]. now rewrite IH. Qed.

(** ** The wrench of a body is linear in its moments *)
Definition moving (l : lk) : Prop := b_comacc (l_body l) = b_comacc (body_update_comacc (l_body l)).
Definition wrench_of (m : F) (s : vec3 F) (J : mat3 F) (v a : vec6 F) : vec6 F :=
  let w := vang v in
  V6 (v3add (v3add (v3triple w w s) (v3cross (vang a) s)) (v3scale m (vlin a))) (v3add (v3add (v3cross w (m3v J w)) (m3v J (vang a))) (v3cross s (vlin a))).
Lemma body_moments (m : F) (c : vec3 F) (J : mat3 F) (v a : vec6 F) :
  v6angshift (V6 (v3scale m (v3add (v3add (v3triple (vang v) (vang v) c) (v3cross (vang a) c)) (vlin a))) (v3add (v3cross (vang v) (m3v J (vang v))) (m3v J (vang a)))) c =
  wrench_of m (v3scale m c) (mp_shift_inertia J m c) v a.
Proof. rewrite shift_inertia_spec. unfold wrench_of, v6angshift, point_inertia, v3triple. cbn [vlin vang]. clear - L. vring. Qed.
Lemma wrench_moments l : moving l -> l_wrench (wr_pre l) = wrench_of (l_mass l) (v3scale (l_mass l) (l_com l)) (mp_org_inertia (b_mp (l_body l))) (l_vel l) (l_acc l).
Proof.
  intros M. unfold wr_pre. cbn [l_wrench l_set_wrench]. unfold body_net_wrench. rewrite M. unfold body_update_comacc, l_mass, l_com, l_vel, l_acc, mp_org_inertia. cbn [b_comacc b_vel b_acc b_mp]. apply body_moments.
Qed.
Lemma wrench_linear x y md sd Jd ma sa Ja me se Je v a : md = x * ma + y * me -> sd = v3add (v3scale x sa) (v3scale y se) -> Jd = m3add (m3scale x Ja) (m3scale y Je) ->
  wrench_of md sd Jd v a = v6add (v6scale x (wrench_of ma sa Ja v a)) (v6scale y (wrench_of me se Je v a)).
Proof. intros -> -> ->. unfold wrench_of. clear - L. vring. Qed.

(** ** Passes up to the rates *)
Lemma peq_all_refs (h k : list lk) : Forall2 peq h k -> Forall2 (same_refs l_parent l_child l_sibl) h k.
Proof. induction 1; constructor; [now apply peq_refs|assumption]. Qed.
Lemma set_all_own set (h h' : list lk) v : set_all set h v = Some h' -> map own h' = map own h.
Proof.
  revert h'. induction h as [|l t IH]; intros h' A; cbn [set_all] in A; [now injection A as <-|]. destruct (l_offset l) as [o|].
  - destruct (set (l_joint l) (skipn o v)) as [j|]; [|discriminate]. cbn [obind] in A. destruct (set_all set t v) as [t'|]; [|discriminate]. injection A as <-. cbn [map]. now rewrite (IH t' eq_refl).
  - destruct (set_all set t v) as [t'|]; [|discriminate]. injection A as <-. cbn [map]. now rewrite (IH t' eq_refl).
Qed.
Lemma down_own {P} (upd : lk -> P -> lk) par (h h' : list lk) p0 fuel : (forall l p, same_refs l_parent l_child l_sibl l (upd l p)) -> (forall l p, own (upd l p) = own l) -> well_formed h -> (length h <= fuel)%nat ->
  walk_down l_parent l_child l_sibl upd par fuel h 0 p0 = Some h' -> map own h' = map own h /\ (forall l', In l' h' -> exists l p, l' = upd l p) /\ well_formed h'.
Proof.
  intros UR UO W FU A. destruct (walk_down_wf upd par h p0 fuel UR W FU) as (k & B & LN & _ & D). rewrite A in B. injection B as <-.
  assert (D' : forall i l', nth_error h' i = Some l' -> exists l p, nth_error h i = Some l /\ l' = upd l p).
  { intros i l' Hi. destruct (nth_error h i) as [l|] eqn:Hl; [|apply nth_error_None in Hl; assert (i < length h')%nat by (apply nth_error_Some; congruence); lia]. destruct (D i l Hl) as (p & Hp & _). exists l, p. split; [reflexivity|congruence]. }
  split; [|split].
  - apply same_entries. intros i. rewrite !nth_error_map. destruct (nth_error h' i) as [l'|] eqn:Hi.
    + destruct (D' i l' Hi) as (l & p & -> & ->). cbn [option_map]. now rewrite UO.
    + apply nth_error_None in Hi. rewrite LN in Hi. apply nth_error_None in Hi. now rewrite Hi.
  - intros l' Hl. destruct (In_nth_error _ _ Hl) as [i Hi]. destruct (D' i l' Hi) as (l & p & _ & Q). now exists l, p.
  - destruct W as [t T]. exists t. apply (well_formed_refs h h' LN); [|exact T]. intros i l Hl. destruct (D i l Hl) as (p & Hp & _). eauto.
Qed.
Lemma fk_peq (c c1 d : chain F) dis : well_formed (c_links c) -> Forall2 peq (c_links c) (c_links d) -> chain_fk c dis = Some c1 ->
  exists d1, chain_fk d dis = Some d1 /\ Forall2 peq (c_links c1) (c_links d1) /\ map own (c_links d1) = map own (c_links d) /\ well_formed (c_links c1) /\ well_formed (c_links d1).
Proof.
  intros W R A. unfold chain_fk, chain_set_joint_dis_all in *. pose proof (peq_set_all joint_set_dis _ _ dis R) as R1.
  destruct (set_all joint_set_dis (c_links c) dis) as [h1|] eqn:Q1; [|discriminate]. destruct (set_all joint_set_dis (c_links d) dis) as [k1|] eqn:K1; [|contradiction R1]. cbn [orel option_map obind] in *.
  assert (W1 : well_formed h1) by (eapply wf_of_refs; [exact (set_all_same_refs _ _ _ _ Q1)|exact W]). assert (V1 : well_formed k1) by (eapply wf_of_refs; [exact (peq_all_refs _ _ R1)|exact W1]).
  unfold chain_update_fk, chain_update_frame, chain_lift, update_frame, c_fuel in *. cbn [c_links c_set_links] in *.
  pose proof (walk_down_peq upd_frame l_frame peq_frame peq_lframe (S (length h1)) h1 k1 0%nat fid R1) as R2. rewrite (Forall2_len _ _ _ R1) in R2 at 2.
  destruct (walk_down _ _ _ upd_frame l_frame (S (length h1)) h1 0 fid) as [h2|] eqn:Q2; [|discriminate]. destruct (walk_down _ _ _ upd_frame l_frame (S (length k1)) k1 0 fid) as [k2|] eqn:K2; [|contradiction R2]. cbn [orel option_map] in *.
  injection A as <-. eexists. split; [reflexivity|]. cbn [c_links chain_calc_com c_set_links]. split; [exact R2|].
  assert (UR : forall (l : lk) (p : frame F), same_refs l_parent l_child l_sibl l (upd_frame l p)) by (repeat split).
  destruct (down_own upd_frame l_frame k1 k2 fid (S (length k1)) UR) as (O & _ & V2); [reflexivity|exact V1|lia|exact K2|].
  destruct (down_own upd_frame l_frame h1 h2 fid (S (length h1)) UR) as (_ & _ & W2); [reflexivity|exact W1|lia|exact Q2|].
  split; [now rewrite O, (set_all_own _ _ _ _ K1)|]. split; assumption.
Qed.
Definition rates (g : F) (c : chain F) vel acc : option (chain F) := obind (chain_set_joint_rate_all c vel acc) (chain_update_rate g).
Lemma rates_peq g (c c1 d : chain F) vel acc : well_formed (c_links c) -> Forall2 peq (c_links c) (c_links d) -> rates g c vel acc = Some c1 ->
  exists d1, rates g d vel acc = Some d1 /\ Forall2 peq (c_links c1) (c_links d1) /\ map own (c_links d1) = map own (c_links d) /\ well_formed (c_links d1) /\ Forall moving (c_links d1).
Proof.
  intros W R A. unfold rates, chain_set_joint_rate_all in *. rewrite set_rate_all_split in *. pose proof (peq_set_all joint_set_vel _ _ vel R) as R0.
  destruct (set_all joint_set_vel (c_links c) vel) as [h0|] eqn:Q0; [|discriminate]. destruct (set_all joint_set_vel (c_links d) vel) as [k0|] eqn:K0; [|contradiction R0]. cbn [orel option_map obind] in *.
  pose proof (peq_set_all joint_set_acc _ _ acc R0) as R1. destruct (set_all joint_set_acc h0 acc) as [h1|] eqn:Q1; [|discriminate]. destruct (set_all joint_set_acc k0 acc) as [k1|] eqn:K1; [|contradiction R1]. cbn [orel option_map obind] in *.
  assert (W1 : well_formed h1) by (eapply wf_of_refs; [exact (set_all_same_refs _ _ _ _ Q1)|]; eapply wf_of_refs; [exact (set_all_same_refs _ _ _ _ Q0)|exact W]).
  assert (V1 : well_formed k1) by (eapply wf_of_refs; [exact (peq_all_refs _ _ R1)|exact W1]).
  unfold chain_update_rate, chain_lift, update_rate, c_fuel in *. cbn [c_links c_set_links] in *. set (par := fun l : lk => (l_vel l, l_acc l)) in *.
  pose proof (walk_down_peq upd_rate par peq_rate peq_par (S (length h1)) h1 k1 0%nat (v6zero, grav g) R1) as R2. rewrite (Forall2_len _ _ _ R1) in R2 at 2.
  destruct (walk_down _ _ _ upd_rate par (S (length h1)) h1 0 (v6zero, grav g)) as [h2|] eqn:Q2; [|discriminate]. destruct (walk_down _ _ _ upd_rate par (S (length k1)) k1 0 (v6zero, grav g)) as [k2|] eqn:K2; [|contradiction R2]. cbn [orel option_map] in *.
  injection A as <-. eexists. split; [reflexivity|]. cbn [c_links c_set_links]. split; [exact R2|].
  destruct (down_own upd_rate par k1 k2 (v6zero, grav g) (S (length k1))) as (O & M & V2); [repeat split|reflexivity|exact V1|lia|exact K2|].
  split; [now rewrite O, (set_all_own _ _ _ _ K1), (set_all_own _ _ _ _ K0)|]. split; [exact V2|]. apply Forall_forall. intros l Hl. destruct (M l Hl) as (l0 & p & ->). reflexivity.
Qed.

(** ** The wrench pass *)
Fixpoint lin (x y : F) (a b : list F) : list F := match a, b with p :: a', q :: b' => (x * p + y * q) :: lin x y a' b' | _, _ => [] end.
Definition v6lin (x y : F) (a b : vec6 F) : vec6 F := v6add (v6scale x a) (v6scale y b).
Lemma cons2 {A} (a b : A) l m : a = b -> l = m -> a :: l = b :: m. Proof. congruence. Qed.
Lemma trq_lin x y (j : joint F) w1 w2 : joint_get_trq (joint_calc_trq j (v6lin x y w1 w2)) = lin x y (joint_get_trq (joint_calc_trq j w1)) (joint_get_trq (joint_calc_trq j w2)).
Proof.
  unfold v6lin. destruct j; cbn [joint_calc_trq joint_get_trq lin]; try reflexivity.
  all: destruct w1 as [[? ? ?] [? ? ?]], w2 as [[? ? ?] [? ? ?]]; unfold joint_get_trq; cbn -[nmul nadd nopp nsub m3v m3v6].
  all: try (match goal with s : spher F |- _ => generalize (sp_att s); intros [[? ? ?] [? ? ?] [? ? ?]] | f : floatj F |- _ => generalize (fl_att f); intros [[? ? ?] [? ? ?] [? ? ?]] end).
  all: unfold l6, l3; vunfold; cbn -[nmul nadd nopp nsub]; repeat (apply cons2; [ring|]); reflexivity.
Qed.

Definition tri (x y : F) (d a e : lk) : Prop := peq a d /\ peq a e /\ moving d /\ moving a /\ moving e /\ mixed x y (own d) (own a) (own e).
(** What is common to the three links, and the wrench. *)
Definition moved_alike (a d : lk) : Prop := l_name d = l_name a /\ l_frame d = l_frame a /\ l_adj d = l_adj a /\ l_vel d = l_vel a /\ l_acc d = l_acc a /\ l_offset d = l_offset a /\ joint_size (l_joint d) = joint_size (l_joint a).
Definition summed (x y : F) (d a e : lk) : Prop := moved_alike a d /\ moved_alike a e /\ l_wrench d = v6lin x y (l_wrench a) (l_wrench e) /\
  joint_get_trq (l_joint d) = lin x y (joint_get_trq (l_joint a)) (joint_get_trq (l_joint e)).
Lemma post_alike a d cs cs' : peq a d -> moved_alike (wr_post (wr_pre a) cs) (wr_post (wr_pre d) cs').
Proof.
  intros S. split; [exact (eq_sym (f_equal l_name S))|]. split; [exact (eq_sym (f_equal l_frame S))|]. split; [exact (eq_sym (f_equal l_adj S))|]. split; [exact (eq_sym (f_equal l_vel S))|].
  split; [exact (eq_sym (f_equal l_acc S))|]. split; [exact (eq_sym (f_equal l_offset S))|]. unfold wr_post. cbn [l_joint l_set_joint l_set_wrench]. rewrite !calc_trq_size. exact (eq_sym (f_equal (fun l => joint_size (l_joint l)) S)).
Qed.
Definition at3 (R : lk -> lk -> lk -> Prop) (hd ha he : list lk) (i : nat) : Prop := exists d a e, nth_error hd i = Some d /\ nth_error ha i = Some a /\ nth_error he i = Some e /\ R d a e.
Lemma fold_summed x y hd ha he is : (forall i, In i is -> at3 (summed x y) hd ha he i) -> forall wd wa we, wd = v6lin x y wa we ->
  fold_left (fun w c => v6add w (xform6ang (l_adj c) (l_wrench c))) (pick hd is) wd =
  v6lin x y (fold_left (fun w c => v6add w (xform6ang (l_adj c) (l_wrench c))) (pick ha is) wa) (fold_left (fun w c => v6add w (xform6ang (l_adj c) (l_wrench c))) (pick he is) we).
Proof.
  induction is as [|i t IH]; intros H wd wa we Q; [exact Q|]. cbn [pick]. destruct (H i (or_introl eq_refl)) as (d & a & e & -> & -> & -> & SD & SE & W & _). cbn [fold_left]. apply IH; [intros; apply H; now right|].
  destruct SD as (_ & _ & -> & _), SE as (_ & _ & -> & _). rewrite Q, W. unfold v6lin. generalize (l_adj a) (l_wrench a) (l_wrench e). clear - L. vring.
Qed.
Lemma post_summed x y d a e cd ca ce hd ha he is : tri x y d a e -> cd = pick hd is -> ca = pick ha is -> ce = pick he is -> (forall i, In i is -> at3 (summed x y) hd ha he i) ->
  summed x y (wr_post (wr_pre d) cd) (wr_post (wr_pre a) ca) (wr_post (wr_pre e) ce).
Proof.
  intros (PD & PE & MD & MA & ME & X1 & X2 & X3 & X4) -> -> -> H. split; [now apply post_alike|]. split; [now apply post_alike|].
  assert (W : l_wrench (wr_post (wr_pre d) (pick hd is)) = v6lin x y (l_wrench (wr_post (wr_pre a) (pick ha is))) (l_wrench (wr_post (wr_pre e) (pick he is)))).
  { unfold wr_post. cbn [l_wrench l_set_joint l_set_wrench].
    rewrite (fold_summed x y hd ha he is H _ (l_wrench (wr_pre a)) (l_wrench (wr_pre e))).
    - change (body_ext_wrench (l_body (wr_pre d))) with (wl_net (snd (own d))). change (body_ext_wrench (l_body (wr_pre a))) with (wl_net (snd (own a))). change (body_ext_wrench (l_body (wr_pre e))) with (wl_net (snd (own e))). rewrite X4.
      generalize (wl_net (snd (own a))) (wl_net (snd (own e))). set (fa := fold_left _ _ (l_wrench (wr_pre a))). set (fe := fold_left _ _ (l_wrench (wr_pre e))). generalize fa fe. clear - L. unfold v6lin. vring.
    - rewrite !wrench_moments by assumption. rewrite <- (f_equal l_vel PD : l_vel a = l_vel d), <- (f_equal l_acc PD : l_acc a = l_acc d), <- (f_equal l_vel PE : l_vel a = l_vel e), <- (f_equal l_acc PE : l_acc a = l_acc e).
      apply wrench_linear; assumption. }
  split; [exact W|]. change (l_joint (wr_post (wr_pre d) (pick hd is))) with (joint_calc_trq (l_joint d) (l_wrench (wr_post (wr_pre d) (pick hd is)))).
  change (l_joint (wr_post (wr_pre a) (pick ha is))) with (joint_calc_trq (l_joint a) (l_wrench (wr_post (wr_pre a) (pick ha is)))).
  change (l_joint (wr_post (wr_pre e) (pick he is))) with (joint_calc_trq (l_joint e) (l_wrench (wr_post (wr_pre e) (pick he is)))).
  rewrite W, <- (f_equal l_joint PD : l_joint a = l_joint d), <- (f_equal l_joint PE : l_joint a = l_joint e). apply trq_lin.
Qed.
Lemma solved_summed x y hd ha he hd' ha' he' f : (forall i, In i (ids f) -> at3 (tri x y) hd ha he i) ->
  solved_up wr_pre wr_post hd hd' f -> solved_up wr_pre wr_post ha ha' f -> solved_up wr_pre wr_post he he' f -> forall i, In i (ids f) -> at3 (summed x y) hd' ha' he' i.
Proof.
  induction f as [|j k IHk r IHr]; intros T (d & D1 & D2 & D3 & D4) (a & A1 & A2 & A3 & A4) (e & E1 & E2 & E3 & E4) || intros T _ _ _ i []; cbn [ids] in *.
  assert (K : forall i, In i (ids k) -> at3 (summed x y) hd' ha' he' i) by (apply IHk; try assumption; intros; apply T; right; apply in_or_app; now left).
  intros i [<-|Hi].
  - destruct (T j (or_introl eq_refl)) as (d0 & a0 & e0 & Q1 & Q2 & Q3 & TR). replace d0 with d in * by congruence. replace a0 with a in * by congruence. replace e0 with e in * by congruence.
    do 3 eexists. split; [exact D2|]. split; [exact A2|]. split; [exact E2|]. eapply post_summed; [exact TR|reflexivity..|]. intros i Hi. apply K. now apply roots_ids.
  - apply in_app_or in Hi. destruct Hi as [Hi|Hi]; [now apply K|]. apply IHr; try assumption. intros; apply T; right; apply in_or_app; now right.
Qed.
Lemma wrench_summed x y (hd ha he : list lk) : well_formed ha -> length hd = length ha -> length he = length ha -> (forall i, (i < length ha)%nat -> at3 (tri x y) hd ha he i) ->
  exists hd' ha' he', update_wrench (S (length hd)) hd 0 = Some hd' /\ update_wrench (S (length ha)) ha 0 = Some ha' /\ update_wrench (S (length he)) he 0 = Some he' /\
    length hd' = length ha /\ length ha' = length ha /\ length he' = length ha /\ forall i, (i < length ha)%nat -> at3 (summed x y) hd' ha' he' i.
Proof.
  intros [t T] LD LE H.
  assert (TD : tree_of hd t) by (apply (well_formed_refs ha hd LD); [|exact T]; intros i a Ha; destruct (H i) as (d & a0 & e & Q1 & Q2 & Q3 & P & _); [apply nth_error_Some; congruence|]; replace a0 with a in * by congruence; exists d; split; [exact Q1|now apply peq_refs]).
  assert (TE : tree_of he t) by (apply (well_formed_refs ha he LE); [|exact T]; intros i a Ha; destruct (H i) as (d & a0 & e & Q1 & Q2 & Q3 & _ & P & _); [apply nth_error_Some; congruence|]; replace a0 with a in * by congruence; exists e; split; [exact Q3|now apply peq_refs]).
  destruct (walk_up_wf wr_pre wr_post hd (S (length hd))) as (hd' & D1 & D2 & D3 & _); [repeat split|repeat split|now exists t|lia|].
  destruct (walk_up_wf wr_pre wr_post ha (S (length ha))) as (ha' & A1 & A2 & A3 & _); [repeat split|repeat split|now exists t|lia|].
  destruct (walk_up_wf wr_pre wr_post he (S (length he))) as (he' & E1 & E2 & E3 & _); [repeat split|repeat split|now exists t|lia|].
  exists hd', ha', he'. do 3 (split; [assumption|]). split; [lia|]. split; [lia|]. split; [lia|]. intros i Hi.
  apply (solved_summed x y hd ha he hd' ha' he' (FCons 0 t FNil)); [|now apply D3|now apply A3|now apply E3|apply (tree_in _ _ _ T); exact Hi].
  intros j Hj. apply H. apply (tree_in _ _ _ T). exact Hj.
Qed.

(** ** Joint torques as a vector *)
Lemma lin_len x y a b : length a = length b -> length (lin x y a b) = length a.
Proof. revert b. induction a as [|p a IH]; intros [|q b] Q; try discriminate Q; [reflexivity|]. cbn. f_equal. apply IH. now injection Q. Qed.
Lemma lin_app x y a b a' b' : length a = length b -> lin x y (a ++ a') (b ++ b') = lin x y a b ++ lin x y a' b'.
Proof. revert b. induction a as [|p a IH]; intros [|q b] Q; try discriminate Q; [reflexivity|]. cbn. f_equal. apply IH. now injection Q. Qed.
Lemma lin_firstn x y n a b : firstn n (lin x y a b) = lin x y (firstn n a) (firstn n b).
Proof. revert a b. induction n as [|n IH]; intros [|p a] [|q b]; try reflexivity. cbn. f_equal. apply IH. Qed.
Lemma lin_skipn x y n a b : length a = length b -> skipn n (lin x y a b) = lin x y (skipn n a) (skipn n b).
Proof. revert a b. induction n as [|n IH]; intros [|p a] [|q b] Q; try discriminate Q; try reflexivity. cbn [skipn lin]. apply IH. now injection Q. Qed.
Lemma write_lin x y o t1 t2 v1 v2 r1 r2 : length t1 = length t2 -> length v1 = length v2 -> write_at o t1 v1 = Some r1 -> write_at o t2 v2 = Some r2 ->
  write_at o (lin x y t1 t2) (lin x y v1 v2) = Some (lin x y r1 r2) /\ length r1 = length r2.
Proof.
  intros LT LV. unfold write_at. rewrite !lin_len, <- LT, <- LV by assumption. destruct (Nat.leb_spec (o + length t1) (length v1)) as [Q|]; [|discriminate]. intros A B. injection A as <-. injection B as <-. split.
  - f_equal. rewrite lin_firstn, lin_skipn, !lin_app; try assumption; [reflexivity|]. rewrite !firstn_length. lia.
  - rewrite !app_length, !firstn_length, !skipn_length. lia.
Qed.
Lemma get_lin x y : forall hd ha he : list lk, length hd = length ha -> length he = length ha -> (forall i, (i < length ha)%nat -> at3 (summed x y) hd ha he i) ->
  forall va ve ta te, length va = length ve -> get_all joint_get_trq ha va = Some ta -> get_all joint_get_trq he ve = Some te -> get_all joint_get_trq hd (lin x y va ve) = Some (lin x y ta te).
Proof.
  induction hd as [|d hd IH]; intros [|a ha] [|e he] LD LE H va ve ta te LV A B; try discriminate LD; try discriminate LE; [cbn in *; congruence|].
  destruct (H 0%nat) as (d0 & a0 & e0 & Q1 & Q2 & Q3 & SD & SE & _ & TQ); [cbn; lia|]. cbn in Q1, Q2, Q3. injection Q1 as <-. injection Q2 as <-. injection Q3 as <-.
  cbn [get_all] in *. destruct SD as (_ & _ & _ & _ & _ & OD & _), SE as (_ & _ & _ & _ & _ & OE & JE). rewrite OD. rewrite OE in B. rewrite TQ.
  assert (IH' : forall va ve ta te, length va = length ve -> get_all joint_get_trq ha va = Some ta -> get_all joint_get_trq he ve = Some te -> get_all joint_get_trq hd (lin x y va ve) = Some (lin x y ta te)).
  { apply IH; [now injection LD|now injection LE|]. intros i Hi. apply (H (S i)). cbn; lia. }
  destruct (l_offset a) as [o|]; [|now apply IH'].
  destruct (write_at o (joint_get_trq (l_joint a)) va) as [ra|] eqn:WA; [|discriminate]. destruct (write_at o (joint_get_trq (l_joint e)) ve) as [re|] eqn:WE; [|discriminate]. cbn [obind] in *.
  destruct (write_lin x y o (joint_get_trq (l_joint a)) (joint_get_trq (l_joint e)) va ve ra re) as [-> LR]; try assumption; [rewrite !get_trq_len; now symmetry|]. cbn [obind]. now apply IH'.
Qed.

(** ** Theorems *)
Lemma at3_nth (R : lk -> lk -> lk -> Prop) hd ha he : length hd = length ha -> length he = length ha -> (forall i d a e, nth_error hd i = Some d -> nth_error ha i = Some a -> nth_error he i = Some e -> R d a e) ->
  forall i, (i < length ha)%nat -> at3 R hd ha he i.
Proof.
  intros LD LE H i Hi. destruct (nth_error hd i) as [d|] eqn:D; [|apply nth_error_None in D; lia]. destruct (nth_error ha i) as [a|] eqn:A; [|apply nth_error_None in A; lia]. destruct (nth_error he i) as [e|] eqn:E1; [|apply nth_error_None in E1; lia].
  exists d, a, e. repeat split; try assumption. eapply H; eassumption.
Qed.
Lemma id_split g (c : chain F) vel acc : chain_id g c vel acc = obind (rates g c vel acc) (fun c => option_map (fun c => chain_calc_comacc (chain_calc_comvel c)) (chain_update_wrench c)).
Proof. unfold chain_id, rates, chain_update_id. destruct (chain_set_joint_rate_all c vel acc); reflexivity. Qed.
Lemma peq_refl_all (h : list lk) : Forall2 peq h h. Proof. induction h; constructor; [reflexivity|assumption]. Qed.
Lemma peq_trans_all (h k m : list lk) : Forall2 peq h k -> Forall2 peq h m -> Forall2 peq k m.
Proof. intros R. revert m. induction R as [|a b h k S R IH]; intros m Q; inversion Q as [|x z ? ? S2 Q2]; subst; constructor; [unfold peq in *; congruence|auto]. Qed.
Theorem C109_linear : forall (x y g : F) (c c1 c2 : chain F) (ms ns : list (mp F * wlist F)) dis vel acc, well_formed (c_links c) -> length ms = length (c_links c) -> length ns = length (c_links c) ->
  (forall i l m n, nth_error (c_links c) i = Some l -> nth_error ms i = Some m -> nth_error ns i = Some n -> mixed x y m (own l) n) ->
  chain_fk c dis = Some c1 -> chain_id g c1 vel acc = Some c2 ->
  exists d1 d2 e1 e2, chain_fk (reload ms c) dis = Some d1 /\ chain_id g d1 vel acc = Some d2 /\ chain_fk (reload ns c) dis = Some e1 /\ chain_id g e1 vel acc = Some e2 /\
    length (c_links d2) = length (c_links c2) /\ length (c_links e2) = length (c_links c2) /\ (forall i, (i < length (c_links c2))%nat -> at3 (summed x y) (c_links d2) (c_links c2) (c_links e2) i) /\
    (forall va ve ta te, length va = length ve -> chain_get_joint_trq_all c2 va = Some ta -> chain_get_joint_trq_all e2 ve = Some te -> chain_get_joint_trq_all d2 (lin x y va ve) = Some (lin x y ta te)).
Proof.
  intros x y g c c1 c2 ms ns dis vel acc W LM LN MX A B.
  destruct (fk_peq c c1 (reload ms c) dis W (reload_peq ms _) A) as (d1 & D1 & RD & OD & W1 & WD). destruct (fk_peq c c1 (reload ns c) dis W (reload_peq ns _) A) as (e1 & E1 & RE & OE & _ & WE).
  destruct (fk_peq c c1 c dis W (peq_refl_all _) A) as (c1' & A' & _ & OC & _). rewrite A in A'. injection A' as <-. cbn [reload c_links c_set_links] in OD, OE. rewrite (reload_own ms _ LM) in OD. rewrite (reload_own ns _ LN) in OE.
  exists d1. rewrite id_split in B. destruct (rates g c1 vel acc) as [c3|] eqn:Q; [|discriminate]. cbn [obind] in B.
  destruct (rates_peq g c1 c3 d1 vel acc W1 RD Q) as (d3 & D3 & RD3 & OD3 & WD3 & MD). destruct (rates_peq g c1 c3 e1 vel acc W1 RE Q) as (e3 & E3 & RE3 & OE3 & WE3 & ME).
  destruct (rates_peq g c1 c3 c1 vel acc W1 (peq_refl_all _) Q) as (c3' & Q' & _ & OC3 & W3 & MC). rewrite Q in Q'. injection Q' as <-.
  assert (LD3 : length (c_links d3) = length (c_links c3)) by (symmetry; exact (Forall2_len _ _ _ RD3)). assert (LE3 : length (c_links e3) = length (c_links c3)) by (symmetry; exact (Forall2_len _ _ _ RE3)).
  assert (T : forall i, (i < length (c_links c3))%nat -> at3 (tri x y) (c_links d3) (c_links c3) (c_links e3) i).
  { apply at3_nth; [exact LD3|exact LE3|]. intros i d a e Hd Ha He. destruct (peq_nth _ _ i a RD3 Ha) as (d' & Hd' & PD). destruct (peq_nth _ _ i a RE3 Ha) as (e' & He' & PE).
    replace d' with d in * by congruence. replace e' with e in * by congruence. repeat split; try assumption.
    1: exact (proj1 (Forall_forall _ _) MD d (nth_error_In _ _ Hd)). 1: exact (proj1 (Forall_forall _ _) MC a (nth_error_In _ _ Ha)). 1: exact (proj1 (Forall_forall _ _) ME e (nth_error_In _ _ He)).
    all: pose proof (map_nth_error own _ _ Hd) as ND; rewrite OD3, OD in ND; pose proof (map_nth_error own _ _ He) as NE; rewrite OE3, OE in NE; pose proof (map_nth_error own _ _ Ha) as NA; rewrite OC3, OC in NA;
      rewrite nth_error_map in NA; destruct (nth_error (c_links c) i) as [l|] eqn:Hl; try discriminate NA; injection NA as NA; destruct (MX i l _ _ Hl ND NE) as (Y1 & Y2 & Y3 & Y4);
      assert (NA' : own l = own a) by (unfold own; congruence); rewrite NA' in *; assumption. }
  destruct (wrench_summed x y _ _ _ W3 LD3 LE3 T) as (hd & ha & he & UD & UA & UE & N1 & N2 & N3 & SM).
  unfold chain_update_wrench, chain_lift, c_fuel in B. rewrite UA in B. cbn [option_map] in B. injection B as <-.
  rewrite !id_split, D3. cbn [obind]. unfold chain_update_wrench at 1, chain_lift at 1, c_fuel at 1. rewrite UD. cbn [option_map]. eexists. exists e1. rewrite id_split, E3. cbn [obind]. unfold chain_update_wrench, chain_lift, c_fuel. rewrite UE. cbn [option_map]. eexists.
  split; [exact D1|]. split; [reflexivity|]. split; [exact E1|]. split; [reflexivity|]. cbn [c_links chain_calc_comacc chain_calc_comvel c_set_links]. split; [congruence|]. split; [congruence|]. split; [now rewrite N2|].
  intros va ve ta te LV GA GE. apply (get_lin x y hd ha he); try assumption; [congruence|congruence|now rewrite N2].
Qed.

(** A payload on every link, and the payload carried by the chain without its own masses and external forces. *)
Definition loaded (ps : list (mp F)) (c : chain F) : chain F := reload (map (fun x => (mp_combine (b_mp (l_body (snd x))) (fst x), b_extw (l_body (snd x)))) (combine ps (c_links c))) c.
Definition payload (ps : list (mp F)) (c : chain F) : chain F := reload (map (fun p => (p, [])) ps) c.
Fixpoint plus (a b : list F) : list F := match a, b with p :: a', q :: b' => (p + q) :: plus a' b' | _, _ => [] end.
Definition added (d a e : lk) : Prop := moved_alike a d /\ moved_alike a e /\ l_wrench d = v6add (l_wrench a) (l_wrench e).
Lemma lin_plus a b : lin 1 1 a b = plus a b.
Proof. revert b. induction a as [|p a IH]; intros [|q b]; try reflexivity. cbn [lin plus]. rewrite IH. f_equal. ring. Qed.
Lemma nth_combine {A B} (l : list A) (m : list B) i a b : nth_error l i = Some a -> nth_error m i = Some b -> nth_error (combine l m) i = Some (a, b).
Proof. revert m i. induction l as [|x l IH]; intros [|z m] [|i] H K; try discriminate H; try discriminate K; cbn in *; [congruence|now apply IH]. Qed.
Theorem C109_payload : forall (g : F) (c c1 c2 : chain F) (ps : list (mp F)) dis vel acc, well_formed (c_links c) -> length ps = length (c_links c) ->
  (forall i l p, nth_error (c_links c) i = Some l -> nth_error ps i = Some p -> l_mass l + mp_mass p <> 0) ->
  chain_fk c dis = Some c1 -> chain_id g c1 vel acc = Some c2 ->
  exists d1 d2 e1 e2, chain_fk (loaded ps c) dis = Some d1 /\ chain_id g d1 vel acc = Some d2 /\ chain_fk (payload ps c) dis = Some e1 /\ chain_id g e1 vel acc = Some e2 /\
    (forall i, (i < length (c_links c2))%nat -> at3 added (c_links d2) (c_links c2) (c_links e2) i) /\
    (forall va ve ta te, length va = length ve -> chain_get_joint_trq_all c2 va = Some ta -> chain_get_joint_trq_all e2 ve = Some te -> chain_get_joint_trq_all d2 (plus va ve) = Some (plus ta te)).
Proof.
  intros g c c1 c2 ps dis vel acc W LP NZ A B. assert (LC : length (combine ps (c_links c)) = length (c_links c)) by (rewrite combine_length; lia).
  destruct (C109_linear 1 1 g c c1 c2 (map (fun x => (mp_combine (b_mp (l_body (snd x))) (fst x), b_extw (l_body (snd x)))) (combine ps (c_links c))) (map (fun p => (p, [])) ps) dis vel acc W) as (d1 & d2 & e1 & e2 & D1 & D2 & E1 & E2 & _ & _ & SM & TQ);
    [now rewrite map_length|now rewrite map_length| |exact A|exact B|].
  - intros i l m n Hl Hm Hn. rewrite nth_error_map in Hn. destruct (nth_error ps i) as [p|] eqn:Hp; [|discriminate]. injection Hn as <-. rewrite (map_nth_error _ _ _ (nth_combine _ _ _ _ _ Hp Hl)) in Hm. injection Hm as <-. cbn [fst snd own].
    destruct (C18_combine_conserves (b_mp (l_body l)) p (NZ i l p Hl Hp)) as (Q1 & Q2 & Q3). split; [|split; [|split]]; cbn [fst snd own].
    + rewrite Q1. ring.
    + rewrite Q2. generalize (v3scale (mp_mass (b_mp (l_body l))) (mp_com (b_mp (l_body l)))) (v3scale (mp_mass p) (mp_com p)). clear - L. vring.
    + rewrite Q3. generalize (mp_org_inertia (b_mp (l_body l))) (mp_org_inertia p). clear - L. vring.
    + cbn [wl_net]. change (wl_net []) with (v6zero : vec6 F). generalize (wl_net (b_extw (l_body l))). clear - L. vring.
  - exists d1, d2, e1, e2. do 4 (split; [assumption|]). split.
    + intros i Hi. destruct (SM i Hi) as (d & a & e & H1 & H2 & H3 & S1 & S2 & S3 & _). exists d, a, e. repeat (split; [assumption|]). rewrite S3. unfold v6lin. clear - L. generalize (l_wrench a) (l_wrench e). vring.
    + intros va ve ta te LV GA GE. specialize (TQ va ve ta te LV GA GE). now rewrite !lin_plus in TQ.
Qed.
(** All masses and inertias multiplied by [k]. *)
Definition heavier (k : F) (c : chain F) : chain F := reload (map (fun l => let m := b_mp (l_body l) in (MP (k * mp_mass m) (mp_com m) (m3scale k (mp_inertia m)), [])) (c_links c)) c.
Lemma lin_scale k a b : length a = length b -> lin k 0 a b = map (nmul k) a.
Proof. revert b. induction a as [|p a IH]; intros [|q b] Q; try discriminate Q; [reflexivity|]. cbn [lin map]. rewrite IH by now injection Q. f_equal. ring. Qed.
Lemma get_all_len get (h : list lk) v t : get_all get h v = Some t -> length t = length v.
Proof.
  revert v t. induction h as [|l h IH]; intros v t A; cbn [get_all] in A; [now injection A as <-|]. destruct (l_offset l) as [o|]; [|now apply IH]. destruct (write_at o (get (l_joint l)) v) as [w|] eqn:Q; [|discriminate]. cbn [obind] in A. rewrite (IH _ _ A).
  unfold write_at in Q. destruct (Nat.leb_spec (o + length (get (l_joint l))) (length v)); [|discriminate]. injection Q as <-. rewrite !app_length, firstn_length, skipn_length. lia.
Qed.
Lemma reload_same h : reload_all (map own h) h = h.
Proof. induction h as [|l h IH]; [reflexivity|]. cbn [map reload_all]. rewrite IH. f_equal. destruct l as [? ? [] ? ? ? ? ? ? ?]. reflexivity. Qed.
Theorem C109_scaled : forall (k g : F) (c c1 c2 : chain F) dis vel acc, well_formed (c_links c) -> Forall (fun l => b_extw (l_body l) = []) (c_links c) ->
  chain_fk c dis = Some c1 -> chain_id g c1 vel acc = Some c2 ->
  exists d1 d2, chain_fk (heavier k c) dis = Some d1 /\ chain_id g d1 vel acc = Some d2 /\
    (forall i a, nth_error (c_links c2) i = Some a -> exists d, nth_error (c_links d2) i = Some d /\ moved_alike a d /\ l_wrench d = v6scale k (l_wrench a)) /\
    (forall v t, chain_get_joint_trq_all c2 v = Some t -> chain_get_joint_trq_all d2 (map (nmul k) v) = Some (map (nmul k) t)).
Proof.
  intros k g c c1 c2 dis vel acc W NE A B.
  destruct (C109_linear k 0 g c c1 c2 (map (fun l => let m := b_mp (l_body l) in (MP (k * mp_mass m) (mp_com m) (m3scale k (mp_inertia m)), [])) (c_links c)) (map own (c_links c)) dis vel acc W) as (d1 & d2 & e1 & e2 & D1 & D2 & E1 & E2 & _ & _ & SM & TQ);
    [now rewrite map_length|now rewrite map_length| |exact A|exact B|].
  - intros i l m n Hl Hm Hn. rewrite (map_nth_error _ _ _ Hl) in Hm. rewrite (map_nth_error _ _ _ Hl) in Hn. injection Hm as <-. injection Hn as <-. pose proof (proj1 (Forall_forall _ _) NE l (nth_error_In _ _ Hl)) as EX. cbv beta in EX. cbv zeta. unfold own. rewrite EX.
    split; [|split; [|split]]; cbn [fst snd mp_mass mp_com mp_inertia].
    + ring.
    + generalize (b_mp (l_body l)). clear - L. intros [m c0 J]. cbn [mp_mass mp_com]. vring.
    + unfold mp_org_inertia. cbn [mp_inertia mp_mass mp_com]. rewrite !shift_inertia_spec. unfold point_inertia. generalize (b_mp (l_body l)). clear - L. intros [m c0 J]. cbn [mp_mass mp_com mp_inertia]. vring.
    + change (wl_net []) with (v6zero : vec6 F). clear - L. vring.
  - assert (EE : e1 = c1 /\ e2 = c2). { assert (RS : reload (map own (c_links c)) c = c) by (unfold reload; rewrite reload_same; destruct c; reflexivity). rewrite RS in E1. assert (Q : e1 = c1) by congruence. rewrite Q in *. split; [reflexivity|congruence]. }
    destruct EE as [-> ->]. exists d1, d2. split; [assumption|]. split; [assumption|]. split.
    + intros i a Ha. destruct (SM i) as (d & a0 & e & H1 & H2 & H3 & S1 & _ & S3 & _); [apply nth_error_Some; congruence|]. replace a0 with a in * by congruence. replace e with a in * by congruence. exists d. split; [exact H1|]. split; [exact S1|]. rewrite S3. unfold v6lin. clear - L. generalize (l_wrench a). vring.
    + intros v t G. specialize (TQ v v t t eq_refl G G). rewrite !lin_scale in TQ by reflexivity. exact TQ.
Qed.
End Payload.

(** ** Concrete cases *)
Definition box (m : Z) (x y z : Z) : mp Qc := MP (qz m) (V3 (qz x) (qz y) (qz z)) (M3 (V3 (qz m) (qz 0) (qz 0)) (V3 (qz 0) (qz m) (qz 0)) (V3 (qz 0) (qz 0) (qz m))).
Definition boxes : list (mp Qc) := [box 0 0 0 0; box 1 1 0 0; box 0 0 0 0; box 1 0 0 1; box 2 0 1 (-1)].
Lemma mech_boxes : well_formed (c_links mech) /\ length boxes = length (c_links mech) /\ (forall i l p, nth_error (c_links mech) i = Some l -> nth_error boxes i = Some p -> (l_mass l + mp_mass p)%num <> 0%num) /\ Forall (fun l => b_extw (l_body l) = []) (c_links mech).
Proof.
  split; [exact (proj1 (proj1 mech_usable))|]. split; [reflexivity|]. split; [|repeat constructor].
  intros i l p Hl Hp Q. assert (T : map (fun x => this (fst x + snd x)%Qc) (combine (map l_mass (c_links mech)) (map mp_mass boxes)) = [3; 2; 2; 1; 3]%Q) by (vm_compute; reflexivity).
  apply (f_equal (fun h => nth_error h i)) in T. rewrite nth_error_map, (nth_combine _ _ i (l_mass l) (mp_mass p)) in T by (now apply map_nth_error). cbn [option_map fst snd] in T. change (l_mass l + mp_mass p)%Qc with (l_mass l + mp_mass p)%num in T. rewrite Q in T.
  do 5 (destruct i as [|i]; [discriminate T|]). destruct i; discriminate T.
Qed.
(** Torques [15; 20; 5; 88; ...] of [mech] itself are in [C105_ex]. *)
Example C109_ex_payload : exists c, full (payload boxes mech) = Some c /\ [trq_of c] = zq [[5; -3; 2; 10; -6; -3; 7; 0; 0; 4; 0; 6]]%Z.
Proof. apply (some_exq _ (fun c => [trq_of c])). vm_compute. reflexivity. Qed.
Example C109_ex_loaded : exists c, full (loaded boxes mech) = Some c /\ [trq_of c] = zq [[20; 17; 7; 98; -11; 29; 34; -22; 0; 4; -3; 16]]%Z.
Proof. apply (some_exq _ (fun c => [trq_of c])). vm_compute. reflexivity. Qed.
Example C109_ex_heavier : exists c, full (heavier (qz 3) mech) = Some c /\ [trq_of c] = zq [[45; 60; 15; 264; -15; 96; 81; -66; 0; 0; -9; 30]]%Z.
Proof. apply (some_exq _ (fun c => [trq_of c])). vm_compute. reflexivity. Qed.
(** The chain and the boxes meet the hypotheses. *)
Example C109_ex_theorem c1 c2 : chain_fk mech mdis = Some c1 -> chain_id (qz 10) c1 mvel macc = Some c2 ->
  (exists d1 d2, chain_fk (loaded boxes mech) mdis = Some d1 /\ chain_id (qz 10) d1 mvel macc = Some d2) /\ (exists d1 d2, chain_fk (heavier (qz 3) mech) mdis = Some d1 /\ chain_id (qz 10) d1 mvel macc = Some d2).
Proof.
  intros A B. destruct mech_boxes as (W & LP & NZ & NE). split.
  - destruct (C109_payload (qz 10) mech c1 c2 boxes mdis mvel macc W LP NZ A B) as (d1 & d2 & _ & _ & D1 & D2 & _). exists d1, d2. exact (conj D1 D2).
  - destruct (C109_scaled (qz 3) (qz 10) mech c1 c2 mdis mvel macc W NE A B) as (d1 & d2 & D1 & D2 & _). exists d1, d2. exact (conj D1 D2).
Qed.

Print Assumptions C109_linear.
Print Assumptions C109_payload.
Print Assumptions C109_scaled.
