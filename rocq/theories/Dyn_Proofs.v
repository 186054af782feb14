(** * Dyn_Proofs: inverse dynamics. *)
From Coq Require Import List Arith Lia Permutation Field.
From Verif Require Import Num NumFacts Vec VecFacts Motor_Model Joint_Model Joint_Spec Joint_Proofs Body_Model Body_Proofs
  Tree Tree_Proofs Link_Model Link_Spec Link_Proofs Chain_Proofs Link_Properties Chain_Properties Kin_Spec Kin_Proofs Jacobi_Model Jacobi_Proofs Dyn_Spec.
Import ListNotations.
Local Open Scope nat_scope.

Section D.
Context {F : Type} {N : Num F} {L : NumLaws F N} {E : Ext F}.
Add Field FField : num_field.
Local Open Scope num_scope.
Notation lk := (link F).

(** ** Sums over a forest *)
Section Forest.
Variables (W V O : nat -> vec6 F) (X : nat -> frame F) (pr : nat -> F).
Fixpoint weqs (f : forest) : Prop :=
  match f with
  | FNil => True
  | FCons i k r => W i = v6add (O i) (v6sum (map (fun c => xform6ang (X c) (W c)) (roots k))) /\ weqs k /\ weqs r
  end.
Fixpoint veqs (pv : vec6 F) (f : forest) : Prop :=
  match f with
  | FNil => True
  | FCons i k r => pr i = v6dot (W i) (v6sub (V i) (xform6lin (X i) pv)) /\ veqs (V i) k /\ veqs pv r
  end.
Lemma power_forest f : forall pv, weqs f -> veqs pv f ->
  nsum (map pr (ids f)) =
  nsum (map (fun i => v6dot (O i) (V i)) (ids f)) - v6dot (v6sum (map (fun c => xform6ang (X c) (W c)) (roots f))) pv.
Proof.
  induction f as [|i k IHk r IHr]; intros pv A B.
  - cbn [ids map roots]. unfold v6sum, nsum. cbn [fold_right]. rewrite v6dot_0_l. ring.
  - destruct A as (A0 & A1 & A2), B as (B0 & B1 & B2). cbn [ids roots map].
    change (nsum (?a :: ?l)) with (a + nsum l). change (v6sum (?a :: ?l)) with (v6add a (v6sum l)).
    rewrite !map_app, !nsum_app, (IHk _ A1 B1), (IHr _ A2 B2), B0, v6dot_sub_r, v6dot_add_l.
    rewrite (v6dot_comm (W i) (xform6lin (X i) pv)), xform6_power, (v6dot_comm pv).
    rewrite A0 at 1. rewrite v6dot_add_l. ring.
Qed.
End Forest.
Section Forest2.
Variables (G O : nat -> vec6 F).
Fixpoint geqs (f : forest) : Prop :=
  match f with
  | FNil => True
  | FCons i k r => G i = v6add (O i) (v6sum (map G (roots k))) /\ geqs k /\ geqs r
  end.
Lemma wrench_forest f : geqs f -> v6sum (map G (roots f)) = v6sum (map O (ids f)).
Proof.
  induction f as [|i k IHk r IHr]; intros A; [reflexivity|].
  destruct A as (A0 & A1 & A2). cbn [ids roots map]. change (v6sum (?a :: ?l)) with (v6add a (v6sum l)).
  rewrite map_app, v6sum_app, A0, IHk, IHr by assumption. now rewrite <- !v6add_assoc.
Qed.
End Forest2.
Lemma nsum_perm (l m : list F) : Permutation l m -> nsum l = nsum m.
Proof. induction 1; unfold nsum in *; cbn [fold_right]; [reflexivity | congruence | ring | congruence]. Qed.

(** ** The wrench pass *)
Definition own (l : lk) : vec6 F := v6sub (v6angshift (body_net_wrench (l_body l)) (l_com l)) (body_ext_wrench (l_body l)).
Lemma fold_wr (cs : list lk) : forall w, fold_left (fun w c => v6add w (xform6ang (l_adj c) (l_wrench c))) cs w =
  v6add w (v6sum (map (fun c => xform6ang (l_adj c) (l_wrench c)) cs)).
Proof.
  induction cs as [|a cs IH]; intros w; cbn [fold_left map].
  - unfold v6sum; cbn. now rewrite v6add_0_r.
  - rewrite IH. change (v6sum (?a :: ?l)) with (v6add a (v6sum l)). now rewrite v6add_assoc.
Qed.
Lemma wr_post_wrench (l : lk) cs : l_wrench (wr_post (wr_pre l) cs) = v6add (own l) (v6sum (map (fun c => xform6ang (l_adj c) (l_wrench c)) cs)).
Proof.
  unfold wr_post. cbn [l_wrench l_set_joint l_set_wrench l_body wr_pre]. rewrite fold_wr. unfold own.
  generalize (body_ext_wrench (l_body l)) (v6angshift (body_net_wrench (l_body l)) (l_com l))
    (v6sum (map (fun c => xform6ang (l_adj c) (l_wrench c)) cs)). intros. vring.
Qed.
Lemma own_power (l : lk) v : v6dot (own l) v = virtual_power l v.
Proof.
  unfold own, virtual_power. rewrite v6dot_sub_l.
  assert (P : v6dot (body_ext_wrench (l_body l)) v = nsum (map (fun c => v3dot (vlin (wr_w c)) (v3add (vlin v) (v3cross (vang v) (wr_p c))) + v3dot (vang (wr_w c)) (vang v)) (b_extw (l_body l)))).
  { unfold body_ext_wrench. rewrite v6dot_comm, wl_net_power. f_equal. apply map_ext. intros c. unfold point_power.
    destruct c as [w p]; cbn [wr_w wr_p]. unfold v6linshift. clear -L. vring. }
  rewrite P. f_equal. unfold body_net_wrench, l_mass, l_com, l_vel, l_acc.
  destruct (l_body l) as [mp fr ve ac wc cv ca ew sh st]; cbn. destruct mp as [m co I]; cbn.
  unfold v6angshift. clear -L. vring.
Qed.

Definition at6 (h : list lk) (f : lk -> vec6 F) (i : nat) : vec6 F := match nth_error h i with Some l => f l | None => v6zero end.
Definition atf (h : list lk) (i : nat) : frame F := match nth_error h i with Some l => l_adj l | None => fid end.
Definition atn (h : list lk) (f : lk -> F) (i : nat) : F := match nth_error h i with Some l => f l | None => 0 end.
Lemma map_atn (h : list lk) f : map (atn h f) (seq 0 (length h)) = map f h.
Proof.
  assert (G : forall h pre, map (atn (pre ++ h) f) (seq (length pre) (length h)) = map f h).
  { clear h. induction h as [|a h IH]; intros pre; [reflexivity|]. cbn [length seq map]. f_equal.
    - unfold atn. rewrite nth_error_app2, Nat.sub_diag by lia. reflexivity.
    - specialize (IH (pre ++ [a])). rewrite <- app_assoc in IH. cbn [app] in IH. rewrite app_length in IH. cbn in IH.
      replace (length pre + 1)%nat with (S (length pre)) in IH by lia. exact IH. }
  exact (G h []).
Qed.

(** ** Torques times virtual joint velocities *)
Definition off (l : lk) : nat := match l_offset l with Some o => o | None => 0%nat end.
Lemma dotl_nil_l (v : list F) : dotl [] v = 0. Proof. reflexivity. Qed.
Lemma dotl_app (a b v : list F) : dotl (a ++ b) v = dotl a v + dotl b (skipn (length a) v).
Proof.
  revert v. induction a as [|x a IH]; intros v; cbn [app length skipn dotl]; [ring|].
  destruct v as [|y v]; cbn [skipn]; [destruct b; cbn; ring|]. rewrite IH. ring.
Qed.
Lemma dot_flat (get : joint F -> list F) (h : list lk) : (forall j, length (get j) = joint_size j) -> forall s v, placed s h ->
  dotl (flat_map (fun l => get (l_joint l)) h) (skipn s v) = nsum (map (fun l => dotl (get (l_joint l)) (skipn (off l) v)) h).
Proof.
  intros GL. induction h as [|l t IH]; intros s v P; [reflexivity|]. apply placed_cons in P as [A B].
  cbn [flat_map map]. change (nsum (?a :: ?l)) with (a + nsum l). rewrite dotl_app, GL. fold (lsize l).
  rewrite skipn_skipn, (Nat.add_comm (lsize l) s), (IH _ v B). f_equal. unfold off. rewrite A.
  destruct (Nat.ltb_spec 0 (lsize l)); [reflexivity|].
  assert (get (l_joint l) = []) as ->; [|now rewrite !dotl_nil_l].
  pose proof (GL (l_joint l)) as G. unfold lsize in H. destruct (get (l_joint l)); [reflexivity|cbn in G; lia].
Qed.
Lemma size0_joint (j : joint F) : joint_size j = 0%nat -> j = JFixed.
Proof. destruct j; cbn; intros; try discriminate. reflexivity. Qed.
Lemma joint_pair u (l lu : lk) w p : set_rel joint_set_vel u l lu -> (l_offset l = None -> lsize l = 0%nat) ->
  dotl (joint_get_trq (joint_calc_trq (l_joint l) w)) (skipn (off l) u) = v6dot w (v6sub (joint_inc_vel (l_joint lu) p) p).
Proof.
  unfold set_rel, off. destruct (l_offset l) as [o|].
  - intros (j & J & ->) _. cbn [l_joint l_set_joint]. now apply trq_dual_vel.
  - intros -> Z. specialize (Z eq_refl). apply size0_joint in Z. rewrite Z. apply trq_dual_vel. reflexivity.
Qed.
Lemma get_trq_len (j : joint F) : length (joint_get_trq j) = joint_size j. Proof. apply get_gen_length. Qed.
Lemma calc_trq_size (j : joint F) w : joint_size (joint_calc_trq j w) = joint_size j. Proof. destruct j; reflexivity. Qed.

Lemma rep_children (h : list lk) p o i k r : lrep h p o (FCons i k r) -> NoDup (ids (FCons i k r)) -> children h i = Some (roots k).
Proof.
  intros R ND. destruct R as (_ & l & Hl & _ & Rk & _). unfold children. rewrite Hl.
  apply chain_from_rep with (p := Some i); [exact Rk|]. eapply rep_size; [exact Rk|].
  destruct (nodup_split _ _ _ _ eq_refl ND) as (? & ? & ?). tauto.
Qed.

Lemma forall2_map {A} (hw : list lk) (f : nat -> A) (g : lk -> A) cs ls : (forall c l, nth_error hw c = Some l -> f c = g l) ->
  Forall2 (fun c lc => nth_error hw c = Some lc) cs ls -> map f cs = map g ls.
Proof. intros H. induction 1; cbn; [reflexivity|]. f_equal; auto. Qed.
Lemma up_weqs (hr hw : list lk) : processed_up wr_pre wr_post hr hw -> forall f p o, lrep hr p o f -> NoDup (ids f) ->
  weqs (at6 hw l_wrench) (at6 hw own) (atf hw) f.
Proof.
  intros [LE U]. induction f as [|i k IHk r IHr]; intros p o R ND; [exact I|].
  pose proof (rep_children _ _ _ _ _ _ R ND) as C. destruct (nodup_split _ _ _ _ eq_refl ND) as (_ & _ & Nk & Nr & _).
  destruct R as (_ & l & Hl & _ & Rk & Rr). cbn [weqs]. split; [|split; [eapply IHk; eauto|eapply IHr; eauto]].
  destruct (U i l Hl) as (cs & ls & C' & FA & Hi). assert (cs = roots k) by congruence. subst cs.
  unfold at6 at 1 2. rewrite Hi, wr_post_wrench. f_equal.
  f_equal. symmetry. apply (forall2_map hw); [|exact FA]. intros c lc H. unfold atf, at6. now rewrite H.
Qed.

(** The state of inverse dynamics beside a virtual motion, link by link. *)
Definition beside (pr : lk -> F) (hw hv : list lk) : Prop := length hv = length hw /\
    forall i lw, nth_error hw i = Some lw -> exists lv pv, nth_error hv i = Some lv /\
    (match l_parent lw with None => pv = v6zero | Some q => exists lq, nth_error hv q = Some lq /\ pv = l_vel lq end) /\
    pr lw = v6dot (l_wrench lw) (v6sub (l_vel lv) (xform6lin (l_adj lw) pv)).
Lemma down_veqs pr (hw hv : list lk) : beside pr hw hv -> forall f p o pv, lrep hw p o f ->
  (match p with None => pv = v6zero | Some q => pv = at6 hv l_vel q end) ->
  veqs (at6 hw l_wrench) (at6 hv l_vel) (atf hw) (atn hw pr) pv f.
Proof.
  intros [LE B]. induction f as [|i k IHk r IHr]; intros p o pv R P; [exact I|].
  destruct R as (_ & l & Hl & Hp & Rk & Rr). cbn [veqs]. split; [|split; [eapply IHk; [exact Rk|reflexivity]|eapply IHr; eauto]].
  destruct (B i l Hl) as (lv & pv' & Hv & Q & D). unfold atn, at6, atf. rewrite Hl, Hv, D. do 3 f_equal.
  rewrite Hp in Q. destruct p as [q|]; [|congruence]. destruct Q as (lq & Hq & ->). rewrite P. unfold at6. now rewrite Hq.
Qed.
Lemma nsum_combine (h hv : list lk) : length hv = length h ->
  total_power h hv = nsum (map (fun i => v6dot (at6 h own i) (at6 hv l_vel i)) (seq 0 (length h))).
Proof.
  unfold total_power. intros LE. f_equal.
  assert (G : forall h hv pre prv, length hv = length h -> length prv = length pre ->
    map (fun p => virtual_power (fst p) (l_vel (snd p))) (combine h hv) =
    map (fun i => v6dot (at6 (pre ++ h) own i) (at6 (prv ++ hv) l_vel i)) (seq (length pre) (length h))).
  { clear h hv LE. induction h as [|a h IH]; intros [|b hv] pre prv LE LP; cbn in LE; try discriminate; [reflexivity|].
    cbn [combine map length seq fst snd]. f_equal.
    - unfold at6. rewrite nth_error_app2, Nat.sub_diag by lia. rewrite nth_error_app2 by lia. rewrite LP, Nat.sub_diag. cbn. symmetry; apply own_power.
    - specialize (IH hv (pre ++ [a]) (prv ++ [b])). rewrite <- !app_assoc, !app_length in IH. cbn [app length] in IH.
      replace (length pre + 1)%nat with (S (length pre)) in IH by lia. apply IH; lia. }
  exact (G h hv [] [] LE eq_refl).
Qed.
Lemma power_balance pr (hr hw hv : list lk) : well_formed hr -> Forall2 (same_refs l_parent l_child l_sibl) hr hw ->
  processed_up wr_pre wr_post hr hw -> beside pr hw hv ->
  nsum (map pr hw) = total_power hw hv.
Proof.
  intros [k T] SR U B. assert (T2 : tree_of hw k).
  { eapply well_formed_refs; [symmetry; eapply Forall2_len; eauto| |exact T]. intros i l Hl. exact (Forall2_nth _ _ _ SR i l Hl). }
  assert (PM : Permutation (seq 0 (length hw)) (ids (FCons 0 k FNil))) by (symmetry; apply T2).
  pose proof (tree_nodup _ _ T) as ND.
  pose proof (power_forest _ _ _ _ _ _ v6zero (up_weqs _ _ U _ _ _ (proj1 T) ND) (down_veqs _ _ _ B _ _ _ v6zero (proj1 T2) eq_refl)) as PF.
  rewrite v6dot_0_r in PF. rewrite (nsum_combine hw hv (proj1 B)).
  rewrite <- map_atn. rewrite (nsum_perm _ _ (Permutation_map _ PM)), PF, (nsum_perm _ _ (Permutation_map _ PM)).
  match goal with |- ?a - 0 = _ => transitivity a; [ring|reflexivity] end.
Qed.

Lemma id_split g (c c' : chain F) : well_formed (c_links c) -> chain_update_id g c = Some c' ->
  exists hr, well_formed hr /\ processed_down upd_rate (fun l => (l_vel l, l_acc l)) (v6zero, grav g) (c_links c) hr /\
    processed_up wr_pre wr_post hr (c_links c') /\ Forall2 (same_refs l_parent l_child l_sibl) hr (c_links c').
Proof.
  intros W H. destruct (C24_rate_pass g c W) as (c1 & H1 & D1 & W1). unfold chain_update_id, obind in H. rewrite H1 in H.
  destruct (C24_wrench_pass _ W1) as (c2 & H2 & U2 & W2). rewrite H2 in H. exists (c_links c1).
  assert (c_links c' = c_links c2) as -> by (injection H as <-; reflexivity).
  do 3 (split; [assumption|]). apply forall2_nth_eq; [symmetry; apply U2|]. intros i a Ha.
  destruct (proj2 U2 i a Ha) as (cs & ls & _ & _ & X). eexists. split; [exact X|]. repeat split.
Qed.
Lemma id_power g (c c' cu cv : chain F) u : well_formed (c_links c) -> placed 0 (c_links c) -> total (c_links c) = length u ->
  chain_update_id g c = Some c' -> chain_set_joint_vel_all c u = Some cu -> chain_update_vel cu = Some cv ->
  nsum (map (fun l => dotl (joint_get_trq (l_joint l)) (skipn (off l) u)) (c_links c')) = total_power (c_links c') (c_links cv).
Proof.
  intros W PL TU H SU UV. destruct (id_split _ _ _ W H) as (hr & Wr & DR & UP & SR).
  apply (power_balance (fun l => dotl (joint_get_trq (l_joint l)) (skipn (off l) u)) hr); [exact Wr|exact SR|exact UP|].
  unfold chain_set_joint_vel_all in SU.
  destruct (set_all_spec joint_set_vel u (c_links c) 0 set_vel_ok PL) as (hu & A1 & R1); [lia|]. rewrite A1 in SU. cbn in SU. injection SU as <-.
  assert (Wu : well_formed (c_links (c_set_links hu c))).
  { apply (wf_of_refs (c_links c)); [|exact W]. cbn. clear -R1. induction R1; constructor; auto.
    unfold set_rel in H. destruct (l_offset x); [destruct H as (? & _ & ->)|subst]; repeat split. }
  destruct (C24_vel_pass _ Wu) as (cv' & H2 & D2 & _). rewrite H2 in UV. injection UV as ->.
  cbn [c_links c_set_links] in D2.
  assert (LU : length hu = length (c_links c)) by (symmetry; eapply Forall2_len; eauto).
  assert (LW : length (c_links c') = length (c_links c)) by (rewrite (proj1 UP); apply DR).
  split; [rewrite (proj1 D2); lia|]. intros i lw Hw.
  destruct (nth_error (c_links c) i) as [l|] eqn:Hl. 2:{ apply nth_error_None in Hl. apply nth_lt in Hw. lia. }
  destruct (proj2 DR i l Hl) as (p & Hr & _). destruct (proj2 UP i _ Hr) as (cs & ls & _ & _ & Hw'). assert (lw = wr_post (wr_pre (upd_rate l p)) ls) by congruence. subst lw.
  destruct (Forall2_nth _ _ _ R1 i l Hl) as (lu & Hlu & SRl).
  destruct (proj2 D2 i lu Hlu) as (pv & Hv & Q). exists (upd_vel lu pv), pv. split; [exact Hv|]. split.
  - assert (l_parent lu = l_parent l) as PE. { unfold set_rel in SRl. destruct (l_offset l); [destruct SRl as (? & _ & ->)|subst]; reflexivity. }
    rewrite PE in Q. cbn. destruct (l_parent l); [exact Q|apply Q].
  - assert (l_adj lu = l_adj l) as AE. { unfold set_rel in SRl. destruct (l_offset l); [destruct SRl as (? & _ & ->)|subst]; reflexivity. }
    unfold wr_post at 1. cbn [l_joint l_set_joint l_wrench].
    change (l_joint (wr_pre (upd_rate l p))) with (l_joint l). change (off (wr_post (wr_pre (upd_rate l p)) ls)) with (off l).
    change (l_adj (wr_post (wr_pre (upd_rate l p)) ls)) with (l_adj l).
    rewrite (joint_pair u l lu _ (xform6lin (l_adj l) pv) SRl).
    + unfold upd_vel, l_vel, body_update_comvel, b_set_vel. cbn. rewrite AE. reflexivity.
    + intros ON. rewrite (placed_nth 0 _ i l PL Hl) in ON. destruct (Nat.ltb_spec 0 (lsize l)); [discriminate|lia].
Qed.

(** The work along the motion the links are in. *)
Lemma calc_trq_vel (j : joint F) w : joint_get_vel (joint_calc_trq j w) = joint_get_vel j. Proof. now destruct j. Qed.
Lemma id_own_power g (c c' : chain F) : well_formed (c_links c) -> chain_update_id g c = Some c' ->
  nsum (map (fun l => dotl (joint_get_trq (l_joint l)) (joint_get_vel (l_joint l))) (c_links c')) = total_power (c_links c') (c_links c').
Proof.
  intros W H. destruct (id_split _ _ _ W H) as (hr & Wr & DR & UP & SR).
  apply (power_balance (fun l => dotl (joint_get_trq (l_joint l)) (joint_get_vel (l_joint l))) hr); [exact Wr|exact SR|exact UP|].
  assert (LW : length (c_links c') = length (c_links c)) by (rewrite (proj1 UP); apply DR).
  split; [reflexivity|]. intros i lw Hw.
  destruct (nth_error (c_links c) i) as [l|] eqn:Hl. 2:{ apply nth_error_None in Hl. apply nth_lt in Hw. lia. }
  destruct (proj2 DR i l Hl) as (p & Hr & Q). destruct (proj2 UP i _ Hr) as (cs & ls & _ & _ & Hw'). assert (lw = wr_post (wr_pre (upd_rate l p)) ls) by congruence. subst lw.
  exists (wr_post (wr_pre (upd_rate l p)) ls), (fst p). split; [exact Hw|]. split.
  - change (l_parent (wr_post (wr_pre (upd_rate l p)) ls)) with (l_parent l). destruct (l_parent l) as [q|].
    + destruct Q as (lq & Hq & ->). destruct (proj2 UP q _ Hq) as (cq & lqs & _ & _ & Hq'). exists (wr_post (wr_pre lq) lqs). split; [exact Hq'|reflexivity].
    + now rewrite (proj2 Q).
  - unfold wr_post at 1 2. cbn [l_joint l_set_joint].
    change (l_joint (wr_pre (upd_rate l p))) with (l_joint l). rewrite calc_trq_vel.
    rewrite (trq_dual (l_joint l) _ (xform6lin (l_adj l) (fst p))). reflexivity.
Qed.

(** ** Wrenches in the world frame *)
Definition world (l : lk) (w : vec6 F) : vec6 F := xform6ang (l_frame l) w.
Lemma own_world (l : lk) : rigid (l_frame l) -> world l (own l) = V6 (need_force l) (need_moment v3zero l).
Proof.
  intros R. unfold world, own. rewrite xform6ang_sub. unfold body_ext_wrench. rewrite wl_net_sum, xform6ang_v6sum, map_map.
  assert (X1 : v6sum (map (fun x => xform6ang (l_frame l) (wr_shift x)) (b_extw (l_body l))) =
    V6 (v3sum (map (fun c => m3v (fatt (l_frame l)) (vlin (wr_w c))) (b_extw (l_body l))))
       (v3sum (map (fun c => v3add (v3cross (v3sub (xform (l_frame l) (wr_p c)) v3zero) (m3v (fatt (l_frame l)) (vlin (wr_w c)))) (m3v (fatt (l_frame l)) (vang (wr_w c)))) (b_extw (l_body l))))).
  { induction (b_extw (l_body l)) as [|c t IH]; [reflexivity|]. cbn [map]. change (v6sum (?a :: ?l)) with (v6add a (v6sum l)).
    change (v3sum (?a :: ?l)) with (v3add a (v3sum l)). rewrite IH. unfold v6add at 1. cbn [vlin vang]. f_equal; f_equal; destruct c as [w p]; unfold wr_shift, xform6ang, v6angshift, m3v6, xform; cbn [wr_w wr_p vlin vang].
    rewrite m3v_add_r, (rot_cross _ _ _ R), v3sub_0_r, v3cross_add_l. clear -L.
    generalize (m3v (fatt (l_frame l)) (vang w)) (m3v (fatt (l_frame l)) (vlin w)) (m3v (fatt (l_frame l)) p) (fpos (l_frame l)). intros; vring. }
  rewrite X1. unfold need_force, need_moment, v6sub. cbn [vlin vang]. f_equal.
  - f_equal. unfold body_net_wrench, l_mass. destruct (l_body l) as [mp fr ve ac wc cv ca ew sh st]; cbn. apply m3v_scale_r.
  - f_equal. unfold body_net_wrench, l_mass, l_com, l_vel, l_acc, xform6ang, v6angshift, m3v6, xform. unfold l_frame in *.
    destruct (l_body l) as [mp fr ve ac wc cv ca ew sh st]; cbn in *. destruct mp as [m co I]; cbn.
    rewrite !m3v_add_r, (rot_cross _ co _ R), m3v_scale_r, v3sub_0_r, v3cross_add_l. clear -L.
    generalize (m3v (fatt fr) (m3v I (vang ac))) (m3v (fatt fr) (v3cross (vang ve) (m3v I (vang ve)))) (m3v (fatt fr) ca) (m3v (fatt fr) co) (fpos fr). intros; vring.
Qed.
Lemma v3sum_linear (f : vec3 F -> vec3 F) l : lin3 f -> v3sum (map f l) = f (v3sum l).
Proof. intros. symmetry. now apply lin3_sum. Qed.
Lemma need_moment_shift (o : vec3 F) (l : lk) : need_moment o l = v3sub (need_moment v3zero l) (v3cross o (need_force l)).
Proof.
  unfold need_moment, need_force. set (fr := l_frame l). set (R := fatt fr).
  assert (X1 : forall t, v3sum (map (fun c => v3add (v3cross (v3sub (xform fr (wr_p c)) o) (m3v R (vlin (wr_w c)))) (m3v R (vang (wr_w c)))) t) =
    v3sub (v3sum (map (fun c => v3add (v3cross (v3sub (xform fr (wr_p c)) v3zero) (m3v R (vlin (wr_w c)))) (m3v R (vang (wr_w c)))) t))
          (v3cross o (v3sum (map (fun c => m3v R (vlin (wr_w c))) t)))).
  { induction t as [|c t IH]; cbn [map]; [unfold v3sum; cbn [fold_right]; vring|].
    change (v3sum (?a :: ?l)) with (v3add a (v3sum l)). rewrite IH.
    generalize (v3sum (map (fun c => v3add (v3cross (v3sub (xform fr (wr_p c)) v3zero) (m3v R (vlin (wr_w c)))) (m3v R (vang (wr_w c)))) t))
      (v3sum (map (fun c => m3v R (vlin (wr_w c))) t)) (m3v R (vlin (wr_w c))) (m3v R (vang (wr_w c))) (xform fr (wr_p c)). intros; vring. }
  rewrite X1.
  generalize (v3sum (map (fun c => v3add (v3cross (v3sub (xform fr (wr_p c)) v3zero) (m3v R (vlin (wr_w c)))) (m3v R (vang (wr_w c)))) (b_extw (l_body l))))
    (v3sum (map (fun c => m3v R (vlin (wr_w c))) (b_extw (l_body l))))
    (m3v R (v3add (m3v (mp_inertia (b_mp (l_body l))) (vang (l_acc l))) (v3cross (vang (l_vel l)) (m3v (mp_inertia (b_mp (l_body l))) (vang (l_vel l))))))
    (m3v R (b_comacc (l_body l))) (l_mass l) (xform fr (l_com l)). intros; vring.
Qed.

(** Frames of an array compose along the tree. *)
Definition composed (h : list lk) : Prop := forall i l, nth_error h i = Some l -> rigid (l_frame l) /\
  match l_parent l with
  | None => True
  | Some q => exists lq, nth_error h q = Some lq /\ l_frame l = fcascade (l_frame lq) (l_adj l)
  end.
Lemma up_geqs (h : list lk) : composed h -> forall f p o, lrep h p o f -> weqs (at6 h l_wrench) (at6 h own) (atf h) f ->
  geqs (at6 h (fun l => world l (l_wrench l))) (at6 h (fun l => world l (own l))) f.
Proof.
  intros C. induction f as [|i k IHk r IHr]; intros p o R W; [exact I|].
  destruct R as (_ & l & Hl & _ & Rk & Rr). destruct W as (W & Wk & Wr). cbn [geqs].
  split; [|split; [eapply IHk; eauto|eapply IHr; eauto]].
  unfold at6 at 1 2. unfold at6 at 1 2 in W. rewrite Hl in *. rewrite W. unfold world at 1. rewrite xform6ang_add, xform6ang_v6sum, map_map. fold (world l (own l)). f_equal. f_equal.
  revert Rk. generalize (l_child l). clear -C Hl L. induction k as [|c kk _ r IHr]; intros o R; [reflexivity|].
  destruct R as (_ & lc & Hc & Pc & _ & Rr). cbn [roots map]. f_equal; [|eapply IHr; eauto].
  unfold atf, at6. rewrite Hc. destruct (C c lc Hc) as (_ & Q). rewrite Pc in Q. destruct Q as (lq & Hq & FE).
  assert (lq = l) by congruence. subst lq. unfold world. rewrite FE. symmetry. apply xform6ang_cascade. apply (C i l Hl).
Qed.

Lemma subtree_forest (h : list lk) k0 i k : tree_of h k0 -> find_kids (FCons 0 k0 FNil) i = Some k -> subtree h i (ids (FCons i k FNil)).
Proof.
  intros T FK. pose proof (tree_nodup _ _ T) as ND. destruct (nodup_find _ _ _ ND FK) as [Nk Ni].
  destruct (rep_find _ _ _ _ _ _ (proj1 T) FK) as (l & Hl & Rk). cbn [ids]. rewrite app_nil_r.
  split; [constructor; assumption|]. intros j. split.
  - intros Hj. destruct T as [R PM].
    assert (Lj : (j < length h)%nat).
    { destruct Hj as [<-|Hj]; [eapply nth_lt; eauto|]. destruct (rep_in _ _ _ _ _ _ _ _ Rk Hj) as (lj & Q). eapply nth_lt; eauto. }
    destruct (wf_lineage h j (ex_intro _ k0 (conj R PM)) Lj) as (t & LT & _). exists t. split; [exact LT|].
    revert Hj. clear -LT Rk. induction LT as [j lj Hj Pj|j lj q t Hj Pj LT IH]; intros [->|I]; try (left; reflexivity).
    + destruct (in_parent (Some i) k j I) as [q Hq]. destruct (rep_parent _ _ _ _ _ _ _ _ _ Rk Hq) as (l' & Hl' & Pl').
      destruct (parent_in_cases _ _ _ _ Hq) as [[-> _]|(z & -> & _)]; congruence.
    + right. apply IH. destruct (in_parent (Some i) k j I) as [q' Hq]. destruct (rep_parent _ _ _ _ _ _ _ _ _ Rk Hq) as (l' & Hl' & Pl').
      assert (q' = Some q) by congruence. subst q'. destruct (parent_in_cases _ _ _ _ Hq) as [[A _]|(z & A & Iz)]; [left; congruence|right]. assert (z = q) by congruence. now subst z.
  - intros (t & LT & It). revert It. induction LT as [j lj Hj Pj|j lj q t Hj Pj LT IH]; intros [->|It]; try (left; reflexivity); [destruct It|].
    right. specialize (IH It).
    assert (Ij : In j (ids (FCons 0 k0 FNil))) by (apply (tree_in _ _ _ T); eapply nth_lt; eauto).
    destruct (in_parent None _ j Ij) as [q' Hq]. destruct (rep_parent _ _ _ _ _ _ _ _ _ (proj1 T) Hq) as (l' & Hl' & Pl').
    assert (PQ : q' = Some q) by congruence. rewrite PQ in Hq. pose proof (parent_kids _ _ _ ND Hq) as KD. unfold kids_of in KD.
    destruct IH as [<-|Iq].
    + rewrite FK in KD. now apply roots_ids.
    + destruct (find_kids_in _ _ Iq) as [kq Fq].
      assert (FQ : find_kids (FCons 0 k0 FNil) q = Some kq).
      { clear -FK Fq ND. revert FK ND. generalize (FCons 0 k0 FNil). induction f as [|j a IHa b IHb]; cbn [find_kids]; intros FK ND; [discriminate|].
        destruct (nodup_split _ _ _ _ eq_refl ND) as (Na & Nb & NDa & NDb & DJ).
        destruct (Nat.eqb_spec i j) as [->|].
        - injection FK as ->. destruct (Nat.eqb_spec q j) as [QJ|QJ]. { exfalso. apply Na. rewrite <- QJ. exact (proj1 (find_kids_sub _ _ _ Fq)). } now rewrite Fq.
        - destruct (find_kids a i) as [ka|] eqn:Fa.
          + injection FK as ->. pose proof (IHa eq_refl NDa) as Q. destruct (Nat.eqb_spec q j) as [QJ|QJ]. { exfalso. apply Na. rewrite <- QJ. exact (proj1 (find_kids_sub _ _ _ Q)). } now rewrite Q.
          + pose proof (IHb FK NDb) as Q. pose proof (proj1 (find_kids_sub _ _ _ Q)) as Qb. destruct (Nat.eqb_spec q j) as [->|]; [contradiction|].
            rewrite find_kids_none; [exact Q|]. intros Qa. exact (DJ q Qa Qb). }
      rewrite FQ in KD. eapply find_kids_sub; [exact Fq|]. now apply roots_ids.
Qed.
Lemma v6sum_parts {A} (l : list A) (f g : A -> vec3 F) : v6sum (map (fun x => V6 (f x) (g x)) l) = V6 (v3sum (map f l)) (v3sum (map g l)).
Proof. induction l as [|a l IH]; [reflexivity|]. cbn [map]. change (v6sum (?a :: ?l)) with (v6add a (v6sum l)). rewrite IH. reflexivity. Qed.

Lemma wrench_subtree (h : list lk) : well_formed h -> composed h -> (forall k, tree_of h k -> weqs (at6 h l_wrench) (at6 h own) (atf h) (FCons 0 k FNil)) ->
  forall i d l, subtree h i d -> nth_error h i = Some l ->
  m3v (fatt (l_frame l)) (vlin (l_wrench l)) = sum_over h d need_force /\
  m3v (fatt (l_frame l)) (vang (l_wrench l)) = sum_over h d (need_moment (fpos (l_frame l))).
Proof.
  intros [k0 T] C WQ i d l SD Hl.
  assert (Ii : In i (ids (FCons 0 k0 FNil))) by (apply (tree_in _ _ _ T); eapply nth_lt; eauto).
  destruct (find_kids_in _ _ Ii) as [k FK]. pose proof (subtree_forest _ _ _ _ T FK) as SF.
  assert (PM : Permutation d (ids (FCons i k FNil))).
  { apply NoDup_Permutation; [apply SD|apply SF|]. intros x. rewrite (proj2 SD x), (proj2 SF x). tauto. }
  destruct (rep_find _ _ _ _ _ _ (proj1 T) FK) as (l' & Hl' & Rk). assert (l' = l) by congruence. subst l'.
  pose proof (up_geqs _ C _ _ _ (proj1 T) (WQ _ T)) as GQ.
  assert (GI : geqs (at6 h (fun l => world l (l_wrench l))) (at6 h (fun l => world l (own l))) (FCons i k FNil)).
  { revert GQ FK. generalize (FCons 0 k0 FNil). clear. induction f as [|j a IHa b IHb]; cbn [find_kids]; intros GQ FK; [discriminate|].
    destruct GQ as (Q & Qa & Qb). destruct (Nat.eqb_spec i j) as [->|]; [injection FK as ->; cbn; auto|].
    destruct (find_kids a i); [injection FK as ->; auto|auto]. }
  pose proof (wrench_forest _ _ _ GI) as S. cbn [roots map] in S. change (v6sum [?a]) with (v6add a v6zero) in S. rewrite v6add_0_r in S.
  rewrite <- (v6sum_perm _ _ (Permutation_map _ PM)) in S.
  unfold at6 at 1 in S. rewrite Hl in S.
  assert (X1 : map (at6 h (fun l => world l (own l))) d = map (fun k => V6 (match nth_error h k with Some l => need_force l | None => v3zero end)
       (match nth_error h k with Some l => need_moment v3zero l | None => v3zero end)) d).
  { apply map_ext. intros x. unfold at6. destruct (nth_error h x) as [lx|] eqn:Hx; [|reflexivity]. apply own_world. apply (C x lx Hx). }
  rewrite X1, v6sum_parts in S. fold (sum_over h d need_force) in S. fold (sum_over h d (need_moment v3zero)) in S.
  unfold world, xform6ang, v6angshift, m3v6 in S. cbn [vlin vang] in S.
  pose proof (f_equal (@vlin F) S) as S1. pose proof (f_equal (@vang F) S) as S2. cbn [vlin vang] in S1, S2. split; [exact S1|].
  assert (X2 : sum_over h d (need_moment (fpos (l_frame l))) = v3sub (sum_over h d (need_moment v3zero)) (v3cross (fpos (l_frame l)) (sum_over h d need_force))).
  { unfold sum_over. clear -L. induction d as [|x d IH]; cbn [map]; [unfold v3sum; cbn [fold_right]; generalize (fpos (l_frame l)); intros; vring|].
    change (v3sum (?a :: ?l)) with (v3add a (v3sum l)). rewrite IH. destruct (nth_error h x) as [lx|]; [rewrite need_moment_shift|]; vgen; intros; vring. }
  rewrite X2, <- S1, <- S2. clear -L.
  generalize (m3v (fatt (l_frame l)) (vang (l_wrench l))) (m3v (fatt (l_frame l)) (vlin (l_wrench l))) (fpos (l_frame l)). intros; vring.
Qed.

(** ** What inverse dynamics keeps *)
Definition kept (l l' : lk) : Prop :=
  l_frame l' = l_frame l /\ l_adj l' = l_adj l /\ l_parent l' = l_parent l /\ l_offset l' = l_offset l /\ lsize l' = lsize l /\
  b_mp (l_body l') = b_mp (l_body l) /\ b_extw (l_body l') = b_extw (l_body l).
Lemma kept_trans (a b d : lk) : kept a b -> kept b d -> kept a d.
Proof. intros (A1 & A2 & A3 & A4 & A5 & A6 & A7) (B1 & B2 & B3 & B4 & B5 & B6 & B7). repeat split; congruence. Qed.
Lemma id_kept g (c c' : chain F) : well_formed (c_links c) -> chain_update_id g c = Some c' -> Forall2 kept (c_links c) (c_links c').
Proof.
  intros W H. destruct (id_split _ _ _ W H) as (hr & Wr & DR & UP & SR). apply forall2_nth_eq; [rewrite (proj1 UP); symmetry; apply DR|].
  intros i l Hl. destruct (proj2 DR i l Hl) as (p & Hr & _). destruct (proj2 UP i _ Hr) as (cs & ls & _ & _ & Hw).
  eexists. split; [exact Hw|]. repeat split. unfold lsize. cbn [wr_post l_joint l_set_joint]. now rewrite calc_trq_size.
Qed.
Lemma kept_placed (h h' : list lk) : Forall2 kept h h' -> forall s, placed s h -> placed s h'.
Proof.
  induction 1 as [|l l' t t' K R IH]; intros s P; [exact P|]. apply placed_cons in P as [A B]. destruct K as (_ & _ & _ & K4 & K5 & _).
  apply placed_cons. rewrite K4, K5. auto.
Qed.
Lemma kept_total (h h' : list lk) : Forall2 kept h h' -> total h' = total h.
Proof.
  induction 1 as [|l l' t t' K R IH]; [reflexivity|]. destruct K as (_ & _ & _ & _ & K5 & _).
  change (total (l' :: t')) with (lsize l' + total t')%nat. change (total (l :: t)) with (lsize l + total t)%nat. congruence.
Qed.
Lemma kept_composed (h h' : list lk) : Forall2 kept h h' -> composed h -> composed h'.
Proof.
  intros K C i l' Hl'. destruct (Forall2_nth_r _ _ _ K i l' Hl') as (l & Hl & K1 & K2 & K3 & _).
  destruct (C i l Hl) as (R & Q). rewrite K1, K2, K3. split; [exact R|]. destruct (l_parent l) as [q|]; [|exact I].
  destruct Q as (lq & Hq & FE). destruct (Forall2_nth _ _ _ K q lq Hq) as (lq' & Hq' & Q1 & _). exists lq'. rewrite Q1. auto.
Qed.
Lemma set_kept set v (h h' : list lk) : set_ok set -> Forall2 (set_rel set v) h h' -> Forall2 kept h h' /\ Forall2 (same_refs l_parent l_child l_sibl) h h'.
Proof.
  intros OK. induction 1 as [|l l' t t' S R [IH1 IH2]]; split; constructor; auto; destruct (set_rel_size _ _ _ _ OK S) as [SZ _];
    unfold set_rel in S; destruct (l_offset l); [destruct S as (j & _ & ->)|subst|destruct S as (j & _ & ->)|subst]; repeat split; auto.
Qed.
Lemma rate_kept (c c2 : chain F) v a : placed 0 (c_links c) -> total (c_links c) = length v -> length a = length v ->
  chain_set_joint_rate_all c v a = Some c2 ->
  Forall2 kept (c_links c) (c_links c2) /\ Forall2 (same_refs l_parent l_child l_sibl) (c_links c) (c_links c2).
Proof.
  intros O TV LA H. unfold chain_set_joint_rate_all in H.
  destruct (set_all_spec joint_set_vel v (c_links c) 0 set_vel_ok O) as (h1 & A1 & R1); [lia|].
  destruct (set_rel_placed _ v 0 _ _ set_vel_ok R1 O) as [P1 T1].
  destruct (set_all_spec joint_set_acc a h1 0 set_acc_ok P1) as (h2 & A2 & R2); [lia|].
  rewrite set_rate_all_split, A1 in H. cbn [obind] in H. rewrite A2 in H. injection H as <-. cbn [c_links c_set_links].
  destruct (set_kept _ _ _ _ set_vel_ok R1) as [K1 S1]. destruct (set_kept _ _ _ _ set_acc_ok R2) as [K2 S2]. split.
  - clear -K1 K2. revert h2 K2. induction K1; intros h2 K2; inversion K2; subst; constructor; eauto using kept_trans.
  - clear -S1 S2. revert h2 S2. induction S1 as [|x y l l' H S1 IH]; intros h2 S2; inversion S2 as [|? z ? ? H' S2']; subst; constructor; eauto.
    destruct H as (A & B & C), H' as (A' & B' & C'). repeat split; congruence.
Qed.
End D.

Section D2.
Context {F : Type} {N : Num F} {L : NumLaws F N} {E : Ext F} {X : ExtLaws F N E}.
Add Field FField2 : num_field.
Local Open Scope num_scope.
Notation lk := (link F).
Lemma usable_frames (c c1 : chain F) : usable c -> chain_update_frame c = Some c1 ->
  well_formed (c_links c1) /\ placed 0 (c_links c1) /\ total (c_links c1) = chain_joint_size c /\ composed (c_links c1).
Proof.
  intros U A1. pose proof U as (W & O & JM & OR). destruct (C24_frame_pass c W) as (c1' & A1' & P1 & W1). assert (c1' = c1) by congruence. subst c1'.
  assert (K : Forall2 (fun l l' => l_offset l' = l_offset l /\ lsize l' = lsize l) (c_links c) (c_links c1)).
  { apply forall2_nth_eq; [symmetry; apply P1|]. intros i l Hl. destruct (pass_keeps _ _ P1 i l Hl) as (l' & Hl' & EJ & _ & _ & EO & _).
    exists l'. split; [exact Hl'|]. split; [exact EO|]. unfold lsize. now rewrite EJ. }
  split; [exact W1|]. split; [|split].
  - apply offsets_placed in O. revert O. generalize 0%nat. clear -K. induction K as [|l l' t t' [K1 K2] R IH]; intros s P; [exact P|].
    apply placed_cons in P as [A B]. apply placed_cons. rewrite K1, K2. auto.
  - rewrite chain_joint_size_total. clear -K. induction K as [|l l' t t' [K1 K2] R IH]; [reflexivity|].
    change (total (l' :: t')) with (lsize l' + total t')%nat. change (total (l :: t)) with (lsize l + total t)%nat. congruence.
  - pose proof (frames_of_pass _ _ P1) as FR. intros i l Hl. split.
    + destruct (wf_lineage (c_links c1) i W1 (nth_lt _ _ _ Hl)) as (t & LT & _).
      assert (INV : forall k lk', nth_error (c_links c1) k = Some lk' -> cache_ok (l_joint lk') /\ rigid (l_org lk')).
      { intros k lk' Hk. destruct (nth_error (c_links c) k) as [l0|] eqn:H0. 2:{ apply nth_error_None in H0. apply nth_lt in Hk. pose proof (proj1 P1). lia. }
        destruct (pass_keeps _ _ P1 k l0 H0) as (l1 & H1 & EJ & EO & _). assert (l1 = lk') by congruence. subst l1. rewrite EJ, EO. split; [apply made_cache; eauto|eauto]. }
      destruct (frames_rigid (c_links c1) (fun i l H => proj1 (INV i l H)) (fun i l H => proj2 (INV i l H)) FR i t LT) as (l' & Hl' & _ & R2).
      assert (l' = l) by congruence. now subst l'.
    + destruct (FR i l Hl) as (_ & _ & Q). destruct (l_parent l); auto.
Qed.
Lemma id_state g (c c1 c' : chain F) v a : usable c -> chain_update_frame c = Some c1 -> length v = chain_joint_size c -> length a = chain_joint_size c ->
  chain_id g c1 v a = Some c' ->
  well_formed (c_links c') /\ placed 0 (c_links c') /\ composed (c_links c') /\
  (forall k, tree_of (c_links c') k -> weqs (at6 (c_links c') l_wrench) (at6 (c_links c') own) (atf (c_links c')) (FCons 0 k FNil)).
Proof.
  intros U A1 LV LA H. destruct (usable_frames _ _ U A1) as (W1 & P1 & T1 & C1).
  unfold chain_id in H. destruct (chain_set_joint_rate_all c1 v a) as [c2|] eqn:A2; [cbn [obind] in H|discriminate].
  destruct (rate_kept _ _ _ _ P1 (eq_trans T1 (eq_sym LV)) (eq_trans LA (eq_sym LV)) A2) as [K2 S2].
  assert (W2 : well_formed (c_links c2)) by (eapply wf_of_refs; eauto).
  destruct (id_split _ _ _ W2 H) as (hr & Wr & DR & UP & SR). pose proof (id_kept _ _ _ W2 H) as K3.
  split; [eapply wf_of_refs; eauto|]. split; [eapply kept_placed; eauto; eapply kept_placed; eauto|].
  split; [eapply kept_composed; eauto; eapply kept_composed; eauto|].
  intros k T. destruct Wr as [k' Tr]. assert (tree_of (c_links c') k') as T'.
  { eapply well_formed_refs; [symmetry; exact (Forall2_len _ _ _ SR)| |exact Tr]. intros i l Hl. exact (Forall2_nth _ _ _ SR i l Hl). }
  assert (FCons 0 k FNil = FCons 0 k' FNil) as -> by (eapply rep_unique; [apply T|apply T']).
  eapply up_weqs; [exact UP|apply Tr|]. eapply tree_nodup; exact Tr.
Qed.
Lemma ext_world (l : lk) : rigid (l_frame l) -> xform6ang (l_frame l) (body_ext_wrench (l_body l)) = V6 (ext_force l) (ext_moment l).
Proof.
  intros R. unfold body_ext_wrench, ext_force, ext_moment. rewrite wl_net_sum, xform6ang_v6sum, map_map. rewrite <- v6sum_parts. f_equal. apply map_ext.
  intros [w p]. unfold wr_shift, xform6ang, v6angshift, m3v6, xform; cbn [wr_w wr_p vlin vang]. f_equal.
  rewrite m3v_add_r, (rot_cross _ _ _ R), v3cross_add_l. clear -L.
  generalize (m3v (fatt (l_frame l)) (vang w)) (m3v (fatt (l_frame l)) (vlin w)) (m3v (fatt (l_frame l)) p) (fpos (l_frame l)). intros; vring.
Qed.
End D2.
