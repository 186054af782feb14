(** * ABI_ID: inverse dynamics on the chain that forward dynamics has left. *)
From Coq Require Import List Arith Lia Permutation Field.
From Verif Require Import Num NumFacts Vec VecFacts Motor_Model Joint_Model Joint_Spec Joint_Proofs Body_Model Body_Proofs
  Tree Tree_Proofs Link_Model Link_Spec Link_Proofs Chain_Proofs Link_Properties Chain_Properties Kin_Spec Kin_Proofs
  Jacobi_Model Jacobi_Proofs Dyn_Spec Dyn_Proofs Walk Walk_Proofs ABI_Model ABI_Spec ABI_Alg ABI_Proofs ABI_State.
Import ListNotations.
Local Open Scope nat_scope.

Section A.
Context {F : Type} {N : Num F} {L : NumLaws F N} {E : Ext F} {X : ExtLaws F N E} {MI : MInv F}.
Add Field FField : num_field.
Local Open Scope num_scope.
Notation lk := (link F).
Ltac vring := intros; vdestruct; vunfold; vsplit; ring.

(** *** Newton-Euler equations determine the wrench *)
Lemma v3_cancel (a b s e : vec3 F) : v3add (v3sub a s) e = v3add (v3sub b s) e -> a = b.
Proof.
  intros H. assert (Q : forall x, x = v3add (v3sub (v3add (v3sub x s) e) e) s) by vring.
  rewrite (Q a), H. symmetry. apply Q.
Qed.
Lemma newton_euler_unique g (l : lk) cs ew w : newton_euler g l cs ew -> newton_euler g (l_set_wrench w l) cs ew -> l_wrench l = w.
Proof.
  unfold newton_euler. cbv zeta. intros [A1 A2] [B1 B2]. cbn [l_wrench l_set_wrench] in B1, B2.
  change (link_force g (l_set_wrench w l) w cs ew) with (link_force g l w cs ew) in B1. change (link_moment (l_set_wrench w l) w cs ew) with (link_moment l w cs ew) in B2.
  change (l_mass (l_set_wrench w l)) with (l_mass l) in B1. change (l_acc (l_set_wrench w l)) with (l_acc l) in B1, B2. change (l_com (l_set_wrench w l)) with (l_com l) in B1.
  change (l_vel (l_set_wrench w l)) with (l_vel l) in B1, B2. change (l_body (l_set_wrench w l)) with (l_body l) in B2.
  rewrite <- A1 in B1. rewrite <- A2 in B2. unfold link_force in B1. unfold link_moment in B2. apply v3_cancel in B1. apply v3_cancel in B2. rewrite B1 in B2.
  destruct (l_wrench l) as [a b], w as [a' b']. cbn [vlin vang] in *. subst a'. f_equal. revert B2. generalize (v3cross (l_com l) a). intros u H.
  assert (Q : forall x, x = v3add (v3sub x u) u) by vring. rewrite (Q b), <- H. symmetry. apply Q.
Qed.
Definition spatial g (l : lk) (a : vec6 F) (ew : wlist F) : vec6 F :=
  v6sub (v6add (m6v (link_mass_mat l) a)
     (V6 (v3scale (l_mass l) (v3triple (vang (l_vel l)) (vang (l_vel l)) (l_com l))) (v3cross (vang (l_vel l)) (m3v (maa (link_mass_mat l)) (vang (l_vel l))))))
     (v6add (wl_net ew) (abi_grav g l)).
Lemma newton_euler_spatial g (l : lk) cs ew : newton_euler g l cs ew ->
  l_wrench l = v6add (spatial g l (l_acc l) ew) (v6sum (map (fun k => xform6ang (l_adj k) (l_wrench k)) cs)).
Proof.
  intros H. apply (newton_euler_unique g l cs ew _ H). apply spatial_newton_euler. reflexivity.
Qed.

(** *** The acceleration pass of inverse dynamics *)
Definition gacc (g : F) (f : frame F) : vec6 F := V6 (m3tv (fatt f) (V3 0 0 g)) v3zero.
Lemma m3tv_mul (a b : mat3 F) v : m3tv (m3mul a b) v = m3tv b (m3tv a v). Proof. vring. Qed.
Lemma relative_acc_grav (l : lk) pv pa (G : vec3 F) :
  relative_acc l (pv, v6add pa (V6 G v3zero)) = v6add (relative_acc l (pv, pa)) (V6 (m3tv (fatt (l_adj l)) G) v3zero).
Proof.
  unfold relative_acc. cbn [fst snd]. generalize (joint_inc_vel (l_joint l) v6zero) (joint_inc_acc (l_joint l) v6zero) (l_adj l). clear l. vring.
Qed.
Lemma inc_on_own (j : joint F) w a : match j with JHooke _ => False | _ => True end -> no_slide j ->
  let rv := joint_inc_vel j v6zero in
  joint_inc_acc_on_vel j (v3add w (vang rv)) a = joint_inc_acc_on_vel j w a.
Proof.
  intros NH NS. cbv zeta. unfold no_slide in NS. destruct j as [|r|p|cy|hk|s|f|f ef et]; try contradiction; cbn [joint_inc_acc_on_vel joint_inc_vel] in *; unfold add_ang in *; cbn [vlin vang v6zero v3zero vx vy vz v6add] in *; try reflexivity.
  - generalize (a_vel (rv_a r)). vring.
  - generalize (a_vel (pr_a p)). unfold n2. vring.
  - generalize (a_vel (cy_0 cy)) (a_vel (cy_1 cy)). unfold n2. vring.
  - generalize (m3tv (sp_att s) (sp_vel s)). vring.
  - revert NS. generalize (m3tv6 (fl_att f) (fl_vel f)). intros [vl om] NS. cbn [vlin vang] in *. rewrite !v3add_0_l in *. rewrite v3cross_add_l, NS. rewrite v3cross_add_l.
    f_equal; unfold v3cat; vring.
  - revert NS. generalize (m3tv6 (fl_att f) (fl_vel f)). intros [vl om] NS. cbn [vlin vang] in *. rewrite !v3add_0_l in *. rewrite v3cross_add_l, NS. rewrite v3cross_add_l.
    f_equal; unfold v3cat; vring.
Qed.
Lemma inc_vel_ang (j : joint F) v : vang (joint_inc_vel j v) = v3add (vang v) (vang (joint_inc_vel j v6zero)).
Proof.
  destruct j as [|r|p|cy|hk|s|f|f ef et]; cbn [joint_inc_vel]; unfold add_ang; cbn [vlin vang v6zero v3zero v6add].
  - vring.
  - generalize (a_vel (rv_a r)). vring.
  - vring.
  - generalize (a_vel (cy_1 cy)). vring.
  - generalize (hooke_vec hk (a_vel (hk_0 hk)) (a_vel (hk_1 hk))). vring.
  - generalize (m3tv (sp_att s) (sp_vel s)). vring.
  - generalize (m3tv6 (fl_att f) (fl_vel f)). vring.
  - generalize (m3tv6 (fl_att f) (fl_vel f)). vring.
Qed.
Lemma inc_on_add (j : joint F) w a : joint_inc_acc_on_vel j w a = v6add a (joint_inc_acc_on_vel j w v6zero).
Proof.
  destruct j as [|r|p|cy|hk|s|f|f ef et]; cbn [joint_inc_acc_on_vel]; unfold add_ang, v3cat, n2; cbn [vlin vang v6zero v3zero v6add].
  - vring.
  - generalize (a_vel (rv_a r)). vring.
  - generalize (a_vel (pr_a p)). vring.
  - generalize (a_vel (cy_0 cy)) (a_vel (cy_1 cy)). vring.
  - generalize (hooke_vec hk (a_vel (hk_0 hk)) (a_vel (hk_1 hk))) (a_vel (hk_0 hk) * a_vel (hk_1 hk)) (hk_c1 hk) (hk_s1 hk). vring.
  - generalize (m3tv (sp_att s) (sp_vel s)). vring.
  - generalize (m3tv6 (fl_att f) (fl_vel f)). vring.
  - generalize (m3tv6 (fl_att f) (fl_vel f)). vring.
Qed.
Lemma upd_rate_acc (l : lk) p : match l_joint l with JHooke _ => False | _ => True end -> no_slide (l_joint l) ->
  l_acc (upd_rate l p) = relative_acc l p.
Proof.
  intros NH NS. destruct p as [pv pa]. rewrite <- (relative_acc_form l (l_joint l) pv pa NH eq_refl eq_refl).
  unfold upd_rate, upd_acc, upd_vel, l_acc. cbn [fst snd l_joint l_set_body l_adj l_body body_update_comacc b_acc b_set_acc body_update_comvel b_set_vel b_vel b_mp l_vel].
  unfold l_vel. cbn [l_body l_set_body body_update_comvel b_set_vel b_vel].
  rewrite inc_vel_ang, inc_on_own by assumption. f_equal.
  rewrite inc_on_add. change (vang (xform6lin (l_adj l) pv)) with (m3tv (fatt (l_adj l)) (vang pv)).
  unfold xform6lin, v6linshift, m3tv6. cbn [vlin vang]. rewrite !m3tv_add_r.
  change (v3triple (vang pv) (vang pv) (fpos (l_adj l))) with (v3cross (vang pv) (v3cross (vang pv) (fpos (l_adj l)))).
  generalize (joint_inc_acc_on_vel (l_joint l) (m3tv (fatt (l_adj l)) (vang pv)) v6zero) (m3tv (fatt (l_adj l)) (vlin pa)) (m3tv (fatt (l_adj l)) (vang pa))
   (m3tv (fatt (l_adj l)) (v3cross (vang pa) (fpos (l_adj l)))) (m3tv (fatt (l_adj l)) (v3cross (vang pv) (v3cross (vang pv) (fpos (l_adj l))))). clear -L. vring.
Qed.

(** *** Link by link *)
Definition consistent (h : list lk) : Prop := forall i l, nth_error h i = Some l ->
  match l_parent l with
  | None => l_vel l = joint_inc_vel (l_joint l) (xform6lin (l_adj l) v6zero)
  | Some q => exists lq, nth_error h q = Some lq /\ l_vel l = joint_inc_vel (l_joint l) (xform6lin (l_adj l) (l_vel lq))
  end.
Definition framed (h : list lk) : Prop := forall i l, nth_error h i = Some l ->
  match l_parent l with
  | None => l_frame l = fcascade fid (l_adj l)
  | Some q => exists lq, nth_error h q = Some lq /\ l_frame l = fcascade (l_frame lq) (l_adj l)
  end.
Definition moving (h : list lk) : Prop := forall i l, nth_error h i = Some l ->
  match l_joint l with JHooke _ => False | _ => True end /\ no_slide (l_joint l) /\
  exists p, parent_motion h l = Some p /\ l_acc l = relative_acc l p.
Lemma rates g (h h' hr : list lk) : well_formed h -> framed h -> consistent h -> moving h ->
  Forall2 (fun l l' => l_parent l' = l_parent l /\ l_joint l' = l_joint l /\ l_adj l' = l_adj l) h h' ->
  processed_down upd_rate (fun l => (l_vel l, l_acc l)) (v6zero, grav g) h' hr ->
  forall i l lr, nth_error h i = Some l -> nth_error hr i = Some lr -> l_vel lr = l_vel l /\ l_acc lr = v6add (l_acc l) (gacc g (l_frame l)).
Proof.
  intros W FR CO MO SM [LE D] i l lr Hl Hr. destruct (wf_lineage h i W (nth_lt _ _ _ Hl)) as (t & T & _).
  revert l lr Hl Hr. induction T as [i l0 H0 P0|i l0 q t H0 P0 T IH]; intros l lr Hl Hr; assert (l0 = l) by congruence; subst l0;
    destruct (Forall2_nth _ _ _ SM i l Hl) as (l' & Hl' & E1 & E2 & E3); destruct (D i l' Hl') as (p & Hp & Q); assert (lr = upd_rate l' p) by congruence; subst lr;
    destruct (MO i l Hl) as (NH & NS & pm & PM & AC); specialize (CO i l Hl); pose proof (FR i l Hl) as FE; rewrite E1 in Q; rewrite P0 in *; unfold parent_motion in PM; rewrite P0 in PM.
  - destruct Q as [_ ->]. injection PM as <-. split.
    + unfold upd_rate, upd_acc, upd_vel, l_vel. cbn. rewrite E2, E3. symmetry. exact CO.
    + rewrite upd_rate_acc by (rewrite E2; assumption). rewrite AC.
      assert (RR : forall p, relative_acc l' p = relative_acc l p) by (intros; unfold relative_acc; now rewrite E2, E3). rewrite RR.
      replace (grav g) with (v6add v6zero (V6 (V3 0 0 g) v3zero)) by (unfold grav; vring). rewrite relative_acc_grav. unfold gacc. rewrite FE, fcascade_id_l. reflexivity.
  - destruct Q as (lq & Hq & ->). destruct CO as (lq0 & Hq0 & CO). destruct (IH lq0 lq Hq0 Hq) as [V1 A1]. rewrite Hq0 in PM. cbn in PM. injection PM as <-. split.
    + unfold upd_rate, upd_acc, upd_vel, l_vel. cbn. rewrite E2, E3. symmetry. fold (l_vel lq). rewrite V1. exact CO.
    + rewrite upd_rate_acc by (rewrite E2; assumption). rewrite AC.
      assert (RR : forall p, relative_acc l' p = relative_acc l p) by (intros; unfold relative_acc; now rewrite E2, E3). rewrite RR.
      rewrite V1, A1. unfold gacc at 1. rewrite relative_acc_grav. destruct FE as (lq1 & Hq1 & FE). assert (lq1 = lq0) by congruence. subst lq1. unfold gacc. rewrite FE.
      change (fatt (fcascade (l_frame lq0) (l_adj l))) with (m3mul (fatt (l_frame lq0)) (fatt (l_adj l))). now rewrite m3tv_mul.
Qed.

(** *** Wrenches are determined by the recursion *)
Lemma weqs_unique (V W O : nat -> vec6 F) (Z : nat -> frame F) f : weqs V O Z f -> weqs W O Z f -> forall i, In i (ids f) -> V i = W i.
Proof.
  induction f as [|i k IHk r IHr]; cbn [weqs ids]; [intros _ _ i []|]. intros (A0 & A1 & A2) (B0 & B1 & B2) j [<-|J].
  - rewrite A0, B0. f_equal. f_equal. apply map_ext_in. intros c I. f_equal. apply IHk; auto. now apply roots_ids.
  - apply in_app_or in J as [J|J]; auto.
Qed.

Lemma own_spatial g (l lr : lk) ew : l_vel lr = l_vel l -> l_acc lr = v6add (l_acc l) (gacc g (l_frame l)) -> b_mp (l_body lr) = b_mp (l_body l) ->
  b_extw (l_body lr) = ew -> b_comacc (l_body lr) = b_comacc (body_update_comacc (l_body lr)) -> own lr = spatial g l (l_acc l) ew.
Proof.
  intros V A M W C. unfold own, spatial. rewrite mass_mat_v. unfold body_net_wrench, body_ext_wrench. rewrite C. unfold body_update_comacc. cbn [b_comacc].
  fold (l_vel lr) (l_acc lr). unfold l_com, l_mass. rewrite V, A, M, W. unfold abi_grav, l_com, l_mass, gacc.
  change (v3triple (vang (l_vel l)) (vang (l_vel l)) (mp_com (b_mp (l_body l)))) with (v3cross (vang (l_vel l)) (v3cross (vang (l_vel l)) (mp_com (b_mp (l_body l))))).
  set (cc := v3cross (vang (l_vel l)) (v3cross _ _)).
  assert (G : m3tv (fatt (l_frame l)) (V3 0 0 (- g * mp_mass (b_mp (l_body l)))) = v3scale (- mp_mass (b_mp (l_body l))) (m3tv (fatt (l_frame l)) (V3 0 0 g))).
  { generalize (fatt (l_frame l)) (mp_mass (b_mp (l_body l))). clear -L. vring. }
  rewrite G. cbn [vang v6add]. rewrite v3add_0_r.
  set (x := v3cross (vang (l_acc l)) (mp_com (b_mp (l_body l)))). set (G0 := m3tv (fatt (l_frame l)) (V3 0 0 g)) in *. set (m := mp_mass (b_mp (l_body l))).
  set (ac := v3scale m (v3add (vlin (l_acc l)) (v3add x cc))). set (gf := v3scale (- m) G0).
  assert (PE : v3scale m (v3add (v3add cc x) (v3add (vlin (l_acc l)) G0)) = v3sub ac gf).
  { unfold ac, gf. generalize (vlin (l_acc l)) cc x G0 m. clear -L. vring. }
  change (vlin (v6add (l_acc l) (V6 G0 v3zero))) with (v3add (vlin (l_acc l)) G0). rewrite PE. clearbody ac gf.
  generalize (wl_net ew) (mp_com (b_mp (l_body l))) (v3cross (vang (l_vel l)) (m3v (mp_inertia (b_mp (l_body l))) (vang (l_vel l))))
   (m3v (mp_inertia (b_mp (l_body l))) (vang (l_acc l))) ac gf. clear -L. vring.
Qed.
Lemma contacts_nth (d : achain F) i l a : nth_error (c_links (ac_c d)) i = Some l -> nth_error (ac_a d) i = Some a ->
  exists l', nth_error (c_links (with_contacts d)) i = Some l' /\ b_extw (l_body l') = b_extw (l_body l) ++ ab_wl a /\ b_mp (l_body l') = b_mp (l_body l) /\
    l_parent l' = l_parent l /\ l_joint l' = l_joint l /\ l_adj l' = l_adj l /\ same_refs l_parent l_child l_sibl l l' /\ l_offset l' = l_offset l.
Proof.
  intros Hl Ha. cbn [with_contacts c_links c_set_links]. eexists. split.
  - rewrite nth_error_map. pose proof (ac_nth_l d i l a Hl Ha) as Q. unfold ac_links in Q. rewrite nth_error_map in Q.
    destruct (nth_error (combine (c_links (ac_c d)) (ac_a d)) i) as [[x y]|]; [|discriminate]. cbn in Q. injection Q as -> ->. reflexivity.
  - cbn. repeat split.
Qed.
Lemma contacts_rel (d : achain F) : length (ac_a d) = length (c_links (ac_c d)) ->
  Forall2 (fun l l' => b_mp (l_body l') = b_mp (l_body l) /\ l_parent l' = l_parent l /\ l_joint l' = l_joint l /\ l_adj l' = l_adj l /\
    same_refs l_parent l_child l_sibl l l' /\ l_offset l' = l_offset l) (c_links (ac_c d)) (c_links (with_contacts d)).
Proof.
  intros LE. apply forall2_nth_eq.
  - cbn [with_contacts c_links c_set_links]. rewrite map_length, combine_length, LE, Nat.min_id. reflexivity.
  - intros i l Hl. destruct (nth_error (ac_a d) i) as [a|] eqn:Ha. 2:{ apply nth_error_None in Ha. apply nth_lt in Hl. lia. }
    destruct (contacts_nth d i l a Hl Ha) as (l' & A & _ & B). eauto.
Qed.
Lemma forall2_imp {A B} (R S : A -> B -> Prop) l m : (forall a b, R a b -> S a b) -> Forall2 R l m -> Forall2 S l m.
Proof. intros H. induction 1; constructor; auto. Qed.
(** What inverse dynamics finds. *)
Definition recovered g (l l' : lk) : Prop :=
  l_vel l' = l_vel l /\ l_acc l' = v6add (l_acc l) (gacc g (l_frame l)) /\ l_wrench l' = l_wrench l /\ joint_get_trq (l_joint l') = drive (l_joint l).
Lemma solved_id g (d : achain F) (c' : chain F) : well_formed (c_links (ac_c d)) -> length (ac_a d) = length (c_links (ac_c d)) ->
  framed (c_links (ac_c d)) -> consistent (c_links (ac_c d)) -> dynamics_solved g d ->
  (forall i l, nth_error (c_links (ac_c d)) i = Some l -> match l_joint l with JHooke _ => False | _ => True end /\ no_slide (l_joint l)) ->
  chain_update_id g (with_contacts d) = Some c' -> Forall2 (recovered g) (c_links (ac_c d)) (c_links c').
Proof.
  intros W LE FR CO DS JO ID. pose proof (contacts_rel d LE) as CR.
  assert (WC : well_formed (c_links (with_contacts d))).
  { eapply wf_of_refs; [|exact W]. eapply forall2_imp; [|exact CR]. cbn. tauto. }
  destruct (id_split _ _ _ WC ID) as (hr & Wr & DR & UP & SR).
  assert (LH : length (c_links c') = length (c_links (ac_c d))).
  { rewrite (proj1 UP), (proj1 DR). symmetry. eapply Forall2_len; exact CR. }
  assert (AT : forall i l, nth_error (c_links (ac_c d)) i = Some l -> exists a, nth_error (ac_a d) i = Some a).
  { intros i l Hl. destruct (nth_error (ac_a d) i) eqn:Q; eauto. apply nth_error_None in Q. apply nth_lt in Hl. lia. }
  assert (MO : moving (c_links (ac_c d))).
  { intros i l Hl. destruct (JO i l Hl) as [J1 J2]. do 2 (split; [assumption|]). destruct (AT i l Hl) as [a Ha]. destruct (DS i l a Hl Ha) as (p & cs & ls & A & B & _). eauto. }
  assert (SM : Forall2 (fun l l' => l_parent l' = l_parent l /\ l_joint l' = l_joint l /\ l_adj l' = l_adj l) (c_links (ac_c d)) (c_links (with_contacts d))).
  { eapply forall2_imp; [|exact CR]. cbn. tauto. }
  pose proof (rates g _ _ _ W FR CO MO SM DR) as RA.
  (* every link after inverse dynamics *)
  assert (PT : forall i l a, nth_error (c_links (ac_c d)) i = Some l -> nth_error (ac_a d) i = Some a -> exists l', nth_error (c_links c') i = Some l' /\
     l_vel l' = l_vel l /\ l_acc l' = v6add (l_acc l) (gacc g (l_frame l)) /\ own l' = spatial g l (l_acc l) (b_extw (l_body l) ++ ab_wl a) /\ l_adj l' = l_adj l /\
     l_joint l' = joint_calc_trq (l_joint l) (l_wrench l')).
  { intros i l a Hl Ha. destruct (contacts_nth d i l a Hl Ha) as (l1 & H1 & X1 & M1 & P1 & J1 & A1 & _). destruct (proj2 DR i l1 H1) as (p & Hr & _).
    destruct (proj2 UP i _ Hr) as (cs & ls & _ & _ & Hw). destruct (RA i l _ Hl Hr) as [V2 A2]. eexists. split; [exact Hw|].
    split; [exact V2|]. split; [exact A2|]. split; [|split; [exact A1|]].
    - change (own (wr_post (wr_pre (upd_rate l1 p)) ls)) with (own (upd_rate l1 p)). apply own_spatial; auto; try exact M1; try exact X1.
    - cbn [wr_post l_joint l_set_joint l_wrench l_set_wrench]. f_equal. exact J1. }
  destruct W as [k T]. pose proof (tree_nodup _ _ T) as ND.
  assert (T2 : tree_of hr k).
  { eapply well_formed_refs; [| |exact T]; [rewrite (proj1 DR); symmetry; eapply Forall2_len; exact CR|]. intros i l Hl. destruct (Forall2_nth _ _ _ CR i l Hl) as (l1 & H1 & _ & _ & _ & _ & S1 & _).
    destruct (proj2 DR i l1 H1) as (p & Hr & _). eexists. split; [exact Hr|]. exact S1. }
  pose proof (up_weqs _ _ UP _ _ _ (proj1 T2) ND) as WQ.
  assert (WD : weqs (at6 (c_links (ac_c d)) l_wrench) (at6 (c_links c') own) (atf (c_links c')) (FCons 0 k FNil)).
  { destruct T as [R _]. revert R ND. generalize (None : option nat) (Some 0%nat) (FCons 0 k FNil). intros p o f. revert p o. clear -DS PT AT L.
    induction f as [|i k IHk r IHr]; intros p o R ND; [exact I|].
    pose proof (rep_children _ _ _ _ _ _ R ND) as C. destruct (nodup_split _ _ _ _ eq_refl ND) as (_ & _ & Nk & Nr & _).
    destruct R as (_ & l & Hl & _ & Rk & Rr). cbn [weqs]. split; [|split; [eapply IHk; eauto|eapply IHr; eauto]].
    destruct (AT i l Hl) as [a Ha]. destruct (DS i l a Hl Ha) as (pm & cs & ls & _ & _ & C' & FA & NE & _). assert (cs = roots k) by congruence. subst cs.
    destruct (PT i l a Hl Ha) as (l' & Hl' & _ & _ & OW & _). unfold at6 at 1 2. rewrite Hl, Hl', OW, (newton_euler_spatial _ _ _ _ NE). f_equal. f_equal.
    symmetry. apply (forall2_map (c_links (ac_c d))); [|exact FA]. intros c lc H. destruct (AT c lc H) as [ac Hac]. destruct (PT c lc ac H Hac) as (lc' & Hc' & _ & _ & _ & AD & _).
    unfold atf, at6. now rewrite H, Hc', AD. }
  pose proof (weqs_unique _ _ _ _ _ WD WQ) as UQ.
  apply forall2_nth_eq; [auto|]. intros i l Hl. destruct (AT i l Hl) as [a Ha]. destruct (PT i l a Hl Ha) as (l' & Hl' & V & A & OW & AD & JT).
  exists l'. split; [exact Hl'|]. destruct (DS i l a Hl Ha) as (pm & cs & ls & _ & _ & _ & _ & _ & PJ).
  assert (WE : l_wrench l' = l_wrench l).
  { specialize (UQ i). unfold at6 in UQ. rewrite Hl, Hl' in UQ. symmetry. apply UQ. eapply tree_in; [exact T|exact (nth_lt _ _ _ Hl)]. }
  do 3 (split; [assumption|]). rewrite JT, WE. exact PJ.
Qed.

(** *** Forward dynamics followed by inverse dynamics *)
Lemma set_vel_same (j : joint F) r : joint_set_vel j (joint_get_vel j ++ r) = Some j.
Proof. destruct j as [|[[]]|[[]]|[[] []]|[[] []]|[? [] ? ? ?]|[? [[] []] ? ? ?]|[? [[] []] ? ? ?]]; reflexivity. Qed.
Lemma set_acc_same (j : joint F) r : joint_set_acc j (joint_get_acc j ++ r) = Some j.
Proof. destruct j as [|[[]]|[[]]|[[] []]|[[] []]|[? ? [] ? ?]|[? ? [[] []] ? ?]|[? ? [[] []] ? ?]]; reflexivity. Qed.
Lemma l_set_joint_same (l : lk) : l_set_joint (l_joint l) l = l. Proof. destruct l. reflexivity. Qed.
Lemma set_all_same set (get : joint F -> list F) (h : list lk) : (forall j r, set j (get j ++ r) = Some j) -> (forall j, length (get j) = joint_size j) ->
  forall s v, placed s h -> skipn s v = flat_map (fun l => get (l_joint l)) h -> set_all set h v = Some h.
Proof.
  intros SS GL. induction h as [|l t IH]; intros s v P V; [reflexivity|]. apply placed_cons in P as [A B]. cbn [set_all flat_map] in *.
  assert (NX : skipn (s + lsize l) v = flat_map (fun l => get (l_joint l)) t).
  { rewrite Nat.add_comm, <- skipn_skipn, V, skipn_app. unfold lsize. rewrite <- (GL (l_joint l)), skipn_all, Nat.sub_diag. reflexivity. }
  rewrite A. destruct (Nat.ltb 0 (lsize l)) eqn:Z.
  - rewrite V, SS. cbn [obind]. rewrite (IH _ _ B NX), l_set_joint_same. reflexivity.
  - rewrite (IH _ _ B NX). reflexivity.
Qed.
Lemma rate_same (c : chain F) v a : placed 0 (c_links c) -> v = flat_map (fun l => joint_get_vel (l_joint l)) (c_links c) -> a = flat_map (fun l => joint_get_acc (l_joint l)) (c_links c) ->
  chain_set_joint_rate_all c v a = Some c.
Proof.
  intros P V A. unfold chain_set_joint_rate_all. rewrite set_rate_all_split.
  rewrite (set_all_same joint_set_vel joint_get_vel _ set_vel_same get_vel_len 0 v P V). cbn [obind].
  rewrite (set_all_same joint_set_acc joint_get_acc _ set_acc_same get_acc_len 0 a P A). cbn. destruct c. reflexivity.
Qed.
Lemma flat_rel {A} (R : lk -> lk -> Prop) (f g : lk -> list A) h h' : (forall l l', R l l' -> g l' = f l) -> Forall2 R h h' -> flat_map g h' = flat_map f h.
Proof. intros H. induction 1; cbn [flat_map]; [reflexivity|]. f_equal; auto. Qed.
Lemma abi_then_id g (c c4 : chain F) (ca c' : achain F) dis vel k h1 h2 : ac_c ca = c4 -> posed_chain c dis vel c4 -> abi_ready ca -> abi_run g ca c' k h1 h2 ->
  ac_br c' = false -> all_regular c' -> (forall i l, nth_error (c_links (ac_c c')) i = Some l -> no_slide (l_joint l)) ->
  let qdd := flat_map (fun l => joint_get_acc (l_joint l)) (c_links (ac_c c')) in
  exists c2, chain_id g (with_contacts c') vel qdd = Some c2 /\ Forall2 (recovered g) (c_links (ac_c c')) (c_links c2) /\ placed 0 (c_links c2) /\ total (c_links c2) = total (c_links (ac_c c')).
Proof.
  intros <- PC RD RUN BR REG NS qdd.
  assert (LA : length (ac_a ca) = length (c_links (ac_c ca))) by (symmetry; eapply Forall2_len, RD).
  destruct (run_solved g ca c' k h1 h2 RD (pc_made _ _ _ _ PC) RUN BR REG) as (DS & FI & _).
  destruct RUN as (_ & _ & _ & _ & _ & _ & _ & _ & (W' & LA') & LL).
  assert (CR := contacts_rel c' LA').
  assert (P' : placed 0 (c_links (with_contacts c'))).
  { assert (P0 : placed 0 (c_links (ac_c c'))) by (eapply posed_placed; [|exact (pc_placed _ _ _ _ PC)]; eapply forall2_imp; [|exact FI]; apply finished_posed).
    revert P0. generalize 0%nat. generalize (c_links (with_contacts c')) CR. clear. intros h' CR. induction CR as [|l l' t t' Q R IH]; intros s P; [exact P|].
    apply placed_cons in P as [A B]. apply placed_cons. destruct Q as (_ & _ & Q1 & _ & _ & Q2). unfold lsize in *. rewrite Q1, Q2. auto. }
  assert (FV : flat_map (fun l => joint_get_vel (l_joint l)) (c_links (with_contacts c')) = vel).
  { rewrite <- (pc_getvel _ _ _ _ PC). transitivity (flat_map (fun l => joint_get_vel (l_joint l)) (c_links (ac_c c'))).
    - eapply flat_rel; [|exact CR]. cbn. intros l l' (_ & _ & -> & _). reflexivity.
    - eapply flat_rel; [|exact FI]. intros l l' (_ & _ & _ & _ & _ & _ & _ & _ & _ & _ & _ & _ & _ & _ & _ & _ & J & _). exact J. }
  unfold chain_id. rewrite rate_same; [|exact P'|auto|].
  2:{ unfold qdd. symmetry. eapply flat_rel; [|exact CR]. cbn. intros l l' (_ & _ & -> & _). reflexivity. }
  cbn [obind].
  assert (WC : well_formed (c_links (with_contacts c'))).
  { eapply wf_of_refs; [|exact W']. eapply forall2_imp; [|exact CR]. cbn. tauto. }
  destruct (C24_rate_pass g _ WC) as (d1 & H1 & _ & W1). destruct (C24_wrench_pass _ W1) as (d2 & H2 & _ & W2).
  assert (ID : chain_update_id g (with_contacts c') = Some (chain_calc_comacc (chain_calc_comvel d2))) by (unfold chain_update_id; rewrite H1; cbn [obind]; now rewrite H2).
  eexists. split; [exact ID|]. pose proof (id_kept _ _ _ WC ID) as K. split.
  2:{ split; [exact (kept_placed _ _ K 0 P')|]. transitivity (total (c_links (with_contacts c'))).
      - clear -K. induction K as [|l l' t t' Q R IH]; [reflexivity|]. change (lsize l' + total t' = lsize l + total t)%nat. destruct Q as (_ & _ & _ & _ & Q & _). now rewrite Q, IH.
      - clear -CR. induction CR as [|l l' t t' Q R IH]; [reflexivity|]. change (lsize l' + total t' = lsize l + total t)%nat. destruct Q as (_ & _ & Q & _). unfold lsize at 1. now rewrite Q, IH. }
  apply solved_id; auto.
  - intros i l Hl. destruct (Forall2_nth_r _ _ _ FI i l Hl) as (l0 & H0 & F1 & _ & _ & _ & _ & _ & F7 & _ & _ & F10 & _).
    destruct (pc_frames _ _ _ _ PC i l0 H0) as (_ & _ & Q). rewrite F1, F7, F10. destruct (l_parent l0) as [q|]; [|exact Q].
    destruct Q as (lq & Hq & Q). destruct (Forall2_nth _ _ _ FI q lq Hq) as (lq' & Hq' & _ & _ & _ & _ & _ & _ & _ & _ & _ & G10 & _). exists lq'. split; [exact Hq'|]. now rewrite G10.
  - destruct (pc_vel _ _ _ _ PC) as (h3 & [L3 D3]). intros i l Hl. destruct (Forall2_nth_r _ _ _ FI i l Hl) as (l0 & H0 & F1 & _ & _ & _ & _ & _ & F7 & _ & _ & _ & F11 & _ & J2 & _).
    destruct (nth_error h3 i) as [l3|] eqn:Q3. 2:{ apply nth_error_None in Q3. apply nth_lt in H0. lia. }
    destruct (D3 i l3 Q3) as (p & Hp & Q). assert (l0 = upd_vel l3 p) by congruence. rewrite F1, F7, F11, J2. clear F1 F7 F11 J2. subst l0.
    change (l_parent (upd_vel l3 p)) with (l_parent l3). destruct (l_parent l3) as [q|].
    + destruct Q as (lq & Hq & ->). destruct (Forall2_nth _ _ _ FI q lq Hq) as (lq' & Hq' & _ & _ & _ & _ & _ & _ & _ & _ & _ & _ & G11 & _). exists lq'. split; [exact Hq'|]. rewrite G11. reflexivity.
    + destruct Q as [_ ->]. reflexivity.
  - intros i l Hl. split; [|eauto]. destruct (nth_error (ac_a c') i) as [a|] eqn:Ha. 2:{ apply nth_error_None in Ha. apply nth_lt in Hl. lia. }
    destruct (REG i l a Hl Ha) as [HH _]. unfold handled in HH. destruct (l_joint l); auto.
Qed.
End A.
