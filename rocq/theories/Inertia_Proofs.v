(** * Inertia_Proofs: inverse dynamics as a function of the joint accelerations. *)
From Coq Require Import List Arith Lia Field.
From Verif Require Import Num NumFacts Vec VecFacts Motor_Model Joint_Model Joint_Spec Joint_Proofs Body_Model Body_Proofs
  Tree Tree_Proofs Link_Model Link_Spec Link_Proofs Chain_Proofs Link_Properties Chain_Properties Kin_Spec Kin_Proofs
  Jacobi_Model Jacobi_Proofs Dyn_Spec Dyn_Proofs Dyn_Properties Inertia_Spec.
Import ListNotations.
Local Open Scope nat_scope.

Section I.
Context {F : Type} {N : Num F} {L : NumLaws F N} {E : Ext F}.
Add Field FFieldI : num_field.
Local Open Scope num_scope.
Notation lk := (link F).
Local Ltac vring := intros; vdestruct; vunfold; vsplit; ring.

(** ** Lists *)
Lemma skipn_ldiff k (a b : list F) : skipn k (ldiff a b) = ldiff (skipn k a) (skipn k b).
Proof.
  revert a b. induction k as [|k IH]; intros a b; [reflexivity|]. destruct a as [|x a]; [reflexivity|]. destruct b as [|y b].
  - unfold ldiff. cbn. now rewrite combine_nil.
  - cbn. apply IH.
Qed.
Lemma ldiff_length (a b : list F) : length a = length b -> length (ldiff a b) = length a.
Proof. intros H. unfold ldiff. rewrite map_length, combine_length. lia. Qed.
Lemma dotl_ldiff_r (t a b : list F) : length a = length b -> dotl t (ldiff a b) = dotl t a - dotl t b.
Proof.
  revert a b. induction t as [|x t IH]; intros [|y a] [|z b] H; cbn in H; try discriminate; cbn; try ring.
  change (map _ (combine a b)) with (ldiff a b). rewrite IH by lia. ring.
Qed.
Lemma dotl_ext (s t : list F) : length s = length t -> (forall u, length u = length s -> dotl s u = dotl t u) -> s = t.
Proof.
  revert t. induction s as [|x s IH]; intros [|y t] LE H; cbn in LE; try discriminate; [reflexivity|].
  assert (Z : forall r : list F, forall n, dotl r (repeat 0 n) = 0). { induction r; intros [|n]; cbn; try reflexivity. rewrite IHr. ring. }
  f_equal.
  - specialize (H (1 :: repeat 0 (length s))). cbn in H. rewrite repeat_length in H. specialize (H eq_refl). rewrite !Z in H.
    transitivity (x * 1 + 0); [ring|]. rewrite H. ring.
  - apply IH; [lia|]. intros u LU. specialize (H (0 :: u)). cbn in H. rewrite LU in H. specialize (H eq_refl).
    transitivity (x * 0 + dotl s u); [ring|]. rewrite H. ring.
Qed.
Lemma ldiff_zero (a b : list F) : length a = length b -> Forall (fun x => x = 0) (ldiff a b) -> a = b.
Proof.
  revert b. induction a as [|x a IH]; intros [|y b] LE H; cbn in LE; try discriminate; [reflexivity|].
  inversion H as [|? ? H1 H2]; subst. cbn in H1. f_equal; [|apply IH; [lia|exact H2]].
  transitivity ((x - y) + y); [ring|]. rewrite H1. ring.
Qed.
Lemma nsum_map_sub {A} (f g k : A -> F) (l : list A) : (forall x, In x l -> f x - g x = k x) -> nsum (map f l) - nsum (map g l) = nsum (map k l).
Proof.
  intros H. induction l as [|x l IH]; [cbn; ring|].
  cbn [map]. change (nsum (?y :: ?t)) with (y + nsum t). rewrite <- IH by (intros; apply H; now right). rewrite <- (H x) by now left. ring.
Qed.

(** ** Joints *)
Lemma inc_vel_linear (j ja jb jd : joint F) a b x y : joint_set_vel j a = Some ja -> joint_set_vel j b = Some jb -> joint_set_vel j (ldiff a b) = Some jd ->
  joint_inc_vel jd (v6sub x y) = v6sub (joint_inc_vel ja x) (joint_inc_vel jb y).
Proof.
  intros A B D. destruct j as [|r|p|c|h|s|f|f e1 e2]; cbn in A, B, D; rd_inv A; rd_inv B; cbn in D; injection A as <-; injection B as <-; injection D as <-;
    cbn; unfold add_ang, hooke_vec; cbn; vring.
Qed.
(** What [joint_inc_acc] adds, against what [joint_inc_vel] adds. *)
Lemma inc_acc_vel (j jv ja jb wa wb : joint F) v a b w x y p q :
  joint_set_vel j v = Some jv -> joint_set_acc jv a = Some ja -> joint_set_acc jv b = Some jb -> joint_set_vel j a = Some wa -> joint_set_vel j b = Some wb ->
  v6sub x y = v6sub p q ->
  v6sub (joint_inc_acc ja (joint_inc_acc_on_vel ja w x)) (joint_inc_acc jb (joint_inc_acc_on_vel jb w y)) = v6sub (joint_inc_vel wa p) (joint_inc_vel wb q).
Proof.
  intros V A B WA WB H.
  transitivity (v6add (v6sub x y) (v6sub (v6sub (joint_inc_vel wa p) p) (v6sub (joint_inc_vel wb q) q))); [|rewrite H; vring]. clear H.
  destruct j as [|r|pj|c|h|s|f|f e1 e2]; cbn in V, WA, WB; rd_inv V; rd_inv WA; rd_inv WB; injection V as <-; cbn in A, B; injection A as <-; injection B as <-; injection WA as <-; injection WB as <-;
    cbn; unfold add_ang, hooke_vec; cbn; vring.
Qed.
Lemma inc_vel_acc (j jv ja jb : joint F) v a b x : joint_set_vel j v = Some jv -> joint_set_acc jv a = Some ja -> joint_set_acc jv b = Some jb ->
  joint_inc_vel ja x = joint_inc_vel jb x.
Proof.
  intros V A B. destruct j as [|r|pj|c|h|s|f|f e1 e2]; cbn in V; rd_inv V; injection V as <-; cbn in A, B; rd_inv A; rd_inv B; injection A as <-; injection B as <-; reflexivity.
Qed.
Lemma set_vel_again (j jv ja ju ju' : joint F) v a u : joint_set_vel j v = Some jv -> joint_set_acc jv a = Some ja -> joint_set_vel ja u = Some ju -> joint_set_vel j u = Some ju' ->
  forall x, joint_inc_vel ju x = joint_inc_vel ju' x.
Proof.
  intros V A U U' x. destruct j as [|r|pj|c|h|s|f|f e1 e2]; cbn in V; rd_inv V; injection V as <-; cbn in A; rd_inv A; injection A as <-; cbn in U, U'; rd_inv U; injection U as <-; injection U' as <-; reflexivity.
Qed.

(** ** Passes *)
Lemma parents_first (h : list lk) (P : nat -> Prop) : well_formed h ->
  (forall i l, nth_error h i = Some l -> match l_parent l with None => True | Some q => P q end -> P i) -> forall i, (i < length h)%nat -> P i.
Proof.
  intros W S i Hi. destruct (wf_lineage h i W Hi) as (t & LT & _). clear Hi.
  induction LT as [i l Hl Hp|i l q t Hl Hp LT IH]; apply (S i l Hl); rewrite Hp; auto.
Qed.
Definition vel_at (h : list lk) (u : list F) (hv : list lk) : Prop := length hv = length h /\
  forall i l, nth_error h i = Some l -> exists p l' j, nth_error hv i = Some l' /\ joint_set_vel (l_joint l) (skipn (off l) u) = Some j /\
    l_vel l' = joint_inc_vel j (xform6lin (l_adj l) p) /\ b_mp (l_body l') = b_mp (l_body l) /\
    b_comvel (l_body l') = v3add (vlin (l_vel l')) (v3cross (vang (l_vel l')) (mp_com (b_mp (l_body l')))) /\
    match l_parent l with None => p = v6zero | Some q => exists lq, nth_error hv q = Some lq /\ p = l_vel lq end.
Definition acc_at (g : F) (h : list lk) (v a : list F) (hr : list lk) : Prop := length hr = length h /\
  forall i l, nth_error h i = Some l -> exists pv pa l' j0 j, nth_error hr i = Some l' /\
    joint_set_vel (l_joint l) (skipn (off l) v) = Some j0 /\ joint_set_acc j0 (skipn (off l) a) = Some j /\
    l_vel l' = joint_inc_vel j (xform6lin (l_adj l) pv) /\
    l_acc l' = joint_inc_acc j (joint_inc_acc_on_vel j (vang (l_vel l')) (m3tv6 (fatt (l_adj l))
      (V6 (v3add (vlin (v6linshift pa (fpos (l_adj l)))) (v3cross (vang pv) (v3cross (vang pv) (fpos (l_adj l))))) (vang (v6linshift pa (fpos (l_adj l))))))) /\
    b_mp (l_body l') = b_mp (l_body l) /\ b_extw (l_body l') = b_extw (l_body l) /\
    b_comacc (l_body l') = (let w := vang (l_vel l') in let c := mp_com (b_mp (l_body l')) in v3add (v3add (v3triple w w c) (v3cross (vang (l_acc l')) c)) (vlin (l_acc l'))) /\
    match l_parent l with None => pv = v6zero /\ pa = grav g | Some q => exists lq, nth_error hr q = Some lq /\ pv = l_vel lq /\ pa = l_acc lq end.

Lemma set_rel_joint set u s (h : list lk) i l l' : (forall v, set JFixed v = Some JFixed) -> placed s h -> nth_error h i = Some l -> set_rel set u l l' ->
  set (l_joint l) (skipn (off l) u) = Some (l_joint l') /\ l' = l_set_joint (l_joint l') l.
Proof.
  intros SF P Hl S. unfold set_rel, off in *. destruct (l_offset l) as [o|] eqn:O.
  - destruct S as (j & J & ->). auto.
  - subst l'. rewrite (placed_nth s h i l P Hl) in O. destruct (Nat.ltb_spec 0 (lsize l)) as [|Z]; [discriminate|].
    assert (l_joint l = JFixed) as -> by (apply size0_joint; unfold lsize in Z; lia). split; [apply SF|].
    destruct l; cbn in *. f_equal. assert (J : l_joint = JFixed) by (apply size0_joint; unfold lsize in Z; cbn in Z; lia). now rewrite J.
Qed.
Lemma refs_set set u (h h' : list lk) : set_ok set -> Forall2 (set_rel set u) h h' -> well_formed h -> well_formed h'.
Proof. intros OK R W. destruct (set_kept _ _ _ _ OK R) as [_ S]. eapply wf_of_refs; eauto. Qed.
Lemma vel_run (c : chain F) u : well_formed (c_links c) -> placed 0 (c_links c) -> (total (c_links c) <= length u)%nat ->
  exists cv, moving c u cv /\ vel_at (c_links c) u (c_links cv).
Proof.
  intros W P LE. destruct (set_all_spec joint_set_vel u (c_links c) 0 set_vel_ok P) as (hu & A1 & R1); [lia|].
  pose proof (refs_set _ _ _ _ set_vel_ok R1 W) as Wu.
  destruct (C24_vel_pass (c_set_links hu c) Wu) as (cv & H2 & [LD D] & _). cbn [c_links c_set_links] in LD, D.
  exists cv. split; [unfold moving, chain_set_joint_vel_all; rewrite A1; cbn [option_map obind]; exact H2|].
  assert (LU : length hu = length (c_links c)) by (symmetry; eapply Forall2_len; eauto). split; [congruence|].
  intros i l Hl. destruct (Forall2_nth _ _ _ R1 i l Hl) as (lu & Hlu & S).
  destruct (set_rel_joint _ _ _ _ _ _ _ (fun _ => eq_refl) P Hl S) as [J Q]. destruct (D i lu Hlu) as (p & Hp & PP).
  exists p, (upd_vel lu p), (l_joint lu). split; [exact Hp|]. split; [exact J|].
  rewrite Q in PP |- *. repeat split. cbn in PP |- *. destruct (l_parent l); [exact PP|apply PP].
Qed.
Lemma moving_det (c : chain F) u cv cv' : moving c u cv -> moving c u cv' -> cv = cv'.
Proof. unfold moving. congruence. Qed.
Lemma vel_of (c : chain F) u cv : well_formed (c_links c) -> placed 0 (c_links c) -> (total (c_links c) <= length u)%nat -> moving c u cv -> vel_at (c_links c) u (c_links cv).
Proof. intros W P LE H. destruct (vel_run c u W P LE) as (cv' & M & V). now rewrite (moving_det _ _ _ _ H M). Qed.
Lemma acc_run g (c : chain F) v a : well_formed (c_links c) -> placed 0 (c_links c) -> (total (c_links c) <= length v)%nat -> (total (c_links c) <= length a)%nat ->
  exists c2 c', chain_set_joint_rate_all c v a = Some c2 /\ chain_update_id g c2 = Some c' /\ acc_at g (c_links c) v a (c_links c') /\
    well_formed (c_links c2) /\ placed 0 (c_links c2) /\ total (c_links c2) = total (c_links c) /\
    (forall u hv, vel_at (c_links c2) u hv -> (total (c_links c) <= length u)%nat -> vel_at (c_links c) u hv).
Proof.
  intros W P LV LA. unfold chain_set_joint_rate_all. rewrite set_rate_all_split.
  destruct (set_all_spec joint_set_vel v (c_links c) 0 set_vel_ok P) as (h1 & A1 & R1); [lia|].
  destruct (set_rel_placed _ v 0 _ _ set_vel_ok R1 P) as [P1 T1].
  destruct (set_all_spec joint_set_acc a h1 0 set_acc_ok P1) as (h2 & A2 & R2); [lia|].
  destruct (set_rel_placed _ a 0 _ _ set_acc_ok R2 P1) as [P2 T2].
  pose proof (refs_set _ _ _ _ set_acc_ok R2 (refs_set _ _ _ _ set_vel_ok R1 W)) as W2.
  assert (L1 : length h1 = length (c_links c)) by (symmetry; eapply Forall2_len; eauto).
  assert (L2 : length h2 = length h1) by (symmetry; eapply Forall2_len; eauto).
  rewrite A1. cbn [obind]. rewrite A2. cbn [option_map].
  destruct (C24_rate_pass g (c_set_links h2 c) W2) as (cr & Hr & [LD D] & Wr). destruct (C24_wrench_pass _ Wr) as (cw & Hw & [LU U] & _).
  cbn [c_links c_set_links] in LD, D.
  assert (EQ : chain_update_id g (c_set_links h2 c) = Some (chain_calc_comacc (chain_calc_comvel cw))).
  { unfold chain_update_id. rewrite Hr. cbn [obind]. rewrite Hw. reflexivity. }
  exists (c_set_links h2 c), (chain_calc_comacc (chain_calc_comvel cw)). split; [reflexivity|]. split; [exact EQ|].
  assert (STEP : forall i l, nth_error (c_links c) i = Some l -> exists l1 l2, nth_error h2 i = Some l2 /\
    joint_set_vel (l_joint l) (skipn (off l) v) = Some l1 /\ joint_set_acc l1 (skipn (off l) a) = Some (l_joint l2) /\ l2 = l_set_joint (l_joint l2) l).
  { intros i l Hl. destruct (Forall2_nth _ _ _ R1 i l Hl) as (l1 & Hl1 & S1). destruct (Forall2_nth _ _ _ R2 i l1 Hl1) as (l2 & Hl2 & S2).
    destruct (set_rel_joint _ _ _ _ _ _ _ (fun _ => eq_refl) P Hl S1) as [J1 Q1]. destruct (set_rel_joint _ _ _ _ _ _ _ (fun _ => eq_refl) P1 Hl1 S2) as [J2 Q2].
    exists (l_joint l1), l2. split; [exact Hl2|]. split; [exact J1|]. split.
    - rewrite Q1 in J2 at 2. exact J2.
    - rewrite Q2 at 1. rewrite Q1. reflexivity. }
  split; [|split; [exact W2|split; [exact P2|split; [cbn [c_links c_set_links]; lia|]]]].
  - split; [cbn; congruence|]. intros i l Hl. destruct (STEP i l Hl) as (j1 & l2 & Hl2 & J1 & J2 & Q).
    destruct (D i l2 Hl2) as ((pv & pa) & Hp & PP). destruct (U i _ Hp) as (cs & ls & _ & _ & Hu).
    exists pv, pa. eexists. exists j1, (l_joint l2). split; [exact Hu|]. split; [exact J1|]. split; [exact J2|].
    assert (J' : l_adj l2 = l_adj l /\ l_body l2 = l_body l /\ l_parent l2 = l_parent l) by (rewrite Q; repeat split). destruct J' as (K1 & K2 & K3).
    rewrite <- K1, <- K2, <- K3. repeat split. cbn [fst snd] in *. destruct (l_parent l2) as [q|]; [|destruct PP as [_ PP]; injection PP as -> ->; auto].
    destruct PP as (lq & Hq & PQ). injection PQ as -> ->. destruct (U q _ Hq) as (cs' & ls' & _ & _ & Hu').
    exists (wr_post (wr_pre lq) ls'). repeat split; exact Hu'.
  - intros u hv [LV' V] LU'. split; [cbn [c_links c_set_links] in LV'; congruence|]. intros i l Hl. destruct (STEP i l Hl) as (j1 & l2 & Hl2 & J1 & J2 & Q).
    destruct (V i l2 Hl2) as (p & l' & j & A & B & C & D' & CV & G).
    assert (K : l_adj l2 = l_adj l /\ l_body l2 = l_body l /\ l_parent l2 = l_parent l /\ off l2 = off l) by (rewrite Q; repeat split). destruct K as (K1 & K2 & K3 & K4).
    rewrite K1 in C. rewrite K2 in D'. rewrite K3 in G. rewrite K4 in B.
    destruct (set_all_spec joint_set_vel u (c_links c) 0 set_vel_ok P) as (hu & _ & Ru); [lia|]. destruct (Forall2_nth _ _ _ Ru i l Hl) as (lu & _ & Su).
    destruct (set_rel_joint _ _ _ _ _ _ _ (fun _ => eq_refl) P Hl Su) as [Ju _].
    exists p, l', (l_joint lu). split; [exact A|]. split; [exact Ju|]. split; [|auto].
    rewrite C. exact (set_vel_again _ _ _ _ _ _ _ _ J1 J2 B Ju _).
Qed.

(** ** Linearity of the link velocities *)
Lemma vel_det (h hv hw : list lk) u : well_formed h -> vel_at h u hv -> vel_at h u hw ->
  forall i, (i < length h)%nat -> forall l l', nth_error hv i = Some l -> nth_error hw i = Some l' -> l_vel l = l_vel l'.
Proof.
  intros W [LV V] [LW U]. refine (parents_first h _ W _). intros i l Hl PP a b Ha Hb.
  destruct (V i l Hl) as (p & l1 & j & A & B & C & _ & _ & G). destruct (U i l Hl) as (p' & l1' & j' & A' & B' & C' & _ & _ & G').
  assert (l1 = a) by congruence. assert (l1' = b) by congruence. subst l1 l1'. assert (j' = j) by congruence. subst j'. rewrite C, C'. do 2 f_equal.
  destruct (l_parent l) as [q|]; [|congruence]. destruct G as (lq & Hq & ->), G' as (lq' & Hq' & ->). eauto.
Qed.
Lemma vel_linear (h ha hb hd : list lk) a b : well_formed h -> vel_at h a ha -> vel_at h b hb -> vel_at h (ldiff a b) hd ->
  forall i, (i < length h)%nat -> forall x y z, nth_error ha i = Some x -> nth_error hb i = Some y -> nth_error hd i = Some z -> l_vel z = v6sub (l_vel x) (l_vel y).
Proof.
  intros W [LA VA] [LB VB] [LD VD]. refine (parents_first h _ W _). intros i l Hl PP x y z Hx Hy Hz.
  destruct (VA i l Hl) as (p & l1 & j & A1 & A2 & A3 & _ & _ & A4). destruct (VB i l Hl) as (p' & l1' & j' & B1 & B2 & B3 & _ & _ & B4).
  destruct (VD i l Hl) as (p3 & l3 & j3 & D1 & D2 & D3 & _ & _ & D4).
  assert (l1 = x) by congruence. assert (l1' = y) by congruence. assert (l3 = z) by congruence. subst l1 l1' l3. rewrite skipn_ldiff in D2.
  assert (p3 = v6sub p p') as PE.
  { destruct (l_parent l) as [q|]; [|subst; vring]. destruct A4 as (? & ? & ->), B4 as (? & ? & ->), D4 as (? & ? & ->). eauto. }
  rewrite A3, B3, D3, PE, <- (inc_vel_linear _ _ _ _ _ _ (xform6lin (l_adj l) p) (xform6lin (l_adj l) p') A2 B2 D2). f_equal. clear -L. vring.
Qed.
(** The difference of the accelerations for two joint accelerations is the difference of the velocities
    when these are joint velocities. *)
Lemma acc_linear g (h ra rb ha hb : list lk) v a b : well_formed h -> acc_at g h v a ra -> acc_at g h v b rb -> vel_at h a ha -> vel_at h b hb ->
  forall i, (i < length h)%nat -> forall x y z t, nth_error ra i = Some x -> nth_error rb i = Some y -> nth_error ha i = Some z -> nth_error hb i = Some t ->
    l_vel x = l_vel y /\ v6sub (l_acc x) (l_acc y) = v6sub (l_vel z) (l_vel t).
Proof.
  intros W [LRA RA] [LRB RB] [LA VA] [LB VB]. refine (parents_first h _ W _). intros i l Hl PP x y z t Hx Hy Hz Ht.
  destruct (RA i l Hl) as (pv & pa & x' & j0 & j & X1 & X2 & X3 & X4 & X5 & _ & _ & _ & X6).
  destruct (RB i l Hl) as (qv & qa & y' & k0 & k & Y1 & Y2 & Y3 & Y4 & Y5 & _ & _ & _ & Y6).
  destruct (VA i l Hl) as (p & z' & jz & Z1 & Z2 & Z3 & _ & _ & Z4). destruct (VB i l Hl) as (q & t' & jt & T1 & T2 & T3 & _ & _ & T4).
  assert (x' = x) by congruence. assert (y' = y) by congruence. assert (z' = z) by congruence. assert (t' = t) by congruence. subst x' y' z' t'.
  assert (k0 = j0) by congruence. subst k0.
  assert (pv = qv /\ v6sub pa qa = v6sub p q) as [-> PA].
  { destruct (l_parent l) as [r|].
    - destruct X6 as (lx & Hlx & -> & ->), Y6 as (ly & Hly & -> & ->), Z4 as (lz & Hlz & ->), T4 as (lt & Hlt & ->). exact (PP _ _ _ _ Hlx Hly Hlz Hlt).
    - destruct X6 as [-> ->], Y6 as [-> ->]. subst p q. split; [reflexivity|]. vring. }
  assert (VE : l_vel x = l_vel y) by (rewrite X4, Y4; exact (inc_vel_acc _ _ _ _ _ _ _ _ X2 X3 Y3)). split; [exact VE|].
  rewrite X5, Y5, Z3, T3, <- VE. refine (inc_acc_vel _ _ _ _ _ _ _ _ _ _ _ _ _ _ X2 X3 Y3 Z2 T2 _).
  revert PA. clear -L. intros PA.
  transitivity (xform6lin (l_adj l) (v6sub pa qa)); [clear PA; vring|]. rewrite PA. vring.
Qed.

(** ** Power *)
Lemma v6_of_sub (p q r s : vec6 F) : v6sub p q = v6sub r s -> p = v6add q (v6sub r s).
Proof. intros <-. vring. Qed.
Lemma combine_nth_in {A B} (a : list A) (b : list B) p : In p (combine a b) -> exists i, nth_error a i = Some (fst p) /\ nth_error b i = Some (snd p).
Proof.
  revert b. induction a as [|x a IH]; intros [|y b] H; cbn in H; try contradiction. destruct H as [<-|H]; [exists 0%nat; auto|].
  destruct (IH b H) as (i & A1 & A2). exists (S i). auto.
Qed.
Lemma nsum_combine_sub {A B} (f g : A -> B -> F) (h h' : list A) (k : list B) (r : A -> B -> F) (m m' : list A) :
  length h = length k -> length h' = length k -> length m = length k -> length m' = length k ->
  (forall i x x' y z z', nth_error h i = Some x -> nth_error h' i = Some x' -> nth_error k i = Some y -> nth_error m i = Some z -> nth_error m' i = Some z' ->
     f x y - g x' y = r z y - r z' y) ->
  nsum (map (fun p => f (fst p) (snd p)) (combine h k)) - nsum (map (fun p => g (fst p) (snd p)) (combine h' k)) =
  nsum (map (fun p => r (fst p) (snd p)) (combine m k)) - nsum (map (fun p => r (fst p) (snd p)) (combine m' k)).
Proof.
  revert h h' m m'. induction k as [|y k IH]; intros [|x h] [|x' h'] [|z m] [|z' m'] L1 L2 L3 L4 H; cbn in L1, L2, L3, L4; try discriminate; [reflexivity|].
  cbn [combine map]. change (nsum (?y :: ?t)) with (y + nsum t).
  assert (H0 := H 0%nat _ _ _ _ _ eq_refl eq_refl eq_refl eq_refl eq_refl). cbn [fst snd] in *.
  assert (IH' := IH h h' m m' ltac:(lia) ltac:(lia) ltac:(lia) ltac:(lia) (fun i => H (S i))).
  transitivity ((f x y - g x' y) + (nsum (map (fun p => f (fst p) (snd p)) (combine h k)) - nsum (map (fun p => g (fst p) (snd p)) (combine h' k)))); [ring|].
  rewrite H0, IH'. ring.
Qed.
Lemma at_len {h : list lk} {u hv} : vel_at h u hv -> length hv = length h. Proof. intros [H _]; exact H. Qed.
Lemma power_difference g (h ra rb ha hb hu : list lk) v a b u : well_formed h -> acc_at g h v a ra -> acc_at g h v b rb -> vel_at h a ha -> vel_at h b hb -> vel_at h u hu ->
  total_power ra hu - total_power rb hu = kin_product ha hu - kin_product hb hu.
Proof.
  intros W RA RB VA VB VU. unfold total_power, kin_product. apply (nsum_combine_sub (fun x y => virtual_power x (l_vel y)) (fun x y => virtual_power x (l_vel y))).
  1,2,3,4: rewrite (at_len VU). { apply RA. } { apply RB. } { apply VA. } { apply VB. }
  intros i x x' y z z' Hx Hx' Hy Hz Hz'. assert (LI : (i < length h)%nat) by (rewrite <- (at_len VU); eapply nth_lt; eauto).
  destruct (acc_linear _ _ _ _ _ _ _ _ _ W RA RB VA VB i LI _ _ _ _ Hx Hx' Hz Hz') as [VE AE].
  destruct (nth_error h i) as [l|] eqn:Hl; [|apply nth_error_None in Hl; lia].
  destruct RA as [_ RA], RB as [_ RB], VA as [_ VA], VB as [_ VB], VU as [_ VU].
  destruct (RA i l Hl) as (? & ? & qx1 & ? & ? & X1 & _ & _ & _ & _ & X2 & X3 & X4 & _). destruct (RB i l Hl) as (? & ? & qx2 & ? & ? & Y1 & _ & _ & _ & _ & Y2 & Y3 & Y4 & _).
  destruct (VA i l Hl) as (? & qz1 & ? & Z1 & _ & _ & Z2 & Z3 & _). destruct (VB i l Hl) as (? & qz2 & ? & T1 & _ & _ & T2 & T3 & _). destruct (VU i l Hl) as (? & qy1 & ? & U1 & _ & _ & U2 & U3 & _).
  assert (qx1 = x) by congruence. assert (qx2 = x') by congruence. assert (qz1 = z) by congruence. assert (qz2 = z') by congruence. assert (qy1 = y) by congruence. subst.
  unfold virtual_power, kin_pair, l_mass, l_com. rewrite X3, Y3, X4, Y4, Z3, T3, U3, VE, X2, Y2, Z2, T2, U2.
  set (m := b_mp (l_body l)). generalize (nsum (map (fun c => v3dot (vlin (wr_w c)) (v3add (vlin (l_vel y)) (v3cross (vang (l_vel y)) (wr_p c))) + v3dot (vang (wr_w c)) (vang (l_vel y))) (b_extw (l_body l)))).
  intros s. assert (LE : l_acc x = v6add (l_acc x') (v6sub (l_vel z) (l_vel z'))) by (apply v6_of_sub; exact AE). rewrite LE. cbv zeta.
  generalize (l_acc x') (l_vel z) (l_vel z') (l_vel x') (l_vel y). clearbody m. clear -L. destruct m as [mm mc mi]. cbn [mp_mass mp_com mp_inertia]. vring.
Qed.

(** The torques, and their power along any joint velocities. *)
Lemma torques_power g (c : chain F) v a w : well_formed (c_links c) -> offsets_set c ->
  length v = chain_joint_size c -> length a = chain_joint_size c -> length w = chain_joint_size c ->
  exists ra tau, acc_at g (c_links c) v a ra /\ torques g c v a w tau /\ length tau = chain_joint_size c /\
    forall u hu, length u = chain_joint_size c -> vel_at (c_links c) u hu -> dotl tau u = total_power ra hu.
Proof.
  intros W O LV LA LW. pose proof O as P. apply offsets_placed in P. rewrite chain_joint_size_total in *.
  destruct (acc_run g c v a W P ltac:(lia) ltac:(lia)) as (c2 & c' & H1 & H2 & RA & W2 & P2 & T2 & VV).
  assert (O2 : offsets_set c2) by (unfold offsets_set, chain_set_offset; rewrite P2; destruct c2; reflexivity).
  assert (PW : forall u cu cv, length u = total (c_links c) -> chain_set_joint_vel_all c2 u = Some cu -> chain_update_vel cu = Some cv -> exists tau,
    chain_get_joint_trq_all c' w = Some tau /\ length tau = length u /\ dotl tau u = total_power (c_links c') (c_links cv)).
  { intros u cu cv LU SU UV. apply (C38_virtual_power g c2 c' cu cv u w); auto; rewrite chain_joint_size_total; lia. }
  assert (RUN : forall u, length u = total (c_links c) -> exists cu cv, chain_set_joint_vel_all c2 u = Some cu /\ chain_update_vel cu = Some cv /\ vel_at (c_links c) u (c_links cv)).
  { intros u LU. destruct (vel_run c2 u W2 P2 ltac:(lia)) as (cv & M & V). unfold moving in M. destruct (chain_set_joint_vel_all c2 u) as [cu|]; [|discriminate M].
    cbn [obind] in M. exists cu, cv. split; [reflexivity|]. split; [exact M|]. apply VV; [exact V|lia]. }
  destruct (RUN w LW) as (cu0 & cv0 & S0 & U0 & _). destruct (PW w cu0 cv0 LW S0 U0) as (tau & G & LT & _).
  exists (c_links c'), tau. split; [exact RA|]. split; [|split; [lia|]].
  - unfold torques, chain_id. rewrite H1. cbn [obind]. rewrite H2. exact G.
  - intros u hu LU VU. destruct (RUN u LU) as (cu & cv & S1 & U1 & V1). destruct (PW u cu cv LU S1 U1) as (tau' & G' & _ & PE).
    assert (tau' = tau) by congruence. subst tau'. rewrite PE. unfold total_power.
    assert (LE : length (c_links cv) = length hu) by (rewrite (at_len V1), (at_len VU); reflexivity).
    pose proof (vel_det _ _ _ _ W V1 VU) as DV. revert LE. rewrite <- (at_len V1) in DV. revert DV. clear -L.
    generalize (c_links c') (c_links cv) hu. intros k h. revert k. induction h as [|x h IH]; intros [|y k] [|z m] DV LE; cbn in LE; try discriminate; try reflexivity.
    cbn [combine map fst snd]. change (nsum (?y :: ?t)) with (y + nsum t). rewrite (DV 0%nat ltac:(cbn; lia) x z eq_refl eq_refl).
    rewrite (IH k m); [reflexivity| |lia]. intros i Hi. exact (DV (S i) ltac:(cbn; lia)).
Qed.
Lemma torques_det g (c : chain F) v a w t t' : torques g c v a w t -> torques g c v a w t' -> t = t'.
Proof. unfold torques. congruence. Qed.
Lemma torques_of g (c : chain F) v a w tau : well_formed (c_links c) -> offsets_set c ->
  length v = chain_joint_size c -> length a = chain_joint_size c -> length w = chain_joint_size c -> torques g c v a w tau ->
  exists ra, acc_at g (c_links c) v a ra /\ length tau = chain_joint_size c /\
    forall u hu, length u = chain_joint_size c -> vel_at (c_links c) u hu -> dotl tau u = total_power ra hu.
Proof.
  intros W O LV LA LW H. destruct (torques_power g c v a w W O LV LA LW) as (ra & t & A & B & C & D).
  assert (t = tau) by (eapply torques_det; eauto). subst t. eauto.
Qed.
Lemma kin_product_sub (ha hb hd hu : list lk) (h : list lk) a b u : well_formed h -> vel_at h a ha -> vel_at h b hb -> vel_at h (ldiff a b) hd -> vel_at h u hu ->
  kin_product ha hu - kin_product hb hu = kin_product hd hu.
Proof.
  intros W VA VB VD VU. unfold kin_product.
  transitivity (nsum (map (fun p => kin_pair (fst p) (snd p)) (combine hd hu)) - nsum (map (fun p : lk * lk => 0) (combine hd hu))).
  2:{ assert (Z : forall l : list (lk * lk), nsum (map (fun _ => 0) l) = 0) by (induction l as [|x l IH]; [reflexivity|]; cbn [map]; change (nsum (?y :: ?t)) with (y + nsum t); rewrite IH; ring).
      rewrite Z. ring. }
  symmetry. apply (nsum_combine_sub kin_pair (fun _ _ => 0)); try (rewrite ?(at_len VA), ?(at_len VB), ?(at_len VD), (at_len VU); reflexivity).
  intros i x x' y z z' Hx Hx' Hy Hz Hz'. assert (LI : (i < length h)%nat) by (rewrite <- (at_len VU); eapply nth_lt; eauto).
  pose proof (vel_linear _ _ _ _ _ _ W VA VB VD i LI _ _ _ Hz Hz' Hx) as VE.
  destruct (nth_error h i) as [l|] eqn:Hl; [|apply nth_error_None in Hl; lia]. destruct VA as [_ VA], VB as [_ VB], VD as [_ VD].
  destruct (VA i l Hl) as (? & qz1 & ? & Z1 & _ & _ & Z2 & Z3 & _). destruct (VB i l Hl) as (? & qz2 & ? & T1 & _ & _ & T2 & T3 & _). destruct (VD i l Hl) as (? & qx1 & ? & U1 & _ & _ & U2 & U3 & _).
  assert (qx1 = x) by congruence. assert (qz1 = z) by congruence. assert (qz2 = z') by congruence. subst.
  unfold kin_pair. rewrite Z3, T3, U3, VE, Z2, T2, U2. generalize (b_mp (l_body l)) (l_vel z) (l_vel z') (l_vel y) (b_comvel (l_body y)). clear -L.
  intros [mm mc mi]. cbn [mp_mass mp_com mp_inertia]. vring.
Qed.
Lemma kin_product_sym (h k : list lk) : length h = length k -> (forall i x y, nth_error h i = Some x -> nth_error k i = Some y -> b_mp (l_body x) = b_mp (l_body y) /\ sym3 (mp_inertia (b_mp (l_body x)))) ->
  kin_product h k = kin_product k h.
Proof.
  revert k. induction h as [|x h IH]; intros [|y k] LE H; cbn in LE; try discriminate; [reflexivity|]. unfold kin_product. cbn [combine map fst snd].
  change (nsum (?y :: ?t)) with (y + nsum t). change (nsum (map (fun p => kin_pair (fst p) (snd p)) (combine ?a ?b))) with (kin_product a b).
  rewrite (IH k); [|lia|exact (fun i => H (S i))]. f_equal. destruct (H 0%nat x y eq_refl eq_refl) as [M SY]. unfold kin_pair. rewrite <- M.
  unfold sym3 in SY. f_equal; [f_equal; apply v3dot_comm|]. rewrite (v3dot_comm (m3v _ _)), v3dot_m3v, m3tv_tr, SY. reflexivity.
Qed.
End I.
