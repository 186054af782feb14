(** * ABI_Proofs: the articulated body algorithm on link trees. *)
From Coq Require Import List Arith Lia Permutation Field.
From Verif Require Import Num NumFacts Vec VecFacts Motor_Model Joint_Model Joint_Spec Joint_Proofs Body_Model Body_Proofs
  Tree Tree_Proofs Link_Model Link_Spec Link_Proofs Chain_Proofs Link_Properties Chain_Properties Kin_Spec Kin_Proofs
  Dyn_Spec Dyn_Proofs Walk Walk_Proofs ABI_Model ABI_Spec ABI_Alg.
Import ListNotations.
Local Open Scope nat_scope.

Section A.
Context {F : Type} {N : Num F} {L : NumLaws F N} {E : Ext F} {MI : MInv F}.
Add Field FField : num_field.
Local Open Scope num_scope.
Notation lk := (link F).
Notation al := (alink F).
Notation arep := (@rep al al_parent al_child al_sibl).
Notation asame := (@same_refs al al_parent al_child al_sibl).

(** ** References *)
Lemma back_refs br (l : al) : asame l (abi_back br l). Proof. repeat split. Qed.
Lemma give_refs br (l q : al) : asame q (abi_give br l q). Proof. repeat split. Qed.
Lemma fwd_refs br (l : al) p : asame l (abi_fwd br l p). Proof. repeat split. Qed.
Lemma arep_of (h : list al) p o f : lrep (map al_l h) p o f -> arep h p o f.
Proof.
  revert p o. induction f as [|i k IHk r IHr]; intros p o; [exact (fun x => x)|]. intros (A & l & Hl & Hp & Hk & Hr). split; [exact A|].
  rewrite nth_error_map in Hl. destruct (nth_error h i) as [a|] eqn:Ha; [|discriminate]. injection Hl as <-. exists a. repeat split; auto.
Qed.
Lemma lrep_of (h : list al) p o f : arep h p o f -> lrep (map al_l h) p o f.
Proof.
  revert p o. induction f as [|i k IHk r IHr]; intros p o; [exact (fun x => x)|]. intros (A & l & Hl & Hp & Hk & Hr). split; [exact A|].
  exists (al_l l). rewrite nth_error_map, Hl. repeat split; auto.
Qed.

(** ** What the children add up to *)
Definition gI br (k : al) : mat6 F := joint_give_abi br (al_joint k) (ab_i (al_a k)) (l_adj (al_l k)) (ab_iaxi (al_a k)).
Definition gB br (k : al) : vec6 F :=
  joint_give_bias br (al_joint k) (ab_i (al_a k)) (v6add (m6v (ab_i (al_a k)) (ab_c (al_a k))) (ab_b (al_a k))) (l_adj (al_l k)) (ab_iaxi (al_a k)).
Definition sumI br (m : mat6 F) (ks : list al) : mat6 F := fold_right (fun k s => m6add s (gI br k)) m ks.
Definition sumB br (b : vec6 F) (ks : list al) : vec6 F := fold_right (fun k s => v6add s (gB br k)) b ks.
Lemma fold_give br (l : al) ks :
  let l' := fold_right (abi_give br) l ks in
  al_l l' = al_l l /\ ab_i (al_a l') = sumI br (ab_i (al_a l)) ks /\ ab_b (al_a l') = sumB br (ab_b (al_a l)) ks /\
  ab_m (al_a l') = ab_m (al_a l) /\ ab_f (al_a l') = ab_f (al_a l) /\ ab_c (al_a l') = ab_c (al_a l) /\ ab_wl (al_a l') = ab_wl (al_a l) /\
  ab_w (al_a l') = ab_w (al_a l) /\ ab_axi (al_a l') = ab_axi (al_a l) /\ ab_iaxi (al_a l') = ab_iaxi (al_a l) /\ ab_path (al_a l') = ab_path (al_a l).
Proof.
  induction ks as [|k ks IH]; cbn [fold_right]; [repeat split|]. destruct IH as (A1 & A2 & A3 & A4 & A5 & A6 & A7 & A8 & A9 & A10 & A11).
  set (l0 := fold_right (abi_give br) l ks) in *. cbv zeta.
  unfold abi_give, abi_add_bias, al_map_a. cbn [al_l al_a ab_set_b ab_set_i ab_i ab_b ab_m ab_f ab_c ab_wl ab_w ab_axi ab_iaxi ab_path].
  cbn [sumI sumB fold_right]. unfold sumI, sumB in A2, A3. rewrite A2, A3. repeat split; assumption.
Qed.
Lemma sumI_v br m ks v : m6v (sumI br m ks) v = v6add (m6v m v) (v6sum (map (fun k => m6v (gI br k) v) ks)).
Proof.
  induction ks as [|k ks IH]; cbn [sumI fold_right map]; [change (v6sum []) with (v6zero : vec6 F); now rewrite v6add_0_r|].
  change (v6sum (?a :: ?l)) with (v6add a (v6sum l)). unfold sumI in IH. rewrite m6v_add_l, IH, <- v6add_assoc. f_equal. apply v6add_comm.
Qed.
Lemma sumB_v br b ks : sumB br b ks = v6add b (v6sum (map (gB br) ks)).
Proof.
  induction ks as [|k ks IH]; cbn [sumB fold_right map]; [change (v6sum []) with (v6zero : vec6 F); now rewrite v6add_0_r|].
  change (v6sum (?a :: ?l)) with (v6add a (v6sum l)). unfold sumB in IH. rewrite IH, <- v6add_assoc. f_equal. apply v6add_comm.
Qed.
Lemma sumI_sym br m ks : sym6 m -> (forall k, In k ks -> sym6 (gI br k)) -> sym6 (sumI br m ks).
Proof.
  induction ks as [|k ks IH]; intros S H; [exact S|]. cbn [sumI fold_right]. apply m6add_sym; [apply IH; auto|]; intros; apply H; cbn; auto.
Qed.

(** Inertias stay symmetric. *)
Definition not_cylin (j : joint F) : Prop := match j with JCylin _ => False | _ => True end.
Lemma driving_not_cylin (j : joint F) : not_cylin j -> not_cylin (joint_driving_torque j). Proof. now destruct j. Qed.
Lemma backed_sym br (h1 h2 : list al) f : backed (abi_back br) (abi_give br) h1 h2 f ->
  (forall i l, In i (ids f) -> nth_error h1 i = Some l -> sym6 (ab_i (al_a l)) /\ not_cylin (al_joint l)) ->
  forall i l, In i (ids f) -> nth_error h2 i = Some l -> sym6 (ab_i (al_a l)) /\ not_cylin (al_joint l).
Proof.
  induction f as [|i k IHk r IHr]; cbn [backed ids]; [contradiction|]. intros (l1 & H1 & H2 & HK & HR) HY j l I Hl.
  assert (IK := IHk HK (fun a b Ia => HY a b (or_intror (in_or_app _ _ _ (or_introl Ia))))).
  destruct I as [<-|I].
  - rewrite H2 in Hl. injection Hl as <-. destruct (HY i l1 (or_introl eq_refl) H1) as [S NC].
    destruct (fold_give br l1 (pick h2 (roots k))) as (A1 & A2 & _). unfold abi_back. cbn [al_set_joint al_map_a al_a ab_set_axi ab_set_b ab_i].
    rewrite A2. split.
    + apply sumI_sym; [exact S|]. intros q Iq. assert (exists c, In c (roots k) /\ nth_error h2 c = Some q) as (c & Ic & Hc).
      { revert Iq. clear. induction (roots k) as [|c t IH]; cbn; [contradiction|]. destruct (nth_error h2 c) eqn:HC; [intros [<-|I]; [exists c; auto|]|intros I];
         destruct (IH I) as (c' & A & B); exists c'; auto. }
      destruct (IK c q (roots_ids _ _ Ic) Hc) as [Sq Nq]. now apply give_sym.
    + unfold al_joint. cbn [al_l l_set_joint l_joint]. apply driving_not_cylin. rewrite A1. exact NC.
  - apply in_app_or in I as [I|I]; [eapply IK; eauto|]. eapply IHr; eauto. intros a b Ia. apply HY. right. apply in_or_app. auto.
Qed.

(** ** The solution at one link *)
Definition ready (k : al) : Prop :=
  (exists k0, k = abi_back false k0) /\ gives (al_joint k) /\ sym6 (ab_i (al_a k)) /\ regular (al_joint k) (ab_axi (al_a k)) (ab_iaxi (al_a k)).
Lemma axis_driving br (j : joint F) m ax : joint_axis_inertia br (joint_driving_torque j) m ax = joint_axis_inertia br j m ax.
Proof. now destruct j. Qed.
Lemma back_axi br (k0 : al) : let k := abi_back br k0 in
  (ab_axi (al_a k), ab_iaxi (al_a k)) = joint_axis_inertia br (al_joint k) (ab_i (al_a k)) (ab_axi (al_a k0), ab_iaxi (al_a k0)).
Proof.
  cbv zeta. unfold abi_back, al_joint. cbn [al_set_joint al_map_a al_a al_l ab_set_axi ab_set_b ab_axi ab_iaxi ab_i l_set_joint l_joint].
  rewrite axis_driving. symmetry. apply surjective_pairing.
Qed.
Lemma ready_hand_over (k : al) pa : ready k ->
  v6add (m6v (gI false k) pa) (gB false k) = (let k3 := snd (abi_fwd_wrench false k pa) in xform6ang (l_adj (al_l k3)) (l_wrench (al_l k3))).
Proof.
  intros ((k0 & E0) & G & S & R). cbv zeta.
  assert (X := back_axi false k0). rewrite <- E0 in X. cbv zeta in X.
  assert (X2 := f_equal snd X). cbn [snd] in X2. assert (X1 := f_equal fst X). cbn [fst] in X1.
  rewrite X1, X2 in R.
  assert (H := joint_hand_over (al_joint k) (ab_i (al_a k)) (ab_b (al_a k)) (l_adj (al_l k)) (ab_c (al_a k)) pa (al_acc k) (ab_axi (al_a k0), ab_iaxi (al_a k0)) G S R).
  cbv zeta in H. rewrite <- X2 in H. exact H.
Qed.
Lemma v6sum_map2 (f g : al -> vec6 F) ks : v6sum (map (fun k => v6add (f k) (g k)) ks) = v6add (v6sum (map f ks)) (v6sum (map g ks)).
Proof.
  induction ks as [|k ks IH]; cbn [map]; [change (v6sum []) with (v6zero : vec6 F); now rewrite v6add_0_r|].
  change (v6sum (?a :: ?l)) with (v6add a (v6sum l)). rewrite IH, <- !v6add_assoc. f_equal. rewrite !v6add_assoc. f_equal. apply v6add_comm.
Qed.
Lemma v6_shuffle (a b c d e : vec6 F) : v6add (v6add a b) (v6sub (v6add c d) e) = v6add (v6sub (v6add a c) e) (v6add b d).
Proof. vdestruct. vunfold. vsplit; ring. Qed.
Lemma local_wrench (l1 l2 l3 : al) ks2 ks3 pa :
  l2 = abi_back false (fold_right (abi_give false) l1 ks2) -> l3 = snd (abi_fwd_wrench false l2 pa) ->
  Forall2 (fun k2 k3 => k3 = snd (abi_fwd_wrench false k2 (al_acc l3)) /\ ready k2) ks2 ks3 ->
  l_wrench (al_l l3) = v6add (v6sub (v6add (m6v (ab_i (al_a l1)) (al_acc l3)) (ab_b (al_a l1))) (ab_w (al_a l1)))
    (v6sum (map (fun k => xform6ang (l_adj (al_l k)) (l_wrench (al_l k))) ks3)).
Proof.
  intros E2 E3 FK.
  assert (KS : map (fun k => xform6ang (l_adj (al_l k)) (l_wrench (al_l k))) ks3 = map (fun k => v6add (m6v (gI false k) (al_acc l3)) (gB false k)) ks2).
  { clear E2 E3. induction FK as [|k2 k3 t2 t3 [A R] FK IH]; [reflexivity|]. cbn [map]. f_equal; [|exact IH]. rewrite (ready_hand_over _ _ R). now rewrite A. }
  rewrite KS, (v6sum_map2 (fun k => m6v (gI false k) (al_acc l3))).
  destruct (fold_give false l1 ks2) as (A1 & A2 & A3 & A4 & A5 & A6 & A7 & A8 & _). set (l1' := fold_right _ _ _) in *.
  assert (W : l_wrench (al_l l3) = v6add (m6v (ab_i (al_a l2)) (al_acc l3)) (ab_b (al_a l2))) by (rewrite E3; reflexivity).
  rewrite W, E2. unfold abi_back. cbn [al_set_joint al_map_a al_a ab_set_axi ab_set_b ab_i ab_b]. rewrite A2, A3, A8, sumI_v, sumB_v. apply v6_shuffle.
Qed.

(** What the algorithm leaves of the joint. *)
Definition jkept (j j' : joint F) : Prop :=
  jtype_of j' = jtype_of j /\ joint_inc_vel j' = joint_inc_vel j /\ joint_inc_acc_on_vel j' = joint_inc_acc_on_vel j /\
  joint_xform j' = joint_xform j /\ joint_size j' = joint_size j /\ joint_get_vel j' = joint_get_vel j /\ joint_get_dis j' = joint_get_dis j /\
  joint_motor j' = joint_motor j /\ (cache_ok j -> cache_ok j') /\ (rot_ok j -> rot_ok j').
Lemma jkept_refl j : jkept j j. Proof. repeat (split; [reflexivity|]). split; auto. Qed.
Lemma jkept_trans a b c : jkept a b -> jkept b c -> jkept a c.
Proof. intros (A1&A2&A3&A4&A5&A6&A7&A8&A9&A10) (B1&B2&B3&B4&B5&B6&B7&B8&B9&B10). repeat (split; [congruence|]). split; auto. Qed.
Lemma jkept_driving (j : joint F) : jkept j (joint_driving_torque j).
Proof. destruct j; repeat (split; [reflexivity|]); split; auto. Qed.
Lemma jkept_qacc br (j : joint F) m b jac h old : jkept j (fst (joint_qacc br j m b jac h old)).
Proof. destruct j; try apply jkept_refl; cbn [joint_qacc]; try destruct br; cbn [fst]; repeat (split; [reflexivity|]); split; auto. Qed.
Lemma jkept_type (P : jtype -> Prop) j j' : jkept j j' -> P (jtype_of j') -> P (jtype_of j).
Proof. intros (A & _). now rewrite A. Qed.

(** What the algorithm leaves of the link. *)
Definition finished (l l' : lk) : Prop :=
  l_parent l' = l_parent l /\ l_child l' = l_child l /\ l_sibl l' = l_sibl l /\ l_name l' = l_name l /\ l_offset l' = l_offset l /\
  l_org l' = l_org l /\ l_adj l' = l_adj l /\ b_mp (l_body l') = b_mp (l_body l) /\ b_extw (l_body l') = b_extw (l_body l) /\
  l_frame l' = l_frame l /\ l_vel l' = l_vel l /\ jkept (l_joint l) (l_joint l').

Lemma local_joint (l1 l2 l3 : al) ks2 pa : 0 < x_tol ->
  l2 = abi_back false (fold_right (abi_give false) l1 ks2) -> l3 = snd (abi_fwd_wrench false l2 pa) ->
  finished (al_l l1) (al_l l3) /\
  (qaccs (al_joint l3) -> rot_ok (al_joint l1) -> l_acc (al_l l3) = joint_inc_acc (l_joint (al_l l3)) (v6add (xform6lin (l_adj (al_l l3)) pa) (ab_c (al_a l1)))) /\
  (regular (al_joint l3) (ab_axi (al_a l3)) (ab_iaxi (al_a l3)) -> projected (l_joint (al_l l3)) (l_wrench (al_l l3)) = drive (l_joint (al_l l3))).
Proof.
  intros T E2 E3. destruct (fold_give false l1 ks2) as (A1 & A2 & A3 & A4 & A5 & A6 & A7 & A8 & _).
  assert (X := back_axi false (fold_right (abi_give false) l1 ks2)). rewrite <- E2 in X. cbv zeta in X.
  assert (X2 := f_equal snd X). cbn [snd] in X2. assert (X1 := f_equal fst X). cbn [fst] in X1.
  set (l1' := fold_right _ _ _) in *.
  assert (J2 : al_joint l2 = joint_driving_torque (al_joint l1)) by (rewrite E2; unfold al_joint, abi_back; cbn [al_set_joint al_l al_map_a l_set_joint l_joint]; unfold al_joint; now rewrite A1).
  assert (LL : al_l l2 = l_set_joint (joint_driving_torque (al_joint l1)) (al_l l1)).
  { rewrite E2. unfold abi_back. cbn [al_set_joint al_l al_map_a]. unfold al_joint. now rewrite A1. }
  assert (C2 : ab_c (al_a l2) = ab_c (al_a l1)) by (rewrite E2; exact A6).
  set (jac := v6add (xform6lin (l_adj (al_l l2)) pa) (ab_c (al_a l2))).
  set (r := joint_qacc false (al_joint l2) (ab_i (al_a l2)) (ab_b (al_a l2)) jac (ab_iaxi (al_a l2)) (al_acc l2)).
  assert (J3 : al_joint l3 = fst r) by (rewrite E3; reflexivity).
  assert (AC : l_acc (al_l l3) = snd r) by (rewrite E3; reflexivity).
  assert (AD : l_adj (al_l l3) = l_adj (al_l l2)) by (rewrite E3; reflexivity).
  assert (AA : al_a l3 = al_a l2) by (rewrite E3; reflexivity).
  assert (WW : l_wrench (al_l l3) = joint_wrench (ab_i (al_a l2)) (ab_b (al_a l2)) (snd r)) by (rewrite E3; reflexivity).
  assert (JK : jkept (al_joint l1) (al_joint l3)).
  { rewrite J3. eapply jkept_trans; [apply jkept_driving|]. rewrite <- J2. apply jkept_qacc. }
  split; [|split].
  - unfold finished. fold (al_joint l3) (al_joint l1). do 11 (split; [rewrite E3; cbn [abi_fwd_wrench snd al_set_wrench abi_fwd al_set_acc al_set_joint al_l]; rewrite LL; reflexivity|]). exact JK.
  - intros Q RO. fold (al_joint l3). rewrite AC, J3, AD, <- C2. symmetry. apply qacc_inc.
    + rewrite J3 in Q. revert Q. unfold r. clear. destruct (al_joint l2); auto.
    + rewrite J2. now apply jkept_driving.
  - fold (al_joint l3). rewrite AA, WW, J3. intros R.
    assert (R' : regular (al_joint l2) (ab_axi (al_a l2)) (ab_iaxi (al_a l2))).
    { revert R. unfold r. clear. destruct (al_joint l2); auto. }
    rewrite X1, X2 in R'. unfold r. rewrite J2 in *.
    assert (H := qacc_drive (al_joint l1) (ab_i (al_a l2)) (ab_b (al_a l2)) jac (al_acc l2) (ab_axi (al_a l1'), ab_iaxi (al_a l1')) T R').
    cbv zeta in H. rewrite <- X2 in H. exact H.
Qed.

(** ** Chains *)
Lemma combine_split {A B} (l : list A) (m : list B) : length m = length l -> map fst (combine l m) = l /\ map snd (combine l m) = m.
Proof.
  revert m. induction l as [|a l IH]; intros [|b m] H; try discriminate; [split; reflexivity|]. cbn. destruct (IH m) as [-> ->]; auto.
Qed.
Lemma ac_links_l (c : achain F) : length (ac_a c) = length (c_links (ac_c c)) -> map al_l (ac_links c) = c_links (ac_c c).
Proof. intros H. unfold ac_links. rewrite map_map. cbn [al_l]. apply combine_split, H. Qed.
Lemma ac_links_a (c : achain F) : length (ac_a c) = length (c_links (ac_c c)) -> map al_a (ac_links c) = ac_a c.
Proof. intros H. unfold ac_links. rewrite map_map. cbn [al_a]. apply combine_split, H. Qed.
Lemma ac_links_len (c : achain F) : length (ac_a c) = length (c_links (ac_c c)) -> length (ac_links c) = length (c_links (ac_c c)).
Proof. intros H. rewrite <- (map_length al_l). now rewrite ac_links_l. Qed.
Lemma ac_links_put (c : achain F) br h : ac_links (ac_put c br h) = h.
Proof. unfold ac_links, ac_put. cbn [ac_c ac_a c_links c_set_links]. induction h as [|[l a] h IH]; cbn; [reflexivity|]. now rewrite IH. Qed.
Lemma ac_put_len (c : achain F) br h : length (ac_a (ac_put c br h)) = length (c_links (ac_c (ac_put c br h))).
Proof. cbn. now rewrite !map_length. Qed.
Lemma ac_nth (c : achain F) i : nth_error (ac_links c) i =
  match nth_error (c_links (ac_c c)) i, nth_error (ac_a c) i with Some l, Some a => Some (AL l a) | _, _ => None end.
Proof.
  unfold ac_links. generalize (c_links (ac_c c)) (ac_a c). clear c. intros h a. revert i a.
  induction h as [|l h IH]; intros i a; [destruct i; reflexivity|]. destruct a as [|x a].
  - cbn [combine map]. destruct i; cbn [nth_error]; [reflexivity|]. now destruct (nth_error h i).
  - destruct i; cbn [combine map nth_error]; [reflexivity|apply IH].
Qed.
Lemma map_opt_spec {A B} (f : A -> option B) l : (forall i a, nth_error l i = Some a -> exists b, f a = Some b) ->
  exists m, map_opt f l = Some m /\ length m = length l /\ forall i a, nth_error l i = Some a -> exists b, f a = Some b /\ nth_error m i = Some b.
Proof.
  induction l as [|a l IH]; intros H; [exists []; repeat split; intros i; destruct i; discriminate|].
  destruct (H 0%nat a eq_refl) as [b Hb]. destruct IH as (m & A1 & A2 & A3); [intros i x; exact (H (S i) x)|].
  exists (b :: m). cbn [map_opt]. rewrite Hb. cbn [obind]. rewrite A1. split; [reflexivity|]. split; [cbn; congruence|].
  intros [|i] x; cbn [nth_error]; [intros Q; injection Q as <-; eauto|apply A3].
Qed.

(** The chain holds one ABI record per link and its links form a tree. *)
Definition awf (c : achain F) : Prop := well_formed (c_links (ac_c c)) /\ length (ac_a c) = length (c_links (ac_c c)).
Definition atree (h : list al) (k : forest) : Prop := arep h None (Some 0%nat) (FCons 0 k FNil) /\ Permutation (ids (FCons 0 k FNil)) (seq 0 (length h)).
Lemma awf_atree (c : achain F) : awf c -> exists k, atree (ac_links c) k /\ tree_of (c_links (ac_c c)) k.
Proof.
  intros [[k T] LE]. exists k. split; [|exact T]. destruct T as [T P]. split; [apply arep_of; rewrite ac_links_l; auto|]. now rewrite ac_links_len.
Qed.
Lemma atree_ext (h h' : list al) k : length h' = length h -> (forall i l, nth_error h i = Some l -> exists l', nth_error h' i = Some l' /\ asame l l') -> atree h k -> atree h' k.
Proof. intros LE H [R P]. split; [|now rewrite LE]. eapply rep_ext; [|exact R]. intros i l _ Hl. exact (H i l Hl). Qed.
Lemma atree_tree (h : list al) k : atree h k -> tree_of (map al_l h) k.
Proof. intros [R P]. split; [now apply lrep_of|]. now rewrite map_length. Qed.
Lemma atree_in (h : list al) k i l : atree h k -> nth_error h i = Some l -> In i (ids (FCons 0 k FNil)).
Proof.
  intros T H. apply atree_tree in T. apply (tree_in _ _ _ T). rewrite map_length. eapply nth_lt; eauto.
Qed.
Lemma atree_nodup (h : list al) k : atree h k -> NoDup (ids (FCons 0 k FNil)).
Proof. intros T. apply atree_tree in T. eapply tree_nodup; eauto. Qed.
Lemma atree_size (h : list al) k : atree h k -> fsize (FCons 0 k FNil) = length h.
Proof. intros T. apply atree_tree in T. rewrite <- (map_length al_l h). eapply tree_size; eauto. Qed.
Lemma atree_parent (h : list al) k i l q : atree h k -> nth_error h i = Some l -> al_parent l = Some q -> exists lq, nth_error h q = Some lq.
Proof.
  intros T H HP. pose proof (atree_in _ _ _ _ T H) as I. destruct T as [R P].
  assert (G : forall f p o, arep h p o f -> In i (ids f) -> (al_parent l = p \/ exists lq, nth_error h q = Some lq)).
  { induction f as [|j a IHa b IHb]; cbn [ids]; intros p o RF If; [contradiction|]. destruct RF as (_ & x & Hx & Px & Ra & Rb).
    destruct If as [->|If]; [left; congruence|]. apply in_app_or in If as [If|If].
    - destruct (IHa _ _ Ra If) as [Z|Z]; [|auto]. right. exists x. congruence.
    - exact (IHb _ _ Rb If). }
  destruct (G _ _ _ R I) as [Z|Z]; [congruence|exact Z].
Qed.

(** *** Initialisation *)
Definition inited g (h h1 : list al) : Prop := length h1 = length h /\
  forall i l, nth_error h i = Some l -> exists v, parent_vel h l = Some v /\ nth_error h1 i = Some (abi_init g v l).
Lemma init_all_spec g (h : list al) k : atree h k -> exists h1, init_all g h = Some h1 /\ inited g h h1 /\ atree h1 k.
Proof.
  intros T. destruct (map_opt_spec (fun l => option_map (fun v => abi_init g v l) (parent_vel h l)) h) as (h1 & A1 & A2 & A3).
  { intros i l Hl. unfold parent_vel. destruct (al_parent l) as [q|] eqn:PQ; [|eexists; reflexivity].
    destruct (atree_parent _ _ _ _ _ T Hl PQ) as [lq Hq]. rewrite Hq. eexists; reflexivity. }
  assert (I : inited g h h1).
  { split; [exact A2|]. intros i l Hl. destruct (A3 i l Hl) as (b & B1 & B2). destruct (parent_vel h l) as [v|]; [|discriminate]. exists v. split; [reflexivity|]. cbn in B1. congruence. }
  exists h1. do 2 (split; [assumption|]). eapply atree_ext; [exact A2| |exact T]. intros i l Hl. destruct I as [_ I]. destruct (I i l Hl) as (v & _ & Q). eexists. split; [exact Q|]. repeat split.
Qed.
(** *** Backward *)
Lemma back_all_spec br n (h : list al) k : atree h k -> (length h <= n)%nat ->
  exists h2, back_all br n h = Some h2 /\ length h2 = length h /\ backed (abi_back br) (abi_give br) h h2 (FCons 0 k FNil) /\ atree h2 k.
Proof.
  intros T FU. destruct (walk_back_spec al_parent al_child al_sibl (abi_back br) (abi_give br) (back_refs br) (give_refs br) (FCons 0 k FNil) n h None 0) as (h2 & A & B & C & _).
  - apply T. - eapply atree_nodup; eauto. - rewrite (atree_size _ _ T). exact FU. - intros; discriminate.
  - exists h2. do 3 (split; [assumption|]). eapply atree_ext; [exact B| |exact T]. intros i l Hl.
    destruct (find_kids_in _ _ (atree_in _ _ _ _ T Hl)) as [ki FK]. destruct (backed_find _ _ _ _ _ _ _ C FK) as (l' & Q1 & Q2).
    assert (l' = l) by congruence. subst l'. eexists. split; [exact Q2|].
    eapply same_refs_trans; [|apply back_refs]. apply (fold_give_refs al_parent al_child al_sibl (abi_give br) (give_refs br)).
Qed.
(** *** Forward *)
Definition brle (a b : bool) : Prop := a = true -> b = true.
Lemma fwd_wrench_spec br n (h : list al) k : atree h k -> (length h <= n)%nat ->
  exists br' h3, fwd_wrench_all br n h = Some (br', h3) /\ brle br br' /\ length h3 = length h /\ fwded abi_fwd_wrench al_acc brle br br' h h3 (FCons 0 k FNil) v6zero /\ atree h3 k.
Proof.
  intros T FU. destruct (walk_fwd_spec al_parent al_child al_sibl abi_fwd_wrench al_acc brle) with (f := FCons 0 k FNil) (fuel := n) (s0 := br) (h := h) (q := @None nat) (i := 0%nat) (p := v6zero : vec6 F)
    as (br' & h3 & A & B & C & D & _).
  - intros s l p. repeat split. - intros s. exact (fun x => x). - unfold brle. auto. - intros s l p H. cbn. now rewrite H.
  - apply T. - eapply atree_nodup; eauto. - rewrite (atree_size _ _ T). exact FU.
  - exists br', h3. do 4 (split; [assumption|]). eapply atree_ext; [exact C| |exact T]. intros i l Hl.
    destruct (fwded_point al_parent al_child al_sibl _ _ _ _ _ _ _ _ i _ _ _ (proj1 T) D (atree_in _ _ _ _ T Hl)) as (l' & s & p & Q1 & _ & _ & Q2 & _).
    assert (l' = l) by congruence. subst l'. eexists. split; [exact Q2|]. repeat split.
Qed.

(** *** The whole update *)
Definition abi_run g (c c' : achain F) k (h1 h2 : list al) : Prop :=
  inited g (ac_links c) h1 /\ backed (abi_back (ac_br c)) (abi_give (ac_br c)) h1 h2 (FCons 0 k FNil) /\
  fwded abi_fwd_wrench al_acc brle (ac_br c) (ac_br c') h2 (ac_links c') (FCons 0 k FNil) v6zero /\ brle (ac_br c) (ac_br c') /\
  atree (ac_links c) k /\ atree h1 k /\ atree h2 k /\ atree (ac_links c') k /\ awf c' /\ length (ac_links c') = length (ac_links c).
Lemma update_wrench_run g (c : achain F) : awf c -> chain_joint_size (ac_c c) <> 0%nat ->
  exists c' k h1 h2, chain_abi_update_wrench g c = Some c' /\ abi_run g c c' k h1 h2.
Proof.
  intros W NZ. unfold chain_abi_update_wrench. destruct (Nat.eqb_spec (chain_joint_size (ac_c c)) 0) as [|_]; [contradiction|].
  destruct (awf_atree c W) as (k & T & TT). destruct W as [W LE].
  destruct (init_all_spec g _ _ T) as (h1 & I1 & IN & T1).
  unfold chain_abi_init, ac_lift. rewrite I1. cbn [option_map obind].
  set (c1 := ac_put c (ac_br c) h1).
  assert (N1 : ac_links c1 = h1) by apply ac_links_put.
  assert (F1 : c_fuel (ac_c c1) = S (length h1)) by (unfold c_fuel; cbn; now rewrite map_length).
  unfold chain_abi_backward, ac_lift. rewrite N1, F1. change (ac_br c1) with (ac_br c).
  destruct (back_all_spec (ac_br c) (S (length h1)) h1 k T1) as (h2 & I2 & L2 & B2 & T2); [lia|].
  rewrite I2. cbn [option_map obind]. set (c2 := ac_put c1 (ac_br c) h2).
  assert (N2 : ac_links c2 = h2) by apply ac_links_put.
  assert (F2 : c_fuel (ac_c c2) = S (length h2)) by (unfold c_fuel; cbn; now rewrite map_length).
  unfold chain_abi_forward_wrench. rewrite N2, F2. change (ac_br c2) with (ac_br c).
  destruct (fwd_wrench_spec (ac_br c) (S (length h2)) h2 k T2) as (br' & h3 & I3 & BL & L3 & B3 & T3); [lia|].
  rewrite I3. cbn [option_map fst snd]. exists (ac_put c2 br' h3), k, h1, h2. split; [reflexivity|].
  unfold abi_run. rewrite ac_links_put. cbn [ac_put ac_br].
  do 8 (split; [assumption|]). split.
  - split; [|apply ac_put_len]. exists k. cbn. now apply atree_tree.
  - rewrite L3, L2. apply IN.
Qed.
Lemma mass_mat_sym (l : lk) : sym3 (mp_inertia (b_mp (l_body l))) -> sym6 (link_mass_mat l).
Proof.
  intros S. apply sym6_parts. unfold link_mass_mat. cbn [mll mla mal maa]. generalize (l_mass l) (l_com l). intros m p.
  apply sym3_form in S as (a1 & a2 & a3 & a4 & a5 & a6 & ->). clear l. split; [|split]; vdestruct; vunfold; vsplit; ring.
Qed.
Lemma regular_kept j j' axi iaxi : jtype_of j' = jtype_of j -> regular j' axi iaxi -> regular j axi iaxi.
Proof. destruct j, j'; cbn [jtype_of]; intros H; try discriminate; auto. Qed.
Lemma handled_gives (l : lk) (j : joint F) q : handled l -> l_parent l = Some q -> jtype_of (l_joint l) = jtype_of j -> gives j.
Proof. unfold handled. intros H P. destruct (l_joint l), j; cbn [jtype_of]; intros T; try discriminate; try exact H; try exact I. congruence. Qed.
Definition links_regular (c : achain F) : Prop := forall i l, nth_error (ac_links c) i = Some l ->
  handled (al_l l) /\ regular (al_joint l) (ab_axi (al_a l)) (ab_iaxi (al_a l)).

Lemma abi_point g (c c' : achain F) k h1 h2 : 0 < x_tol -> abi_ready c -> (forall i l, nth_error (ac_links c) i = Some l -> rot_ok (al_joint l)) ->
  abi_run g c c' k h1 h2 -> ac_br c' = false -> links_regular c' ->
  forall i l0, nth_error (ac_links c) i = Some l0 -> exists l3 v pa cs ks3,
    nth_error (ac_links c') i = Some l3 /\ finished (al_l l0) (al_l l3) /\ parent_vel (ac_links c) l0 = Some v /\
    ((al_parent l0 = None /\ pa = v6zero) \/ exists q lq, al_parent l0 = Some q /\ nth_error (ac_links c') q = Some lq /\ pa = al_acc lq) /\
    children (c_links (ac_c c')) i = Some cs /\ Forall2 (fun c l => nth_error (ac_links c') c = Some l) cs ks3 /\
    ab_wl (al_a l3) = ab_wl (al_a l0) /\
    let l1 := abi_init g v l0 in
    l_wrench (al_l l3) = v6add (v6sub (v6add (m6v (link_mass_mat (al_l l0)) (al_acc l3)) (ab_b (al_a l1))) (ab_w (al_a l1)))
      (v6sum (map (fun k => xform6ang (l_adj (al_l k)) (l_wrench (al_l k))) ks3)) /\
    maa (ab_m (al_a l0)) = maa (link_mass_mat (al_l l0)) /\
    l_acc (al_l l3) = joint_inc_acc (l_joint (al_l l3)) (v6add (xform6lin (l_adj (al_l l3)) pa) (ab_c (al_a l1))) /\
    projected (l_joint (al_l l3)) (l_wrench (al_l l3)) = drive (l_joint (al_l l3)).
Proof.
  intros TOL RD RO (IN & BK & FW & BL & T0 & T1 & T2 & T3 & W' & LL) BR REG i l0 H0.
  assert (BR0 : ac_br c = false) by (destruct (ac_br c) eqn:Q; [rewrite BL in BR by auto; discriminate|reflexivity]).
  rewrite BR, BR0 in FW. rewrite BR0 in BK.
  (* every link in the forward pass *)
  assert (FP : forall i l2, nth_error h2 i = Some l2 -> exists p, nth_error (ac_links c') i = Some (snd (abi_fwd_wrench false l2 p)) /\
     ((al_parent l2 = None /\ p = v6zero) \/ exists q lq, al_parent l2 = Some q /\ nth_error (ac_links c') q = Some lq /\ p = al_acc lq)).
  { intros j l2 Hj. destruct (fwded_point al_parent al_child al_sibl _ _ _ _ _ _ _ _ j _ _ _ (proj1 T2) FW (atree_in _ _ _ _ T2 Hj)) as (l & s & p & Q1 & Q2 & Q3 & Q4 & Q5).
    assert (l = l2) by congruence. subst l. assert (s = false) as ->.
    { destruct s; [|reflexivity]. exfalso. assert (Z : false = true) by (apply Q3; reflexivity). discriminate. }
    exists p. split; [exact Q4|]. exact Q5. }
  (* every link in the backward pass *)
  assert (BP : forall i l2, nth_error h2 i = Some l2 -> exists l1 ki, nth_error h1 i = Some l1 /\ find_kids (FCons 0 k FNil) i = Some ki /\ l2 = abi_back false (fold_right (abi_give false) l1 (pick h2 (roots ki)))).
  { intros j l2 Hj. destruct (find_kids_in _ _ (atree_in _ _ _ _ T2 Hj)) as [ki FK]. destruct (backed_find _ _ _ _ _ _ _ BK FK) as (l1 & Q1 & Q2).
    exists l1, ki. split; [exact Q1|]. split; [exact FK|]. congruence. }
  assert (IP : forall j l1, nth_error h1 j = Some l1 -> exists l v, nth_error (ac_links c) j = Some l /\ parent_vel (ac_links c) l = Some v /\ l1 = abi_init g v l).
  { intros j l1 Hj. destruct IN as [LI IN]. destruct (nth_error (ac_links c) j) as [l|] eqn:Hl. 2:{ apply nth_error_None in Hl. apply nth_lt in Hj. lia. }
    destruct (IN j l Hl) as (v & Q1 & Q2). exists l, v. do 2 (split; [auto|]). congruence. }
  assert (RDY : forall j l, nth_error (ac_links c) j = Some l -> ab_m (al_a l) = link_mass_mat (al_l l) /\ sym3 (mp_inertia (b_mp (l_body (al_l l))))).
  { intros j l Hl. rewrite ac_nth in Hl. destruct (nth_error (c_links (ac_c c)) j) as [x|] eqn:Hx; [|discriminate].
    destruct (Forall2_nth _ _ _ RD j x Hx) as (a & Ha & R). rewrite Ha in Hl. injection Hl as <-. exact R. }
  (* all stages of a link *)
  assert (ST : forall j l, nth_error (ac_links c) j = Some l -> exists v l2 l3 ki p, parent_vel (ac_links c) l = Some v /\
     nth_error h1 j = Some (abi_init g v l) /\ nth_error h2 j = Some l2 /\ nth_error (ac_links c') j = Some l3 /\ find_kids (FCons 0 k FNil) j = Some ki /\
     l2 = abi_back false (fold_right (abi_give false) (abi_init g v l) (pick h2 (roots ki))) /\ l3 = snd (abi_fwd_wrench false l2 p) /\
     ((al_parent l = None /\ p = v6zero) \/ exists q lq, al_parent l = Some q /\ nth_error (ac_links c') q = Some lq /\ p = al_acc lq)).
  { intros j l Hl. destruct IN as [LI IN]. destruct (IN j l Hl) as (v & Q1 & Q2). 
    destruct (find_kids_in _ _ (atree_in _ _ _ _ T0 Hl)) as [ki FK]. destruct (backed_find _ _ _ _ _ _ _ BK FK) as (l1 & Q3 & Q4).
    assert (l1 = abi_init g v l) by congruence. subst l1. set (l2 := abi_back _ _) in *. destruct (FP j l2 Q4) as (p & Q5 & Q6).
    exists v, l2, (snd (abi_fwd_wrench false l2 p)), ki, p. do 7 (split; [auto; reflexivity|]).
    assert (al_parent l2 = al_parent l) as PE.
    { destruct (back_refs false (fold_right (abi_give false) (abi_init g v l) (pick h2 (roots ki)))) as [Z _]. fold l2 in Z. rewrite <- Z.
      destruct (fold_give_refs al_parent al_child al_sibl (abi_give false) (give_refs false) (abi_init g v l) (pick h2 (roots ki))) as [Z2 _]. rewrite <- Z2. reflexivity. }
    rewrite <- PE. exact Q6. }
  assert (SY : forall j l2, nth_error h2 j = Some l2 -> sym6 (ab_i (al_a l2)) /\ not_cylin (al_joint l2)).
  { intros j l2 Hj. eapply backed_sym; [exact BK| |exact (atree_in _ _ _ _ T2 Hj)|exact Hj]. intros a l1 _ H1.
    destruct (IP a l1 H1) as (l & v & Q1 & Q2 & Q3). destruct (RDY a l Q1) as [M S]. split.
    - rewrite Q3. change (sym6 (ab_m (al_a l))). rewrite M. now apply mass_mat_sym.
    - destruct (ST a l Q1) as (v' & l2' & l3 & ki & p & S1 & S2 & S3 & S4 & S5 & S6 & S7 & S8). assert (v' = v) by congruence. subst v'.
      destruct (REG a l3 S4) as [_ R]. destruct (local_joint _ _ _ _ _ TOL S6 S7) as [FI _].
      destruct FI as (_&_&_&_&_&_&_&_&_&_&_& JK). destruct JK as [JT _]. fold (al_joint l3) in JT. rewrite Q3. change (not_cylin (al_joint l)). change (jtype_of (al_joint l3) = jtype_of (al_joint l)) in JT.
      revert R JT. clear. destruct (al_joint l3), (al_joint l); cbn [jtype_of regular not_cylin]; intros R JT; try discriminate; auto. }
  destruct (ST i l0 H0) as (v & l2 & l3 & ki & p & S1 & S2 & S3 & S4 & S5 & S6 & S7 & S8).
  destruct (RDY i l0 H0) as [M SYM]. destruct (local_joint _ _ _ _ _ TOL S6 S7) as (FI & JA & JD). destruct (REG i l3 S4) as [HD RG].
  assert (KD : forall d, In d (roots ki) -> exists k2 k3, nth_error h2 d = Some k2 /\ nth_error (ac_links c') d = Some k3 /\ k3 = snd (abi_fwd_wrench false k2 (al_acc l3)) /\ ready k2).
  { intros d Id. assert (exists ld, nth_error (ac_links c) d = Some ld /\ al_parent ld = Some i) as (ld & Hd & PD).
    { revert S5 Id. destruct T0 as [R0 _]. revert R0. clear. generalize (FCons 0 k FNil) (@None nat) (Some 0%nat). intros f. induction f as [|j a IHa b IHb]; intros q o RF FK Id; [discriminate|].
      cbn [find_kids] in FK. destruct RF as (_ & x & Hx & Px & Ra & Rb). destruct (Nat.eqb_spec i j) as [->|].
      - injection FK as ->. revert Ra Id. generalize (al_child x). clear. induction ki as [|m a _ b IHb]; intros o R Id; [contradiction|]. destruct R as (_ & y & Hy & Py & _ & Rb).
        destruct Id as [<-|Id]; eauto.
      - destruct (find_kids a i) eqn:FA; [injection FK as ->; eapply IHa; eauto|eapply IHb; eauto]. }
    destruct (ST d ld Hd) as (vd & k2 & k3 & kd & pd & D1 & D2 & D3 & D4 & D5 & D6 & D7 & D8). exists k2, k3. do 2 (split; [assumption|]).
    destruct D8 as [[D8 _]|(q & lq & D8 & D9 & D10)]; [congruence|]. assert (q = i) by congruence. subst q. assert (lq = l3) by congruence. subst lq.
    split; [congruence|]. destruct (SY d k2 D3) as [Sd _]. destruct (REG d k3 D4) as [HDd RGd].
    destruct (local_joint _ _ _ _ _ TOL D6 D7) as (FId & _).
    assert (jtype_of (al_joint k3) = jtype_of (al_joint k2)) as JT2 by (rewrite D7; exact (proj1 (jkept_qacc false (al_joint k2) _ _ _ _ _))).
    split; [eexists; exact D6|]. split; [|split; [exact Sd|]].
    - eapply handled_gives; [exact HDd| |exact JT2]. destruct FId as (Z & _). rewrite Z. exact PD.
    - eapply regular_kept; [exact JT2|]. assert (al_a k3 = al_a k2) as <- by (rewrite D7; reflexivity). exact RGd. }
  exists l3, v, p, (roots ki), (pick (ac_links c') (roots ki)).
  split; [exact S4|]. split; [exact FI|]. split; [exact S1|]. split; [exact S8|].
  split. { eapply tree_children; [|exact S5]. rewrite <- (ac_links_l c') by apply W'. now apply atree_tree. }
  split. { revert KD. clear. induction (roots ki) as [|d t IH]; intros KD; [constructor|]. destruct (KD d (or_introl eq_refl)) as (k2 & k3 & _ & B & _). cbn [pick]. rewrite B. constructor; [exact B|]. apply IH. intros e Ie. apply KD. now right. }
  split. { rewrite S7. cbn [abi_fwd_wrench snd al_set_wrench al_a abi_fwd al_set_acc al_set_joint]. rewrite S6. unfold abi_back. cbn [al_set_joint al_map_a al_a ab_set_axi ab_set_b ab_wl].
    destruct (fold_give false (abi_init g v l0) (pick h2 (roots ki))) as (_&_&_&_&_&_&Z&_). rewrite Z. reflexivity. }
  cbv zeta. split; [|split; [now rewrite M|split; [|now apply JD]]].
  - rewrite (local_wrench _ _ _ (pick h2 (roots ki)) (pick (ac_links c') (roots ki)) _ S6 S7).
    + do 4 f_equal. change (ab_i (al_a (abi_init g v l0))) with (ab_m (al_a l0)). now rewrite M.
    + revert KD. clear. induction (roots ki) as [|d t IH]; intros KD; [constructor|]. destruct (KD d (or_introl eq_refl)) as (k2 & k3 & A & B & C & D). cbn [pick]. rewrite A, B. constructor; [auto|]. apply IH. intros e Ie. apply KD. now right.
  - apply JA.
    + revert RG. clear. unfold qaccs. destruct (al_joint l3); auto.
    + exact (RO i l0 H0).
Qed.
End A.
