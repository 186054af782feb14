(** * ABI_Ex: updating the biases for additional forces. *)
From Coq Require Import List Arith Lia Permutation Field.
From Verif Require Import Num NumFacts Vec VecFacts Motor_Model Joint_Model Joint_Spec Joint_Proofs Body_Model Body_Proofs
  Tree Tree_Proofs Link_Model Link_Spec Link_Proofs Chain_Proofs Link_Properties Chain_Properties Kin_Spec Kin_Proofs
  Dyn_Spec Dyn_Proofs Walk Walk_Proofs Walk_Ex ABI_Model ABI_Spec ABI_Alg ABI_Proofs ABIEx_Spec.
Import ListNotations.
Local Open Scope nat_scope.

Section A.
Context {F : Type} {N : Num F} {L : NumLaws F N} {E : Ext F} {MI : MInv F}.
Add Field FField : num_field.
Local Open Scope num_scope.
Notation lk := (link F).
Notation al := (alink F).
Notation arep := (@rep al al_parent al_child al_sibl).
Notation asame := (@same_refs al al_parent al_child al_sibl).

(** ** Links up to joint and acceleration *)
Definition skel (l : lk) : lk := l_set_joint JFixed (l_set_body (b_set_acc v6zero (l_body l)) l).
Definition dress (j : joint F) (a : vec6 F) (l : lk) : lk := l_set_body (b_set_acc a (l_body l)) (l_set_joint j l).
Lemma skel_dress j a l m : skel l = skel m -> dress j a l = dress j a m.
Proof. destruct l as [? ? []], m as [? ? []]. unfold skel, dress, l_set_joint, l_set_body, b_set_acc. cbn. intros H. injection H. intros. subst. reflexivity. Qed.
Lemma dress_skel j a l : skel (dress j a l) = skel l.
Proof. destruct l as [? ? []]. reflexivity. Qed.
Lemma dress_self l : dress (l_joint l) (l_acc l) l = l.
Proof. destruct l as [? ? []]. reflexivity. Qed.
Lemma skel_adj l m : skel l = skel m -> l_adj l = l_adj m.
Proof. destruct l as [? ? []], m as [? ? []]. unfold skel, l_set_joint, l_set_body, b_set_acc. cbn. intros H. now injection H. Qed.
Lemma skel_refs l m : skel l = skel m -> l_parent l = l_parent m /\ l_child l = l_child m /\ l_sibl l = l_sibl m.
Proof. destruct l as [? ? []], m as [? ? []]. unfold skel, l_set_joint, l_set_body, b_set_acc. cbn. intros H. injection H. auto. Qed.

(** ** Joints that the passes cannot tell apart *)
Definition jlike (B : bool -> Prop) (j : joint F) (a : vec6 F) (j' : joint F) (a' : vec6 F) : Prop :=
  (forall br m b f h, joint_give_bias br j m b f h = joint_give_bias br j' m b f h) /\
  (forall br m b jac h, B br -> joint_qacc br j m b jac h a = joint_qacc br j' m b jac h a').
Lemma jlike_refl B j a : jlike B j a j a. Proof. split; auto. Qed.
Lemma jlike_trans B j1 a1 j2 a2 j3 a3 : jlike B j1 a1 j2 a2 -> jlike B j2 a2 j3 a3 -> jlike B j1 a1 j3 a3.
Proof. intros [A1 A2] [B1 B2]. split; intros; [rewrite A1|rewrite A2 by auto]; auto. Qed.
Definition brfloat (j : joint F) : bool := match j with JBrFloat _ _ _ => true | _ => false end.
Lemma jlike_qacc (B : bool -> Prop) br j m b jac h a : B br -> (brfloat j = true -> forall br', B br' -> br' = br) ->
  jlike B (fst (joint_qacc br j m b jac h a)) (snd (joint_qacc br j m b jac h a)) j a.
Proof.
  intros H1 H2. split.
  - intros. destruct j; try reflexivity. cbn [joint_qacc]. destruct br; reflexivity.
  - intros br' m' b' jac' h' HB. destruct j; try reflexivity. rewrite (H2 eq_refl br' HB). cbn [joint_qacc]. destruct br; reflexivity.
Qed.
(** Restoring the acceleration of the link only. *)
Lemma jlike_back (B : bool -> Prop) br j m b jac h a : B br -> (brfloat j = true -> forall br', B br' -> br' = br) ->
  jlike B (fst (joint_qacc br j m b jac h a)) a j a.
Proof.
  intros H1 H2. split.
  - intros. destruct j; try reflexivity. cbn [joint_qacc]. destruct br; reflexivity.
  - intros br' m' b' jac' h' HB. destruct j; try reflexivity. rewrite (H2 eq_refl br' HB). cbn [joint_qacc]. destruct br; reflexivity.
Qed.

(** ** The forward pass *)
(** [fore B l m]: the forward pass does the same to both. *)
Definition fore (B : bool -> Prop) (l m : al) : Prop :=
  skel (al_l l) = skel (al_l m) /\ jlike B (al_joint l) (al_acc l) (al_joint m) (al_acc m) /\
  ab_i (al_a l) = ab_i (al_a m) /\ ab_b (al_a l) = ab_b (al_a m) /\ ab_c (al_a l) = ab_c (al_a m) /\ ab_iaxi (al_a l) = ab_iaxi (al_a m).
Definition same_out (l m : al) : Prop := al_l l = al_l m /\ ab_i (al_a l) = ab_i (al_a m) /\ ab_b (al_a l) = ab_b (al_a m).
Lemma fwd_dress br (l : al) p : abi_fwd br l p =
  let jac := v6add (xform6lin (l_adj (al_l l)) p) (ab_c (al_a l)) in
  let r := joint_qacc br (al_joint l) (ab_i (al_a l)) (ab_b (al_a l)) jac (ab_iaxi (al_a l)) (al_acc l) in
  AL (dress (fst r) (snd r) (al_l l)) (al_a l).
Proof. reflexivity. Qed.
Lemma fore_fwd (B : bool -> Prop) br (l m : al) p : B br -> fore B l m -> same_out (abi_fwd br l p) (abi_fwd br m p).
Proof.
  intros HB (S & [_ J] & I & Bb & C & X). rewrite !fwd_dress. cbv zeta. rewrite (skel_adj _ _ S), I, Bb, C, X, J by exact HB.
  split; [cbn; now apply skel_dress|]. cbn. auto.
Qed.
Lemma fore_refs B (l m : al) : fore B l m -> asame l m.
Proof. intros (S & _). destruct (skel_refs _ _ S) as (A & C & D). unfold same_refs, al_parent, al_child, al_sibl. repeat split; auto. Qed.
Lemma same_out_acc l m : same_out l m -> al_acc l = al_acc m. Proof. intros [A _]. unfold al_acc. now rewrite A. Qed.
Lemma fwd_agree br n (h g : list al) k : atree h k -> (length h <= n)%nat -> both h g (fore (eq br)) (ids (FCons 0 k FNil)) ->
  exists h' g', fwd_all br n h = Some h' /\ fwd_all br n g = Some g' /\ length h' = length h /\ length g' = length g /\
    both h' g' same_out (ids (FCons 0 k FNil)).
Proof.
  intros T FU BO. unfold fwd_all.
  destruct (walk_fwd_agree al_parent al_child al_sibl (fun (_ : unit) l p => (tt, abi_fwd br l p)) al_acc (fore (eq br)) same_out)
    with (f := FCons 0 k FNil) (fuel := n) (s0 := tt) (h := h) (g := g) (q := @None nat) (i := 0%nat) (p := v6zero : vec6 F)
    as (s1 & h' & g' & A & A' & B & C & D & _).
  - intros s l p. repeat split. - intros l m. apply fore_refs.
  - intros s l m p R. split; [reflexivity|]. cbn [snd]. apply (fore_fwd (eq br)); auto. - apply same_out_acc.
  - apply T. - eapply atree_nodup; eauto. - rewrite (atree_size _ _ T). exact FU. - exact BO.
  - exists h', g'. rewrite A, A'. repeat split; auto.
Qed.
Lemma fwd_wrench_agree br n (h g : list al) k : atree h k -> (length h <= n)%nat -> both h g (fore (fun _ => True)) (ids (FCons 0 k FNil)) ->
  exists br' h' g', fwd_wrench_all br n h = Some (br', h') /\ fwd_wrench_all br n g = Some (br', g') /\ length h' = length h /\ length g' = length g /\
    both h' g' same_out (ids (FCons 0 k FNil)).
Proof.
  intros T FU BO. unfold fwd_wrench_all.
  destruct (walk_fwd_agree al_parent al_child al_sibl abi_fwd_wrench al_acc (fore (fun _ => True)) same_out)
    with (f := FCons 0 k FNil) (fuel := n) (s0 := br) (h := h) (g := g) (q := @None nat) (i := 0%nat) (p := v6zero : vec6 F)
    as (s1 & h' & g' & A & A' & B & C & D & _).
  - intros s l p. repeat split. - intros l m. apply fore_refs.
  - intros s l m p R. destruct (fore_fwd _ s l m p I R) as (O1 & O2 & O3). unfold abi_fwd_wrench. cbn [fst snd].
    unfold al_joint, al_acc, same_out, al_set_wrench. cbn [al_l al_a]. rewrite O1, O2, O3. auto.
  - apply same_out_acc.
  - apply T. - eapply atree_nodup; eauto. - rewrite (atree_size _ _ T). exact FU. - exact BO.
  - exists s1, h', g'. rewrite A, A'. repeat split; auto.
Qed.

(** ** Backward *)
(** [hv w l]: link [l] initialised with the wrenches [w] besides its own. *)
Definition hv (w : wlist F) (l : al) : al :=
  al_map_a (fun a => Abi (ab_m a) (ab_i a) (ab_f a) (ab_b a) (ab_c a) (w ++ ab_wl a) (v6add (wl_net w) (ab_w a)) (ab_w0 a) (ab_b0 a) (ab_a0 a) (ab_path a) (ab_axi a) (ab_iaxi a)) l.
Definition calm (l : al) : Prop := ab_b (al_a l) = ab_f (al_a l).
Lemma hv_nil l : hv [] l = l.
Proof.
  unfold hv, al_map_a. destruct l as [l []]. cbn. f_equal. f_equal. vdestruct. vunfold. vsplit; ring.
Qed.
(** What does not depend on the forces. *)
Definition stiff (l : al) := (al_l l, (ab_m (al_a l), ab_i (al_a l), ab_f (al_a l)), ab_c (al_a l), (ab_axi (al_a l), ab_iaxi (al_a l))).
Lemma stiff_eq (l m : al) : stiff l = stiff m -> al_l l = al_l m /\ ab_m (al_a l) = ab_m (al_a m) /\ ab_i (al_a l) = ab_i (al_a m) /\ ab_f (al_a l) = ab_f (al_a m) /\
  ab_c (al_a l) = ab_c (al_a m) /\ ab_axi (al_a l) = ab_axi (al_a m) /\ ab_iaxi (al_a l) = ab_iaxi (al_a m).
Proof. unfold stiff. intros H. injection H. auto 10. Qed.
Lemma sumI_stiff br m (ks ks' : list al) : Forall2 (fun q q' => stiff q = stiff q') ks ks' -> sumI br m ks = sumI br m ks'.
Proof.
  induction 1 as [|q q' ks ks' H _ IH]; [reflexivity|]. cbn [sumI fold_right]. unfold sumI in IH. rewrite IH. apply stiff_eq in H as (H1 & _ & H3 & _ & _ & _ & H8).
  unfold gI, al_joint. rewrite H1, H3, H8. reflexivity.
Qed.
Definition fin_b br (l1 : al) ks : vec6 F := v6sub (sumB br (ab_b (al_a l1)) ks) (ab_w (al_a l1)).
Lemma back_fields br (l1 : al) ks : let l2 := abi_back br (fold_right (abi_give br) l1 ks) in
  stiff l2 = (let i := sumI br (ab_i (al_a l1)) ks in let x := joint_axis_inertia br (al_joint l1) i (ab_axi (al_a l1), ab_iaxi (al_a l1)) in
    (l_set_joint (joint_driving_torque (al_joint l1)) (al_l l1), (ab_m (al_a l1), i, ab_f (al_a l1)), ab_c (al_a l1), (fst x, snd x))) /\
  ab_b (al_a l2) = fin_b br l1 ks /\ ab_w (al_a l2) = ab_w (al_a l1) /\ ab_wl (al_a l2) = ab_wl (al_a l1).
Proof.
  cbv zeta. destruct (fold_give br l1 ks) as (A1 & A2 & A3 & A4 & A5 & A6 & A7 & A8 & A9 & A10 & A11).
  unfold stiff, abi_back, al_joint, fin_b. cbn [al_set_joint al_map_a al_a al_l ab_set_axi ab_set_b ab_axi ab_iaxi ab_i ab_m ab_f ab_c ab_b ab_w ab_wl l_joint l_set_joint].
  rewrite A1, A2, A3, A4, A5, A6, A7, A8, A9, A10. auto.
Qed.
Lemma backed_det fin give (h1 h2 g1 g2 : list al) f : backed fin give h1 h2 f -> backed fin give g1 g2 f ->
  (forall i, In i (ids f) -> nth_error h1 i = nth_error g1 i) -> forall i, In i (ids f) -> nth_error h2 i = nth_error g2 i.
Proof.
  induction f as [|j k IHk r IHr]; cbn [backed ids]; [contradiction|]. intros (l & A1 & A2 & A3 & A4) (m & B1 & B2 & B3 & B4) H i I.
  assert (HK : forall i, In i (ids k) -> nth_error h2 i = nth_error g2 i) by (apply IHk; auto; intros; apply H; right; apply in_or_app; auto).
  destruct I as [<-|I].
  - rewrite A2, B2. rewrite (pick_ext h2 g2) by (intros; apply HK, roots_ids; auto). specialize (H j (or_introl eq_refl)). congruence.
  - apply in_app_or in I as [I|I]; [auto|]. apply IHr; auto. intros; apply H; right; apply in_or_app; auto.
Qed.

(** A link that has been through the forward pass since. *)
Definition after (B : bool -> Prop) (l2 l : al) : Prop :=
  skel (al_l l) = skel (al_l l2) /\ jlike B (al_joint l) (al_acc l) (al_joint l2) (al_acc l2) /\
  ab_i (al_a l) = ab_i (al_a l2) /\ ab_f (al_a l) = ab_f (al_a l2) /\ ab_c (al_a l) = ab_c (al_a l2) /\ ab_iaxi (al_a l) = ab_iaxi (al_a l2) /\
  ab_w (al_a l) = ab_w (al_a l2) /\ jkept (al_joint l2) (al_joint l).
Lemma after_refl B l : after B l l.
Proof. unfold after. split; [reflexivity|]. split; [apply jlike_refl|]. do 5 (split; [reflexivity|]). apply jkept_refl. Qed.
Lemma after_trans B a b c : after B a b -> after B b c -> after B a c.
Proof.
  intros (A1&A2&A3&A4&A5&A6&A7&A8) (B1&B2&B3&B4&B5&B6&B7&B8). unfold after. split; [congruence|]. split; [eapply jlike_trans; eauto|].
  do 5 (split; [congruence|]). eapply jkept_trans; eauto.
Qed.
Lemma after_refs B l m : after B l m -> asame l m.
Proof. intros (S & _). destruct (skel_refs _ _ S) as (A & C & D). unfold same_refs, al_parent, al_child, al_sibl. repeat split; auto. Qed.
Definition one_br (B : bool -> Prop) br (l : al) : Prop := B br /\ (brfloat (al_joint l) = true -> forall br', B br' -> br' = br).
Lemma after_fwd B br (l : al) p : one_br B br l -> after B l (abi_fwd br l p).
Proof.
  intros [B1 B2]. rewrite fwd_dress. cbv zeta. unfold after. cbn [al_l al_a]. split; [apply dress_skel|]. split; [|do 5 (split; [reflexivity|]); apply jkept_qacc].
  unfold al_joint, al_acc. cbn. apply jlike_qacc; auto.
Qed.
(** Additional forces and the path towards them. *)
Notation on_path := (fun l : al => ab_path (al_a l)).
Fixpoint pclosed (h : list al) (f : forest) : Prop :=
  match f with
  | FNil => True
  | FCons i k r => (forall l, nth_error h i = Some l -> ab_path (al_a l) = false -> forall j lj, In j (ids k) -> nth_error h j = Some lj -> ab_wl (al_a lj) = [] /\ ab_path (al_a lj) = false)
                   /\ pclosed h k /\ pclosed h r
  end.
Lemma off_path (h : list al) i l o k : arep h (Some i) o k -> up_closed al_parent abi_holds on_path h (ids k) -> nth_error h i = Some l -> ab_path (al_a l) = false ->
  forall j lj, In j (ids k) -> nth_error h j = Some lj -> ab_wl (al_a lj) = [] /\ ab_path (al_a lj) = false.
Proof.
  revert i l o. induction k as [|j k IHk r IHr]; intros i l o R U Hl PF; [intros ? ? []|]. destruct R as (E1 & m & Hm & Pm & Rk & Rr).
  assert (NH : abi_holds m = false).
  { destruct (abi_holds m) eqn:HO; [|reflexivity]. destruct (U j m i (or_introl eq_refl) Hm HO Pm) as (lp & A & B). congruence. }
  unfold abi_holds in NH. apply Bool.orb_false_iff in NH as [NP NW].
  assert (X : ab_wl (al_a m) = [] /\ ab_path (al_a m) = false) by (split; [destruct (ab_wl (al_a m)); [reflexivity|discriminate]|exact NP]).
  intros x lx [<-|I] Hx; [assert (lx = m) by congruence; subst; exact X|]. cbn [ids] in U. apply in_app_or in I as [I|I].
  - apply (IHk j m _ Rk) with (j := x); auto. intros y ly py Iy. apply U. right. apply in_or_app; auto.
  - apply (IHr i l _ Rr) with (j := x); auto. intros y ly py Iy. apply U. right. apply in_or_app; auto.
Qed.
Lemma up_pclosed (h : list al) p o f : arep h p o f -> up_closed al_parent abi_holds on_path h (ids f) -> pclosed h f.
Proof.
  revert p o. induction f as [|i k IHk r IHr]; intros p o R U; [exact I|]. destruct R as (E1 & m & Hm & Pm & Rk & Rr). cbn [ids] in U.
  assert (UK : up_closed al_parent abi_holds on_path h (ids k)) by (intros y ly py Iy; apply U; right; apply in_or_app; auto).
  split; [|split; [eapply IHk; eauto|eapply IHr; eauto; intros y ly py Iy; apply U; right; apply in_or_app; auto]].
  intros l Hl PF. eapply off_path; eauto.
Qed.

Lemma gives_all_fields br (l : al) ks : let l' := gives_all (abi_add_bias br) l ks in
  al_l l' = al_l l /\ ab_b (al_a l') = v6add (ab_b (al_a l)) (v6sum (map (gB br) ks)) /\ ab_i (al_a l') = ab_i (al_a l) /\ ab_f (al_a l') = ab_f (al_a l) /\
  ab_c (al_a l') = ab_c (al_a l) /\ ab_wl (al_a l') = ab_wl (al_a l) /\ ab_w (al_a l') = ab_w (al_a l) /\ ab_iaxi (al_a l') = ab_iaxi (al_a l) /\ ab_path (al_a l') = ab_path (al_a l) /\
  ab_b0 (al_a l') = ab_b0 (al_a l) /\ ab_a0 (al_a l') = ab_a0 (al_a l).
Proof.
  revert l. induction ks as [|q ks IH]; intros l; cbv zeta.
  - cbn [gives_all fold_left map]. change (v6sum []) with (v6zero : vec6 F). rewrite v6add_0_r. repeat split.
  - change (gives_all (abi_add_bias br) l (q :: ks)) with (gives_all (abi_add_bias br) (abi_add_bias br q l) ks).
    destruct (IH (abi_add_bias br q l)) as (A1 & A2 & A3 & A4 & A5 & A6 & A7 & A8 & A9 & A10 & A11). rewrite A1, A2, A3, A4, A5, A6, A7, A8, A9, A10, A11.
    cbn [map]. change (v6sum (?a :: ?l)) with (v6add a (v6sum l)).
    unfold abi_add_bias, al_map_a. cbn [al_l al_a ab_set_b ab_i ab_b ab_m ab_f ab_c ab_wl ab_w ab_axi ab_iaxi ab_path ab_b0 ab_a0]. rewrite <- v6add_assoc. repeat split.
Qed.
Lemma sub_net_b (l : al) : ab_b (al_a (abi_sub_net l)) = v6sub (ab_b (al_a l)) (wl_net (ab_wl (al_a l))).
Proof. unfold abi_sub_net. destruct (ab_wl (al_a l)) eqn:W; [|reflexivity]. cbn. destruct (ab_b (al_a l)) as [[] []]. vunfold. vsplit; ring. Qed.
Lemma sub_net_rest (l : al) : exists b, abi_sub_net l = al_map_a (ab_set_b b) l.
Proof. unfold abi_sub_net. destruct (ab_wl (al_a l)); [exists (ab_b (al_a l)); destruct l as [l []]; reflexivity|]. eexists. reflexivity. Qed.
(** Everything but the bias. *)
Definition rest (l : al) := (al_l l, (ab_i (al_a l), ab_f (al_a l), ab_c (al_a l)), (ab_wl (al_a l), ab_w (al_a l)), (ab_iaxi (al_a l), ab_path (al_a l)), (ab_b0 (al_a l), ab_a0 (al_a l))).
Lemma rest_eq (l m : al) : rest l = rest m -> al_l l = al_l m /\ ab_i (al_a l) = ab_i (al_a m) /\ ab_f (al_a l) = ab_f (al_a m) /\
  ab_c (al_a l) = ab_c (al_a m) /\ ab_wl (al_a l) = ab_wl (al_a m) /\ ab_w (al_a l) = ab_w (al_a m) /\ ab_iaxi (al_a l) = ab_iaxi (al_a m) /\ ab_path (al_a l) = ab_path (al_a m) /\
  ab_b0 (al_a l) = ab_b0 (al_a m) /\ ab_a0 (al_a l) = ab_a0 (al_a m).
Proof. unfold rest. intros H. injection H. auto 12. Qed.
Lemma rest_b b (l : al) : rest (al_map_a (ab_set_b b) l) = rest l. Proof. reflexivity. Qed.
Lemma rest_sub_net (l : al) : rest (abi_sub_net l) = rest l.
Proof. destruct (sub_net_rest l) as [b ->]. reflexivity. Qed.
Lemma rest_gives br (l : al) ks : rest (gives_all (abi_add_bias br) l ks) = rest l.
Proof. destruct (gives_all_fields br l ks) as (A1 & A2 & A3 & A4 & A5 & A6 & A7 & A8 & A9 & A10 & A11). unfold rest. congruence. Qed.

Lemma pick2 (h g : list al) (T : al -> al -> Prop) is : both h g T is -> Forall2 T (pick h is) (pick g is).
Proof.
  induction is as [|i is IH]; intros B; [constructor|]. cbn [pick]. destruct (B i (or_introl eq_refl)) as (l & m & -> & -> & H). constructor; auto.
  apply IH. intros x I. apply B. right; auto.
Qed.
Lemma gB_like B br (l m : al) : skel (al_l l) = skel (al_l m) -> jlike B (al_joint l) (al_acc l) (al_joint m) (al_acc m) ->
  ab_i (al_a l) = ab_i (al_a m) -> ab_c (al_a l) = ab_c (al_a m) -> ab_iaxi (al_a l) = ab_iaxi (al_a m) -> ab_b (al_a l) = ab_b (al_a m) -> gB br l = gB br m.
Proof. intros S [J _] A1 A2 A3 A4. unfold gB. rewrite (skel_adj _ _ S), A1, A2, A3, A4. apply J. Qed.

Lemma gB_fore B br (ks qs : list al) : Forall2 (fore B) ks qs -> map (gB br) ks = map (gB br) qs.
Proof.
  induction 1 as [|a b p q (S & J & Q1 & Q2 & Q3 & Q4) _ IHQ]; [reflexivity|]. cbn [map]. f_equal; [|exact IHQ]. eapply gB_like; eauto.
Qed.

(** The links [l5] after the update for additional forces against those of a whole backward pass with the forces. *)
Definition start (W : nat -> wlist F) (h1 g1 : list al) (is : list nat) : Prop :=
  forall i, In i is -> exists l1, nth_error h1 i = Some l1 /\ nth_error g1 i = Some (hv (W i) l1) /\ calm l1.
Definition before (B : bool -> Prop) (W : nat -> wlist F) (h2 h4 : list al) (is : list nat) : Prop :=
  forall i, In i is -> exists l2 l4, nth_error h2 i = Some l2 /\ nth_error h4 i = Some l4 /\ after B l2 l4 /\ ab_wl (al_a l4) = W i /\ ab_b (al_a l4) = ab_b (al_a l2).

Lemma backed_stiff br W (h1 h2 g1 g2 : list al) f : backed (abi_back br) (abi_give br) h1 h2 f -> backed (abi_back br) (abi_give br) g1 g2 f ->
  start W h1 g1 (ids f) -> both h2 g2 (fun l m => stiff l = stiff m) (ids f).
Proof.
  induction f as [|i k IHk r IHr]; cbn [backed ids]; [intros _ _ _ ? []|]. intros (l1 & A1 & A2 & A3 & A4) (m1 & B1 & B2 & B3 & B4) ST.
  assert (BK : both h2 g2 (fun l m => stiff l = stiff m) (ids k)) by (apply IHk; auto; intros x I; apply ST; right; apply in_or_app; auto).
  assert (BR : both h2 g2 (fun l m => stiff l = stiff m) (ids r)) by (apply IHr; auto; intros x I; apply ST; right; apply in_or_app; auto).
  intros x [<-|I]; [|apply in_app_or in I as [I|I]; auto].
  do 2 eexists. split; [exact A2|]. split; [exact B2|]. destruct (ST i (or_introl eq_refl)) as (l1' & C1 & C2 & C3). assert (l1' = l1) by congruence. subst l1'.
  assert (m1 = hv (W i) l1) by congruence. subst m1.
  rewrite (proj1 (back_fields br l1 _)), (proj1 (back_fields br (hv (W i) l1) _)). unfold hv, al_joint, al_map_a. cbn [al_l al_a ab_m ab_i ab_f ab_c ab_axi ab_iaxi].
  rewrite (sumI_stiff br (ab_i (al_a l1)) (pick h2 (roots k)) (pick g2 (roots k))); [reflexivity|].
  apply pick2. intros y Iy. apply BK. now apply roots_ids.
Qed.

Lemma exed_rest br (h4 h5 : list al) p o f : arep h4 p o f -> exed on_path abi_reset abi_sub_net (abi_add_bias br) h4 h5 f ->
  both h4 h5 (fun l4 l5 => rest l5 = rest l4) (ids f).
Proof.
  revert p o. induction f as [|i k IHk r IHr]; intros p o R X; [intros ? []|]. destruct R as (_ & m & Hm & _ & Rk & Rr).
  cbn [exed ids] in *. destruct X as (l4 & X1 & X2 & X3). assert (m = l4) by congruence. subst m.
  assert (K : exists l5, nth_error h5 i = Some l5 /\ rest l5 = rest l4 /\ both h4 h5 (fun l4 l5 => rest l5 = rest l4) (ids k)).
  { destruct (ab_path (al_a l4)); destruct X2 as [X2 XK]; eexists; (split; [exact X2|]).
    - split; [rewrite rest_gives, rest_sub_net; reflexivity|]. eapply IHk; eauto.
    - split; [apply rest_sub_net|]. intros j Ij. destruct (rep_in _ _ _ _ _ _ _ _ Rk Ij) as (b & Hb). exists b, b. rewrite XK by auto. auto. }
  destruct K as (l5 & K1 & K2 & K3). intros x [<-|I]; [exists l4, l5; auto|]. apply in_app_or in I as [I|I]; [auto|]. eapply IHr; eauto.
Qed.
(** Nothing happens to a link off the path without forces. *)
Lemma exed_off br (h4 h5 : list al) f j l : exed on_path abi_reset abi_sub_net (abi_add_bias br) h4 h5 f -> In j (ids f) -> nth_error h4 j = Some l ->
  ab_path (al_a l) = false -> ab_wl (al_a l) = [] -> nth_error h5 j = Some l.
Proof.
  induction f as [|i k IHk r IHr]; [contradiction|]. cbn [exed ids]. intros (l4 & X1 & X2 & X3) I Hj PF WN. destruct I as [->|I].
  - assert (l4 = l) by congruence. subst l4. rewrite PF in X2. destruct X2 as [-> _]. unfold abi_sub_net. now rewrite WN.
  - apply in_app_or in I as [I|I]; [|auto]. destruct (ab_path (al_a l4)); destruct X2 as [_ X2]; [auto|]. rewrite X2; auto.
Qed.
Lemma ex_core (B : bool -> Prop) br W (h1 h2 g1 g2 h4 h5 : list al) f :
  backed (abi_back br) (abi_give br) h1 h2 f -> backed (abi_back br) (abi_give br) g1 g2 f ->
  exed on_path abi_reset abi_sub_net (abi_add_bias br) h4 h5 f ->
  start W h1 g1 (ids f) -> before B W h2 h4 (ids f) -> pclosed h4 f ->
  both h5 g2 (fun l5 m => fore B l5 m) (ids f).
Proof.
  induction f as [|i k IHk r IHr]; [intros _ _ _ _ _ _ ? []|]. intros BH BG EX ST BE PC.
  pose proof (backed_stiff _ _ _ _ _ _ _ BH BG ST) as SF.
  cbn [backed exed ids pclosed] in *. destruct BH as (l1 & A1 & A2 & A3 & A4). destruct BG as (m1 & B1 & B2 & B3 & B4). destruct EX as (l4 & X1 & X2 & X3).
  destruct PC as (P1 & P2 & P3).
  assert (STK : start W h1 g1 (ids k)) by (intros x I; apply ST; right; apply in_or_app; auto).
  assert (BEK : before B W h2 h4 (ids k)) by (intros x I; apply BE; right; apply in_or_app; auto).
  assert (R1 : both h5 g2 (fun l5 m => fore B l5 m) (ids r)) by (apply IHr; auto; intros x I; [apply ST|apply BE]; right; apply in_or_app; auto).
  destruct (ST i (or_introl eq_refl)) as (l1' & C1 & C2 & C3). assert (l1' = l1) by congruence. subst l1'. assert (m1 = hv (W i) l1) by congruence. subst m1.
  destruct (BE i (or_introl eq_refl)) as (l2 & l4' & D1 & D2 & D3 & D4 & D5). assert (l4' = l4) by congruence. subst l4'.
  destruct (SF i (or_introl eq_refl)) as (l2' & m2 & F1 & F2 & F3). assert (l2' = l2) by congruence. subst l2'.
  assert (Em2 : m2 = abi_back br (fold_right (abi_give br) (hv (W i) l1) (pick g2 (roots k)))) by congruence.
  assert (El2 : l2 = abi_back br (fold_right (abi_give br) l1 (pick h2 (roots k)))) by congruence.
  destruct (back_fields br l1 (pick h2 (roots k))) as (_ & G1 & G2 & _). rewrite <- El2 in G1, G2.
  destruct (back_fields br (hv (W i) l1) (pick g2 (roots k))) as (_ & H1 & _). rewrite <- Em2 in H1. unfold fin_b, hv in H1. cbn [al_map_a al_a ab_b ab_w] in H1.
  unfold calm in C3. unfold fin_b in G1. rewrite C3 in G1, H1. rewrite sumB_v in G1, H1.
  destruct D3 as (Y1 & Y2 & Y3 & Y4 & Y5 & Y6 & Y7 & _). apply stiff_eq in F3 as (Z1 & Z2 & Z3 & Z4 & Z5 & Z6 & Z7).
  (* once the bias is right everything matches *)
  assert (FIN : forall l5, rest l5 = rest l4 -> ab_b (al_a l5) = ab_b (al_a m2) -> fore B l5 m2).
  { intros l5 RE BB. apply rest_eq in RE as (E1 & E2 & E3 & E4 & E5 & E6 & E7 & _). unfold fore, al_joint, al_acc. unfold al_joint, al_acc in Y2.
    rewrite E1, E2, E4, E7, Y1, Y3, Y5, Y6, BB, Z1, Z3, Z5, Z7. rewrite Z1 in Y2. auto 10. }
  assert (KS : exists l5, nth_error h5 i = Some l5 /\ rest l5 = rest l4 /\ ab_b (al_a l5) = ab_b (al_a m2) /\
     both h5 g2 (fun l5 m => fore B l5 m) (ids k)).
  { destruct (ab_path (al_a l4)) eqn:PA.
    - destruct X2 as [X2 XK]. pose proof (IHk A3 B3 XK STK BEK P2) as K1. eexists. split; [exact X2|].
      split; [rewrite rest_gives, rest_sub_net; reflexivity|]. split; [|exact K1].
      rewrite (proj1 (proj2 (gives_all_fields br _ _))), sub_net_b, H1. unfold abi_reset. cbn [al_map_a al_a ab_set_b ab_b ab_wl].
      rewrite D4, Y4, Y7, G2.
      assert (map (gB br) (pick h5 (roots k)) = map (gB br) (pick g2 (roots k))) as ->.
      { apply (gB_fore B). apply pick2; intros y Iy; apply K1; now apply roots_ids. }
      assert (ab_f (al_a l2) = ab_f (al_a l1)) as ->.
      { pose proof (proj1 (back_fields br l1 (pick h2 (roots k)))) as Q. rewrite <- El2 in Q. unfold stiff in Q. now injection Q. }
      generalize (v6sum (map (gB br) (pick g2 (roots k)))) (ab_f (al_a l1)) (ab_w (al_a l1)) (wl_net (W i)). clear -L.
      intros. vdestruct. vunfold. vsplit; ring.
    - destruct X2 as [X2 XK]. eexists. split; [exact X2|]. split; [apply rest_sub_net|].
      assert (OFF : forall j lj, In j (ids k) -> nth_error h4 j = Some lj -> W j = []).
      { intros j lj Ij Hj. destruct (BEK j Ij) as (a & b & _ & Hb & _ & Wb & _). rewrite <- Wb. eapply P1; eauto. }
      assert (HG : forall j, In j (ids k) -> nth_error h2 j = nth_error g2 j).
      { apply (backed_det (abi_back br) (abi_give br) h1 h2 g1 g2 k); auto. intros j Ij. destruct (STK j Ij) as (a & Q1 & Q2 & Q3). rewrite Q1, Q2.
        destruct (BEK j Ij) as (_ & b & _ & Hb & _). rewrite (OFF j b Ij Hb). now rewrite hv_nil. }
      split.
      + rewrite sub_net_b, D4, D5, G1, H1. rewrite (pick_ext h2 g2) by (intros; apply HG, roots_ids; auto).
        generalize (v6sum (map (gB br) (pick g2 (roots k)))) (ab_f (al_a l1)) (ab_w (al_a l1)) (wl_net (W i)). clear -L.
        intros. vdestruct. vunfold. vsplit; ring.
      + intros j Ij. destruct (BEK j Ij) as (a & b & Q1 & Q2 & (R3 & R4 & R5 & R6 & R7 & R8 & R9 & _) & _ & Q3). exists b, a. split; [rewrite XK; auto|].
        split; [rewrite <- HG; auto|]. unfold fore. auto 10. }
  destruct KS as (l5 & K1 & K2 & K3 & K4). intros x [<-|I]; [|apply in_app_or in I as [I|I]; auto]. exists l5, m2. auto.
Qed.
End A.
