(** * ABI_Trial: chains under additional forces. *)
From Coq Require Import List Arith Lia Permutation Field.
From Verif Require Import Num NumFacts Vec VecFacts Motor_Model Joint_Model Joint_Spec Joint_Proofs Body_Model Body_Proofs
  Tree Tree_Proofs Link_Model Link_Spec Link_Proofs Chain_Proofs Link_Properties Chain_Properties Kin_Spec Kin_Proofs
  Dyn_Spec Dyn_Proofs Walk Walk_Proofs Walk_Ex ABI_Model ABI_Spec ABI_Alg ABI_Proofs ABIEx_Spec ABI_Ex.
Import ListNotations.
Local Open Scope nat_scope.

Section A.
Context {F : Type} {N : Num F} {L : NumLaws F N} {E : Ext F} {MI : MInv F}.
Add Field FField : num_field.
Local Open Scope num_scope.
Notation lk := (link F).
Notation al := (alink F).
Notation arep := (@rep al al_parent al_child al_sibl).
Notation asame := (@same_refs al al_parent al_child al_sibl).
Notation on_path := (fun l : al => ab_path (al_a l)).
Notation whole k := (FCons 0 k FNil).

(** ** Whole heaps *)
Lemma whole_in (h : list al) k i : atree h k -> (In i (ids (whole k)) <-> (i < length h)%nat).
Proof. intros [_ P]. split; intro H; [apply (Permutation_in _ P), in_seq in H; lia|]. apply (Permutation_in _ (Permutation_sym P)), in_seq. lia. Qed.
Lemma whole_nth (h : list al) k i : atree h k -> In i (ids (whole k)) -> exists l, nth_error h i = Some l.
Proof. intros T I. apply (whole_in _ _ _ T) in I. destruct (nth_error h i) eqn:Q; [eauto|]. apply nth_error_None in Q. lia. Qed.
Lemma list_ext {A} (l m : list A) : (forall i, nth_error l i = nth_error m i) -> l = m.
Proof.
  revert m. induction l as [|a l IH]; intros [|b m] H; [reflexivity|discriminate (H 0%nat)|discriminate (H 0%nat)|]. assert (a = b) by (specialize (H 0%nat); cbn in H; congruence).
  subst. f_equal. apply IH. intros i. exact (H (S i)).
Qed.
Lemma both_map {A} (f : al -> A) (h g : list al) k : atree h k -> length g = length h -> both h g (fun l m => f l = f m) (ids (whole k)) -> map f h = map f g.
Proof.
  intros T LE B. apply list_ext. intros i. rewrite !nth_error_map. destruct (Nat.lt_ge_cases i (length h)) as [LT|GE].
  - destruct (B i) as (l & m & -> & -> & Q); [now apply (whole_in _ _ _ T)|]. cbn. now rewrite Q.
  - rewrite !(proj2 (nth_error_None _ _)) by lia. reflexivity.
Qed.
Lemma both_imp (T U : al -> al -> Prop) (h g : list al) is : (forall l m, T l m -> U l m) -> both h g T is -> both h g U is.
Proof. intros H B i I. destruct (B i I) as (l & m & A1 & A2 & A3). exists l, m. auto. Qed.
Lemma both_atree (T : al -> al -> Prop) (h g : list al) k : (forall l m, T l m -> asame l m) -> atree h k -> length g = length h -> both h g T (ids (whole k)) -> atree g k.
Proof.
  intros H TR LE B. eapply atree_ext; [exact LE| |exact TR]. intros i l Hl. destruct (B i) as (l' & m & A1 & A2 & A3); [eapply atree_in; eauto|].
  assert (l' = l) by congruence. subst. eauto.
Qed.
Lemma both_of (T : al -> al -> Prop) (h g : list al) k : atree h k -> (forall i l, nth_error h i = Some l -> exists m, nth_error g i = Some m /\ T l m) -> both h g T (ids (whole k)).
Proof. intros TR H i I. destruct (whole_nth _ _ _ TR I) as [l Hl]. destruct (H i l Hl) as (m & A & B). eauto. Qed.
Lemma both_nth (T : al -> al -> Prop) (h g : list al) k i l : atree h k -> both h g T (ids (whole k)) -> nth_error h i = Some l -> exists m, nth_error g i = Some m /\ T l m.
Proof. intros TR B Hl. destruct (B i) as (l' & m & A1 & A2 & A3); [eapply atree_in; eauto|]. assert (l' = l) by congruence. subst. eauto. Qed.

(** ** The passes *)
Lemma fwd_spec br n (h : list al) k : atree h k -> (length h <= n)%nat ->
  exists h3, fwd_all br n h = Some h3 /\ length h3 = length h /\ both h h3 (fun l l3 => exists p, l3 = abi_fwd br l p) (ids (whole k)) /\ atree h3 k.
Proof.
  intros T FU. destruct (walk_fwd_spec al_parent al_child al_sibl (fun (_ : unit) l p => (tt, abi_fwd br l p)) al_acc (fun _ _ => True))
    with (f := whole k) (fuel := n) (s0 := tt) (h := h) (q := @None nat) (i := 0%nat) (p := v6zero : vec6 F) as (s1 & h3 & A & B & C & D & _);
    try (intros; exact I).
  - intros s l p. repeat split.
  - apply T. - eapply atree_nodup; eauto. - rewrite (atree_size _ _ T). exact FU.
  - exists h3. unfold fwd_all. rewrite A. split; [reflexivity|]. split; [exact C|].
    assert (BO : both h h3 (fun l l3 => exists p, l3 = abi_fwd br l p) (ids (whole k))).
    { intros i Ii. destruct (fwded_point al_parent al_child al_sibl _ _ _ _ _ _ _ _ i _ _ _ (proj1 T) D Ii) as (l' & s & p & Q1 & _ & _ & Q2 & _).
      exists l'. eexists. split; [exact Q1|]. split; [exact Q2|]. exists p. reflexivity. }
    split; [exact BO|]. eapply both_atree; [|exact T|exact C|exact BO]. intros l m [p ->]. repeat split.
Qed.
Lemma reset_refs (l : al) : asame l (abi_reset l). Proof. repeat split. Qed.
Lemma sub_net_refs (l : al) : asame l (abi_sub_net l). Proof. destruct (sub_net_rest l) as [b ->]. repeat split. Qed.
Lemma add_bias_refs br (l q : al) : asame q (abi_add_bias br l q). Proof. repeat split. Qed.
Lemma back_ex_spec br n (h : list al) k : atree h k -> (length h <= n)%nat ->
  exists h5, back_ex br n h = Some h5 /\ length h5 = length h /\ exed on_path abi_reset abi_sub_net (abi_add_bias br) h h5 (whole k) /\
    both h h5 (fun l l5 => rest l5 = rest l) (ids (whole k)) /\ atree h5 k.
Proof.
  intros T FU. destruct (walk_ex_spec al_parent al_child al_sibl on_path abi_reset abi_sub_net (abi_add_bias br) reset_refs sub_net_refs (add_bias_refs br)
    (whole k) n h None 0) as (h5 & A & B & C & _).
  - apply T. - eapply atree_nodup; eauto. - rewrite (atree_size _ _ T). exact FU. - intros; discriminate.
  - exists h5. do 3 (split; [assumption|]). pose proof (exed_rest br h h5 _ _ _ (proj1 T) C) as R. split; [exact R|].
    eapply both_atree; [|exact T|exact B|exact R]. intros l m H. cbv beta in H. apply rest_eq in H as (H & _). unfold same_refs, al_parent, al_child, al_sibl. rewrite H. auto.
Qed.
Definition pathed (l m : al) : Prop := exists b, m = al_map_a (ab_set_path b) l.
Lemma pathed_refs (l m : al) : pathed l m -> asame l m. Proof. intros [b ->]. repeat split. Qed.
Lemma mark_refs (l : al) : asame l (abi_mark l). Proof. repeat split. Qed.
Lemma mark_spec n (h : list al) k : atree h k -> (length h <= n)%nat ->
  exists h4, walk_mark al_parent al_child al_sibl abi_holds abi_mark n (map abi_unmark h) 0 = Some h4 /\ length h4 = length h /\
    both h h4 pathed (ids (whole k)) /\ pclosed h4 (whole k) /\ atree h4 k.
Proof.
  intros T FU. set (hu := map abi_unmark h).
  assert (TU : atree hu k).
  { eapply atree_ext; [unfold hu; now rewrite map_length| |exact T]. intros i l Hl. unfold hu. rewrite nth_error_map, Hl. eexists; split; [reflexivity|]. repeat split. }
  destruct (walk_mark_spec al_parent al_child al_sibl abi_holds on_path abi_mark mark_refs) with (f := whole k) (fuel := n) (h := hu) (q := @None nat) (i := 0%nat)
    as (h4 & A & [B1 B2] & C & D); try reflexivity.
  - apply TU. - eapply atree_nodup; eauto. - rewrite (atree_size _ _ TU). unfold hu. now rewrite map_length. - intros; discriminate.
  - assert (LE : length h4 = length h) by (rewrite B1; unfold hu; now rewrite map_length).
    exists h4. split; [exact A|]. split; [exact LE|].
    assert (BO : both h h4 pathed (ids (whole k))).
    { apply both_of; [exact T|]. intros i l Hl. assert (Hu : nth_error hu i = Some (abi_unmark l)) by (unfold hu; rewrite nth_error_map, Hl; reflexivity).
      destruct (B2 i _ Hu) as (m & Hm & M). exists m. split; [exact Hm|]. destruct M as [->| ->]; [exists false|exists true]; destruct l as [l []]; reflexivity. }
    assert (T4 : atree h4 k) by (eapply both_atree; [exact pathed_refs|exact T|exact LE|exact BO]).
    split; [exact BO|]. split; [|exact T4]. eapply up_pclosed; [apply T4|exact D].
Qed.

(** ** A regular update, and one with forces *)
Lemma ac_put_put (c : achain F) b1 b2 h1 h2 : ac_put (ac_put c b1 h1) b2 h2 = ac_put c b2 h2. Proof. reflexivity. Qed.
Lemma ac_put_fuel (c : achain F) b h : c_fuel (ac_c (ac_put c b h)) = S (length h). Proof. unfold c_fuel. cbn. now rewrite map_length. Qed.
Definition al_wl (w : wlist F) (l : al) : al := al_map_a (ab_set_wl w) l.
Lemma wl_net_app (a b : wlist F) : wl_net (a ++ b) = v6add (wl_net a) (wl_net b).
Proof.
  rewrite !wl_net_sum, map_app. induction a as [|x a IH]; [symmetry; apply v6add_0_l|]. cbn [map app]. change (v6sum (?a :: ?l)) with (v6add a (v6sum l)). rewrite IH.
  apply v6add_assoc.
Qed.
Definition al_more (w : wlist F) (l : al) : al := al_wl (w ++ ab_wl (al_a l)) l.
Lemma init_more g v w (l : al) : abi_init g v (al_more w l) = hv w (abi_init g v l).
Proof.
  unfold al_more, al_wl, abi_init, hv, al_map_a. cbn [al_l al_a ab_wl ab_set_wl ab_m ab_i ab_f ab_b ab_c ab_w ab_w0 ab_b0 ab_a0 ab_path ab_axi ab_iaxi]. rewrite wl_net_app.
  f_equal. f_equal. symmetry. apply v6add_assoc.
Qed.
Lemma load_links ws (c : achain F) i l : length (ac_a c) = length (c_links (ac_c c)) -> length ws = length (ac_a c) -> nth_error (ac_links c) i = Some l ->
  nth_error (ac_links (load ws c)) i = Some (al_wl (nth i ws []) l).
Proof.
  intros LE LW. rewrite !ac_nth. cbn [load ac_c ac_a]. rewrite nth_error_map. revert LW. generalize (c_links (ac_c c)) (ac_a c). intros hl ha LW.
  destruct (nth_error hl i) as [x|]; [|discriminate]. destruct (nth_error ha i) as [a|] eqn:HA; [|discriminate]. intros H. assert (l = AL x a) by congruence. subst l.
  assert (nth_error (combine ha ws) i = Some (a, nth i ws [])) as ->; [|reflexivity].
  revert ha ws LW HA. clear. induction i as [|i IH]; intros [|a0 ha] [|w ws]; cbn; intros; try discriminate; [congruence|]. apply IH; auto.
Qed.
Lemma more_links ws (c : achain F) i l : length (ac_a c) = length (c_links (ac_c c)) -> length ws = length (ac_a c) -> nth_error (ac_links c) i = Some l ->
  nth_error (ac_links (more ws c)) i = Some (al_more (nth i ws []) l).
Proof.
  intros LE LW. rewrite !ac_nth. cbn [more ac_c ac_a]. rewrite nth_error_map. revert LW. generalize (c_links (ac_c c)) (ac_a c). intros hl ha LW.
  destruct (nth_error hl i) as [x|]; [|discriminate]. destruct (nth_error ha i) as [a|] eqn:HA; [|discriminate]. intros H. assert (l = AL x a) by congruence. subst l.
  assert (nth_error (combine ha ws) i = Some (a, nth i ws [])) as ->; [|reflexivity].
  revert ha ws LW HA. clear. induction i as [|i IH]; intros [|a0 ha] [|w ws]; cbn; intros; try discriminate; [congruence|]. apply IH; auto.
Qed.
Lemma more_len ws (c : achain F) : length ws = length (ac_a c) -> length (ac_a (more ws c)) = length (ac_a c).
Proof. intros H. cbn. rewrite map_length, combine_length, H. lia. Qed.
Lemma more_awf ws (c : achain F) : length ws = length (ac_a c) -> awf c -> awf (more ws c).
Proof. intros H [W LE]. split; [exact W|]. rewrite more_len by exact H. exact LE. Qed.
Lemma load_len ws (c : achain F) : length ws = length (ac_a c) -> length (ac_a (load ws c)) = length (ac_a c).
Proof. intros H. cbn. rewrite map_length, combine_length, H. lia. Qed.
Lemma load_awf ws (c : achain F) : length ws = length (ac_a c) -> awf c -> awf (load ws c).
Proof. intros H [W LE]. split; [exact W|]. rewrite load_len by exact H. exact LE. Qed.
Lemma quiet_nth (c : achain F) i l : quiet c -> nth_error (ac_links c) i = Some l -> ab_wl (al_a l) = [].
Proof.
  unfold quiet. rewrite Forall_forall, ac_nth. intros Q. destruct (nth_error (c_links (ac_c c)) i); [|discriminate]. destruct (nth_error (ac_a c) i) eqn:HA; [|discriminate].
  intros H. assert (l = AL l0 a) by congruence. subst. cbn. apply Q. eapply nth_error_In; eauto.
Qed.

(** The backward passes without and with forces. *)
Lemma load_start g ws (c : achain F) k (h1 g1 : list al) : awf c -> length ws = length (ac_a c) -> atree (ac_links c) k ->
  inited g (ac_links c) h1 -> inited g (ac_links (more ws c)) g1 -> start (fun i => nth i ws []) h1 g1 (ids (whole k)).
Proof.
  intros [_ LE] LW T [_ I1] [_ I2] i Ii. destruct (whole_nth _ _ _ T Ii) as [l Hl]. destruct (I1 i l Hl) as (v & V1 & H1).
  destruct (I2 i _ (more_links ws c i l LE LW Hl)) as (v' & V2 & H2). exists (abi_init g v l). split; [exact H1|].
  assert (v' = v).
  { unfold parent_vel in V1, V2. change (al_parent (al_more (nth i ws []) l)) with (al_parent l) in V2. destruct (al_parent l) as [q|] eqn:PQ; [|congruence].
    destruct (atree_parent _ _ _ _ _ T Hl PQ) as [lq Hq]. rewrite Hq in V1. rewrite (more_links ws c q lq LE LW Hq) in V2. cbn in V1, V2. congruence. }
  subst v'. split; [rewrite H2, init_more; reflexivity|]. reflexivity.
Qed.
(** [base g c k h2]: the heap after the backward pass of the regular update of [c]. *)
Definition base g (c : achain F) k (h2 : list al) : Prop := exists h1, inited g (ac_links c) h1 /\ backed (abi_back (ac_br c)) (abi_give (ac_br c)) h1 h2 (whole k) /\
  atree h2 k /\ length h2 = length (ac_links c) /\ chain_joint_size (ac_c c) <> 0%nat.
Definition loaded_back g (c : achain F) k (g2 : list al) := base g c k g2.
Lemma to_back g (c : achain F) k : awf c -> atree (ac_links c) k -> chain_joint_size (ac_c c) <> 0%nat ->
  exists h2, base g c k h2 /\ obind (chain_abi_init g c) chain_abi_backward = Some (ac_put c (ac_br c) h2).
Proof.
  intros W T NZ. destruct (init_all_spec g _ _ T) as (h1 & I1 & IN & T1).
  destruct (back_all_spec (ac_br c) (S (length h1)) h1 k T1) as (h2 & I2 & L2 & B2 & T2); [lia|].
  exists h2. split; [exists h1; do 3 (split; [assumption|]); split; [rewrite L2; apply IN|exact NZ]|].
  unfold chain_abi_init, ac_lift. rewrite I1. cbn [option_map obind]. unfold chain_abi_backward, ac_lift. rewrite ac_links_put, ac_put_fuel.
  change (ac_br (ac_put c (ac_br c) h1)) with (ac_br c). rewrite I2. reflexivity.
Qed.
Lemma update_via g (c : achain F) c' : chain_joint_size (ac_c c) <> 0%nat -> obind (chain_abi_init g c) chain_abi_backward = Some c' ->
  chain_abi_update g c = chain_abi_forward c' /\ chain_abi_update_wrench g c = chain_abi_forward_wrench c'.
Proof.
  intros NZ H. unfold chain_abi_update, chain_abi_update_wrench. destruct (Nat.eqb_spec (chain_joint_size (ac_c c)) 0) as [|_]; [contradiction|].
  destruct (chain_abi_init g c) as [c1|]; [|discriminate]. cbn [obind] in *. rewrite H. auto.
Qed.
Lemma forward_put (c : achain F) br h : chain_abi_forward (ac_put c br h) = option_map (ac_put c br) (fwd_all br (S (length h)) h).
Proof. unfold chain_abi_forward, ac_lift. rewrite ac_links_put, ac_put_fuel. reflexivity. Qed.
Lemma forward_wrench_put (c : achain F) br h : chain_abi_forward_wrench (ac_put c br h) = option_map (fun x => ac_put c (fst x) (snd x)) (fwd_wrench_all br (S (length h)) h).
Proof. unfold chain_abi_forward_wrench. rewrite ac_links_put, ac_put_fuel. reflexivity. Qed.

(** ** Additional forces on a chain that has been updated *)
(** [settled B h2 h]: since the backward pass only forward passes have happened. *)
Definition settled (B : bool -> Prop) (h2 h : list al) is : Prop := both h2 h (fun l2 l => after B l2 l /\ ab_wl (al_a l) = [] /\ ab_b (al_a l) = ab_b (al_a l2)) is.
Lemma settled_before B W h2 h h4 is : settled B h2 h is -> (forall i l, In i is -> nth_error h i = Some l -> exists b, nth_error h4 i = Some (al_map_a (fun a => ab_set_path b (ab_set_wl (W i) a)) l)) ->
  before B W h2 h4 is.
Proof.
  intros S H i I. destruct (S i I) as (l2 & l & A1 & A2 & A3 & A4 & A5). destruct (H i l I A2) as [b H4]. exists l2. eexists. split; [exact A1|]. split; [exact H4|].
  split; [exact A3|]. split; [reflexivity|exact A5].
Qed.
(** Corrected biases agree with those of a whole pass. *)
Lemma ex_heap B g (c : achain F) k ws (h2 h h4 : list al) : awf c -> length ws = length (ac_a c) -> atree (ac_links c) k -> base g c k h2 ->
  settled B h2 h (ids (whole k)) -> atree h4 k -> pclosed h4 (whole k) ->
  (forall i l, In i (ids (whole k)) -> nth_error h i = Some l -> exists b, nth_error h4 i = Some (al_map_a (fun a => ab_set_path b (ab_set_wl (nth i ws []) a)) l)) ->
  exists g2 h5, obind (chain_abi_init g (more ws c)) chain_abi_backward = Some (ac_put c (ac_br c) g2) /\ length g2 = length (ac_links c) /\ atree g2 k /\
    back_ex (ac_br c) (S (length h4)) h4 = Some h5 /\ length h5 = length h4 /\ exed on_path abi_reset abi_sub_net (abi_add_bias (ac_br c)) h4 h5 (whole k) /\
    both h5 g2 (fore B) (ids (whole k)) /\ both h4 h5 (fun l4 l5 => rest l5 = rest l4) (ids (whole k)) /\ atree h5 k.
Proof.
  intros W LW T (h1 & I1 & B1 & T2 & L2 & NZ) SE T4 PC H4.
  pose proof (more_awf ws c LW W) as WW.
  assert (TW : atree (ac_links (more ws c)) k).
  { destruct W as [W LE]. eapply atree_ext; [| |exact T].
    - rewrite (ac_links_len _ LE), ac_links_len; [reflexivity|]. rewrite more_len by exact LW. exact LE.
    - intros i l Hl. rewrite (more_links ws c i l LE LW Hl). eexists; split; [reflexivity|]. repeat split. }
  destruct (to_back g (more ws c) k WW TW NZ) as (g2 & (g1 & J1 & J2 & J3 & J4 & _) & J5).
  destruct (back_ex_spec (ac_br c) (S (length h4)) h4 k T4) as (h5 & X1 & X2 & X3 & X4 & X5); [lia|].
  exists g2, h5. split; [exact J5|]. split; [rewrite J4; destruct WW, W; rewrite !ac_links_len; auto|]. split; [exact J3|]. do 3 (split; [assumption|]).
  split; [|split; assumption].
  apply (ex_core B (ac_br c) (fun i => nth i ws []) h1 h2 g1 g2 h4 h5 (whole k) B1 J2 X3); [apply (load_start g ws c); assumption| |exact PC].
  apply (settled_before B (fun i => nth i ws []) h2 h h4); assumption.
Qed.

Lemma update_settled g (c : achain F) k B : awf c -> atree (ac_links c) k -> chain_joint_size (ac_c c) <> 0%nat ->
  (forall i l, nth_error (ac_links c) i = Some l -> one_br B (ac_br c) l) ->
  exists h2 h3, base g c k h2 /\ chain_abi_update g c = Some (ac_put c (ac_br c) h3) /\ length h3 = length (ac_links c) /\ atree h3 k /\ settled B h2 (map (al_wl []) h3) (ids (whole k)).
Proof.
  intros W T NZ OB. destruct (to_back g c k W T NZ) as (h2 & BA & E2). pose proof BA as (h1 & I1 & B1 & T2 & L2 & _).
  destruct (update_via g c _ NZ E2) as [-> _]. rewrite forward_put.
  destruct (fwd_spec (ac_br c) (S (length h2)) h2 k T2) as (h3 & F1 & F2 & F3 & F4); [lia|]. rewrite F1.
  exists h2, h3. split; [exact BA|]. split; [reflexivity|]. split; [congruence|]. split; [exact F4|].
  intros i Ii. destruct (F3 i Ii) as (l2 & l3 & A1 & A2 & p & ->). exists l2. eexists. split; [exact A1|]. split; [rewrite nth_error_map, A2; reflexivity|].
  destruct (whole_nth _ _ _ T Ii) as [l Hl]. destruct I1 as [_ I1]. destruct (I1 i l Hl) as (v & _ & H1).
  destruct (find_kids_in _ _ Ii) as [ki FK]. destruct (backed_find _ _ _ _ _ _ _ B1 FK) as (l1 & Q1 & Q2). assert (l1 = abi_init g v l) by congruence. subst l1.
  assert (E3 : l2 = abi_back (ac_br c) (fold_right (abi_give (ac_br c)) (abi_init g v l) (pick h2 (roots ki)))) by congruence.
  destruct (back_fields (ac_br c) (abi_init g v l) (pick h2 (roots ki))) as (S1 & _ & _ & S4). rewrite <- E3 in S1, S4.
  split; [|split; reflexivity].
  - apply (after_fwd B (ac_br c) l2 p). destruct (OB i l Hl) as [O1 O2]. split; [exact O1|]. unfold stiff in S1. cbv zeta in S1. injection S1 as S1 _. intros BF. apply O2. revert BF.
    unfold al_joint. rewrite S1. cbn [l_joint l_set_joint al_joint abi_init al_l]. unfold al_joint, abi_init. cbn [al_l]. now destruct (l_joint (al_l l)).
Qed.

Lemma total_types (h g : list lk) : Forall2 (fun l m => jtype_of (l_joint l) = jtype_of (l_joint m)) h g -> total h = total g.
Proof.
  induction 1 as [|l m h g S _ IH]; [reflexivity|]. change (total (l :: h)) with (lsize l + total h)%nat. change (total (m :: g)) with (lsize m + total g)%nat.
  rewrite IH. f_equal. unfold lsize, joint_size. now rewrite S.
Qed.
Lemma both_forall2 (T : al -> al -> Prop) (h g : list al) k : atree h k -> length g = length h -> both h g T (ids (whole k)) -> Forall2 T h g.
Proof.
  intros TR LE B. assert (H : forall i l, nth_error h i = Some l -> exists m, nth_error g i = Some m /\ T l m) by (intros; eapply both_nth; eauto).
  clear TR B. revert g LE H. induction h as [|l h IH]; intros [|m g] LE H; try discriminate; constructor.
  - destruct (H 0%nat l eq_refl) as (m' & Q & R). cbn in Q. congruence.
  - apply IH; [cbn in LE; congruence|]. intros i. exact (H (S i)).
Qed.
Lemma jtype_driving (j : joint F) : jtype_of (joint_driving_torque j) = jtype_of j. Proof. now destruct j. Qed.
Lemma base_nz g (c : achain F) k h2 : base g c k h2 -> chain_joint_size (ac_c c) <> 0%nat. Proof. intros (h1 & _ & _ & _ & _ & NZ). exact NZ. Qed.
Lemma base_size g (c : achain F) k h2 : awf c -> atree (ac_links c) k -> base g c k h2 -> total (map al_l h2) = chain_joint_size (ac_c c).
Proof.
  intros [W LE] T (h1 & I1 & B1 & T2 & L2 & NZ). rewrite chain_joint_size_total, <- (ac_links_l c LE). symmetry. apply total_types.
  assert (X : Forall2 (fun l m => jtype_of (al_joint l) = jtype_of (al_joint m)) (ac_links c) h2).
  { eapply both_forall2; [exact T|exact L2|]. apply both_of; [exact T|]. intros i l Hl. destruct I1 as [_ I1]. destruct (I1 i l Hl) as (v & _ & H1).
    destruct (find_kids_in _ _ (atree_in _ _ _ _ T Hl)) as [ki FK]. destruct (backed_find _ _ _ _ _ _ _ B1 FK) as (l1 & Q1 & Q2). assert (l1 = abi_init g v l) by congruence. subst l1.
    eexists. split; [exact Q2|]. destruct (back_fields (ac_br c) (abi_init g v l) (pick h2 (roots ki))) as (S1 & _). cbv zeta in S1.
    apply (f_equal (fun x => fst (fst (fst x)))) in S1. cbn [stiff fst] in S1. unfold al_joint. rewrite S1. cbn. now rewrite jtype_driving. }
  clear - X. induction X; constructor; auto.
Qed.
Lemma settled_size g (c : achain F) k B h2 h : awf c -> atree (ac_links c) k -> base g c k h2 -> length h = length h2 -> settled B h2 h (ids (whole k)) -> total (map al_l h) = chain_joint_size (ac_c c).
Proof.
  intros W T BA LE SE. rewrite <- (base_size g c k h2 W T BA). symmetry. apply total_types. destruct BA as (h1 & _ & _ & T2 & _).
  assert (X : Forall2 (fun l m => jtype_of (al_joint l) = jtype_of (al_joint m)) h2 h).
  { eapply both_forall2; [exact T2|exact LE|]. eapply both_imp; [|exact SE]. intros l m ((_&_&_&_&_&_&_&(J&_))&_). congruence. }
  clear - X. induction X; constructor; auto.
Qed.

(** [ready_for B g c k h2 h]: the links are [h], as the regular update left them up to later trials. *)
Definition ready_for (B : bool -> Prop) g (c : achain F) k (h2 h : list al) : Prop :=
  awf c /\ atree (ac_links c) k /\ base g c k h2 /\ length h = length (ac_links c) /\ atree h k /\ settled B h2 h (ids (whole k)).
Lemma same_out_chains (c : achain F) b (h g : list al) k : atree h k -> length g = length h -> both h g same_out (ids (whole k)) ->
  ac_c (ac_put c b h) = ac_c (ac_put c b g) /\ biases (ac_put c b h) = biases (ac_put c b g) /\ inertias (ac_put c b h) = inertias (ac_put c b g).
Proof.
  intros T LE B. unfold biases, inertias. cbn [ac_put ac_c ac_a].
  rewrite (both_map al_l h g k T LE), !map_map by (eapply both_imp; [|exact B]; intros l m (A & _); exact A).
  rewrite (both_map (fun l => ab_b (al_a l)) h g k T LE) by (eapply both_imp; [|exact B]; intros l m (_ & _ & A); exact A).
  rewrite (both_map (fun l => ab_i (al_a l)) h g k T LE) by (eapply both_imp; [|exact B]; intros l m (_ & A & _); exact A).
  auto.
Qed.
Lemma ready_size B g (c : achain F) k h2 h b : ready_for B g c k h2 h -> chain_joint_size (ac_c (ac_put c b h)) <> 0%nat.
Proof.
  intros (W & T & BA & LE & TH & SE). rewrite chain_joint_size_total. cbn [ac_put ac_c c_links c_set_links]. rewrite (settled_size g c k B h2 h W T BA); auto; [eapply base_nz; eauto|].
  destruct BA as (h1 & _ & _ & _ & L2 & _). congruence.
Qed.
(** The state when the biases have been corrected, before the forward pass. *)
Lemma ex_back B g (c : achain F) k ws h2 h : ready_for B g c k h2 h -> length ws = length (ac_a c) ->
  exists g2 h5, obind (chain_abi_init g (more ws c)) chain_abi_backward = Some (ac_put c (ac_br c) g2) /\ length g2 = length (ac_links c) /\ atree g2 k /\
    ac_lift (load ws (ac_put c (ac_br c) h)) (backward_ex (ac_br c)) = Some (ac_put c (ac_br c) h5) /\ length h5 = length h /\ atree h5 k /\
    both h5 g2 (fore B) (ids (whole k)) /\ both h h5 (fun l l5 => exists b, rest l5 = rest (al_map_a (ab_set_path b) (al_wl (ab_wl (al_a l5)) l))) (ids (whole k)).
Proof.
  intros (W & T & BA & LE & TH & SE) LW. set (c1 := ac_put c (ac_br c) h).
  assert (LA : length (ac_a c) = length h) by (destruct W as [W LE']; rewrite LE, LE'; symmetry; now apply ac_links_len).
  assert (LE1 : length (ac_a c1) = length (c_links (ac_c c1))) by apply ac_put_len.
  assert (LW1 : length ws = length (ac_a c1)) by (cbn; rewrite map_length; congruence).
  assert (HL : forall i l, nth_error h i = Some l -> nth_error (ac_links (load ws c1)) i = Some (al_wl (nth i ws []) l)).
  { intros i l Hl. apply load_links; auto. unfold c1. now rewrite ac_links_put. }
  assert (LL : length (ac_links (load ws c1)) = length h).
  { rewrite ac_links_len by (rewrite load_len; auto). cbn. now rewrite map_length. }
  assert (TL : atree (ac_links (load ws c1)) k).
  { eapply atree_ext; [exact LL| |exact TH]. intros i l Hl. eexists. split; [apply HL; exact Hl|]. repeat split. }
  destruct (mark_spec (S (length h)) _ k TL) as (h4 & M1 & M2 & M3 & M4 & M5); [lia|].
  assert (H4 : forall i l, nth_error h i = Some l -> exists b, nth_error h4 i = Some (al_map_a (fun a => ab_set_path b (ab_set_wl (nth i ws []) a)) l)).
  { intros i l Hl. destruct (both_nth _ _ _ _ i _ TL M3 (HL i l Hl)) as (m & Hm & b & ->). exists b. exact Hm. }
  destruct (ex_heap B g c k ws h2 h h4) as (g2 & h5 & X1 & X2 & X3 & X4 & X5 & X6 & X7 & X8 & X9); auto.
  exists g2, h5. split; [exact X1|]. split; [exact X2|]. split; [exact X3|]. split.
  { unfold ac_lift, backward_ex, c_fuel. change (c_links (ac_c (load ws c1))) with (map al_l h). rewrite map_length, M1. cbn [bind].
    rewrite M2, LL in X4. rewrite X4. reflexivity. }
  split; [lia|]. split; [exact X9|]. split; [exact X7|].
  apply both_of; [exact TH|]. intros i l Hl. destruct (H4 i l Hl) as [b Hb]. destruct (both_nth _ _ _ _ i _ M5 X8 Hb) as (m & Hm & R). exists m. split; [exact Hm|]. exists b. rewrite R.
  apply rest_eq in R as (_&_&_&_&R&_). rewrite R. reflexivity.
Qed.
Theorem ex_same B g (c : achain F) k ws h2 h : ready_for B g c k h2 h -> length ws = length (ac_a c) -> B = eq (ac_br c) ->
  exists h6 g3, chain_abi_ex (load ws (ac_put c (ac_br c) h)) = Some (ac_put c (ac_br c) h6) /\ chain_abi_update g (more ws c) = Some (ac_put c (ac_br c) g3) /\
    atree h6 k /\ length g3 = length h6 /\ both h6 g3 same_out (ids (whole k)) /\ length h6 = length h /\
    both h h6 (fun l l6 => exists l5 b p, rest l5 = rest (al_map_a (ab_set_path b) (al_wl (ab_wl (al_a l5)) l)) /\ l6 = abi_fwd (ac_br c) l5 p) (ids (whole k)).
Proof.
  intros R LW ->. destruct (ex_back _ g c k ws h2 h R LW) as (g2 & h5 & X1 & X2 & X3 & X4 & X5 & X6 & X7 & X8).
  pose proof (ready_size _ g c k h2 h (ac_br c) R) as NZ. destruct R as (W & T & BA & LE & TH & SE).
  destruct (fwd_agree (ac_br c) (S (length h5)) h5 g2 k X6) as (h6 & g3 & A1 & A2 & A3 & A4 & A5); [lia|exact X7|].
  destruct (fwd_spec (ac_br c) (S (length h5)) h5 k X6) as (h6' & A1' & A3' & A6 & T6); [lia|]. assert (h6' = h6) by congruence. subst h6'.
  exists h6, g3. split.
  { unfold chain_abi_ex. change (ac_c (load ws ?x)) with (ac_c x). destruct (Nat.eqb_spec (chain_joint_size (ac_c (ac_put c (ac_br c) h))) 0) as [|_]; [contradiction|].
    change (ac_br (load ws (ac_put c (ac_br c) h))) with (ac_br c). rewrite X4. cbn [obind]. rewrite forward_put, A1. reflexivity. }
  split.
  { assert (NZ0 : chain_joint_size (ac_c (more ws c)) <> 0%nat) by exact (base_nz _ _ _ _ BA). destruct (update_via g (more ws c) _ NZ0 X1) as [-> _].
    rewrite forward_put. replace (length g2) with (length h5) by congruence. rewrite A2. reflexivity. }
  split; [exact T6|]. split; [congruence|]. split; [exact A5|]. split; [congruence|].
  apply both_of; [exact TH|]. intros i l Hl. destruct (both_nth _ _ _ _ i _ TH X8 Hl) as (l5 & H5 & b & R5). destruct (both_nth _ _ _ _ i _ X6 A6 H5) as (l6 & H6 & p & R6).
  exists l6. split; [exact H6|]. exists l5, b, p. auto.
Qed.
Theorem ex_wrench_same g (c : achain F) k ws h2 h : ready_for (fun _ => True) g c k h2 h -> length ws = length (ac_a c) ->
  exists br' h6 g3, chain_abi_ex_wrench (load ws (ac_put c (ac_br c) h)) = Some (ac_put c br' h6) /\ chain_abi_update_wrench g (more ws c) = Some (ac_put c br' g3) /\
    atree h6 k /\ length g3 = length h6 /\ both h6 g3 same_out (ids (whole k)).
Proof.
  intros R LW. destruct (ex_back _ g c k ws h2 h R LW) as (g2 & h5 & X1 & X2 & X3 & X4 & X5 & X6 & X7 & X8).
  pose proof (ready_size _ g c k h2 h (ac_br c) R) as NZ. destruct R as (W & T & BA & LE & TH & SE).
  destruct (fwd_wrench_agree (ac_br c) (S (length h5)) h5 g2 k X6) as (br' & h6 & g3 & A1 & A2 & A3 & A4 & A5); [lia|exact X7|].
  destruct (fwd_wrench_spec (ac_br c) (S (length h5)) h5 k X6) as (br'' & h6' & A1' & _ & A3' & A6 & T6); [lia|].
  assert (h6' = h6) by congruence. subst h6'.
  exists br', h6, g3. split.
  { unfold chain_abi_ex_wrench. change (ac_c (load ws ?x)) with (ac_c x). destruct (Nat.eqb_spec (chain_joint_size (ac_c (ac_put c (ac_br c) h))) 0) as [|_]; [contradiction|].
    change (ac_br (load ws (ac_put c (ac_br c) h))) with (ac_br c). rewrite X4. cbn [obind]. rewrite forward_wrench_put, A1. reflexivity. }
  split.
  { assert (NZ0 : chain_joint_size (ac_c (more ws c)) <> 0%nat) by exact (base_nz _ _ _ _ BA). destruct (update_via g (more ws c) _ NZ0 X1) as [_ ->].
    rewrite forward_wrench_put. replace (length g2) with (length h5) by congruence. rewrite A2. reflexivity. }
  split; [exact T6|]. split; [congruence|]. exact A5.
Qed.
End A.
