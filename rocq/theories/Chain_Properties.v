(** * Chain_Properties: theorems C26-C29. *)
From Coq Require Import String ZArith QArith Qcanon List Arith Lia Permutation Sorted.
From Verif Require Import Num NumFacts Vec VecFacts Motor_Model Joint_Model Joint_Spec Joint_Proofs Body_Model Body_Proofs
  Tree Tree_Proofs Link_Model Link_Spec Link_Proofs Chain_Proofs ExtQ Link_Properties.
Import ListNotations.
Local Open Scope nat_scope.

(** ** C26 *)
Section Clone.
Context {F : Type} {N : Num F} {L : NumLaws F N} {E : Ext F} {EL : ExtLaws F N E}.

(** C26: the clone of a chain whose references stay inside its link array succeeds wherever the two
    arrays lie in memory ([bo], [bc]); it has the same links with the same references by index (all
    of them inside the clone), offsets, frames, mass properties and state.  Missing: the joint
    limits, stiffness and friction are not cloned (C08), so the displacement is preserved for settled
    joints with normalised angles only. *)
Theorem C26_clone_structure_partial (bo bc : Z) (c : chain F) : c_links c <> [] -> refs_ok (c_links c) ->
  exists c', chain_clone bo bc c = Some c' /\ length (c_links c') = length (c_links c) /\ refs_ok (c_links c') /\
    c_mass c' = c_mass c /\ c_wcom c' = c_wcom c /\ c_comvel c' = c_comvel c /\ c_comacc c' = c_comacc c /\
    forall i l, nth_error (c_links c) i = Some l -> exists d, nth_error (c_links c') i = Some d /\
      clone_of l d /\ cache_ok (l_joint d) /\
      (settled (l_joint l) -> (forall x, In x (angles_of (l_joint l)) -> is_norm x) -> same_state (l_joint d) (l_joint l)).
Proof.
  intros Ne R. destruct (chain_clone_spec bo bc c Ne R) as (c' & A & B & C & D & G & H & I).
  exists c'. split; [exact A|]. split; [exact B|]. split; [|repeat (split; [assumption|]); exact I].
  intros i d Hd. assert (Hi : i < length (c_links c)) by (rewrite <- B; apply nth_error_Some; congruence).
  destruct (nth_error (c_links c) i) as [l|] eqn:Hl; [|apply nth_error_None in Hl; lia].
  destruct (I i l Hl) as (d' & Hd' & CL & _). assert (d' = d) by congruence; subst d'.
  destruct (R i l Hl) as (P1 & P2 & P3). unfold clone_of in CL.
  destruct CL as (_ & _ & _ & _ & _ & -> & -> & -> & _). rewrite B. auto.
Qed.
(** C26: so the clone of a tree is the same tree. *)
Theorem C26_clone_tree (bo bc : Z) (c : chain F) : well_formed (c_links c) ->
  exists c', chain_clone bo bc c = Some c' /\ well_formed (c_links c') /\
    (forall k, tree_of (c_links c) k -> tree_of (c_links c') k).
Proof.
  intros W. destruct (well_formed_refs_ok _ W) as [R Ne].
  destruct (chain_clone_spec bo bc c Ne R) as (c' & A & B & _ & _ & _ & _ & I).
  exists c'. split; [exact A|].
  assert (T : forall k, tree_of (c_links c) k -> tree_of (c_links c') k).
  { apply well_formed_refs; [exact B|]. intros i l Hl. destruct (I i l Hl) as (d & Hd & CL & _). exists d. split; [exact Hd|].
    unfold clone_of in CL. unfold same_refs. intuition congruence. }
  split; [|exact T]. destruct W as [k K]. exists k. auto.
Qed.
(** C26: a chain with a reference outside its link array cannot be cloned safely. *)
Theorem C26_clone_only_closed (bo bc : Z) (c c' : chain F) : chain_clone bo bc c = Some c' -> refs_ok (c_links c).
Proof.
  intros H i l Hl. unfold chain_clone, obind in H. destruct (c_links c) as [|l0 t] eqn:Hc; [destruct i; discriminate|]. rewrite <- Hc in *.
  destruct (clone_links bo bc (length (c_links c)) 0 (c_links c)) as [h1|] eqn:H1; [|discriminate].
  eapply clone_links_inv; eauto.
Qed.
End Clone.

(** ** C27 *)
Section Offset.
Context {F : Type} {N : Num F} {E : Ext F}.
Notation size l := (joint_size (l_joint l)).
(** C27: a link has an offset precisely when its joint has a component, *)
Theorem C27_offset_iff_movable (c : chain F) i l : nth_error (c_links (chain_set_offset c)) i = Some l ->
  (l_offset l = None <-> size l = 0).
Proof.
  intros H. pose proof (placed_nth 0 _ i l (set_offsets_placed 0 (c_links c)) H) as P.
  rewrite P. unfold lsize. destruct (Nat.ltb_spec 0 (size l)); split; intros; try discriminate; try lia; auto.
Qed.
(** the ranges follow each other in link order, hence are disjoint, *)
Theorem C27_ranges_disjoint_in_order (c : chain F) i j li lj oi oj :
  nth_error (c_links (chain_set_offset c)) i = Some li -> nth_error (c_links (chain_set_offset c)) j = Some lj ->
  l_offset li = Some oi -> l_offset lj = Some oj -> i < j -> oi + size li <= oj.
Proof.
  intros Hi Hj Oi Oj LT. set (h := c_links (chain_set_offset c)) in *.
  assert (P : placed 0 h) by apply (set_offsets_placed 0 (c_links c)).
  rewrite (placed_nth 0 h i li P Hi) in Oi. rewrite (placed_nth 0 h j lj P Hj) in Oj.
  destruct (Nat.ltb 0 (lsize li)); [|discriminate]. destruct (Nat.ltb 0 (lsize lj)); [|discriminate].
  injection Oi as <-. injection Oj as <-. fold (lsize li).
  rewrite <- (total_firstn_S h i li Hi). apply total_firstn_mono. lia.
Qed.
(** and cover exactly the positions below rkChainJointSize. *)
Theorem C27_ranges_cover (c : chain F) k : k < chain_joint_size (chain_set_offset c) <->
  exists i l o, nth_error (c_links (chain_set_offset c)) i = Some l /\ l_offset l = Some o /\ o <= k < o + size l.
Proof.
  rewrite chain_joint_size_total. set (h := c_links (chain_set_offset c)) in *.
  assert (P : placed 0 h) by apply (set_offsets_placed 0 (c_links c)). split.
  - intros H. destruct (total_cover h k H) as (i & l & Hl & B). exists i, l, (total (firstn i h)).
    split; [exact Hl|]. rewrite (placed_nth 0 h i l P Hl). unfold lsize in *.
    replace (Nat.ltb 0 (size l)) with true by (symmetry; apply Nat.ltb_lt; lia). split; [reflexivity|lia].
  - intros (i & l & o & Hl & O & B). rewrite (placed_nth 0 h i l P Hl) in O.
    destruct (Nat.ltb 0 (lsize l)); [|discriminate]. injection O as <-.
    pose proof (total_firstn_S h i l Hl). pose proof (total_firstn_le h (S i)). unfold lsize in *. lia.
Qed.
(** C27: setting offsets changes nothing else; in particular not the joint size. *)
Theorem C27_only_offsets (c : chain F) : length (c_links (chain_set_offset c)) = length (c_links c) /\
  chain_joint_size (chain_set_offset c) = chain_joint_size c /\
  forall i l, nth_error (c_links c) i = Some l -> exists o, nth_error (c_links (chain_set_offset c)) i = Some (l_set_offset o l).
Proof.
  split; [apply set_offsets_length|]. split.
  - rewrite !chain_joint_size_total. cbn [chain_set_offset c_links c_set_links]. generalize 0. induction (c_links c) as [|l t IH]; intros s; [reflexivity|].
    cbn [set_offsets]. destruct (Nat.ltb 0 (size l)); cbn [total fold_right]; unfold total in IH; rewrite IH; reflexivity.
  - intros i l H. eexists. cbn [chain_set_offset c_links c_set_links]. rewrite set_offsets_nth, H. reflexivity.
Qed.

(** ** C28 *)
(** The offsets of [c] are those rkChainSetOffset gives. *)
Definition offsets_set (c : chain F) : Prop := chain_set_offset c = c.
Lemma offsets_placed c : offsets_set c -> placed 0 (c_links c).
Proof. intros H. unfold placed. apply (f_equal (fun x => c_links x)) in H. exact H. Qed.
Lemma placed_offsets c : placed 0 (c_links c) -> offsets_set c.
Proof. destruct c; unfold placed, offsets_set, chain_set_offset, c_set_links; cbn. now intros ->. Qed.

Lemma get_dis_len (j : joint F) : length (joint_get_dis j) = joint_size j. Proof. apply get_gen_length. Qed.
Lemma get_vel_len (j : joint F) : length (joint_get_vel j) = joint_size j. Proof. apply get_gen_length. Qed.
Lemma get_acc_len (j : joint F) : length (joint_get_acc j) = joint_size j. Proof. apply get_gen_length. Qed.

(** C28: a displacement vector is stored without access outside it, and reading back returns at
    every joint what rkJointLimDis makes of the components given for it. *)
Theorem C28_dis_roundtrip (c : chain F) (v w : list F) : offsets_set c ->
  length v = chain_joint_size c -> length w = chain_joint_size c ->
  exists c' r, chain_set_joint_dis_all c v = Some c' /\ chain_get_joint_dis_all c' w = Some r /\
    length r = chain_joint_size c /\ offsets_set c' /\
    forall i l o, nth_error (c_links c) i = Some l -> l_offset l = Some o ->
      joint_lim_dis (l_joint l) (slice o (size l) v) = Some (slice o (size l) r).
Proof.
  intros O Lv Lw. apply offsets_placed in O. rewrite chain_joint_size_total in *.
  destruct (set_all_spec joint_set_dis v (c_links c) 0 set_dis_ok O) as (h' & A & R); [lia|].
  destruct (set_rel_placed _ v 0 _ _ set_dis_ok R O) as [P' T'].
  exists (c_set_links h' c), (flat_map (fun l => joint_get_dis (l_joint l)) h').
  unfold chain_set_joint_dis_all. rewrite A. split; [reflexivity|].
  unfold chain_get_joint_dis_all. cbn [c_links c_set_links].
  rewrite (get_all_spec joint_get_dis h' get_dis_len 0 w P') by lia. cbn [firstn app Nat.add].
  rewrite skipn_all2 by lia. rewrite app_nil_r. split; [reflexivity|].
  rewrite (flat_map_length _ _ get_dis_len). split; [exact T'|]. split; [now apply placed_offsets|].
  intros i l o Hl Ho. destruct (Forall2_nth _ _ _ R i l Hl) as (l' & Hl' & X).
  unfold set_rel in X. rewrite Ho in X. destruct X as (j & J & ->).
  unfold slice at 1. rewrite lim_dis_firstn. rewrite (set_dis_lim _ _ _ J). f_equal.
  assert (S' : lsize (l_set_joint j l) = size l) by (unfold lsize; cbn [l_joint l_set_joint]; unfold joint_size; now rewrite (set_dis_type _ _ _ J)).
  pose proof (flat_map_slice joint_get_dis h' i _ get_dis_len Hl') as Q. rewrite S' in Q.
  pose proof (placed_nth 0 h' i _ P' Hl') as Po. cbn [l_offset l_set_joint] in Po. rewrite Ho, S' in Po.
  destruct (Nat.ltb 0 (size l)); [|discriminate]. injection Po as ->. symmetry. exact Q.
Qed.
(** C28: velocities and accelerations come back exactly. *)
Theorem C28_rate_roundtrip (c : chain F) (v a w u : list F) : offsets_set c ->
  length v = chain_joint_size c -> length a = chain_joint_size c -> length w = chain_joint_size c -> length u = chain_joint_size c ->
  exists c', chain_set_joint_rate_all c v a = Some c' /\
    chain_get_joint_vel_all c' w = Some v /\ chain_get_joint_acc_all c' u = Some a.
Proof.
  intros O Lv La Lw Lu. apply offsets_placed in O. rewrite chain_joint_size_total in *.
  destruct (set_all_spec joint_set_vel v (c_links c) 0 set_vel_ok O) as (h1 & A1 & R1); [lia|].
  destruct (set_rel_placed _ v 0 _ _ set_vel_ok R1 O) as [P1 T1].
  destruct (set_all_spec joint_set_acc a h1 0 set_acc_ok P1) as (h2 & A2 & R2); [lia|].
  destruct (set_rel_placed _ a 0 _ _ set_acc_ok R2 P1) as [P2 T2].
  exists (c_set_links h2 c). unfold chain_set_joint_rate_all. rewrite set_rate_all_split, A1. cbn [obind]. rewrite A2. split; [reflexivity|].
  unfold chain_get_joint_vel_all, chain_get_joint_acc_all. cbn [c_links c_set_links].
  rewrite (get_all_spec joint_get_vel h2 get_vel_len 0 w P2) by lia.
  rewrite (get_all_spec joint_get_acc h2 get_acc_len 0 u P2) by lia.
  rewrite !skipn_all2 by lia. cbn [firstn app]. rewrite !app_nil_r.
  rewrite (set_acc_keeps_vel _ _ _ R2).
  rewrite (set_rel_flat _ _ _ _ _ set_vel_ok set_vel_get get_vel_len R1 0 O).
  rewrite (set_rel_flat _ _ _ _ _ set_acc_ok set_acc_get get_acc_len R2 0 P1).
  unfold slice. cbn [skipn]. rewrite !firstn_all2 by lia. auto.
Qed.
(** C28: the velocity-only setter likewise. *)
Theorem C28_vel_roundtrip (c : chain F) (v w : list F) : offsets_set c ->
  length v = chain_joint_size c -> length w = chain_joint_size c ->
  exists c', chain_set_joint_vel_all c v = Some c' /\ chain_get_joint_vel_all c' w = Some v.
Proof.
  intros O Lv Lw. apply offsets_placed in O. rewrite chain_joint_size_total in *.
  destruct (set_all_spec joint_set_vel v (c_links c) 0 set_vel_ok O) as (h1 & A1 & R1); [lia|].
  destruct (set_rel_placed _ v 0 _ _ set_vel_ok R1 O) as [P1 T1].
  exists (c_set_links h1 c). unfold chain_set_joint_vel_all. rewrite A1. split; [reflexivity|].
  unfold chain_get_joint_vel_all. cbn [c_links c_set_links].
  rewrite (get_all_spec joint_get_vel h1 get_vel_len 0 w P1) by lia.
  rewrite skipn_all2 by lia. cbn [firstn app]. rewrite app_nil_r.
  rewrite (set_rel_flat _ _ _ _ _ set_vel_ok set_vel_get get_vel_len R1 0 O).
  unfold slice. cbn [skipn]. rewrite firstn_all2 by lia. auto.
Qed.
(** C28: setting displacements through a duplicate-free index changes the joints of the indexed links
    only; each indexed joint is set from the components following those of the joints indexed before
    it, and reading back through the index returns the saturated components at the same place. *)
Theorem C28_index_dis (c : chain F) (idx : list nat) (n : nat) (v w : list F) : NoDup idx ->
  chain_index_size (c_links c) idx = Some n -> length v = n -> length w = n ->
  exists c' r, chain_set_joint_dis c idx v = Some c' /\ chain_get_joint_dis c' idx w = Some r /\
    length r = n /\ length (c_links c') = length (c_links c) /\
    (forall i, ~ In i idx -> nth_error (c_links c') i = nth_error (c_links c) i) /\
    (forall a i b o, idx = a ++ i :: b -> chain_index_size (c_links c) a = Some o ->
       exists l j, nth_error (c_links c) i = Some l /\ nth_error (c_links c') i = Some (l_set_joint j l) /\
         joint_set_dis (l_joint l) (slice o (size l) v) = Some j /\
         joint_lim_dis (l_joint l) (slice o (size l) v) = Some (slice o (size l) r)).
Proof.
  intros ND SZ Lv Lw. assert (R := index_size_range _ _ _ SZ). rewrite (index_size_pick _ _ R) in SZ. injection SZ as SZ.
  destruct (set_by_index_spec joint_set_dis idx set_dis_ok (c_links c) v ND R) as (h' & A & B & C & D); [lia|].
  assert (KS := set_by_index_links _ _ _ _ _ set_dis_ok A).
  assert (R' : forall i, In i idx -> i < length h') by (intros; rewrite B; auto).
  assert (SZ' : total (pick h' idx) = n) by (rewrite (pick_sizes _ _ _ KS R); exact SZ).
  exists (c_set_links h' c), (flat_map (fun l => joint_get_dis (l_joint l)) (pick h' idx)).
  unfold chain_set_joint_dis. rewrite A. split; [reflexivity|].
  unfold chain_get_joint_dis. cbn [c_links c_set_links].
  rewrite (get_by_index_spec _ h' idx get_dis_len R' 0 w) by lia. cbn [firstn app Nat.add].
  rewrite skipn_all2 by lia. rewrite app_nil_r. split; [reflexivity|].
  rewrite (flat_map_length _ _ get_dis_len). split; [exact SZ'|]. split; [exact B|]. split; [exact C|].
  intros a i b o EQ So. assert (Ra : forall m, In m a -> m < length (c_links c)) by (intros; apply R; subst; apply in_or_app; auto).
  rewrite (index_size_pick _ _ Ra) in So. injection So as So.
  destruct (D a i b EQ) as (l & j & D1 & D2 & D3). exists l, j. split; [exact D1|]. split; [exact D3|].
  unfold slice at 1 2. rewrite set_dis_firstn, lim_dis_firstn. rewrite So in D2. split; [exact D2|].
  rewrite (set_dis_lim _ _ _ D2). f_equal. subst idx.
  pose proof (pick_slice joint_get_dis h' a i b _ get_dis_len R' D3) as Q.
  rewrite (pick_sizes _ _ _ KS Ra), So in Q.
  replace (lsize (l_set_joint j l)) with (size l) in Q; [symmetry; exact Q|].
  unfold lsize; cbn [l_joint l_set_joint]; unfold joint_size; now rewrite (set_dis_type _ _ _ D2).
Qed.
(** C28: velocities through an index: exact round trip, other links untouched. *)
Theorem C28_index_vel (c : chain F) (idx : list nat) (n : nat) (v w : list F) : NoDup idx ->
  chain_index_size (c_links c) idx = Some n -> length v = n -> length w = n ->
  exists c', chain_set_joint_vel c idx v = Some c' /\ chain_get_joint_vel c' idx w = Some v /\
    length (c_links c') = length (c_links c) /\
    (forall i, ~ In i idx -> nth_error (c_links c') i = nth_error (c_links c) i).
Proof.
  intros ND SZ Lv Lw. assert (R := index_size_range _ _ _ SZ). rewrite (index_size_pick _ _ R) in SZ. injection SZ as SZ.
  destruct (set_by_index_spec joint_set_vel idx set_vel_ok (c_links c) v ND R) as (h' & A & B & C & D); [lia|].
  assert (KS := set_by_index_links _ _ _ _ _ set_vel_ok A).
  assert (R' : forall i, In i idx -> i < length h') by (intros; rewrite B; auto).
  assert (SZ' : total (pick h' idx) = n) by (rewrite (pick_sizes _ _ _ KS R); exact SZ).
  exists (c_set_links h' c). unfold chain_set_joint_vel. rewrite A. split; [reflexivity|].
  split; [|split; assumption]. unfold chain_get_joint_vel. cbn [c_links c_set_links].
  rewrite (get_by_index_spec _ h' idx get_vel_len R' 0 w) by lia. cbn [firstn app Nat.add].
  rewrite skipn_all2 by lia. rewrite app_nil_r. f_equal.
  rewrite (index_roundtrip joint_set_vel joint_get_vel idx (c_links c) h' v set_vel_get R) by (auto; lia).
  apply firstn_all2. lia.
Qed.

(** ** C29 *)
Theorem C29_default_index_movable (c : chain F) i : In i (chain_default_index c) <->
  exists l, nth_error (c_links c) i = Some l /\ 0 < size l.
Proof.
  unfold chain_default_index. rewrite default_index_in. rewrite Nat.sub_0_r. split.
  - intros (l & _ & A & B). eauto.
  - intros (l & A & B). exists l. split; [lia|]. auto.
Qed.
Theorem C29_default_index_increasing (c : chain F) : StronglySorted lt (chain_default_index c).
Proof. apply default_index_sorted. Qed.
Theorem C29_default_index_size (c : chain F) : chain_index_size (c_links c) (chain_default_index c) = Some (chain_joint_size c).
Proof.
  rewrite index_size_pick.
  - f_equal. rewrite chain_joint_size_total. unfold chain_default_index.
    assert (G : forall (t pre : list (link F)), total (pick (pre ++ t) (default_index (length pre) t)) = total t).
    { induction t as [|l t IH]; intros pre; [reflexivity|]. cbn [default_index].
      assert (IH' := IH (pre ++ [l])). rewrite app_length in IH'. cbn [length] in IH'. rewrite Nat.add_1_r in IH'.
      rewrite <- app_assoc in IH'. cbn [app] in IH'.
      destruct (Nat.ltb_spec 0 (size l)).
      - cbn [pick]. rewrite nth_app_len. cbn [total fold_right]. unfold total in IH' |- *. cbn [fold_right]. now rewrite IH'.
      - rewrite IH'. change (total (l :: t)) with (size l + total t). lia. }
    exact (G (c_links c) []).
  - intros i H. apply C29_default_index_movable in H as (l & A & _). apply nth_error_Some. congruence.
Qed.
(** With it the indexed accessors coincide with the All variants, on every input vector (including
    ones too short, where both read outside the vector). *)
Theorem C29_default_index_same (c : chain F) (v a : list F) (dt : F) : offsets_set c ->
  let idx := chain_default_index c in
  chain_set_joint_dis c idx v = chain_set_joint_dis_all c v /\
  chain_set_joint_dis_cnt c idx v dt = chain_set_joint_dis_cnt_all c v dt /\
  chain_set_joint_vel c idx v = chain_set_joint_vel_all c v /\
  chain_set_joint_rate c idx v a = chain_set_joint_rate_all c v a /\
  chain_get_joint_dis c idx v = chain_get_joint_dis_all c v /\
  chain_get_joint_vel c idx v = chain_get_joint_vel_all c v /\
  chain_get_joint_acc c idx v = chain_get_joint_acc_all c v.
Proof.
  intros O idx. apply offsets_placed in O.
  assert (S : forall set, set_ok set -> set_by_index set (c_links c) idx v = set_all set (c_links c) v).
  { intros set OK. pose proof (set_by_default set (c_links c) OK [] 0 v O) as H. cbn [app length skipn] in H.
    unfold idx, chain_default_index. rewrite H. destruct (set_all set (c_links c) v); reflexivity. }
  assert (Sr : set_rate_by_index (c_links c) idx v a = set_rate_all (c_links c) v a).
  { pose proof (set_rate_by_default (c_links c) [] 0 v a O) as H. cbn [app length skipn] in H.
    unfold idx, chain_default_index. rewrite H. destruct (set_rate_all (c_links c) v a); reflexivity. }
  assert (G : forall get : joint F -> list F, get_by_index get (c_links c) idx 0 v = get_all get (c_links c) v).
  { intros get. exact (get_by_default get (c_links c) [] 0 v O). }
  unfold chain_set_joint_dis, chain_set_joint_dis_all, chain_set_joint_dis_cnt, chain_set_joint_dis_cnt_all,
    chain_set_joint_vel, chain_set_joint_vel_all, chain_set_joint_rate, chain_set_joint_rate_all,
    chain_get_joint_dis, chain_get_joint_dis_all, chain_get_joint_vel, chain_get_joint_vel_all,
    chain_get_joint_acc, chain_get_joint_acc_all.
  rewrite Sr, !G, (S _ set_dis_ok), (S _ (set_cnt_ok dt)), (S _ set_vel_ok). repeat split.
Qed.
End Offset.

(** ** Concrete cases: the five-link arm of Link_Properties *)
Lemma arm_refs_ok : refs_ok (c_links arm) /\ c_links arm <> [].
Proof. apply well_formed_refs_ok, arm_well_formed. Qed.
Definition ref_code (o : option nat) : nat := match o with Some i => S i | None => 0 end.
Definition ref_codes (c : chain Qc) : list nat := flat_map (fun l => map ref_code [l_parent l; l_child l; l_sibl l]) (c_links c).
Example C26_ex : exists c', chain_clone 100 4000 arm = Some c' /\
  (if list_eq_dec Nat.eq_dec (ref_codes c') [0;2;0; 1;3;4; 2;0;5; 1;0;0; 2;0;0] then true else false) = true.
Proof. apply some_ex. vm_compute. reflexivity. Qed.
Example C26_ex_thm : exists c', chain_clone 100 4000 arm = Some c' /\ refs_ok (c_links c').
Proof.
  destruct (C26_clone_structure_partial 100 4000 arm) as (c' & A & _ & R & _); try apply arm_refs_ok. eauto.
Qed.
(** A reference to a link outside the array is not clonable. *)
Example C26_ex_stray : chain_clone 100 4000 (c_set_links (map (l_set_parent (Some 7)) (c_links arm)) arm) = None.
Proof. reflexivity. Qed.
Definition mixed : chain Qc := chain_set_offset (Chain
  [lk0 "b" (joint_alloc TFloat); lk0 "f" JFixed; lk0 "h" (joint_alloc THooke); lk0 "r" jrev; lk0 "g" JFixed; lk0 "s" (joint_alloc TSpher)]
  (qz 0) v3zero v3zero v3zero).
Example C27_ex : map l_offset (c_links mixed) = [Some 0; None; Some 6; Some 8; None; Some 9] /\ chain_joint_size mixed = 12.
Proof. split; reflexivity. Qed.
Lemma arm_offsets : offsets_set arm. Proof. reflexivity. Qed.
Lemma mixed_offsets : offsets_set mixed. Proof. reflexivity. Qed.
(** A revolute joint wraps its angle, the prismatic one does not. *)
Example C28_ex : exists c' r, chain_set_joint_dis_all arm [qz 4; qz 5; qz 0; qz (-3)] = Some c' /\
  chain_get_joint_dis_all c' [qz 0; qz 0; qz 0; qz 0] = Some r /\ r = [Q2Qc (-16 # 7); qz 5; qz 0; qz (-3)].
Proof.
  eexists _, _. split; [reflexivity|]. split; [reflexivity|]. apply qleq; vm_compute; reflexivity.
Qed.
Example C28_ex_thm : exists c' r, chain_set_joint_dis_all arm [qz 4; qz 5; qz 0; qz (-3)] = Some c' /\
  chain_get_joint_dis_all c' [qz 0; qz 0; qz 0; qz 0] = Some r /\ joint_lim_dis jrev [qz 4] = Some (slice 0 1 r).
Proof.
  destruct (C28_dis_roundtrip arm [qz 4; qz 5; qz 0; qz (-3)] [qz 0; qz 0; qz 0; qz 0] arm_offsets eq_refl eq_refl)
    as (c' & r & A & B & _ & _ & C). exists c', r. split; [exact A|]. split; [exact B|]. exact (C 1 _ 0 eq_refl eq_refl).
Qed.
Definition iota12 : list Qc := map (fun k => qz (Z.of_nat k)) (seq 1 12).
Definition zeros12 : list Qc := repeat (qz 0) 12.
Example C28_ex_rate : exists c', chain_set_joint_rate_all mixed iota12 (rev iota12) = Some c' /\
  chain_get_joint_vel_all c' zeros12 = Some iota12 /\ chain_get_joint_acc_all c' zeros12 = Some (rev iota12).
Proof. apply C28_rate_roundtrip; reflexivity. Qed.
Example C28_ex_index : NoDup [3; 0] /\ chain_index_size (c_links mixed) [3; 0] = Some 7 /\
  exists c', chain_set_joint_vel mixed [3; 0] (firstn 7 iota12) = Some c' /\
    chain_get_joint_vel c' [0; 3] (firstn 7 zeros12) = Some ([qz 2; qz 3; qz 4; qz 5; qz 6; qz 7; qz 1]).
Proof.
  split; [|split; [reflexivity|]].
  - constructor; [cbn; lia|]. constructor; [easy|constructor].
  - eexists. split; reflexivity.
Qed.
Example C28_ex_index_dis : exists c' r, chain_set_joint_dis mixed [5; 3] [qz 1; qz 2; qz 3; qz 4] = Some c' /\
  chain_get_joint_dis c' [5; 3] [qz 0; qz 0; qz 0; qz 0] = Some r /\ r = [qz 1; qz 2; qz 3; Q2Qc (-16 # 7)] /\
  nth_error (c_links c') 0 = nth_error (c_links mixed) 0.
Proof.
  eexists _, _. split; [reflexivity|]. split; [reflexivity|]. split; [apply qleq; vm_compute; reflexivity|reflexivity].
Qed.
Example C29_ex : chain_default_index mixed = [0; 2; 3; 5] /\ chain_default_index arm = [1; 2; 3; 4].
Proof. split; reflexivity. Qed.
Example C29_ex_same : chain_get_joint_dis mixed [0; 2; 3; 5] zeros12 = chain_get_joint_dis_all mixed zeros12.
Proof. exact (proj1 (proj2 (proj2 (proj2 (proj2 (C29_default_index_same mixed zeros12 zeros12 (qz 1) mixed_offsets)))))). Qed.

Print Assumptions C26_clone_structure_partial.
Print Assumptions C26_clone_tree.
Print Assumptions C26_clone_only_closed.
Print Assumptions C27_offset_iff_movable.
Print Assumptions C27_ranges_disjoint_in_order.
Print Assumptions C27_ranges_cover.
Print Assumptions C27_only_offsets.
Print Assumptions C28_dis_roundtrip.
Print Assumptions C28_rate_roundtrip.
Print Assumptions C28_vel_roundtrip.
Print Assumptions C28_index_dis.
Print Assumptions C28_index_vel.
Print Assumptions C29_default_index_movable.
Print Assumptions C29_default_index_increasing.
Print Assumptions C29_default_index_size.
Print Assumptions C29_default_index_same.
