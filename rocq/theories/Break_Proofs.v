(** * Break_Proofs: breakable joints in the articulated body algorithm. *)
From Coq Require Import List Arith Lia Field.
From Verif Require Import Num NumFacts Vec VecFacts Motor_Model Joint_Model Joint_Spec Joint_Proofs Body_Model Body_Proofs
  Tree Tree_Proofs Link_Model Link_Spec Link_Proofs Chain_Proofs Link_Properties Chain_Properties Kin_Spec Kin_Proofs
  Dyn_Spec Dyn_Proofs Walk Walk_Proofs ABI_Model ABI_Spec ABI_Alg ABI_Proofs ABI_State Break_Spec.
Import ListNotations.
Local Open Scope nat_scope.

(** A property of the state that every update of a link of the forest keeps is kept by the forward pass. *)
Section Keep.
Context {L S P : Type} (parent child sibl : L -> option nat).
Context (upd : S -> L -> P -> S * L) (par : L -> P) (Ok : S -> Prop).
Hypothesis upd_refs : forall s l p, @same_refs L parent child sibl l (snd (upd s l p)).
Lemma walk_fwd_keeps f fuel s0 (h : list L) q i p s1 h' :
  @rep L parent child sibl h q (Some i) f -> NoDup (ids f) -> fsize f <= fuel ->
  (forall j l s p, In j (ids f) -> nth_error h j = Some l -> Ok s -> Ok (fst (upd s l p))) ->
  walk_fwd child sibl upd par fuel s0 h i p = Some (s1, h') -> Ok s0 -> Ok s1.
Proof.
  revert fuel s0 h q i p s1 h'. induction f as [|j k IHk r IHr]; intros fuel s0 h q i p s1 h' RR ND FU K W OK; [discriminate RR|].
  destruct RR as (E & l & Hl & Hp & Hk & Hr). injection E as <-.
  destruct fuel as [|fuel]; [simpl in FU; lia|]. cbn [fsize] in FU. apply le_S_n in FU.
  destruct (nodup_split _ i k r eq_refl ND) as (N1 & N2 & N3 & N4 & N5).
  cbn [walk_fwd] in W. unfold on_nth at 1 in W. rewrite Hl in W.
  destruct (upd_refs s0 l p) as (U1 & U2 & U3).
  assert (OA : Ok (fst (upd s0 l p))) by (apply (K i); auto; now left).
  destruct (upd s0 l p) as [sa la] eqn:UE. cbn [fst snd] in *.
  set (h1 := set_nth i la h) in *.
  assert (E1 : nth_error h1 i = Some la) by (apply set_nth_same; eapply nth_lt; eauto).
  assert (E2 : forall m, m <> i -> nth_error h1 m = nth_error h m) by (intros; apply set_nth_other; auto).
  assert (Rr : @rep L parent child sibl h1 q (sibl l) r).
  { apply (rep_frame parent child sibl h); auto. intros; apply E2; intro; subst; auto. }
  rewrite <- U3 in W.
  assert (X1 : exists sb h2, opt_walk (sibl l) (sa, h1) (fun s => walk_fwd child sibl upd par fuel sa h1 s p) = Some (sb, h2) /\ Ok sb
    /\ (forall j, ~ In j (ids r) -> nth_error h2 j = nth_error h1 j)).
  { destruct (sibl l) as [s|] eqn:SS; cbn [opt_walk] in *.
    - destruct (walk_fwd_spec parent child sibl upd par (fun _ _ => True) upd_refs (fun _ => I) (fun _ _ _ _ _ => I) (fun _ _ _ => I) r fuel sa h1 q s p Rr N4)
        as (sb & h2 & W1 & _ & _ & _ & O1); [lia|].
      exists sb, h2. split; [exact W1|]. split; [|exact O1].
      eapply (IHr fuel sa h1 q s p); [exact Rr|exact N4|lia| |exact W1|exact OA].
      intros m lm sm pm Im Hm. apply (K m); [right; apply in_or_app; auto|]. rewrite <- E2; [exact Hm|]. intros ->. auto.
    - exists sa, h1. auto. }
  destruct X1 as (sb & h2 & W1 & OB & O1). rewrite W1 in W. cbn [bind] in W.
  assert (E3 : nth_error h2 i = Some la) by (rewrite O1; auto).
  unfold on_nth at 1 in W. rewrite E3 in W. rewrite <- U2 in W.
  assert (Rk : @rep L parent child sibl h2 (Some i) (child l) k).
  { apply (rep_frame parent child sibl h); auto. intros m Hm. rewrite O1 by eauto. apply E2; intro; subst; auto. }
  destruct (child l) as [s|] eqn:SS; cbn [opt_walk] in W.
  - eapply (IHk fuel sb h2 (Some i) s); [exact Rk|exact N3|lia| |exact W|exact OB].
    intros m lm sm pm Im Hm. apply (K m); [right; apply in_or_app; auto|]. rewrite <- E2, <- O1; [exact Hm|eauto|]. intros ->. auto.
  - assert (s1 = sb) by congruence. now subst.
Qed.
End Keep.

Section B.
Context {F : Type} {N : Num F} {L : NumLaws F N} {E : Ext F} {MI : MInv F}.
Add Field FField : num_field.
Local Open Scope num_scope.
Notation al := (alink F).

(** [update_wrench_run] with the forward pass itself. *)
Lemma update_wrench_fwd g (c : achain F) : awf c -> chain_joint_size (ac_c c) <> 0%nat ->
  exists c' k h1 h2, chain_abi_update_wrench g c = Some c' /\ abi_run g c c' k h1 h2 /\
    fwd_wrench_all (ac_br c) (S (length h2)) h2 = Some (ac_br c', ac_links c').
Proof.
  intros W NZ. unfold chain_abi_update_wrench. destruct (Nat.eqb_spec (chain_joint_size (ac_c c)) 0) as [|_]; [contradiction|].
  destruct (awf_atree c W) as (k & T & TT). destruct W as [W LE].
  destruct (init_all_spec g _ _ T) as (h1 & I1 & IN & T1).
  unfold chain_abi_init, ac_lift. rewrite I1. cbn [option_map obind].
  set (c1 := ac_put c (ac_br c) h1).
  assert (N1 : ac_links c1 = h1) by apply ac_links_put.
  assert (F1 : c_fuel (ac_c c1) = S (length h1)) by (unfold c_fuel; cbn; now rewrite map_length).
  unfold chain_abi_backward, ac_lift. rewrite N1, F1. change (ac_br c1) with (ac_br c).
  destruct (back_all_spec (ac_br c) (S (length h1)) h1 k T1) as (h2 & I2 & L2 & B2 & T2); [lia|].
  rewrite I2. cbn [option_map obind]. set (c2 := ac_put c1 (ac_br c) h2).
  assert (N2 : ac_links c2 = h2) by apply ac_links_put.
  assert (F2 : c_fuel (ac_c c2) = S (length h2)) by (unfold c_fuel; cbn; now rewrite map_length).
  unfold chain_abi_forward_wrench. rewrite N2, F2. change (ac_br c2) with (ac_br c).
  destruct (fwd_wrench_spec (ac_br c) (S (length h2)) h2 k T2) as (br' & h3 & I3 & BL & L3 & B3 & T3); [lia|].
  rewrite I3. cbn [option_map fst snd]. exists (ac_put c2 br' h3), k, h1, h2. split; [reflexivity|].
  rewrite ac_links_put. cbn [ac_put ac_br]. split; [|exact I3].
  unfold abi_run. rewrite ac_links_put. cbn [ac_put ac_br].
  do 8 (split; [assumption|]). split.
  - split; [|apply ac_put_len]. exists k. cbn. now apply atree_tree.
  - rewrite L3, L2. apply IN.
Qed.
Lemma v3sqr_0 : v3sqr (v3zero : vec3 F) = 0. Proof. unfold v3sqr, v3dot. cbn. ring. Qed.
Lemma zero_withstood (e : option F) : limit_ok e -> norm_above v3zero e = false.
Proof.
  destruct e as [e|]; [|reflexivity]. cbn [limit_ok norm_above]. intros H. apply Bool.orb_false_iff. split; apply nltb_ge; [exact H|].
  rewrite v3sqr_0. now apply nle_0_mul.
Qed.
Lemma zero_keeps (j : joint F) : limits_ok j -> joint_breaks j v6zero = false.
Proof. destruct j; try reflexivity. cbn [limits_ok joint_breaks]. intros [A B]. apply Bool.orb_false_iff. split; now apply zero_withstood. Qed.
Lemma breaks_spec (j : joint F) w : joint_breaks j w = false <-> withstands j w.
Proof.
  destruct j; cbn [joint_breaks withstands]; try tauto. rewrite Bool.orb_false_iff.
  assert (Q : forall v e, norm_above v e = false <-> at_most v e).
  { intros v [e|]; cbn [norm_above at_most]; [|tauto]. rewrite Bool.orb_false_iff, !nltb_ge. tauto. }
  rewrite !Q. tauto.
Qed.
(** An intact breakable joint whose inertia can be inverted transmits nothing. *)
Lemma free_wrench (l : al) p : let l2 := abi_back false l in breakable (al_joint l2) ->
  (forall v, mat_v6 (ab_axi (al_a l2)) (mat_v6 (ab_iaxi (al_a l2)) v) = v) ->
  l_wrench (al_l (snd (abi_fwd_wrench false l2 p))) = v6zero.
Proof.
  intros l2 BR INV. cbv zeta. assert (X := back_axi false l). cbv zeta in X. fold l2 in X. clearbody l2.
  unfold abi_fwd_wrench. cbn [snd]. set (r := abi_fwd false l2 p).
  change (joint_wrench (ab_i (al_a l2)) (ab_b (al_a l2)) (al_acc r) = v6zero).
  unfold r, abi_fwd. cbn [al_set_acc al_set_joint]. unfold al_acc. cbn [al_l].
  change (joint_wrench (ab_i (al_a l2)) (ab_b (al_a l2)) (snd (joint_qacc false (al_joint l2) (ab_i (al_a l2)) (ab_b (al_a l2))
    (v6add (xform6lin (l_adj (al_l l2)) p) (ab_c (al_a l2))) (ab_iaxi (al_a l2)) (al_acc l2))) = v6zero).
  destruct (al_joint l2) as [| | | | | | |f ef et]; try contradiction. cbn [joint_qacc snd].
  assert (X1 : ab_axi (al_a l2) = m6rows (ab_i (al_a l2))) by (apply (f_equal fst) in X; exact X). unfold joint_wrench. specialize (INV (v6opp (ab_b (al_a l2)))). rewrite X1 in INV at 1. rewrite m6rows_v in INV.
  rewrite INV. apply v6add_opp_l.
Qed.
Lemma free_forever g (c c' : achain F) : awf c -> chain_joint_size (ac_c c) <> 0%nat -> ac_br c = false ->
  Forall (fun l => limits_ok (l_joint l)) (c_links (ac_c c)) -> chain_abi_update_wrench g c = Some c' -> breakables_regular c' ->
  ac_br c' = false /\ forall i l, nth_error (c_links (ac_c c')) i = Some l -> breakable (l_joint l) -> l_wrench l = v6zero.
Proof.
  intros W NZ B0 LO H REG. destruct (update_wrench_fwd g c W NZ) as (c2 & k & h1 & h2 & H2 & RUN & FW). assert (c2 = c') by congruence. subst c2.
  pose proof RUN as (IN & BK & FD & BL & T0 & T1 & T2 & T3 & W' & LL).
  rewrite B0 in BK.
  (* stages of a link *)
  assert (ST : forall i l2, nth_error h2 i = Some l2 -> exists l1 l0 s p, l2 = abi_back false l1 /\ nth_error (ac_links c) i = Some l0 /\ al_joint l1 = al_joint l0 /\
     nth_error (ac_links c') i = Some (snd (abi_fwd_wrench s l2 p)) /\ (s = true -> ac_br c' = true)).
  { intros i l2 Hi. destruct (find_kids_in _ _ (atree_in _ _ _ _ T2 Hi)) as [ki FK]. destruct (backed_find _ _ _ _ _ _ _ BK FK) as (l1 & Q1 & Q2).
    destruct (fwded_point al_parent al_child al_sibl _ _ _ _ _ _ _ _ i _ _ _ (proj1 T2) FD (atree_in _ _ _ _ T2 Hi)) as (l & s & p & P1 & P2 & P3 & P4 & _).
    assert (l = l2) by congruence. subst l.
    destruct IN as [LI IN]. destruct (nth_error (ac_links c) i) as [l0|] eqn:H0. 2:{ apply nth_error_None in H0. apply nth_lt in Q1. lia. }
    destruct (IN i l0 H0) as (v & V1 & V2). assert (l1 = abi_init g v l0) by congruence. subst l1.
    eexists _, l0, s, p. split; [rewrite Q2 in Hi; injection Hi as <-; reflexivity|]. split; [reflexivity|]. split.
    - destruct (fold_give false (abi_init g v l0) (pick h2 (roots ki))) as (Z & _). unfold al_joint. rewrite Z. reflexivity.
    - split; [exact P4|]. intros ->. apply P3. reflexivity. }
  assert (ZW : forall i l2 p, nth_error h2 i = Some l2 -> breakable (al_joint l2) -> l_wrench (al_l (snd (abi_fwd_wrench false l2 p))) = v6zero).
  { intros i l2 p Hi BR. destruct (ST i l2 Hi) as (l1 & l0 & s & p0 & E2 & H0 & JE & H3 & _). subst l2. apply free_wrench; [exact BR|].
    apply ac_nth_of in H3 as [A B]. apply (REG i _ _ A B). revert BR. clear.
    cbn [abi_fwd_wrench snd al_set_wrench al_l abi_fwd al_set_acc al_set_joint]. unfold al_joint at 1. set (l2 := abi_back false l1). fold (al_joint l2).
    change (breakable (al_joint l2) -> breakable (fst (joint_qacc s (al_joint l2) (ab_i (al_a l2)) (ab_b (al_a l2)) (v6add (xform6lin (l_adj (al_l l2)) p0) (ab_c (al_a l2))) (ab_iaxi (al_a l2)) (al_acc l2)))).
    destruct (al_joint l2); try contradiction. intros _. destruct s; exact I. }
  assert (BF : ac_br c' = false).
  { unfold fwd_wrench_all in FW. eapply (walk_fwd_keeps al_parent al_child al_sibl abi_fwd_wrench al_acc (fun b => b = false)); [|apply T2| | | |exact FW|exact B0].
    - intros s l p. repeat split.
    - eapply atree_nodup; eauto.
    - rewrite (atree_size _ _ T2). lia.
    - intros i l2 s p _ Hi ->. unfold abi_fwd_wrench. cbn [fst orb].
      destruct (ST i l2 Hi) as (l1 & l0 & s0 & p0 & E2 & H0 & JE & _).
      assert (JT : jtype_of (al_joint l2) = jtype_of (al_joint l1)) by (subst l2; exact (proj1 (jkept_driving (al_joint l1)))).
      set (x := abi_fwd false l2 p).
      destruct (al_joint l2) as [| | | | | | |f ef et] eqn:JJ;
        try (assert (JX : jtype_of (al_joint x) = jtype_of (al_joint l2)) by (exact (proj1 (jkept_qacc false (al_joint l2) _ _ _ _ _)));
             rewrite JJ in JX; destruct (al_joint x); try discriminate; reflexivity).
      assert (ZZ : joint_wrench (ab_i (al_a x)) (ab_b (al_a x)) (al_acc x) = v6zero).
      { assert (Z := ZW i l2 p Hi). rewrite JJ in Z. exact (Z I). }
      rewrite ZZ. apply zero_keeps.
      assert (LJ : limits_ok (al_joint l2)).
      { subst l2. unfold abi_back, al_joint in JJ |- *. cbn [al_set_joint al_l al_map_a l_set_joint l_joint] in *. fold (al_joint l1) in *. rewrite JE.
        apply ac_nth_of in H0 as [A _]. rewrite Forall_forall in LO. specialize (LO _ (nth_error_In _ _ A)). fold (al_joint l0) in LO.
        revert LO. clear. destruct (al_joint l0); try (intros; exact I). exact (fun x => x). }
      assert (XJ : limits_ok (al_joint l2) -> limits_ok (al_joint x)).
      { unfold x, abi_fwd, al_joint at 2. cbn [al_set_acc al_set_joint al_l l_set_joint l_joint]. 
        change (limits_ok (al_joint l2) -> limits_ok (fst (joint_qacc false (al_joint l2) (ab_i (al_a l2)) (ab_b (al_a l2)) (v6add (xform6lin (l_adj (al_l l2)) p) (ab_c (al_a l2))) (ab_iaxi (al_a l2)) (al_acc l2)))).
        rewrite JJ. exact (fun q => q). }
      auto. }
  split; [exact BF|]. intros i l Hl BR. destruct (nth_error (ac_a c') i) as [a|] eqn:Ha.
  2:{ destruct W' as [_ W']. apply nth_error_None in Ha. apply nth_lt in Hl. lia. }
  assert (H3 := ac_nth_l c' i l a Hl Ha). destruct (nth_error h2 i) as [l2|] eqn:Hi.
  2:{ apply nth_error_None in Hi. apply nth_lt in H3. rewrite <- (atree_size _ _ T3), (atree_size _ _ T2) in H3. lia. }
  destruct (ST i l2 Hi) as (l1 & l0 & s & p & E2 & H0 & JE & Q & SB). assert (s = false) as -> by (destruct s; [rewrite SB in BF by auto; discriminate|reflexivity]).
  assert (AL l a = snd (abi_fwd_wrench false l2 p)) as EQ by congruence. change l with (al_l (AL l a)) in BR |- *. rewrite EQ in BR |- *. apply (ZW i); auto.
  revert BR. change (breakable (fst (joint_qacc false (al_joint l2) (ab_i (al_a l2)) (ab_b (al_a l2)) (v6add (xform6lin (l_adj (al_l l2)) p) (ab_c (al_a l2))) (ab_iaxi (al_a l2)) (al_acc l2))) -> breakable (al_joint l2)).
  destruct (al_joint l2); cbn [joint_qacc fst]; auto.
Qed.
End B.
