(** * IKCell_Properties: cells of the inverse kinematics solver (C46, C51, C52, C65). *)
From Coq Require Import String ZArith QArith Qcanon List Arith Lia Bool Sorted Permutation Field.
From Verif Require Import Num NumFacts Vec VecFacts Motor_Model Joint_Model ExtQ Body_Model Tree Link_Model Link_Properties Jacobi_Model Kin_Properties IK_Model IK_Laws IK_Gauss IK_Spec IK_Cells.
Import ListNotations.

Section Thms.
Context {F : Type} {N : Num F} {E : Ext F} {I : IKExt F}.
Notation ids s := (map (fun x => ce_id (snd x)) (s_cells s)).
Notation addresses s := (map fst (s_cells s)).

(** ** C46 *)
Theorem C46_ids_unique : forall (c c' : chain F) (s : solver F) ops, run c (ik_create c) ops = Some (c', s) ->
  StronglySorted lt (ids s) /\ NoDup (ids s) /\ NoDup (addresses s).
Proof.
  intros c c' s ops H. apply run_cells in H as [A B]; [|apply create_cells]. split; [exact A|]. split; [|exact B].
  unfold cids in A. revert A. generalize (map (fun x : nat * cell F => ce_id (snd x)) (s_cells s)). intros l A.
  induction A as [|x l A IH Fx]; constructor; auto. intros K. rewrite Forall_forall in Fx. specialize (Fx x K). lia.
Qed.
Theorem C46_new_id : forall (c c' c'' : chain F) (s s' : solver F) ops a k attr m,
  run c (ik_create c) ops = Some (c', s) -> run_op c' s (CReg a k attr m) = Some (c'', s') ->
  exists id ce, ~ In id (ids s) /\ (forall j, (j < id)%nat -> In j (ids s)) /\ ce_id ce = id /\
    Permutation (s_cells s') ((a, ce) :: s_cells s) /\ find_cell (s_cells s') id = Some a.
Proof.
  intros c c' c'' s s' ops a k attr m H R. assert (H0 := H). apply run_cells in H as [A B]; [|apply create_cells].
  assert (OK' : cells_ok (s_cells s')) by (eapply run_op_cells; [exact R|split; auto]).
  cbn [run_op] in R. destruct (has a s); [discriminate|]. destruct (cell_reg s a k attr m) as [s1|] eqn:C; [|discriminate]. injection R as <- <-.
  unfold cell_reg in C. apply alloc_srv_cells in C. cbn [s_cells s_set_cells] in C.
  destruct (insert_cell_spec (s_cells s) a (cell_init k attr m) A) as (pre & post & P1 & P2 & P3 & P4).
  exists (length pre), (ce_set_id (length pre) (cell_init k attr m)). rewrite P1, map_app.
  change (map (fun x => ce_id (snd x)) pre) with (cids pre). rewrite P3.
  change (map (fun x => ce_id (snd x)) post) with (cids post). rewrite Forall_forall in P4. repeat split.
  - intros K. apply in_app_or in K as [K|K]; [apply in_seq in K; lia|apply P4 in K; lia].
  - intros j Hj. apply in_or_app. left. apply in_seq. lia.
  - rewrite C, P2. symmetry. apply Permutation_middle.
  - apply find_cell_spec; [exact OK'|]. eexists. split; [rewrite C, P2; apply in_or_app; right; now left|reflexivity].
Qed.
Theorem C46_find : forall (c c' : chain F) (s : solver F) ops id a, run c (ik_create c) ops = Some (c', s) ->
  (find_cell (s_cells s) id = Some a <-> exists ce, In (a, ce) (s_cells s) /\ ce_id ce = id).
Proof. intros c c' s ops id a H. apply find_cell_spec. eapply run_cells; [exact H|apply create_cells]. Qed.
(** A solver with a cell has been given a joint. *)
Definition live (s : solver F) : Prop := s_cells s <> [] -> s_jidx s <> None.
Lemma live_same s s' : live s -> s_jidx s' = s_jidx s -> length (s_cells s') = length (s_cells s) -> live s'.
Proof. intros H A B C. rewrite A. apply H. intros D. rewrite D in B. destruct (s_cells s'); [auto|discriminate]. Qed.
Lemma alloc_cmat_idx (s s' : solver F) : alloc_cmat s = Some s' -> s_jidx s' = s_jidx s /\ (s_cells s <> [] -> s_jidx s <> None).
Proof.
  unfold alloc_cmat. destruct (s_cells s); [intros H; injection H as <-; split; [auto|easy]|]. unfold obind. destruct (s_jidx s) as [i|] eqn:J; [|discriminate].
  destruct i; intros H; injection H as <-; split; auto; discriminate.
Qed.
Lemma alloc_index_live c (s s' : solver F) : alloc_index c s = Some s' -> live s -> live s'.
Proof.
  unfold alloc_index. intros H Hl. destruct (sw_index 0 _) as [|i t]; [injection H as <-; exact Hl|]. unfold obind in H.
  destruct (chain_index_size _ _); [|discriminate]. destruct (weights _ _ _); [|discriminate].
  apply alloc_cmat_idx in H as [A _]. intros _. rewrite A. discriminate.
Qed.
Lemma joint_reg_sw_live c (s : solver F) i b w r : joint_reg_sw c s i b w = Some r -> live s -> live (fst r).
Proof.
  unfold joint_reg_sw. destruct (Nat.ltb _ _); [|intros H; injection H as <-; auto].
  destruct (alloc_index _ _) as [s1|] eqn:A; [|discriminate]. intros H Hl. injection H as <-. eapply alloc_index_live; [exact A|exact Hl].
Qed.
Lemma reg_all_live c w h : forall i (s : solver F) r, reg_all c w s i h = Some r -> live s -> live (fst r).
Proof.
  induction h as [|l h IH]; cbn [reg_all]; intros i s r H Hl; [injection H as <-; exact Hl|]. destruct (Nat.ltb 0 _); [|eauto]. unfold obind in H.
  destruct (joint_reg c s i w) as [r1|] eqn:A; [|discriminate]. assert (L1 := joint_reg_sw_live _ _ _ _ _ _ A Hl).
  destruct (snd r1); [eauto|injection H as <-; exact L1].
Qed.
Lemma alloc_srv_live (s s' : solver F) : alloc_srv s = Some s' -> live s'.
Proof.
  unfold alloc_srv. destruct (s_cells s) eqn:C; intros H; [injection H as <-; intros K; congruence|].
  apply alloc_cmat_idx in H as H'. destruct H' as [A B]. intros _. rewrite A. apply B. cbn. first [discriminate | rewrite C; discriminate].
Qed.
Lemma ik_eq_idx c (s s' : solver F) : ik_eq c s = Some s' -> s_jidx s' = s_jidx s.
Proof. unfold ik_eq. destruct (eq_cells _ _ _ _ _); [|discriminate]. intros H; injection H as <-. reflexivity. Qed.
Lemma solve_rate_idx c (s s' : solver F) : ik_solve_rate c s = Some s' -> s_jidx s' = s_jidx s.
Proof.
  unfold ik_solve_rate, obind. destruct (ik_eq c s) as [s1|] eqn:A; [|discriminate]. apply ik_eq_idx in A.
  assert (B : s_jidx (joint_vel_ad s1) = s_jidx s1) by (unfold joint_vel_ad; destruct (x_le _ _); reflexivity).
  destruct (s_jidx (joint_vel_ad s1)) eqn:J; [|discriminate]. destruct (scatter _ _ _ _); [|discriminate]. intros H; injection H as <-. cbn. congruence.
Qed.
Lemma solve_one_idx c (s : solver F) dis dt r : ik_solve_one c s dis dt = Some r -> s_jidx (snd (fst r)) = s_jidx s.
Proof.
  unfold ik_solve_one, obind. destruct (ik_solve_rate c s) as [s1|] eqn:A; [|discriminate]. apply solve_rate_idx in A.
  destruct (chain_cat_joint_dis_all _ _ _ _); [|discriminate]. destruct (chain_set_joint_dis_all _ _); [|discriminate].
  destruct (chain_get_joint_dis_all _ _); [|discriminate]. destruct (chain_update_fk _); [|discriminate]. intros H; injection H as <-. exact A.
Qed.
Lemma solve_loop_idx tol k : forall i rest c (s : solver F) dis r, solve_loop tol k i rest c s dis = Some r -> s_jidx (snd (fst (fst r))) = s_jidx s.
Proof.
  induction k as [|k IH]; cbn [solve_loop]; intros i rest c s dis r H; [injection H as <-; auto|]. unfold obind in H.
  destruct (ik_solve_one c s dis _) as [r1|] eqn:A; [|discriminate]. apply solve_one_idx in A.
  destruct (match rest with Some _ => _ | None => _ end); [injection H as <-; exact A|]. apply IH in H. congruence.
Qed.
Lemma run_op_live (c : chain F) s o c' s' : run_op c s o = Some (c', s') -> live s -> live s'.
Proof.
  intros H Hl. destruct o; cbn [run_op] in H; unfold option_map in H.
  - destruct (joint_reg c s i w) as [r|] eqn:A; [|discriminate]. injection H as <- <-. eapply joint_reg_sw_live; eauto.
  - destruct (joint_unreg c s i) as [r|] eqn:A; [|discriminate]. injection H as <- <-. eapply joint_reg_sw_live; eauto.
  - destruct (joint_reg_all c s w) as [r|] eqn:A; [|discriminate]. injection H as <- <-. eapply reg_all_live; eauto.
  - destruct (has a s); [discriminate|]. destruct (cell_reg s a k attr m) as [s1|] eqn:A; [|discriminate]. injection H as <- <-. eapply alloc_srv_live; exact A.
  - destruct (cell_unreg s a) as [s1|] eqn:A; [|discriminate]. injection H as <- <-. unfold cell_unreg, obind in A.
    destruct (purge (s_cells s) a) as [l|]; [|discriminate]. eapply alloc_srv_live; exact A.
  - destruct (has a s); [|discriminate]. injection H as <- <-. eapply live_same; [exact Hl|reflexivity|]. cbn. apply map_length.
  - destruct (has a s); [|discriminate]. injection H as <- <-. eapply live_same; [exact Hl|reflexivity|]. cbn. apply map_length.
  - destruct (has a s); [|discriminate]. injection H as <- <-. eapply live_same; [exact Hl|reflexivity|]. cbn. apply map_length.
  - destruct (has a s); [|discriminate]. injection H as <- <-. eapply live_same; [exact Hl|reflexivity|]. cbn. apply map_length.
  - injection H as <- <-. eapply live_same; [exact Hl|reflexivity|]. cbn. apply map_length.
  - destruct (ik_bind c s) as [s1|] eqn:A; [|discriminate]. injection H as <- <-. unfold ik_bind in A. destruct (bind_cells c (s_cells s)) as [l|] eqn:B; [|discriminate].
    injection A as <-. eapply live_same; [exact Hl|reflexivity|]. exact (same_cells_length _ _ (bind_cells_same _ _ _ B)).
  - injection H as <- <-. eapply live_same; [exact Hl|reflexivity|]. cbn. apply map_length.
  - injection H as <- <-. eapply live_same; [exact Hl| |exact (same_cells_length _ _ (seq_set_same s q))].
    unfold seq_set. generalize (sq_entries q). clear. intros l. revert s. induction l as [|e l IH]; intros s; cbn [fold_left]; [reflexivity|].
    rewrite IH. unfold seq_entry. destruct (find_cell _ _); reflexivity.
  - destruct (ik_solve_rate c s) as [s1|] eqn:A; [|discriminate]. injection H as <- <-. eapply live_same; [exact Hl|exact (solve_rate_idx _ _ _ A)|].
    exact (same_cells_length _ _ (solve_rate_same _ _ _ A)).
  - destruct (ik_solve_one c s dis dt) as [r|] eqn:A; [|discriminate]. injection H as H.
    assert (B := solve_one_idx _ _ _ _ _ A). assert (C := same_cells_length _ _ (solve_one_same _ _ _ _ _ A)). rewrite H in B, C. eapply live_same; eauto.
  - destruct (ik_solve c s dis tol iter) as [r|] eqn:A; [|discriminate]. injection H as H. unfold ik_solve, obind in A.
    destruct (chain_get_joint_dis_all c dis); [|discriminate]. assert (B := solve_loop_idx _ _ _ _ _ _ _ _ A). assert (C := same_cells_length _ _ (solve_loop_same _ _ _ _ _ _ _ _ A)).
    rewrite H in B, C. eapply live_same; [exact Hl|exact B|]. cbn [snd] in C. rewrite C. cbn. apply map_length.
  - destruct (chain_fk c v); [|discriminate]. injection H as <- <-. exact Hl.
Qed.
Lemma run_live ops : forall (c : chain F) s c' s', run c s ops = Some (c', s') -> live s -> live s'.
Proof.
  induction ops as [|o ops IH]; cbn [run]; intros c s c' s' H Hl; [injection H as <- <-; exact Hl|]. unfold obind in H.
  destruct (run_op c s o) as [[c1 s1]|] eqn:A; [|discriminate]. eapply IH; [exact H|]. eapply run_op_live; eauto.
Qed.
Theorem C46_unreg : forall (c c' : chain F) (s : solver F) ops a, run c (ik_create c) ops = Some (c', s) ->
  In a (addresses s) -> exists s' pre ce post, run_op c' s (CUnreg a) = Some (c', s') /\
    s_cells s = pre ++ (a, ce) :: post /\ s_cells s' = pre ++ post /\ ~ In a (addresses s') /\ find_cell (s_cells s') (ce_id ce) = None.
Proof.
  intros c c' s ops a H Ha. assert (OK := H). apply run_cells in OK; [|apply create_cells]. apply run_live in H; [|easy].
  destruct (purge_total (s_cells s) a Ha) as [l P]. destruct (purge_spec (s_cells s) a l P) as (pre & [a0 ce] & post & P1 & P2 & P3 & P4). cbn in P3. subst a0.
  assert (J : s_jidx s <> None) by (apply H; rewrite P1; destruct pre; discriminate).
  assert (S1 : exists s1, alloc_srv (s_set_cells l s) = Some s1).
  { unfold alloc_srv. cbn. destruct l as [|y l]; [eauto|]. unfold alloc_cmat. cbn. destruct (s_jidx s) as [i|]; [|easy]. cbn. destruct i; eauto. }
  destruct S1 as [s1 S1]. exists s1, pre, ce, post. split; [|split; [exact P1|split]].
  - cbn [run_op]. unfold cell_unreg. rewrite P. cbn [obind]. rewrite S1. reflexivity.
  - rewrite (alloc_srv_cells _ _ S1). exact P2.
  - rewrite (alloc_srv_cells _ _ S1). cbn [s_cells s_set_cells]. rewrite P2. destruct OK as [O1 O2]. rewrite P1 in O1, O2. split.
    + unfold cadr in O2. rewrite map_app in *. cbn in O2. apply NoDup_remove_2 in O2. exact O2.
    + destruct (find_cell (pre ++ post) (ce_id ce)) as [b|] eqn:Q; [|auto]. exfalso.
      assert (OKl : cells_ok (pre ++ post)) by (rewrite <- P2; eapply purge_ok; [|exact P]; rewrite P1; split; auto).
      apply find_cell_spec in Q as (x & Q1 & Q2); [|exact OKl]. rewrite cids_app in O1. cbn in O1. apply ssorted_app in O1 as (_ & Sp & Lt).
      apply in_app_or in Q1 as [Q1|Q1].
      * specialize (Lt (ce_id x) (ce_id ce)). rewrite Q2 in Lt. apply (Nat.lt_irrefl (ce_id ce)). apply Lt; [|now left]. rewrite <- Q2. apply (in_map (fun y => ce_id (snd y)) pre (b, x) Q1).
      * inversion Sp as [|? ? _ Fx]; subst. rewrite Forall_forall in Fx. apply (Nat.lt_irrefl (ce_id ce)). apply Fx. rewrite <- Q2. apply (in_map (fun y => ce_id (snd y)) post (b, x) Q1).
Qed.

(** ** C65 *)
(** What a mask selects from the attributes that were passed, or the documented default. *)
Definition selected {A} (attr : option (cattr F)) (bit : bool) (f : cattr F -> A) (d : A) : A :=
  match attr, bit with Some a, true => f a | _, _ => d end.
Theorem C65_registered_cell : forall (c c' : chain F) (s s' : solver F) a k attr m,
  StronglySorted lt (ids s) -> run_op c s (CReg a k attr m) = Some (c', s') ->
  exists ce, In (a, ce) (s_cells s') /\ ce_kind ce = k /\
    a_id (ce_attr ce) = selected attr (k_id m) a_id O /\ a_sub (ce_attr ce) = selected attr (k_sub m) a_sub O /\
    a_ap (ce_attr ce) = selected attr (k_ap m) a_ap v3zero /\ a_w (ce_attr ce) = selected attr (k_weight m) a_w (V3 1 1 1)%num /\
    m_x (ce_mode ce) = false /\ m_y (ce_mode ce) = false /\ m_z (ce_mode ce) = false /\ m_force (ce_mode ce) = k_force m /\
    (forall x, In x (s_cells s) -> In x (s_cells s')) /\ length (s_cells s') = S (length (s_cells s)).
Proof.
  intros c c' s s' a k attr m Hs R. cbn [run_op] in R. destruct (has a s); [discriminate|]. destruct (cell_reg s a k attr m) as [s1|] eqn:C; [|discriminate]. injection R as <- <-.
  unfold cell_reg in C. apply alloc_srv_cells in C. cbn [s_cells s_set_cells] in C.
  destruct (insert_cell_spec (s_cells s) a (cell_init k attr m) Hs) as (pre & post & P1 & P2 & _).
  exists (ce_set_id (length pre) (cell_init k attr m)). rewrite C, P2. split; [apply in_or_app; right; now left|].
  rewrite P1. unfold selected. cbn. destruct attr as [at_|]; repeat split; try (intros x Hx; apply in_app_or in Hx as [Hx|Hx]; apply in_or_app; [now left|right; now right]);
    try (rewrite !app_length; cbn; lia).
Qed.

(** Registering a cell before any joint dereferences the null joint index. *)
Theorem C46_cell_before_joint_refuted : forall (c : chain F) a k attr m, run c (ik_create c) [CReg a k attr m] = None.
Proof. intros. reflexivity. Qed.
End Thms.

(** ** C51 *)
Section Bind.
Context {F : Type} {N : Num F} {L : NumLaws F N} {E : Ext F} {I : IKExt F}.
Add Field FFieldB : num_field.
Definition bindable (k : kind) : Prop := match k with WldPos | WldAtt | L2LPos | L2LAtt | COM => True | AM | AMCOM => False end.
Lemma v3sub_diag (v : vec3 F) : v3sub v v = v3zero.
Proof. vdestruct. vunfold. vsplit; ring. Qed.
Lemma m3v_zero (m : mat3 F) : m3v m v3zero = v3zero.
Proof. vdestruct. vunfold. vsplit; ring. Qed.
Lemma bind_in (c : chain F) l : forall l', bind_cells c l = Some l' -> forall a ce', In (a, ce') l' ->
  exists ce, In (a, ce) l /\ cell_bind c ce = Some ce'.
Proof.
  induction l as [|x l IH]; cbn [bind_cells]; intros l' H a ce' K; [injection H as <-; destruct K|]. unfold obind in H.
  destruct (cell_bind c (snd x)) as [y|] eqn:B; [|discriminate]. destruct (bind_cells c l) as [t|]; [|discriminate]. injection H as <-.
  destruct K as [K|K]; [injection K as <- <-; exists (snd x); split; [left; now destruct x|auto]|].
  destruct (IH t eq_refl a ce' K) as (ce & A & C). exists ce. split; [now right|exact C].
Qed.
Theorem C51_bind_zero_error_partial : forall (c : chain F) (s s' : solver F) a ce,
  (forall i l, nth_error (c_links c) i = Some l -> rotation (fatt (l_frame l))) ->
  (forall m : mat3 F, rotation m -> x_m3err m m = v3zero) ->
  ik_bind c s = Some s' -> In (a, ce) (s_cells s') -> bindable (ce_kind ce) ->
  cell_err c ce = Some v3zero /\ mode_off (ce_mode ce) = false /\
  exists ce0, In (a, ce0) (s_cells s) /\ ce_id ce = ce_id ce0 /\ ce_attr ce = ce_attr ce0.
Proof.
  intros c s s' a ce Rot Err H K B. unfold ik_bind in H. destruct (bind_cells c (s_cells s)) as [l|] eqn:Q; [|discriminate]. injection H as <-. cbn in K.
  destruct (bind_in c _ _ Q a ce K) as (ce0 & A1 & A2). unfold cell_bind, cell_bound in A2.
  assert (G : cell_err c ce = Some v3zero /\ mode_off (ce_mode ce) = false /\ ce_id ce = ce_id ce0 /\ ce_attr ce = ce_attr ce0).
  { destruct (ce_kind (cell_enable ce0)) eqn:Kd; unfold obind in A2; cbn in A2, Kd.
    - destruct (nth_error (c_links c) (a_id (ce_attr ce0))) as [l1|] eqn:N1; [|discriminate]. injection A2 as <-. unfold cell_err. cbn. rewrite Kd, N1. cbn. rewrite v3sub_diag. auto.
    - destruct (nth_error (c_links c) (a_id (ce_attr ce0))) as [l1|] eqn:N1; [|discriminate]. injection A2 as <-. unfold cell_err. cbn. rewrite Kd, N1. cbn. rewrite Err by eauto. auto.
    - destruct (nth_error (c_links c) (a_sub (ce_attr ce0))) as [l2|] eqn:N2; [|discriminate].
      destruct (nth_error (c_links c) (a_id (ce_attr ce0))) as [l1|] eqn:N1; [|discriminate]. injection A2 as <-. unfold cell_err. cbn. rewrite Kd, N2. cbn. rewrite N1. cbn. rewrite v3sub_diag. auto.
    - destruct (nth_error (c_links c) (a_id (ce_attr ce0))) as [l1|] eqn:N1; [|discriminate].
      destruct (nth_error (c_links c) (a_sub (ce_attr ce0))) as [l2|] eqn:N2; [|discriminate]. injection A2 as <-. unfold cell_err. cbn. rewrite Kd, N1. cbn. rewrite N2. cbn.
      rewrite Err by (apply rotation_mul; [apply rotation_tr|]; eauto). rewrite m3v_zero. auto.
    - injection A2 as <-. unfold cell_err. cbn. rewrite Kd. rewrite v3sub_diag. auto.
    - injection A2 as <-. cbn in B. rewrite Kd in B. destruct B.
    - injection A2 as <-. cbn in B. rewrite Kd in B. destruct B. }
  destruct G as (G1 & G2 & G3 & G4). repeat split; auto. exists ce0. auto.
Qed.
End Bind.

(** ** Concrete cases *)
Definition full : mask := Mask true true true false true.
Definition at_ (i j : nat) : option (cattr Qc) := Some (Attr i j (V3 (qz 1) (qz 0) (qz 2)) (V3 (qz 1) (qz 2) (qz 3))).
(** Four cells, the second and the first unregistered, one more registered: it takes identifier 0. *)
Definition hist : list (op Qc) :=
  [JReg 1 (qz 1); CReg 10 WldPos (at_ 4 0) full; CReg 11 WldAtt (at_ 4 0) full; CReg 12 COM None full; CReg 13 L2LAtt (at_ 4 2) full;
   CUnreg 11; CUnreg 10; CReg 20 L2LPos (at_ 4 1) full].
Definition cell_table (r : chain Qc * solver Qc) : list (nat * nat) := map (fun x => (fst x, ce_id (snd x))) (s_cells (snd r)).
Example C46_ex : match run mech (ik_create mech) hist with Some r => cell_table r | None => [] end = [(20, 0); (12, 2); (13, 3)]%nat.
Proof. vm_compute. reflexivity. Qed.
Example C46_ex_next : match run mech (ik_create mech) (hist ++ [CReg 21 AM None full]) with Some r => cell_table r | None => [] end = [(20, 0); (21, 1); (12, 2); (13, 3)]%nat.
Proof. vm_compute. reflexivity. Qed.
Example C46_ex_find : match run mech (ik_create mech) hist with Some r => map (find_cell (s_cells (snd r))) [0; 1; 2; 3; 4]%nat | None => [] end = [Some 20; None; Some 12; Some 13; None]%nat.
Proof. vm_compute. reflexivity. Qed.
Example C46_ex_theorem c' s : run mech (ik_create mech) hist = Some (c', s) -> NoDup (map fst (s_cells s)) /\ (In 12%nat (map fst (s_cells s)) -> exists s', run_op c' s (CUnreg 12) = Some (c', s')).
Proof.
  intros H. split; [apply (C46_ids_unique _ _ _ _ H)|]. intros K. destruct (C46_unreg _ _ _ _ _ H K) as (s' & _ & _ & _ & A & _). eauto.
Qed.
Definition cell_flat (x : nat * cell Qc) : list Qc :=
  [qz (Z.of_nat (a_id (ce_attr (snd x)))); qz (Z.of_nat (a_sub (ce_attr (snd x))))] ++ l3 (a_ap (ce_attr (snd x))) ++ l3 (a_w (ce_attr (snd x))).
(** Only the link and the weight are taken; the other attributes have their defaults. *)
Example C65_ex : exists r, run mech (ik_create mech) [JReg 1 (qz 1); CReg 10 WldPos (at_ 4 3) (Mask true false false true true)] = Some r /\
  map cell_flat (s_cells (snd r)) = zq [[4; 0; 0; 0; 0; 1; 2; 3]]%Z.
Proof. apply (some_exq _ (fun r : chain Qc * solver Qc => map cell_flat (s_cells (snd r)))). vm_compute. reflexivity. Qed.
Example C65_ex_null : exists r, run mech (ik_create mech) [JReg 1 (qz 1); CReg 10 COM None full] = Some r /\
  map cell_flat (s_cells (snd r)) = zq [[0; 0; 0; 0; 0; 1; 1; 1]]%Z.
Proof. apply (some_exq _ (fun r : chain Qc * solver Qc => map cell_flat (s_cells (snd r)))). vm_compute. reflexivity. Qed.

Lemma qm3err_self (m : mat3 Qc) : rotation m -> x_m3err m m = v3zero.
Proof.
  intros R. cbn [x_m3err Ext_Qc]. unfold qm3err. rewrite (rotation_mul_tr m R). unfold qm2aa, m3id, v3div, v3zero. cbn. f_equal; apply qeq; reflexivity.
Qed.
Definition seven : list (op Qc) :=
  [JRegAll (qz 1); MoveTo mdis; CReg 10 WldPos (at_ 4 0) full; CReg 11 WldAtt (at_ 4 0) full; CReg 12 COM None full; CReg 13 L2LPos (at_ 1 3) full;
   CReg 14 L2LAtt (at_ 4 2) full; CReg 15 AM (at_ 0 0) full; CReg 16 AMCOM None full;
   CSetRef 11 (V3 (qz 1) (qz 0) (qz 0)); CSetRef 14 (V3 (qz 0) (qz 1) (qz 1))].
Definition errs (r : chain Qc * solver Qc) : list (list Qc) :=
  map (fun x => match cell_err (fst r) (snd x) with Some v => l3 v | None => [] end) (s_cells (snd r)).
(** Before binding the errors are not zero; after binding they are. *)
Example C51_ex_before : exists r, run mech (ik_create mech) seven = Some r /\ errs r =
  zq [[-3; 4; -3]; [-1; 1; -1]]%Z ++ [[Q2Qc (-19 # 7); Q2Qc (6 # 7); Q2Qc (-9 # 7)]] ++ zq [[1; 2; -1]; [-1; 0; 0]; [0; 0; 0]; [0; 0; 0]]%Z.
Proof. apply (some_exq _ errs). vm_compute. reflexivity. Qed.
Example C51_ex : exists r, run mech (ik_create mech) (seven ++ [Bind]) = Some r /\ errs r = zq (repeat [0; 0; 0]%Z 7).
Proof. apply (some_exq _ errs). vm_compute. reflexivity. Qed.
(** A chain that moves: the error of the two momentum cells after binding is the momentum. *)
Definition bind_in_motion (o1 : option (chain Qc * chain Qc)) (o2 : option (chain Qc * solver Qc)) : option (chain Qc * solver Qc) :=
  obind o1 (fun x => let c := chain_calc_comvel (chain_calc_com (snd x)) in
  obind o2 (fun r => option_map (pair c) (ik_bind c (snd r)))).
Example C51_ex_moving : exists r, bind_in_motion (mrun mech mvel) (run mech (ik_create mech) seven) = Some r /\ errs r =
  zq [[0; 0; 0]; [0; 0; 0]; [0; 0; 0]; [0; 0; 0]; [0; 0; 0]; [-62; -20; 9]]%Z ++ [[Q2Qc (-354 # 7); qz 5; Q2Qc (45 # 7)]].
Proof. apply (some_exq _ errs). vm_compute. reflexivity. Qed.
Definition bind_gives_zero : Prop := forall (c : chain Qc) (s s' : solver Qc) a ce,
  ik_bind c s = Some s' -> In (a, ce) (s_cells s') -> cell_err c ce = Some v3zero.
Lemma bound_errs (o1 : option (chain Qc * chain Qc)) (o2 : option (chain Qc * solver Qc)) r : bind_gives_zero ->
  bind_in_motion o1 o2 = Some r -> forall y, In y (errs r) -> y = l3 v3zero.
Proof.
  intros H A y Hy. destruct o1 as [x|]; [|discriminate A]. destruct o2 as [r2|]; [|discriminate A]. unfold bind_in_motion in A. cbn [obind] in A.
  destruct (ik_bind _ (snd r2)) as [s1|] eqn:Bd; [|discriminate A]. injection A as <-. unfold errs in Hy.
  apply in_map_iff in Hy as ([a ce] & <- & K). cbn [fst snd] in *. rewrite (H _ _ _ a ce Bd K). reflexivity.
Qed.
Lemma not_all_zero (l : list (list Qc)) : (forall y, In y l -> y = l3 v3zero) -> forallb (fun y => qlb y (l3 v3zero)) l = true.
Proof. intros H. apply forallb_forall. intros y Hy. rewrite (H y Hy). vm_compute. reflexivity. Qed.
Theorem C51_momentum_cells_refuted : ~ bind_gives_zero.
Proof.
  intros H. destruct C51_ex_moving as (r & A & B). pose proof (not_all_zero _ (bound_errs _ _ r H A)) as K. rewrite B in K.
  revert K. vm_compute. discriminate.
Qed.
Example C51_ex_theorem c1 s s' a ce : chain_update_frame mech = Some c1 -> ik_bind c1 s = Some s' -> In (a, ce) (s_cells s') -> ce_kind ce = L2LAtt ->
  cell_err c1 ce = Some v3zero.
Proof.
  intros A H K Kd. apply (C51_bind_zero_error_partial c1 s s' a ce); auto using qm3err_self; [|now rewrite Kd].
  intros i l Hl. destruct mech_usable as [(W & _ & J & O) _]. apply (C31_frames_rigid mech c1 i l W J O A Hl).
Qed.

Print Assumptions C46_ids_unique.
Print Assumptions C46_new_id.
Print Assumptions C46_find.
Print Assumptions C46_unreg.
Print Assumptions C46_cell_before_joint_refuted.
Print Assumptions C65_registered_cell.
Print Assumptions C51_bind_zero_error_partial.
Print Assumptions C51_momentum_cells_refuted.
