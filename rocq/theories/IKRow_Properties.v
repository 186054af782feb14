(** * IKRow_Properties: joint index and constraint rows of the inverse kinematics solver (C47, C48). *)
From Coq Require Import String ZArith QArith Qcanon List Arith Lia Bool Field.
From Verif Require Import Num NumFacts Vec VecFacts Motor_Model Joint_Model Joint_Spec Joint_Proofs ExtQ Body_Model Tree Link_Model Link_Spec Link_Properties Chain_Proofs Chain_Properties Jacobi_Model Kin_Spec Jacobi_Proofs Kin_Properties
  IK_Model IK_Laws IK_Gauss IK_Spec IK_Cells IK_Index IK_Dims IK_Rows IK_Usable IKCell_Properties.
Import ListNotations.
Local Open Scope nat_scope.

Section Thms.
Context {F : Type} {N : Num F} {L : NumLaws F N} {E : Ext F} {I : IKExt F}.
Add Field FFieldRP : num_field.
Notation lk := (link F).
(** The registrations in force after a history of calls. *)
Notation registered c ops := (asked_all (length (c_links c)) (movable c) ops).

(** ** C47 *)
Theorem C47_index_partial : forall (c c' : chain F) (s : solver F) ops, le_laws x_le -> run c (ik_create c) ops = Some (c', s) ->
  wanted c (registered c ops) <> [] ->
  s_jidx s = Some (wanted c (registered c ops)) /\ s_wn s = wanted_weights c (registered c ops) /\
  forall i, In i (wanted c (registered c ops)) -> nth_error (s_jofs s) i = Some (Some (wanted_column c (registered c ops) i)).
Proof.
  intros c c' s ops LE R W. destruct (run_inv LE ops c (fun _ => None) (ik_create c) c' s (create_inv c) R) as [H J].
  fold (registered c ops) in H. assert (J' : same_joints c' c) by (unfold same_joints in *; congruence).
  apply (inv_same_joints c' c) in H; [|exact J']. destruct (i_idx _ _ _ H W) as (A & B & C). split; [exact A|]. split; [exact C|].
  intros i Hi. destruct (wanted_lt _ _ _ Hi) as (X & Y & Z). rewrite B. unfold columns. rewrite nth_error_map.
  rewrite (nth_error_nth' _ 0) by (rewrite seq_length; exact X). rewrite seq_nth by exact X. cbn [option_map Nat.add]. rewrite Y, Z. reflexivity.
Qed.

(** ** Layout *)
Lemma regsize_map (h : list lk) (sz : nat -> nat) (g : nat -> bool) : forall k, (forall i l, nth_error h i = Some l -> sz (k + i) = lsize l) ->
  regsize h (map g (seq k (length h))) = sum_sizes sz (filter g (seq k (length h))).
Proof.
  induction h as [|l h IH]; intros k H; [reflexivity|]. cbn [length seq map regsize filter].
  rewrite (IH (S k)) by (intros i x Hx; rewrite <- (H (S i) x Hx); f_equal; lia).
  specialize (H 0 l eq_refl). rewrite Nat.add_0_r in H. destruct (g k); cbn; rewrite ?H; reflexivity.
Qed.
Lemma inv_laid_out c f (s : solver F) : inv c f s -> wanted c f <> [] -> placed 0 (c_links c) ->
  laid_out c s /\ regsize (c_links c) (s_sw s) = length (s_jvel s) /\ s_jidx s = Some (sw_index 0 (s_sw s)) /\ s_sw s = switches c f /\ s_jofs s = columns c f.
Proof.
  intros H W P. destruct (i_idx _ _ _ H W) as (A & B & C). destruct (i_stale _ _ _ H _ A) as (_ & _ & _ & D & _).
  assert (Sw := i_sw _ _ _ H).
  assert (Sz : forall i l, nth_error (c_links c) i = Some l -> size_at c (0 + i) = joint_size (l_joint l)) by (intros i l Hl; unfold size_at; cbn; now rewrite Hl).
  assert (OF : sw_ofs 0 (c_links c) (switches c f) = columns c f).
  { unfold switches, columns. rewrite (sw_ofs_map (c_links c) (size_at c) (fun i => movable c i && match f i with Some _ => true | None => false end) 0 0 Sz). apply map_ext_in.
    intros i Hi. apply in_seq in Hi. rewrite Nat.sub_0_r. rewrite (wanted_column_sum c f i) by lia. reflexivity. }
  split; [|split; [|split; [|split; [exact Sw|exact B]]]].
  - split; [exact P|]. split; [rewrite Sw; unfold switches; now rewrite map_length, seq_length|]. split; [rewrite Sw, OF; exact B|exact (i_vel _ _ _ H)].
  - rewrite Sw, D. unfold switches. rewrite (regsize_map (c_links c) (size_at c) _ 0 Sz). reflexivity.
  - rewrite A, Sw. unfold switches. now rewrite (sw_index_map (fun i => movable c i && match f i with Some _ => true | None => false end)).
Qed.

(** [v] has the components of [x] for the registered joints and those of [vel] for the others. *)
Definition merged (c : chain F) (f : nat -> option F) (x vel v : list F) : Prop :=
  length v = chain_joint_size c /\ forall i l, nth_error (c_links c) i = Some l ->
    link_slice l v = if movable c i && match f i with Some _ => true | None => false end
                     then Some (firstn (joint_size (l_joint l)) (skipn (wanted_column c f i) x)) else link_slice l vel.
Lemma put_merged c f (s : solver F) x vel : inv c f s -> wanted c f <> [] -> placed 0 (c_links c) -> length x = length (s_jvel s) -> length vel = chain_joint_size c ->
  merged c f x vel (put (c_links c) (s_sw s) x vel).
Proof.
  intros H W P X V. destruct (inv_laid_out c f s H W P) as ((_ & Ls & Of & _) & Rg & _ & Sw & Co). rewrite chain_joint_size_total in V.
  assert (Lp : length (put (c_links c) (s_sw s) x vel) = total (c_links c)) by (apply put_len; congruence).
  split; [rewrite chain_joint_size_total; exact Lp|]. intros i l Hl.
  assert (Hi : i < length (c_links c)) by (apply nth_error_Some; congruence).
  rewrite !(link_slice_nth (c_links c) i l) by auto.
  assert (Hc : nth_error (s_jofs s) i = Some (if movable c i && match f i with Some _ => true | None => false end then Some (wanted_column c f i) else None)).
  { rewrite Co. unfold columns. rewrite nth_error_map. rewrite (nth_error_nth' _ 0) by (rewrite seq_length; exact Hi). rewrite seq_nth by exact Hi. reflexivity. }
  rewrite Of in Hc. rewrite (put_slice (c_links c) (s_sw s) 0 0 x vel i l _ P Ls V ltac:(congruence) Hl Hc). rewrite Nat.sub_0_r || idtac.
  destruct (movable c i && _); [|reflexivity]. now rewrite Nat.sub_0_r.
Qed.
Lemma merged_unique c f x vel u v : placed 0 (c_links c) -> merged c f x vel u -> merged c f x vel v -> u = v.
Proof.
  intros P [U1 U2] [V1 V2]. rewrite chain_joint_size_total in *. apply (slices_eq (c_links c)); auto. intros i l Hl.
  specialize (U2 i l Hl). specialize (V2 i l Hl). rewrite <- V2 in U2. rewrite !(link_slice_nth (c_links c) i l) in U2 by auto. congruence.
Qed.

(** A velocity step gives the registered joints their computed velocities and leaves the others alone. *)
Theorem C47_only_registered_move_partial : forall (c c' : chain F) (s s' : solver F) ops, le_laws x_le -> chain_set_offset c = c ->
  run c (ik_create c) ops = Some (c', s) -> wanted c (registered c ops) <> [] -> ik_solve_rate c' s = Some s' ->
  merged c' (registered c ops) (s_jvel s') (s_vel s) (s_vel s').
Proof.
  intros c c' s s' ops LE O R W Rt. destruct (run_inv LE ops c (fun _ => None) (ik_create c) c' s (create_inv c) R) as [H J]. fold (registered c ops) in H.
  assert (P : placed 0 (c_links c')) by (eapply placed_key; [exact J|exact (offsets_placed c O)]).
  assert (W' : wanted c' (registered c ops) <> []) by (rewrite (same_joints_wanted c c' _ J); exact W).
  assert (H' := solve_rate_inv LE c' _ s s' H Rt).
  destruct (inv_laid_out c' _ s' H' W' P) as ((_ & Ls & _ & _) & Rg & Ix & Sw & _).
  unfold ik_solve_rate, obind in Rt. destruct (ik_eq c' s) as [s1|] eqn:Q; [|discriminate].
  assert (Jx : s_jidx (joint_vel_ad s1) = s_jidx s1 /\ s_vel (joint_vel_ad s1) = s_vel s1) by (unfold joint_vel_ad; destruct (x_le _ _); split; reflexivity).
  assert (V1 : s_vel s1 = s_vel s) by (unfold ik_eq in Q; destruct (eq_cells _ _ _ _ _); [|discriminate]; injection Q as <-; reflexivity).
  destruct (s_jidx (joint_vel_ad s1)) as [idx|] eqn:J2; [|discriminate]. destruct (scatter _ _ _ _) as [v|] eqn:Sc; [|discriminate]. injection Rt as <-.
  cbn in *. rewrite J2 in Ix. injection Ix as Ix. rewrite (proj2 Jx), V1 in Sc.
  assert (Vl : length (s_vel s) = chain_joint_size c') by apply H.
  assert (Pu := put_merged c' _ (s_set_vel v (joint_vel_ad s1)) (s_jvel (joint_vel_ad s1)) (s_vel s) H' W' P eq_refl Vl). cbn in Pu.
  pose proof (scatter_put (c_links c') (c_links c') [] (s_sw (joint_vel_ad s1)) [] (s_jvel (joint_vel_ad s1)) (s_vel s) eq_refl P Ls) as Sp.
  cbn [length app] in Sp. rewrite Ix in Sc. rewrite Sp in Sc by (rewrite ?chain_joint_size_total in Vl; auto). injection Sc as <-. exact Pu.
Qed.

(** ** C48 *)
Inductive axis := AX | AY | AZ.
Definition comp (a : axis) (v : vec3 F) : F := match a with AX => vx v | AY => vy v | AZ => vz v end.
Definition on (m : mode) (a : axis) : bool := match a with AX => m_x m | AY => m_y m | AZ => m_z m end.
(** The enabled axes of all cells, in order. *)
Definition active (l : list (nat * cell F)) : list (cell F * axis) :=
  flat_map (fun x => map (pair (snd x)) (filter (on (ce_mode (snd x))) [AX; AY; AZ])) l.
(** The velocity a cell asks for: its error, corrected by the accumulated error for a forced cell. *)
Definition reference (c : chain F) (ce : cell F) (r : vec3 F) : Prop :=
  exists e, cell_err c ce = Some e /\
  if m_force (ce_mode ce) then r = snd (cell_acm ce e) else r = e.
Definition row_for (c : chain F) (s : solver F) (x : cell F * axis) (y : list F * F * F) : Prop :=
  exists jm r, cell_cmat c (fst x) (repeat v3zero (chain_joint_size c)) = Some jm /\ ref_vel c (fst x) = Some r /\
    y = axis_row c s (map (comp (snd x)) jm) (comp (snd x) r) (comp (snd x) (a_w (ce_attr (fst x)))).
Lemma ref_vel_reference c ce r : ref_vel c ce = Some r -> reference c ce r.
Proof.
  unfold ref_vel, reference. destruct (cell_err c ce) as [e|]; [|discriminate]. cbn. intros H. injection H as H. exists e. split; [auto|].
  destruct (m_force (ce_mode ce)); subst r; [|reflexivity]. unfold cell_acm. cbn. destruct (ce_kind ce); reflexivity.
Qed.
Lemma expect_active c s l : forall rs, expect_all c s l = Some rs -> Forall2 (row_for c s) (active l) rs.
Proof.
  induction l as [|[a ce] l IH]; cbn [expect_all]; intros rs H; [injection H as <-; constructor|]. unfold obind in H. cbn [snd] in H.
  destruct (expect c s ce) as [r1|] eqn:X; [|discriminate]. destruct (expect_all c s l) as [r2|]; [|discriminate]. injection H as <-.
  cbn [active flat_map snd]. apply Forall2_app; [|now apply IH]. clear IH. unfold expect in X. unfold mode_off in X.
  destruct (m_x (ce_mode ce)) eqn:Mx, (m_y (ce_mode ce)) eqn:My, (m_z (ce_mode ce)) eqn:Mz; cbn [orb negb] in X; unfold obind in X;
    cbn [filter on]; rewrite ?Mx, ?My, ?Mz; cbn [map];
    try (injection X as <-; constructor);
    (destruct (cell_cmat c ce _) as [jm|] eqn:Cm; [|discriminate]); (destruct (ref_vel c ce) as [r|] eqn:Rv; [|discriminate]); injection X as <-;
    repeat (constructor; [exists jm, r; auto|]); constructor.
Qed.
Lemma Forall2_nth_l {A B} (R : A -> B -> Prop) l m : Forall2 R l m -> forall k x, nth_error l k = Some x -> exists y, nth_error m k = Some y /\ R x y.
Proof. induction 1; intros [|k] z Hz; cbn in *; try discriminate; [injection Hz as <-; eauto|eauto]. Qed.
Lemma nth_firstn {A} n k (l : list A) x : nth_error (firstn n l) k = Some x -> nth_error l k = Some x.
Proof. revert k l. induction n as [|n IH]; intros [|k] [|y l] H; cbn in *; try discriminate; auto. Qed.

Theorem C48_rows : forall (c c' : chain F) (s : solver F) ops, le_laws x_le -> chain_set_offset c = c ->
  run c (ik_create c) ops = Some (c', s) -> wanted c (registered c ops) <> [] -> (forall x, In x (s_cells s) -> cell_ready c' (snd x)) ->
  exists s', ik_eq c' s = Some s' /\ s_rows s' = length (active (s_cells s)) /\
  forall k ce ax, nth_error (active (s_cells s)) k = Some (ce, ax) ->
  exists jm r row b, cell_cmat c' ce (repeat v3zero (chain_joint_size c')) = Some jm /\ reference c' ce r /\
    nth_error (s_cmat s') k = Some row /\ nth_error (s_csrv s') k = Some b /\ nth_error (s_cwe s') k = Some (comp ax (a_w (ce_attr ce))) /\
    length row = length (s_jvel s) /\
    forall x v, length x = length (s_jvel s) -> merged c' (registered c ops) x (s_vel s) v ->
      (dot row x - b = dot (map (comp ax) jm) v - comp ax r)%num.
Proof.
  intros c c' s ops LE O R W Rd. destruct (run_inv LE ops c (fun _ => None) (ik_create c) c' s (create_inv c) R) as [H J]. fold (registered c ops) in H.
  assert (P : placed 0 (c_links c')) by (eapply placed_key; [exact J|exact (offsets_placed c O)]).
  assert (W' : wanted c' (registered c ops) <> []) by (rewrite (same_joints_wanted c c' _ J); exact W).
  destruct (inv_laid_out c' _ s H W' P) as (Lo & Rg & Ix & Sw & _).
  set (k0 := match s_cells s with [] => length (s_cmat s) | _ => length (s_cells s) * 3 end).
  destruct (s_cells s) as [|x0 l0] eqn:Cs.
  - exists (IK (s_sw s) (s_weight s) (s_vel s) (x_sqrt 0%num) [] (s_jidx s) (s_jofs s) (s_jvel s) (s_wn s) (s_cmat s) (s_csrv s) (s_cwe s) 0).
    unfold ik_eq. rewrite Cs. cbn. split; [reflexivity|]. split; [reflexivity|]. intros k ce ax K. destruct k; discriminate.
  - rewrite <- Cs in *. assert (Ne : s_cells s <> []) by (rewrite Cs; discriminate). destruct (i_dims _ _ _ H Ne) as (D1 & D2 & D3 & D4).
    assert (Hh : holds (length (s_cells s) * 3) (regsize (c_links c') (s_sw s)) (Eqs (s_cmat s) (s_csrv s) (s_cwe s) 0) []).
    { unfold holds, qdims. cbn. rewrite Rg. repeat split; auto. }
    destruct (eq_cells_holds c' s (length (s_cells s) * 3) Lo (s_cells s) _ [] 0%num Rd Hh) as (r & rs & A1 & A2 & A3); [cbn; lia|].
    cbn [app] in A3. pose proof (expect_active c' s _ _ A2) as Fa. destruct A3 as (_ & Q1 & Q2 & Q3 & Q4).
    unfold ik_eq. rewrite A1. cbn [option_map]. eexists. split; [reflexivity|]. cbn [s_rows s_cmat s_csrv s_cwe]. split.
    { rewrite Q1. clear - Fa. induction Fa; cbn; congruence. }
    intros k ce ax K. destruct (Forall2_nth_l _ _ _ Fa k _ K) as ([[row b] w] & Y1 & jm & rv & Y2 & Y3 & Y4). cbn [fst snd] in *. unfold axis_row in Y4. injection Y4 as Y4 Y5 Y6.
    exists jm, rv, row, b. split; [exact Y2|]. split; [now apply ref_vel_reference|].
    assert (Z1 : nth_error (q_mat (snd (fst r))) k = Some row) by (apply (nth_firstn (q_row (snd (fst r)))); rewrite Q2, nth_error_map, Y1; reflexivity).
    assert (Z2 : nth_error (q_srv (snd (fst r))) k = Some b) by (apply (nth_firstn (q_row (snd (fst r)))); rewrite Q3, nth_error_map, Y1; reflexivity).
    assert (Z3 : nth_error (q_we (snd (fst r))) k = Some w) by (apply (nth_firstn (q_row (snd (fst r)))); rewrite Q4, nth_error_map, Y1; reflexivity).
    split; [exact Z1|]. split; [exact Z2|]. split; [rewrite Z3; congruence|].
    assert (Jl : length jm = chain_joint_size c').
    { assert (Hin : exists a, In (a, ce) (s_cells s) /\ mode_off (ce_mode ce) = false).
      { apply nth_error_In in K. unfold active in K. apply in_flat_map in K as ([a ce'] & K1 & K2). apply in_map_iff in K2 as (ax' & K2 & K3). injection K2 as -> ->. cbn in K3.
        exists a. split; [exact K1|]. unfold mode_off. cbn [snd] in K3. destruct (m_x (ce_mode ce)), (m_y (ce_mode ce)), (m_z (ce_mode ce)); cbn in *; auto; destruct K3. }
      destruct Hin as (a & Hin & Off). destruct (Rd _ Hin Off) as [(jm' & M1 & M2) _]. cbn [snd] in M1. congruence. }
    destruct Lo as (_ & Ls & _ & Vl).
    split. { rewrite Y4, gather_len; auto. rewrite map_length, Jl, chain_joint_size_total. lia. }
    intros x v X M. assert (v = put (c_links c') (s_sw s) x (s_vel s)) as ->.
    { eapply merged_unique; [exact P|exact M|]. apply put_merged; auto. }
    rewrite chain_joint_size_total in *. rewrite dot_put by (rewrite ?map_length; congruence). rewrite Y4, Y5. ring.
Qed.

(** *** The kinematic meaning of a row. *)
Definition valid (n : nat) (ce : cell F) : Prop :=
  match ce_kind ce with
  | WldPos | WldAtt => a_id (ce_attr ce) < n
  | L2LPos | L2LAtt => a_id (ce_attr ce) < n /\ a_sub (ce_attr ce) < n
  | _ => True
  end.
(** The velocity that a cell constrains, in a state of motion [c3] of the chain [c]. *)
Definition cell_velocity (c c3 : chain F) (ce : cell F) (q : vec3 F) : Prop :=
  let a := ce_attr ce in let h := c_links c3 in
  match ce_kind ce with
  | WldPos => exists l, nth_error h (a_id a) = Some l /\ q = world_pointvel l (a_ap a)
  | WldAtt => exists l, nth_error h (a_id a) = Some l /\ q = world_angvel l
  | L2LPos => exists l ls, nth_error h (a_id a) = Some l /\ nth_error h (a_sub a) = Some ls /\
      q = v3sub (world_pointvel ls (a_ap a)) (world_vel_at l (xform (l_frame ls) (a_ap a)))
  | L2LAtt => exists l ls, nth_error h (a_id a) = Some l /\ nth_error h (a_sub a) = Some ls /\ q = v3sub (world_angvel ls) (world_angvel l)
  | COM => q = c_comvel (chain_calc_comvel c3)
  | AM => q = ang_momentum h (a_ap a)
  | AMCOM => q = ang_momentum h (c_wcom c)
  end.
Context {XL : ExtLaws F N E}.
Lemma dot_comp ax (J : list (vec3 F)) : forall v, dot (map (comp ax) J) v = comp ax (jmul J v).
Proof.
  induction J as [|x J IH]; intros [|q v]; cbn; try (destruct ax; reflexivity). rewrite IH. destruct ax; cbn; ring.
Qed.
Lemma geom_refl (h : list lk) : geom h h.
Proof. induction h; constructor; auto. repeat split. Qed.
Lemma cell_motion g (c0 c c1 c3 : chain F) v ce : usable c0 -> chain_update_fk c0 = Some c -> length v = chain_joint_size c -> valid (length (c_links c)) ce ->
  motion g c0 v c1 c3 ->
  exists jm q, cell_cmat c ce (repeat v3zero (chain_joint_size c)) = Some jm /\ length jm = chain_joint_size c /\ cell_velocity c c3 ce q /\ jmul jm v = q.
Proof.
  intros U Fk Lv V M. pose proof (update_fk_joints _ _ Fk) as J. assert (SZ : chain_joint_size c = chain_joint_size c0) by (apply same_joints_total; exact J). rewrite SZ in *. rewrite (same_joints_len _ _ J) in V.
  assert (LM : length (repeat (@v3zero F N) (chain_joint_size c0)) = chain_joint_size c0) by apply repeat_length.
  destruct (motion_state g c0 c1 c3 v U Lv M) as (G3 & _ & _ & _).
  assert (c = chain_calc_com c1) as ->. { destruct M as [M _]. unfold chain_update_fk in Fk. rewrite M in Fk. cbn in Fk. congruence. }
  assert (G : geom (c_links c1) (c_links (chain_calc_com c1))) by apply geom_refl.
  assert (Ln : length (c_links c3) = length (c_links c0)). { rewrite <- (geom_length _ _ G3). apply (same_joints_len c0 (chain_calc_com c1) J). }
  assert (NX : forall i, i < length (c_links c0) -> exists l, nth_error (c_links c3) i = Some l).
  { intros i Hi. destruct (nth_error (c_links c3) i) eqn:Q; [eauto|]. apply nth_error_None in Q. lia. }
  unfold valid in V. unfold cell_cmat, cell_velocity. destruct (ce_kind ce).
  - destruct (NX _ V) as (l & Hl). destruct (C32_linear g c0 c1 c3 v (repeat v3zero (chain_joint_size c0)) _ l (a_ap (ce_attr ce)) U Lv LM M Hl) as (K & A & B & C).
    exists K, (jmul K v). rewrite (wld_lin_ext c1 (chain_calc_com c1) G). split; [exact A|]. split; [congruence|]. split; [rewrite C; eauto|reflexivity].
  - destruct (NX _ V) as (l & Hl). destruct (C32_angular g c0 c1 c3 v (repeat v3zero (chain_joint_size c0)) _ l U Lv LM M Hl) as (K & A & B & C).
    exists K, (jmul K v). rewrite (wld_ang_ext c1 (chain_calc_com c1) G). split; [exact A|]. split; [congruence|]. split; [rewrite C; eauto|reflexivity].
  - destruct V as [V1 V2]. destruct (NX _ V1) as (l & Hl). destruct (NX _ V2) as (ls & Hls).
    destruct (C33_relative_linear g c0 c1 c3 v (repeat v3zero (chain_joint_size c0)) _ _ l ls (a_ap (ce_attr ce)) U Lv LM M Hl Hls) as (K & A & B & C).
    exists K, (jmul K v). rewrite (l2l_lin_ext c1 (chain_calc_com c1) G). split; [exact A|]. split; [congruence|]. split; [exists l, ls; rewrite C; auto|reflexivity].
  - destruct V as [V1 V2]. destruct (NX _ V1) as (l & Hl). destruct (NX _ V2) as (ls & Hls).
    destruct (C33_relative_angular g c0 c1 c3 v (repeat v3zero (chain_joint_size c0)) _ _ l ls U Lv LM M Hl Hls) as (K & A & B & C).
    exists K, (jmul K v). rewrite (l2l_ang_ext c1 (chain_calc_com c1) G). split; [exact A|]. split; [congruence|]. split; [exists l, ls; rewrite C; auto|reflexivity].
  - destruct (C34_com g c0 c1 c3 v (repeat v3zero (chain_joint_size c0)) U Lv LM M) as (K & A & B & C & _).
    exists K, (jmul K v). rewrite (com_ext c1 (chain_calc_com c1) G eq_refl). split; [exact A|]. split; [congruence|]. split; [exact C|reflexivity].
  - destruct (C35_am g c0 c1 c3 v (repeat v3zero (chain_joint_size c0)) (a_ap (ce_attr ce)) U Lv LM M) as (K & A & B & _ & C).
    exists K, (jmul K v). rewrite (am_ext c1 (chain_calc_com c1) G). split; [exact A|]. split; [congruence|]. split; [exact C|reflexivity].
  - destruct (C35_am g c0 c1 c3 v (repeat v3zero (chain_joint_size c0)) (c_wcom (chain_calc_com c1)) U Lv LM M) as (K & A & B & _ & C).
    exists K, (jmul K v). unfold am_com_jacobi. rewrite (am_ext c1 (chain_calc_com c1) G). split; [exact A|]. split; [congruence|]. split; [exact C|reflexivity].
Qed.
Lemma valid_ready (c0 c : chain F) ce : usable c0 -> chain_update_fk c0 = Some c -> valid (length (c_links c)) ce -> cell_ready c ce.
Proof.
  intros U Fk V Off. split.
  - pose proof (update_fk_joints _ _ Fk) as J. set (v := repeat 0%num (chain_joint_size c)).
    assert (Lv : length v = chain_joint_size c) by apply repeat_length.
    destruct (C32_motion_exists 0%num c0 v U) as (c1 & c3 & M); [rewrite Lv; apply same_joints_total; exact J|].
    destruct (cell_motion 0%num c0 c c1 c3 v ce U Fk Lv V M) as (jm & q & A & B & _). eauto.
  - assert (NX : forall i, i < length (c_links c) -> exists l, nth_error (c_links c) i = Some l).
    { intros i Hi. destruct (nth_error (c_links c) i) eqn:Q; [eauto|]. apply nth_error_None in Q. lia. }
    unfold valid in V. unfold cell_err. destruct (ce_kind ce); try discriminate; try (destruct (NX _ V) as (l & ->); discriminate);
      destruct V as [V1 V2]; destruct (NX _ V1) as (l & ->); destruct (NX _ V2) as (l2 & ->); discriminate.
Qed.
(** [c3] is the chain [c] with joint velocities [v] set and propagated. *)
Definition in_motion (g : F) (c : chain F) (v : list F) (c3 : chain F) : Prop :=
  exists c2, chain_set_joint_vel_all c v = Some c2 /\ (chain_update_vel c2 = Some c3 \/ chain_update_rate g c2 = Some c3).
Lemma in_motion_motion g (c0 c1 c3 : chain F) v : chain_update_frame c0 = Some c1 -> in_motion g (chain_calc_com c1) v c3 ->
  exists c3', motion g c0 v c1 c3' /\ c_links c3 = c_links c3' /\ c_mass c3 = c_mass c3'.
Proof.
  intros A (c2 & B & C). unfold chain_set_joint_vel_all in B. cbn [c_links chain_calc_com] in B.
  destruct (set_all joint_set_vel (c_links c1) v) as [h|] eqn:S; [|discriminate]. injection B as <-.
  unfold motion. unfold chain_set_joint_vel_all. rewrite S. cbn [option_map].
  unfold chain_update_vel, chain_update_rate, chain_lift in *. cbn [c_links c_set_links] in *. destruct C as [C|C].
  - destruct (update_vel _ _) as [h3|] eqn:Q; [|discriminate]. injection C as <-. exists (c_set_links h3 (c_set_links h c1)).
    split; [split; [exact A|]; eexists; split; [reflexivity|]; left; exact (f_equal (option_map (fun h' => c_set_links h' (c_set_links h c1))) Q)|split; reflexivity].
  - destruct (update_rate _ _ _) as [h3|] eqn:Q; [|discriminate]. injection C as <-. exists (c_set_links h3 (c_set_links h c1)).
    split; [split; [exact A|]; eexists; split; [reflexivity|]; right; exact (f_equal (option_map (fun h' => c_set_links h' (c_set_links h c1))) Q)|split; reflexivity].
Qed.
Lemma cell_velocity_links (c c3 c3' : chain F) ce q : c_links c3 = c_links c3' -> c_mass c3 = c_mass c3' -> cell_velocity c c3' ce q -> cell_velocity c c3 ce q.
Proof. intros A B. unfold cell_velocity. rewrite A. destruct (ce_kind ce); auto. unfold chain_calc_comvel. rewrite A, B. auto. Qed.
Theorem C48_rows_motion : forall (c c' : chain F) (s : solver F) ops, le_laws x_le -> usable c ->
  run c (ik_create c) ops = Some (c', s) -> wanted c (registered c ops) <> [] -> existsb poses ops = true ->
  (forall x, In x (s_cells s) -> valid (length (c_links c')) (snd x)) ->
  exists s', ik_eq c' s = Some s' /\ s_rows s' = length (active (s_cells s)) /\
  forall k ce ax, nth_error (active (s_cells s)) k = Some (ce, ax) ->
  exists r row b, reference c' ce r /\
    nth_error (s_cmat s') k = Some row /\ nth_error (s_csrv s') k = Some b /\ nth_error (s_cwe s') k = Some (comp ax (a_w (ce_attr ce))) /\
    forall g x v c3, length x = length (s_jvel s) -> merged c' (registered c ops) x (s_vel s) v -> in_motion g c' v c3 ->
      exists q, cell_velocity c' c3 ce q /\ (dot row x - b = comp ax q - comp ax r)%num.
Proof.
  intros c c' s ops LE U0 R W Po V. destruct (run_usable ops c _ _ _ U0 R) as [_ Ps]. destruct (Ps (or_intror Po)) as (c0 & U & Fk).
  destruct (C48_rows c c' s ops LE (proj1 (proj2 U0)) R W) as (s' & A & B & C); [intros x Hx; eapply valid_ready; eauto|].
  exists s'. split; [exact A|]. split; [exact B|]. intros k ce ax K. destruct (C k ce ax K) as (jm & r & row & b & C1 & C2 & C3 & C4 & C5 & _ & C6).
  exists r, row, b. repeat (split; [assumption|]). intros g x v c3 X M Mo.
  assert (Vc : valid (length (c_links c')) ce).
  { apply nth_error_In in K. unfold active in K. apply in_flat_map in K as ([a ce'] & K1 & K2). apply in_map_iff in K2 as (ax' & K2 & _). injection K2 as -> ->. apply (V _ K1). }
  assert (Q : exists c1, chain_update_frame c0 = Some c1 /\ c' = chain_calc_com c1).
  { unfold chain_update_fk in Fk. destruct (chain_update_frame c0) as [c1|]; [|discriminate]. injection Fk as <-. eauto. }
  destruct Q as (c1 & Q1 & Q2). rewrite Q2 in Mo. destruct (in_motion_motion g c0 c1 c3 v Q1 Mo) as (c3' & Mo' & L1 & L2).
  destruct (cell_motion g c0 c' c1 c3' v ce U Fk (proj1 M) Vc Mo') as (jm' & q & D1 & D2 & D3 & D4).
  assert (jm' = jm) by congruence. subst jm'. exists q. split; [exact (cell_velocity_links _ _ _ _ _ L1 L2 D3)|]. rewrite (C6 x v X M), dot_comp, D4. reflexivity.
Qed.
End Thms.

(** ** Concrete cases *)
Lemma qle_laws : le_laws (@x_le Qc IKExt_Qc).
Proof. exact (@gauss_laws Qc Num_Qc NumLaws_Qc). Qed.
(** Joints 1, 3 and 4 registered, 3 unregistered and registered again with another weight, 2 unregistered. *)
Definition joints_hist : list (op Qc) :=
  [JReg 1 (qz 2); JReg 3 (qz 5); JReg 4 (qz 3); JReg 2 (qz 7); JUnreg 3; JReg 3 (qz 4); JUnreg 2; JReg 9 (qz 1)].
Definition idx_table (r : chain Qc * solver Qc) : option (list nat) * list (option nat) := (s_jidx (snd r), s_jofs (snd r)).
Example C47_ex : match run mech (ik_create mech) joints_hist with Some r => Some (idx_table r) | None => None end
  = Some (Some [1; 3; 4], [None; Some 0; None; Some 1; Some 3])%nat.
Proof. vm_compute. reflexivity. Qed.
Example C47_ex_weights : exists r, run mech (ik_create mech) joints_hist = Some r /\ [s_wn (snd r)] = zq [[2; 4; 4; 3; 3]]%Z.
Proof. apply (some_exq _ (fun r : chain Qc * solver Qc => [s_wn (snd r)])). vm_compute. reflexivity. Qed.
Example C47_ex_theorem c' s : run mech (ik_create mech) joints_hist = Some (c', s) -> s_jidx s = Some [1; 3; 4]%nat.
Proof. intros H. apply (C47_index_partial mech c' s joints_hist qle_laws H). vm_compute. discriminate. Qed.

(** When the last joint is unregistered the index is left as it was. *)
Theorem C47_index_refuted : ~ forall (c c' : chain Qc) (s : solver Qc) ops idx, run c (ik_create c) ops = Some (c', s) ->
  s_jidx s = Some idx -> idx = wanted c (asked_all (length (c_links c)) (movable c) ops).
Proof.
  intros H. set (ops := [JReg 1 (qz 1); JUnreg 1] : list (op Qc)).
  assert (G : forall (o : option (chain Qc * solver Qc)), run mech (ik_create mech) ops = o ->
    match o with Some r => match s_jidx (snd r) with Some idx => idx = wanted mech (asked_all (length (c_links mech)) (movable mech) ops) | None => True end | None => True end).
  { intros [[c' s]|] R; [|exact Logic.I]. cbn [snd]. destruct (s_jidx s) eqn:Q; [|exact Logic.I]. exact (H _ _ _ _ _ R Q). }
  specialize (G _ eq_refl). vm_compute in G. discriminate.
Qed.
(** The velocity step then still moves that joint, with the matrix of the previous step. *)
Definition stale_hist : list (op Qc) :=
  [MoveTo mdis; JReg 1 (qz 1); CReg 10 WldPos (at_ 4 0) full; CSetRef 10 (V3 (qz 1) (qz 0) (qz 2)); Rate; JUnreg 1].
Definition vel_at (s : solver Qc) (l : link Qc) : list Qc := match link_slice l (s_vel s) with Some v => v | None => [] end.
Definition step_vels (i : nat) (o : option (chain Qc * solver Qc)) : option (list (list Qc)) :=
  obind o (fun r => obind (ik_solve_rate (fst r) (snd r)) (fun s' => option_map (fun l => [vel_at (snd r) l; vel_at s' l]) (nth_error (c_links (fst r)) i))).
Example C47_ex_stale : exists v, step_vels 1 (run mech (ik_create mech) stale_hist) = Some v /\ v = [[Q2Qc (7 # 47)]; [Q2Qc (329 # 2489)]].
Proof. apply (some_exq _ (fun v : list (list Qc) => v)). vm_compute. reflexivity. Qed.
Example C47_ex_none_wanted : wanted mech (asked_all (length (c_links mech)) (movable mech) stale_hist) = [].
Proof. vm_compute. reflexivity. Qed.
Definition unregistered_stay : Prop := forall (c c' : chain Qc) (s s' : solver Qc) ops i l, run c (ik_create c) ops = Some (c', s) -> ik_solve_rate c' s = Some s' ->
  ~ In i (wanted c (asked_all (length (c_links c)) (movable c) ops)) -> nth_error (c_links c') i = Some l -> link_slice l (s_vel s') = link_slice l (s_vel s).
Lemma step_same (ops : list (op Qc)) i v : unregistered_stay -> wanted mech (asked_all (length (c_links mech)) (movable mech) ops) = [] ->
  step_vels i (run mech (ik_create mech) ops) = Some v -> match v with [a; b] => a = b | _ => True end.
Proof.
  intros H W S. destruct (run mech (ik_create mech) ops) as [[c' s]|] eqn:R; [|discriminate S]. unfold step_vels in S. cbn [obind fst snd] in S.
  destruct (ik_solve_rate c' s) as [s'|] eqn:Rt; [|discriminate S]. cbn [obind] in S. destruct (nth_error (c_links c') i) as [l|] eqn:Hl; [|discriminate S].
  injection S as <-. unfold vel_at. rewrite (H _ _ _ _ _ i l R Rt ltac:(rewrite W; easy) Hl). reflexivity.
Qed.
Theorem C47_last_unregistered_moves_refuted : ~ unregistered_stay.
Proof.
  intros H. destruct C47_ex_stale as (v & A & ->). pose proof (step_same stale_hist 1 _ H C47_ex_none_wanted A) as K. cbv beta iota in K.
  injection K as K. revert K. vm_compute. discriminate.
Qed.

(** Two cells with five enabled axes and a disabled one; joint 1 has a velocity from the first step and is then unregistered. *)
Definition rows_hist : list (op Qc) :=
  [MoveTo mdis; JReg 1 (qz 1); JReg 3 (qz 2); JReg 4 (qz 1); CReg 10 WldPos (at_ 4 0) full; CReg 11 L2LAtt (at_ 1 4) full; CReg 12 COM None full;
   CSetRef 10 (V3 (qz 1) (qz 0) (qz 2)); CSetMode 10 (Mode true false true false); CSetRef 11 (V3 (qz 0) (qz 0) (qz 0)); Rate; JUnreg 1; MoveTo mdis].
Definition rows_of (r : chain Qc * solver Qc) : list (list Qc) :=
  match ik_eq (fst r) (snd r) with
  | Some s' => firstn (s_rows s') (s_cmat s') ++ [firstn (s_rows s') (s_csrv s'); firstn (s_rows s') (s_cwe s')]
  | None => [] end.
Definition kinds_of (r : chain Qc * solver Qc) : list (nat * bool * bool * bool) :=
  map (fun x => (ce_id (fst x), match snd x with AX => true | _ => false end, match snd x with AY => true | _ => false end, match snd x with AZ => true | _ => false end)) (active (s_cells (snd r))).
Example C48_ex_active : match run mech (ik_create mech) rows_hist with Some r => kinds_of r | None => [] end =
  [(0, true, false, false); (0, false, false, true); (1, true, false, false); (1, false, true, false); (1, false, false, true)]%nat.
Proof. vm_compute. reflexivity. Qed.
Example C48_ex : exists r, run mech (ik_create mech) rows_hist = Some r /\ rows_of r =
  zq [[0; 0; 0; 0]; [0; 0; 0; -1]; [0; 0; 0; 0]; [0; 0; 0; -1]; [0; 0; 0; 0]]%Z ++ [[Q2Qc (-48 # 41); Q2Qc (-24 # 41); qz 0; qz 1; qz 0]] ++ zq [[1; 3; 1; 2; 3]]%Z.
Proof. apply (some_exq _ rows_of). vm_compute. reflexivity. Qed.
(** The hypotheses hold in this case. *)
Definition cells_valid (n : nat) (s : solver Qc) : bool :=
  forallb (fun x => match ce_kind (snd x) with
    | WldPos | WldAtt => Nat.ltb (a_id (ce_attr (snd x))) n
    | L2LPos | L2LAtt => Nat.ltb (a_id (ce_attr (snd x))) n && Nat.ltb (a_sub (ce_attr (snd x))) n
    | _ => true end) (s_cells s).
Lemma cells_valid_spec n s : cells_valid n s = true -> forall x, In x (s_cells s) -> valid n (snd x).
Proof.
  intros H x Hx. unfold cells_valid in H. rewrite forallb_forall in H. specialize (H x Hx). unfold valid.
  destruct (ce_kind (snd x)); auto; try (now apply Nat.ltb_lt); apply andb_true_iff in H as [H1 H2]; apply Nat.ltb_lt in H1, H2; auto.
Qed.
Definition valid_run (o : option (chain Qc * solver Qc)) : bool := match o with Some r => cells_valid (length (c_links (fst r))) (snd r) | None => false end.
Lemma valid_run_spec o c' s : o = Some (c', s) -> valid_run o = true -> forall x, In x (s_cells s) -> valid (length (c_links c')) (snd x).
Proof. intros ->. apply cells_valid_spec. Qed.
Example C48_ex_theorem c' s : run mech (ik_create mech) rows_hist = Some (c', s) -> exists s', ik_eq c' s = Some s' /\ s_rows s' = length (active (s_cells s)).
Proof.
  intros R. destruct (C48_rows_motion mech c' s rows_hist qle_laws (proj1 mech_usable) R) as (s' & A & B & _); [vm_compute; discriminate|reflexivity| |eauto].
  apply (valid_run_spec _ _ _ R). vm_compute. reflexivity.
Qed.

Print Assumptions C47_index_partial.
Print Assumptions C47_only_registered_move_partial.
Print Assumptions C47_index_refuted.
Print Assumptions C47_last_unregistered_moves_refuted.
Print Assumptions C48_rows.
Print Assumptions C48_rows_motion.
