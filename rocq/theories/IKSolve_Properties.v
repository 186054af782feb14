(** * IKSolve_Properties: the step of the inverse kinematics solver and its iteration (C49, C50). *)
From Coq Require Import String ZArith QArith Qcanon List Arith Lia Bool Field.
From Verif Require Import Num NumFacts Vec VecFacts Motor_Model Joint_Model Joint_Spec Joint_Proofs Joint_Properties ExtQ Body_Model Tree Link_Model Link_Spec Link_Properties Chain_Proofs Chain_Properties Jacobi_Model Kin_Spec Jacobi_Proofs Kin_Properties
  IK_Model IK_Laws IK_Gauss IK_Spec IK_Cells IK_Index IK_Dims IK_Rows IK_Usable IK_Quad IKCell_Properties IKRow_Properties.
Import ListNotations.
Local Open Scope nat_scope.

Section Thms.
Context {F : Type} {N : Num F} {L : NumLaws F N} {E : Ext F} {I : IKExt F}.
Add Field FFieldSP : num_field.
Notation lk := (link F).
Notation registered c ops := (asked_all (length (c_links c)) (movable c) ops).

(** ** C49 *)
(** The part of the matrix, the reference and the weights in use. *)
Definition used {A} (s : solver F) (l : list A) : list A := firstn (s_rows s) l.
Lemma used_dims c f (s : solver F) : inv c f s -> s_rows s <= length (s_cells s) * 3 ->
  length (used s (s_cmat s)) = s_rows s /\ length (used s (s_csrv s)) = s_rows s /\ length (used s (s_cwe s)) = s_rows s.
Proof.
  intros H R. unfold used. destruct (s_cells s) as [|x l] eqn:Cs.
  - assert (Z : s_rows s = 0) by (cbn in R; lia). rewrite Z. cbn. auto.
  - destruct (i_dims _ _ _ H ltac:(rewrite Cs; discriminate)) as (D1 & _ & D3 & D4). rewrite Cs in *. rewrite !firstn_length. lia.
Qed.
Lemma damping_wsum (srv : list F) : forall we, damping srv we = wsum we srv.
Proof. unfold damping. induction srv as [|x t IH]; intros [|y w]; cbn; auto. rewrite IH. ring. Qed.

(** The joint velocities of a step are the unique minimiser of the weighted squared error of the rows plus the
    squared velocities, weighted by the registered weights plus the weighted squared error at rest. *)
Definition damped_cost (s : solver F) (x : list F) : F :=
  let we := used s (s_cwe s) in let b := used s (s_csrv s) in
  (wsum we (vsub (map (fun row => dot row x) (used s (s_cmat s))) b) + wsum (map (fun w => w + wsum we b) (s_wn s)) x)%num.
Theorem C49_minimiser : forall (c c' : chain F) (s : solver F) ops, le_laws x_le -> chain_set_offset c = c ->
  run c (ik_create c) ops = Some (c', s) -> wanted c (registered c ops) <> [] -> (forall x, In x (s_cells s) -> cell_ready c' (snd x)) ->
  (forall x ax, In x (s_cells s) -> (0 <= comp ax (a_w (ce_attr (snd x))))%num) ->
  (forall i w, In i (wanted c (registered c ops)) -> registered c ops i = Some w -> (0 < w)%num) ->
  exists s', ik_solve_rate c' s = Some s' /\ length (s_jvel s') = length (wanted_weights c (registered c ops)) /\ s_wn s' = wanted_weights c (registered c ops) /\
  forall y, length y = length (s_jvel s') -> (damped_cost s' (s_jvel s') <= damped_cost s' y)%num /\ (damped_cost s' y = damped_cost s' (s_jvel s') -> y = s_jvel s').
Proof.
  intros c c' s ops LE O R W Rd Wc Wj. destruct (run_inv LE ops c (fun _ => None) (ik_create c) c' s (create_inv c) R) as [H J]. fold (registered c ops) in H.
  assert (P : placed 0 (c_links c')) by (eapply placed_key; [exact J|exact (offsets_placed c O)]).
  assert (W' : wanted c' (registered c ops) <> []) by (rewrite (same_joints_wanted c c' _ J); exact W).
  destruct (C48_rows c c' s ops LE O R W Rd) as (s1 & Q & Rw & Rows).
  destruct (ik_eq_inv c' _ s s1 H Q) as (H1 & V1 & R1 & Le).
  assert (Sc : length (s_cells s1) = length (s_cells s)) by (apply same_cells_length; exact (ik_eq_same _ _ _ Q)). rewrite <- Sc in Le.
  destruct (used_dims c' _ s1 H1 Le) as (D1 & D2 & D3).
  assert (Wn : length (s_wn s1) = length (s_jvel s1)). { destruct (i_idx _ _ _ H1 W') as (A & _). apply (i_stale _ _ _ H1 _ A). }
  assert (J1 : Forall (fun r => length r = length (s_wn s1)) (used s1 (s_cmat s1))) by (rewrite Wn, V1; exact R1).
  assert (PW : Forall (fun x => 0 <= x)%num (used s1 (s_cwe s1))).
  { apply Forall_forall. intros w Hw. apply In_nth_error in Hw as (k & Hk).
    assert (Lk : k < s_rows s1) by (rewrite <- D3; apply nth_error_Some; congruence).
    destruct (nth_error (active (s_cells s)) k) as [[ce ax]|] eqn:Ak. 2:{ apply nth_error_None in Ak. lia. }
    destruct (Rows k ce ax Ak) as (_ & _ & _ & _ & _ & _ & _ & _ & B5 & _). apply nth_firstn in Hk. assert (w = comp ax (a_w (ce_attr ce))) as -> by congruence.
    apply nth_error_In in Ak. unfold active in Ak. apply in_flat_map in Ak as (x & K1 & K2). apply in_map_iff in K2 as (ax' & K2 & _). injection K2 as <- <-. now apply Wc. }
  assert (WN : s_wn s1 = wanted_weights c (registered c ops)).
  { assert (J' : same_joints c' c) by (unfold same_joints in *; congruence). pose proof (inv_same_joints c' c _ _ J' H1) as H1'. apply (i_idx _ _ _ H1' W). }
  assert (PN : Forall (fun x => 0 < x)%num (s_wn s1)).
  { rewrite WN. unfold wanted_weights. apply Forall_forall. intros w Hw. apply in_flat_map in Hw as (i & Hi & Hw).
    destruct (registered c ops i) as [w'|] eqn:Fi; [|destruct Hw]. apply repeat_spec in Hw. subst w. eauto. }
  pose proof (ad_matrix_square (used s1 (s_cmat s1)) (used s1 (s_csrv s1)) (used s1 (s_cwe s1)) (s_wn s1) J1) as Sq.
  pose proof (ad_vector_len (used s1 (s_cmat s1)) (used s1 (s_csrv s1)) (used s1 (s_cwe s1)) (s_wn s1) J1) as Vl.
  assert (E1 : length (used s1 (s_csrv s1)) = length (used s1 (s_cmat s1))) by congruence.
  assert (E2 : length (used s1 (s_cwe s1)) = length (used s1 (s_cmat s1))) by congruence.
  pose proof (le_total _ LE _ _ _ Sq Vl (kernel _ _ _ _ J1 E1 E2 PW PN)) as Tot.
  destruct (x_le (ad_matrix (used s1 (s_cmat s1)) (used s1 (s_csrv s1)) (used s1 (s_cwe s1)) (s_wn s1)) (ad_vector (used s1 (s_cmat s1)) (used s1 (s_csrv s1)) (used s1 (s_cwe s1)) (s_wn s1))) as [x|] eqn:X; [|easy].
  destruct (le_sound _ LE _ _ _ _ Sq Vl X) as [Lx Sol].
  assert (Av : joint_vel_ad s1 = s_set_jvel x s1) by (unfold joint_vel_ad; fold (used s1 (s_cmat s1)) (used s1 (s_csrv s1)) (used s1 (s_cwe s1)); rewrite X; reflexivity).
  assert (H2 : inv c' (registered c ops) (s_set_jvel x s1)).
  { rewrite <- Av. apply joint_vel_inv; auto. - destruct (i_idx _ _ _ H1 W') as (-> & _). discriminate. - now rewrite V1. }
  destruct (inv_laid_out c' _ _ H2 W' P) as ((_ & Ls & _ & Lv) & Rg & Ix & _ & _). cbn in Ls, Lv, Rg, Ix.
  pose proof (scatter_put (c_links c') (c_links c') [] (s_sw s1) [] x (s_vel s1) eq_refl P Ls) as Sp. cbn [length app] in Sp.
  rewrite chain_joint_size_total in Lv. specialize (Sp Lv ltac:(congruence)).
  exists (s_set_vel (put (c_links c') (s_sw s1) x (s_vel s1)) (s_set_jvel x s1)). split; [|split; [|split]].
  - unfold ik_solve_rate. rewrite Q. cbn [obind]. rewrite Av. cbn [s_set_jvel s_jidx]. rewrite Ix. cbn [obind s_jvel s_vel s_set_jvel]. rewrite Sp. reflexivity.
  - cbn. rewrite Lx, WN. reflexivity.
  - exact WN.
  - cbn. intros y Hy. unfold damped_cost. cbn.
    change (used _ (s_cwe s1)) with (used s1 (s_cwe s1)). change (used _ (s_csrv s1)) with (used s1 (s_csrv s1)). change (used _ (s_cmat s1)) with (used s1 (s_cmat s1)).
    pose proof (minimiser _ _ _ _ J1 E1 E2 x y PW PN Lx ltac:(congruence) Sol) as M. unfold cost, mat_vec in M. rewrite damping_wsum in M. exact M.
Qed.

(** ** C50 *)
Definition state := (chain F * solver F * list F)%type.
(** [n] calls of rkIKSolveOne with unit time step. *)
Fixpoint steps (n : nat) (x : state) : option state :=
  match n with
  | O => Some x
  | S n => obind (ik_solve_one (fst (fst x)) (snd (fst x)) (snd x) 1%num) (steps n)
  end.
Definition eval_of (x : state) : F := s_eval (snd (fst x)).
(** The error reported by call [k + 1] differs from that of call [k] by no more than the tolerance. *)
Definition settles (tol : F) (x : state) (k : nat) : Prop :=
  exists y z, steps k x = Some y /\ steps (S k) x = Some z /\ ntiny tol (eval_of z - eval_of y)%num = true.
Definition budget (iter : nat) : nat := if Nat.eqb iter 0 then x_maxiter else iter.
Lemma steps_S n : forall x, steps (S n) x = obind (steps n x) (steps 1).
Proof.
  induction n as [|n IH]; intros x; [reflexivity|]. cbn [steps] in *. destruct (ik_solve_one _ _ _ _) as [y|]; [|reflexivity]. cbn [obind]. apply IH.
Qed.
Definition settles' (tol : F) (rest : option F) (x : state) (k : nat) : Prop :=
  match k with O => exists e z, rest = Some e /\ steps 1 x = Some z /\ ntiny tol (eval_of z - e)%num = true | S _ => settles tol x k end.
Lemma loop_spec tol : forall k i rest c s dis c' s' d' r, solve_loop tol k i rest c s dis = Some (c', s', d', r) ->
  exists n, n <= k /\ steps n (c, s, dis) = Some (c', s', d') /\ (forall m, S m < n -> ~ settles' tol rest (c, s, dis) m) /\
  match r with Some q => exists m, n = S m /\ q = i + m /\ settles' tol rest (c, s, dis) m
             | None => n = k /\ forall m, S m <= n -> ~ settles' tol rest (c, s, dis) m end.
Proof.
  induction k as [|k IH]; cbn [solve_loop]; intros i rest c s dis c' s' d' r H.
  - injection H as <- <- <- <-. exists 0. repeat split; auto; intros m Hm; lia.
  - unfold obind in H. destruct (ik_solve_one c s dis 1%num) as [[[c1 s1] d1]|] eqn:A; [|discriminate]. cbn [fst snd] in H.
    assert (S1 : steps 1 (c, s, dis) = Some (c1, s1, d1)) by (cbn; now rewrite A).
    destruct (match rest with Some e => ntiny tol (s_eval s1 - e)%num | None => false end) eqn:T.
    + injection H as <- <- <- <-. exists 1. split; [lia|]. split; [exact S1|]. split; [intros m Hm; lia|]. exists 0. split; [reflexivity|]. split; [lia|].
      destruct rest as [e|]; [|discriminate]. exists e, (c1, s1, d1). auto.
    + destruct (IH _ _ _ _ _ _ _ _ _ H) as (n & N1 & N2 & N3 & N4).
      assert (Z0 : ~ settles' tol rest (c, s, dis) 0).
      { intros (e & z & -> & Hz & Q). rewrite S1 in Hz. injection Hz as <-. unfold eval_of in Q. cbn in Q. congruence. }
      assert (Sh : forall m, settles' tol rest (c, s, dis) (S m) <-> settles' tol (Some (s_eval s1)) (c1, s1, d1) m).
      { intros m. assert (St : forall j, steps (S j) (c, s, dis) = steps j (c1, s1, d1)) by (intros j; cbn [steps fst snd]; rewrite A; reflexivity).
        destruct m as [|m]; cbn [settles']; unfold settles; rewrite !St.
        - split.
          + intros (y & z & Hy & Hz & Q). cbn [steps] in Hy. injection Hy as <-. exists (s_eval s1), z. auto.
          + intros (e & z & He & Hz & Q). injection He as <-. exists (c1, s1, d1), z. auto.
        - reflexivity. }
      exists (S n). split; [lia|]. split; [cbn [steps fst snd]; rewrite A; exact N2|]. split.
      * intros [|m] Hm; [exact Z0|]. rewrite Sh. apply N3. lia.
      * destruct r as [q|].
        -- destruct N4 as (m & -> & -> & Q). exists (S m). split; [reflexivity|]. split; [lia|]. now apply Sh.
        -- destruct N4 as [-> N4]. split; [reflexivity|]. intros [|m] Hm; [exact Z0|]. rewrite Sh. apply N4. lia.
Qed.
(** The accumulators are cleared, then at most [iter] steps are made; the solver stops after the first step
    whose error is close to that of the step before and returns its number, or -1 when there is none. *)
Theorem C50_report : forall (c c' : chain F) (s s' : solver F) dis d' tol iter r, ik_solve c s dis tol iter = Some (c', s', d', r) ->
  exists d0 n, chain_get_joint_dis_all c dis = Some d0 /\ n <= budget iter /\ steps n (c, ik_acm_zero s, d0) = Some (c', s', d') /\
  (forall k, 0 < k -> S k < n -> ~ settles tol (c, ik_acm_zero s, d0) k) /\
  match r with
  | Some i => 0 < i /\ n = S i /\ settles tol (c, ik_acm_zero s, d0) i
  | None => n = budget iter /\ forall k, 0 < k -> S k <= n -> ~ settles tol (c, ik_acm_zero s, d0) k
  end.
Proof.
  intros c c' s s' dis d' tol iter r H. unfold ik_solve, obind in H. destruct (chain_get_joint_dis_all c dis) as [d0|]; [|discriminate].
  destruct (loop_spec tol _ _ _ _ _ _ _ _ _ _ H) as (n & N1 & N2 & N3 & N4). exists d0, n. split; [reflexivity|]. split; [exact N1|]. split; [exact N2|].
  assert (P : forall k, 0 < k -> settles tol (c, ik_acm_zero s, d0) k <-> settles' tol None (c, ik_acm_zero s, d0) k) by (intros [|k] Hk; [lia|reflexivity]).
  split; [intros k Hk Hn; rewrite P by exact Hk; auto|]. destruct r as [i|].
  - destruct N4 as (m & -> & -> & Q). cbn [Nat.add]. destruct m as [|m]; [destruct Q as (e & z & Q & _); discriminate|]. split; [lia|]. split; [reflexivity|exact Q].
  - destruct N4 as [-> N4]. split; [reflexivity|]. intros k Hk Hn. rewrite P by exact Hk. auto.
Qed.

(** *** Joint limits *)
Definition all_ordered (c : chain F) : Prop := forall i l, nth_error (c_links c) i = Some l -> limits_ordered (l_joint l).
(** The joints of [c'] are within their limits, which are those of [c]. *)
Definition respects (c c' : chain F) : Prop := forall i l', nth_error (c_links c') i = Some l' ->
  within_limits (l_joint l') /\ exists l, nth_error (c_links c) i = Some l /\ same_limits (l_joint l') (l_joint l).
Lemma same_limits_ordered (a b : joint F) : same_limits a b -> limits_ordered b -> limits_ordered a.
Proof. intros [A B] H i lo hi. rewrite A, B. apply H. Qed.
Lemma set_respects (c c1 : chain F) v : usable c -> all_ordered c -> chain_set_joint_dis_all c v = Some c1 -> respects c c1.
Proof.
  intros U O A i l1 Hl. unfold chain_set_joint_dis_all in A. destruct (set_all joint_set_dis (c_links c) v) as [h|] eqn:S; [|discriminate]. injection A as <-. cbn in Hl.
  apply set_all_rel in S. destruct (Forall2_nth_r _ _ _ S i l1 Hl) as (l & H0 & RR). unfold set_rel in RR.
  pose proof (placed_nth 0 (c_links c) i l (offsets_placed c (proj1 (proj2 U))) H0) as P. rewrite P in RR. destruct (Nat.ltb_spec 0 (lsize l)) as [Sz|Sz].
  - destruct RR as (j & J & ->). cbn. destruct (C01_limits_hold_after_any_history (l_joint l) j j (OSetDis (skipn (0 + total (firstn i (c_links c))) v)) [] (O i l H0)) as (B1 & B2 & B3);
      [exact Logic.I|exact J|intros ? []|reflexivity|]. split; [exact B1|]. exists l. split; [exact H0|]. split; auto.
  - subst l1. split; [|exists l; repeat split; auto]. intros k lo hi d _ _ D. exfalso. pose proof (get_dis_len (l_joint l)) as Z. unfold lsize in Sz.
    assert (joint_get_dis (l_joint l) = []) as Nil by (apply length_zero_iff_nil; lia). rewrite Nil in D. destruct k; discriminate.
Qed.
Lemma fk_joints (c c' : chain F) : usable c -> chain_update_fk c = Some c' -> map (fun l : lk => l_joint l) (c_links c') = map (fun l : lk => l_joint l) (c_links c).
Proof.
  intros (W & _) H. unfold chain_update_fk in H. destruct (chain_update_frame c) as [c1|] eqn:A; [|discriminate]. injection H as <-. cbn [c_links chain_calc_com].
  destruct (C24_frame_pass c W) as (c1' & A1' & P1 & W1). assert (c1' = c1) by congruence. subst c1'.
  assert (K : Forall2 (fun l l' : lk => l_joint l' = l_joint l) (c_links c) (c_links c1)).
  { apply forall2_nth_eq; [symmetry; apply P1|]. intros i l Hl. destruct (Kin_Proofs.pass_keeps _ _ P1 i l Hl) as (l' & Hl' & EJ & _). eauto. }
  clear - K. induction K as [|a b t t' X K IH]; cbn; [reflexivity|]. now rewrite X, IH.
Qed.
Lemma respects_joints (c c1 c2 : chain F) : respects c c1 -> map (fun l : lk => l_joint l) (c_links c2) = map (fun l : lk => l_joint l) (c_links c1) -> respects c c2.
Proof.
  intros R M i l2 H2. apply (f_equal (fun t => nth_error t i)) in M. rewrite !nth_error_map, H2 in M. cbn in M.
  destruct (nth_error (c_links c1) i) as [l1|] eqn:H1; [|discriminate]. injection M as M. rewrite M. exact (R i l1 H1).
Qed.
Lemma one_respects (c : chain F) s dis dt c' s' d' : usable c -> all_ordered c -> ik_solve_one c s dis dt = Some (c', s', d') -> respects c c'.
Proof.
  intros U O H. unfold ik_solve_one, obind in H. destruct (ik_solve_rate c s); [|discriminate]. destruct (chain_cat_joint_dis_all _ _ _ _); [|discriminate].
  destruct (chain_set_joint_dis_all c _) as [c1|] eqn:A; [|discriminate]. destruct (chain_get_joint_dis_all _ _); [|discriminate].
  destruct (chain_update_fk c1) as [c2|] eqn:B; [|discriminate]. injection H as <- _ _.
  eapply respects_joints; [eapply set_respects; eauto|]. apply fk_joints; [eapply usable_set; eauto|exact B].
Qed.
Lemma respects_trans (a b c : chain F) : respects a b -> respects b c -> respects a c.
Proof.
  intros R S i l Hl. destruct (S i l Hl) as (A & l1 & H1 & B1 & B2). destruct (R i l1 H1) as (_ & l0 & H0 & C1 & C2). split; [exact A|]. exists l0. split; [exact H0|]. split; congruence.
Qed.
Lemma respects_ordered (a b : chain F) : all_ordered a -> respects a b -> all_ordered b.
Proof. intros O R i l Hl. destruct (R i l Hl) as (_ & l0 & H0 & S). eapply same_limits_ordered; eauto. Qed.
Lemma map_all2_len f (h : list lk) : forall (d v r : list F), map_all2 f h d v = Some r -> length r = length d.
Proof.
  induction h as [|l h IH]; cbn [map_all2]; intros d v r H; [injection H as <-; reflexivity|]. destruct (l_offset l); [|eauto]. unfold obind in H.
  destruct (f _ _ _); [|discriminate]. destruct (write_at _ _ d) as [d1|] eqn:W; [|discriminate]. apply IH in H. apply write_at_len in W. congruence.
Qed.
Lemma get_all_len get (h : list lk) : forall (v r : list F), get_all get h v = Some r -> length r = length v.
Proof.
  induction h as [|l h IH]; cbn [get_all]; intros v r H; [injection H as <-; reflexivity|]. destruct (l_offset l); [|eauto]. unfold obind in H.
  destruct (write_at _ _ v) as [d1|] eqn:W; [|discriminate]. apply IH in H. apply write_at_len in W. congruence.
Qed.
Definition displacements (c : chain F) : list F := flat_map (fun l : lk => joint_get_dis (l_joint l)) (c_links c).
Lemma one_dis (c : chain F) s dis dt c' s' d' : usable c -> length dis = chain_joint_size c -> ik_solve_one c s dis dt = Some (c', s', d') ->
  d' = displacements c' /\ length d' = chain_joint_size c'.
Proof.
  intros U Ld H. pose proof U as (_ & Of & _). unfold ik_solve_one, obind in H. destruct (ik_solve_rate c s) as [s1|]; [|discriminate]. destruct (chain_cat_joint_dis_all _ _ _ _) as [d1|] eqn:Ct; [|discriminate].
  destruct (chain_set_joint_dis_all c _) as [c1|] eqn:A; [|discriminate]. destruct (chain_get_joint_dis_all c1 d1) as [d2|] eqn:G; [|discriminate].
  destruct (chain_update_fk c1) as [c2|] eqn:B; [|discriminate]. injection H as <- _ <-.
  pose proof (usable_set _ _ _ U A) as U1. pose proof (fk_joints c1 c2 U1 B) as Fj.
  assert (S1 : chain_joint_size c1 = chain_joint_size c) by (apply same_joints_total; eapply set_dis_joints; exact A).
  assert (S2 : chain_joint_size c2 = chain_joint_size c1) by (apply same_joints_total; now apply update_fk_joints).
  apply map_all2_len in Ct. unfold chain_get_joint_dis_all in G. pose proof (get_all_len _ _ _ _ G) as Lg.
  assert (P1 : placed 0 (c_links c1)) by exact (offsets_placed c1 (proj1 (proj2 U1))).
  rewrite (get_all_spec joint_get_dis (c_links c1) get_dis_len 0 d1 P1) in G by (rewrite <- chain_joint_size_total; lia).
  injection G as G. rewrite skipn_all2 in G by (rewrite <- chain_joint_size_total; lia). rewrite app_nil_r in G.
  split; [|lia]. rewrite <- G. unfold displacements. cbn [firstn app]. rewrite !flat_map_concat_map, <- !(map_map (fun l : lk => l_joint l) joint_get_dis), Fj. reflexivity.
Qed.
Lemma steps_respect n : forall (c : chain F) s d c' s' d', usable c -> all_ordered c -> length d = chain_joint_size c -> steps (S n) (c, s, d) = Some (c', s', d') ->
  respects c c' /\ d' = displacements c'.
Proof.
  induction n as [|n IH]; intros c s d c' s' d' U O Ld H; cbn [steps fst snd] in H; unfold obind in H;
    (destruct (ik_solve_one c s d 1%num) as [[[c1 s1] d1]|] eqn:A; [|discriminate]).
  - injection H as <- <- <-. split; [eapply one_respects; eauto|]. apply (one_dis c s d 1%num c1 s1 d1 U Ld A).
  - destruct (one_dis c s d 1%num c1 s1 d1 U Ld A) as [_ L1]. pose proof (one_respects _ _ _ _ _ _ _ U O A) as R1.
    destruct (IH c1 s1 d1 c' s' d') as [R2 D2]; auto.
    + apply posed_usable. eapply solve_one_posed; eauto.
    + eapply respects_ordered; eauto.
    + split; [eapply respects_trans; eauto|exact D2].
Qed.
(** After at least one iteration every joint is within its limits, which are those it had before, and the
    vector handed back holds the displacements of the chain. *)
Theorem C50_limits : forall (c c' : chain F) (s s' : solver F) dis d' tol iter r, usable c -> all_ordered c -> length dis = chain_joint_size c -> 0 < budget iter ->
  ik_solve c s dis tol iter = Some (c', s', d', r) -> respects c c' /\ d' = displacements c'.
Proof.
  intros c c' s s' dis d' tol iter r U O Ld B H. destruct (C50_report _ _ _ _ _ _ _ _ _ H) as (d0 & n & D & _ & S & _ & R).
  assert (n <> 0) by (destruct r; lia). destruct n as [|n]; [easy|]. unfold chain_get_joint_dis_all in D. apply get_all_len in D. rewrite Ld in D.
  exact (steps_respect n c _ d0 c' s' d' U O D S).
Qed.
End Thms.

(** ** Concrete cases *)
Definition jv_of (r : chain Qc * solver Qc) : list (list Qc) := [s_jvel (snd r); s_vel (snd r)].
Example C49_ex : exists r, run mech (ik_create mech) (rows_hist ++ [Rate]) = Some r /\ jv_of r =
  [[qz 0; qz 0; qz 0; Q2Qc (-41 # 1748)]; [qz 0; qz 0; qz 0; qz 0; qz 0; qz 0; Q2Qc (17 # 41); qz 0; qz 0; qz 0; qz 0; Q2Qc (-41 # 1748)]].
Proof. apply (some_exq _ jv_of). vm_compute. reflexivity. Qed.
(** The hypotheses hold in this case. *)
Definition weights_ok (o : option (chain Qc * solver Qc)) : bool :=
  match o with Some r => forallb (fun x => forallb (fun ax => nleb (qz 0) (comp ax (a_w (ce_attr (snd x))))) [AX; AY; AZ]) (s_cells (snd r)) | None => false end.
Lemma weights_ok_spec o c' s : o = Some (c', s) -> weights_ok o = true -> forall x ax, In x (s_cells s) -> (qz 0 <= comp ax (a_w (ce_attr (snd x))))%num.
Proof.
  intros -> H x ax Hx. cbn [weights_ok snd] in H. rewrite forallb_forall in H. specialize (H x Hx). cbv beta in H. rewrite forallb_forall in H. apply H. destruct ax; cbn; auto.
Qed.
Example C49_ex_theorem c' s : run mech (ik_create mech) rows_hist = Some (c', s) ->
  exists s', ik_solve_rate c' s = Some s' /\ forall y, length y = length (s_jvel s') -> (damped_cost s' (s_jvel s') <= damped_cost s' y)%num.
Proof.
  intros R. destruct (run_usable rows_hist mech _ _ _ (proj1 mech_usable) R) as [_ Ps]. destruct (Ps (or_intror eq_refl)) as (c0 & U & Fk).
  destruct (C49_minimiser mech c' s rows_hist qle_laws (proj1 (proj2 (proj1 mech_usable))) R) as (s' & A & _ & _ & B).
  - vm_compute. discriminate.
  - intros x Hx. eapply valid_ready; [exact U|exact Fk|]. apply (valid_run_spec _ _ _ R); [vm_compute; reflexivity|exact Hx].
  - apply (weights_ok_spec _ _ _ R). vm_compute. reflexivity.
  - intros i w Hi. assert (D : wanted mech (asked_all (length (c_links mech)) (movable mech) rows_hist) = [3; 4]) by (vm_compute; reflexivity).
    rewrite D in Hi. destruct Hi as [<-|[<-|[]]]; intros Q; injection Q as <-; vm_compute; reflexivity.
  - exists s'. split; [exact A|]. intros y Hy. apply (B y Hy).
Qed.
(** Two prismatic joints in a row, with limits [0,1]. *)
Definition llinks : list (link Qc) := [mlink "a" ex_prism 1 2; mlink "b" ex_prism 2 1].
Definition ltree : list (link Qc) := match add_children llinks [(0, 1)] with Some h => h | None => [] end.
Definition lmech : chain Qc := chain_calc_mass (chain_set_offset (Chain ltree (qz 0) v3zero v3zero v3zero)).
Definition lim_hist : list (op Qc) := [JRegAll (qz 1); MoveTo [qz 0; qz 0]; CReg 10 WldPos (at_ 1 0) full; CSetRef 10 (V3 (qz 0) (qz 0) (qz 9))].
Definition solved (o : option (chain Qc * solver Qc)) (dis : list Qc) (tol : Qc) (n : nat) : option (chain Qc * solver Qc * list Qc * option nat) :=
  obind o (fun r => ik_solve (fst r) (snd r) dis tol n).
Definition solved_flat (r : chain Qc * solver Qc * list Qc * option nat) : list (list Qc) :=
  [snd (fst r); displacements (fst (fst (fst r))); [s_eval (snd (fst (fst r)))]; match snd r with Some i => [qz (Z.of_nat i)] | None => [] end].
(** From a pose close to the limits the solver moves the joints to them and stops there; from the zero pose two iterations
    are not enough. *)
Definition near_hist : list (op Qc) := lim_hist ++ [MoveTo [qz 1; Q2Qc (63 # 64)]].
Example C50_ex : exists r, solved (run lmech (ik_create lmech) near_hist) [qz 0; qz 0] (qz 1) 10 = Some r /\ solved_flat r = zq [[1; 1]; [1; 1]; [43]; [1]]%Z.
Proof. apply (some_exq _ solved_flat). vm_compute. reflexivity. Qed.
Example C50_ex_short : exists r, solved (run lmech (ik_create lmech) lim_hist) [qz 0; qz 0] (qz 1) 2 = Some r /\
  solved_flat r = [[Q2Qc (283575 # 911498); Q2Qc (283575 # 911498)]; [Q2Qc (283575 # 911498); Q2Qc (283575 # 911498)]; [Q2Qc (197116 # 2401)]; []].
Proof. apply (some_exq _ solved_flat). vm_compute. reflexivity. Qed.
Lemma ltree_well_formed : well_formed ltree.
Proof.
  apply (C23_complete_tree llinks [(0, 1)]); [| | cbn; lia | cbn; lia | | reflexivity].
  - intros i l. do 2 (destruct i as [|i]; [intros H; injection H as <-; repeat split|]). destruct i; discriminate.
  - repeat (constructor; [cbn; lia|cbn; lia|cbn; lia| |]); [|constructor]. intros H. apply below_inv in H as [H|(q & Hq & _)]; [discriminate|destruct Hq].
  - intros c H. cbn in H. cbn. lia.
Qed.
Lemma ex_prism_made : made ex_prism.
Proof. exists TPrism. eexists. exists [OSetMin [Some (qz 0)]; OSetMax [Some (qz 1)]]. split; reflexivity. Qed.
Lemma lmech_usable : usable lmech.
Proof.
  split; [|split; [|split]].
  - eapply wf_of_refs; [|exact ltree_well_formed]. repeat constructor.
  - reflexivity.
  - intros i l H. do 2 (destruct i as [|i]; [injection H as <-; apply ex_prism_made|]). destruct i; discriminate.
  - intros i l H. do 2 (destruct i as [|i]; [injection H as <-; apply rotation_id|]). destruct i; discriminate.
Qed.
Lemma lmech_ordered : all_ordered lmech.
Proof.
  intros i l H. do 2 (destruct i as [|i]; [injection H as <-; intros [|[|k]] lo hi A B; cbn in A, B; try discriminate; injection A as <-; injection B as <-; vm_compute; reflexivity|]). destruct i; discriminate.
Qed.
Example C50_ex_theorem s c' s' d' r : ik_solve lmech s [qz 0; qz 0] (qz 1) 10 = Some (c', s', d', r) -> respects lmech c' /\ d' = displacements c'.
Proof. apply C50_limits; [exact lmech_usable|exact lmech_ordered|reflexivity|cbn; lia]. Qed.

Print Assumptions C49_minimiser.
Print Assumptions C50_report.
Print Assumptions C50_limits.
