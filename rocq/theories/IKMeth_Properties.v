(** * IKMeth_Properties: the methods that resolve the joint velocities (C101). *)
From Coq Require Import String ZArith QArith Qcanon List Arith Lia Bool Field.
From Verif Require Import Num NumFacts Vec VecFacts Motor_Model Joint_Model Joint_Spec Joint_Proofs Joint_Properties ExtQ Body_Model Tree Link_Model Link_Spec Link_Properties Chain_Proofs Chain_Properties Jacobi_Model Kin_Spec Jacobi_Proofs Kin_Properties
  IK_Model IK_Laws IK_Gauss IK_Spec IK_Cells IK_Index IK_Dims IK_Rows IK_Usable IK_Quad IKCell_Properties IKRow_Properties IKSolve_Properties IKMeth_Model.
Import ListNotations.
Local Open Scope nat_scope.

Section Alg.
Context {F : Type} {N : Num F} {L : NumLaws F N}.
Add Field FFieldMA : num_field.
Local Open Scope num_scope.

(** ** Least squares *)
Section Min.
Context (j : list (list F)) (srv we wn : list F)
  (J : Forall (fun r => length r = length wn) j) (LS : length srv = length j) (LW : length we = length j).

(** The matrix of the SR method is that of the AD method with weights that make up for the damping. *)
Let wn' := map (fun w => w - damping srv we) wn.
Let Lwn : length wn' = length wn. Proof. apply map_length. Qed.
Let dwn : map (fun w => w + damping srv we) wn' = wn.
Proof. unfold wn'. rewrite map_map. transitivity (map (fun w : F => w) wn); [apply map_ext; intros; ring|apply map_id]. Qed.
Lemma sr_is_ad : sr_matrix j we wn = ad_matrix j srv we wn'.
Proof. unfold sr_matrix, ad_matrix. change (fun x => x + dot srv (vamp srv we)) with (fun x => x + damping srv we). rewrite dwn, Lwn. reflexivity. Qed.
Lemma sr_vec_is_ad : sr_vector j srv we wn = ad_vector j srv we wn'.
Proof. unfold sr_vector, ad_vector. now rewrite Lwn. Qed.
Let J' : Forall (fun r => length r = length wn') j. Proof. now rewrite Lwn. Qed.

Lemma sr_square : square (length wn) (sr_matrix j we wn).
Proof. rewrite sr_is_ad, <- Lwn. apply ad_matrix_square. exact J'. Qed.
Lemma sr_vector_len : length (sr_vector j srv we wn) = length wn.
Proof. rewrite sr_vec_is_ad, <- Lwn. apply ad_vector_len. exact J'. Qed.
Lemma wsum_self (w : list F) : forall a : list F, dot a (vamp w a) = wsum w a.
Proof. clear -L. induction w as [|p w IH]; intros [|q a]; cbn; auto. rewrite IH. ring. Qed.
Lemma sr_kernel : Forall (fun x => 0 <= x) we -> Forall (fun x => 0 < x) wn ->
  forall x, length x = length wn -> mat_vec (sr_matrix j we wn) x = zeros (length wn) -> x = zeros (length wn).
Proof.
  intros A B x X H. rewrite sr_is_ad in H. pose proof (f_equal (dot x) H) as K. rewrite (bilinear j srv we wn' J') in K by (rewrite ?Lwn; auto).
  rewrite dwn, (dot_comm x (zeros _)), dot_zeros_l, !wsum_self in K.
  assert (P : Forall (fun x => 0 <= x) wn) by (eapply Forall_impl; [|exact B]; intros; now apply nlt_le).
  destruct (nadd_nonneg_eq_0 _ _ (wsum_nonneg _ _ A) (wsum_nonneg _ _ P) K) as [_ K2]. now apply wsum_zero.
Qed.
Lemma sr_minimiser x y : Forall (fun x => 0 <= x) we -> Forall (fun x => 0 < x) wn -> length x = length wn -> length y = length wn ->
  mat_vec (sr_matrix j we wn) x = sr_vector j srv we wn -> cost j srv we wn x <= cost j srv we wn y /\ (cost j srv we wn y = cost j srv we wn x -> y = x).
Proof.
  intros A B X Y H. rewrite sr_is_ad, sr_vec_is_ad in H. pose proof (cost_expand j srv we wn' J' LS LW x y ltac:(now rewrite Lwn) ltac:(now rewrite Lwn) H) as Q. rewrite dwn in Q.
  assert (P : Forall (fun x => 0 <= x) wn) by (eapply Forall_impl; [|exact B]; intros; now apply nlt_le).
  set (u := wsum we (mat_vec j (vsub y x))) in *. set (v := wsum wn (vsub y x)) in *. assert (U : 0 <= u) by now apply wsum_nonneg. assert (V : 0 <= v) by now apply wsum_nonneg.
  split.
  - rewrite Q. apply (proj2 (nle_sub_iff _ _)). replace (cost j srv we wn x + (u + v) - cost j srv we wn x) with (u + v) by ring. now apply nle_0_add.
  - intros K. assert (Z : u + v = 0). { transitivity (cost j srv we wn y - cost j srv we wn x); [rewrite Q; ring|rewrite K; ring]. }
    destruct (nadd_nonneg_eq_0 _ _ U V Z) as [_ Z2]. assert (V0 : vsub y x = zeros (length wn)) by (apply wsum_zero; auto; rewrite vsub_len; lia). apply vsub_zeros; [lia|]. rewrite V0. f_equal; lia.
Qed.

(** What zLESolveMP hands back: the residual is orthogonal (in the weighted sense) to what the matrix can produce,
    and the result, scaled by the weights on the norm, is a combination of the rows. *)
Record mp_solution (x : list F) : Prop := {
  mp_len : length x = length wn;
  mp_normal : mat_t_vec (length wn) j (vamp we (vsub (mat_vec j x) srv)) = zeros (length wn);
  mp_range : exists u, length u = length j /\ vamp wn x = mat_t_vec (length wn) j u }.
Definition residual (x : list F) : F := wsum we (vsub (mat_vec j x) srv).
Lemma residual_expand x y : mp_solution x -> length y = length wn -> residual y = residual x + wsum we (mat_vec j (vsub y x)).
Proof.
  intros [X H _] Y. set (z := vsub y x). assert (Z : length z = length wn) by (unfold z; rewrite vsub_len; lia).
  assert (Yz : y = vadd x z) by (unfold z; now rewrite vsub_add by lia). rewrite Yz. unfold residual.
  rewrite mat_vec_vadd by lia. rewrite vsub_vadd by (rewrite !mat_vec_len; lia).
  rewrite wsum_add by (rewrite ?vsub_len, ?mat_vec_len; rewrite ?mat_vec_len; lia).
  pose proof (f_equal (fun v => dot v z) H) as B. cbv beta in B. rewrite dot_mat_t_vec, dot_zeros_l in B by exact J. rewrite B. ring.
Qed.
Lemma dot_zeros_r n (a : list F) : dot a (zeros n) = 0. Proof. rewrite dot_comm. apply dot_zeros_l. Qed.
Lemma norm_expand x y : mp_solution x -> length y = length wn -> mat_vec j (vsub y x) = zeros (length j) -> wsum wn y = wsum wn x + wsum wn (vsub y x).
Proof.
  intros [X _ (u & U & R)] Y K. set (z := vsub y x) in *. assert (Z : length z = length wn) by (unfold z; rewrite vsub_len; lia).
  assert (Yz : y = vadd x z) by (unfold z; now rewrite vsub_add by lia). rewrite Yz at 1. rewrite wsum_add by lia.
  rewrite R, dot_comm, dot_mat_t_vec by exact J. rewrite K, dot_zeros_l. ring.
Qed.
Lemma mp_least x y : mp_solution x -> Forall (fun x => 0 < x) we -> Forall (fun x => 0 < x) wn -> length y = length wn ->
  residual x <= residual y /\ (residual y = residual x -> wsum wn x <= wsum wn y /\ (wsum wn y = wsum wn x -> y = x)).
Proof.
  intros S A B Y. pose proof (mp_len x S) as X. pose proof (residual_expand x y S Y) as Q.
  assert (A' : Forall (fun x => 0 <= x) we) by (eapply Forall_impl; [|exact A]; intros; now apply nlt_le).
  assert (B' : Forall (fun x => 0 <= x) wn) by (eapply Forall_impl; [|exact B]; intros; now apply nlt_le).
  split.
  - rewrite Q. apply (proj2 (nle_sub_iff _ _)). match goal with |- 0 <= ?a => replace a with (wsum we (mat_vec j (vsub y x))) by ring end. now apply wsum_nonneg.
  - intros K. assert (Z : wsum we (mat_vec j (vsub y x)) = 0). { transitivity (residual y - residual x); [rewrite Q; ring|rewrite K; ring]. }
    apply wsum_zero in Z; [|exact A|rewrite mat_vec_len; lia]. rewrite LW in Z. pose proof (norm_expand x y S Y Z) as P. split.
    + rewrite P. apply (proj2 (nle_sub_iff _ _)). match goal with |- 0 <= ?a => replace a with (wsum wn (vsub y x)) by ring end. now apply wsum_nonneg.
    + intros K2. assert (Z2 : wsum wn (vsub y x) = 0). { transitivity (wsum wn y - wsum wn x); [rewrite P; ring|rewrite K2; ring]. }
      assert (V0 : vsub y x = zeros (length wn)) by (apply wsum_zero; auto; rewrite vsub_len; lia). apply vsub_zeros; [lia|]. rewrite V0. f_equal; lia.
Qed.
Lemma residual_zero x : Forall (fun x => 0 < x) we -> residual x = 0 -> mat_vec j x = srv.
Proof.
  intros A Z. apply vsub_zeros; [rewrite mat_vec_len; lia|]. unfold residual in Z. apply wsum_zero in Z; [|exact A|rewrite vsub_len; rewrite mat_vec_len; lia].
  rewrite Z, mat_vec_len. f_equal. lia.
Qed.
Lemma residual_met x : mat_vec j x = srv -> residual x = 0.
Proof.
  intros K. unfold residual. rewrite K. generalize we as w. generalize srv as v. clear -L. intros v w. revert v. induction w as [|a w IH]; intros [|b v]; cbn; auto. rewrite IH. ring.
Qed.
Lemma mp_exact x y : mp_solution x -> Forall (fun x => 0 < x) we -> Forall (fun x => 0 < x) wn -> length y = length wn -> mat_vec j y = srv -> mat_vec j x = srv.
Proof.
  intros S A B Y M. destruct (mp_least x y S A B Y) as [Q _]. rewrite (residual_met y M) in Q. apply residual_zero; [exact A|].
  apply nle_antisym; [exact Q|]. apply wsum_nonneg. eapply Forall_impl; [|exact A]; intros; now apply nlt_le.
Qed.
End Min.
End Alg.

Section Thms.
Context {F : Type} {N : Num F} {L : NumLaws F N} {E : Ext F} {I : IKExt F} {M : MPExt F}.
Add Field FFieldMT : num_field.
Notation lk := (link F).
Notation registered c ops := (asked_all (length (c_links c)) (movable c) ops).

(** ** One step *)
(** The default method is the one of C49 and C50. *)
Lemma rate_by_ad c (s : solver F) : solve_rate_by joint_vel_ad c s = ik_solve_rate c s. Proof. reflexivity. Qed.

Definition same_system (s s' : solver F) : Prop :=
  used s' (s_cmat s') = used s (s_cmat s) /\ used s' (s_csrv s') = used s (s_csrv s) /\ used s' (s_cwe s') = used s (s_cwe s) /\ s_wn s' = s_wn s.
Lemma rate_ready : forall (c c' : chain F) (s : solver F) ops, le_laws x_le -> chain_set_offset c = c ->
  run c (ik_create c) ops = Some (c', s) -> wanted c (registered c ops) <> [] -> (forall x, In x (s_cells s) -> cell_ready c' (snd x)) ->
  (forall i w, In i (wanted c (registered c ops)) -> registered c ops i = Some w -> (0 < w)%num) ->
  exists s1, ik_eq c' s = Some s1 /\ s_wn s1 = wanted_weights c (registered c ops) /\ Forall (fun x => 0 < x)%num (s_wn s1) /\
    Forall (fun r => length r = length (s_wn s1)) (used s1 (s_cmat s1)) /\
    length (used s1 (s_csrv s1)) = length (used s1 (s_cmat s1)) /\ length (used s1 (s_cwe s1)) = length (used s1 (s_cmat s1)) /\
    (forall w, In w (used s1 (s_cwe s1)) -> exists ce ax, In (ce, ax) (active (s_cells s)) /\ w = comp ax (a_w (ce_attr ce))) /\
    (forall jv x, jv s1 = s_set_jvel x s1 -> length x = length (s_wn s1) -> exists s', solve_rate_by jv c' s = Some s' /\ s_jvel s' = x /\ same_system s1 s').
Proof.
  intros c c' s ops LE O R W Rd Wj. destruct (run_inv LE ops c (fun _ => None) (ik_create c) c' s (create_inv c) R) as [H J]. fold (registered c ops) in H.
  assert (P : placed 0 (c_links c')) by (eapply placed_key; [exact J|exact (offsets_placed c O)]).
  assert (W' : wanted c' (registered c ops) <> []) by (rewrite (same_joints_wanted c c' _ J); exact W).
  destruct (C48_rows c c' s ops LE O R W Rd) as (s1 & Q & Rw & Rows).
  destruct (ik_eq_inv c' _ s s1 H Q) as (H1 & V1 & R1 & Le).
  assert (Sc : length (s_cells s1) = length (s_cells s)) by (apply same_cells_length; exact (ik_eq_same _ _ _ Q)). rewrite <- Sc in Le.
  destruct (used_dims c' _ s1 H1 Le) as (D1 & D2 & D3).
  assert (Wn : length (s_wn s1) = length (s_jvel s1)). { destruct (i_idx _ _ _ H1 W') as (A & _). apply (i_stale _ _ _ H1 _ A). }
  assert (WN : s_wn s1 = wanted_weights c (registered c ops)).
  { assert (J' : same_joints c' c) by (unfold same_joints in *; congruence). pose proof (inv_same_joints c' c _ _ J' H1) as H1'. apply (i_idx _ _ _ H1' W). }
  exists s1. split; [exact Q|]. split; [exact WN|]. split.
  { rewrite WN. unfold wanted_weights. apply Forall_forall. intros w Hw. apply in_flat_map in Hw as (i & Hi & Hw).
    destruct (registered c ops i) as [w'|] eqn:Fi; [|destruct Hw]. apply repeat_spec in Hw. subst w. eauto. }
  split; [rewrite Wn, V1; exact R1|]. split; [congruence|]. split; [congruence|]. split.
  - intros w Hw. apply In_nth_error in Hw as (k & Hk).
    assert (Lk : k < s_rows s1) by (rewrite <- D3; apply nth_error_Some; congruence).
    destruct (nth_error (active (s_cells s)) k) as [[ce ax]|] eqn:Ak. 2:{ apply nth_error_None in Ak. lia. }
    destruct (Rows k ce ax Ak) as (_ & _ & _ & _ & _ & _ & _ & _ & B5 & _). apply nth_firstn in Hk. exists ce, ax. split; [now apply nth_error_In in Ak|congruence].
  - intros jv x Jv Lx. destruct (inv_laid_out c' _ _ H1 W' P) as ((_ & Ls & _ & Lv) & Rg & Ix & _ & _).
    pose proof (scatter_put (c_links c') (c_links c') [] (s_sw s1) [] x (s_vel s1) eq_refl P Ls) as Sp. cbn [length app] in Sp.
    rewrite chain_joint_size_total in Lv. specialize (Sp Lv ltac:(congruence)).
    exists (s_set_vel (put (c_links c') (s_sw s1) x (s_vel s1)) (s_set_jvel x s1)). split; [|split; [reflexivity|repeat split]].
    unfold solve_rate_by. rewrite Q. cbn [obind]. rewrite Jv. cbn [s_set_jvel s_jidx]. rewrite Ix. cbn [obind s_jvel s_vel s_set_jvel]. rewrite Sp. reflexivity.
Qed.

(** The weighted squared error of the rows in use, and the weighted squared velocities. *)
Definition row_error (s : solver F) (x : list F) : F := wsum (used s (s_cwe s)) (vsub (map (fun row => dot row x) (used s (s_cmat s))) (used s (s_csrv s))).
Definition effort (s : solver F) (x : list F) : F := wsum (s_wn s) x.
(** [x] meets every constraint. *)
Definition meets (s : solver F) (x : list F) : Prop := map (fun row => dot row x) (used s (s_cmat s)) = used s (s_csrv s).

(** SR: the joint velocities are the unique minimiser of the weighted squared error plus the weighted squared velocities. *)
Theorem C101_sr_minimiser : forall (c c' : chain F) (s : solver F) ops, le_laws x_le -> chain_set_offset c = c ->
  run c (ik_create c) ops = Some (c', s) -> wanted c (registered c ops) <> [] -> (forall x, In x (s_cells s) -> cell_ready c' (snd x)) ->
  (forall ce ax, In (ce, ax) (active (s_cells s)) -> (0 <= comp ax (a_w (ce_attr ce)))%num) ->
  (forall i w, In i (wanted c (registered c ops)) -> registered c ops i = Some w -> (0 < w)%num) ->
  exists s', solve_rate_by joint_vel_sr c' s = Some s' /\ s_wn s' = wanted_weights c (registered c ops) /\ length (s_jvel s') = length (s_wn s') /\
  forall y, length y = length (s_jvel s') ->
    (row_error s' (s_jvel s') + effort s' (s_jvel s') <= row_error s' y + effort s' y)%num /\
    ((row_error s' y + effort s' y = row_error s' (s_jvel s') + effort s' (s_jvel s'))%num -> y = s_jvel s').
Proof.
  intros c c' s ops LE O R W Rd Wc Wj. destruct (rate_ready c c' s ops LE O R W Rd Wj) as (s1 & Q & WN & PN & J1 & E1 & E2 & Wr & Go).
  assert (PW : Forall (fun x => 0 <= x)%num (used s1 (s_cwe s1))).
  { apply Forall_forall. intros w Hw. destruct (Wr w Hw) as (ce & ax & A & ->). eauto. }
  pose proof (sr_square _ (used s1 (s_csrv s1)) (used s1 (s_cwe s1)) (s_wn s1) J1) as Sq.
  pose proof (sr_vector_len _ (used s1 (s_csrv s1)) (used s1 (s_cwe s1)) (s_wn s1) J1) as Vl.
  pose proof (le_total _ LE _ _ _ Sq Vl (sr_kernel _ (used s1 (s_csrv s1)) _ _ J1 E1 E2 PW PN)) as Tot.
  destruct (x_le (sr_matrix (used s1 (s_cmat s1)) (used s1 (s_cwe s1)) (s_wn s1)) (sr_vector (used s1 (s_cmat s1)) (used s1 (s_csrv s1)) (used s1 (s_cwe s1)) (s_wn s1))) as [x|] eqn:X; [|easy].
  destruct (le_sound _ LE _ _ _ _ Sq Vl X) as [Lx Sol].
  assert (Jv : joint_vel_sr s1 = s_set_jvel x s1).
  { unfold joint_vel_sr, in_use. fold (used s1 (s_cmat s1)) (used s1 (s_csrv s1)) (used s1 (s_cwe s1)). rewrite X. reflexivity. }
  destruct (Go joint_vel_sr x Jv Lx) as (s' & S & Xj & T1 & T2 & T3 & T4). exists s'. split; [exact S|]. split; [congruence|]. split; [congruence|].
  intros y Hy. rewrite Xj in *. unfold row_error, effort. rewrite T1, T2, T3, T4.
  exact (sr_minimiser _ _ _ _ J1 E1 E2 x y PW PN Lx ltac:(congruence) Sol).
Qed.

(** What is required of zLESolveMP at this call. *)
Definition mp_serves (s : solver F) : Prop :=
  mp_solution (used s (s_cmat s)) (used s (s_csrv s)) (used s (s_cwe s)) (s_wn s) (x_mp (used s (s_cmat s)) (used s (s_csrv s)) (s_wn s) (used s (s_cwe s))).
(** MP: the weighted squared error is the least possible, and among the velocities with that error the weighted
    squared velocities are the least; no other velocities are as good.  If the constraints can be met they are. *)
Theorem C101_mp_least : forall (c c' : chain F) (s : solver F) ops, le_laws x_le -> chain_set_offset c = c ->
  run c (ik_create c) ops = Some (c', s) -> wanted c (registered c ops) <> [] -> (forall x, In x (s_cells s) -> cell_ready c' (snd x)) ->
  (forall ce ax, In (ce, ax) (active (s_cells s)) -> (0 < comp ax (a_w (ce_attr ce)))%num) ->
  (forall i w, In i (wanted c (registered c ops)) -> registered c ops i = Some w -> (0 < w)%num) ->
  (forall s1, ik_eq c' s = Some s1 -> mp_serves s1) ->
  exists s', solve_rate_by joint_vel_mp c' s = Some s' /\ s_wn s' = wanted_weights c (registered c ops) /\ length (s_jvel s') = length (s_wn s') /\
  forall y, length y = length (s_jvel s') ->
    (row_error s' (s_jvel s') <= row_error s' y)%num /\
    (row_error s' y = row_error s' (s_jvel s') -> (effort s' (s_jvel s') <= effort s' y)%num /\ (effort s' y = effort s' (s_jvel s') -> y = s_jvel s')) /\
    (meets s' y -> meets s' (s_jvel s')).
Proof.
  intros c c' s ops LE O R W Rd Wc Wj Mp. destruct (rate_ready c c' s ops LE O R W Rd Wj) as (s1 & Q & WN & PN & J1 & E1 & E2 & Wr & Go).
  assert (PW : Forall (fun x => 0 < x)%num (used s1 (s_cwe s1))).
  { apply Forall_forall. intros w Hw. destruct (Wr w Hw) as (ce & ax & A & ->). eauto. }
  specialize (Mp s1 Q). unfold mp_serves in Mp. set (x := x_mp _ _ _ _) in Mp. pose proof (mp_len _ _ _ _ _ Mp) as Lx.
  destruct (Go joint_vel_mp x eq_refl Lx) as (s' & S & Xj & T1 & T2 & T3 & T4). exists s'. split; [exact S|]. split; [congruence|]. split; [congruence|].
  intros y Hy. rewrite Xj in *. unfold row_error, effort, meets. rewrite T1, T2, T3, T4.
  assert (Ly : length y = length (s_wn s1)) by congruence.
  destruct (mp_least _ _ _ _ J1 E1 E2 x y Mp PW PN Ly) as [A B]. split; [exact A|]. split; [exact B|].
  intros K. exact (mp_exact _ _ _ _ J1 E1 E2 x y Mp PW PN Ly K).
Qed.

(** With nothing asked for, the joints stay at rest, whichever of the three methods is used. *)
Lemma wsum_zeros_r (w : list F) : forall n, wsum w (zeros n) = 0%num.
Proof. clear -L. induction w as [|x w IH]; intros [|n]; cbn; auto. unfold zeros in IH. rewrite IH. ring. Qed.
Lemma dot_zeros_r' (a : list F) : forall n, dot a (zeros n) = 0%num. Proof. intros n. rewrite dot_comm. apply dot_zeros_l. Qed.
Lemma map_dot_zeros (m : list (list F)) n : map (fun row => dot row (zeros n)) m = zeros (length m).
Proof. induction m as [|r m IH]; cbn; auto. rewrite dot_zeros_r'. f_equal. exact IH. Qed.
Lemma vsub_self (a : list F) : vsub a a = zeros (length a).
Proof. clear -L. induction a as [|x a IH]; cbn; auto. rewrite IH. unfold zeros. cbn. f_equal. ring. Qed.
Lemma at_rest (s : solver F) k n : used s (s_csrv s) = zeros k -> length (used s (s_csrv s)) = length (used s (s_cmat s)) -> row_error s (zeros n) = 0%num /\ effort s (zeros n) = 0%num.
Proof.
  intros Z Le. unfold row_error, effort. rewrite map_dot_zeros, Z. rewrite Z in Le. unfold zeros in Le at 1. rewrite repeat_length in Le. rewrite <- Le, vsub_self. split; apply wsum_zeros_r.
Qed.
Theorem C101_rest : forall (c c' : chain F) (s s1 : solver F) ops k, le_laws x_le -> chain_set_offset c = c ->
  run c (ik_create c) ops = Some (c', s) -> wanted c (registered c ops) <> [] -> (forall x, In x (s_cells s) -> cell_ready c' (snd x)) ->
  (forall x ax, In x (s_cells s) -> (0 < comp ax (a_w (ce_attr (snd x))))%num) ->
  (forall i w, In i (wanted c (registered c ops)) -> registered c ops i = Some w -> (0 < w)%num) ->
  ik_eq c' s = Some s1 -> used s1 (s_csrv s1) = repeat 0%num k -> mp_serves s1 ->
  forall jv, In jv [joint_vel_mp; joint_vel_sr; joint_vel_ad] -> exists s', solve_rate_by jv c' s = Some s' /\ s_jvel s' = repeat 0%num (length (s_jvel s')).
Proof.
  intros c c' s s1 ops k LE O R W Rd Wc Wj Q Z Mp jv Hj.
  assert (Wa : forall ce ax, In (ce, ax) (active (s_cells s)) -> (0 < comp ax (a_w (ce_attr ce)))%num).
  { intros ce ax A. unfold active in A. apply in_flat_map in A as (x & K1 & K2). apply in_map_iff in K2 as (ax' & K2 & _). injection K2 as <- <-. now apply Wc. }
  destruct (rate_ready c c' s ops LE O R W Rd Wj) as (s0 & Q0 & WN & PN & J1 & E1 & E2 & Wr & Go). assert (s0 = s1) by congruence. subst s0.
  assert (Rest : forall s', same_system s1 s' -> used s' (s_csrv s') = zeros k /\ length (used s' (s_csrv s')) = length (used s' (s_cmat s'))).
  { intros s' (T1 & T2 & _). rewrite T1, T2. split; [exact Z|exact E1]. }
  assert (Sys : forall jv x s', jv s1 = s_set_jvel x s1 -> length x = length (s_wn s1) -> solve_rate_by jv c' s = Some s' -> same_system s1 s').
  { intros jv0 x s' A B C. destruct (Go jv0 x A B) as (s2 & C2 & _ & T). assert (s2 = s') by congruence. now subst s2. }
  assert (NN : forall s' x, same_system s1 s' -> (0 <= row_error s' x)%num /\ (0 <= effort s' x)%num).
  { intros s' x (T1 & T2 & T3 & T4). unfold row_error, effort. rewrite T3, T4. split; apply wsum_nonneg.
    - apply Forall_forall. intros w Hw. destruct (Wr w Hw) as (ce & ax & A & ->). apply nlt_le. eauto.
    - eapply Forall_impl; [|exact PN]. intros. now apply nlt_le. }
  destruct Hj as [<-|[<-|[<-|[]]]].
  - destruct (C101_mp_least c c' s ops LE O R W Rd Wa Wj) as (s' & S & B1 & B2 & B3). { intros s2 Q2. assert (s2 = s1) by congruence. now subst s2. }
    exists s'. split; [exact S|]. pose proof (Sys joint_vel_mp _ s' eq_refl (mp_len _ _ _ _ _ Mp) S) as T. destruct (Rest s' T) as [Z1 Z2].
    set (n := length (s_jvel s')) in *. destruct (at_rest s' k n Z1 Z2) as [Y1 Y2]. destruct (NN s' (s_jvel s') T) as [P1 P2].
    destruct (B3 (zeros n)) as (C1 & C2 & _); [unfold zeros; apply repeat_length|]. rewrite Y1 in *. rewrite Y2 in *.
    destruct C2 as [C2 C3]; [now apply nle_antisym|]. symmetry. apply C3. now apply nle_antisym.
  - destruct (C101_sr_minimiser c c' s ops LE O R W Rd) as (s' & S & B1 & B2 & B3); [intros; apply nlt_le; eauto|exact Wj|].
    exists s'. split; [exact S|].
    assert (T : same_system s1 s').
    { unfold joint_vel_sr in S. unfold solve_rate_by in S. rewrite Q in S. cbn [obind] in S. destruct (x_le _ _) as [x|].
      - cbn [s_set_jvel s_jidx] in S. destruct (s_jidx s1); [|discriminate]. cbn [obind] in S. destruct (scatter _ _ _ _); [|discriminate]. injection S as <-. repeat split.
      - destruct (s_jidx s1); [|discriminate]. cbn [obind] in S. destruct (scatter _ _ _ _); [|discriminate]. injection S as <-. repeat split. }
    destruct (Rest s' T) as [Z1 Z2]. set (n := length (s_jvel s')) in *. destruct (at_rest s' k n Z1 Z2) as [Y1 Y2]. destruct (NN s' (s_jvel s') T) as [P1 P2].
    destruct (B3 (zeros n)) as (C1 & C2); [unfold zeros; apply repeat_length|]. rewrite Y1, Y2 in *.
    symmetry. apply C2. apply nle_antisym; [|exact C1]. replace (0 + 0)%num with (0%num : F) by ring. now apply nle_0_add.
  - rewrite rate_by_ad. destruct (C49_minimiser c c' s ops LE O R W Rd) as (s' & S & B1 & B2 & B3); [intros; apply nlt_le; eauto|exact Wj|].
    exists s'. split; [exact S|].
    assert (T : same_system s1 s').
    { unfold ik_solve_rate in S. rewrite Q in S. cbn [obind] in S. unfold joint_vel_ad in S. destruct (x_le _ _) as [x|].
      - cbn [s_set_jvel s_jidx] in S. destruct (s_jidx s1); [|discriminate]. cbn [obind] in S. destruct (scatter _ _ _ _); [|discriminate]. injection S as <-. repeat split.
      - destruct (s_jidx s1); [|discriminate]. cbn [obind] in S. destruct (scatter _ _ _ _); [|discriminate]. injection S as <-. repeat split. }
    destruct (Rest s' T) as [Z1 Z2]. set (n := length (s_jvel s')) in *. destruct (at_rest s' k n Z1 Z2) as [Y1 Y2]. destruct (NN s' (s_jvel s') T) as [P1 P2].
    assert (D : forall x, damped_cost s' x = (row_error s' x + effort s' x)%num).
    { intros x. unfold damped_cost, row_error, effort. rewrite Z1, wsum_zeros_r. f_equal. f_equal. transitivity (map (fun w : F => w) (s_wn s')); [apply map_ext; intros; ring|apply map_id]. }
    destruct (B3 (zeros n)) as (C1 & C2); [unfold zeros; apply repeat_length|]. rewrite !D, Y1, Y2 in *.
    symmetry. apply C2. apply nle_antisym; [|exact C1]. replace (0 + 0)%num with (0%num : F) by ring. now apply nle_0_add.
Qed.

(** ** Iterations with any method *)
Section Any.
Context (jv : solver F -> solver F).
(** [n] calls of rkIKSolveOne with unit time step. *)
Fixpoint steps_by (n : nat) (x : state) : option state :=
  match n with
  | O => Some x
  | S n => obind (solve_one_by jv (fst (fst x)) (snd (fst x)) (snd x) 1%num) (steps_by n)
  end.
(** The error reported by call [k + 1] differs from that of call [k] by no more than the tolerance. *)
Definition settles_by (tol : F) (x : state) (k : nat) : Prop :=
  exists y z, steps_by k x = Some y /\ steps_by (S k) x = Some z /\ ntiny tol (eval_of z - eval_of y)%num = true.
Lemma steps_by_S n : forall x, steps_by (S n) x = obind (steps_by n x) (steps_by 1).
Proof.
  induction n as [|n IH]; intros x; [reflexivity|]. cbn [steps_by] in *. destruct (solve_one_by jv _ _ _ _) as [y|]; [|reflexivity]. cbn [obind]. apply IH.
Qed.
Definition settles_by' (tol : F) (rest : option F) (x : state) (k : nat) : Prop :=
  match k with O => exists e z, rest = Some e /\ steps_by 1 x = Some z /\ ntiny tol (eval_of z - e)%num = true | S _ => settles_by tol x k end.
Lemma loop_by_spec tol : forall k i rest c s dis c' s' d' r, solve_loop_by jv tol k i rest c s dis = Some (c', s', d', r) ->
  exists n, n <= k /\ steps_by n (c, s, dis) = Some (c', s', d') /\ (forall m, S m < n -> ~ settles_by' tol rest (c, s, dis) m) /\
  match r with Some q => exists m, n = S m /\ q = i + m /\ settles_by' tol rest (c, s, dis) m
             | None => n = k /\ forall m, S m <= n -> ~ settles_by' tol rest (c, s, dis) m end.
Proof.
  induction k as [|k IH]; cbn [solve_loop_by]; intros i rest c s dis c' s' d' r H.
  - injection H as <- <- <- <-. exists 0. repeat split; auto; intros m Hm; lia.
  - unfold obind in H. destruct (solve_one_by jv c s dis 1%num) as [[[c1 s1] d1]|] eqn:A; [|discriminate]. cbn [fst snd] in H.
    assert (S1 : steps_by 1 (c, s, dis) = Some (c1, s1, d1)) by (cbn; now rewrite A).
    destruct (match rest with Some e => ntiny tol (s_eval s1 - e)%num | None => false end) eqn:T.
    + injection H as <- <- <- <-. exists 1. split; [lia|]. split; [exact S1|]. split; [intros m Hm; lia|]. exists 0. split; [reflexivity|]. split; [lia|].
      destruct rest as [e|]; [|discriminate]. exists e, (c1, s1, d1). auto.
    + destruct (IH _ _ _ _ _ _ _ _ _ H) as (n & N1 & N2 & N3 & N4).
      assert (Z0 : ~ settles_by' tol rest (c, s, dis) 0).
      { intros (e & z & -> & Hz & Q). rewrite S1 in Hz. injection Hz as <-. unfold eval_of in Q. cbn in Q. congruence. }
      assert (Sh : forall m, settles_by' tol rest (c, s, dis) (S m) <-> settles_by' tol (Some (s_eval s1)) (c1, s1, d1) m).
      { intros m. assert (St : forall j, steps_by (S j) (c, s, dis) = steps_by j (c1, s1, d1)) by (intros j; cbn [steps_by fst snd]; rewrite A; reflexivity).
        destruct m as [|m]; cbn [settles_by']; unfold settles_by; rewrite !St.
        - split.
          + intros (y & z & Hy & Hz & Q). cbn [steps_by] in Hy. injection Hy as <-. exists (s_eval s1), z. auto.
          + intros (e & z & He & Hz & Q). injection He as <-. exists (c1, s1, d1), z. auto.
        - reflexivity. }
      exists (S n). split; [lia|]. split; [cbn [steps_by fst snd]; rewrite A; exact N2|]. split.
      * intros [|m] Hm; [exact Z0|]. rewrite Sh. apply N3. lia.
      * destruct r as [q|].
        -- destruct N4 as (m & -> & -> & Q). exists (S m). split; [reflexivity|]. split; [lia|]. now apply Sh.
        -- destruct N4 as [-> N4]. split; [reflexivity|]. intros [|m] Hm; [exact Z0|]. rewrite Sh. apply N4. lia.
Qed.
(** The accumulators are cleared, then at most [iter] steps_by are made; the solver stops after the first step
    whose error is close to that of the step before and returns its number, or -1 when there is none. *)
Theorem C101_report : forall (c c' : chain F) (s s' : solver F) dis d' tol iter r, solve_by jv c s dis tol iter = Some (c', s', d', r) ->
  exists d0 n, chain_get_joint_dis_all c dis = Some d0 /\ n <= budget iter /\ steps_by n (c, ik_acm_zero s, d0) = Some (c', s', d') /\
  (forall k, 0 < k -> S k < n -> ~ settles_by tol (c, ik_acm_zero s, d0) k) /\
  match r with
  | Some i => 0 < i /\ n = S i /\ settles_by tol (c, ik_acm_zero s, d0) i
  | None => n = budget iter /\ forall k, 0 < k -> S k <= n -> ~ settles_by tol (c, ik_acm_zero s, d0) k
  end.
Proof.
  intros c c' s s' dis d' tol iter r H. unfold solve_by, obind in H. destruct (chain_get_joint_dis_all c dis) as [d0|]; [|discriminate].
  destruct (loop_by_spec tol _ _ _ _ _ _ _ _ _ _ H) as (n & N1 & N2 & N3 & N4). exists d0, n. split; [reflexivity|]. split; [exact N1|]. split; [exact N2|].
  assert (P : forall k, 0 < k -> settles_by tol (c, ik_acm_zero s, d0) k <-> settles_by' tol None (c, ik_acm_zero s, d0) k) by (intros [|k] Hk; [lia|reflexivity]).
  split; [intros k Hk Hn; rewrite P by exact Hk; auto|]. destruct r as [i|].
  - destruct N4 as (m & -> & -> & Q). cbn [Nat.add]. destruct m as [|m]; [destruct Q as (e & z & Q & _); discriminate|]. split; [lia|]. split; [reflexivity|exact Q].
  - destruct N4 as [-> N4]. split; [reflexivity|]. intros k Hk Hn. rewrite P by exact Hk. auto.
Qed.

Lemma one_by_posed (c : chain F) s dis dt c' s' d' : usable c -> solve_one_by jv c s dis dt = Some (c', s', d') -> posed c'.
Proof.
  intros U H. unfold solve_one_by, obind in H. destruct (solve_rate_by jv c s); [|discriminate]. destruct (chain_cat_joint_dis_all _ _ _ _); [|discriminate].
  destruct (chain_set_joint_dis_all c _) as [c1|] eqn:A; [|discriminate]. destruct (chain_get_joint_dis_all _ _); [|discriminate].
  destruct (chain_update_fk c1) as [c2|] eqn:B; [|discriminate]. injection H as <- _ _. exists c1. split; [eapply usable_set; eauto|exact B].
Qed.
Lemma one_by_respects (c : chain F) s dis dt c' s' d' : usable c -> all_ordered c -> solve_one_by jv c s dis dt = Some (c', s', d') -> respects c c'.
Proof.
  intros U O H. unfold solve_one_by, obind in H. destruct (solve_rate_by jv c s); [|discriminate]. destruct (chain_cat_joint_dis_all _ _ _ _); [|discriminate].
  destruct (chain_set_joint_dis_all c _) as [c1|] eqn:A; [|discriminate]. destruct (chain_get_joint_dis_all _ _); [|discriminate].
  destruct (chain_update_fk c1) as [c2|] eqn:B; [|discriminate]. injection H as <- _ _.
  eapply respects_joints; [eapply set_respects; eauto|]. apply fk_joints; [eapply usable_set; eauto|exact B].
Qed.
Lemma one_by_dis (c : chain F) s dis dt c' s' d' : usable c -> length dis = chain_joint_size c -> solve_one_by jv c s dis dt = Some (c', s', d') ->
  d' = displacements c' /\ length d' = chain_joint_size c'.
Proof.
  intros U Ld H. pose proof U as (_ & Of & _). unfold solve_one_by, obind in H. destruct (solve_rate_by jv c s) as [s1|]; [|discriminate]. destruct (chain_cat_joint_dis_all _ _ _ _) as [d1|] eqn:Ct; [|discriminate].
  destruct (chain_set_joint_dis_all c _) as [c1|] eqn:A; [|discriminate]. destruct (chain_get_joint_dis_all c1 d1) as [d2|] eqn:G; [|discriminate].
  destruct (chain_update_fk c1) as [c2|] eqn:B; [|discriminate]. injection H as <- _ <-.
  pose proof (usable_set _ _ _ U A) as U1. pose proof (fk_joints c1 c2 U1 B) as Fj.
  assert (S1 : chain_joint_size c1 = chain_joint_size c) by (apply same_joints_total; eapply set_dis_joints; exact A).
  assert (S2 : chain_joint_size c2 = chain_joint_size c1) by (apply same_joints_total; now apply update_fk_joints).
  apply map_all2_len in Ct. unfold chain_get_joint_dis_all in G. pose proof (get_all_len _ _ _ _ G) as Lg.
  assert (P1 : placed 0 (c_links c1)) by exact (offsets_placed c1 (proj1 (proj2 U1))).
  rewrite (get_all_spec joint_get_dis (c_links c1) get_dis_len 0 d1 P1) in G by (rewrite <- chain_joint_size_total; lia).
  injection G as G. rewrite skipn_all2 in G by (rewrite <- chain_joint_size_total; lia). rewrite app_nil_r in G.
  split; [|lia]. rewrite <- G. unfold displacements. cbn [firstn app]. rewrite !flat_map_concat_map, <- !(map_map (fun l : lk => l_joint l) joint_get_dis), Fj. reflexivity.
Qed.
Lemma steps_by_respect n : forall (c : chain F) s d c' s' d', usable c -> all_ordered c -> length d = chain_joint_size c -> steps_by (S n) (c, s, d) = Some (c', s', d') ->
  respects c c' /\ d' = displacements c'.
Proof.
  induction n as [|n IH]; intros c s d c' s' d' U O Ld H; cbn [steps_by fst snd] in H; unfold obind in H;
    (destruct (solve_one_by jv c s d 1%num) as [[[c1 s1] d1]|] eqn:A; [|discriminate]).
  - injection H as <- <- <-. split; [eapply one_by_respects; eauto|]. apply (one_by_dis c s d 1%num c1 s1 d1 U Ld A).
  - destruct (one_by_dis c s d 1%num c1 s1 d1 U Ld A) as [_ L1]. pose proof (one_by_respects _ _ _ _ _ _ _ U O A) as R1.
    destruct (IH c1 s1 d1 c' s' d') as [R2 D2]; auto.
    + apply posed_usable. eapply one_by_posed; eauto.
    + eapply respects_ordered; eauto.
    + split; [eapply respects_trans; eauto|exact D2].
Qed.
(** After at least one iteration every joint is within its limits, which are those it had before, and the
    vector handed back holds the displacements of the chain. *)
Theorem C101_limits : forall (c c' : chain F) (s s' : solver F) dis d' tol iter r, usable c -> all_ordered c -> length dis = chain_joint_size c -> 0 < budget iter ->
  solve_by jv c s dis tol iter = Some (c', s', d', r) -> respects c c' /\ d' = displacements c'.
Proof.
  intros c c' s s' dis d' tol iter r U O Ld B H. destruct (C101_report _ _ _ _ _ _ _ _ _ H) as (d0 & n & D & _ & S & _ & R).
  assert (n <> 0) by (destruct r; lia). destruct n as [|n]; [easy|]. unfold chain_get_joint_dis_all in D. apply get_all_len in D. rewrite Ld in D.
  exact (steps_by_respect n c _ d0 c' s' d' U O D S).
Qed.
End Any.
End Thms.

(** ** Concrete cases *)
(** The MP solution of a system of independent rows: W^-1 J^T (J W^-1 J^T)^-1 b. *)
Definition qinv (w : list Qc) : list Qc := map (fun x => / x)%Qc w.
Definition mp_u (j : list (list Qc)) (b wn : list Qc) : list Qc :=
  match x_le (map (fun r => mat_vec j (vamp (qinv wn) r)) j) b with Some u => u | None => [] end.
Definition mp_qc (j : list (list Qc)) (b wn we : list Qc) : list Qc := vamp (qinv wn) (mat_t_vec (length wn) j (mp_u j b wn)).
#[export] Instance MPExt_Qc : MPExt Qc := mkMPExt Qc mp_qc.
(** Two prismatic joints in a row, weights 1 and 2; the height of the second link is wanted. *)
Definition meth_hist (z : Qc) : list (op Qc) :=
  [JReg 0 (qz 1); JReg 1 (qz 2); MoveTo [qz 0; qz 0]; CReg 10 WldPos (at_ 1 0) full; CSetRef 10 (V3 (qz 0) (qz 0) z); CSetMode 10 (Mode false false true false)].
Definition meth_of (jv : solver Qc -> solver Qc) (z : Qc) : option (solver Qc) :=
  obind (run lmech (ik_create lmech) (meth_hist z)) (fun r => solve_rate_by jv (fst r) (snd r)).
Definition meth_flat (s : solver Qc) : list (list Qc) := used s (s_cmat s) ++ [used s (s_csrv s); used s (s_cwe s); s_wn s; s_jvel s].
Definition sys_flat (s : solver Qc) : list (list Qc) := used s (s_cmat s) ++ [used s (s_csrv s); used s (s_cwe s); s_wn s; s_jvel s].
(** The height differs by 5 from the one wanted: MP makes up for all of it and moves the joint with the smaller weight
    more, SR and the default method stay behind. *)
Example C101_mp_ex : exists s, meth_of joint_vel_mp (qz 9) = Some s /\ sys_flat s = [[qz 1; qz 1]; [qz 5]; [qz 3]; [qz 1; qz 2]; [Q2Qc (10 # 3); Q2Qc (5 # 3)]].
Proof. apply (some_exq _ sys_flat). vm_compute. reflexivity. Qed.
Example C101_sr_ex : exists s, meth_of joint_vel_sr (qz 9) = Some s /\ sys_flat s = [[qz 1; qz 1]; [qz 5]; [qz 3]; [qz 1; qz 2]; [Q2Qc (30 # 11); Q2Qc (15 # 11)]].
Proof. apply (some_exq _ sys_flat). vm_compute. reflexivity. Qed.
Example C101_rest_ex : Forall (fun jv => exists s, meth_of jv (qz 4) = Some s /\ sys_flat s = [[qz 1; qz 1]; [qz 0]; [qz 3]; [qz 1; qz 2]; [qz 0; qz 0]]) [joint_vel_mp; joint_vel_sr; joint_vel_ad].
Proof. repeat (constructor; [apply (some_exq _ sys_flat); vm_compute; reflexivity|]). constructor. Qed.

(** The hypotheses of the theorems hold here. *)
Definition qlist_eqb (a b : list Qc) : bool := if list_eq_dec Qc_eq_dec a b then true else false.
Lemma qlist_eqb_ok a b : qlist_eqb a b = true -> a = b. Proof. unfold qlist_eqb. destruct (list_eq_dec Qc_eq_dec a b); [auto|discriminate]. Qed.
Definition serves_b (o : option (solver Qc)) : bool :=
  match o with
  | Some s => let j := used s (s_cmat s) in let b := used s (s_csrv s) in let we := used s (s_cwe s) in let wn := s_wn s in
    let x := mp_qc j b wn we in
    (Nat.eqb (length x) (length wn) && qlist_eqb (mat_t_vec (length wn) j (vamp we (vsub (mat_vec j x) b))) (zeros (length wn))
     && Nat.eqb (length (mp_u j b wn)) (length j) && qlist_eqb (vamp wn x) (mat_t_vec (length wn) j (mp_u j b wn)))%bool
  | None => false
  end.
Lemma serves_b_ok o s : serves_b o = true -> o = Some s -> mp_serves s.
Proof.
  intros H ->. unfold serves_b in H. apply andb_prop in H as [H H4]. apply andb_prop in H as [H H3]. apply andb_prop in H as [H1 H2].
  apply Nat.eqb_eq in H1. apply qlist_eqb_ok in H2. apply Nat.eqb_eq in H3. apply qlist_eqb_ok in H4.
  constructor; [exact H1|exact H2|]. exists (mp_u (used s (s_cmat s)) (used s (s_csrv s)) (s_wn s)). split; [exact H3|exact H4].
Qed.
Definition eq_of (o : option (chain Qc * solver Qc)) : option (solver Qc) := obind o (fun r => ik_eq (fst r) (snd r)).
Lemma eq_of_run o c' s : o = Some (c', s) -> eq_of o = ik_eq c' s. Proof. intros ->. reflexivity. Qed.
Definition pos_b (o : option (chain Qc * solver Qc)) : bool :=
  match o with Some r => forallb (fun x => forallb (fun ax => negb (nleb (comp ax (a_w (ce_attr (snd x)))) (qz 0))) [AX; AY; AZ]) (s_cells (snd r)) | None => false end.
Lemma pos_b_spec o c' s : o = Some (c', s) -> pos_b o = true -> forall x ax, In x (s_cells s) -> (qz 0 < comp ax (a_w (ce_attr (snd x))))%num.
Proof.
  intros -> H x ax Hx. cbn [pos_b snd] in H. rewrite forallb_forall in H. specialize (H x Hx). cbv beta in H. rewrite forallb_forall in H. apply negb_true_iff. apply H. destruct ax; cbn; auto.
Qed.
Lemma meth_ready z c' s : run lmech (ik_create lmech) (meth_hist z) = Some (c', s) -> valid_run (Some (c', s)) = true -> forall x, In x (s_cells s) -> cell_ready c' (snd x).
Proof.
  intros R V x Hx. destruct (run_usable (meth_hist z) lmech _ _ _ lmech_usable R) as [_ Ps]. destruct (Ps (or_intror eq_refl)) as (c0 & U & Fk).
  eapply valid_ready; [exact U|exact Fk|]. apply (valid_run_spec _ _ _ eq_refl V). exact Hx.
Qed.
Lemma meth_joints z : forall i w, In i (wanted lmech (asked_all (length (c_links lmech)) (movable lmech) (meth_hist z))) ->
  asked_all (length (c_links lmech)) (movable lmech) (meth_hist z) i = Some w -> (qz 0 < w)%num.
Proof.
  intros i w Hi. assert (D : wanted lmech (asked_all (length (c_links lmech)) (movable lmech) (meth_hist z)) = [0; 1]) by (vm_compute; reflexivity).
  rewrite D in Hi. destruct Hi as [<-|[<-|[]]]; intros Q; injection Q as <-; vm_compute; reflexivity.
Qed.
Example C101_ex_theorem c' s : run lmech (ik_create lmech) (meth_hist (qz 9)) = Some (c', s) ->
  exists s', solve_rate_by joint_vel_mp c' s = Some s' /\ forall y, length y = length (s_jvel s') -> (row_error s' (s_jvel s') <= row_error s' y)%num /\ (meets s' y -> meets s' (s_jvel s')).
Proof.
  intros R. assert (V : valid_run (run lmech (ik_create lmech) (meth_hist (qz 9))) = true) by (vm_compute; reflexivity). rewrite R in V.
  assert (Pb : pos_b (run lmech (ik_create lmech) (meth_hist (qz 9))) = true) by (vm_compute; reflexivity). pose proof (pos_b_spec _ _ _ R Pb) as Ps.
  assert (Sb : serves_b (eq_of (run lmech (ik_create lmech) (meth_hist (qz 9)))) = true) by (vm_compute; reflexivity).
  destruct (C101_mp_least lmech c' s (meth_hist (qz 9)) qle_laws (proj1 (proj2 lmech_usable)) R) as (s' & A & _ & _ & B).
  - vm_compute. discriminate.
  - exact (meth_ready _ _ _ R V).
  - intros ce ax Ha. unfold active in Ha. apply in_flat_map in Ha as (x & K1 & K2). apply in_map_iff in K2 as (ax' & K2 & _). injection K2 as <- <-. now apply Ps.
  - apply meth_joints.
  - intros s1 Q. apply (serves_b_ok _ _ Sb). rewrite (eq_of_run _ _ _ R). exact Q.
  - exists s'. split; [exact A|]. intros y Hy. destruct (B y Hy) as (B1 & _ & B3). auto.
Qed.

(** Neither SR nor the default method meets a constraint that can be met: in the case above the velocities
    (10/3, 5/3) do, and those computed do not. *)
Definition misses (o : option (solver Qc)) (y : list Qc) : bool :=
  match o with
  | Some s => (Nat.eqb (length y) (length (s_jvel s)) && qlist_eqb (map (fun row => dot row y) (used s (s_cmat s))) (used s (s_csrv s))
               && negb (qlist_eqb (map (fun row => dot row (s_jvel s)) (used s (s_cmat s))) (used s (s_csrv s))))%bool
  | None => false
  end.
Lemma misses_ok (o : option (chain Qc * solver Qc)) jv y : misses (obind o (fun r => solve_rate_by jv (fst r) (snd r))) y = true ->
  exists c' s s', o = Some (c', s) /\ solve_rate_by jv c' s = Some s' /\ length y = length (s_jvel s') /\ meets s' y /\ ~ meets s' (s_jvel s').
Proof.
  destruct o as [[c' s]|]; [|discriminate]. cbn [obind fst snd]. intros H. destruct (solve_rate_by jv c' s) as [s'|] eqn:S; [|discriminate].
  cbn [misses] in H. apply andb_prop in H as [H H3]. apply andb_prop in H as [H1 H2]. apply Nat.eqb_eq in H1. apply qlist_eqb_ok in H2.
  exists c', s, s'. repeat split; auto. intros K. unfold meets in K. rewrite K in H3. unfold qlist_eqb in H3. destruct (list_eq_dec _ _ _); [discriminate|easy].
Qed.
Theorem C101_exact_refuted : forall jv, In jv [joint_vel_sr; joint_vel_ad] -> exists ops c' s s' y, run lmech (ik_create lmech) ops = Some (c', s) /\
  solve_rate_by jv c' s = Some s' /\ length y = length (s_jvel s') /\ meets s' y /\ ~ meets s' (s_jvel s').
Proof.
  assert (D : forall jv, misses (obind (run lmech (ik_create lmech) (meth_hist (qz 9))) (fun r => solve_rate_by jv (fst r) (snd r))) [Q2Qc (10 # 3); Q2Qc (5 # 3)] = true ->
    exists ops c' s s' y, run lmech (ik_create lmech) ops = Some (c', s) /\ solve_rate_by jv c' s = Some s' /\ length y = length (s_jvel s') /\ meets s' y /\ ~ meets s' (s_jvel s')).
  { intros jv H. destruct (misses_ok _ jv _ H) as (c' & s & s' & K). exists (meth_hist (qz 9)), c', s, s', [Q2Qc (10 # 3); Q2Qc (5 # 3)]. exact K. }
  intros jv [<-|[<-|[]]]; apply D; vm_compute; reflexivity.
Qed.

(** Iterations with MP: the solver moves the joints to their limits and stops there. *)
Definition solved_by (jv : solver Qc -> solver Qc) (o : option (chain Qc * solver Qc)) (dis : list Qc) (tol : Qc) (n : nat) : option (chain Qc * solver Qc * list Qc * option nat) :=
  obind o (fun r => solve_by jv (fst r) (snd r) dis tol n).
Example C101_solve_ex : exists r, solved_by joint_vel_mp (run lmech (ik_create lmech) (meth_hist (qz 9))) [qz 0; qz 0] (Q2Qc (1 # 2)) 10 = Some r /\ solved_flat r = zq [[1; 1]; [1; 1]; [43]; [2]]%Z.
Proof. apply (some_exq _ solved_flat). vm_compute. reflexivity. Qed.
Example C101_limits_ex jv s c' s' d' r : solve_by jv lmech s [qz 0; qz 0] (qz 1) 10 = Some (c', s', d', r) -> respects lmech c' /\ d' = displacements c'.
Proof. apply C101_limits; [exact lmech_usable|exact lmech_ordered|reflexivity|cbn; lia]. Qed.

Print Assumptions C101_sr_minimiser.
Print Assumptions C101_mp_least.
Print Assumptions C101_rest.
Print Assumptions C101_exact_refuted.
Print Assumptions C101_report.
Print Assumptions C101_limits.
