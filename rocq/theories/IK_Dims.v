(** * IK_Dims: the invariant of IK_Index holds after every history of calls. *)
From Coq Require Import List Arith Lia Bool Sorted.
From Verif Require Import Num NumFacts Vec Motor_Model Joint_Model Joint_Spec Joint_Proofs Body_Model Tree Link_Model Chain_Proofs Jacobi_Model IK_Model IK_Laws IK_Spec IK_Cells IK_Index.
Import ListNotations.

Section Dims.
Context {F : Type} {N : Num F} {E : Ext F} {I : IKExt F}.
Notation lk := (link F).

Lemma Forall_firstn {A} (P : A -> Prop) n l : Forall P l -> Forall P (firstn n l).
Proof. intros H. revert n. induction H; intros [|n]; cbn; constructor; auto. Qed.
Lemma write_at_len k (a v v' : list F) : write_at k a v = Some v' -> length v' = length v.
Proof.
  unfold write_at. destruct (Nat.leb_spec (k + length a) (length v)); [|discriminate]. intros K; injection K as <-.
  rewrite !app_length, firstn_length, skipn_length. lia.
Qed.
Lemma fill_row_len (h : list lk) : forall sw ofs jrow vel row srv r, fill_row h sw ofs jrow vel row srv = Some r -> length (fst r) = length row.
Proof.
  induction h as [|l h IH]; cbn [fill_row]; intros sw ofs jrow vel row srv r H; [injection H as <-; auto|].
  destruct sw as [|b sw]; [discriminate|]. destruct ofs as [|o ofs]; [discriminate|]. unfold obind in H.
  destruct (link_slice l jrow) as [a|]; [|discriminate]. destruct b.
  - destruct a as [|x a]; [eauto|]. destruct o as [o|]; [|discriminate]. destruct (write_at o (x :: a) row) as [row1|] eqn:W; [|discriminate].
    apply write_at_len in W. apply IH in H. congruence.
  - destruct (link_slice l vel) as [v|]; [|discriminate]. eauto.
Qed.
(** The working arrays have [k] rows of length [n], and at most [r] rows are in use. *)
Definition qdims (k n r : nat) (q : eqs F) : Prop :=
  length (q_mat q) = k /\ Forall (fun row => length row = n) (q_mat q) /\ length (q_srv q) = k /\ length (q_we q) = k /\ q_row q <= r.
Lemma cell_eq_dims c (s : solver F) on jrow srv w q q' k n r : cell_eq c s on jrow srv w q = Some q' -> qdims k n r q -> qdims k n (S r) q'.
Proof.
  unfold cell_eq. intros H (A & B & C & D & G). destruct on; [|injection H as <-; repeat split; auto]. unfold obind in H.
  destruct (nth_error (q_mat q) (q_row q)) as [row|] eqn:R; [|discriminate]. destruct (andb _ _); [|discriminate].
  destruct (fill_row _ _ _ _ _ _ _) as [x|] eqn:Fi; [|discriminate]. injection H as <-. unfold qdims. cbn. rewrite !set_nth_len. repeat split; auto; [|lia].
  apply Forall_set_nth; [exact B|]. rewrite (fill_row_len _ _ _ _ _ _ _ _ Fi). rewrite Forall_forall in B. apply B. eapply nth_error_In; eauto.
Qed.
Lemma qdims_le k n r r' (q : eqs F) : r <= r' -> qdims k n r q -> qdims k n r' q.
Proof. intros H (A & B & C & D & G). repeat split; auto. lia. Qed.
Lemma eq_cell_dims c (s : solver F) ce q ev x k n r : eq_cell c s ce q ev = Some x -> qdims k n r q -> qdims k n (r + 3) (snd (fst x)).
Proof.
  unfold eq_cell. intros H Q. destruct (mode_off (ce_mode ce)); [injection H as <-; cbn; eapply qdims_le; [|exact Q]; lia|]. unfold obind in H.
  destruct (cell_cmat c ce _) as [jm|]; [|discriminate]. destruct (cell_err c ce) as [srv|]; [|discriminate].
  cbv zeta in H. set (rr := if m_force _ then _ else _) in H. clearbody rr.
  destruct (cell_eq c s (m_x _) _ _ _ q) as [q1|] eqn:E1; [|discriminate]. destruct (cell_eq c s (m_y _) _ _ _ q1) as [q2|] eqn:E2; [|discriminate].
  destruct (cell_eq c s (m_z _) _ _ _ q2) as [q3|] eqn:E3; [|discriminate]. injection H as <-. cbn [fst snd].
  eapply qdims_le; [|eapply cell_eq_dims; [exact E3|]; eapply cell_eq_dims; [exact E2|]; eapply cell_eq_dims; [exact E1|exact Q]]. lia.
Qed.
Lemma eq_cells_dims c (s : solver F) l : forall q ev x k n r, eq_cells c s l q ev = Some x -> qdims k n r q -> qdims k n (r + length l * 3) (snd (fst x)).
Proof.
  induction l as [|y l IH]; cbn [eq_cells]; intros q ev x k n r H Q; [injection H as <-; cbn; now rewrite Nat.add_0_r|]. unfold obind in H.
  destruct (eq_cell c s (snd y) q ev) as [r1|] eqn:E1; [|discriminate]. destruct (eq_cells c s l _ _) as [r2|] eqn:E2; [|discriminate]. injection H as <-. cbn [fst snd length].
  eapply qdims_le; [|eapply IH; [exact E2|]; eapply eq_cell_dims; [exact E1|exact Q]]. lia.
Qed.

(** What may change without affecting the invariant. *)
Lemma inv_upd c f (s s' : solver F) : inv c f s -> s_sw s' = s_sw s -> s_weight s' = s_weight s -> s_jidx s' = s_jidx s -> s_jofs s' = s_jofs s -> s_wn s' = s_wn s ->
  length (s_vel s') = length (s_vel s) -> (s_jidx s <> None -> length (s_jvel s') = length (s_jvel s)) -> length (s_cells s') = length (s_cells s) -> dims s' -> inv c f s'.
Proof.
  intros [A B C D G S M] H1 H2 H3 H4 H5 H6 H7 H8 H9. constructor; auto; try congruence.
  - intros K. rewrite H3, H4, H5. auto.
  - intros K. rewrite H3 in K. rewrite (G K) in H8. now destruct (s_cells s').
  - intros idx K. rewrite H3 in K. destruct (S idx K) as (S1 & S2 & S3 & S4 & S5). rewrite H5, H7 by congruence. auto.
Qed.
Lemma dims_cells (s : solver F) l : length l = length (s_cells s) -> dims s -> dims (s_set_cells l s).
Proof. intros H D K. cbn in *. rewrite H. apply D. intros Q. rewrite Q in H. now destruct l. Qed.
Lemma inv_cells c f (s : solver F) l : inv c f s -> length l = length (s_cells s) -> inv c f (s_set_cells l s).
Proof. intros H K. eapply inv_upd; [exact H|..]; try reflexivity; [exact K|]. apply dims_cells; [exact K|apply H]. Qed.

(** After rkIKEq the rows in use have the right length. *)
Lemma ik_eq_inv c f (s s' : solver F) : inv c f s -> ik_eq c s = Some s' ->
  inv c f s' /\ s_jvel s' = s_jvel s /\ Forall (fun r => length r = length (s_jvel s)) (firstn (s_rows s') (s_cmat s')) /\ s_rows s' <= length (s_cells s) * 3.
Proof.
  intros H K. assert (Sc := ik_eq_same _ _ _ K). apply same_cells_length in Sc. unfold ik_eq in K.
  destruct (eq_cells c s (s_cells s) _ _) as [r|] eqn:Q; [|discriminate]. injection K as <-. cbn in *.
  destruct (s_cells s) as [|x l] eqn:Cs.
  - cbn in Q. injection Q as <-. cbn. split; [|split; [reflexivity|split; [constructor|lia]]]. eapply inv_upd; [exact H|..]; try reflexivity; [now rewrite Cs|]. intros Z. now destruct Z.
  - assert (D : dims s) by apply H. unfold dims in D. rewrite Cs in D. destruct D as (D1 & D2 & D3 & D4); [discriminate|].
    assert (X : qdims (length (x :: l) * 3) (length (s_jvel s)) (0 + length (x :: l) * 3) (snd (fst r))).
    { eapply eq_cells_dims; [exact Q|]. repeat split; auto. }
    destruct X as (X1 & X2 & X3 & X4 & X5). split; [|split; [reflexivity|split; [apply Forall_firstn; exact X2|exact X5]]].
    eapply inv_upd; [exact H|..]; try reflexivity; cbn; [now rewrite Cs|]. intros _. cbn. rewrite Sc. auto.
Qed.

(** Sizes of the linear equation. *)
Lemma vadd_len (a : list F) : forall b, length a = length b -> length (vadd a b) = length b.
Proof. induction a as [|x a IH]; intros [|y b] H; cbn in *; try discriminate; auto. Qed.
Lemma mat_t_vec_len n (m : list (list F)) : forall v, Forall (fun r => length r = n) m -> length (mat_t_vec n m v) = n.
Proof.
  induction m as [|r m IH]; intros v H; cbn [mat_t_vec]; [apply repeat_length|]. inversion H as [|? ? Hr Hm]; subst.
  destruct v as [|x v]; [apply repeat_length|]. rewrite vadd_len; [now apply IH|]. unfold vscale. rewrite map_length, IH by auto. reflexivity.
Qed.
Lemma add_diag_len (m : list (list F)) n : forall i d, Forall (fun r => length r = n) m -> length (add_diag i m d) = length m /\ Forall (fun r => length r = n) (add_diag i m d).
Proof.
  induction m as [|r m IH]; intros i d H; [auto|]. inversion H as [|? ? Hr Hm]; subst. cbn [add_diag]. destruct d as [|x d]; [auto|].
  destruct (IH (S i) d Hm) as [A B]. cbn. split; [lia|]. constructor; [apply set_nth_len|exact B].
Qed.
Lemma ad_matrix_square (j : list (list F)) srv we wn : Forall (fun r => length r = length wn) j -> square (length wn) (ad_matrix j srv we wn).
Proof.
  intros H. unfold ad_matrix, mat_t_quad, square. destruct (add_diag_len (map (fun k => mat_t_vec (length wn) j (vamp we (column j k))) (seq 0 (length wn))) (length wn) 0 (map (fun x => x + dot srv (vamp srv we))%num wn)) as [A B].
  - apply Forall_map, Forall_forall. intros. now apply mat_t_vec_len.
  - rewrite A, map_length, seq_length. auto.
Qed.
Lemma ad_vector_len (j : list (list F)) srv we wn : Forall (fun r => length r = length wn) j -> length (ad_vector j srv we wn) = length wn.
Proof. intros H. now apply mat_t_vec_len. Qed.

Lemma scatter_len (h : list lk) idx : forall x vel v, scatter h idx x vel = Some v -> length v = length vel.
Proof.
  induction idx as [|k t IH]; cbn [scatter]; intros x vel v H; [injection H as <-; auto|]. unfold obind in H.
  destruct (nth_error h k) as [l|]; [|discriminate]. destruct (take_at 0 _ x) as [a|]; [|discriminate]. destruct a as [|y a]; [eauto|].
  destruct (l_offset l) as [o|]; [|discriminate]. destruct (write_at o (y :: a) vel) as [vel1|] eqn:W; [|discriminate]. apply write_at_len in W. apply IH in H. congruence.
Qed.

Hypothesis LE : le_laws x_le.
Lemma joint_vel_inv c f (s : solver F) : inv c f s -> s_jidx s <> None -> Forall (fun r => length r = length (s_jvel s)) (firstn (s_rows s) (s_cmat s)) -> inv c f (joint_vel_ad s).
Proof.
  intros H J R. unfold joint_vel_ad. destruct (x_le _ _) as [x|] eqn:Q; [|exact H].
  destruct (s_jidx s) as [idx|] eqn:Jx; [|easy]. destruct (i_stale _ _ _ H idx Jx) as (_ & _ & _ & _ & Wn). rewrite <- Wn in R.
  destruct (le_sound _ LE _ _ _ _ (ad_matrix_square _ _ _ _ R) (ad_vector_len _ _ _ _ R) Q) as [Lx _].
  eapply inv_upd; [exact H|..]; try reflexivity; cbn; [congruence|]. intros K. cbn in *. rewrite Lx, Wn. now apply H.
Qed.
Lemma solve_rate_inv c f (s s' : solver F) : inv c f s -> ik_solve_rate c s = Some s' -> inv c f s'.
Proof.
  intros H K. unfold ik_solve_rate, obind in K. destruct (ik_eq c s) as [s1|] eqn:Q; [|discriminate].
  destruct (ik_eq_inv c f s s1 H Q) as (H1 & V1 & R1 & _). rewrite <- V1 in R1.
  assert (Jx : s_jidx (joint_vel_ad s1) = s_jidx s1) by (unfold joint_vel_ad; destruct (x_le _ _); reflexivity).
  destruct (s_jidx (joint_vel_ad s1)) as [idx|] eqn:J2; [|discriminate]. destruct (scatter _ _ _ _) as [v|] eqn:Sc; [|discriminate]. injection K as <-.
  assert (H2 : inv c f (joint_vel_ad s1)) by (apply joint_vel_inv; auto; congruence).
  eapply inv_upd; [exact H2|..]; try reflexivity; [exact (scatter_len _ _ _ _ _ Sc)|]. exact (i_dims _ _ _ H2).
Qed.
Lemma solve_one_inv c f (s : solver F) dis dt r : inv c f s -> ik_solve_one c s dis dt = Some r -> inv (fst (fst r)) f (snd (fst r)) /\ same_joints c (fst (fst r)).
Proof.
  intros H K. unfold ik_solve_one, obind in K. destruct (ik_solve_rate c s) as [s1|] eqn:A; [|discriminate]. apply (solve_rate_inv c f) in A; [|exact H].
  destruct (chain_cat_joint_dis_all _ _ _ _); [|discriminate]. destruct (chain_set_joint_dis_all c _) as [c1|] eqn:B; [|discriminate].
  destruct (chain_get_joint_dis_all _ _); [|discriminate]. destruct (chain_update_fk c1) as [c2|] eqn:C; [|discriminate]. injection K as <-. cbn.
  assert (J : same_joints c c2) by (eapply same_joints_trans; [eapply set_dis_joints; exact B|now apply update_fk_joints]).
  split; [|exact J]. eapply inv_same_joints; eauto.
Qed.
Lemma solve_loop_inv tol k : forall i rest c f (s : solver F) dis r, inv c f s -> solve_loop tol k i rest c s dis = Some r ->
  inv (fst (fst (fst r))) f (snd (fst (fst r))) /\ same_joints c (fst (fst (fst r))).
Proof.
  induction k as [|k IH]; cbn [solve_loop]; intros i rest c f s dis r H K; [injection K as <-; split; [exact H|reflexivity]|]. unfold obind in K.
  destruct (ik_solve_one c s dis _) as [r1|] eqn:A; [|discriminate]. apply (solve_one_inv c f) in A as [A1 A2]; [|exact H].
  destruct (match rest with Some _ => _ | None => _ end); [injection K as <-; auto|]. eapply IH in K as [K1 K2]; [|exact A1]. split; [exact K1|]. eapply same_joints_trans; eauto.
Qed.
Lemma alloc_srv_inv c f (s s' : solver F) l : inv c f s -> (l <> [] -> s_jidx s <> None) -> alloc_srv (s_set_cells l s) = Some s' -> inv c f s'.
Proof.
  intros H J K. unfold alloc_srv in K. cbn [s_cells s_set_cells] in K. destruct l as [|x l].
  - injection K as <-. destruct H as [A B C D G S M]. constructor; cbn; auto. intros Z. now destruct Z.
  - rewrite alloc_cmat_some in K.
    2:{ intros _. cbn. apply J. discriminate. } 2:{ intros idx Z. cbn in Z. apply (i_stale _ _ _ H idx Z). }
    cbn [s_cells length Nat.eqb] in K.
    destruct H as [A B C D G S M]. injection K as <-. constructor; cbn; auto.
    + intros Z. exfalso. apply J; [discriminate|exact Z].
    + intros _. unfold zeros. cbn. rewrite !repeat_length. repeat split; auto. constructor; [now rewrite repeat_length|]. constructor; [now rewrite repeat_length|]. constructor; [now rewrite repeat_length|]. apply Forall_repeat. now rewrite repeat_length.
Qed.
Lemma asked_other n mov (o : op F) f : match o with JReg _ _ | JUnreg _ | JRegAll _ => False | _ => True end -> forall i, asked n mov o f i = f i.
Proof. destruct o; cbn; intros H i'; try destruct H; reflexivity. Qed.

Lemma run_op_inv c f (s : solver F) o c' s' : inv c f s -> run_op c s o = Some (c', s') ->
  inv c' (asked (length (c_links c)) (movable c) o f) s' /\ same_joints c c'.
Proof.
  intros H K.
  assert (Ext : forall c1 s1 , match o with JReg _ _ | JUnreg _ | JRegAll _ => False | _ => True end -> inv c1 f s1 -> inv c1 (asked (length (c_links c)) (movable c) o f) s1).
  { intros c1 s1 Q Z. eapply inv_ext; [|exact Z]. intros. now rewrite asked_other. }
  destruct o; cbn [run_op] in K; unfold option_map in K.
  - destruct (joint_reg c s i w) as [r|] eqn:A; [|discriminate]. injection K as <- <-. split; [|reflexivity]. unfold joint_reg in A.
    destruct (Nat.ltb_spec i (length (c_links c))) as [Hi|Hi].
    + destruct (inv_jreg c f s i w true (fun k => if Nat.eqb k i then Some w else f k) H Hi) as (s1 & E1 & E2 & E3).
      { intros k ne. now rewrite (proj2 (Nat.eqb_neq k i) ne). } { now rewrite Nat.eqb_refl. } { unfold wt. now rewrite Nat.eqb_refl. }
      assert (r = (s1, true)) by congruence. subst r. eapply inv_ext; [|exact E2]. intros k Hk. cbn [asked]. rewrite (proj2 (Nat.ltb_lt _ _) Hi), andb_true_r. reflexivity.
    + unfold joint_reg_sw in A. rewrite (proj2 (Nat.ltb_ge _ _) Hi) in A. injection A as <-. eapply inv_ext; [|exact H]. intros k Hk. cbn [asked]. rewrite (proj2 (Nat.ltb_ge _ _) Hi), andb_false_r. reflexivity.
  - destruct (joint_unreg c s i) as [r|] eqn:A; [|discriminate]. injection K as <- <-. split; [|reflexivity]. unfold joint_unreg in A.
    destruct (Nat.ltb_spec i (length (c_links c))) as [Hi|Hi].
    + destruct (inv_jreg c f s i 0%num false (fun k => if Nat.eqb k i then None else f k) H Hi) as (s1 & E1 & E2 & E3).
      { intros k ne. now rewrite (proj2 (Nat.eqb_neq k i) ne). } { now rewrite Nat.eqb_refl. } { unfold wt. now rewrite Nat.eqb_refl. }
      assert (r = (s1, true)) by congruence. subst r. eapply inv_ext; [|exact E2]. intros k Hk. cbn [asked]. rewrite (proj2 (Nat.ltb_lt _ _) Hi), andb_true_r. reflexivity.
    + unfold joint_reg_sw in A. rewrite (proj2 (Nat.ltb_ge _ _) Hi) in A. injection A as <-. eapply inv_ext; [|exact H]. intros k Hk. cbn [asked]. rewrite (proj2 (Nat.ltb_ge _ _) Hi), andb_false_r. reflexivity.
  - destruct (joint_reg_all c s w) as [r|] eqn:A; [|discriminate]. injection K as <- <-. split; [|reflexivity].
    destruct (inv_reg_all c w (c_links c) 0 f s) as (s1 & E1 & _ & E2); auto. unfold joint_reg_all in A. assert (r = (s1, true)) by congruence. subst r.
    eapply inv_ext; [|exact E2]. intros k Hk. reflexivity.
  - destruct (has a s); [discriminate|]. destruct (cell_reg s a k attr m) as [s1|] eqn:A; [|discriminate]. injection K as <- <-. split; [|reflexivity].
    apply Ext; [exact Logic.I|]. unfold cell_reg in A. eapply alloc_srv_inv; [exact H| |exact A]. intros _ Z.
    unfold alloc_srv in A. cbn [s_cells s_set_cells] in A. rewrite (i_null _ _ _ H Z) in A. cbn in A. unfold alloc_cmat in A. cbn in A. rewrite Z in A. discriminate.
  - destruct (cell_unreg s a) as [s1|] eqn:A; [|discriminate]. injection K as <- <-. split; [|reflexivity]. apply Ext; [exact Logic.I|].
    unfold cell_unreg, obind in A. destruct (purge (s_cells s) a) as [l|] eqn:P; [|discriminate]. eapply alloc_srv_inv; [exact H| |exact A].
    intros _ Z. rewrite (i_null _ _ _ H Z) in P. discriminate.
  - destruct (has a s); [|discriminate]. injection K as <- <-. split; [|reflexivity]. apply Ext; [exact Logic.I|]. apply inv_cells; [exact H|apply map_length].
  - destruct (has a s); [|discriminate]. injection K as <- <-. split; [|reflexivity]. apply Ext; [exact Logic.I|]. apply inv_cells; [exact H|apply map_length].
  - destruct (has a s); [|discriminate]. injection K as <- <-. split; [|reflexivity]. apply Ext; [exact Logic.I|]. apply inv_cells; [exact H|apply map_length].
  - destruct (has a s); [|discriminate]. injection K as <- <-. split; [|reflexivity]. apply Ext; [exact Logic.I|]. apply inv_cells; [exact H|apply map_length].
  - injection K as <- <-. split; [|reflexivity]. apply Ext; [exact Logic.I|]. apply inv_cells; [exact H|apply map_length].
  - destruct (ik_bind c s) as [s1|] eqn:A; [|discriminate]. injection K as <- <-. split; [|reflexivity]. apply Ext; [exact Logic.I|].
    unfold ik_bind in A. destruct (bind_cells c (s_cells s)) as [l|] eqn:B; [|discriminate]. injection A as <-. apply inv_cells; [exact H|]. exact (same_cells_length _ _ (bind_cells_same _ _ _ B)).
  - injection K as <- <-. split; [|reflexivity]. apply Ext; [exact Logic.I|]. apply inv_cells; [exact H|apply map_length].
  - injection K as <- <-. split; [|reflexivity]. apply Ext; [exact Logic.I|]. unfold seq_set. generalize (sq_entries q). intros l. clear - H. revert s H.
    induction l as [|e l IH]; intros s H; cbn [fold_left]; [exact H|]. apply IH. unfold seq_entry. destruct (find_cell _ _); [|exact H]. apply inv_cells; [exact H|apply map_length].
  - destruct (ik_solve_rate c s) as [s1|] eqn:A; [|discriminate]. injection K as <- <-. split; [|reflexivity]. apply Ext; [exact Logic.I|]. eapply solve_rate_inv; eauto.
  - destruct (ik_solve_one c s dis dt) as [r|] eqn:A; [|discriminate]. injection K as K. apply (solve_one_inv c f) in A as [A1 A2]; [|exact H]. rewrite K in A1, A2. split; [|exact A2]. apply Ext; [exact Logic.I|exact A1].
  - destruct (ik_solve c s dis tol iter) as [r|] eqn:A; [|discriminate]. injection K as K. unfold ik_solve, obind in A. destruct (chain_get_joint_dis_all c dis); [|discriminate].
    apply (solve_loop_inv _ _ _ _ _ f) in A as [A1 A2]; [|apply inv_cells; [exact H|apply map_length]]. rewrite K in A1, A2. split; [|exact A2]. apply Ext; [exact Logic.I|exact A1].
  - destruct (chain_fk c v) as [c1|] eqn:A; [|discriminate]. injection K as <- <-. unfold chain_fk, obind in A. destruct (chain_set_joint_dis_all c v) as [c2|] eqn:B; [|discriminate].
    assert (J : same_joints c c1) by (eapply same_joints_trans; [eapply set_dis_joints; exact B|now apply update_fk_joints]). split; [|exact J].
    apply Ext; [exact Logic.I|]. eapply inv_same_joints; eauto.
Qed.
Lemma asked_ext n n' mov mov' (o : op F) f f' : n = n' -> (forall i, mov i = mov' i) -> (forall i, f i = f' i) -> forall i, asked n mov o f i = asked n' mov' o f' i.
Proof. intros <- M G i'. destruct o; cbn; rewrite ?M, ?G; reflexivity. Qed.
Lemma run_inv ops : forall c f (s : solver F) c' s', inv c f s -> run c s ops = Some (c', s') ->
  inv c' (fold_left (fun f o => asked (length (c_links c)) (movable c) o f) ops f) s' /\ same_joints c c'.
Proof.
  induction ops as [|o ops IH]; cbn [run fold_left]; intros c f s c' s' H K; [injection K as <- <-; split; [exact H|reflexivity]|]. unfold obind in K.
  destruct (run_op c s o) as [[c1 s1]|] eqn:A; [|discriminate]. destruct (run_op_inv c f s o c1 s1 H A) as [H1 J1].
  destruct (IH _ _ _ _ _ H1 K) as [H2 J2]. split; [|eapply same_joints_trans; eauto]. eapply inv_ext; [|exact H2]. intros i _. cbn [fst].
  assert (X : forall l (g g' : nat -> option F), (forall i, g i = g' i) -> forall i,
    fold_left (fun f o => asked (length (c_links c1)) (movable c1) o f) l g i = fold_left (fun f o => asked (length (c_links c)) (movable c) o f) l g' i).
  { induction l as [|x l IHl]; intros g g' G j; cbn [fold_left]; [apply G|]. apply IHl. intros k. apply asked_ext; [now apply same_joints_len|intros; now apply same_joints_movable|exact G]. }
  apply X. reflexivity.
Qed.
End Dims.
