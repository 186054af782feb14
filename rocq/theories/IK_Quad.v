(** * IK_Quad: the linear equation of the damped inverse kinematics step is that of a quadratic minimisation. *)
From Coq Require Import List Arith Lia Bool Field.
From Verif Require Import Num NumFacts Vec Motor_Model Joint_Model Body_Model Tree Link_Model Jacobi_Model IK_Model IK_Laws IK_Index IK_Dims.
Import ListNotations.

Section Quad.
Context {F : Type} {N : Num F} {L : NumLaws F N}.
Add Field FFieldQ : num_field.
Local Open Scope num_scope.

Lemma dot_comm (a : list F) : forall b, dot a b = dot b a.
Proof. induction a as [|x a IH]; intros [|y b]; cbn; auto. rewrite IH. ring. Qed.
Lemma dot_vadd (a : list F) : forall b z, length a = length b -> dot (vadd a b) z = dot a z + dot b z.
Proof. induction a as [|x a IH]; intros [|y b] [|t z] H; cbn in *; try discriminate; try ring. rewrite IH by congruence. ring. Qed.
Lemma dot_vscale k (a : list F) : forall z, dot (vscale k a) z = k * dot a z.
Proof. induction a as [|x a IH]; intros [|t z]; cbn; try ring. fold (vscale k a). rewrite IH. ring. Qed.
Lemma vscale_len k (a : list F) : length (vscale k a) = length a. Proof. apply map_length. Qed.
Lemma dot_zeros_l n : forall a : list F, dot (zeros n) a = 0.
Proof. induction n as [|n IH]; intros [|x a]; cbn; auto. fold (zeros (F:=F) n). rewrite IH. ring. Qed.
Lemma dot_mat_t_vec n (m : list (list F)) : Forall (fun r => length r = n) m -> forall v z, dot (mat_t_vec n m v) z = dot (mat_vec m z) v.
Proof.
  induction 1 as [|r m H M IH]; intros [|x v] z; cbn [mat_t_vec mat_vec map dot]; try apply dot_zeros_l.
  rewrite dot_vadd by (rewrite vscale_len, mat_t_vec_len; auto). rewrite dot_vscale, IH. unfold mat_vec. ring.
Qed.
Lemma nth_vadd j (a : list F) : forall b, length a = length b -> nth j (vadd a b) 0 = nth j a 0 + nth j b 0.
Proof. revert j. induction a as [|x a IH]; intros [|j] [|y b] H; cbn in *; try discriminate; try ring. apply IH. congruence. Qed.
Lemma nth_vscale j k (a : list F) : nth j (vscale k a) 0 = k * nth j a 0.
Proof. revert j. induction a as [|x a IH]; intros [|j]; cbn; try ring. apply IH. Qed.
Lemma nth_zeros j n : nth j (zeros n) 0 = (0 : F).
Proof. revert j. induction n as [|n IH]; intros [|j]; cbn; auto. Qed.
Lemma nth_mat_t_vec n j (m : list (list F)) : Forall (fun r => length r = n) m -> forall v, nth j (mat_t_vec n m v) 0 = dot (column m j) v.
Proof.
  induction 1 as [|r m H M IH]; intros [|x v]; cbn [mat_t_vec column map dot]; try apply nth_zeros.
  rewrite nth_vadd by (rewrite vscale_len, mat_t_vec_len; auto). rewrite nth_vscale, IH. unfold column. ring.
Qed.
Lemma map_nth_seq (l : list F) : map (fun j => nth j l 0) (seq 0 (length l)) = l.
Proof.
  apply (nth_ext _ _ 0 0); rewrite map_length, seq_length; auto. intros j Hj.
  rewrite (nth_indep _ _ (nth 0 l 0)) by (rewrite map_length, seq_length; exact Hj). rewrite (map_nth (fun j => nth j l 0)). now rewrite seq_nth.
Qed.
Lemma dot_vamp (w : list F) : forall a b, dot a (vamp w b) = dot b (vamp w a).
Proof. induction w as [|x w IH]; intros [|y a] [|z b]; cbn; auto. rewrite IH. ring. Qed.
Lemma mat_vec_quad n (m : list (list F)) w x : Forall (fun r => length r = n) m ->
  mat_vec (mat_t_quad n m w) x = mat_t_vec n m (vamp w (mat_vec m x)).
Proof.
  intros M. transitivity (map (fun j => nth j (mat_t_vec n m (vamp w (mat_vec m x))) 0) (seq 0 n)).
  - unfold mat_vec at 1, mat_t_quad. rewrite map_map. apply map_ext. intros j. rewrite dot_mat_t_vec, nth_mat_t_vec by exact M. apply dot_vamp.
  - pose proof (map_nth_seq (mat_t_vec n m (vamp w (mat_vec m x)))) as Q. rewrite (mat_t_vec_len n m _ M) in Q. exact Q.
Qed.
Lemma dot_set_nth i e (r : list F) : forall x, (i < length r)%nat -> (i < length x)%nat -> dot (set_nth i (nth i r 0 + e) r) x = dot r x + e * nth i x 0.
Proof.
  revert i. induction r as [|y r IH]; intros [|i] [|z x] H K; cbn in *; try lia; [ring|]. rewrite IH by lia. ring.
Qed.
Lemma mat_vec_diag n x (m : list (list F)) : Forall (fun r => length r = n) m -> length x = n -> forall i d, length d = length m -> (i + length m <= n)%nat ->
  mat_vec (add_diag i m d) x = vadd (mat_vec m x) (vamp d (skipn i x)).
Proof.
  intros M Lx. induction M as [|r m H M IH]; intros i [|e d] D K; cbn [length] in *; try discriminate; [reflexivity|].
  assert (S : skipn i x = nth i x 0 :: skipn (S i) x).
  { assert (K' : (i < length x)%nat) by lia. clear - K'. revert i K'. induction x as [|y x IH]; intros [|i] K; cbn in *; try lia; auto. apply IH. lia. }
  rewrite S. cbn [add_diag mat_vec map vamp vadd]. rewrite dot_set_nth by lia. f_equal. apply IH; lia.
Qed.
Definition damping (srv we : list F) : F := dot srv (vamp srv we).
Lemma mat_vec_ad (j : list (list F)) srv we wn x : Forall (fun r => length r = length wn) j -> length x = length wn ->
  mat_vec (ad_matrix j srv we wn) x = vadd (mat_t_vec (length wn) j (vamp we (mat_vec j x))) (vamp (map (fun w => w + damping srv we) wn) x).
Proof.
  intros J X. unfold ad_matrix. rewrite (mat_vec_diag (length wn)); auto.
  - rewrite mat_vec_quad by exact J. reflexivity.
  - unfold mat_t_quad. rewrite Forall_map. apply Forall_forall. intros i _. now apply mat_t_vec_len.
  - unfold mat_t_quad. now rewrite !map_length, seq_length.
  - unfold mat_t_quad. rewrite map_length, seq_length. cbn. lia.
Qed.

(** Weighted sums of squares. *)
Fixpoint wsum (w e : list F) : F := match w, e with x :: w', y :: e' => x * (y * y) + wsum w' e' | _, _ => 0 end.
Fixpoint vsub (a b : list F) : list F := match a, b with x :: a', y :: b' => (x - y) :: vsub a' b' | _, _ => [] end.
Lemma vsub_len (a : list F) : forall b, length a = length b -> length (vsub a b) = length a.
Proof. induction a as [|x a IH]; intros [|y b] H; cbn in *; try discriminate; auto. Qed.
Lemma vsub_add (a : list F) : forall b, length a = length b -> vadd a (vsub b a) = b.
Proof. induction a as [|x a IH]; intros [|y b] H; cbn in *; try discriminate; auto. rewrite IH by congruence. f_equal. ring. Qed.
Lemma wsum_nonneg w : forall e, Forall (fun x => 0 <= x) w -> 0 <= wsum w e.
Proof. induction w as [|x w IH]; intros [|y e] H; cbn; try apply nle_refl. inversion H; subst. apply nle_0_add; [apply nle_0_mul; auto; apply nle_0_sqr|auto]. Qed.
Lemma wsum_zero w : forall e, Forall (fun x => 0 < x) w -> length e = length w -> wsum w e = 0 -> e = zeros (length w).
Proof.
  induction w as [|x w IH]; intros [|y e] H Le Z; cbn in *; try discriminate; auto. inversion H as [|? ? Hx Hw]; subst.
  assert (P : Forall (fun x => 0 <= x) w) by (eapply Forall_impl; [|exact Hw]; intros; now apply nlt_le).
  destruct (nadd_nonneg_eq_0 _ _ (nle_0_mul _ _ (nlt_le _ _ Hx) (nle_0_sqr y)) (wsum_nonneg w e P) Z) as [A B].
  apply nmul_eq_0 in A as [A|A]; [now apply nlt_neq' in Hx|]. apply nsqr_eq_0 in A. subst y. unfold zeros. cbn. f_equal. apply IH; auto.
Qed.
Lemma wsum_add w : forall a b, length a = length w -> length b = length w -> wsum w (vadd a b) = wsum w a + (1 + 1) * dot b (vamp w a) + wsum w b.
Proof. induction w as [|x w IH]; intros [|y a] [|z b] A B; cbn in *; try discriminate; try ring. rewrite IH by congruence. ring. Qed.
Lemma dot_vadd_r (a : list F) : forall x y, length x = length y -> dot a (vadd x y) = dot a x + dot a y.
Proof. intros x y H. rewrite dot_comm, dot_vadd, !(dot_comm a) by exact H. reflexivity. Qed.
Lemma mat_vec_vadd (j : list (list F)) x y : length x = length y -> mat_vec j (vadd x y) = vadd (mat_vec j x) (mat_vec j y).
Proof. intros H. induction j as [|r j IH]; cbn; auto. rewrite dot_vadd_r by exact H. f_equal. exact IH. Qed.
Lemma vsub_vadd (a : list F) : forall b s, length b = length a -> length s = length a -> vsub (vadd a b) s = vadd (vsub a s) b.
Proof. induction a as [|x a IH]; intros [|y b] [|z s] H K; cbn in *; try discriminate; auto. rewrite IH by congruence. f_equal. ring. Qed.
Lemma dot_vsub_vamp w : forall b a s, length a = length w -> length s = length w -> length b = length w -> dot b (vamp w (vsub a s)) = dot b (vamp w a) - dot b (vamp w s).
Proof. induction w as [|x w IH]; intros [|y b] [|z a] [|t s] A S B; cbn in *; try discriminate; try ring. rewrite IH by congruence. ring. Qed.
Lemma vamp_comm (a : list F) : forall b, vamp a b = vamp b a.
Proof. induction a as [|x a IH]; intros [|y b]; cbn; auto. rewrite IH. f_equal. ring. Qed.
Lemma vamp_len (a : list F) : forall b, length a = length b -> length (vamp a b) = length a.
Proof. induction a as [|x a IH]; intros [|y b] H; cbn in *; try discriminate; auto. Qed.
Lemma mat_vec_len (j : list (list F)) x : length (mat_vec j x) = length j. Proof. apply map_length. Qed.

(** The weighted squared constraint error plus the weighted squared norm. *)
Definition cost (j : list (list F)) (srv we d x : list F) : F := wsum we (vsub (mat_vec j x) srv) + wsum d x.

Section Min.
Context (j : list (list F)) (srv we wn : list F)
  (J : Forall (fun r => length r = length wn) j) (LS : length srv = length j) (LW : length we = length j).
Let d := map (fun w => w + damping srv we) wn.
Let Ld : length d = length wn. Proof. apply map_length. Qed.
Lemma bilinear x z : length x = length wn -> length z = length wn ->
  dot z (mat_vec (ad_matrix j srv we wn) x) = dot (mat_vec j z) (vamp we (mat_vec j x)) + dot z (vamp d x).
Proof.
  intros X Z. rewrite mat_vec_ad by auto. fold d. rewrite dot_vadd_r by (rewrite mat_t_vec_len by exact J; rewrite vamp_len; lia).
  rewrite (dot_comm z (mat_t_vec _ _ _)), dot_mat_t_vec by exact J. reflexivity.
Qed.
Lemma cost_expand x y : length x = length wn -> length y = length wn ->
  mat_vec (ad_matrix j srv we wn) x = ad_vector j srv we wn ->
  cost j srv we d y = cost j srv we d x + (wsum we (mat_vec j (vsub y x)) + wsum d (vsub y x)).
Proof.
  intros X Y H. set (z := vsub y x). assert (Z : length z = length wn) by (unfold z; rewrite vsub_len; lia).
  assert (Yz : y = vadd x z) by (unfold z; now rewrite vsub_add by lia). rewrite Yz. unfold cost.
  rewrite mat_vec_vadd by lia. rewrite vsub_vadd by (rewrite !mat_vec_len; lia).
  rewrite !wsum_add by (rewrite ?vsub_len, ?mat_vec_len; rewrite ?mat_vec_len; lia).
  rewrite dot_vsub_vamp by (rewrite ?mat_vec_len; lia).
  pose proof (f_equal (dot z) H) as B. rewrite bilinear in B by lia. unfold ad_vector in B. rewrite (dot_comm z (mat_t_vec _ _ _)), dot_mat_t_vec in B by exact J.
  rewrite (vamp_comm srv we) in B.
  assert (B' : dot (mat_vec j z) (vamp we (mat_vec j x)) = dot (mat_vec j z) (vamp we srv) - dot z (vamp d x)) by (rewrite <- B; ring).
  rewrite B'. ring.
Qed.
Lemma damping_nonneg : Forall (fun x => 0 <= x) we -> 0 <= damping srv we.
Proof.
  unfold damping. generalize we. clear -L. induction srv as [|x t IH]; intros [|y w] H; cbn; try apply nle_refl. inversion H; subst.
  apply nle_0_add; [|auto]. replace (x * (x * y)) with (y * (x * x)) by ring. apply nle_0_mul; auto. apply nle_0_sqr.
Qed.
Lemma d_pos : Forall (fun x => 0 <= x) we -> Forall (fun x => 0 < x) wn -> Forall (fun x => 0 < x) d.
Proof.
  intros A B. unfold d. rewrite Forall_map. eapply Forall_impl; [|exact B]. intros x Hx. apply nlt_0_add_l; [exact Hx|now apply damping_nonneg].
Qed.
Lemma kernel : Forall (fun x => 0 <= x) we -> Forall (fun x => 0 < x) wn ->
  forall x, length x = length wn -> mat_vec (ad_matrix j srv we wn) x = zeros (length wn) -> x = zeros (length wn).
Proof.
  intros A B x X H. pose proof (f_equal (dot x) H) as K. rewrite bilinear in K by auto. rewrite (dot_comm x (zeros _)), dot_zeros_l in K.
  assert (Sq : forall w a : list F, dot a (vamp w a) = wsum w a).
  { clear -L. induction w as [|p w IH]; intros [|q a]; cbn; auto. rewrite IH. ring. }
  rewrite !Sq in K. assert (P : Forall (fun x => 0 <= x) d) by (eapply Forall_impl; [|exact (d_pos A B)]; intros; now apply nlt_le).
  destruct (nadd_nonneg_eq_0 _ _ (wsum_nonneg _ _ A) (wsum_nonneg _ _ P) K) as [_ K2].
  rewrite (wsum_zero d x (d_pos A B)) by (rewrite ?Ld; auto). now rewrite Ld.
Qed.
Lemma vsub_zeros (a : list F) : forall b, length a = length b -> vsub a b = zeros (length a) -> a = b.
Proof.
  induction a as [|x a IH]; intros [|y b] H K; cbn in *; try discriminate; auto. injection K as K1 K2. f_equal; [|apply IH; auto].
  replace x with (x - y + y) by ring. rewrite K1. ring.
Qed.
Lemma minimiser x y : Forall (fun x => 0 <= x) we -> Forall (fun x => 0 < x) wn -> length x = length wn -> length y = length wn ->
  mat_vec (ad_matrix j srv we wn) x = ad_vector j srv we wn -> cost j srv we d x <= cost j srv we d y /\ (cost j srv we d y = cost j srv we d x -> y = x).
Proof.
  intros A B X Y H. pose proof (cost_expand x y X Y H) as Q. assert (P : Forall (fun x => 0 <= x) d) by (eapply Forall_impl; [|exact (d_pos A B)]; intros; now apply nlt_le).
  set (u := wsum we (mat_vec j (vsub y x))) in *. set (v := wsum d (vsub y x)) in *. assert (U : 0 <= u) by now apply wsum_nonneg. assert (V : 0 <= v) by now apply wsum_nonneg.
  split.
  - rewrite Q. apply (proj2 (nle_sub_iff _ _)). replace (cost j srv we d x + (u + v) - cost j srv we d x) with (u + v) by ring. now apply nle_0_add.
  - intros K. assert (Z : u + v = 0). { transitivity (cost j srv we d y - cost j srv we d x); [rewrite Q; ring|rewrite K; ring]. }
    destruct (nadd_nonneg_eq_0 _ _ U V Z) as [_ Z2]. apply vsub_zeros; [lia|]. rewrite (wsum_zero d (vsub y x) (d_pos A B)); auto; rewrite ?vsub_len, ?Ld; try lia. f_equal; lia.
Qed.
End Min.
End Quad.
