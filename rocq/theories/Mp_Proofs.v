(** * Mp_Proofs: the accumulated moments of rk_mp. *)
From Coq Require Import List Arith ZArith Lia Permutation Field.
From Verif Require Import Num NumFacts Vec VecFacts Motor_Model Joint_Model Joint_Spec Joint_Proofs Body_Model Body_Proofs
  Tree Tree_Proofs Link_Model Link_Spec Link_Proofs Chain_Proofs Kin_Spec Kin_Proofs Mp_Model Mp_Spec.
Import ListNotations.

Section MpP.
Context {F : Type} {N : Num F} {L : NumLaws F N} {E : Ext F} {X : ExtLaws F N E}.
Add Field FFieldMp : num_field.
Local Open Scope num_scope.
Local Ltac vring := intros; vdestruct; vunfold; vsplit; ring.

Lemma ids_spec (inp : list Z) : exists pre post, inp = pre ++ post /\ (forall z, In z pre -> (0 <= z)%Z) /\
  (post = [] \/ exists z t, post = z :: t /\ (z < 0)%Z) /\ rkmp_ids inp = map Z.to_nat pre.
Proof.
  induction inp as [|z t (pre & post & E1 & P & Q & R)].
  - exists [], []. repeat split; auto; intros z [].
  - cbn [rkmp_ids]. destruct (z <? 0)%Z eqn:S.
    + apply Z.ltb_lt in S. exists [], (z :: t). repeat split; [intros y []|]. right. eauto.
    + apply Z.ltb_ge in S. exists (z :: pre), post. subst t. repeat split; auto; [|cbn; now rewrite R].
      intros y [<-|I]; auto.
Qed.
Lemma shift_same (i : mat3 F) m s : rkmp_shift i m s = m3add i (point_inertia m s).
Proof. exact (shift_inertia_spec i m s). Qed.
Lemma loop_links (h : list (link F)) idx a r : rkmp_loop h idx a = Some r ->
  exists ls, map (nth_error h) idx = map Some ls /\ r = fold_left rkmp_acc ls a.
Proof.
  revert a. induction idx as [|i t IH]; intros a H; cbn in H.
  - injection H as <-. now exists [].
  - destruct (nth_error h i) as [l|] eqn:Hl; [|discriminate]. destruct (IH _ H) as (ls & A & B). exists (l :: ls). cbn. now rewrite Hl, A.
Qed.
Lemma loop_some (h : list (link F)) idx ls a : map (nth_error h) idx = map Some ls -> rkmp_loop h idx a = Some (fold_left rkmp_acc ls a).
Proof.
  revert idx a. induction ls as [|l ls IH]; intros [|i t] a H; try discriminate; [reflexivity|].
  cbn in H. injection H as Hl H. cbn. rewrite Hl. auto.
Qed.
Definition posed (l : link F) : Prop := b_wcom (l_body l) = xform (l_frame l) (l_com l).
Lemma fold_moments (ls : list (link F)) (a : mp F) : (forall l, In l ls -> posed l) ->
  let r := fold_left rkmp_acc ls a in let s := moments (map link_wmp ls) in
  mp_mass r = mp_mass a + fst (fst s) /\ mp_com r = v3add (mp_com a) (snd (fst s)) /\ mp_inertia r = m3add (mp_inertia a) (snd s).
Proof.
  revert a. induction ls as [|l ls IH]; intros a K; cbn zeta.
  - cbn. repeat split; [ring| |]; destruct a as [m c i]; cbn; clear K; vring.
  - destruct (IH (rkmp_acc a l)) as (A & B & C); [intros k I; apply K; now right|]. cbn [fold_left]. rewrite A, B, C.
    specialize (K l (or_introl eq_refl)). unfold posed in K. unfold moments. cbn [map fst snd]. unfold nsum, v3sum, m3sum. cbn [fold_right].
    change (mp_mass (link_wmp l)) with (l_mass l). change (mp_com (link_wmp l)) with (xform (l_frame l) (l_com l)).
    unfold rkmp_acc, rkmp_cat. cbn [mp_mass mp_com mp_inertia]. rewrite K. split; [ring|].
    unfold mp_org_inertia. change (mp_mass (link_wmp l)) with (l_mass l). change (mp_com (link_wmp l)) with (xform (l_frame l) (l_com l)).
    change (mp_inertia (link_wmp l)) with (m3rot (fatt (l_frame l)) (mp_inertia (b_mp (l_body l)))). rewrite shift_same, shift_inertia_spec.
    split.
    + generalize (fold_right v3add v3zero (map (fun m => v3scale (mp_mass m) (mp_com m)) (map link_wmp ls))) (xform (l_frame l) (l_com l)) (l_mass l). destruct a as [m0 c0 i0]. cbn. clear -L. vring.
    + generalize (fold_right m3add m3zero (map (fun m => mp_shift_inertia (mp_inertia m) (mp_mass m) (mp_com m)) (map link_wmp ls)))
        (m3rot (fatt (l_frame l)) (mp_inertia (b_mp (l_body l)))) (point_inertia (l_mass l) (xform (l_frame l) (l_com l))). destruct a as [m0 c0 i0]. cbn. clear -L. vring.
Qed.
Lemma nontiny_neq_0 (k : F) : ntiny x_tol k = false -> k <> 0.
Proof.
  intros T Q. rewrite Q in T. unfold ntiny in T. pose proof x_tol_pos as P. replace (nabs (F:=F) 0) with (0 : F) in T; [unfold nltb in T; unfold nlt in P; rewrite P in T; discriminate|].
  unfold nabs. destruct (nleb 0 0); ring.
Qed.
Lemma close_moments (a : mp F) : ntiny x_tol (mp_mass a) = false ->
  mp_mass (rkmp_close a) = mp_mass a /\ v3scale (mp_mass a) (mp_com (rkmp_close a)) = mp_com a /\ mp_org_inertia (rkmp_close a) = mp_inertia a.
Proof.
  intros T. pose proof (nontiny_neq_0 _ T) as Z.
  unfold rkmp_close. rewrite T. cbn zeta. cbn [mp_mass mp_com mp_inertia]. split; [reflexivity|]. split.
  - destruct a as [m c i]. cbn in *. clear T. destruct c. vunfold. vsplit; field; exact Z.
  - unfold mp_org_inertia. cbn [mp_mass mp_com mp_inertia]. rewrite shift_inertia_spec, shift_same.
    assert (K : forall k (u : vec3 F), point_inertia (- k) (v3opp u) = m3scale (- (1 : F))%num (point_inertia k u)) by (unfold point_inertia; clear -L; vring).
    rewrite K. generalize (point_inertia (mp_mass a) (v3div (mp_com a) (mp_mass a))) (mp_inertia a). clear -L. vring.
Qed.

(** Motion from moments. *)
Lemma p_of (m : mp F) v w : mot_p m v w = v3add (v3scale (mp_mass m) v) (v3cross w (v3scale (mp_mass m) (mp_com m))).
Proof. unfold mot_p. destruct m as [m c i]. cbn. vring. Qed.
Lemma l_of (m : mp F) v w : mot_l m v w = v3add (v3cross (v3scale (mp_mass m) (mp_com m)) v) (m3v (mp_org_inertia m) w).
Proof. unfold mot_l, mot_p, mp_org_inertia. rewrite shift_inertia_spec. unfold point_inertia. destruct m as [m c i]. cbn. vring. Qed.
Lemma e_of (m : mp F) v w : mot_e m v w = mp_mass m * v3sqr v + (1+1) * v3dot v (v3cross w (v3scale (mp_mass m) (mp_com m))) + v3dot w (m3v (mp_org_inertia m) w).
Proof. unfold mot_e, mp_org_inertia. rewrite shift_inertia_spec. unfold point_inertia. destruct m as [m c i]. cbn. vdestruct. vunfold. ring. Qed.
Lemma moves_of_moments (r : mp F) ms : (mp_mass r, v3scale (mp_mass r) (mp_com r), mp_org_inertia r) = moments ms -> moves_like r ms.
Proof.
  intros M. injection M as A B C. split; [exact A|]. intros v w. rewrite p_of, l_of, e_of, B, C, A. clear A B C.
  induction ms as [|m ms (I1 & I2 & I3)].
  - cbn. repeat split; vdestruct; vunfold; vsplit; ring.
  - unfold nsum, v3sum, m3sum in *. cbn [map fold_right]. rewrite <- I1, <- I2, <- I3, p_of, l_of, e_of. clear I1 I2 I3.
    generalize (fold_right nadd 0 (map mp_mass ms)) (fold_right v3add v3zero (map (fun m => v3scale (mp_mass m) (mp_com m)) ms))
      (fold_right m3add m3zero (map mp_org_inertia ms)) (v3scale (mp_mass m) (mp_com m)) (mp_org_inertia m) (mp_mass m). intros a b c d e k.
    split; [vring|]. split; [vring|]. vdestruct; vunfold; ring.
Qed.
(** A mass property is determined by how it moves. *)
Lemma moves_like_unique (r r' : mp F) ms : mp_mass r <> 0 -> moves_like r ms -> moves_like r' ms -> r' = r.
Proof.
  intros Z (A & B) (A' & B'). assert (M : mp_mass r' = mp_mass r) by congruence.
  assert (BB : forall v w, mot_p r' v w = mot_p r v w /\ mot_l r' v w = mot_l r v w).
  { intros v w. destruct (B v w) as (P & Q & _). destruct (B' v w) as (P' & Q' & _). split; congruence. }
  clear A A' B B'.
  assert (P0 : forall w, v3cross w (v3scale (mp_mass r') (mp_com r')) = v3cross w (v3scale (mp_mass r) (mp_com r))).
  { intros w. pose proof (proj1 (BB v3zero w)) as Y. rewrite !p_of in Y.
    assert (K : forall k (u : vec3 F), v3add (v3scale k v3zero) u = u) by (clear -L; vring). now rewrite !K in Y. }
  assert (L0 : forall w, m3v (mp_org_inertia r') w = m3v (mp_org_inertia r) w).
  { intros w. pose proof (proj2 (BB v3zero w)) as Y. rewrite !l_of in Y.
    assert (K : forall u t : vec3 F, v3add (v3cross u v3zero) t = t) by (clear -L; vring). now rewrite !K in Y. }
  apply mp_ext; [exact Z|exact M| |].
  - revert P0. generalize (v3scale (mp_mass r') (mp_com r')) (v3scale (mp_mass r) (mp_com r)). clear -L. intros [a b c] [a' b' c'] P0.
    pose proof (f_equal (fun u => vy u) (P0 (V3 0 0 1))) as Y1. pose proof (f_equal (fun u => vx u) (P0 (V3 0 0 1))) as Y2. pose proof (f_equal (fun u => vx u) (P0 (V3 0 1 0))) as Y3. revert Y1 Y2 Y3. clear P0. vunfold. intros Y1 Y2 Y3. f_equal.
    + transitivity (1 * a - 0 * c); [ring|]. rewrite Y1. ring.
    + transitivity (- (0 * c - 1 * b)); [ring|]. rewrite Y2. ring.
    + transitivity (1 * c - 0 * b); [ring|]. rewrite Y3. ring.
  - now apply m3_ext_v.
Qed.

(** The whole computation. *)
Lemma calc_moments (ls : list (link F)) a : (forall l, In l ls -> posed l) -> a = fold_left rkmp_acc ls (MP 0 v3zero m3zero) -> ntiny x_tol (mp_mass a) = false ->
  (mp_mass (rkmp_close a), v3scale (mp_mass (rkmp_close a)) (mp_com (rkmp_close a)), mp_org_inertia (rkmp_close a)) = moments (map link_wmp ls).
Proof.
  intros K A T. destruct (close_moments a T) as (P & Q & R). rewrite P, Q, R. destruct (fold_moments ls (MP 0 v3zero m3zero) K) as (P1 & Q1 & R1). rewrite <- A in P1, Q1, R1.
  cbn [mp_mass mp_com mp_inertia] in *. rewrite P1, Q1, R1. destruct (moments (map link_wmp ls)) as [[m c] i]. cbn [fst snd].
  clear -L. f_equal; [f_equal|]; [ring|vring|vring].
Qed.
Lemma rkmp_moments (h : list (link F)) inp c r : c_links c = h -> frames_ok h -> rkmp_main c inp = Some (Some r) -> ntiny x_tol (mp_mass r) = false ->
  exists ls, chosen h inp ls /\ ls <> [] /\ (mp_mass r, v3scale (mp_mass r) (mp_com r), mp_org_inertia r) = moments (map link_wmp ls).
Proof.
  intros <- FO H T. unfold rkmp_main in H. destruct (ids_spec inp) as (pre & post & A & B & C & D). destruct (rkmp_ids inp) as [|i t] eqn:I; [discriminate|].
  unfold rkmp_calc in H. destruct (rkmp_loop (c_links c) (i :: t) (MP 0 v3zero m3zero)) as [a|] eqn:LO; [|discriminate]. cbn [option_map] in H. injection H as <-.
  destruct (loop_links _ _ _ _ LO) as (ls & Q & R). exists ls. split; [|split].
  - exists pre, post. repeat split; auto. rewrite D, map_map in Q. exact Q.
  - destruct ls; [discriminate|congruence].
  - apply calc_moments; auto. intros l Il. destruct (In_nth_error _ _ (in_map Some _ _ Il)) as (n & Hn). rewrite <- Q, nth_error_map in Hn.
    destruct (nth_error (i :: t) n) as [k|]; [|discriminate]. cbn in Hn. injection Hn as Hn. apply (FO k l Hn).
Qed.
(** Conversely, a choice of existing links is computed. *)
Lemma rkmp_defined (c : chain F) inp ls : chosen (c_links c) inp ls -> ls <> [] -> exists r, rkmp_main c inp = Some (Some r).
Proof.
  intros (pre & post & A & B & C & D) NE. assert (I : rkmp_ids inp = map Z.to_nat pre).
  { subst inp. clear D. induction pre as [|z t IH]; cbn.
    - destruct C as [->|(z & t & -> & Z)]; [reflexivity|]. cbn. now apply Z.ltb_lt in Z as ->.
    - assert (Z : (0 <= z)%Z) by (apply B; now left). apply Z.ltb_ge in Z as ->. rewrite IH; [reflexivity|]. intros y Y. apply B. now right. }
  unfold rkmp_main. rewrite I. destruct pre as [|z t]; [destruct ls; [congruence|discriminate]|]. cbn [map]. unfold rkmp_calc.
  rewrite (loop_some _ _ ls); [cbn; eauto|]. change (Z.to_nat z :: map Z.to_nat t) with (map Z.to_nat (z :: t)). now rewrite map_map.
Qed.
(** Two orders of the same input choose the same links. *)
Lemma perm_somes (A B : Type) (f : A -> option B) l l' ls : Permutation l l' -> map f l = map Some ls -> exists ls', map f l' = map Some ls' /\ Permutation ls ls'.
Proof.
  intros P. revert ls. induction P as [|a t t' P IH|a b t|t t' t'' P1 IH1 P2 IH2]; intros ls H.
  - exists ls. split; auto.
  - destruct ls as [|x ls]; [discriminate|]. cbn in H. injection H as Ha H. destruct (IH ls H) as (ls' & A1 & A2). exists (x :: ls'). cbn. rewrite Ha, A1. auto.
  - destruct ls as [|x [|y ls]]; try discriminate. cbn in H. injection H as Hb Ha H. exists (y :: x :: ls). cbn. rewrite Ha, Hb, H. split; [reflexivity|constructor].
  - destruct (IH1 ls H) as (l1 & A1 & A2). destruct (IH2 l1 A1) as (l2 & A3 & A4). exists l2. split; [exact A3|]. eapply perm_trans; eauto.
Qed.
Lemma ids_all (inp : list Z) : (forall z, In z inp -> (0 <= z)%Z) -> rkmp_ids inp = map Z.to_nat inp.
Proof.
  induction inp as [|z t IH]; intros P; [reflexivity|]. cbn. assert (Z : (0 <= z)%Z) by (apply P; now left). apply Z.ltb_ge in Z as ->. rewrite IH; auto. intros y I. apply P. now right.
Qed.
Lemma rkmp_perm (c : chain F) inp inp' r r' : (forall z, In z inp -> (0 <= z)%Z) -> Permutation inp inp' ->
  rkmp_main c inp = Some (Some r) -> rkmp_main c inp' = Some (Some r') -> exists ls ls',
  (forall l, In l ls -> exists k, nth_error (c_links c) k = Some l) /\ (forall l, In l ls' -> exists k, nth_error (c_links c) k = Some l) /\ Permutation ls ls' /\
  r = rkmp_close (fold_left rkmp_acc ls (MP 0 v3zero m3zero)) /\ r' = rkmp_close (fold_left rkmp_acc ls' (MP 0 v3zero m3zero)).
Proof.
  intros P PE H H'. assert (P' : forall z, In z inp' -> (0 <= z)%Z) by (intros z I; apply P; eapply Permutation_in; [apply Permutation_sym; exact PE|exact I]).
  assert (G : forall i x, (forall z, In z i -> (0 <= z)%Z) -> rkmp_main c i = Some (Some x) -> exists ls, map (nth_error (c_links c)) (map Z.to_nat i) = map Some ls /\
     x = rkmp_close (fold_left rkmp_acc ls (MP 0 v3zero m3zero))).
  { intros i x Pi Hx. unfold rkmp_main in Hx. rewrite (ids_all i Pi) in Hx. destruct (map Z.to_nat i) as [|k t] eqn:I; [discriminate|]. unfold rkmp_calc in Hx.
    destruct (rkmp_loop (c_links c) (k :: t) (MP 0 v3zero m3zero)) as [a|] eqn:LO; [|discriminate]. cbn [option_map] in Hx. injection Hx as <-.
    destruct (loop_links _ _ _ _ LO) as (ls & Q & R). exists ls. split; [exact Q|now subst]. }
  destruct (G inp r P H) as (ls & A & ->). destruct (G inp' r' P' H') as (ls' & A' & ->).
  destruct (perm_somes _ _ _ _ _ ls (Permutation_map Z.to_nat PE) A) as (l2 & A2 & PL). assert (l2 = ls') as ->.
  { rewrite A' in A2. clear -A2. revert l2 A2. induction ls' as [|a t IH]; intros [|b u] D; try discriminate; auto. cbn in D. injection D as -> D. f_equal. auto. }
  assert (K : forall i ks, map (nth_error (c_links c)) (map Z.to_nat i) = map Some ks -> forall l, In l ks -> exists k, nth_error (c_links c) k = Some l).
  { intros i ks Q l I. apply (in_map Some) in I. rewrite <- Q in I. apply in_map_iff in I as (k & Hk & _). eauto. }
  exists ls, ls'. split; [eapply K; eauto|]. split; [eapply K; eauto|]. auto.
Qed.
End MpP.
