(** * Body_Properties: theorems C16-C20, C22, C61. *)

From Coq Require Import List String ZArith QArith Qcanon Permutation.
From Verif Require Import Num NumFacts Vec VecFacts Body_Model Body_Proofs Motor_Model Joint_Model ExtQ.
Import ListNotations.

Section Thms.
Context {F : Type} {N : Num F} {L : NumLaws F N}.
Local Open Scope num_scope.

(** C16: whatever happens in a balanced way after a push, the matching pop
    returns the pushed wrench and leaves the list as it was. *)
Theorem C16_pop_returns_last_pushed (l : wlist F) w h rs :
  wl_run [] h = ([], rs) -> ~ In None rs ->
  wl_run l (WPush w :: h ++ [WPop]) = (l, rs ++ [Some w]).
Proof. exact (wl_lifo h rs w l). Qed.
Theorem C16_pop_is_null_iff_empty (l : wlist F) : snd (wl_pop l) = None <-> l = [].
Proof. exact (wl_pop_null l). Qed.
(** C16: the net wrench is the sum of force and of torque plus moment of force,
    for any order of the list. *)
Theorem C16_net_wrench_is_sum (l l' : wlist F) : Permutation l l' ->
  vlin (wl_net l) = v3sum (map (fun c => vlin (wr_w c)) l') /\
  vang (wl_net l) = v3sum (map (fun c => v3add (vang (wr_w c)) (v3cross (wr_p c) (vlin (wr_w c)))) l').
Proof.
  intros P. rewrite (wl_net_perm _ _ P), wl_net_sum. clear. unfold v6sum, v3sum.
  induction l' as [|c l IH]; cbn [map fold_right]; [split; reflexivity|].
  destruct IH as [A B]. split; cbn [v6add vlin vang]; [now rewrite A | now rewrite B].
Qed.
Theorem C16_push_pop_keeps_net (l : wlist F) w : wl_net (fst (wl_pop (wl_push l w))) = wl_net l.
Proof. reflexivity. Qed.

(** C17: the velocity of the point of action is v + w x p. *)
Theorem C17_net_wrench_power (l : wlist F) (v w : vec3 F) :
  v3dot v (vlin (wl_net l)) + v3dot w (vang (wl_net l)) =
  nsum (map (fun c => v3dot (v3add v (v3cross w (wr_p c))) (vlin (wr_w c)) + v3dot w (vang (wr_w c))) l).
Proof. exact (wl_net_power l (V6 v w)). Qed.

(** C18 *)
Theorem C18_combine_conserves (a b : mp F) : mp_mass a + mp_mass b <> 0 ->
  mp_mass (mp_combine a b) = mp_mass a + mp_mass b /\
  v3scale (mp_mass (mp_combine a b)) (mp_com (mp_combine a b)) =
    v3add (v3scale (mp_mass a) (mp_com a)) (v3scale (mp_mass b) (mp_com b)) /\
  mp_org_inertia (mp_combine a b) = m3add (mp_org_inertia a) (mp_org_inertia b).
Proof. intros K. exact (conj (combine_mass a b) (conj (combine_com a b K) (combine_inertia a b K))). Qed.
(** The inertia about the origin really is that of the parallel axis theorem: its quadratic form
    is that of the COM inertia plus m |c x v|^2. *)
Theorem C18_org_inertia_is_parallel_axis (m : mp F) v :
  v3dot v (m3v (mp_org_inertia m) v) =
  v3dot v (m3v (mp_inertia m) v) + mp_mass m * v3sqr (v3cross (mp_com m) v).
Proof. exact (org_inertia_quad m v). Qed.
Theorem C18_combine_keeps_physical (a b : mp F) :
  0 <= mp_mass a -> 0 <= mp_mass b -> sym3 (mp_inertia a) -> sym3 (mp_inertia b) ->
  psd3 (mp_inertia a) -> psd3 (mp_inertia b) ->
  0 <= mp_mass (mp_combine a b) /\ sym3 (mp_inertia (mp_combine a b)) /\ psd3 (mp_inertia (mp_combine a b)).
Proof. intros. apply combine_physical; repeat split; assumption. Qed.

(** C19 *)
Theorem C19_combine_commutes (a b : mp F) : mp_mass a + mp_mass b <> 0 -> mp_combine a b = mp_combine b a.
Proof. exact (combine_comm a b). Qed.
Theorem C19_combine_associates (a b c : mp F) :
  mp_mass a + mp_mass b <> 0 -> mp_mass b + mp_mass c <> 0 -> mp_mass a + mp_mass b + mp_mass c <> 0 ->
  mp_combine (mp_combine a b) c = mp_combine a (mp_combine b c).
Proof. exact (combine_assoc a b c). Qed.
(** Any two ways of combining the same parts pairwise agree. *)
Theorem C19_any_order_and_grouping (g g' : grouping (F:=F)) :
  Permutation (g_leaves g) (g_leaves g') -> (forall m, In m (g_leaves g) -> 0 < mp_mass m) ->
  g_eval g = g_eval g'.
Proof. exact (grouping_irrelevant g g'). Qed.

(** C20 *)
Theorem C20_xform_inverse (m : mp F) f : rigid f ->
  mp_xforminv (mp_xform m f) f = m /\ mp_xform (mp_xforminv m f) f = m.
Proof. intros R. exact (conj (mp_xforminv_xform m f R) (mp_xform_xforminv m f R)). Qed.
Theorem C20_xform_cascade (m : mp F) f g : mp_xform m (fcascade f g) = mp_xform (mp_xform m g) f.
Proof. exact (mp_xform_cascade m f g). Qed.
Theorem C20_xform_commutes_with_combine (a b : mp F) f : rigid f -> mp_mass a + mp_mass b <> 0 ->
  mp_combine (mp_xform a f) (mp_xform b f) = mp_xform (mp_combine a b) f.
Proof. exact (combine_xform a b f). Qed.
Theorem C20_body_combine_frame_independent (b1 b2 b b' : body F) f f' :
  rigid f -> rigid f' -> mp_mass (b_mp b1) + mp_mass (b_mp b2) <> 0 ->
  mp_xform (b_mp (body_combine b1 b2 f b)) (b_frame (body_combine b1 b2 f b)) =
  mp_xform (b_mp (body_combine b1 b2 f' b')) (b_frame (body_combine b1 b2 f' b')).
Proof.
  intros R R' K. destruct (body_combine_world b1 b2 b f R K) as [A _]. destruct (body_combine_world b1 b2 b' f' R' K) as [B _].
  unfold world_mp in A, B. now rewrite A, B.
Qed.
Theorem C20_body_combine_drc_world (b sb : body F) :
  rigid (b_frame b) -> mp_mass (b_mp b) + mp_mass (b_mp sb) <> 0 ->
  b_frame (body_combine_drc b sb) = b_frame b /\
  mp_xform (b_mp (body_combine_drc b sb)) (b_frame b) =
  mp_combine (mp_xform (b_mp b) (b_frame b)) (mp_xform (b_mp sb) (b_frame sb)).
Proof. intros R K. destruct (body_combine_drc_world b sb R K) as [A B]. split; [exact B | exact A]. Qed.

(** C22 *)
Theorem C22_am_shift (b : body F) p q :
  body_am b p = v3add (body_am b q) (v3cross (v3sub q p) (v3scale (mp_mass (b_mp b)) (b_comvel b))).
Proof. rewrite <- am_shift. generalize (body_am b p) (body_am b q). intros. rewrite v3add_comm. symmetry. apply v3sub_add_cancel. Qed.
Theorem C22_ke_nonneg (b : body F) : 0 <= mp_mass (b_mp b) -> psd3 (mp_inertia (b_mp b)) -> 0 <= body_ke b.
Proof. exact (ke_nonneg b). Qed.
Theorem C22_ke_zero_means_rest (b : body F) :
  0 < mp_mass (b_mp b) -> (forall v, v <> v3zero -> 0 < v3dot v (m3v (mp_inertia (b_mp b)) v)) ->
  body_ke b = 0 -> b_comvel b = v3zero /\ vang (b_vel b) = v3zero /\ forall p, body_am b p = v3zero.
Proof. exact (ke_zero b). Qed.

(** C61 *)
Theorem C61_clone_same_net_and_mass (org cln : body F) :
  b_mp (body_clone org cln) = b_mp org /\ body_ext_wrench (body_clone org cln) = body_ext_wrench org /\
  Permutation (b_shapes (body_clone org cln)) (b_shapes org).
Proof. exact (body_clone_facts org cln). Qed.
(** C61: the order is reversed, so the cloned list pops the oldest wrench first. *)
Theorem C61_clone_reverses_list (org cln : body F) : b_extw (body_clone org cln) = rev (b_extw org).
Proof. unfold body_clone; cbn [b_extw]. now rewrite wl_pushes, app_nil_r. Qed.
End Thms.

(** ** Concrete cases *)
Definition w1 : wrench Qc := Wr (V6 (V3 (qz 1) (qz 0) (qz 0)) v3zero) (V3 (qz 0) (qz 1) (qz 0)).
Definition w2 : wrench Qc := Wr (V6 (V3 (qz 0) (qz 2) (qz 0)) (V3 (qz 0) (qz 0) (qz 3))) (V3 (qz 1) (qz 0) (qz 0)).
Definition bal : list (wop Qc) := [WPush w2; WPush w1; WPop; WPop].
Example C16_ex_balanced : wl_run [] bal = ([], [Some w1; Some w2]) /\ ~ In None [Some w1; Some w2].
Proof. split; [reflexivity|]. intros [H|[H|[]]]; discriminate. Qed.
Example C16_ex_lifo : wl_run [w1] (WPush w1 :: bal ++ [WPop]) = ([w1], [Some w1; Some w2] ++ [Some w1]).
Proof. apply C16_pop_returns_last_pushed; apply C16_ex_balanced. Qed.
Example C16_ex_net : wl_net [w1; w2] = V6 (V3 (qz 1) (qz 2) (qz 0)) (V3 (qz 0) (qz 0) (qz 4)) /\
  wl_net [w2; w1] = wl_net [w1; w2].
Proof. split; vm_compute; vsplit; apply Qc_is_canon; reflexivity. Qed.
Example C17_ex : nsum (map (fun c => v3dot (v3add (V3 (qz 1) (qz 1) (qz 0)) (v3cross (V3 (qz 0) (qz 0) (qz 2)) (wr_p c))) (vlin (wr_w c))
   + v3dot (V3 (qz 0) (qz 0) (qz 2)) (vang (wr_w c)))%num [w1; w2]) = qz 11.
Proof. apply qeq; vm_compute; reflexivity. Qed.

Definition mpa : mp Qc := MP (qz 1) (V3 (qz 1) (qz 0) (qz 0)) m3id.
Definition mpb : mp Qc := MP (qz 3) (V3 (qz 0) (qz 2) (qz (-1))) (m3scale (qz 2) m3id).
Definition mpc : mp Qc := MP (qz 2) (V3 (qz 5) (qz 0) (qz 1)) m3id.
Example C18_ex : (mp_mass mpa + mp_mass mpb)%num <> (0:Qc)%num /\
  mp_com (mp_combine mpa mpb) = V3 (Q2Qc (1#4)) (Q2Qc (3#2)) (Q2Qc (-3#4)).
Proof. split; [apply qne; vm_compute; reflexivity|]. vm_compute; f_equal; apply Qc_is_canon; reflexivity. Qed.
Example C18_ex_physical : sym3 (mp_inertia mpb) /\ psd3 (mp_inertia mpb).
Proof.
  split.
  - unfold sym3. vm_compute; f_equal; f_equal; apply Qc_is_canon; reflexivity.
  - intros v. unfold mpb; cbn [mp_inertia]. rewrite m3v_scale_l, m3v_id, v3dot_scale_r. apply nle_0_mul; [reflexivity | apply v3sqr_nonneg].
Qed.
Example C19_ex : Permutation (g_leaves (GNode (GNode (GLeaf mpa) (GLeaf mpb)) (GLeaf mpc)))
                             (g_leaves (GNode (GLeaf mpb) (GNode (GLeaf mpc) (GLeaf mpa)))) /\
  forall m, In m [mpa; mpb; mpc] -> (0 < mp_mass m)%num.
Proof.
  split; [cbn; apply perm_trans with [mpb; mpa; mpc]; [constructor | constructor; constructor]|].
  intros m [<-|[<-|[<-|[]]]]; vm_compute; reflexivity.
Qed.
Definition fq : frame Qc := Fr (V3 (qz 1) (qz 2) (qz 3)) (qaa2m (V3 (qz 1) (qz 0) (qz 2))).
Definition bq (m : mp Qc) (f : frame Qc) : body Qc := body_set_frame (body_set_mp body_init m) f.
Example C20_ex : rigid fq /\ (mp_mass (b_mp (bq mpa fid)) + mp_mass (b_mp (bq mpb fq)))%num <> (0:Qc)%num /\
  b_mp (body_combine (bq mpa fid) (bq mpb fq) fid body_init) <> b_mp (body_combine (bq mpa fid) (bq mpb fq) fq body_init).
Proof.
  split; [apply qaa_rot|]. split; [apply qne; vm_compute; reflexivity|].
  intros H. apply (f_equal (fun m => vx (mp_com m))) in H. revert H. apply qne. vm_compute. reflexivity.
Qed.
Definition bv : body Qc :=
  Body mpb fid (V6 v3zero (V3 (qz 0) (qz 0) (qz 1))) v6zero v3zero (V3 (qz 1) (qz 0) (qz 0)) v3zero [] [] None.
Example C22_ex_strict : (0 < mp_mass (b_mp bv))%num /\
  (forall v, v <> v3zero -> (0 < v3dot v (m3v (mp_inertia (b_mp bv)) v))%num).
Proof.
  split; [vm_compute; reflexivity|]. intros v NZ. unfold bv, mpb; cbn [b_mp mp_inertia].
  rewrite m3v_scale_l, m3v_id, v3dot_scale_r. apply nlt_0_mul; [vm_compute; reflexivity|].
  apply nlt_le_neq. split; [apply v3sqr_nonneg|]. intros E. apply NZ, v3sqr_0. symmetry. exact E.
Qed.
Example C22_ex : body_ke bv = Q2Qc (5#2) /\ body_am bv v3zero <> body_am bv (V3 (qz 0) (qz 1) (qz 0)).
Proof.
  split; [apply qeq; vm_compute; reflexivity|].
  intros H. apply (f_equal (fun v => vz v)) in H. revert H. apply qne. vm_compute. reflexivity.
Qed.
Example C61_ex : b_extw (body_clone (body_ext_push (body_ext_push (body_init (F:=Qc)) w1) w2) body_init) = [w1; w2]
  /\ b_extw (body_ext_push (body_ext_push (body_init (F:=Qc)) w1) w2) = [w2; w1].
Proof. split; reflexivity. Qed.

Print Assumptions C16_pop_returns_last_pushed.
Print Assumptions C16_net_wrench_is_sum.
Print Assumptions C17_net_wrench_power.
Print Assumptions C18_combine_conserves.
Print Assumptions C18_org_inertia_is_parallel_axis.
Print Assumptions C18_combine_keeps_physical.
Print Assumptions C19_any_order_and_grouping.
Print Assumptions C20_body_combine_frame_independent.
Print Assumptions C22_am_shift.
Print Assumptions C22_ke_nonneg.
Print Assumptions C22_ke_zero_means_rest.
Print Assumptions C61_clone_same_net_and_mass.
