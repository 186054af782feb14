(** * Body_Proofs: specification vocabulary and lemmas for wrench lists, mass properties and bodies. *)

From Coq Require Import List String ZArith Ring Field Bool Permutation.
From Verif Require Import Num NumFacts Vec VecFacts Body_Model.
Import ListNotations.

Section P.
Context {F : Type} {N : Num F} {L : NumLaws F N}.
Add Field FField : num_field.
Local Open Scope num_scope.
Ltac vring := intros; vdestruct; vunfold; vsplit; ring.

(** ** Wrench lists *)
Lemma wl_net_sum (l : wlist F) : wl_net l = v6sum (map wr_shift l).
Proof.
  unfold wl_net.
  assert (G : forall l a, fold_left (fun w c => v6add w (wr_shift c)) l a = v6add a (v6sum (map wr_shift l))).
  { clear l. induction l as [|c l IH]; intros a; cbn; [now rewrite v6add_0_r|]. now rewrite IH, v6add_assoc. }
  now rewrite G, v6add_0_l.
Qed.
Lemma wl_net_perm (l l' : wlist F) : Permutation l l' -> wl_net l = wl_net l'.
Proof. intros P. rewrite !wl_net_sum. apply v6sum_perm. now apply Permutation_map. Qed.
Lemma wl_run_frame ops : forall (s l s' : wlist F) rs, wl_run s ops = (s', rs) -> ~ In None rs ->
  wl_run (s ++ l) ops = (s' ++ l, rs).
Proof.
  induction ops as [|[w|] ops IH]; cbn; intros s l s' rs H NN.
  - now injection H as <- <-.
  - apply (IH (wl_push s w) l s' rs H NN).
  - destruct s as [|w s]; cbn in *.
    + destruct (wl_run [] ops) as [x y]. injection H as <- <-. exfalso. apply NN. now left.
    + destruct (wl_run s ops) as [x y] eqn:R. injection H as <- <-.
      rewrite (IH s l x y R); [reflexivity|]. intros I. apply NN. now right.
Qed.
Lemma wl_run_app a : forall b (l : wlist F), wl_run l (a ++ b) =
  let '(l1, r1) := wl_run l a in let '(l2, r2) := wl_run l1 b in (l2, r1 ++ r2).
Proof.
  induction a as [|[w|] a IH]; cbn; intros b l.
  - now destruct (wl_run l b).
  - apply IH.
  - destruct (wl_pop l) as [l' r]. rewrite IH. destruct (wl_run l' a) as [l1 r1].
    destruct (wl_run l1 b) as [l2 r2]. reflexivity.
Qed.
(** Anything pushed comes back after a balanced history. *)
Lemma wl_lifo h rs w (l : wlist F) : wl_run [] h = ([], rs) -> ~ In None rs ->
  wl_run l (WPush w :: h ++ [WPop]) = (l, rs ++ [Some w]).
Proof.
  intros H NN. cbn. rewrite wl_run_app.
  assert (K := wl_run_frame h [] (wl_push l w) [] rs H NN). cbn [app] in K. now rewrite K.
Qed.
Lemma wl_pop_null (l : wlist F) : snd (wl_pop l) = None <-> l = [].
Proof. destruct l; cbn; split; intros; auto; discriminate. Qed.
Lemma wl_pushes ws : forall (l : wlist F), fold_left wl_push ws l = rev ws ++ l.
Proof. induction ws as [|w ws IH]; cbn; intros l; [reflexivity|]. rewrite IH. now rewrite <- app_assoc. Qed.

Definition point_power (v : vec6 F) (c : wrench F) : F := v6dot (v6linshift v (wr_p c)) (wr_w c).
Lemma wl_net_power (l : wlist F) (v : vec6 F) : v6dot v (wl_net l) = nsum (map (point_power v) l).
Proof.
  rewrite wl_net_sum, v6dot_v6sum_r, map_map. f_equal. apply map_ext. intros c.
  unfold point_power. rewrite shift_power. reflexivity.
Qed.

(** ** Mass properties *)
(** Inertia of a point mass m at s about the origin: m(|s|^2 I - s s^T). *)
Definition point_inertia (m : F) (s : vec3 F) : mat3 F :=
  m3scale m (m3sub (m3scale (v3sqr s) m3id) (m3dyad s s)).
Lemma shift_inertia_spec i m s : mp_shift_inertia i m s = m3add i (point_inertia m s).
Proof. unfold mp_shift_inertia, point_inertia. cbn zeta. vring. Qed.

Lemma v3scale_cancel (k : F) a b : k <> 0 -> v3scale k a = v3scale k b -> a = b.
Proof.
  intros K H. apply (f_equal (v3scale (1 / k))) in H. rewrite !v3scale_scale in H.
  replace (1 / k * k) with (1 : F) in H by (field; exact K). now rewrite !v3scale_1 in H.
Qed.
Lemma m3add_cancel_r (a b c : mat3 F) : m3add a c = m3add b c -> a = b.
Proof.
  intros H. apply (f_equal (fun m => m3sub m c)) in H.
  assert (K : forall x y : mat3 F, m3sub (m3add x y) y = x) by vring. now rewrite !K in H.
Qed.
Lemma mp_ext (a b : mp F) : mp_mass b <> 0 -> mp_mass a = mp_mass b ->
  v3scale (mp_mass a) (mp_com a) = v3scale (mp_mass b) (mp_com b) ->
  mp_org_inertia a = mp_org_inertia b -> a = b.
Proof.
  intros K M C I. destruct a as [ma ca ia], b as [mb cb ib]. cbn in *. subst ma.
  apply v3scale_cancel in C; [|exact K]. subst cb. unfold mp_org_inertia in I. cbn in I.
  rewrite !shift_inertia_spec in I. apply m3add_cancel_r in I. now subst.
Qed.
Lemma combine_mass (a b : mp F) : mp_mass (mp_combine a b) = mp_mass a + mp_mass b.
Proof. reflexivity. Qed.
Lemma combine_com (a b : mp F) : mp_mass a + mp_mass b <> 0 ->
  v3scale (mp_mass (mp_combine a b)) (mp_com (mp_combine a b)) =
  v3add (v3scale (mp_mass a) (mp_com a)) (v3scale (mp_mass b) (mp_com b)).
Proof.
  intros K. destruct a as [ma [] ia], b as [mb [] ib]. cbn in *. vunfold. f_equal; field; exact K.
Qed.
Lemma point_inertia_sym m (s : vec3 F) : sym3 (point_inertia m s).
Proof. unfold sym3, point_inertia. vring. Qed.
Lemma nsub_0 (a b : F) : a - b = 0 -> a = b.
Proof. intros H. transitivity (a - b + b); [ring|]. rewrite H. ring. Qed.
Lemma steiner m1 m2 (c1 c2 c : vec3 F) :
  v3scale (m1 + m2) c = v3add (v3scale m1 c1) (v3scale m2 c2) ->
  m3add (m3add (point_inertia m1 (v3sub c1 c)) (point_inertia m2 (v3sub c2 c))) (point_inertia (m1 + m2) c) =
  m3add (point_inertia m1 c1) (point_inertia m2 c2).
Proof.
  destruct c1 as [x1 y1 z1], c2 as [x2 y2 z2], c as [x y z]. vunfold. intros H. injection H as Hx Hy Hz.
  unfold point_inertia. vunfold. 
  assert (Ex : (m1 + m2) * x - (m1 * x1 + m2 * x2) = 0) by (rewrite Hx; ring).
  assert (Ey : (m1 + m2) * y - (m1 * y1 + m2 * y2) = 0) by (rewrite Hy; ring).
  assert (Ez : (m1 + m2) * z - (m1 * z1 + m2 * z2) = 0) by (rewrite Hz; ring).
  clear Hx Hy Hz.
  set (ax := (m1 + m2) * x - (m1 * x1 + m2 * x2)) in *.
  set (ay := (m1 + m2) * y - (m1 * y1 + m2 * y2)) in *.
  set (az := (m1 + m2) * z - (m1 * z1 + m2 * z2)) in *.
  vsplit; apply nsub_0.
  - transitivity (n2 * (y * ay + z * az)); [unfold ay, az, n2; ring | rewrite Ey, Ez; ring].
  - transitivity (- (x * ay + y * ax)); [unfold ay, ax; ring | rewrite Ex, Ey; ring].
  - transitivity (- (x * az + z * ax)); [unfold az, ax; ring | rewrite Ex, Ez; ring].
  - transitivity (- (x * ay + y * ax)); [unfold ay, ax; ring | rewrite Ex, Ey; ring].
  - transitivity (n2 * (x * ax + z * az)); [unfold ax, az, n2; ring | rewrite Ex, Ez; ring].
  - transitivity (- (y * az + z * ay)); [unfold az, ay; ring | rewrite Ey, Ez; ring].
  - transitivity (- (x * az + z * ax)); [unfold az, ax; ring | rewrite Ex, Ez; ring].
  - transitivity (- (y * az + z * ay)); [unfold az, ay; ring | rewrite Ey, Ez; ring].
  - transitivity (n2 * (x * ax + y * ay)); [unfold ax, ay, n2; ring | rewrite Ex, Ey; ring].
Qed.
Lemma combine_inertia (a b : mp F) : mp_mass a + mp_mass b <> 0 ->
  mp_org_inertia (mp_combine a b) = m3add (mp_org_inertia a) (mp_org_inertia b).
Proof.
  intros K. assert (C := combine_com a b K). rewrite combine_mass in C.
  unfold mp_org_inertia. rewrite !shift_inertia_spec. rewrite combine_mass.
  set (c := mp_com (mp_combine a b)) in *.
  change (mp_inertia (mp_combine a b)) with
    (m3add (mp_shift_inertia (mp_inertia a) (mp_mass a) (v3sub (mp_com a) c))
           (mp_shift_inertia (mp_inertia b) (mp_mass b) (v3sub (mp_com b) c))).
  rewrite !shift_inertia_spec.
  assert (R : forall i1 p1 i2 p2 p : mat3 F, m3add (m3add (m3add i1 p1) (m3add i2 p2)) p =
              m3add (m3add i1 i2) (m3add (m3add p1 p2) p)) by vring.
  rewrite R, (steiner _ _ _ _ _ C). vring.
Qed.
Lemma combine_comm (a b : mp F) : mp_mass a + mp_mass b <> 0 -> mp_combine a b = mp_combine b a.
Proof.
  intros K. assert (K' : mp_mass b + mp_mass a <> 0) by (intros E; apply K; rewrite <- E; ring).
  apply mp_ext; rewrite ?combine_mass, ?combine_inertia by assumption; try exact K'.
  - ring.
  - rewrite <- !combine_mass, !combine_com by assumption. apply v3add_comm.
  - apply m3add_comm.
Qed.
Lemma combine_assoc (a b c : mp F) : mp_mass a + mp_mass b <> 0 -> mp_mass b + mp_mass c <> 0 ->
  mp_mass a + mp_mass b + mp_mass c <> 0 ->
  mp_combine (mp_combine a b) c = mp_combine a (mp_combine b c).
Proof.
  intros K1 K2 K3.
  assert (K3' : mp_mass a + (mp_mass b + mp_mass c) <> 0) by (intros E; apply K3; rewrite <- E; ring).
  assert (C1 : mp_mass (mp_combine a b) + mp_mass c <> 0) by (rewrite combine_mass; exact K3).
  assert (C2 : mp_mass a + mp_mass (mp_combine b c) <> 0) by (rewrite combine_mass; exact K3').
  apply mp_ext.
  - rewrite !combine_mass. exact K3'.
  - rewrite !combine_mass. ring.
  - rewrite !combine_com by assumption. symmetry. apply v3add_assoc.
  - rewrite !combine_inertia by assumption. symmetry. apply m3add_assoc.
Qed.

(** Any grouping: binary trees of combinations; any order: permuted leaves. *)
Inductive grouping := GLeaf (m : mp F) | GNode (l r : grouping).
Fixpoint g_eval (g : grouping) : mp F := match g with GLeaf m => m | GNode l r => mp_combine (g_eval l) (g_eval r) end.
Fixpoint g_leaves (g : grouping) : list (mp F) := match g with GLeaf m => [m] | GNode l r => g_leaves l ++ g_leaves r end.
Definition moments (l : list (mp F)) : F * vec3 F * mat3 F :=
  (nsum (map mp_mass l), v3sum (map (fun m => v3scale (mp_mass m) (mp_com m)) l), m3sum (map mp_org_inertia l)).
Lemma m3sum_app (l m : list (mat3 F)) : m3sum (l ++ m) = m3add (m3sum l) (m3sum m).
Proof.
  induction l as [|a l IH]; unfold m3sum in *; cbn [app fold_right].
  - symmetry. assert (K : forall x : mat3 F, m3add m3zero x = x) by vring. apply K.
  - now rewrite IH, m3add_assoc.
Qed.
Lemma nsum_pos (l : list F) : l <> [] -> (forall x, In x l -> 0 < x) -> 0 < nsum l.
Proof.
  induction l as [|x l IH]; intros H K; [congruence|]. unfold nsum in *. cbn [fold_right].
  destruct l as [|y l].
  - cbn [fold_right]. replace (x + 0) with x by ring. apply K. now left.
  - apply nlt_0_add_l; [apply K; now left|]. apply nlt_le. apply IH; [discriminate|]. intros z I. apply K. now right.
Qed.
Lemma g_leaves_ne g : g_leaves g <> [].
Proof. induction g; cbn; [discriminate|]. destruct (g_leaves g1); [congruence|discriminate]. Qed.
Lemma g_moments g : (forall m, In m (g_leaves g) -> 0 < mp_mass m) ->
  0 < mp_mass (g_eval g) /\
  moments (g_leaves g) = (mp_mass (g_eval g), v3scale (mp_mass (g_eval g)) (mp_com (g_eval g)), mp_org_inertia (g_eval g)).
Proof.
  induction g as [m|l IHl r IHr]; cbn [g_leaves g_eval]; intros K.
  - split; [apply K; now left|]. unfold moments, nsum, v3sum, m3sum. cbn [map fold_right]. rewrite v3add_0_r.
    assert (Z : forall x : mat3 F, m3add x m3zero = x) by vring. rewrite Z. f_equal. f_equal. ring.
  - destruct IHl as [Pl Ml]; [intros m I; apply K; apply in_or_app; now left|].
    destruct IHr as [Pr Mr]; [intros m I; apply K; apply in_or_app; now right|].
    assert (P : 0 < mp_mass (g_eval l) + mp_mass (g_eval r)) by (apply nlt_0_add_l; [exact Pl | now apply nlt_le]).
    split; [exact P|].
    assert (Nz : mp_mass (g_eval l) + mp_mass (g_eval r) <> 0) by (now apply nlt_neq').
    rewrite combine_com, combine_inertia, combine_mass by assumption.
    unfold moments in *. rewrite !map_app, nsum_app, v3sum_app, m3sum_app.
    injection Ml as -> -> ->. injection Mr as -> -> ->. reflexivity.
Qed.
Lemma nsum_perm (l m : list F) : Permutation l m -> nsum l = nsum m.
Proof.
  unfold nsum, v3sum, m3sum in *; induction 1; cbn [fold_right]; auto; [now rewrite IHPermutation | ring | congruence].
Qed.
Lemma v3sum_perm (l m : list (vec3 F)) : Permutation l m -> v3sum l = v3sum m.
Proof.
  unfold nsum, v3sum, m3sum in *; induction 1; cbn [fold_right]; auto; [now rewrite IHPermutation | | congruence].
  now rewrite !v3add_assoc, (v3add_comm x y).
Qed.
Lemma m3sum_perm (l m : list (mat3 F)) : Permutation l m -> m3sum l = m3sum m.
Proof.
  unfold nsum, v3sum, m3sum in *; induction 1; cbn [fold_right]; auto; [now rewrite IHPermutation | | congruence].
  now rewrite !m3add_assoc, (m3add_comm x y).
Qed.
Lemma moments_perm l m : Permutation l m -> moments l = moments m.
Proof.
  intros P. unfold moments.
  rewrite (nsum_perm _ _ (Permutation_map mp_mass P)), (v3sum_perm _ _ (Permutation_map _ P)), (m3sum_perm _ _ (Permutation_map _ P)).
  reflexivity.
Qed.
Lemma grouping_irrelevant g g' : Permutation (g_leaves g) (g_leaves g') ->
  (forall m, In m (g_leaves g) -> 0 < mp_mass m) -> g_eval g = g_eval g'.
Proof.
  intros P K. destruct (g_moments g K) as [P1 M1].
  destruct (g_moments g') as [P2 M2]; [intros m I; apply K; apply (Permutation_in _ (Permutation_sym P) I)|].
  assert (E := moments_perm _ _ P). rewrite M1, M2 in E.
  assert (E1 := f_equal (fun t => fst (fst t)) E). assert (E2 := f_equal (fun t => snd (fst t)) E).
  assert (E3 := f_equal snd E). cbn [fst snd] in E1, E2, E3.
  apply mp_ext; auto. now apply nlt_neq'.
Qed.

(** Symmetry and positive semidefiniteness survive combination. *)
Lemma point_inertia_psd m (s : vec3 F) : 0 <= m -> psd3 (point_inertia m s).
Proof.
  intros M v. replace (v3dot v (m3v (point_inertia m s) v)) with (m * v3sqr (v3cross s v)).
  - apply nle_0_mul; [exact M|]. unfold v3sqr, v3dot. apply nle_0_add; [apply nle_0_add|]; apply nle_0_sqr.
  - unfold point_inertia. vdestruct. vunfold. ring.
Qed.
Lemma org_inertia_quad (m : mp F) v :
  v3dot v (m3v (mp_org_inertia m) v) =
  v3dot v (m3v (mp_inertia m) v) + mp_mass m * v3sqr (v3cross (mp_com m) v).
Proof.
  unfold mp_org_inertia. rewrite shift_inertia_spec, m3v_add_l, v3dot_add_r. f_equal.
  unfold point_inertia. generalize (mp_mass m) (mp_com m). vring.
Qed.
Lemma psd3_add (a b : mat3 F) : psd3 a -> psd3 b -> psd3 (m3add a b).
Proof. intros A B v. rewrite m3v_add_l, v3dot_add_r. now apply nle_0_add. Qed.
Lemma sym3_add (a b : mat3 F) : sym3 a -> sym3 b -> sym3 (m3add a b).
Proof. unfold sym3. intros A B. now rewrite m3tr_add, A, B. Qed.
Definition physical (m : mp F) : Prop := 0 <= mp_mass m /\ sym3 (mp_inertia m) /\ psd3 (mp_inertia m).
Lemma combine_physical (a b : mp F) : physical a -> physical b -> physical (mp_combine a b).
Proof.
  intros (A1 & A2 & A3) (B1 & B2 & B3). split; [|split].
  - cbn. now apply nle_0_add.
  - unfold mp_combine; cbn [mp_inertia]; rewrite !shift_inertia_spec.
    repeat apply sym3_add; try assumption; apply point_inertia_sym.
  - unfold mp_combine; cbn [mp_inertia]; rewrite !shift_inertia_spec.
    apply psd3_add; (apply psd3_add; [assumption | now apply point_inertia_psd]).
Qed.

(** ** Frame transformation of mass properties *)
Lemma m3rot_add (r a b : mat3 F) : m3rot r (m3add a b) = m3add (m3rot r a) (m3rot r b).
Proof. unfold m3rot. now rewrite m3mul_add_r, m3mul_add_l. Qed.
Lemma m3rotinv_rot (r a : mat3 F) : rotation r -> m3rotinv r (m3rot r a) = a.
Proof.
  intros R. unfold m3rotinv, m3rot.
  rewrite !m3mul_assoc, (rotation_tr_mul r R), m3mul_id_l, <- m3mul_assoc, (rotation_tr_mul r R). apply m3mul_id_r.
Qed.
Lemma m3rot_rotinv (r a : mat3 F) : rotation r -> m3rot r (m3rotinv r a) = a.
Proof.
  intros R. unfold m3rotinv, m3rot.
  rewrite !m3mul_assoc, (rotation_mul_tr r R), m3mul_id_l, <- m3mul_assoc, (rotation_mul_tr r R). apply m3mul_id_r.
Qed.
Lemma m3rot_mul (r s a : mat3 F) : m3rot (m3mul r s) a = m3rot r (m3rot s a).
Proof. unfold m3rot. now rewrite m3tr_mul, !m3mul_assoc. Qed.
Lemma mp_xforminv_xform (m : mp F) f : rigid f -> mp_xforminv (mp_xform m f) f = m.
Proof.
  intros R. unfold mp_xforminv, mp_xform. cbn. rewrite xforminv_xform by exact R.
  rewrite m3rotinv_rot by exact R. now destruct m.
Qed.
Lemma mp_xform_xforminv (m : mp F) f : rigid f -> mp_xform (mp_xforminv m f) f = m.
Proof.
  intros R. unfold mp_xforminv, mp_xform. cbn. rewrite xform_xforminv by exact R.
  rewrite m3rot_rotinv by exact R. now destruct m.
Qed.
Lemma mp_xform_cascade (m : mp F) f g : mp_xform m (fcascade f g) = mp_xform (mp_xform m g) f.
Proof. unfold mp_xform. cbn. f_equal; [apply xform_cascade | apply m3rot_mul]. Qed.
Lemma m3rot_point (r : mat3 F) m s : rotation r -> m3rot r (point_inertia m s) = point_inertia m (m3v r s).
Proof.
  intros R. unfold point_inertia. unfold v3sqr at 2. rewrite rot_dot by exact R. fold (v3sqr s).
  assert (D : m3dyad (m3v r s) (m3v r s) = m3rot r (m3dyad s s)).
  { apply m3_ext_v. intros v. unfold m3rot. rewrite !m3mul_v.
    assert (K : forall a b v : vec3 F, m3v (m3dyad a b) v = v3scale (v3dot b v) a) by vring.
    rewrite !K, m3v_scale_r. f_equal. rewrite <- m3tv_tr. rewrite v3dot_m3tv. reflexivity. }
  rewrite D. unfold m3rot.
  rewrite m3mul_scale_r, m3mul_scale_l. f_equal.
  assert (S : forall a b : mat3 F, m3sub a b = m3add a (m3scale (- (1)) b)) by vring.
  rewrite !S, m3mul_add_r, m3mul_add_l, !m3mul_scale_r, !m3mul_scale_l, m3mul_id_r, (rotation_mul_tr r R). reflexivity.
Qed.
Lemma xform_sub f (a b : vec3 F) : v3sub (xform f a) (xform f b) = m3v (fatt f) (v3sub a b).
Proof. unfold xform. rewrite m3v_sub_r. generalize (m3v (fatt f) a) (m3v (fatt f) b) (fpos f). vring. Qed.
Lemma combine_xform (a b : mp F) f : rigid f -> mp_mass a + mp_mass b <> 0 ->
  mp_combine (mp_xform a f) (mp_xform b f) = mp_xform (mp_combine a b) f.
Proof.
  intros R K.
  assert (C : mp_com (mp_combine (mp_xform a f) (mp_xform b f)) = xform f (mp_com (mp_combine a b))).
  { unfold mp_combine, mp_xform; cbn [mp_com mp_mass]. unfold xform.
    rewrite m3v_add_r, !m3v_scale_r. generalize (m3v (fatt f) (mp_com a)) (m3v (fatt f) (mp_com b)) (fpos f).
    intros [] [] []. vunfold. f_equal; field; exact K. }
  assert (SI : forall x y : mp F, mp_combine x y = MP (mp_mass x + mp_mass y) (mp_com (mp_combine x y))
       (m3add (mp_shift_inertia (mp_inertia x) (mp_mass x) (v3sub (mp_com x) (mp_com (mp_combine x y))))
             (mp_shift_inertia (mp_inertia y) (mp_mass y) (v3sub (mp_com y) (mp_com (mp_combine x y)))))) by reflexivity.
  rewrite (SI (mp_xform a f)), C. rewrite (SI a b) at 4. unfold mp_xform; cbn [mp_mass mp_com mp_inertia].
  rewrite !xform_sub, !shift_inertia_spec, !m3rot_add.
  now rewrite !m3rot_point by exact R.
Qed.
(** World-frame mass property of a body. *)
Definition world_mp (b : body F) : mp F := mp_xform (b_mp b) (b_frame b).
Lemma body_combine_world (b1 b2 b : body F) f : rigid f -> mp_mass (b_mp b1) + mp_mass (b_mp b2) <> 0 ->
  world_mp (body_combine b1 b2 f b) = mp_combine (world_mp b1) (world_mp b2) /\ b_frame (body_combine b1 b2 f b) = f.
Proof.
  intros R K. split; [|reflexivity]. unfold world_mp, body_combine; cbn [b_mp b_frame body_set_frame body_set_mp].
  rewrite <- combine_xform by (try exact R; exact K).
  rewrite <- !mp_xform_cascade, !frel_spec by exact R. reflexivity.
Qed.
Lemma body_combine_drc_world (b sb : body F) : rigid (b_frame b) -> mp_mass (b_mp b) + mp_mass (b_mp sb) <> 0 ->
  world_mp (body_combine_drc b sb) = mp_combine (world_mp b) (world_mp sb) /\ b_frame (body_combine_drc b sb) = b_frame b.
Proof.
  intros R K. split; [|reflexivity]. unfold world_mp, body_combine_drc; cbn [b_mp b_frame body_set_mp].
  rewrite <- combine_xform by (try exact R; exact K).
  rewrite <- !mp_xform_cascade, !frel_spec by exact R. reflexivity.
Qed.

(** ** Momentum and energy *)
Lemma am_shift (b : body F) p q :
  v3sub (body_am b p) (body_am b q) = v3cross (v3sub q p) (v3scale (mp_mass (b_mp b)) (b_comvel b)).
Proof.
  unfold body_am. generalize (m3v (mp_inertia (b_mp b)) (vang (b_vel b))) (mp_com (b_mp b)) (b_comvel b) (mp_mass (b_mp b)).
  vring.
Qed.
Lemma v3sqr_nonneg (a : vec3 F) : 0 <= v3sqr a.
Proof. unfold v3sqr, v3dot. apply nle_0_add; [apply nle_0_add|]; apply nle_0_sqr. Qed.
Lemma v3sqr_0 (a : vec3 F) : v3sqr a = 0 -> a = v3zero.
Proof.
  destruct a as [x y z]. unfold v3sqr, v3dot. cbn. intros H.
  apply nadd_nonneg_eq_0 in H as [H1 H2]; [|apply nle_0_add; apply nle_0_sqr|apply nle_0_sqr].
  apply nadd_nonneg_eq_0 in H1 as [H1 H3]; [|apply nle_0_sqr|apply nle_0_sqr].
  apply nsqr_eq_0 in H1, H2, H3. now subst.
Qed.
Lemma half_pos : (0 : F) < 1 / n2.
Proof. apply nlt_0_inv. unfold n2. apply nlt_0_add_l; [apply nlt_0_1 | apply nle_0_1]. Qed.
Lemma ke_nonneg (b : body F) : 0 <= mp_mass (b_mp b) -> psd3 (mp_inertia (b_mp b)) -> 0 <= body_ke b.
Proof.
  intros M P. unfold body_ke. apply nle_0_mul; [|apply nlt_le, half_pos].
  apply nle_0_add; [apply P | apply nle_0_mul; [exact M | apply v3sqr_nonneg]].
Qed.
Definition pd3 (m : mat3 F) : Prop := forall v, v <> v3zero -> 0 < v3dot v (m3v m v).
Lemma pd3_psd (m : mat3 F) : pd3 m -> psd3 m.
Proof.
  intros P v. destruct (nle_or_lt (v3sqr v) 0) as [H|H].
  - assert (E : v = v3zero) by (apply v3sqr_0; apply nle_antisym; [exact H | apply v3sqr_nonneg]).
    subst. rewrite v3dot_0_l. apply nle_refl.
  - apply nlt_le, P. intros ->. unfold v3sqr in H. rewrite v3dot_0_l in H. now apply nlt_irrefl in H.
Qed.
Lemma ke_zero (b : body F) : 0 < mp_mass (b_mp b) -> pd3 (mp_inertia (b_mp b)) -> body_ke b = 0 ->
  b_comvel b = v3zero /\ vang (b_vel b) = v3zero /\ forall p, body_am b p = v3zero.
Proof.
  intros M P H. unfold body_ke in H. apply nmul_eq_0 in H as [H|H].
  - apply nadd_nonneg_eq_0 in H as [H1 H2]; [|now apply pd3_psd|apply nle_0_mul; [now apply nlt_le|apply v3sqr_nonneg]].
    apply nmul_eq_0 in H2 as [H2|H2]; [exfalso; now apply (nlt_neq' _ _ M)|].
    apply v3sqr_0 in H2.
    assert (W : vang (b_vel b) = v3zero).
    { destruct (nle_or_lt (v3sqr (vang (b_vel b))) 0) as [K|K].
      - apply v3sqr_0, nle_antisym; [exact K | apply v3sqr_nonneg].
      - exfalso. assert (Q := P (vang (b_vel b))). rewrite H1 in Q. apply (nlt_irrefl 0). apply Q. intros E.
        rewrite E in K. unfold v3sqr in K. rewrite v3dot_0_l in K. now apply nlt_irrefl in K. }
    split; [exact H2|]. split; [exact W|]. intros p. unfold body_am. rewrite H2, W, m3v_0_r, v3cross_0_r, v3scale_0_r. apply v3add_0_r.
  - exfalso. apply (nlt_neq' _ _ half_pos H).
Qed.
(** Power of the net wrench (force at the COM, torque about it) on the motion of the COM. *)
Lemma net_wrench_power (b : body F) :
  v6dot (body_net_wrench b) (V6 (b_comvel b) (vang (b_vel b))) =
  mp_mass (b_mp b) * v3dot (b_comvel b) (b_comacc b) + v3dot (vang (b_vel b)) (m3v (mp_inertia (b_mp b)) (vang (b_acc b))).
Proof.
  unfold body_net_wrench, v6dot. cbn [vlin vang]. rewrite v3dot_scale_l, v3dot_add_l, (v3dot_comm _ (vang (b_vel b))).
  rewrite v3dot_cross_self_l, (v3dot_comm (b_comacc b)), (v3dot_comm (m3v _ _)). ring.
Qed.
End P.

(** ** Cloning *)
Section BodyClone.
Context {F : Type} {N : Num F} {L : NumLaws F N}.
Lemma body_clone_facts (org cln : body F) :
  b_mp (body_clone org cln) = b_mp org /\ body_ext_wrench (body_clone org cln) = body_ext_wrench org /\
  Permutation (b_shapes (body_clone org cln)) (b_shapes org).
Proof.
  split; [reflexivity|]. split.
  - unfold body_ext_wrench, body_clone; cbn [b_extw]. rewrite wl_pushes, app_nil_r. apply wl_net_perm.
    apply Permutation_sym, Permutation_rev.
  - unfold body_clone; cbn [b_shapes].
    assert (G : forall (l a : list nat), fold_left (fun l s => s :: l) l a = rev l ++ a).
    { induction l as [|x l IH]; intros a; cbn; [reflexivity|]. now rewrite IH, <- app_assoc. }
    rewrite G, app_nil_r. apply Permutation_sym, Permutation_rev.
Qed.
End BodyClone.
