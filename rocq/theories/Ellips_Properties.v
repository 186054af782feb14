(** * Ellips_Properties: what the inertial ellipsoid of a mass property is (C112). *)
From Coq Require Import ZArith QArith Qcanon List Field.
From Verif Require Import Num NumFacts Vec VecFacts Motor_Model Joint_Model Body_Model Ellips_Model ExtQ.

Section Ellips.
Context {F : Type} {N : Num F} {L : NumLaws F N}.
Local Ltac vring := intros; vdestruct; vunfold; vsplit; ring.
Add Field FFieldEl : num_field.
Local Open Scope num_scope.

(** ** Specification *)
(** What zMat3DSymEig of ZEO promises: orthonormal vectors, of either hand, each stretched by its value. *)
Definition eig_ok (m : mat3 F) (r : vec3 F * mat3 F) : Prop :=
  let (v, e) := r in
  v3dot (mc0 e) (mc0 e) = 1 /\ v3dot (mc1 e) (mc1 e) = 1 /\ v3dot (mc2 e) (mc2 e) = 1 /\
  v3dot (mc0 e) (mc1 e) = 0 /\ v3dot (mc1 e) (mc2 e) = 0 /\ v3dot (mc2 e) (mc0 e) = 0 /\
  m3v m (mc0 e) = v3scale (vx v) (mc0 e) /\ m3v m (mc1 e) = v3scale (vy v) (mc1 e) /\ m3v m (mc2 e) = v3scale (vz v) (mc2 e).
(** The surface of an ellipsoid: the unit sphere stretched by the radii along the axes and moved to the center. *)
Definition on_ellips (e : ellips (F := F)) (x : vec3 F) : Prop :=
  exists s, v3dot s s = 1 /\
    x = v3add (el_center e) (v3add (v3scale (vx (el_radii e) * vx s) (mc0 (el_axes e)))
         (v3add (v3scale (vy (el_radii e) * vy s) (mc1 (el_axes e))) (v3scale (vz (el_radii e) * vz s) (mc2 (el_axes e))))).
(** The moment of inertia about the axis through the center of mass along the unit vector [a]. *)
Definition moment_about (m : mp F) (a : vec3 F) : F := v3dot a (m3v (mp_inertia m) a).

(** ** Proofs *)
Lemma cols_tr_mul (e : mat3 F) :
  v3dot (mc0 e) (mc0 e) = 1 -> v3dot (mc1 e) (mc1 e) = 1 -> v3dot (mc2 e) (mc2 e) = 1 ->
  v3dot (mc0 e) (mc1 e) = 0 -> v3dot (mc1 e) (mc2 e) = 0 -> v3dot (mc2 e) (mc0 e) = 0 -> m3mul (m3tr e) e = m3id.
Proof.
  intros A B C D G H.
  transitivity (M3 (V3 (v3dot (mc0 e) (mc0 e)) (v3dot (mc0 e) (mc1 e)) (v3dot (mc2 e) (mc0 e)))
                   (V3 (v3dot (mc0 e) (mc1 e)) (v3dot (mc1 e) (mc1 e)) (v3dot (mc1 e) (mc2 e)))
                   (V3 (v3dot (mc2 e) (mc0 e)) (v3dot (mc1 e) (mc2 e)) (v3dot (mc2 e) (mc2 e)))).
  - clear - L. revert e. vring.
  - now rewrite A, B, C, D, G, H.
Qed.
Lemma left_right (e : mat3 F) : m3mul (m3tr e) e = m3id -> m3mul e (m3tr e) = m3id.
Proof.
  intros H.
  assert (D : m3det e * m3det e = 1) by (rewrite <- (m3det_tr e) at 1; rewrite <- m3det_mul, H; apply m3det_id).
  assert (A : m3adj e = m3scale (m3det e) (m3tr e)).
  { rewrite <- (m3mul_id_l (m3adj e)), <- H, <- m3mul_assoc, m3mul_adj, m3mul_scale_r, m3mul_id_r. reflexivity. }
  assert (K := m3mul_adj e). rewrite A, m3mul_scale_r in K.
  assert (S : forall m : mat3 F, m = m3scale (m3det e) (m3scale (m3det e) m)).
  { intros m. transitivity (m3scale (m3det e * m3det e) m); [rewrite D; symmetry; apply m3scale_1|].
    generalize (m3det e). clear - L. revert m. vring. }
  rewrite (S (m3mul e (m3tr e))), K, <- S. reflexivity.
Qed.
Lemma stretch (m : mat3 F) v e s : eig_ok m (v, e) ->
  v3add (v3scale (vx v * vx s) (mc0 e)) (v3add (v3scale (vy v * vy s) (mc1 e)) (v3scale (vz v * vz s) (mc2 e))) = m3v m (m3v e s).
Proof.
  intros (_ & _ & _ & _ & _ & _ & A & B & C).
  transitivity (v3add (v3scale (vx s) (m3v m (mc0 e))) (v3add (v3scale (vy s) (m3v m (mc1 e))) (v3scale (vz s) (m3v m (mc2 e))))).
  - rewrite A, B, C. clear - L. revert v e s. vring.
  - clear - L. revert m e s. vring.
Qed.

(** Whatever axes the eigenvalue routine picks, the surface is the unit sphere mapped by the inertia tensor. *)
Theorem C112_surface eig (m : mp F) x : eig_ok (mp_inertia m) (eig (mp_inertia m)) ->
  (on_ellips (mp_inertia_ellips eig m) x <-> exists u, v3dot u u = 1 /\ x = v3add (mp_com m) (m3v (mp_inertia m) u)).
Proof.
  unfold on_ellips, mp_inertia_ellips. destruct (eig (mp_inertia m)) as [v e]. cbn [el_center el_axes el_radii]. intros H.
  assert (T : m3mul (m3tr e) e = m3id) by (destruct H as (A & B & C & D & G & K & _); now apply cols_tr_mul).
  split.
  - intros (s & Hs & ->). exists (m3v e s). split.
    + now rewrite v3dot_m3v, m3tv_tr, <- m3mul_v, T, m3v_id.
    + now rewrite (stretch _ _ _ s H).
  - intros (u & Hu & ->). exists (m3tv e u).
    assert (R : m3v e (m3tv e u) = u) by now rewrite m3tv_tr, <- m3mul_v, left_right, m3v_id.
    split.
    + now rewrite <- v3dot_m3v, R.
    + now rewrite (stretch _ _ _ _ H), R.
Qed.

(** The radii are the moments of inertia about the axes, and the center is the center of mass. *)
Theorem C112_radii eig (m : mp F) : eig_ok (mp_inertia m) (eig (mp_inertia m)) ->
  let e := mp_inertia_ellips eig m in
  el_center e = mp_com m /\
  el_radii e = V3 (moment_about m (mc0 (el_axes e))) (moment_about m (mc1 (el_axes e))) (moment_about m (mc2 (el_axes e))).
Proof.
  unfold mp_inertia_ellips, moment_about. destruct (eig (mp_inertia m)) as [v e]. cbn [el_center el_axes el_radii].
  intros (A & B & C & _ & _ & _ & G & H & K). split; [reflexivity|].
  assert (S : forall k a : _, v3dot a (v3scale k a) = k * v3dot a a) by (clear - L; vring).
  rewrite G, H, K, !S, A, B, C. clear - L. revert v. vring.
Qed.

(** The ellipsoid moves with the body, even though the axes may be picked in another order after the motion. *)
Theorem C112_moved eig (m : mp F) f x : rigid f ->
  eig_ok (mp_inertia m) (eig (mp_inertia m)) ->
  eig_ok (mp_inertia (mp_xform m f)) (eig (mp_inertia (mp_xform m f))) ->
  (on_ellips (mp_inertia_ellips eig (mp_xform m f)) (xform f x) <-> on_ellips (mp_inertia_ellips eig m) x).
Proof.
  intros R H H'. rewrite (C112_surface _ _ _ H), (C112_surface _ _ _ H'). unfold mp_xform. cbn [mp_com mp_inertia].
  assert (P : forall u, v3add (xform f (mp_com m)) (m3v (m3rot (fatt f) (mp_inertia m)) u) =
                        xform f (v3add (mp_com m) (m3v (mp_inertia m) (m3tv (fatt f) u)))).
  { intros u. unfold m3rot, xform. rewrite !m3mul_v, m3v_add_r, m3tv_tr.
    generalize (m3v (fatt f) (m3v (mp_inertia m) (m3v (m3tr (fatt f)) u))) (m3v (fatt f) (mp_com m)) (fpos f). clear - L. vring. }
  assert (I : forall a b, xform f a = xform f b -> a = b).
  { intros a b E. rewrite <- (rot_tv_v (fatt f) a R), <- (rot_tv_v (fatt f) b R). f_equal.
    unfold xform in E. assert (Q : forall p q : vec3 F, p = v3sub (v3add p q) q) by (clear - L; vring).
    rewrite (Q (m3v (fatt f) a) (fpos f)), (Q (m3v (fatt f) b) (fpos f)). now rewrite E. }
  split.
  - intros (u & Hu & E). exists (m3tv (fatt f) u). split; [now rewrite rot_dot_t|].
    apply I. now rewrite E, P.
  - intros (u & Hu & ->). exists (m3v (fatt f) u). split; [now rewrite rot_dot|].
    now rewrite P, rot_tv_v.
Qed.
End Ellips.

(** ** Concrete cases *)
Local Ltac qc := apply Qc_is_canon; vm_compute; reflexivity.
Lemma v3_qc (a b : vec3 Qc) : vx a = vx b -> vy a = vy b -> vz a = vz b -> a = b.
Proof. destruct a, b. cbn. now intros -> -> ->. Qed.
(** A body whose principal axes lean in the plane, and the same body a quarter turn about the z axis and a shift later. *)
Definition lean : mp Qc := MP (qz 1) (V3 (qz 1) (qz 2) (qz 3)) (M3 (V3 (qz 41) (qz (-12)) (qz 0)) (V3 (qz (-12)) (qz 34) (qz 0)) (V3 (qz 0) (qz 0) (qz 7))).
Definition quarter : frame Qc := Fr (V3 (qz 0) (qz 0) (qz 4)) (M3 (V3 (qz 0) (qz 1) (qz 0)) (V3 (qz (-1)) (qz 0) (qz 0)) (V3 (qz 0) (qz 0) (qz 1))).
Definition leanaxes : mat3 Qc := M3 (V3 (Q2Qc (3 # 5)) (Q2Qc (4 # 5)) (qz 0)) (V3 (Q2Qc (- 4 # 5)) (Q2Qc (3 # 5)) (qz 0)) (V3 (qz 0) (qz 0) (qz 1)).
(** An eigenvalue routine that is right for these two, and lists the values in another order after the motion. *)
Definition leaneig (m : mat3 Qc) : vec3 Qc * mat3 Qc :=
  if Qc_eq_dec (vx (mc0 m)) (qz 41) then (V3 (qz 25) (qz 50) (qz 7), leanaxes) else (V3 (qz 50) (qz 25) (qz 7), leanaxes).
Lemma lean_first : leaneig (mp_inertia lean) = (V3 (qz 25) (qz 50) (qz 7), leanaxes).
Proof. unfold leaneig. destruct (Qc_eq_dec _ _) as [_|n]; [reflexivity|]. exfalso. apply n. reflexivity. Qed.
Lemma lean_second : leaneig (mp_inertia (mp_xform lean quarter)) = (V3 (qz 50) (qz 25) (qz 7), leanaxes).
Proof.
  unfold leaneig. destruct (Qc_eq_dec _ _) as [e|_]; [|reflexivity]. exfalso.
  apply (f_equal this) in e. vm_compute in e. discriminate e.
Qed.
Lemma lean_ok : eig_ok (mp_inertia lean) (leaneig (mp_inertia lean)).
Proof. rewrite lean_first. unfold eig_ok. repeat split; try qc; apply v3_qc; qc. Qed.
Lemma lean_moved_ok : eig_ok (mp_inertia (mp_xform lean quarter)) (leaneig (mp_inertia (mp_xform lean quarter))).
Proof. rewrite lean_second. unfold eig_ok. repeat split; try qc; apply v3_qc; qc. Qed.
Lemma quarter_rigid : rigid quarter.
Proof. apply rotation_cols. repeat split; qc. Qed.
(** 25 along the first axis from the center of mass: on the surface, and so is its image after the motion. *)
Example C112_ex_moved : let x := V3 (qz 16) (qz 22) (qz 3) in
  on_ellips (mp_inertia_ellips leaneig lean) x /\ on_ellips (mp_inertia_ellips leaneig (mp_xform lean quarter)) (xform quarter x).
Proof.
  cbn zeta. assert (A : on_ellips (mp_inertia_ellips leaneig lean) (V3 (qz 16) (qz 22) (qz 3))).
  { exists (V3 (qz 1) (qz 0) (qz 0)). split; [qc|]. unfold mp_inertia_ellips. rewrite lean_first. apply v3_qc; qc. }
  split; [exact A|]. exact (proj2 (C112_moved leaneig lean quarter _ quarter_rigid lean_ok lean_moved_ok) A).
Qed.
Example C112_ex_radii : el_radii (mp_inertia_ellips leaneig lean) = V3 (qz 25) (qz 50) (qz 7) /\ moment_about lean (mc1 leanaxes) = qz 50.
Proof. unfold mp_inertia_ellips. rewrite lean_first. split; [reflexivity|qc]. Qed.
(** It is not the ellipsoid of Poinsot, whose points x satisfy x.Ix = 1 seen from the center of mass: a large moment makes it long, not short. *)
Example C112_not_poinsot : exists x, on_ellips (mp_inertia_ellips leaneig lean) x /\
  let d := v3sub x (mp_com lean) in v3dot d (m3v (mp_inertia lean) d) <> qz 1.
Proof.
  exists (V3 (qz 16) (qz 22) (qz 3)). split; [exact (proj1 C112_ex_moved)|].
  cbn zeta. intros H. apply (f_equal this) in H. vm_compute in H. discriminate H.
Qed.

Print Assumptions C112_surface.
Print Assumptions C112_radii.
Print Assumptions C112_moved.
