(** * VecFacts: algebra of 3D/6D vectors, matrices and rigid frames. *)

From Coq Require Import List Permutation Ring Field.
From Verif Require Import Num NumFacts Vec.
Import ListNotations.

(** Reduce everything to components. *)
Ltac vdestruct :=
  repeat match goal with
  | v : vec3 _ |- _ => destruct v
  | m : mat3 _ |- _ => destruct m
  | f : frame _ |- _ => destruct f
  | v : vec6 _ |- _ => destruct v
  | m : mat6 _ |- _ => destruct m
  end.

Ltac vunfold :=
  cbv beta iota zeta delta
   [xform6lin xform6ang m3v6 m3tv6 v6angshift v6linshift frel finv fcascade xforminv xform fid
    m3rot m3rotinv m3cat v3cat v6cat m3skew m3dyad m6dyad m3create m3det m3row0 m3row1 m3row2
    m6v m6tr m6add m6zero m6colz m6colza m6rowz m6rowza
    v6zero v6add v6sub v6opp v6scale v6dot
    m3mul m3tv m3v m3add m3sub m3opp m3scale m3tr m3zero m3id
    v3triple v3sqr v3cross v3dot v3div v3scale v3opp v3sub v3add v3zero ex ey ez
    vx vy vz mc0 mc1 mc2 fpos fatt vlin vang mll mla mal maa].

Ltac vsplit :=
  repeat match goal with
  | |- V3 _ _ _ = V3 _ _ _ => f_equal
  | |- M3 _ _ _ = M3 _ _ _ => f_equal
  | |- V6 _ _ = V6 _ _ => f_equal
  | |- Fr _ _ = Fr _ _ => f_equal
  | |- M6 _ _ _ _ = M6 _ _ _ _ => f_equal
  end.

Section Facts.
Context {F : Type} {N : Num F} {L : NumLaws F N}.
Add Field FField : num_field.
Local Open Scope num_scope.

Ltac vring := intros; vdestruct; vunfold; vsplit; ring.

(** *** vec3 *)
Lemma v3add_comm (a b : vec3 F) : v3add a b = v3add b a. Proof. vring. Qed.
Lemma v3add_assoc (a b c : vec3 F) : v3add a (v3add b c) = v3add (v3add a b) c. Proof. vring. Qed.
Lemma v3add_0_l (a : vec3 F) : v3add v3zero a = a. Proof. vring. Qed.
Lemma v3add_0_r (a : vec3 F) : v3add a v3zero = a. Proof. vring. Qed.
Lemma v3sub_add (a b : vec3 F) : v3sub a b = v3add a (v3opp b). Proof. vring. Qed.
Lemma v3add_opp (a : vec3 F) : v3add a (v3opp a) = v3zero. Proof. vring. Qed.
Lemma v3sub_diag (a : vec3 F) : v3sub a a = v3zero. Proof. vring. Qed.
Lemma v3sub_0_r (a : vec3 F) : v3sub a v3zero = a. Proof. vring. Qed.
Lemma v3add_sub (a b : vec3 F) : v3sub (v3add a b) b = a. Proof. vring. Qed.
Lemma v3sub_add_cancel (a b : vec3 F) : v3add (v3sub a b) b = a. Proof. vring. Qed.
Lemma v3scale_add k (a b : vec3 F) : v3scale k (v3add a b) = v3add (v3scale k a) (v3scale k b). Proof. vring. Qed.
Lemma v3scale_add_l j k (a : vec3 F) : v3scale (j + k) a = v3add (v3scale j a) (v3scale k a). Proof. vring. Qed.
Lemma v3scale_scale j k (a : vec3 F) : v3scale j (v3scale k a) = v3scale (j * k) a. Proof. vring. Qed.
Lemma v3scale_1 (a : vec3 F) : v3scale 1 a = a. Proof. vring. Qed.
Lemma v3scale_0_l (a : vec3 F) : v3scale 0 a = v3zero. Proof. vring. Qed.
Lemma v3scale_0_r k : v3scale k (v3zero : vec3 F) = v3zero. Proof. vring. Qed.
Lemma v3opp_scale (a : vec3 F) : v3opp a = v3scale (- (1)) a. Proof. vring. Qed.
Lemma v3dot_comm (a b : vec3 F) : v3dot a b = v3dot b a. Proof. vring. Qed.
Lemma v3dot_add_l (a b c : vec3 F) : v3dot (v3add a b) c = v3dot a c + v3dot b c. Proof. vring. Qed.
Lemma v3dot_add_r (a b c : vec3 F) : v3dot a (v3add b c) = v3dot a b + v3dot a c. Proof. vring. Qed.
Lemma v3dot_sub_l (a b c : vec3 F) : v3dot (v3sub a b) c = v3dot a c - v3dot b c. Proof. vring. Qed.
Lemma v3dot_sub_r (a b c : vec3 F) : v3dot a (v3sub b c) = v3dot a b - v3dot a c. Proof. vring. Qed.
Lemma v3dot_scale_l k (a b : vec3 F) : v3dot (v3scale k a) b = k * v3dot a b. Proof. vring. Qed.
Lemma v3dot_scale_r k (a b : vec3 F) : v3dot a (v3scale k b) = k * v3dot a b. Proof. vring. Qed.
Lemma v3dot_0_l (a : vec3 F) : v3dot v3zero a = 0. Proof. vring. Qed.
Lemma v3dot_0_r (a : vec3 F) : v3dot a v3zero = 0. Proof. vring. Qed.
Lemma v3cross_add_l (a b c : vec3 F) : v3cross (v3add a b) c = v3add (v3cross a c) (v3cross b c). Proof. vring. Qed.
Lemma v3cross_add_r (a b c : vec3 F) : v3cross a (v3add b c) = v3add (v3cross a b) (v3cross a c). Proof. vring. Qed.
Lemma v3cross_scale_l k (a b : vec3 F) : v3cross (v3scale k a) b = v3scale k (v3cross a b). Proof. vring. Qed.
Lemma v3cross_scale_r k (a b : vec3 F) : v3cross a (v3scale k b) = v3scale k (v3cross a b). Proof. vring. Qed.
Lemma v3cross_0_l (a : vec3 F) : v3cross v3zero a = v3zero. Proof. vring. Qed.
Lemma v3cross_0_r (a : vec3 F) : v3cross a v3zero = v3zero. Proof. vring. Qed.
Lemma v3cross_diag (a : vec3 F) : v3cross a a = v3zero. Proof. vring. Qed.
Lemma v3cross_anti (a b : vec3 F) : v3cross a b = v3opp (v3cross b a). Proof. vring. Qed.
Lemma v3cross_sub_l (a b c : vec3 F) : v3cross (v3sub a b) c = v3sub (v3cross a c) (v3cross b c). Proof. vring. Qed.
Lemma v3cross_sub_r (a b c : vec3 F) : v3cross a (v3sub b c) = v3sub (v3cross a b) (v3cross a c). Proof. vring. Qed.
Lemma v3dot_cross_cyc (a b c : vec3 F) : v3dot a (v3cross b c) = v3dot b (v3cross c a). Proof. vring. Qed.
Lemma v3dot_cross_self_l (a b : vec3 F) : v3dot a (v3cross a b) = 0. Proof. vring. Qed.
Lemma v3dot_cross_self_r (a b : vec3 F) : v3dot b (v3cross a b) = 0. Proof. vring. Qed.
Lemma v3jacobi (a b c : vec3 F) :
  v3cross a (v3cross b c) = v3add (v3cross (v3cross a b) c) (v3cross b (v3cross a c)). Proof. vring. Qed.
Lemma v3skew_v (a b : vec3 F) : m3v (m3skew a) b = v3cross a b. Proof. vring. Qed.
Lemma v3_ext_dot (a b : vec3 F) : (forall c, v3dot c a = v3dot c b) -> a = b.
Proof.
  intros H. assert (Hx := H ex). assert (Hy := H ey). assert (Hz := H ez).
  destruct a as [a1 a2 a3], b as [b1 b2 b3]. unfold v3dot, ex, ey, ez in *. cbn [vx vy vz] in *.
  f_equal.
  - replace a1 with (1 * a1 + 0 * a2 + 0 * a3) by ring. rewrite Hx. ring.
  - replace a2 with (0 * a1 + 1 * a2 + 0 * a3) by ring. rewrite Hy. ring.
  - replace a3 with (0 * a1 + 0 * a2 + 1 * a3) by ring. rewrite Hz. ring.
Qed.

(** *** mat3 *)
Lemma m3v_add_r (m : mat3 F) a b : m3v m (v3add a b) = v3add (m3v m a) (m3v m b). Proof. vring. Qed.
Lemma m3v_sub_r (m : mat3 F) a b : m3v m (v3sub a b) = v3sub (m3v m a) (m3v m b). Proof. vring. Qed.
Lemma m3v_opp_r (m : mat3 F) a : m3v m (v3opp a) = v3opp (m3v m a). Proof. vring. Qed.
Lemma m3v_scale_r (m : mat3 F) k a : m3v m (v3scale k a) = v3scale k (m3v m a). Proof. vring. Qed.
Lemma m3v_0_r (m : mat3 F) : m3v m v3zero = v3zero. Proof. vring. Qed.
Lemma m3v_add_l (m n : mat3 F) a : m3v (m3add m n) a = v3add (m3v m a) (m3v n a). Proof. vring. Qed.
Lemma m3v_scale_l (m : mat3 F) k a : m3v (m3scale k m) a = v3scale k (m3v m a). Proof. vring. Qed.
Lemma m3v_zero_l (a : vec3 F) : m3v m3zero a = v3zero. Proof. vring. Qed.
Lemma m3v_id (a : vec3 F) : m3v m3id a = a. Proof. vring. Qed.
Lemma m3tv_tr (m : mat3 F) a : m3tv m a = m3v (m3tr m) a. Proof. vring. Qed.
Lemma m3tv_add_r (m : mat3 F) a b : m3tv m (v3add a b) = v3add (m3tv m a) (m3tv m b). Proof. vring. Qed.
Lemma m3tv_sub_r (m : mat3 F) a b : m3tv m (v3sub a b) = v3sub (m3tv m a) (m3tv m b). Proof. vring. Qed.
Lemma m3tv_scale_r (m : mat3 F) k a : m3tv m (v3scale k a) = v3scale k (m3tv m a). Proof. vring. Qed.
Lemma m3tv_opp_r (m : mat3 F) a : m3tv m (v3opp a) = v3opp (m3tv m a). Proof. vring. Qed.
Lemma m3tv_0_r (m : mat3 F) : m3tv m v3zero = v3zero. Proof. vring. Qed.
Lemma m3mul_v (m n : mat3 F) a : m3v (m3mul m n) a = m3v m (m3v n a). Proof. vring. Qed.
Lemma m3mul_assoc (a b c : mat3 F) : m3mul a (m3mul b c) = m3mul (m3mul a b) c.
Proof.
  change (m3mul a (m3mul b c)) with (M3 (m3v a (m3v b (mc0 c))) (m3v a (m3v b (mc1 c))) (m3v a (m3v b (mc2 c)))).
  now rewrite <- !m3mul_v.
Qed.
Lemma m3mul_id_l (a : mat3 F) : m3mul m3id a = a. Proof. vring. Qed.
Lemma m3mul_id_r (a : mat3 F) : m3mul a m3id = a. Proof. vring. Qed.
Lemma m3tr_mul (a b : mat3 F) : m3tr (m3mul a b) = m3mul (m3tr b) (m3tr a). Proof. vring. Qed.
Lemma m3tr_tr (a : mat3 F) : m3tr (m3tr a) = a. Proof. vring. Qed.
Lemma m3tr_id : m3tr (m3id : mat3 F) = m3id. Proof. vring. Qed.
Lemma m3tr_add (a b : mat3 F) : m3tr (m3add a b) = m3add (m3tr a) (m3tr b). Proof. vring. Qed.
Lemma m3tr_scale k (a : mat3 F) : m3tr (m3scale k a) = m3scale k (m3tr a). Proof. vring. Qed.
Lemma m3add_comm (a b : mat3 F) : m3add a b = m3add b a. Proof. vring. Qed.
Lemma m3add_assoc (a b c : mat3 F) : m3add a (m3add b c) = m3add (m3add a b) c. Proof. vring. Qed.
Lemma m3mul_add_l (a b c : mat3 F) : m3mul (m3add a b) c = m3add (m3mul a c) (m3mul b c). Proof. vring. Qed.
Lemma m3mul_add_r (a b c : mat3 F) : m3mul a (m3add b c) = m3add (m3mul a b) (m3mul a c). Proof. vring. Qed.
Lemma m3mul_scale_l k (a b : mat3 F) : m3mul (m3scale k a) b = m3scale k (m3mul a b). Proof. vring. Qed.
Lemma m3mul_scale_r k (a b : mat3 F) : m3mul a (m3scale k b) = m3scale k (m3mul a b). Proof. vring. Qed.
Lemma m3det_mul (a b : mat3 F) : m3det (m3mul a b) = m3det a * m3det b. Proof. vring. Qed.
Lemma m3det_tr (a : mat3 F) : m3det (m3tr a) = m3det a. Proof. vring. Qed.
Lemma m3det_id : m3det (m3id : mat3 F) = 1. Proof. vring. Qed.
Lemma v3dot_m3v (m : mat3 F) a b : v3dot a (m3v m b) = v3dot (m3tv m a) b. Proof. vring. Qed.
Lemma v3dot_m3tv (m : mat3 F) a b : v3dot a (m3tv m b) = v3dot (m3v m a) b. Proof. vring. Qed.
Lemma m3_ext_v (m n : mat3 F) : (forall v, m3v m v = m3v n v) -> m = n.
Proof.
  intros H. assert (Hx := H ex). assert (Hy := H ey). assert (Hz := H ez).
  assert (forall m : mat3 F, m = M3 (m3v m ex) (m3v m ey) (m3v m ez)) as E by vring.
  rewrite (E m), (E n). congruence.
Qed.

(** *** rotations *)
Definition m3adj (m : mat3 F) : mat3 F :=
  m3tr (M3 (v3cross (mc1 m) (mc2 m)) (v3cross (mc2 m) (mc0 m)) (v3cross (mc0 m) (mc1 m))).
Lemma m3mul_adj (m : mat3 F) : m3mul m (m3adj m) = m3scale (m3det m) m3id.
Proof. unfold m3adj. vring. Qed.
Lemma m3scale_1 (m : mat3 F) : m3scale 1 m = m. Proof. vring. Qed.

Lemma rotation_adj (r : mat3 F) : rotation r -> m3tr r = m3adj r.
Proof.
  intros [H D]. rewrite <- (m3mul_id_r (m3tr r)).
  assert (E := m3mul_adj r). rewrite D, m3scale_1 in E.
  rewrite <- E at 1. rewrite m3mul_assoc, H. apply m3mul_id_l.
Qed.
Lemma rotation_mul_tr (r : mat3 F) : rotation r -> m3mul r (m3tr r) = m3id.
Proof.
  intros H. rewrite (rotation_adj _ H), m3mul_adj. destruct H as [_ D]. rewrite D. apply m3scale_1.
Qed.
Lemma rotation_tr_mul (r : mat3 F) : rotation r -> m3mul (m3tr r) r = m3id.
Proof. now intros [H _]. Qed.
Lemma rotation_id : rotation (m3id : mat3 F).
Proof. split; [rewrite m3tr_id; apply m3mul_id_l | apply m3det_id]. Qed.
Lemma rotation_mul (a b : mat3 F) : rotation a -> rotation b -> rotation (m3mul a b).
Proof.
  intros [Ha Da] [Hb Db]. split.
  - rewrite m3tr_mul. rewrite <- m3mul_assoc. rewrite (m3mul_assoc (m3tr a) a b), Ha, m3mul_id_l. exact Hb.
  - rewrite m3det_mul, Da, Db. ring.
Qed.
Lemma rotation_tr (a : mat3 F) : rotation a -> rotation (m3tr a).
Proof.
  intros H. split.
  - rewrite m3tr_tr. now apply rotation_mul_tr.
  - rewrite m3det_tr. now destruct H.
Qed.
Lemma rot_tv_v (r : mat3 F) v : rotation r -> m3tv r (m3v r v) = v.
Proof. intros [H _]. now rewrite m3tv_tr, <- m3mul_v, H, m3v_id. Qed.
Lemma rot_v_tv (r : mat3 F) v : rotation r -> m3v r (m3tv r v) = v.
Proof. intros H. now rewrite m3tv_tr, <- m3mul_v, rotation_mul_tr, m3v_id. Qed.
Lemma rot_dot (r : mat3 F) a b : rotation r -> v3dot (m3v r a) (m3v r b) = v3dot a b.
Proof. intros H. now rewrite v3dot_m3v, rot_tv_v. Qed.
Lemma rot_dot_t (r : mat3 F) a b : rotation r -> v3dot (m3tv r a) (m3tv r b) = v3dot a b.
Proof. intros H. now rewrite <- v3dot_m3v, rot_v_tv. Qed.

Lemma m3v_cross_adj (m : mat3 F) a b :
  v3cross (m3v m a) (m3v m b) = m3v (m3tr (m3adj m)) (v3cross a b).
Proof. unfold m3adj. vring. Qed.
Lemma rot_cross (r : mat3 F) a b : rotation r -> m3v r (v3cross a b) = v3cross (m3v r a) (m3v r b).
Proof. intros H. now rewrite m3v_cross_adj, <- rotation_adj, m3tr_tr. Qed.
Lemma rot_cross_t (r : mat3 F) a b : rotation r -> m3tv r (v3cross a b) = v3cross (m3tv r a) (m3tv r b).
Proof. intros H. rewrite !m3tv_tr. apply rot_cross. now apply rotation_tr. Qed.

(** Columns of a rotation. *)
Lemma rotation_cols (r : mat3 F) : rotation r <->
  (v3dot (mc0 r) (mc0 r) = 1 /\ v3dot (mc1 r) (mc1 r) = 1 /\ v3dot (mc2 r) (mc2 r) = 1 /\
   v3dot (mc0 r) (mc1 r) = 0 /\ v3dot (mc1 r) (mc2 r) = 0 /\ v3dot (mc2 r) (mc0 r) = 0) /\ m3det r = 1.
Proof.
  unfold rotation.
  assert (E : m3mul (m3tr r) r =
    M3 (V3 (v3dot (mc0 r) (mc0 r)) (v3dot (mc0 r) (mc1 r)) (v3dot (mc2 r) (mc0 r)))
       (V3 (v3dot (mc0 r) (mc1 r)) (v3dot (mc1 r) (mc1 r)) (v3dot (mc1 r) (mc2 r)))
       (V3 (v3dot (mc2 r) (mc0 r)) (v3dot (mc1 r) (mc2 r)) (v3dot (mc2 r) (mc2 r)))) by vring.
  rewrite E. unfold m3id, ex, ey, ez. split.
  - intros [H D]. injection H; intros. repeat split; assumption.
  - intros [(H1 & H2 & H3 & H4 & H5 & H6) D]. split; [|exact D].
    now rewrite H1, H2, H3, H4, H5, H6.
Qed.
Lemma rotation_cross (r : mat3 F) : rotation r ->
  v3cross (mc0 r) (mc1 r) = mc2 r /\ v3cross (mc1 r) (mc2 r) = mc0 r /\ v3cross (mc2 r) (mc0 r) = mc1 r.
Proof.
  intros H. assert (E := rotation_adj _ H). unfold m3adj in E.
  apply (f_equal m3tr) in E. rewrite !m3tr_tr in E. destruct r as [a b c]. cbn in *.
  injection E; intros E1 E2 E3. repeat split; congruence.
Qed.

(** *** frames *)
Lemma fcascade_assoc (a b c : frame F) : fcascade a (fcascade b c) = fcascade (fcascade a b) c.
Proof.
  unfold fcascade, xform. cbn [fpos fatt]. rewrite m3mul_assoc, m3mul_v, m3v_add_r. f_equal.
  apply eq_sym, v3add_assoc.
Qed.
Lemma fcascade_id_l (a : frame F) : fcascade fid a = a. Proof. vring. Qed.
Lemma fcascade_id_r (a : frame F) : fcascade a fid = a. Proof. vring. Qed.
Lemma rigid_cascade (a b : frame F) : rigid a -> rigid b -> rigid (fcascade a b).
Proof. unfold rigid. intros. cbn. now apply rotation_mul. Qed.
Lemma rigid_id : rigid (fid : frame F). Proof. apply rotation_id. Qed.
Lemma rigid_inv (a : frame F) : rigid a -> rigid (finv a).
Proof. unfold rigid. intros. cbn. now apply rotation_tr. Qed.
Lemma frel_spec (a b : frame F) : rigid a -> fcascade a (frel a b) = b.
Proof.
  intros H. unfold fcascade, frel, xform, xforminv. cbn [fpos fatt].
  rewrite (rot_v_tv _ _ H), v3sub_add_cancel, m3mul_assoc, rotation_mul_tr, m3mul_id_l by exact H.
  now destruct b.
Qed.
Lemma frel_inv (a b : frame F) : frel a b = fcascade (finv a) b. Proof. vring. Qed.
Lemma frel_cascade (a b : frame F) : rigid a -> frel a (fcascade a b) = b.
Proof.
  intros H. unfold fcascade, frel, xform, xforminv. cbn [fpos fatt].
  rewrite v3add_sub, rot_tv_v, m3mul_assoc, rotation_tr_mul, m3mul_id_l by exact H.
  now destruct b.
Qed.
Lemma xform_cascade (a b : frame F) p : xform (fcascade a b) p = xform a (xform b p). Proof. vring. Qed.
Lemma xforminv_xform (a : frame F) p : rigid a -> xforminv a (xform a p) = p.
Proof. intros H. unfold xform, xforminv. now rewrite v3add_sub, rot_tv_v. Qed.
Lemma xform_xforminv (a : frame F) p : rigid a -> xform a (xforminv a p) = p.
Proof. intros H. unfold xform, xforminv. now rewrite rot_v_tv, v3sub_add_cancel. Qed.

(** *** vec6 *)
Lemma v6add_comm (a b : vec6 F) : v6add a b = v6add b a. Proof. vring. Qed.
Lemma v6add_assoc (a b c : vec6 F) : v6add a (v6add b c) = v6add (v6add a b) c. Proof. vring. Qed.
Lemma v6add_0_l (a : vec6 F) : v6add v6zero a = a. Proof. vring. Qed.
Lemma v6add_0_r (a : vec6 F) : v6add a v6zero = a. Proof. vring. Qed.
Lemma v6sub_diag (a : vec6 F) : v6sub a a = v6zero. Proof. vring. Qed.
Lemma v6sub_0_r (a : vec6 F) : v6sub a v6zero = a. Proof. vring. Qed.
Lemma v6add_sub (a b : vec6 F) : v6sub (v6add a b) b = a. Proof. vring. Qed.
Lemma v6sub_add_cancel (a b : vec6 F) : v6add (v6sub a b) b = a. Proof. vring. Qed.
Lemma v6dot_comm (a b : vec6 F) : v6dot a b = v6dot b a. Proof. vring. Qed.
Lemma v6dot_add_l (a b c : vec6 F) : v6dot (v6add a b) c = v6dot a c + v6dot b c. Proof. vring. Qed.
Lemma v6dot_add_r (a b c : vec6 F) : v6dot a (v6add b c) = v6dot a b + v6dot a c. Proof. vring. Qed.
Lemma v6dot_sub_l (a b c : vec6 F) : v6dot (v6sub a b) c = v6dot a c - v6dot b c. Proof. vring. Qed.
Lemma v6dot_sub_r (a b c : vec6 F) : v6dot a (v6sub b c) = v6dot a b - v6dot a c. Proof. vring. Qed.
Lemma v6dot_scale_l k (a b : vec6 F) : v6dot (v6scale k a) b = k * v6dot a b. Proof. vring. Qed.
Lemma v6dot_scale_r k (a b : vec6 F) : v6dot a (v6scale k b) = k * v6dot a b. Proof. vring. Qed.
Lemma v6dot_0_l (a : vec6 F) : v6dot v6zero a = 0. Proof. vring. Qed.
Lemma v6dot_0_r (a : vec6 F) : v6dot a v6zero = 0. Proof. vring. Qed.

(** A twist and a wrench moved between two rigidly related frames have the same power. *)
Lemma xform6_power (f : frame F) (v w : vec6 F) : v6dot (xform6lin f v) w = v6dot v (xform6ang f w).
Proof. vring. Qed.
Lemma shift_power (p : vec3 F) (v w : vec6 F) : v6dot (v6linshift v p) w = v6dot v (v6angshift w p).
Proof. vring. Qed.
Lemma xform6ang_add (f : frame F) a b : xform6ang f (v6add a b) = v6add (xform6ang f a) (xform6ang f b). Proof. vring. Qed.
Lemma xform6ang_sub (f : frame F) a b : xform6ang f (v6sub a b) = v6sub (xform6ang f a) (xform6ang f b). Proof. vring. Qed.
Lemma xform6ang_0 (f : frame F) : xform6ang f v6zero = v6zero. Proof. vring. Qed.
Lemma xform6ang_scale (f : frame F) k a : xform6ang f (v6scale k a) = v6scale k (xform6ang f a). Proof. vring. Qed.
Lemma xform6lin_add (f : frame F) a b : xform6lin f (v6add a b) = v6add (xform6lin f a) (xform6lin f b). Proof. vring. Qed.
Lemma xform6lin_0 (f : frame F) : xform6lin f v6zero = v6zero. Proof. vring. Qed.
Lemma xform6lin_scale (f : frame F) k a : xform6lin f (v6scale k a) = v6scale k (xform6lin f a). Proof. vring. Qed.
Lemma xform6lin_fid (v : vec6 F) : xform6lin fid v = v. Proof. vring. Qed.
Lemma xform6ang_fid (v : vec6 F) : xform6ang fid v = v. Proof. vring. Qed.
Lemma xform6ang_cascade (f g : frame F) (w : vec6 F) : rigid f ->
  xform6ang (fcascade f g) w = xform6ang f (xform6ang g w).
Proof.
  intros H. unfold xform6ang, v6angshift, m3v6, fcascade, xform. cbn [vlin vang fpos fatt].
  rewrite !m3mul_v, !m3v_add_r. f_equal. rewrite (rot_cross _ _ _ H). rewrite v3cross_add_l.
  rewrite <- !v3add_assoc. reflexivity.
Qed.
Lemma xform6lin_cascade (f g : frame F) (v : vec6 F) : rigid f ->
  xform6lin (fcascade f g) v = xform6lin g (xform6lin f v).
Proof.
  intros H. unfold xform6lin, v6linshift, m3tv6, fcascade, xform. cbn [vlin vang fpos fatt].
  rewrite !m3tv_tr, !m3tr_mul, !m3mul_v. rewrite <- !m3tv_tr. f_equal.
  f_equal. rewrite !m3tv_add_r, v3cross_add_r, !m3tv_add_r, !(rot_cross_t _ _ _ H), (rot_tv_v _ _ H).
  rewrite <- v3add_assoc. f_equal. apply v3add_comm.
Qed.

(** *** mat6 *)
Lemma m6v_add_r (m : mat6 F) a b : m6v m (v6add a b) = v6add (m6v m a) (m6v m b). Proof. vring. Qed.
Lemma m6v_sub_r (m : mat6 F) a b : m6v m (v6sub a b) = v6sub (m6v m a) (m6v m b). Proof. vring. Qed.
Lemma m6v_scale_r (m : mat6 F) k a : m6v m (v6scale k a) = v6scale k (m6v m a). Proof. vring. Qed.
Lemma m6v_0_r (m : mat6 F) : m6v m v6zero = v6zero. Proof. vring. Qed.
Lemma m6v_add_l (m n : mat6 F) a : m6v (m6add m n) a = v6add (m6v m a) (m6v n a). Proof. vring. Qed.
Lemma m6dyad_v (a b v : vec6 F) : m6v (m6dyad a b) v = v6scale (v6dot b v) a. Proof. vring. Qed.
Lemma m6tr_v (m : mat6 F) a b : v6dot a (m6v m b) = v6dot (m6v (m6tr m) a) b. Proof. vring. Qed.

(** *** sums *)
Lemma v6sum_app (l m : list (vec6 F)) : v6sum (l ++ m) = v6add (v6sum l) (v6sum m).
Proof.
  induction l as [|a l IH]; cbn [v6sum fold_right app].
  - symmetry. apply v6add_0_l.
  - unfold v6sum in *. cbn. now rewrite IH, v6add_assoc.
Qed.
Lemma v6sum_perm (l m : list (vec6 F)) : Permutation l m -> v6sum l = v6sum m.
Proof.
  induction 1; unfold v6sum in *; cbn; auto; try congruence.
  rewrite !v6add_assoc. f_equal. apply v6add_comm.
Qed.
Lemma v3sum_app (l m : list (vec3 F)) : v3sum (l ++ m) = v3add (v3sum l) (v3sum m).
Proof.
  induction l as [|a l IH]; unfold v3sum in *; cbn.
  - symmetry. apply v3add_0_l.
  - now rewrite IH, v3add_assoc.
Qed.
Lemma nsum_app (l m : list F) : nsum (l ++ m) = nsum l + nsum m.
Proof. induction l as [|a l IH]; unfold nsum in *; cbn; [ring | rewrite IH; ring]. Qed.
Lemma m3v_v3sum (m : mat3 F) (l : list (vec3 F)) : m3v m (v3sum l) = v3sum (map (m3v m) l).
Proof. induction l as [|a l IH]; unfold v3sum in *; cbn; [apply m3v_0_r | now rewrite m3v_add_r, IH]. Qed.
Lemma xform6ang_v6sum (f : frame F) (l : list (vec6 F)) : xform6ang f (v6sum l) = v6sum (map (xform6ang f) l).
Proof. induction l as [|a l IH]; unfold v6sum in *; cbn; [apply xform6ang_0 | now rewrite xform6ang_add, IH]. Qed.
Lemma v6dot_v6sum_r (v : vec6 F) (l : list (vec6 F)) : v6dot v (v6sum l) = nsum (map (v6dot v) l).
Proof. induction l as [|a l IH]; unfold v6sum, nsum in *; cbn; [apply v6dot_0_r | now rewrite v6dot_add_r, IH]. Qed.
End Facts.

(** Exported tactic (needs a field declared as ring in the current section). *)
Ltac vprep := intros; vdestruct; vunfold; vsplit.
