(** * CD_Geo: an executable reading of the ZEO geometry functions used by the collision detector.

    Used for [Example]s and [_refuted] witnesses, and to show that the hypotheses on the external functions
    can be met.  Faces are oriented outwards; boxes are intervals in a frame; the exact test looks for a
    vertex of either polyhedron lying in both. *)

From Coq Require Import Bool List Arith PArith Field.
From Verif Require Import Num NumFacts Vec VecFacts CD_Model.
Import ListNotations.

Definition gbox (F : Type) := (vec3 F * vec3 F * frame F)%type.
Definition gaab (F : Type) := (vec3 F * vec3 F)%type.

Section Geo.
Context {F : Type} {N : Num F}.
Local Open Scope num_scope.

Definition nmin (a b : F) := if a <=? b then a else b.
Definition nmax (a b : F) := if a <=? b then b else a.
Definition v3min (a b : vec3 F) := V3 (nmin (vx a) (vx b)) (nmin (vy a) (vy b)) (nmin (vz a) (vz b)).
Definition v3max (a b : vec3 F) := V3 (nmax (vx a) (vx b)) (nmax (vy a) (vy b)) (nmax (vz a) (vz b)).
Definition bound (g : vec3 F -> vec3 F -> vec3 F) (l : list (vec3 F)) : vec3 F :=
  match l with [] => v3zero | x :: tl => fold_left g tl x end.

(** The image of an interval under a row of a matrix, and of a box under a frame. *)
Definition lo1 (r l h : F) := nmin (r * l) (r * h).
Definition hi1 (r l h : F) := nmax (r * l) (r * h).
Definition img (f : frame F) (l h : vec3 F) : gaab F :=
  let row g (r : vec3 F) := g (vx r) (vx l) (vx h) + g (vy r) (vy l) (vy h) + g (vz r) (vz l) (vz h) in
  let m := fatt f in
  (v3add (V3 (row lo1 (m3row0 m)) (row lo1 (m3row1 m)) (row lo1 (m3row2 m))) (fpos f),
   v3add (V3 (row hi1 (m3row0 m)) (row hi1 (m3row1 m)) (row hi1 (m3row2 m))) (fpos f)).

Definition overlap (a b : gaab F) : bool :=
  let '(l1, h1) := a in let '(l2, h2) := b in
  (vx l1 <=? vx h2) && (vx l2 <=? vx h1) && (vy l1 <=? vy h2) && (vy l2 <=? vy h1) &&
  (vz l1 <=? vz h2) && (vz l2 <=? vz h1).

Definition g_obb (l : list (vec3 F)) : gbox F := (bound v3min l, bound v3max l, fid).
Definition g_bxf (b : gbox F) (f : frame F) : gbox F := let '(l, h, g) := b in (l, h, fcascade f g).
Definition g_aab (b : gbox F) : gaab F := let '(l, h, f) := b in img f l h.
Definition g_cbox (a b : gbox F) : bool :=
  let '(l1, h1, f1) := a in let '(l2, h2, f2) := b in overlap (l1, h1) (img (frel f1 f2) l2 h2).

(** The axis-aligned block between two corners. *)
Definition block (l h : vec3 F) : ph F :=
  PH [V3 (vx l) (vy l) (vz l); V3 (vx h) (vy l) (vz l); V3 (vx l) (vy h) (vz l); V3 (vx h) (vy h) (vz l);
      V3 (vx l) (vy l) (vz h); V3 (vx h) (vy l) (vz h); V3 (vx l) (vy h) (vz h); V3 (vx h) (vy h) (vz h)]
     [(1, 3, 5); (7, 5, 3); (0, 4, 2); (6, 2, 4);
      (2, 6, 3); (7, 3, 6); (0, 1, 4); (5, 4, 1);
      (4, 5, 6); (7, 6, 5); (0, 2, 1); (3, 1, 2)]%nat.
Definition g_boxph (b : gbox F) : ph F := let '(l, h, f) := b in place (block l h) f.

(** Which side of a face a point is on (positive: outside). *)
Definition side (vs : list (vec3 F)) (t : nat * nat * nat) (x : vec3 F) : F :=
  let '(i, j, k) := t in
  match nth_error vs i, nth_error vs j, nth_error vs k with
  | Some a, Some b, Some c => v3dot (v3cross (v3sub b a) (v3sub c a)) (v3sub x a)
  | _, _, _ => 0
  end.
Definition g_in (p : ph F) (x : vec3 F) : bool := forallb (fun t => side (vts p) t x <=? 0) (fcs p).
Definition g_inside (p : ph F) (x : vec3 F) : bool := forallb (fun t => negb (0 <=? side (vts p) t x)) (fcs p).
Definition g_cph (a b : ph F) : bool := existsb (fun v => g_in a v && g_in b v) (vts a ++ vts b).

(** The foot of the perpendicular on the plane of a face, and the nearest of them. *)
Definition foot (vs : list (vec3 F)) (t : nat * nat * nat) (x : vec3 F) : vec3 F :=
  let '(i, j, k) := t in
  match nth_error vs i, nth_error vs j, nth_error vs k with
  | Some a, Some b, Some c =>
    let n := v3cross (v3sub b a) (v3sub c a) in
    v3sub x (v3scale (v3dot n (v3sub x a) / v3sqr n) n)
  | _, _, _ => x
  end.
Definition g_closest (p : ph F) (x : vec3 F) : vec3 F :=
  match fcs p with
  | [] => x
  | t :: tl => fold_left (fun y t => let z := foot (vts p) t x in
                                     if v3sqr (v3sub y x) <=? v3sqr (v3sub z x) then y else z) tl (foot (vts p) t x)
  end.

(** Two further axes; exact for directions along the coordinate axes. *)
Definition g_ortho (n : vec3 F) : vec3 F * vec3 F :=
  let y := if (vx n * vx n <=? 0) && (vy n * vy n <=? 0) then v3cross n ey else v3cross n ez in (y, v3cross n y).
Definition g_unit (v : vec3 F) : vec3 F := v3div v (nmax (nabs (vx v)) (nmax (nabs (vy v)) (nabs (vz v)))).
Definition g_vtiny (v : vec3 F) : bool := nltb (v3sqr v) (1 / npos 1000000%positive).

#[export] Instance geo : CDExt F (gbox F) (gaab F) :=
  mkCDExt F (gbox F) (gaab F) g_obb g_bxf g_aab g_boxph overlap g_cbox g_cph g_inside g_closest g_ortho g_vtiny g_unit
          (fun _ => g_cph).
End Geo.

(** ** The tests lose nothing *)

Section GeoLaws.
Context {F : Type} {N : Num F} {L : NumLaws F N}.
Add Field GeoField : num_field.
Local Open Scope num_scope.

Definition in_ph (p : ph F) (x : vec3 F) : Prop := g_in p x = true.
Definition v3le (a b : vec3 F) : Prop := vx a <= vx b /\ vy a <= vy b /\ vz a <= vz b.
Definition in_aab (a : gaab F) (x : vec3 F) : Prop := v3le (fst a) x /\ v3le x (snd a).
Definition in_box (b : gbox F) (x : vec3 F) : Prop :=
  let '(l, h, f) := b in rigid f /\ in_aab (l, h) (xforminv f x).

Lemma nmin_l (a b : F) : nmin a b <= a.
Proof. unfold nmin. destruct (a <=? b) eqn:E; [apply nle_refl|]. apply nlt_le. exact E. Qed.
Lemma nmin_r (a b : F) : nmin a b <= b.
Proof. unfold nmin. destruct (a <=? b) eqn:E; [exact E | apply nle_refl]. Qed.
Lemma nmax_l (a b : F) : a <= nmax a b.
Proof. unfold nmax. destruct (a <=? b) eqn:E; [exact E | apply nle_refl]. Qed.
Lemma nmax_r (a b : F) : b <= nmax a b.
Proof. unfold nmax. destruct (a <=? b) eqn:E; [apply nle_refl | apply nlt_le; exact E]. Qed.

Lemma row_bound (r l h x : F) : l <= x -> x <= h -> lo1 r l h <= r * x /\ r * x <= hi1 r l h.
Proof.
  intros H1 H2. unfold lo1, hi1. destruct (nle_or_lt 0 r) as [K|K].
  - split.
    + eapply nle_trans; [apply nmin_l | now apply nle_mul_l].
    + eapply nle_trans; [| apply nmax_r]. now apply nle_mul_l.
  - assert (K' : 0 <= - r) by (apply nle_opp0; now apply nlt_le).
    split.
    + eapply nle_trans; [apply nmin_r|].
      apply nle_opp in H2. assert (E := nle_mul_l _ _ _ K' H2).
      replace (- r * - h) with (r * h) in E by ring. replace (- r * - x) with (r * x) in E by ring. exact E.
    + eapply nle_trans; [| apply nmax_l].
      apply nle_opp in H1. assert (E := nle_mul_l _ _ _ K' H1).
      replace (- r * - l) with (r * l) in E by ring. replace (- r * - x) with (r * x) in E by ring. exact E.
Qed.

Lemma img_in (f : frame F) l h y : in_aab (l, h) y -> in_aab (img f l h) (xform f y).
Proof.
  intros [(A1 & A2 & A3) (B1 & B2 & B3)]. cbn [fst snd] in *. destruct f as [p m], y as [yx yy yz].
  assert (T : forall r : vec3 F,
    lo1 (vx r) (vx l) (vx h) + lo1 (vy r) (vy l) (vy h) + lo1 (vz r) (vz l) (vz h) <= v3dot r (V3 yx yy yz) /\
    v3dot r (V3 yx yy yz) <= hi1 (vx r) (vx l) (vx h) + hi1 (vy r) (vy l) (vy h) + hi1 (vz r) (vz l) (vz h)).
  { intros r. unfold v3dot. cbn [vx vy vz] in *.
    destruct (row_bound (vx r) _ _ _ A1 B1), (row_bound (vy r) _ _ _ A2 B2), (row_bound (vz r) _ _ _ A3 B3).
    split; repeat apply nle_add2; assumption. }
  assert (E : xform (Fr p m) (V3 yx yy yz) =
    v3add (V3 (v3dot (m3row0 m) (V3 yx yy yz)) (v3dot (m3row1 m) (V3 yx yy yz)) (v3dot (m3row2 m) (V3 yx yy yz))) p).
  { vdestruct. unfold xform, m3row0, m3row1, m3row2. vunfold. cbn [fatt fpos]. vunfold. f_equal; ring. }
  rewrite E. unfold img, in_aab, v3le. cbn [fst snd fatt fpos v3add vx vy vz].
  destruct (T (m3row0 m)), (T (m3row1 m)), (T (m3row2 m)).
  repeat split; apply nle_add; assumption.
Qed.

Lemma overlap_complete (a b : gaab F) x : in_aab a x -> in_aab b x -> overlap a b = true.
Proof.
  destruct a as [l1 h1], b as [l2 h2]. unfold in_aab, v3le. cbn [fst snd]. intros H K.
  unfold overlap. rewrite !andb_true_iff.
  assert (T : forall u v w : F, u <= v -> v <= w -> (u <=? w) = true) by (intros u v w; apply nleb_trans).
  repeat split; eapply T; (apply H || apply K).
Qed.

Lemma aab_encloses (b : gbox F) x : in_box b x -> in_aab (g_aab b) x.
Proof.
  destruct b as [[l h] f]. intros [R H]. apply (img_in f) in H. now rewrite xform_xforminv in H.
Qed.

Lemma cbox_complete (a b : gbox F) x : in_box a x -> in_box b x -> g_cbox a b = true.
Proof.
  destruct a as [[l1 h1] f1], b as [[l2 h2] f2]. intros [R1 H1] [R2 H2]. unfold g_cbox.
  apply (overlap_complete _ _ (xforminv f1 x)); [assumption|].
  apply (img_in (frel f1 f2)) in H2.
  replace (xform (frel f1 f2) (xforminv f2 x)) with (xforminv f1 x) in H2; [assumption|].
  rewrite <- (xform_xforminv f2 x R2) at 1.
  rewrite frel_inv, xform_cascade. generalize (xform f2 (xforminv f2 x)). intros y.
  destruct f1 as [p m], y as [yx yy yz]. vdestruct. unfold xforminv, xform, finv. vunfold. cbn [fatt fpos]. vunfold.
  f_equal; ring.
Qed.

Lemma cph_sound (a b : ph F) : g_cph a b = true -> exists x, in_ph a x /\ in_ph b x.
Proof.
  unfold g_cph. rewrite existsb_exists. intros (x & _ & H). apply andb_prop in H. exists x. exact H.
Qed.

Lemma side_place (f : frame F) vs t x : rigid f -> side (map (xform f) vs) t x = side vs t (xforminv f x).
Proof.
  intros R. destruct t as [[i j] k]. unfold side. rewrite !nth_error_map.
  destruct (nth_error vs i) as [a|], (nth_error vs j) as [b|], (nth_error vs k) as [c|]; try reflexivity.
  cbn [option_map]. rewrite <- (xform_xforminv f x R) at 1. generalize (xforminv f x). intros y.
  assert (S : forall u v, v3sub (xform f u) (xform f v) = m3v (fatt f) (v3sub u v)).
  { intros u v. rewrite m3v_sub_r. unfold xform. vdestruct. vunfold. f_equal; ring. }
  rewrite !S, <- rot_cross, rot_dot by exact R. reflexivity.
Qed.

Lemma in_place (f : frame F) p x : rigid f -> in_ph (place p f) x <-> in_ph p (xforminv f x).
Proof.
  intros R. unfold in_ph, g_in, place. cbn [vts fcs]. rewrite !forallb_forall.
  split; intros H t Ht; specialize (H t Ht); rewrite side_place in *; assumption.
Qed.

(** The unit cube and its box. *)
Definition one3 : vec3 F := V3 1 1 1.
Definition cube : ph F := block v3zero one3.

Lemma cube_in x : in_ph cube x -> in_aab (v3zero, one3) x.
Proof.
  unfold in_ph, g_in. rewrite forallb_forall. intros H.
  assert (T : forall t, In t (fcs cube) -> side (vts cube) t x <= 0) by exact H. clear H.
  assert (A := T (1, 3, 5)%nat ltac:(cbn; tauto)). assert (B := T (0, 4, 2)%nat ltac:(cbn; tauto)).
  assert (C := T (2, 6, 3)%nat ltac:(cbn; tauto)). assert (D := T (0, 1, 4)%nat ltac:(cbn; tauto)).
  assert (E := T (4, 5, 6)%nat ltac:(cbn; tauto)). assert (G := T (0, 2, 1)%nat ltac:(cbn; tauto)). clear T.
  destruct x as [a b c]. unfold side, cube, block, one3 in *. cbn [vts nth_error v3zero vx vy vz] in *.
  unfold v3dot, v3cross, v3sub in *. cbn [vx vy vz] in *.
  unfold in_aab, v3le. cbn [fst snd vx vy vz v3zero].
  assert (S : forall u v : F, u - v <= 0 -> u <= v).
  { intros u v K. apply nle_sub_iff. apply nle_opp0 in K. replace (v - u) with (- (u - v)) by ring. exact K. }
  repeat split; apply S.
  - eapply eq_ind with (P := fun e => e <= 0); [exact B|]. ring.
  - eapply eq_ind with (P := fun e => e <= 0); [exact D|]. ring.
  - eapply eq_ind with (P := fun e => e <= 0); [exact G|]. ring.
  - eapply eq_ind with (P := fun e => e <= 0); [exact A|]. ring.
  - eapply eq_ind with (P := fun e => e <= 0); [exact C|]. ring.
  - eapply eq_ind with (P := fun e => e <= 0); [exact E|]. ring.
Qed.

Lemma cube_obb : g_obb (vts cube) = (v3zero, one3, fid).
Proof.
  assert (E00 : ((0:F) <=? 0) = true) by apply nle_refl. assert (E11 : ((1:F) <=? 1) = true) by apply nle_refl.
  assert (E01 : ((0:F) <=? 1) = true) by apply nle_0_1.
  assert (E10 : ((1:F) <=? 0) = false) by apply nlt_0_1.
  unfold g_obb, cube, block, bound, one3. cbn [vts v3zero vx vy vz fold_left]. unfold v3min, v3max. cbn [vx vy vz].
  unfold nmin, nmax. repeat (rewrite ?E00, ?E11, ?E01, ?E10). reflexivity.
Qed.

Lemma cube_encloses (f : frame F) x : rigid f -> in_ph (place cube f) x -> in_box (g_bxf (g_obb (vts cube)) f) x.
Proof.
  intros R H. apply in_place in H; [|assumption]. apply cube_in in H. rewrite cube_obb. cbn [g_bxf in_box].
  rewrite fcascade_id_r. now split.
Qed.
End GeoLaws.
