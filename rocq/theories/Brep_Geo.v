(** * Brep_Geo: triangles cut by planes. *)

From Coq Require Import Bool List Arith Field.
From Verif Require Import Num NumFacts Vec VecFacts Brep_Model Brep_Spec.
Import ListNotations.

Section Geo.
Context {F : Type} {N : Num F} {L : NumLaws F N}.
Add Field FFieldBG : num_field.
Local Open Scope num_scope.
Implicit Types (p q r x y : vec3 F) (a b c : F) (pl : plane F).

Lemma v3ext x y : vx x = vx y -> vy x = vy y -> vz x = vz y -> x = y.
Proof. destruct x, y; cbn. now intros -> -> ->. Qed.
Ltac vext := apply v3ext; unfold v3add, v3scale, v3sub; cbn [vx vy vz].

Lemma tri_rot p q r x : in_tri p q r x -> in_tri q r p x.
Proof.
  intros (a & b & c & A & B & C & S & ->). exists b, c, a. repeat split; auto.
  - rewrite <- S. ring.
  - vext; ring.
Qed.
Lemma tri_swap p q r x : in_tri p q r x -> in_tri q p r x.
Proof.
  intros (a & b & c & A & B & C & S & ->). exists b, a, c. repeat split; auto.
  - rewrite <- S. ring.
  - vext; ring.
Qed.

Lemma tri_c0 p q r : in_tri p q r p.
Proof. exists 1, 0, 0. repeat split; try apply nle_refl; try apply nle_0_1. ring. vext; ring. Qed.
Lemma tri_c1 p q r : in_tri p q r q.
Proof. apply tri_rot, tri_rot, tri_c0. Qed.
Lemma tri_c2 p q r : in_tri p q r r.
Proof. apply tri_rot, tri_c0. Qed.

(** A triangle with its corners in another one is part of it. *)
Lemma tri_sub p q r u v w x : in_tri p q r u -> in_tri p q r v -> in_tri p q r w -> in_tri u v w x -> in_tri p q r x.
Proof.
  intros (a & b & c & A & B & C & S & ->) (a1 & b1 & c1 & A1 & B1 & C1 & S1 & ->) (a2 & b2 & c2 & A2 & B2 & C2 & S2 & ->)
    (k & l & m & K & Lm & M & S3 & ->).
  exists (k * a + l * a1 + m * a2), (k * b + l * b1 + m * b2), (k * c + l * c1 + m * c2).
  repeat split; auto 10 using nle_0_add, nle_0_mul.
  - transitivity (k * (a + b + c) + l * (a1 + b1 + c1) + m * (a2 + b2 + c2)); [ring|].
    rewrite S, S1, S2. transitivity (k + l + m); [ring|exact S3].
  - vext; ring.
Qed.

(** The signed distance is affine. *)
Lemma side_comb pl p q r a b c : a + b + c = 1 ->
  side pl (v3add (v3add (v3scale a p) (v3scale b q)) (v3scale c r)) = a * side pl p + b * side pl q + c * side pl r.
Proof.
  intros S. assert (E : a = 1 - b - c) by (rewrite <- S; ring). subst a.
  unfold side, v3dot, v3sub, v3add, v3scale. cbn [vx vy vz]. ring.
Qed.

Lemma comb_le a b c u v w t : 0 <= a -> 0 <= b -> 0 <= c -> a + b + c = 1 -> u <= t -> v <= t -> w <= t ->
  a * u + b * v + c * w <= t.
Proof.
  intros A B C S U V W. apply nle_sub_iff.
  replace (t - (a * u + b * v + c * w)) with (a * (t - u) + b * (t - v) + c * (t - w) + t * (1 - (a + b + c))) by ring.
  rewrite S. replace (t * (1 - 1)) with 0 by ring. apply nle_sub_iff in U, V, W.
  auto 10 using nle_0_add, nle_0_mul, nle_refl.
Qed.

Lemma tri_side_le pl p q r x t : in_tri p q r x -> side pl p <= t -> side pl q <= t -> side pl r <= t -> side pl x <= t.
Proof. intros (a & b & c & A & B & C & S & ->) P Q R. rewrite side_comb by easy. now apply comb_le. Qed.

(** The point where the segment from p to q meets a plane they have the distances a and b from. *)
Definition cp (a b : F) p q : vec3 F := v3add (v3scale (b / (b - a)) p) (v3scale (- a / (b - a)) q).

Definition opposite (a b : F) : Prop := (a < 0 /\ 0 < b) \/ (0 < a /\ b < 0).

Lemma nlt_sub (x y : F) : x < y <-> 0 < y - x.
Proof.
  rewrite !nlt_nle. split; intros H K; apply H.
  - apply nle_sub_iff. replace (x - y) with (0 - (y - x)) by ring. now apply nle_sub_iff in K.
  - apply nle_sub_iff in K. apply nle_sub_iff. replace (0 - (y - x)) with (x - y) by ring. exact K.
Qed.
Lemma nlt_opp (x : F) : x < 0 -> 0 < - x.
Proof. intros H. apply nlt_sub in H. now replace (0 - x) with (- x) in H by ring. Qed.

Lemma opp_dec a b : nltb (a * b) 0 = true <-> opposite a b.
Proof.
  rewrite nltb_lt. split; [|intros [[A B]|[A B]]].
  - intros H. destruct (nle_or_lt 0 a) as [A|A], (nle_or_lt 0 b) as [B|B].
    + apply nlt_nle in H. destruct H. now apply nle_0_mul.
    + right. split; [|exact B]. apply nlt_le_neq. split; [exact A|]. intros <-.
      replace (0 * b) with 0 in H by ring. now apply nlt_irrefl in H.
    + left. split; [exact A|]. apply nlt_le_neq. split; [exact B|]. intros <-.
      replace (a * 0) with 0 in H by ring. now apply nlt_irrefl in H.
    + apply nlt_nle in H. destruct H. replace (a * b) with (- a * - b) by ring.
      apply nle_0_mul; apply nlt_le, nlt_opp; assumption.
  - apply nlt_sub. replace (0 - a * b) with (- a * b) by ring. now apply nlt_0_mul; [apply nlt_opp|].
  - apply nlt_sub. replace (0 - a * b) with (a * - b) by ring. now apply nlt_0_mul; [|apply nlt_opp].
Qed.

Lemma nabs_pos a : 0 <= a -> nabs a = a.
Proof. unfold nabs, nle. now intros ->. Qed.
Lemma nabs_neg a : a < 0 -> nabs a = - a.
Proof. unfold nabs, nlt. now intros ->. Qed.

Lemma opp_sub a b : opposite a b -> b - a <> 0.
Proof.
  intros [[A B]|[A B]] E.
  - apply nlt_opp in A. assert (H : 0 < b + - a) by (apply nlt_0_add_l; [exact B|now apply nlt_le]).
    replace (b + - a) with (b - a) in H by ring. rewrite E in H. now apply nlt_irrefl in H.
  - apply nlt_opp in B. assert (H : 0 < a + - b) by (apply nlt_0_add_l; [exact A|now apply nlt_le]).
    replace (a + - b) with (- (b - a)) in H by ring. rewrite E in H. replace (-0) with (0:F) in H by ring.
    now apply nlt_irrefl in H.
Qed.

Lemma interdiv_cp a b p q : opposite a b -> interdiv p q (nabs a / (nabs a + nabs b)) = cp a b p q.
Proof.
  intros O. pose proof (opp_sub _ _ O) as NE. unfold interdiv, cp. destruct O as [[A B]|[A B]].
  - rewrite (nabs_neg _ A), (nabs_pos b) by now apply nlt_le.
    assert (- a + b <> 0) by (intros E; apply NE; rewrite <- E; ring). vext; field; repeat split; auto.
  - rewrite (nabs_neg _ B), (nabs_pos a) by now apply nlt_le.
    assert (a + - b <> 0) by (intros E; apply NE; transitivity (- (a + - b)); [ring|rewrite E; ring]).
    assert (a - b <> 0) by (intros E; apply NE; transitivity (- (a - b)); [ring|rewrite E; ring]).
    vext; field; repeat split; auto.
Qed.

Lemma opp_sym a b : opposite a b -> opposite b a.
Proof. unfold opposite. tauto. Qed.
Lemma cp_sym a b p q : opposite a b -> cp a b p q = cp b a q p.
Proof.
  intros O. pose proof (opp_sub _ _ O). pose proof (opp_sub _ _ (opp_sym _ _ O)). unfold cp. vext; field; auto.
Qed.

Lemma cp_on pl p q : opposite (side pl p) (side pl q) -> side pl (cp (side pl p) (side pl q) p q) = 0.
Proof.
  intros O. pose proof (opp_sub _ _ O). unfold cp.
  set (a := side pl p) in *. set (b := side pl q) in *.
  transitivity (side pl (v3add (v3add (v3scale (b / (b - a)) p) (v3scale (- a / (b - a)) q)) (v3scale 0 p))).
  - f_equal. vext; ring.
  - rewrite side_comb; fold a b; field; auto.
Qed.

Lemma opp_weights a b : opposite a b -> 0 <= b / (b - a) /\ 0 <= - a / (b - a) /\ b / (b - a) + - a / (b - a) = 1.
Proof.
  intros O. pose proof (opp_sub _ _ O) as NE. destruct O as [[A B]|[A B]].
  - assert (D : 0 < b - a) by (replace (b - a) with (b + - a) by ring; apply nlt_0_add_l; [exact B|now apply nlt_le, nlt_opp]).
    repeat split; [apply nle_0_div; [now apply nlt_le|exact D]|apply nle_0_div; [now apply nlt_le, nlt_opp|exact D]|now field].
  - apply nlt_opp in B.
    assert (D : 0 < a - b) by (replace (a - b) with (a + - b) by ring; apply nlt_0_add_l; [exact A|now apply nlt_le]).
    assert (a - b <> 0) by now apply nlt_neq'.
    repeat split.
    + replace (b / (b - a)) with (- b / (a - b)) by (field; auto). apply nle_0_div; [now apply nlt_le|exact D].
    + replace (- a / (b - a)) with (a / (a - b)) by (field; auto). apply nle_0_div; [now apply nlt_le|exact D].
    + now field.
Qed.

Lemma cp_seg a b p q r : opposite a b -> in_tri p q r (cp a b p q).
Proof.
  intros O. destruct (opp_weights _ _ O) as (A & B & S). exists (b / (b - a)), (- a / (b - a)), 0.
  repeat split; try easy; [apply nle_refl|rewrite S; ring|unfold cp; vext; ring].
Qed.

(** ** The three ways a triangle is cut *)

Variable pl : plane F.

Lemma div_neg a d : 0 <= a -> d < 0 -> 0 <= - (a / d).
Proof.
  intros A D. apply nlt_opp in D. assert (d <> 0) by (intros ->; replace (-0) with (0:F) in D by ring; now apply nlt_irrefl in D).
  assert (- d <> 0) by now apply nlt_neq'.
  replace (- (a / d)) with (a / - d) by (field; auto). now apply nle_0_div.
Qed.

(** One corner beneath. *)
Lemma tri_v p q r x : side pl p < 0 -> 0 < side pl q -> 0 < side pl r -> in_tri p q r x -> side pl x <= 0 ->
  in_tri p (cp (side pl p) (side pl q) p q) (cp (side pl r) (side pl p) r p) x.
Proof.
  intros P Q R (a & b & c & A & B & C & S & ->) H. rewrite side_comb in H by easy.
  set (d := side pl p) in *. set (e := side pl q) in *. set (f := side pl r) in *.
  assert (ED : e - d <> 0) by (apply opp_sub; left; auto). assert (DF : d - f <> 0) by (apply opp_sub; right; auto).
  assert (D0 : d <> 0) by now apply nlt_neq.
  exists ((a * d + b * e + c * f) / d), (b * (d - e) / d), (c * (d - f) / d).
  assert (ND : 0 < - d) by now apply nlt_opp.
  repeat split.
  - replace ((a * d + b * e + c * f) / d) with (- (a * d + b * e + c * f) / - d) by (field; repeat split; auto; now apply nlt_neq').
    apply nle_0_div; [now apply nle_opp0|exact ND].
  - replace (b * (d - e) / d) with (b + b * e / - d) by (field; repeat split; auto; now apply nlt_neq').
    apply nle_0_add; [exact B|]. apply nle_0_div; [apply nle_0_mul; [exact B|now apply nlt_le]|exact ND].
  - replace (c * (d - f) / d) with (c + c * f / - d) by (field; repeat split; auto; now apply nlt_neq').
    apply nle_0_add; [exact C|]. apply nle_0_div; [apply nle_0_mul; [exact C|now apply nlt_le]|exact ND].
  - rewrite <- S. field. auto.
  - unfold cp. vext; field; auto.
Qed.

(** One corner beyond: the two triangles beneath. *)
Lemma tri_a p q r x : 0 < side pl p -> side pl q < 0 -> side pl r < 0 -> in_tri p q r x -> side pl x <= 0 ->
  let u := cp (side pl r) (side pl p) r p in let v := cp (side pl p) (side pl q) p q in
  in_tri u q r x \/ in_tri q u v x.
Proof.
  intros P Q R (a & b & c & A & B & C & S & ->) H. rewrite side_comb in H by easy.
  set (d := side pl p) in *. set (e := side pl q) in *. set (f := side pl r) in *. intros u v.
  assert (ED : e - d <> 0) by (apply opp_sub; right; auto). assert (DF : d - f <> 0) by (apply opp_sub; left; auto).
  assert (D0 : d <> 0) by now apply nlt_neq'. assert (E0 : e <> 0) by now apply nlt_neq. assert (F0 : f <> 0) by now apply nlt_neq.
  assert (NE : 0 < - e) by now apply nlt_opp. assert (NF : 0 < - f) by now apply nlt_opp.
  assert (NE' : - e <> 0) by now apply nlt_neq'. assert (NF' : - f <> 0) by now apply nlt_neq'.
  destruct (nle_or_lt (a * d + c * f) 0) as [K|K].
  - left. exists (a * (f - d) / f), b, ((a * d + c * f) / f). repeat split; auto.
    + replace (a * (f - d) / f) with (a + a * d / - f) by (field; auto).
      apply nle_0_add; [exact A|]. apply nle_0_div; [apply nle_0_mul; [exact A|now apply nlt_le]|exact NF].
    + replace ((a * d + c * f) / f) with (- (a * d + c * f) / - f) by (field; auto).
      apply nle_0_div; [now apply nle_opp0|exact NF].
    + rewrite <- S. field. auto.
    + unfold u, cp. vext; field; auto.
  - right. exists ((a * d + b * e + c * f) / e), (c * (d - f) / d), ((a * d + c * f) * (e - d) / (e * d)). repeat split; auto.
    + replace ((a * d + b * e + c * f) / e) with (- (a * d + b * e + c * f) / - e) by (field; auto).
      apply nle_0_div; [now apply nle_opp0|exact NE].
    + replace (c * (d - f) / d) with (c + c * - f / d) by (field; auto).
      apply nle_0_add; [exact C|]. apply nle_0_div; [apply nle_0_mul; [exact C|now apply nlt_le]|exact P].
    + replace ((a * d + c * f) * (e - d) / (e * d)) with ((a * d + c * f) / d + (a * d + c * f) / - e) by (field; auto).
      apply nlt_le in K. apply nle_0_add; apply nle_0_div; auto.
    + rewrite <- S. field. auto.
    + unfold u, v, cp. vext; field; auto.
Qed.

(** One corner beneath, one on the border up to the tolerance, and one beyond. *)
Lemma tri_e tol p q r x : 0 <= tol -> - tol <= side pl p -> side pl q < 0 -> 0 < side pl r -> in_tri p q r x -> side pl x <= - tol ->
  in_tri p q (cp (side pl q) (side pl r) q r) x.
Proof.
  intros T P Q R (a & b & c & A & B & C & S & ->) H. rewrite side_comb in H by easy.
  set (d := side pl p) in *. set (e := side pl q) in *. set (f := side pl r) in *.
  assert (EF : f - e <> 0) by (apply opp_sub; left; auto).
  assert (E0 : e <> 0) by now apply nlt_neq. assert (NE : 0 < - e) by now apply nlt_opp.
  assert (NE' : - e <> 0) by now apply nlt_neq'.
  assert (K : 0 <= - (b * e + c * f)).
  { replace (- (b * e + c * f)) with ((- tol - (a * d + b * e + c * f)) + a * (d - - tol) + (1 - a) * tol) by ring.
    apply nle_sub_iff in H, P. repeat apply nle_0_add; auto using nle_0_mul.
    replace (1 - a) with (b + c) by (rewrite <- S; ring). auto using nle_0_mul, nle_0_add. }
  exists a, ((b * e + c * f) / e), (c * (e - f) / e). repeat split; auto.
  - replace ((b * e + c * f) / e) with (- (b * e + c * f) / - e) by (field; auto). now apply nle_0_div.
  - replace (c * (e - f) / e) with (c + c * f / - e) by (field; auto).
    apply nle_0_add; [exact C|]. apply nle_0_div; [apply nle_0_mul; [exact C|now apply nlt_le]|exact NE].
  - rewrite <- S. field. auto.
  - unfold cp. vext; field; auto.
Qed.

(** Nothing far beneath in a triangle with no corner far beneath. *)
Lemma comb_lt a b c u v w t : 0 <= a -> 0 <= b -> 0 <= c -> a + b + c = 1 -> u < t -> v < t -> w < t ->
  a * u + b * v + c * w < t.
Proof.
  intros A B C S U V W. apply nlt_le_neq. split; [apply comb_le; auto using nlt_le|]. intros E.
  assert (Z : a * (t - u) + b * (t - v) + c * (t - w) = 0).
  { transitivity (t * (a + b + c) - (a * u + b * v + c * w)); [ring|]. rewrite E, S. ring. }
  apply nlt_sub in U, V, W.
  assert (0 <= a * (t - u)) by auto using nle_0_mul, nlt_le. assert (0 <= b * (t - v)) by auto using nle_0_mul, nlt_le.
  assert (0 <= c * (t - w)) by auto using nle_0_mul, nlt_le.
  apply nadd_nonneg_eq_0 in Z; auto using nle_0_add. destruct Z as [Z Z3]. apply nadd_nonneg_eq_0 in Z; auto. destruct Z as [Z1 Z2].
  apply nlt_neq' in U, V, W.
  apply nmul_eq_0 in Z1, Z2, Z3. destruct Z1 as [Z1|Z1], Z2 as [Z2|Z2], Z3 as [Z3|Z3]; try contradiction.
  apply n1_neq_0. rewrite <- S, Z1, Z2, Z3. ring.
Qed.

Lemma tri_none t p q r x : t < side pl p -> t < side pl q -> t < side pl r -> in_tri p q r x -> t < side pl x.
Proof.
  intros P Q R (a & b & c & A & B & C & S & ->). rewrite side_comb by easy.
  assert (O : forall y : F, t < y -> - y < - t).
  { intros y Y. apply nlt_sub. replace (- t - - y) with (y - t) by ring. now apply nlt_sub in Y. }
  pose proof (comb_lt a b c _ _ _ (- t) A B C S (O _ P) (O _ Q) (O _ R)) as H. apply nlt_sub in H. apply nlt_sub.
  now replace (- t - (a * - side pl p + b * - side pl q + c * - side pl r)) with (a * side pl p + b * side pl q + c * side pl r - t) in H by ring.
Qed.

(** ** The way the pieces face *)

Lemma toward_refl u : toward u u.
Proof. exists 1. split; [apply nlt_0_1|]. vext; ring. Qed.
Lemma toward_trans u v w : toward u v -> toward v w -> toward u w.
Proof. intros (s & S & ->) (t & T & ->). exists (s * t). split; [now apply nlt_0_mul|]. vext; ring. Qed.
Lemma facing_rot p q r : facing q r p = facing p q r.
Proof. unfold facing, v3cross. vext; ring. Qed.
Lemma facing_swap p q r : facing q p r = v3scale (- (1)) (facing p q r).
Proof. unfold facing, v3cross. vext; ring. Qed.
Lemma toward_neg u v : toward (v3scale (- (1)) u) (v3scale (- (1)) v) -> toward u v.
Proof.
  intros (s & S & E). exists s. split; [easy|]. apply (f_equal (v3scale (- (1)))) in E. revert E. unfold v3scale. destruct u, v; cbn. intros [= A B C].
  f_equal; [transitivity (- (1) * (- (1) * vx)) | transitivity (- (1) * (- (1) * vy)) | transitivity (- (1) * (- (1) * vz))]; try ring; rewrite ?A, ?B, ?C; ring.
Qed.

Lemma nlt_0_div (x y : F) : 0 < x -> 0 < y -> 0 < x / y.
Proof.
  intros X Y. assert (y <> 0) by (intros Z; rewrite Z in Y; now apply nlt_irrefl in Y).
  replace (x / y) with (x * (1 / y)) by (field; auto). apply nlt_0_mul; [easy|now apply nlt_0_inv].
Qed.
Lemma cp_w a b p q : 0 < a -> b < 0 -> exists t, 0 < t /\ 0 < 1 - t /\ cp a b p q = v3add (v3scale t p) (v3scale (1 - t) q).
Proof.
  intros A B. assert (O : opposite a b) by (right; auto). pose proof (opp_sub _ _ O) as NE. exists (b / (b - a)).
  assert (P : 0 < a - b) by (apply nlt_opp in B; replace (a - b) with (a + - b) by ring; now apply nlt_0_add_l; [|apply nlt_le]).
  assert (NP : a - b <> 0) by (intros Z; rewrite Z in P; now apply nlt_irrefl in P).
  repeat split.
  - replace (b / (b - a)) with (- b / (a - b)) by (field; auto). apply nlt_0_div; [now apply nlt_opp|easy].
  - replace (1 - b / (b - a)) with (a / (a - b)) by (field; auto). now apply nlt_0_div.
  - unfold cp. vext; field; auto.
Qed.

Lemma facing_e p1 p2 p3 a b : 0 < a -> b < 0 -> toward (facing p1 p2 (cp a b p3 p2)) (facing p1 p2 p3).
Proof.
  intros A B. destruct (cp_w a b p3 p2 A B) as (t & T & _ & ->). exists t. split; [easy|]. unfold facing, v3cross. vext; ring.
Qed.
Lemma facing_v p1 p2 p3 a a' b b' : 0 < a -> b < 0 -> 0 < a' -> b' < 0 ->
  toward (facing p1 (cp a b p2 p1) (cp a' b' p3 p1)) (facing p1 p2 p3).
Proof.
  intros A B A' B'. destruct (cp_w a b p2 p1 A B) as (t & T & _ & ->). destruct (cp_w a' b' p3 p1 A' B') as (u & U & _ & ->).
  exists (t * u). split; [now apply nlt_0_mul|]. unfold facing, v3cross. vext; ring.
Qed.
Lemma facing_a p1 p2 p3 a b : 0 < a -> b < 0 -> toward (facing (cp a b p1 p3) p2 p3) (facing p1 p2 p3).
Proof.
  intros A B. destruct (cp_w a b p1 p3 A B) as (t & T & _ & ->). exists t. split; [easy|]. unfold facing, v3cross. vext; ring.
Qed.
Lemma facing_up p1 p2 p3 a a' b b' : 0 < a -> b < 0 -> 0 < a' -> b' < 0 ->
  toward (facing p2 (cp a b p1 p3) (cp a' b' p1 p2)) (facing p1 p2 p3).
Proof.
  intros A B A' B'. destruct (cp_w a b p1 p3 A B) as (t & _ & T & ->). destruct (cp_w a' b' p1 p2 A' B') as (u & U & _ & ->).
  exists ((1 - t) * u). split; [now apply nlt_0_mul|]. unfold facing, v3cross. vext; ring.
Qed.
End Geo.
