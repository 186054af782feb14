(** * Urdf_Q: an executable instance of the external functions of Urdf_Model on the rationals, for examples and
    witnesses.  The vector that turns one direction into another is the one for the Cayley transform of ExtQ;
    the tests for zero and identity are exact. *)
From Coq Require Import Bool String List ZArith QArith Qcanon Ring Field Lia.
From Verif Require Import Num NumFacts Vec VecFacts Motor_Model Joint_Model Body_Model Body_Proofs Link_Model IK_Model Conf_Model Ztk_Model ExtQ Urdf_Model Urdf_Spec.
Import ListNotations.

Definition qb (x y : Qc) : bool := Qeq_bool (this x) (this y).
Definition qv3b (a b : vec3 Qc) : bool := qb (vx a) (vx b) && qb (vy a) (vy b) && qb (vz a) (vz b).
Lemma qv3b_eq a b : qv3b a b = true -> a = b.
Proof. intros H. apply andb_prop in H as [H H3]. apply andb_prop in H as [H1 H2]. destruct a, b. cbn in *. apply qeq in H1, H2, H3. now subst. Qed.
Definition qm3b (a b : mat3 Qc) : bool := qv3b (mc0 a) (mc0 b) && qv3b (mc1 a) (mc1 b) && qv3b (mc2 a) (mc2 b).
Lemma qm3b_eq a b : qm3b a b = true -> a = b.
Proof. intros H. apply andb_prop in H as [H H3]. apply andb_prop in H as [H1 H2]. destruct a, b. cbn in *. apply qv3b_eq in H1, H2, H3. now subst. Qed.
Definition frb (a b : frame Qc) : bool := qv3b (fpos a) (fpos b) && qm3b (fatt a) (fatt b).
Lemma frb_eq a b : frb a b = true -> a = b.
Proof. intros H. apply andb_prop in H as [H1 H2]. destruct a, b. cbn in *. apply qv3b_eq in H1. apply qm3b_eq in H2. now subst. Qed.
#[export] Instance UrdfExt_Qc : UrdfExt Qc := mkUrdfExt
  (fun u v => v3div (v3cross u v) (1 + v3dot u v)%num) (fun v => qv3b v v3zero) (fun m => qm3b m m3id).
Lemma qprints (f : frame Qc) : prints_exactly f.
Proof. split; [apply qv3b_eq|apply qm3b_eq]. Qed.

Section G.
Context {F : Type} {N : Num F} {L : NumLaws F N}.
Add Field FFieldUQ : num_field.
Local Ltac vring := intros; vdestruct; vunfold; vsplit; ring.
Local Open Scope num_scope.
Definition cayley (v : vec3 F) : mat3 F :=
  m3add m3id (m3scale ((1 + 1) / (1 + v3sqr v)) (m3add (m3skew v) (m3mul (m3skew v) (m3skew v)))).
Lemma cayley_v (w u : vec3 F) : m3v (cayley w) u = v3add u (v3scale ((1 + 1) / (1 + v3sqr w)) (v3add (v3cross w u) (v3cross w (v3cross w u)))).
Proof. unfold cayley. generalize ((1 + 1) / (1 + v3sqr w)) as k. vring. Qed.
Lemma cayley_turns (u v : vec3 F) : v3sqr u = 1 -> v3sqr v = 1 -> v3add u v <> v3zero -> m3v (cayley (v3div (v3cross u v) (1 + v3dot u v))) u = v.
Proof.
  intros U V S. set (t := v3dot u v).
  assert (T : 1 + t <> 0).
  { intros Q. apply S. apply v3sqr_0. transitivity (v3sqr u + v3sqr v + (t + t)); [subst t; clear -L; vring|]. rewrite U, V. transitivity ((1 + t) + (1 + t)); [ring|]. rewrite Q. ring. }
  rewrite cayley_v.
  assert (A : v3cross (v3cross u v) u = v3sub v (v3scale t u)).
  { transitivity (v3sub (v3scale (v3sqr u) v) (v3scale t u)); [subst t; clear -L; vring|]. rewrite U. clear -L. generalize t. vring. }
  assert (B : v3cross (v3cross u v) (v3cross (v3cross u v) u) = v3scale (t * t - 1) u).
  { rewrite A. transitivity (v3add (v3scale (t * t - v3sqr v) u) (v3scale (t - t * v3sqr u) v)); [subst t; clear -L; vring|]. rewrite U, V. clear -L. generalize t. vring. }
  assert (W : v3sqr (v3cross u v) = 1 - t * t).
  { transitivity (v3sqr u * v3sqr v - t * t); [subst t; clear -L; vring|]. rewrite U, V. ring. }
  assert (LC : forall k a b, v3cross (v3scale k a) b = v3scale k (v3cross a b)) by (clear -L; vring).
  assert (RC : forall k a b, v3cross a (v3scale k b) = v3scale k (v3cross a b)) by (clear -L; vring).
  assert (SQ : forall k a, v3sqr (v3scale k a) = k * k * v3sqr a) by (clear -L; vring).
  assert (D : v3div (v3cross u v) (1 + t) = v3scale (1 / (1 + t)) (v3cross u v)) by (destruct (v3cross u v) as [cx cy cz]; unfold v3div, v3scale; cbn [vx vy vz]; vsplit; field; exact T).
  fold t. rewrite D, SQ, W, !LC, !RC, B, A.
  assert (K : (1 + 1) / (1 + 1 / (1 + t) * (1 / (1 + t)) * (1 - t * t)) = 1 + t).
  { replace (1 + 1 / (1 + t) * (1 / (1 + t)) * (1 - t * t)) with ((1 + 1) / (1 + t)) by (field; exact T). field. split; [exact T|apply n2_neq_0]. }
  rewrite K. clear - L T. generalize dependent t. intros t T. destruct u as [u1 u2 u3], v as [v1 v2 v3]. unfold v3add, v3scale, v3sub. cbn [vx vy vz]. vsplit; field; exact T.
Qed.
Lemma cayley_self (u : vec3 F) : v3sqr u <> - (1) -> v3div (v3cross u u) (1 + v3dot u u) = v3zero.
Proof.
  intros H. assert (K : 1 + v3dot u u <> 0) by (intros Q; apply H; unfold v3sqr; transitivity (1 + v3dot u u - 1); [ring|rewrite Q; ring]).
  replace (v3cross u u) with (v3zero (F:=F)) by vring. unfold v3div, v3zero. cbn [vx vy vz]. vsplit; field; exact K.
Qed.
End G.
#[export] Instance UrdfLaws_Qc : UrdfLaws Qc Num_Qc Ext_Qc UrdfExt_Qc.
Proof.
  constructor.
  - intros u v. exact (cayley_turns u v).
  - intros u. apply (cayley_self u). intros Q. apply (sqr3_neq0 u). change ((1 + v3sqr u)%num = 0%num). rewrite Q. apply Qcplus_opp_r.
Qed.
