(** * Brep_Spec: what a boundary representation stands for.

    Stated on positions of points only: triangles as sets of convex combinations, the signed distance from a
    plane, and the surface made of the faces that are not discarded. *)

From Coq Require Import Bool List Arith.
From Verif Require Import Num Vec Brep_Model.
Import ListNotations.

Section BrepSpec.
Context {F : Type} {N : Num F}.
Local Open Scope num_scope.

(** Signed distance (times the length of the normal) of a point from a plane: positive is beyond. *)
Definition side (pl : plane F) (x : vec3 F) : F := v3dot (v3sub x (fst pl)) (snd pl).

(** The points of the triangle with the given corners. *)
Definition in_tri (p q r x : vec3 F) : Prop :=
  exists a b c, 0 <= a /\ 0 <= b /\ 0 <= c /\ a + b + c = 1 /\
    x = v3add (v3add (v3scale a p) (v3scale b q)) (v3scale c r).

(** The vertex number i is there, not discarded, and at x. *)
Definition vert_at (b : brep F) (i : nat) (x : vec3 F) : Prop :=
  exists v, nth_error (b_vs b) i = Some v /\ b_dis v = false /\ b_p v = x.

(** The edge number k is there, not discarded, and joins the vertices i and j. *)
Definition edge_at (b : brep F) (k i j : nat) : Prop :=
  exists e, nth_error (b_es b) k = Some e /\ g_dis e = false /\
    (g_0 e = i /\ g_1 e = j \/ g_0 e = j /\ g_1 e = i).

Definition face_in (b : brep F) (f : face F) : Prop := In f (b_fs b) /\ h_dis f = false.

(** The corners of a face. *)
Definition corners (b : brep F) (f : face F) (p q r : vec3 F) : Prop :=
  let '(i, j, k) := h_v f in vert_at b i p /\ vert_at b j q /\ vert_at b k r.

(** The way a triangle faces: a vector across it, as long as twice its area. *)
Definition facing (p q r : vec3 F) : vec3 F := v3cross (v3sub q p) (v3sub r p).
(** The same direction, and neither of the two zero unless both are. *)
Definition toward (u v : vec3 F) : Prop := exists s, 0 < s /\ u = v3scale s v.

(** The points on the surface. *)
Definition on_surface (b : brep F) (x : vec3 F) : Prop :=
  exists f p q r, face_in b f /\ corners b f p q r /\ in_tri p q r x.

(** Correspondence of faces, edges and vertices: every face has three vertices, and its i-th edge joins the
    two other than the i-th; every edge has two vertices. *)
Definition well_formed (b : brep F) : Prop :=
  (forall f, face_in b f -> (exists p q r, corners b f p q r) /\
    let '(i, j, k) := h_v f in let '(e0, e1, e2) := h_e f in
    edge_at b e0 j k /\ edge_at b e1 k i /\ edge_at b e2 i j) /\
  (forall e, In e (b_es b) -> g_dis e = false ->
    g_cut e = None /\ (exists x, vert_at b (g_0 e) x) /\ (exists x, vert_at b (g_1 e) x)).
End BrepSpec.
