(** * Brep_Model: boundary representation and its truncation,
    /repo/src/rk_cd_brep.c, /repo/src/rk_cd_brep_trunc.c, /repo/include/roki/rk_cd_brep.h.

    Vertices and edges are referred to by their position in the lists (the order zListForEach visits them).
    zListInsertHead appends at the end, so that positions do not change; nothing refers to faces.
    rkBREPReset deletes items, but only ones inserted after all that are kept.

    [None] is undefined behaviour (following a null or dangling pointer) or the failure of the function.

    Not modelled: memory allocation failure; the counter [discard] of rkBREP, which nothing reads; the scratch
    pointer [_p] of the vertices; rkBREPDestroy. *)

From Coq Require Import Bool List Arith.
From Verif Require Import Num Vec.
Import ListNotations.

(** Three items in an array. *)
Definition t3 (A : Type) := (A * A * A)%type.
Definition t3get {A} (t : t3 A) (i : nat) : A := let '(a, b, c) := t in match i with 0 => a | 1 => b | _ => c end.
Definition t3set {A} (t : t3 A) (i : nat) (x : A) : t3 A :=
  let '(a, b, c) := t in match i with 0 => (x, b, c) | 1 => (a, x, c) | _ => (a, b, x) end.

Section Brep.
Context {F : Type} {N : Num F}.
Local Open Scope num_scope.

(** rkBREPVert (rk_cd_brep.h 19-24), rkBREPEdge (43-47), rkBREPFace (67-72), rkBREP (80-85).
    [g_cut] is the pointer _v of an edge, [g_o0] etc. the saved fields _v0, _e0. *)
Record vtx := Vx { b_p : vec3 F; b_d : F; b_dis : bool; b_org : bool }.
Record edge := Ed { g_0 : nat; g_1 : nat; g_o0 : nat; g_o1 : nat; g_cut : option nat; g_dis : bool; g_org : bool }.
Record face := Fc { h_v : t3 nat; h_e : t3 nat; h_ov : t3 nat; h_oe : t3 nat; h_norm : vec3 F; h_dis : bool; h_org : bool }.
Record brep := Br { b_vs : list vtx; b_es : list edge; b_fs : list face }.

(** zPlane3D: a point on the plane, and its normal. *)
Definition plane := (vec3 F * vec3 F)%type.

(** ** Truncation, rk_cd_brep_trunc.c *)

(** _rkBREPTruncBBCheck, 20-34. *)
Definition bb1 (tol : F) (pl : plane) (v : vtx) : vtx :=
  if b_dis v then v
  else let d := v3dot (v3sub (b_p v) (fst pl)) (snd pl) in
       Vx (b_p v) (if ntiny tol d then 0 else d) (b_dis v) (b_org v).
Definition bb_check (tol : F) (pl : plane) (vs : list vtx) : list vtx * nat :=
  let vs' := map (bb1 tol pl) vs in
  (vs', length (filter (fun v => negb (b_dis v) && nltb 0 (b_d v)) vs')).

(** zVec3DInterDiv: the point dividing the segment from a to b by the ratio r. *)
Definition interdiv (a b : vec3 F) (r : F) : vec3 F := v3add a (v3scale r (v3sub b a)).

(** _rkBREPTruncIntersect, 37-62. *)
Definition set_cut (c : option nat) (e : edge) : edge := Ed (g_0 e) (g_1 e) (g_o0 e) (g_o1 e) c (g_dis e) (g_org e).
Fixpoint intersect (vs : list vtx) (es : list edge) : option (list vtx * list edge) :=
  match es with
  | [] => Some (vs, [])
  | e :: tl =>
    if g_dis e then
      match intersect vs tl with None => None | Some (vs', tl') => Some (vs', e :: tl') end
    else
      match nth_error vs (g_0 e), nth_error vs (g_1 e) with
      | Some u0, Some u1 =>
        if nltb (b_d u0 * b_d u1) 0 then
          let d1 := nabs (b_d u0) in let d2 := nabs (b_d u1) in
          let v := Vx (interdiv (b_p u0) (b_p u1) (d1 / (d1 + d2))) 0 false false in
          match intersect (vs ++ [v]) tl with
          | None => None
          | Some (vs', tl') => Some (vs', set_cut (Some (length vs)) e :: tl')
          end
        else
          match intersect vs tl with None => None | Some (vs', tl') => Some (vs', e :: tl') end
      | _, _ => None
      end
  end.

Definition edge_new (a b : nat) : edge := Ed a b 0%nat 0%nat None false false.
Definition cut_of (es : list edge) (i : nat) : option nat := match nth_error es i with Some e => g_cut e | None => None end.
Definition face_set (f : face) (v e : t3 nat) : face := Fc v e (h_ov f) (h_oe f) (h_norm f) (h_dis f) (h_org f).
Definition face_dis (f : face) : face := Fc (h_v f) (h_e f) (h_ov f) (h_oe f) (h_norm f) true (h_org f).

(** The outcome of a face reconfiguration: the edges, the face, and the face inserted if any. *)
Definition reconf := (list edge * face * list face)%type.

(** _rkBREPTruncFaceA, 65-104. *)
Definition face_a (es : list edge) (f : face) (i1 i2 i3 : nat) : option reconf :=
  match cut_of es (t3get (h_e f) i2), cut_of es (t3get (h_e f) i3) with
  | Some p, Some r =>
    let e4 := length es in let e5 := S e4 in
    let v2 := t3get (h_v f) i2 in
    let es' := es ++ [edge_new p r; edge_new p v2] in
    let up := Fc (v2, p, r) (e4, t3get (h_e f) i3, e5) (0, 0, 0)%nat (0, 0, 0)%nat v3zero false false in
    Some (es', face_set f (t3set (h_v f) i1 p) (t3set (h_e f) i3 e5), [up])
  | _, _ => None
  end.

(** _rkBREPTruncFaceV, 107-125. *)
Definition face_v (es : list edge) (f : face) (i1 i2 i3 : nat) : option reconf :=
  match cut_of es (t3get (h_e f) i3), cut_of es (t3get (h_e f) i2) with
  | Some r, Some p =>
    let e4 := length es in
    Some (es ++ [edge_new r p], face_set f (t3set (t3set (h_v f) i2 r) i3 p) (t3set (h_e f) i1 e4), [])
  | _, _ => None
  end.

(** _rkBREPTruncFaceE, 128-145. *)
Definition face_e (es : list edge) (f : face) (i1 i2 i3 : nat) : option reconf :=
  match cut_of es (t3get (h_e f) i1) with
  | Some p =>
    let e4 := length es in
    Some (es ++ [edge_new (t3get (h_v f) i1) p], face_set f (t3set (h_v f) i3 p) (t3set (h_e f) i2 e4), [])
  | None => None
  end.

(** __z_brep_trunc_pat, 203. *)
Definition pat (d : F) : nat := if nltb d 0 then 3%nat else if nltb 0 d then 1%nat else 0%nat.

(** _rkBREPTruncFace, 204-234. *)
Definition face_code (vs : list vtx) (f : face) : option nat :=
  let '(a, b, c) := h_v f in
  match nth_error vs a, nth_error vs b, nth_error vs c with
  | Some u, Some v, Some w => Some (pat (b_d u) + 4 * pat (b_d v) + 16 * pat (b_d w))%nat
  | _, _, _ => None
  end.
Definition trunc_face (vs : list vtx) (es : list edge) (f : face) : option reconf :=
  match face_code vs f with
  | None => None
  | Some code =>
    match code with
    | 1 | 4 | 5 | 16 | 17 | 20 | 21 => Some (es, face_dis f, [])
    | 0 | 3 | 12 | 15 | 48 | 51 | 60 | 63 => Some (es, f, [])
    | 31 => face_a es f 2 0 1
    | 55 => face_a es f 1 2 0
    | 61 => face_a es f 0 1 2
    | 7 => face_e es f 2 0 1
    | 13 => face_e es f 2 1 0
    | 19 => face_e es f 1 0 2
    | 28 => face_e es f 0 1 2
    | 49 => face_e es f 1 2 0
    | 52 => face_e es f 0 2 1
    | 23 => face_v es f 0 1 2
    | 29 => face_v es f 1 2 0
    | 53 => face_v es f 2 0 1
    | _ => None
    end%nat
  end.

(** The loop over the faces, 245-246: new faces are inserted where the loop does not come by. *)
Fixpoint trunc_faces (vs : list vtx) (es : list edge) (fs : list face) : option (list edge * list face * list face) :=
  match fs with
  | [] => Some (es, [], [])
  | f :: tl =>
    match (if h_dis f then Some (es, f, []) else trunc_face vs es f) with
    | None => None
    | Some (es1, f1, n1) =>
      match trunc_faces vs es1 tl with
      | None => None
      | Some (es2, fs2, n2) => Some (es2, f1 :: fs2, n2 ++ n1)
      end
    end
  end.

(** _rkBREPTruncEdgeShrink, 148-160. *)
Definition shrink1 (vs : list vtx) (e : edge) : option edge :=
  if g_dis e then Some e
  else match g_cut e with
       | None => Some e
       | Some p =>
         match nth_error vs (g_0 e) with
         | None => None
         | Some u => Some (if nltb 0 (b_d u) then Ed p (g_1 e) (g_o0 e) (g_o1 e) None (g_dis e) (g_org e)
                           else Ed (g_0 e) p (g_o0 e) (g_o1 e) None (g_dis e) (g_org e))
         end
       end.
Fixpoint omap {A B} (f : A -> option B) (l : list A) : option (list B) :=
  match l with
  | [] => Some []
  | x :: tl => match f x, omap f tl with Some y, Some tl' => Some (y :: tl') | _, _ => None end
  end.

(** _rkBREPTruncGR, 163-200: what no face uses is discarded. *)
Definition uses (g : face -> t3 nat) (fs : list face) (i : nat) : bool :=
  existsb (fun f => negb (h_dis f) &&
    ((t3get (g f) 0 =? i) || (t3get (g f) 1 =? i) || (t3get (g f) 2 =? i))%nat) fs.
Definition gr_v (fs : list face) (i : nat) (v : vtx) : vtx :=
  if b_dis v then v else Vx (b_p v) (b_d v) (negb (uses h_v fs i)) (b_org v).
Definition gr_e (fs : list face) (i : nat) (e : edge) : edge :=
  if g_dis e then e else Ed (g_0 e) (g_1 e) (g_o0 e) (g_o1 e) None (negb (uses h_e fs i)) (g_org e).
Fixpoint mapi {A B} (f : nat -> A -> B) (i : nat) (l : list A) : list B :=
  match l with [] => [] | x :: tl => f i x :: mapi f (S i) tl end.

(** rkBREPTrunc, 238-251. *)
Definition trunc (tol : F) (b : brep) (pl : plane) : option brep :=
  match bb_check tol pl (b_vs b) with
  | (vs, O) => Some (Br vs (b_es b) (b_fs b))
  | (vs, _) =>
    match intersect vs (b_es b) with
    | None => None
    | Some (vs1, es1) =>
      match trunc_faces vs1 es1 (b_fs b) with
      | None => None
      | Some (es2, fs2, news) =>
        match omap (shrink1 vs1) es2 with
        | None => None
        | Some es3 => let fs := news ++ fs2 in Some (Br (mapi (gr_v fs) 0 vs1) (mapi (gr_e fs) 0 es3) fs)
        end
      end
    end
  end.

(** rkBREPTruncPH3D, 254-264: by the planes of the faces of a polyhedron. *)
Fixpoint truncs (tol : F) (b : brep) (pls : list plane) : option brep :=
  match pls with
  | [] => Some b
  | pl :: tl => match trunc tol b pl with None => None | Some b' => truncs tol b' tl end
  end.

(** ** Conversion from a polyhedron, rk_cd_brep.c *)

Section Conv.
(** zVec3DEqual, of the ZEO library. *)
Variable veq : vec3 F -> vec3 F -> bool.

Fixpoint index {A} (p : A -> bool) (l : list A) : option nat :=
  match l with [] => None | x :: tl => if p x then Some 0%nat else option_map S (index p tl) end.

(** rkBREPVertListFind 27-34, _rkBREPVertListFindnReg 37-51. *)
Definition vert_find (vs : list vtx) (x : vec3 F) : list vtx * nat :=
  match index (fun v => veq (b_p v) x) vs with
  | Some i => (vs, i)
  | None => (vs ++ [Vx x 0 false true], length vs)
  end.

(** rkBREPEdgeListFind 54-62, _rkBREPEdgeListFindnReg 65-81. *)
Definition edge_find (es : list edge) (a b : nat) : list edge * nat :=
  match index (fun e => (g_0 e =? a) && (g_1 e =? b) || (g_0 e =? b) && (g_1 e =? a))%nat es with
  | Some i => (es, i)
  | None => (es ++ [Ed a b a b None false true], length es)
  end.

(** _rkBREPFaceInsert, 84-106; a triangle with its normal. *)
Definition face_insert (b : brep) (t : t3 (vec3 F) * vec3 F) : brep :=
  let '((x0, x1, x2), n) := t in
  let '(vs0, v0) := vert_find (b_vs b) x0 in
  let '(vs1, v1) := vert_find vs0 x1 in
  let '(vs2, v2) := vert_find vs1 x2 in
  let '(es0, e0) := edge_find (b_es b) v1 v2 in
  let '(es1, e1) := edge_find es0 v2 v0 in
  let '(es2, e2) := edge_find es1 v0 v1 in
  Br vs2 es2 (b_fs b ++ [Fc (v0, v1, v2) (e0, e1, e2) (v0, v1, v2) (e0, e1, e2) n false true]).

(** rkPH3D2BREP, 114-128. *)
Definition ph2brep (ts : list (t3 (vec3 F) * vec3 F)) : brep := fold_left face_insert ts (Br [] [] []).

(** rkPH3D2BREPInBox, 131-145: the triangles a test selects, added to what the lists hold. *)
Definition ph2brep_box (sel : t3 (vec3 F) -> bool) (ts : list (t3 (vec3 F) * vec3 F)) (b : brep) : brep :=
  fold_left face_insert (filter (fun t => sel (fst t)) ts) b.
End Conv.

(** rkBREPReset, 181-225. *)
Definition reset (b : brep) : brep :=
  Br (map (fun v => Vx (b_p v) 0 false (b_org v)) (filter b_org (b_vs b)))
     (map (fun e => Ed (g_o0 e) (g_o1 e) (g_o0 e) (g_o1 e) None false (g_org e)) (filter g_org (b_es b)))
     (map (fun f => Fc (h_ov f) (h_oe f) (h_ov f) (h_oe f) (h_norm f) false (h_org f)) (filter h_org (b_fs b))).

(** rkBREP2PH3D, 148-170: the vertices, and the numbers of the vertices of the faces.
    Line 160 copies a vector from where the pointer p of a vertex is stored, not from where it points to: the
    pointer itself and the first two coordinates of the vector _ps next to it (pointers as large as doubles, no
    padding).  _ps is all zero for the vertices of the conversion, and the position for those inserted by the
    truncation.  [bits i] is the address of the vertex i (or where it points to) read as a double. *)
Definition ph_vert (bits : nat -> F) (i : nat) (v : vtx) : vec3 F :=
  let ps := if b_org v then v3zero else b_p v in V3 (bits i) (vx ps) (vy ps).
Definition brep2ph (bits : nat -> F) (b : brep) : list (vec3 F) * list (t3 nat) :=
  (mapi (ph_vert bits) 0 (b_vs b), map h_v (b_fs b)).
End Brep.

Arguments vtx : clear implicits. Arguments face : clear implicits. Arguments brep : clear implicits.
Arguments plane : clear implicits.
