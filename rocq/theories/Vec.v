(** * Vec: exact 3D and 6D algebra (contract of the ZEO library functions used
    by RoKi; ZEO itself is not part of /repo).

    Conventions of ZEO used throughout /repo:
    - zMat3D stores columns: [m->v[i]] is the i-th column, [m->e[j][i]] is
      row i, column j;
    - zVec6D = linear part followed by angular part;
    - zMat6D stores blocks [m->e[colblock][rowblock]]. *)

From Coq Require Import List.
From Verif Require Import Num.
Import ListNotations.

Set Implicit Arguments.

Record vec3 (F : Type) := V3 { vx : F; vy : F; vz : F }.
Record mat3 (F : Type) := M3 { mc0 : vec3 F; mc1 : vec3 F; mc2 : vec3 F }.
Record frame (F : Type) := Fr { fpos : vec3 F; fatt : mat3 F }.
Record vec6 (F : Type) := V6 { vlin : vec3 F; vang : vec3 F }.
(** [[ mll mla ; mal maa ]]: e[0][0]=mll, e[1][0]=mla, e[0][1]=mal, e[1][1]=maa. *)
Record mat6 (F : Type) := M6 { mll : mat3 F; mla : mat3 F; mal : mat3 F; maa : mat3 F }.

Arguments V3 {F}. Arguments M3 {F}. Arguments Fr {F}. Arguments V6 {F}. Arguments M6 {F}.

Section Ops.
Context {F : Type} {N : Num F}.
Local Open Scope num_scope.

(** zVec3D *)
Definition v3zero : vec3 F := V3 0 0 0.
Definition v3add (a b : vec3 F) := V3 (vx a + vx b) (vy a + vy b) (vz a + vz b).
Definition v3sub (a b : vec3 F) := V3 (vx a - vx b) (vy a - vy b) (vz a - vz b).
Definition v3opp (a : vec3 F) := V3 (- vx a) (- vy a) (- vz a).
Definition v3scale (k : F) (a : vec3 F) := V3 (k * vx a) (k * vy a) (k * vz a).
Definition v3cat (a : vec3 F) (k : F) (b : vec3 F) := v3add a (v3scale k b).     (* zVec3DCat *)
Definition v3div (a : vec3 F) (k : F) := V3 (vx a / k) (vy a / k) (vz a / k).     (* zVec3DDiv *)
Definition v3dot (a b : vec3 F) : F := vx a * vx b + vy a * vy b + vz a * vz b.   (* zVec3DInnerProd *)
Definition v3cross (a b : vec3 F) : vec3 F :=                                      (* zVec3DOuterProd *)
  V3 (vy a * vz b - vz a * vy b) (vz a * vx b - vx a * vz b) (vx a * vy b - vy a * vx b).
Definition v3triple (a b c : vec3 F) := v3cross a (v3cross b c).                   (* zVec3DTripleProd *)
Definition v3sqr (a : vec3 F) : F := v3dot a a.                                    (* zVec3DSqrNorm *)
Definition ex : vec3 F := V3 1 0 0.
Definition ey : vec3 F := V3 0 1 0.
Definition ez : vec3 F := V3 0 0 1.

(** zMat3D *)
Definition m3zero : mat3 F := M3 v3zero v3zero v3zero.
Definition m3id : mat3 F := M3 ex ey ez.
(** zMat3DCreate: arguments row by row. *)
Definition m3create (a11 a12 a13 a21 a22 a23 a31 a32 a33 : F) : mat3 F :=
  M3 (V3 a11 a21 a31) (V3 a12 a22 a32) (V3 a13 a23 a33).
Definition m3tr (m : mat3 F) : mat3 F :=
  M3 (V3 (vx (mc0 m)) (vx (mc1 m)) (vx (mc2 m)))
     (V3 (vy (mc0 m)) (vy (mc1 m)) (vy (mc2 m)))
     (V3 (vz (mc0 m)) (vz (mc1 m)) (vz (mc2 m))).
Definition m3row0 (m : mat3 F) := mc0 (m3tr m).                                    (* zMat3DRow *)
Definition m3row1 (m : mat3 F) := mc1 (m3tr m).
Definition m3row2 (m : mat3 F) := mc2 (m3tr m).
Definition m3add (a b : mat3 F) := M3 (v3add (mc0 a) (mc0 b)) (v3add (mc1 a) (mc1 b)) (v3add (mc2 a) (mc2 b)).
Definition m3sub (a b : mat3 F) := M3 (v3sub (mc0 a) (mc0 b)) (v3sub (mc1 a) (mc1 b)) (v3sub (mc2 a) (mc2 b)).
Definition m3opp (a : mat3 F) := M3 (v3opp (mc0 a)) (v3opp (mc1 a)) (v3opp (mc2 a)).
Definition m3scale (k : F) (a : mat3 F) := M3 (v3scale k (mc0 a)) (v3scale k (mc1 a)) (v3scale k (mc2 a)).
Definition m3cat (a : mat3 F) (k : F) (b : mat3 F) := m3add a (m3scale k b).       (* zMat3DCat *)
Definition m3v (m : mat3 F) (v : vec3 F) : vec3 F :=                               (* zMulMat3DVec3D *)
  v3add (v3add (v3scale (vx v) (mc0 m)) (v3scale (vy v) (mc1 m))) (v3scale (vz v) (mc2 m)).
Definition m3tv (m : mat3 F) (v : vec3 F) : vec3 F :=                              (* zMulMat3DTVec3D *)
  V3 (v3dot (mc0 m) v) (v3dot (mc1 m) v) (v3dot (mc2 m) v).
Definition m3mul (a b : mat3 F) : mat3 F :=                                        (* zMulMat3DMat3D *)
  M3 (m3v a (mc0 b)) (m3v a (mc1 b)) (m3v a (mc2 b)).
Definition m3det (m : mat3 F) : F := v3dot (v3cross (mc0 m) (mc1 m)) (mc2 m).
(** [v x]: matrix of the cross product. *)
Definition m3skew (v : vec3 F) : mat3 F :=
  m3create 0 (- vz v) (vy v)  (vz v) 0 (- vx v)  (- vy v) (vx v) 0.
Definition m3dyad (a b : vec3 F) : mat3 F :=                                       (* zMat3DDyad: a b^T *)
  M3 (v3scale (vx b) a) (v3scale (vy b) a) (v3scale (vz b) a).
Definition m3rot (r m : mat3 F) : mat3 F := m3mul (m3mul r m) (m3tr r).            (* zRotMat3D: R M R^T *)
Definition m3rotinv (r m : mat3 F) : mat3 F := m3mul (m3mul (m3tr r) m) r.         (* zRotMat3DInv *)

(** zFrame3D *)
Definition fid : frame F := Fr v3zero m3id.
Definition xform (f : frame F) (p : vec3 F) := v3add (m3v (fatt f) p) (fpos f).    (* zXform3D *)
Definition xforminv (f : frame F) (p : vec3 F) := m3tv (fatt f) (v3sub p (fpos f)). (* zXform3DInv *)
Definition fcascade (a b : frame F) : frame F :=                                   (* zFrame3DCascade *)
  Fr (xform a (fpos b)) (m3mul (fatt a) (fatt b)).
Definition finv (a : frame F) : frame F :=                                         (* zFrame3DInv *)
  Fr (v3opp (m3tv (fatt a) (fpos a))) (m3tr (fatt a)).
Definition frel (a b : frame F) : frame F :=                                       (* zFrame3DXform: a^-1 b *)
  Fr (xforminv a (fpos b)) (m3mul (m3tr (fatt a)) (fatt b)).

(** zVec6D *)
Definition v6zero : vec6 F := V6 v3zero v3zero.
Definition v6add (a b : vec6 F) := V6 (v3add (vlin a) (vlin b)) (v3add (vang a) (vang b)).
Definition v6sub (a b : vec6 F) := V6 (v3sub (vlin a) (vlin b)) (v3sub (vang a) (vang b)).
Definition v6opp (a : vec6 F) := V6 (v3opp (vlin a)) (v3opp (vang a)).
Definition v6scale (k : F) (a : vec6 F) := V6 (v3scale k (vlin a)) (v3scale k (vang a)).
Definition v6cat (a : vec6 F) (k : F) (b : vec6 F) := v6add a (v6scale k b).
Definition v6dot (a b : vec6 F) : F := v3dot (vlin a) (vlin b) + v3dot (vang a) (vang b).
(** zVec6DLinShift: velocity of the point p; zVec6DAngShift: wrench moved to the origin from p. *)
Definition v6linshift (v : vec6 F) (p : vec3 F) : vec6 F :=
  V6 (v3add (vlin v) (v3cross (vang v) p)) (vang v).
Definition v6angshift (w : vec6 F) (p : vec3 F) : vec6 F :=
  V6 (vlin w) (v3add (vang w) (v3cross p (vlin w))).
Definition m3v6 (m : mat3 F) (v : vec6 F) : vec6 F := V6 (m3v m (vlin v)) (m3v m (vang v)).     (* zMulMat3DVec6D *)
Definition m3tv6 (m : mat3 F) (v : vec6 F) : vec6 F := V6 (m3tv m (vlin v)) (m3tv m (vang v)).  (* zMulMat3DTVec6D *)
(** zXform6DLin: twist of the parent frame seen at/in the child frame;
    zXform6DAng: wrench of the child frame seen at/in the parent frame. *)
Definition xform6lin (f : frame F) (v : vec6 F) : vec6 F := m3tv6 (fatt f) (v6linshift v (fpos f)).
Definition xform6ang (f : frame F) (w : vec6 F) : vec6 F := v6angshift (m3v6 (fatt f) w) (fpos f).

(** zMat6D *)
Definition m6zero : mat6 F := M6 m3zero m3zero m3zero m3zero.
Definition m6add (a b : mat6 F) : mat6 F :=
  M6 (m3add (mll a) (mll b)) (m3add (mla a) (mla b)) (m3add (mal a) (mal b)) (m3add (maa a) (maa b)).
Definition m6v (m : mat6 F) (v : vec6 F) : vec6 F :=                               (* zMulMat6DVec6D *)
  V6 (v3add (m3v (mll m) (vlin v)) (m3v (mla m) (vang v)))
     (v3add (m3v (mal m) (vlin v)) (m3v (maa m) (vang v))).
Definition m6tr (m : mat6 F) : mat6 F :=
  M6 (m3tr (mll m)) (m3tr (mal m)) (m3tr (mla m)) (m3tr (maa m)).
Definition m6dyad (a b : vec6 F) : mat6 F :=                                       (* zMat6DDyad: a b^T *)
  M6 (m3dyad (vlin a) (vlin b)) (m3dyad (vlin a) (vang b))
     (m3dyad (vang a) (vlin b)) (m3dyad (vang a) (vang b)).
(** Columns/rows zZ (index 2) and zZA (index 5). *)
Definition m6colz (m : mat6 F) : vec6 F := V6 (mc2 (mll m)) (mc2 (mal m)).
Definition m6colza (m : mat6 F) : vec6 F := V6 (mc2 (mla m)) (mc2 (maa m)).
Definition m6rowz (m : mat6 F) : vec6 F := V6 (m3row2 (mll m)) (m3row2 (mla m)).
Definition m6rowza (m : mat6 F) : vec6 F := V6 (m3row2 (mal m)) (m3row2 (maa m)).

(** Sums *)
Definition v3sum (l : list (vec3 F)) : vec3 F := fold_right v3add v3zero l.
Definition v6sum (l : list (vec6 F)) : vec6 F := fold_right v6add v6zero l.
Definition nsum (l : list F) : F := fold_right nadd 0 l.
Definition m3sum (l : list (mat3 F)) : mat3 F := fold_right m3add m3zero l.

(** A right-handed orthonormal attitude, i.e. a rotation (specification). *)
Definition rotation (r : mat3 F) : Prop := m3mul (m3tr r) r = m3id /\ m3det r = 1.
Definition rigid (f : frame F) : Prop := rotation (fatt f).
Definition sym3 (m : mat3 F) : Prop := m3tr m = m.
Definition sym6 (m : mat6 F) : Prop := m6tr m = m.
Definition psd3 (m : mat3 F) : Prop := forall v, 0 <= v3dot v (m3v m v).
Definition psd6 (m : mat6 F) : Prop := forall v, 0 <= v6dot v (m6v m v).
End Ops.
