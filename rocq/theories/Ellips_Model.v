(** * Ellips_Model: the inertial ellipsoid of a mass property (rk_body.c 88-96). *)
From Verif Require Import Num Vec Motor_Model Joint_Model Body_Model.
Set Implicit Arguments.

Section Ellips.
Context {F : Type} {N : Num F}.
(** zEllips3D of ZEO: center, the three axis vectors (columns) and the three radii (the number of divisions for drawing left out). *)
Record ellips := El { el_center : vec3 F; el_axes : mat3 F; el_radii : vec3 F }.
(** rkMPInertiaEllips, rk_body.c 89-96; [eig] is zMat3DSymEig of ZEO: the eigenvalues and the eigenvectors as columns. *)
Definition mp_inertia_ellips (eig : mat3 F -> vec3 F * mat3 F) (m : mp F) : ellips :=
  let (eval, evec) := eig (mp_inertia m) in El (mp_com m) evec eval.
End Ellips.
