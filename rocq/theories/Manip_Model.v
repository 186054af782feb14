(** * Manip_Model: the measure of manipulability (rk_jacobi.c 207-220).

    For Jacobians of three rows, which are all that rk_jacobi.c makes: a Jacobian is the list of its columns.  Allocation
    succeeds.  zMulMatMatT and zMatDet of ZM are the product with the transpose and the determinant; sqrt is a parameter. *)
From Coq Require Import List.
From Verif Require Import Num Vec.
Import ListNotations.

Section Manip.
Context {F : Type} {N : Num F}.
(** zMulMatMatT( jacobi, jacobi, k ). *)
Definition mul_mat_matt (J : list (vec3 F)) : mat3 F := fold_right (fun c k => m3add (m3dyad c c) k) m3zero J.
(** rkJacobiManip, rk_jacobi.c 207-220. *)
Definition jacobi_manip (sqrt : F -> F) (J : list (vec3 F)) : F := sqrt (m3det (mul_mat_matt J)).
End Manip.
