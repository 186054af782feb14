(** * Mp_Model: the mass property computed by the program rk_mp (app/rk_mp.c).

    The model file and the pose file are read by library code modelled elsewhere; here is what the
    program does with the chain afterwards.  Printing and memory management are left out. *)
From Coq Require Import List ZArith.
From Verif Require Import Num Vec Motor_Model Joint_Model Body_Model Tree Link_Model.
Import ListNotations.

Section Mp.
Context {F : Type} {N : Num F} {E : Ext F}.
Local Open Scope num_scope.

(** rk_mpLinkList, app/rk_mp.c 75-101: the integers scanf reads, up to the first negative one (or
    the first thing that is no integer, where the list given here ends).  `rkChainLink(chain,i)` is
    the address of an array element (rk_chain.h 34), which is no null pointer, so the second half
    of the test never ends the loop.  The cells are inserted at the head and visited from the tail,
    so the index has the order of the input. *)
Fixpoint rkmp_ids (inp : list Z) : list nat :=
  match inp with [] => [] | z :: t => if (z <? 0)%Z then [] else Z.to_nat z :: rkmp_ids t end.

(** rk_mpShiftInertia, app/rk_mp.c 103-119. *)
Definition rkmp_shift (i : mat3 F) (m : F) (s : vec3 F) : mat3 F :=
  let xx := vx s * vx s in let yy := vy s * vy s in let zz := vz s * vz s in
  let xy := vx s * vy s in let yz := vy s * vz s in let zx := vz s * vx s in
  m3cat i m (m3create (yy+zz) (-xy) (-zx)  (-xy) (zz+xx) (-yz)  (-zx) (-yz) (xx+yy)).
(** rk_mpCatInertia, app/rk_mp.c 121-128. *)
Definition rkmp_cat (is att : mat3 F) (m : F) (s : vec3 F) (i : mat3 F) : mat3 F :=
  m3add i (rkmp_shift (m3rot att is) m s).
(** One turn of the loop of rk_mpCalc, app/rk_mp.c 141-147. *)
Definition rkmp_acc (a : mp F) (l : link F) : mp F :=
  MP (mp_mass a + l_mass l) (v3cat (mp_com a) (l_mass l) (b_wcom (l_body l)))
     (rkmp_cat (mp_inertia (b_mp (l_body l))) (fatt (l_frame l)) (l_mass l) (b_wcom (l_body l)) (mp_inertia a)).
Fixpoint rkmp_loop (h : list (link F)) (idx : list nat) (a : mp F) : option (mp F) :=
  match idx with
  | [] => Some a
  | i :: t => match nth_error h i with Some l => rkmp_loop h t (rkmp_acc a l) | None => None end
  end.
(** rk_mpCalc after the loop, app/rk_mp.c 150-153. *)
Definition rkmp_close (a : mp F) : mp F :=
  let com := if ntiny x_tol (mp_mass a) then mp_com a else v3div (mp_com a) (mp_mass a) in
  MP (mp_mass a) com (rkmp_shift (mp_inertia a) (- mp_mass a) (v3opp com)).
(** rk_mpCalc, app/rk_mp.c 130-154; [None] is a read beyond the array of links. *)
Definition rkmp_calc (h : list (link F)) (idx : list nat) : option (mp F) :=
  option_map rkmp_close (rkmp_loop h idx (MP 0 v3zero m3zero)).
(** main, app/rk_mp.c 156-171, from line 162 on: [Some None] is the exit without output. *)
Definition rkmp_main (c : chain F) (inp : list Z) : option (option (mp F)) :=
  match rkmp_ids inp with [] => Some None | idx => option_map Some (rkmp_calc (c_links c) idx) end.
End Mp.
