(** * Body_Model: wrench lists, mass properties and bodies (rk_force.c, rk_body.c). *)

From Coq Require Import List String ZArith.
From Verif Require Import Num Vec.
Import ListNotations.
Set Implicit Arguments.

Section Body.
Context {F : Type} {N : Num F}.
Local Open Scope num_scope.

(** ** Wrenches *)

(** rkWrenchData, rk_force.h 21-24. *)
Record wrench := Wr { wr_w : vec6 F; wr_p : vec3 F }.
(** A wrench list is kept with the tail cell (the one zListForEach visits first,
    i.e. the most recently pushed) at the head of the Coq list. *)
Definition wlist := list wrench.

(** rkWrenchListPush = zListInsertTail, rk_force.h 62. *)
Definition wl_push (l : wlist) (w : wrench) : wlist := w :: l.
(** rkWrenchListPop, rk_force.c 15-22: the list afterwards and the returned cell (None = NULL). *)
Definition wl_pop (l : wlist) : wlist * option wrench :=
  match l with [] => ([], None) | w :: l' => (l', Some w) end.
(** rkWrenchShift, rk_force.c 25-28. *)
Definition wr_shift (c : wrench) : vec6 F := v6angshift (wr_w c) (wr_p c).
(** rkWrenchListNet, rk_force.c 31-42. *)
Definition wl_net (l : wlist) : vec6 F := fold_left (fun w c => v6add w (wr_shift c)) l v6zero.

(** Histories of push and pop; the outputs are the results of the pops. *)
Inductive wop := WPush (w : wrench) | WPop.
Fixpoint wl_run (l : wlist) (ops : list wop) : wlist * list (option wrench) :=
  match ops with
  | [] => (l, [])
  | WPush w :: ops' => wl_run (wl_push l w) ops'
  | WPop :: ops' => let '(l', r) := wl_pop l in let '(l'', rs) := wl_run l' ops' in (l'', r :: rs)
  end.

(** ** Mass properties *)

(** rkMP, rk_body.h 21-26. *)
Record mp := MP { mp_mass : F; mp_com : vec3 F; mp_inertia : mat3 F }.

(** rkMPXform, rk_body.c 24-30. *)
Definition mp_xform (src : mp) (f : frame F) : mp :=
  MP (mp_mass src) (xform f (mp_com src)) (m3rot (fatt f) (mp_inertia src)).
(** rkMPXformInv, rk_body.c 33-39. *)
Definition mp_xforminv (src : mp) (f : frame F) : mp :=
  MP (mp_mass src) (xforminv f (mp_com src)) (m3rotinv (fatt f) (mp_inertia src)).
(** _rkMPShiftInertia, rk_body.c 43-59. *)
Definition mp_shift_inertia (src : mat3 F) (m : F) (s : vec3 F) : mat3 F :=
  let xx := vx s * vx s in let yy := vy s * vy s in let zz := vz s * vz s in
  let xy := vx s * vy s in let yz := vy s * vz s in let zx := vz s * vx s in
  m3cat src m (m3create (yy+zz) (-xy) (-zx)  (-xy) (zz+xx) (-yz)  (-zx) (-yz) (xx+yy)).
(** rkMPCombine, rk_body.c 62-80 ([mp] distinct from [mp1], [mp2], as in all callers in rk_body.c). *)
Definition mp_combine (m1 m2 : mp) : mp :=
  let mass := mp_mass m1 + mp_mass m2 in
  let com := v3add (v3scale (mp_mass m1 / mass) (mp_com m1)) (v3scale (mp_mass m2 / mass) (mp_com m2)) in
  let i1 := mp_shift_inertia (mp_inertia m1) (mp_mass m1) (v3sub (mp_com m1) com) in
  let i2 := mp_shift_inertia (mp_inertia m2) (mp_mass m2) (v3sub (mp_com m2) com) in
  MP mass com (m3add i1 i2).
(** rkMPOrgInertia, rk_body.c 83-86. *)
Definition mp_org_inertia (m : mp) : mat3 F := mp_shift_inertia (mp_inertia m) (mp_mass m) (mp_com m).
(** rkMPgmm2kgm, rk_body.c 15-21. *)
Definition mp_gmm2kgm (m : mp) : mp :=
  MP (mp_mass m * nrat 1 1000) (v3scale (nrat 1 1000) (mp_com m)) (m3scale (nrat 1 1000000000) (mp_inertia m)).

(** ** Bodies *)

(** rkBody, rk_body.h 97-108; shapes are indices into the multi-shape buffer. *)
Record body := Body {
  b_mp : mp; b_frame : frame F; b_vel : vec6 F; b_acc : vec6 F;
  b_wcom : vec3 F; b_comvel : vec3 F; b_comacc : vec3 F;
  b_extw : wlist; b_shapes : list nat; b_stuff : option string }.

(** rkBodyInit, rk_body.c 114-130. *)
Definition body_init : body :=
  Body (MP 0 v3zero m3zero) fid v6zero v6zero v3zero v3zero v3zero [] [] None.
(** rkBodyClone, rk_body.c 142-166: [cln] is the clone target before the call.  Each visited wrench
    is pushed, so the list order is reversed; likewise for shapes (zListForEach + rkBodyShapePush,
    an insertion at the tail).  Failure of memory allocation is not modelled. *)
Definition body_clone (org cln : body) : body :=
  Body (b_mp org) (b_frame cln) (b_vel cln) (b_acc cln) (b_wcom cln) (b_comvel cln) (b_comacc cln)
       (fold_left wl_push (b_extw org) []) (fold_left (fun l s => s :: l) (b_shapes org) [])
       (match b_stuff org with Some s => Some s | None => b_stuff cln end).
(** rkBodyZeroRate, rk_body.c 169-173. *)
Definition body_zero_rate (b : body) : body :=
  Body (b_mp b) (b_frame b) v6zero v6zero (b_wcom b) (b_comvel b) (b_comacc b) (b_extw b) (b_shapes b) (b_stuff b).
(** rkBodyCopyState, rk_body.c 176-185. *)
Definition body_copy_state (src dst : body) : body :=
  Body (b_mp dst) (b_frame src) (b_vel src) (b_acc src) (b_wcom src) (b_comvel src) (b_comacc src)
       (b_extw dst) (b_shapes dst) (b_stuff dst).
Definition body_set_mp (b : body) (m : mp) : body :=
  Body m (b_frame b) (b_vel b) (b_acc b) (b_wcom b) (b_comvel b) (b_comacc b) (b_extw b) (b_shapes b) (b_stuff b).
Definition body_set_frame (b : body) (f : frame F) : body :=
  Body (b_mp b) f (b_vel b) (b_acc b) (b_wcom b) (b_comvel b) (b_comacc b) (b_extw b) (b_shapes b) (b_stuff b).
(** rkBodyCombine, rk_body.c 188-200. *)
Definition body_combine (b1 b2 : body) (f : frame F) (b : body) : body :=
  body_set_frame (body_set_mp b (mp_combine (mp_xform (b_mp b1) (frel f (b_frame b1)))
                                            (mp_xform (b_mp b2) (frel f (b_frame b2))))) f.
(** rkBodyCombineDRC, rk_body.c 203-213. *)
Definition body_combine_drc (b sb : body) : body :=
  body_set_mp b (mp_combine (b_mp b) (mp_xform (b_mp sb) (frel (b_frame b) (b_frame sb)))).
(** rkBodyUpdateCOM, rk_body.c 216-219. *)
Definition body_update_com (b : body) : body :=
  Body (b_mp b) (b_frame b) (b_vel b) (b_acc b) (xform (b_frame b) (mp_com (b_mp b))) (b_comvel b) (b_comacc b)
       (b_extw b) (b_shapes b) (b_stuff b).
(** rkBodyUpdateCOMVel, rk_body.c 222-229. *)
Definition body_update_comvel (b : body) : body :=
  Body (b_mp b) (b_frame b) (b_vel b) (b_acc b) (b_wcom b)
       (v3add (vlin (b_vel b)) (v3cross (vang (b_vel b)) (mp_com (b_mp b)))) (b_comacc b)
       (b_extw b) (b_shapes b) (b_stuff b).
(** rkBodyUpdateCOMAcc, rk_body.c 232-241. *)
Definition body_update_comacc (b : body) : body :=
  let w := vang (b_vel b) in let c := mp_com (b_mp b) in
  Body (b_mp b) (b_frame b) (b_vel b) (b_acc b) (b_wcom b) (b_comvel b)
       (v3add (v3add (v3triple w w c) (v3cross (vang (b_acc b)) c)) (vlin (b_acc b)))
       (b_extw b) (b_shapes b) (b_stuff b).
(** rkBodyUpdateCOMRate, rk_body.c 244-248. *)
Definition body_update_comrate (b : body) : body := body_update_comacc (body_update_comvel b).
(** rkBodyNetWrench, rk_body.c 251-261. *)
Definition body_net_wrench (b : body) : vec6 F :=
  let w := vang (b_vel b) in let i := mp_inertia (b_mp b) in
  V6 (v3scale (mp_mass (b_mp b)) (b_comacc b))
     (v3add (v3cross w (m3v i w)) (m3v i (vang (b_acc b)))).
(** rkBodyAM, rk_body.c 264-273. *)
Definition body_am (b : body) (p : vec3 F) : vec3 F :=
  v3add (v3scale (mp_mass (b_mp b)) (v3cross (v3sub (mp_com (b_mp b)) p) (b_comvel b)))
        (m3v (mp_inertia (b_mp b)) (vang (b_vel b))).
(** rkBodyKE, rk_body.c 276-285. *)
Definition body_ke (b : body) : F :=
  (v3dot (vang (b_vel b)) (m3v (mp_inertia (b_mp b)) (vang (b_vel b)))
   + mp_mass (b_mp b) * v3sqr (b_comvel b)) * (1 / n2).
(** rkBodyExtWrenchPush/Pop/CalcExtWrench, rk_body.h 244-258. *)
Definition body_ext_push (b : body) (w : wrench) : body :=
  Body (b_mp b) (b_frame b) (b_vel b) (b_acc b) (b_wcom b) (b_comvel b) (b_comacc b)
       (wl_push (b_extw b) w) (b_shapes b) (b_stuff b).
Definition body_ext_wrench (b : body) : vec6 F := wl_net (b_extw b).
End Body.
Arguments wrench : clear implicits. Arguments wlist : clear implicits. Arguments wop : clear implicits.
Arguments mp : clear implicits. Arguments body : clear implicits.
