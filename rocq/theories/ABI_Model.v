(** * ABI_Model: forward dynamics by the articulated body algorithm (rk_abi.c and the ABI methods of the joints). *)

From Coq Require Import List String ZArith.
From Verif Require Import Num Vec Motor_Model Joint_Model Body_Model Tree Link_Model Walk.
Import ListNotations.
Set Implicit Arguments.

(** zMatInv of ZM on a square matrix given by its rows.  No law is assumed: the theorems ask for the
    inverses that a run actually computes to be right. *)
Class MInv (F : Type) := x_minv : list (list F) -> list (list F).

Section ABI.
Context {F : Type} {N : Num F} {E : Ext F} {MI : MInv F}.
Local Open Scope num_scope.

(** rkABIPrp, rk_link.h 20-35.  The matrices axi and iaxi are lists of rows. *)
Record abi := Abi {
  ab_m : mat6 F; ab_i : mat6 F; ab_f : vec6 F; ab_b : vec6 F; ab_c : vec6 F;
  ab_wl : wlist F; ab_w : vec6 F; ab_w0 : vec6 F; ab_b0 : vec6 F; ab_a0 : vec6 F;
  ab_path : bool; ab_axi : list (list F); ab_iaxi : list (list F) }.
(** A link together with its ABI working memory (member _abiprp). *)
Record alink := AL { al_l : link F; al_a : abi }.

Definition ab_set_i (x : mat6 F) (a : abi) := Abi (ab_m a) x (ab_f a) (ab_b a) (ab_c a) (ab_wl a) (ab_w a) (ab_w0 a) (ab_b0 a) (ab_a0 a) (ab_path a) (ab_axi a) (ab_iaxi a).
Definition ab_set_b (x : vec6 F) (a : abi) := Abi (ab_m a) (ab_i a) (ab_f a) x (ab_c a) (ab_wl a) (ab_w a) (ab_w0 a) (ab_b0 a) (ab_a0 a) (ab_path a) (ab_axi a) (ab_iaxi a).
Definition ab_set_wl (x : wlist F) (a : abi) := Abi (ab_m a) (ab_i a) (ab_f a) (ab_b a) (ab_c a) x (ab_w a) (ab_w0 a) (ab_b0 a) (ab_a0 a) (ab_path a) (ab_axi a) (ab_iaxi a).
Definition ab_set_b0a0 (x y : vec6 F) (a : abi) := Abi (ab_m a) (ab_i a) (ab_f a) (ab_b a) (ab_c a) (ab_wl a) (ab_w a) (ab_w0 a) x y (ab_path a) (ab_axi a) (ab_iaxi a).
Definition ab_set_path (x : bool) (a : abi) := Abi (ab_m a) (ab_i a) (ab_f a) (ab_b a) (ab_c a) (ab_wl a) (ab_w a) (ab_w0 a) (ab_b0 a) (ab_a0 a) x (ab_axi a) (ab_iaxi a).
Definition ab_set_axi (x y : list (list F)) (a : abi) := Abi (ab_m a) (ab_i a) (ab_f a) (ab_b a) (ab_c a) (ab_wl a) (ab_w a) (ab_w0 a) (ab_b0 a) (ab_a0 a) (ab_path a) x y.

Definition al_parent (l : alink) := l_parent (al_l l).
Definition al_child (l : alink) := l_child (al_l l).
Definition al_sibl (l : alink) := l_sibl (al_l l).
Definition al_joint (l : alink) : joint F := l_joint (al_l l).
Definition al_acc (l : alink) : vec6 F := l_acc (al_l l).
Definition al_map_a (f : abi -> abi) (l : alink) : alink := AL (al_l l) (f (al_a l)).
Definition al_set_joint (j : joint F) (l : alink) : alink := AL (l_set_joint j (al_l l)) (al_a l).
Definition al_set_acc (a : vec6 F) (l : alink) : alink := AL (l_set_body (b_set_acc a (l_body (al_l l))) (al_l l)) (al_a l).
Definition al_set_wrench (w : vec6 F) (l : alink) : alink := AL (l_set_wrench w (al_l l)) (al_a l).

(** ** Allocation *)

(** _rkLinkABIInitInertia, rk_abi.c 27-40. *)
Definition link_mass_mat (l : link F) : mat6 F :=
  let m := l_mass l in
  let pc := v3scale m (l_com l) in
  M6 (m3create m 0 0 0 m 0 0 0 m) (m3opp (m3skew pc)) (m3skew pc)
     (m3sub (mp_inertia (b_mp (l_body l))) (m3mul (m3skew pc) (m3skew (l_com l)))).
(** rkLinkABIAlloc, rk_abi.c 43-58 (zMatAllocSqr clears the matrix). *)
Definition abi_alloc (l : link F) : abi :=
  let n := joint_size (l_joint l) in
  let z := repeat (repeat 0 n) n in
  Abi (link_mass_mat l) m6zero v6zero v6zero v6zero [] v6zero v6zero v6zero v6zero false z z.

(** ** Joint methods *)

(** rkJointXformMat6D, rk_joint.c 138-156: the block e[1][0] of the argument is not read. *)
Definition joint_xform_mat6 (f : frame F) (i : mat6 F) : mat6 F :=
  let ll := m3rot (fatt f) (mll i) in
  let al0 := m3rot (fatt f) (mal i) in
  let aa0 := m3rot (fatt f) (maa i) in
  let px := m3skew (fpos f) in
  let al := m3add al0 (m3mul px ll) in
  let la := m3tr al in
  let aa := m3add aa0 (m3mul px la) in
  let aa := m3add aa (m3tr (m3mul px (m3tr al0))) in
  M6 ll la al aa.
Definition m6scaledyad (k : F) (a b : vec6 F) : mat6 F := m6dyad (v6scale k a) b.
Definition elem (h : list (list F)) (i j : nat) : F := nth j (nth i h []) 0.
Definition m3rows (m : mat3 F) : list (vec3 F) := [m3row0 m; m3row1 m; m3row2 m].
Definition m6rows (m : mat6 F) : list (list F) :=
  map (fun x => l3 (fst x) ++ l3 (snd x)) (combine (m3rows (mll m)) (m3rows (mla m)))
  ++ map (fun x => l3 (fst x) ++ l3 (snd x)) (combine (m3rows (mal m)) (m3rows (maa m))).
Definition row6 (h : list (list F)) (i : nat) : vec6 F :=
  V6 (V3 (elem h i 0) (elem h i 1) (elem h i 2)) (V3 (elem h i 3) (elem h i 4) (elem h i 5)).
Definition mat_v6 (h : list (list F)) (v : vec6 F) : vec6 F :=
  V6 (V3 (v6dot (row6 h 0) v) (v6dot (row6 h 1) v) (v6dot (row6 h 2) v))
     (V3 (v6dot (row6 h 3) v) (v6dot (row6 h 4) v) (v6dot (row6 h 5) v)).
Definition inv1 (h : F) : F := if ntiny x_tol h then 0 else 1 / h.

(** ABIAxisInertia: rk_joint_revol.c 197-205, rk_joint_prism.c 196-204, rk_joint_cylin.c 211-218,
    rk_joint_hooke.c 245-255, rk_joint_spher.c 208-217, rk_joint_float.c 199-211, rk_joint_brfloat.c 206-217
    and 237, rk_joint_fixed.c 67.  [br]: the method table of the breakable floating joint, shared by all
    such joints, holds the "Fixed" functions (rk_joint_brfloat.c 253-264).  The result is the pair of (axi, iaxi). *)
Definition joint_axis_inertia (br : bool) (j : joint F) (m : mat6 F) (old : list (list F) * list (list F)) : list (list F) * list (list F) :=
  match j with
  | JFixed => old
  | JRevol r => let h := motor_inertia (rv_m r) 0 + vz (mc2 (maa m)) in ([[h]], [[inv1 h]])
  | JPrism p => let h := motor_inertia (pr_m p) 0 + vz (mc2 (mll m)) in ([[h]], [[inv1 h]])
  | JCylin c =>
      let h := [[motor_inertia (cy_m c) 0 + vz (mc2 (mll m)); 0 + vz (mc2 (mla m))];
                [0 + vz (mc2 (mal m)); 0 + vz (mc2 (maa m))]] in (h, x_minv h)
  | JHooke k =>
      let i := maa m in let s := hk_s1 k in let c := hk_c1 k in
      let h := [[motor_inertia (hk_m k) 0 + (vx (mc0 i) * s * s - (vx (mc2 i) + vz (mc0 i)) * s * c + vz (mc2 i) * c * c);
                 0 + (vz (mc1 i) * c - vx (mc1 i) * s)];
                [0 + (vy (mc2 i) * c - vy (mc0 i) * s); 0 + vy (mc1 i)]] in (h, x_minv h)
  | JSpher _ => let h := map l3 (m3rows (maa m)) in (h, x_minv h)
  | JFloat _ => let h := m6rows m in (h, x_minv h)
  | JBrFloat _ _ _ => if br then old else let h := m6rows m in (h, x_minv h)
  end.

(** ABIAddABI: rk_joint_fixed.c 69-73, rk_joint_revol.c 207-219, rk_joint_prism.c 206-218, rk_joint_cylin.c 220-243,
    rk_joint_hooke.c 257-259, rk_joint_spher.c 219-221, rk_joint_float.c 213, rk_joint_brfloat.c 219 and 238-242:
    what is added to the articulated inertia of the parent (zero where the method does nothing). *)
Definition joint_give_abi (br : bool) (j : joint F) (m : mat6 F) (f : frame F) (h : list (list F)) : mat6 F :=
  match j with
  | JFixed => joint_xform_mat6 f m
  | JRevol _ => joint_xform_mat6 f (m6add (m6scaledyad (- elem h 0 0) (m6colza m) (m6rowza m)) m)
  | JPrism _ => joint_xform_mat6 f (m6add (m6scaledyad (- elem h 0 0) (m6colz m) (m6rowz m)) m)
  | JCylin _ =>
      let t := m6scaledyad (elem h 0 0) (m6colz m) (m6rowz m) in
      let t := m6add t (m6scaledyad (elem h 0 1) (m6colz m) (m6rowza m)) in
      let t := m6add t (m6scaledyad (elem h 1 0) (m6colza m) (m6rowz m)) in
      let t := m6add t (m6scaledyad (elem h 1 1) (m6colza m) (m6rowza m)) in
      joint_xform_mat6 f t
  | JHooke _ | JSpher _ | JFloat _ => m6zero
  | JBrFloat _ _ _ => if br then joint_xform_mat6 f m else m6zero
  end.

(** ABIAddBias: rk_joint_fixed.c 75-80, rk_joint_revol.c 221-233, rk_joint_prism.c 220-231, rk_joint_cylin.c 245-258,
    rk_joint_hooke.c 261-263, rk_joint_spher.c 223-225, rk_joint_float.c 215, rk_joint_brfloat.c 220 and 243-248:
    what is added to the bias force of the parent. *)
Definition joint_give_bias (br : bool) (j : joint F) (m : mat6 F) (b : vec6 F) (f : frame F) (h : list (list F)) : vec6 F :=
  match j with
  | JFixed => xform6ang f b
  | JRevol r => xform6ang f (v6sub b (v6scale (a_u (rv_a r) - vz (vang b)) (v6scale (- elem h 0 0) (m6colza m))))
  | JPrism p => xform6ang f (v6sub b (v6scale (a_u (pr_a p) - vz (vlin b)) (m6colz m)))
  | JCylin c =>
      let u0 := a_u (cy_0 c) - vz (vlin b) in let u1 := a_u (cy_1 c) - vz (vang b) in
      let t := v6cat b (u0 * elem h 0 0 + u1 * elem h 0 1) (m6colz m) in
      let t := v6cat t (u0 * elem h 1 0 + u1 * elem h 1 1) (m6colza m) in
      xform6ang f t
  | JHooke _ | JSpher _ | JFloat _ => v6zero
  | JBrFloat _ _ _ => if br then xform6ang f b else v6zero
  end.

(** ABIQAcc: rk_joint_fixed.c 83-85, rk_joint_revol.c 245-255, rk_joint_prism.c 243-253, rk_joint_cylin.c 270-285,
    rk_joint_hooke.c 269, rk_joint_spher.c 231, rk_joint_float.c 219-230, rk_joint_brfloat.c 222-233 and 250-252.
    [old] is the link acceleration before the call; the result is (joint, link acceleration). *)
Definition joint_qacc (br : bool) (j : joint F) (m : mat6 F) (b jac : vec6 F) (h : list (list F)) (old : vec6 F) : joint F * vec6 F :=
  match j with
  | JFixed => (j, jac)
  | JRevol r =>
      let q := elem h 0 0 * (a_u (rv_a r) - v6dot (m6rowza m) jac - vz (vang b)) in
      (JRevol (RV (ax_acc q (rv_a r)) (rv_s r) (rv_c r) (rv_m r)),
       V6 (vlin jac) (V3 (vx (vang jac)) (vy (vang jac)) (vz (vang jac) + q)))
  | JPrism p =>
      let q := elem h 0 0 * (a_u (pr_a p) - v6dot (m6rowz m) jac - vz (vlin b)) in
      (JPrism (PR (ax_acc q (pr_a p)) (pr_m p)),
       V6 (V3 (vx (vlin jac)) (vy (vlin jac)) (vz (vlin jac) + q)) (vang jac))
  | JCylin c =>
      let u0 := a_u (cy_0 c) - v6dot (m6rowz m) jac + vz (vlin b) in
      let u1 := a_u (cy_1 c) - v6dot (m6rowza m) jac + vz (vang b) in
      let q0 := u0 * elem h 0 0 + u1 * elem h 0 1 in
      let q1 := u0 * elem h 1 0 + u1 * elem h 1 1 in
      (JCylin (CY (ax_acc q0 (cy_0 c)) (ax_acc q1 (cy_1 c)) (cy_s c) (cy_c c) (cy_m c)),
       V6 (V3 (vx (vlin jac)) (vy (vlin jac)) (vz (vlin jac) + q0))
          (V3 (vx (vang jac)) (vy (vang jac)) (vz (vang jac) + q1)))
  | JHooke _ | JSpher _ => (j, old)
  | JFloat f =>
      let a := mat_v6 h (v6opp b) in
      (JFloat (FL (fl_dis f) (fl_vel f) (m3v6 (fl_att f) (v6sub a jac)) (fl_trq f) (fl_att f)), a)
  | JBrFloat f ef et =>
      if br then (j, jac)
      else let a := mat_v6 h (v6opp b) in
           (JBrFloat (FL (fl_dis f) (fl_vel f) (m3v6 (fl_att f) (v6sub a jac)) (fl_trq f) (fl_att f)) ef et, a)
  end.

(** [zVec3DNorm(v) > ep] without the square root; [None] is an infinite threshold. *)
Definition norm_above (v : vec3 F) (ep : option F) : bool :=
  match ep with None => false | Some e => orb (nltb e 0) (nltb (e * e) (v3sqr v)) end.
(** _rkJointUpdateWrench, rk_joint.c 158-162, and _rkJointBrFloatFixedUpdateWrench, rk_joint_brfloat.c 253-264:
    the joint wrench, and the state of the shared method table afterwards. *)
Definition joint_wrench (m : mat6 F) (b acc : vec6 F) : vec6 F := v6add (m6v m acc) b.
Definition joint_breaks (j : joint F) (w : vec6 F) : bool :=
  match j with JBrFloat _ ef et => orb (norm_above (vlin w) ef) (norm_above (vang w) et) | _ => false end.

(** ** Links *)

(** rkLinkABIUpdateInit, rk_abi.c 86-119.  [g] is RK_G. *)
Definition abi_init (g : F) (pvel : vec6 F) (l : alink) : alink :=
  let lk := al_l l in let a := al_a l in
  let w := vang (l_vel lk) in
  let f := V6 (v3scale (l_mass lk) (v3triple w w (l_com lk))) (v3cross w (m3v (maa (ab_m a)) w)) in
  let gf := m3tv (fatt (l_frame lk)) (V3 0 0 (- g * l_mass lk)) in
  let ew := body_ext_wrench (l_body lk) in
  let w0 := V6 (v3add (vlin ew) gf) (v3add (vang ew) (v3cross (l_com lk) gf)) in
  let adj := l_adj lk in
  let c := joint_inc_acc_on_vel (l_joint lk) (m3tv (fatt adj) (vang pvel)) v6zero in
  let t := m3tv (fatt adj) (v3triple (vang pvel) (vang pvel) (fpos adj)) in
  let c := V6 (v3add (vlin c) t) (vang c) in
  AL lk (Abi (ab_m a) (ab_m a) f f c (ab_wl a) (v6add (wl_net (ab_wl a)) w0) w0 (ab_b0 a) (ab_a0 a) (ab_path a) (ab_axi a) (ab_iaxi a)).

(** _rkLinkABIAddBias, rk_abi.c 135-143. *)
Definition abi_add_bias (br : bool) (l q : alink) : alink :=
  let a := al_a l in
  let icb := v6add (m6v (ab_i a) (ab_c a)) (ab_b a) in
  al_map_a (fun p => ab_set_b (v6add (ab_b p) (joint_give_bias br (al_joint l) (ab_i a) icb (l_adj (al_l l)) (ab_iaxi a))) p) q.
(** _rkLinkABIUpdateBackward, rk_abi.c 146-163: the link itself, and what its parent gets. *)
Definition abi_back (br : bool) (l : alink) : alink :=
  let a := al_a l in
  let b := v6sub (ab_b a) (ab_w a) in
  let x := joint_axis_inertia br (al_joint l) (ab_i a) (ab_axi a, ab_iaxi a) in
  al_set_joint (joint_driving_torque (al_joint l)) (al_map_a (fun a => ab_set_axi (fst x) (snd x) (ab_set_b b a)) l).
Definition abi_give (br : bool) (l q : alink) : alink :=
  let a := al_a l in
  let q := al_map_a (fun p => ab_set_i (m6add (ab_i p) (joint_give_abi br (al_joint l) (ab_i a) (l_adj (al_l l)) (ab_iaxi a))) p) q in
  abi_add_bias br l q.
(** _rkLinkABIUpdateForward, rk_abi.c 177-190. *)
Definition abi_fwd (br : bool) (l : alink) (pa : vec6 F) : alink :=
  let a := al_a l in
  let jac := v6add (xform6lin (l_adj (al_l l)) pa) (ab_c a) in
  let r := joint_qacc br (al_joint l) (ab_i a) (ab_b a) jac (ab_iaxi a) (al_acc l) in
  al_set_acc (snd r) (al_set_joint (fst r) l).
(** ... followed by rkJointUpdateWrench, rk_abi.c 204-209.  rkLinkWrench is the wrench of the joint. *)
Definition abi_fwd_wrench (br : bool) (l : alink) (pa : vec6 F) : bool * alink :=
  let l := abi_fwd br l pa in
  let w := joint_wrench (ab_i (al_a l)) (ab_b (al_a l)) (al_acc l) in
  (orb br (joint_breaks (al_joint l) w), al_set_wrench w l).

(** ** Chains *)

(** A chain with its ABI memory and the state of the method table of the breakable floating joint. *)
Record achain := AC { ac_c : chain F; ac_a : list abi; ac_br : bool }.
Definition ac_links (c : achain) : list alink := map (fun x => AL (fst x) (snd x)) (combine (c_links (ac_c c)) (ac_a c)).
Definition ac_put (c : achain) (br : bool) (h : list alink) : achain := AC (c_set_links (map al_l h) (ac_c c)) (map al_a h) br.
Definition ac_lift (c : achain) (f : nat -> list alink -> option (list alink)) : option achain :=
  option_map (ac_put c (ac_br c)) (f (c_fuel (ac_c c)) (ac_links c)).

(** rkChainABIAlloc, rk_abi.c 61-67. *)
Definition chain_abi_alloc (br : bool) (c : chain F) : achain := AC c (map abi_alloc (c_links c)) br.
(** rkChainABIUpdateInit, rk_abi.c 122-132. *)
Definition parent_vel (h : list alink) (l : alink) : option (vec6 F) :=
  match al_parent l with None => Some v6zero | Some q => option_map (fun lq => l_vel (al_l lq)) (nth_error h q) end.
Fixpoint map_opt {A B} (f : A -> option B) (l : list A) : option (list B) :=
  match l with [] => Some [] | a :: t => obind (f a) (fun b => option_map (cons b) (map_opt f t)) end.
Definition init_all (g : F) (h : list alink) : option (list alink) :=
  map_opt (fun l => option_map (fun v => abi_init g v l) (parent_vel h l)) h.
Definition chain_abi_init (g : F) (c : achain) : option achain := ac_lift c (fun _ h => init_all g h).
(** rkChainABIUpdateBackward/Forward/ForwardGetWrench, rk_abi.h 41-45. *)
Definition back_all (br : bool) (n : nat) (h : list alink) : option (list alink) :=
  walk_back al_parent al_child al_sibl (abi_back br) (abi_give br) n h 0.
Definition fwd_all (br : bool) (n : nat) (h : list alink) : option (list alink) :=
  option_map snd (walk_fwd al_child al_sibl (fun (_ : unit) l p => (tt, abi_fwd br l p)) al_acc n tt h 0%nat v6zero).
Definition fwd_wrench_all (br : bool) (n : nat) (h : list alink) : option (bool * list alink) :=
  walk_fwd al_child al_sibl abi_fwd_wrench al_acc n br h 0%nat v6zero.
Definition chain_abi_backward (c : achain) : option achain := ac_lift c (back_all (ac_br c)).
Definition chain_abi_forward (c : achain) : option achain := ac_lift c (fwd_all (ac_br c)).
Definition chain_abi_forward_wrench (c : achain) : option achain :=
  option_map (fun x => ac_put c (fst x) (snd x)) (fwd_wrench_all (ac_br c) (c_fuel (ac_c c)) (ac_links c)).
(** _rkChainZeroLinkRate, rk_abi.c 218-224 (rkBodyZeroRate, rk_body.c 169-173). *)
Definition zero_rate (l : link F) : link F := l_set_body (b_set_acc v6zero (b_set_vel v6zero (l_body l))) l.
Definition chain_zero_rate (c : achain) : achain := AC (c_set_links (map zero_rate (c_links (ac_c c))) (ac_c c)) (ac_a c) (ac_br c).
(** rkChainABIUpdate 227-236, rkChainABIUpdateGetWrench 239-248, rkChainABI 251-264 of rk_abi.c ([acc] is the
    vector the accelerations are written to; the inner [None] is the returned NULL). *)
Definition chain_abi_update (g : F) (c : achain) : option achain :=
  if Nat.eqb (chain_joint_size (ac_c c)) 0 then Some (chain_zero_rate c)
  else obind (chain_abi_init g c) (fun c => obind (chain_abi_backward c) chain_abi_forward).
Definition chain_abi_update_wrench (g : F) (c : achain) : option achain :=
  if Nat.eqb (chain_joint_size (ac_c c)) 0 then Some (chain_zero_rate c)
  else obind (chain_abi_init g c) (fun c => obind (chain_abi_backward c) chain_abi_forward_wrench).
Definition ac_on_chain (f : chain F -> option (chain F)) (c : achain) : option achain :=
  option_map (fun x => AC x (ac_a c) (ac_br c)) (f (ac_c c)).
Definition chain_abi (g : F) (c : achain) (dis vel acc : list F) : option (achain * option (list F)) :=
  if Nat.eqb (chain_joint_size (ac_c c)) 0 then Some (chain_zero_rate c, None)
  else obind (ac_on_chain (fun x => obind (chain_set_joint_dis_all x dis) (fun x =>
                            obind (chain_set_joint_vel_all x vel) (fun x =>
                            obind (chain_update_fk x) chain_update_vel))) c) (fun c =>
       obind (chain_abi_update_wrench g c) (fun c =>
       option_map (fun v => (c, Some v)) (chain_get_joint_acc_all (ac_c c) acc))).

(** ** Additional forces *)

(** _rkLinkABISubBiasNetWrenchAddExForce, rk_abi.c 291-299. *)
Definition abi_sub_net (l : alink) : alink :=
  match ab_wl (al_a l) with
  | [] => l
  | wl => al_map_a (fun a => ab_set_b (v6sub (ab_b a) (wl_net wl)) a) l
  end.
(** [zVec6DSub( &f, &w, &b )], rk_abi.c 304. *)
Definition abi_reset (l : alink) : alink := al_map_a (fun a => ab_set_b (v6sub (ab_f a) (ab_w a)) a) l.
Definition abi_mark (l : alink) : alink := al_map_a (ab_set_path true) l.
Definition abi_unmark (l : alink) : alink := al_map_a (ab_set_path false) l.
(** rk_abi.c 287. *)
Definition abi_holds (l : alink) : bool := orb (ab_path (al_a l)) (match ab_wl (al_a l) with [] => false | _ => true end).
(** _rkLinkABIUpdateBackwardAddExForce, rk_abi.c 301-314, from the root. *)
Definition back_ex (br : bool) (n : nat) (h : list alink) : option (list alink) :=
  walk_ex al_parent al_child al_sibl (fun l => ab_path (al_a l)) abi_reset abi_sub_net (abi_add_bias br) n h 0.
(** _rkChainABIUpdateBackwardAddExForce, rk_abi.c 316-324. *)
Definition backward_ex (br : bool) (n : nat) (h : list alink) : option (list alink) :=
  bind (walk_mark al_parent al_child al_sibl abi_holds abi_mark n (map abi_unmark h) 0) (back_ex br n).
(** rkChainABIUpdateAddExForce, rk_abi.c 326-334, and ...GetWrench 336-344. *)
Definition chain_abi_ex (c : achain) : option achain :=
  if Nat.eqb (chain_joint_size (ac_c c)) 0 then Some (chain_zero_rate c)
  else obind (ac_lift c (backward_ex (ac_br c))) chain_abi_forward.
Definition chain_abi_ex_wrench (c : achain) : option achain :=
  if Nat.eqb (chain_joint_size (ac_c c)) 0 then Some (chain_zero_rate c)
  else obind (ac_lift c (backward_ex (ac_br c))) chain_abi_forward_wrench.
(** rkChainABIPushPrpAccBias, rk_abi.c 353-361, and rkChainABIPopPrpAccBias 363-371. *)
Definition abi_push (l : alink) : alink := al_map_a (fun a => ab_set_b0a0 (ab_b a) (al_acc l) a) l.
Definition abi_pop (l : alink) : alink := al_set_acc (ab_a0 (al_a l)) (al_map_a (fun a => ab_set_b (ab_b0 a) a) l).
Definition chain_abi_push (c : achain) : achain := ac_put c (ac_br c) (map abi_push (ac_links c)).
Definition chain_abi_pop (c : achain) : achain := ac_put c (ac_br c) (map abi_pop (ac_links c)).
(** rkChainABIPopPrpAccBiasAddExForceTwo, rk_abi.c 373-384 ([None] is the null link). *)
Definition on_opt (o : option nat) (f : alink -> alink) (h : list alink) : option (list alink) :=
  match o with None => Some h | Some i => on_nth h i (fun l => Some (set_nth i (f l) h)) end.
Definition abi_pop_b (l : alink) : alink := al_map_a (fun a => ab_set_b (ab_b0 a) a) l.
Definition abi_pop_path (l : alink) : alink :=
  let l := al_set_acc (ab_a0 (al_a l)) l in if ab_path (al_a l) then abi_pop_b l else l.
Definition pop_two (o o2 : option nat) (h : list alink) : option (list alink) :=
  bind (on_opt o abi_pop_b h) (fun h => bind (on_opt o2 abi_pop_b h) (fun h => Some (map abi_pop_path h))).
Definition chain_abi_pop_two (c : achain) (o o2 : option nat) : option achain := ac_lift c (fun _ => pop_two o o2).
(** _rkChainABIUpdateBackwardAddExForceTwo, rk_abi.c 394-413.  A force is given as (link, wrench); the two
    wrench cells are different cells, so purging both leaves the list without the last one or two pushed. *)
Definition abi_push_w (w : wrench F) (l : alink) : alink := al_map_a (fun a => ab_set_wl (wl_push (ab_wl a) w) a) l.
Definition abi_purge_w (l : alink) : alink := al_map_a (fun a => ab_set_wl (tl (ab_wl a)) a) l.
Definition find_one (n : nat) (x : option (nat * wrench F)) (h : list alink) : option (list alink) :=
  match x with
  | None => Some h
  | Some (i, w) => on_nth h i (fun l =>
      bind (mark_up al_parent abi_mark n h (al_parent l)) (on_opt (Some i) (abi_push_w w)))
  end.
Definition back_two (br : bool) (n : nat) (x x2 : option (nat * wrench F)) (h : list alink) : option (list alink) :=
  bind (find_one n x (map abi_unmark h)) (fun h =>
  bind (find_one n x2 h) (fun h =>
  bind (back_ex br n h) (fun h =>
  bind (on_opt (option_map fst x) abi_purge_w h) (on_opt (option_map fst x2) abi_purge_w)))).
(** rkChainABIUpdateAddExForceTwo, rk_abi.c 415-423. *)
Definition chain_abi_ex_two (c : achain) (x x2 : option (nat * wrench F)) : option achain :=
  if Nat.eqb (chain_joint_size (ac_c c)) 0 then Some (chain_zero_rate c)
  else obind (ac_lift c (fun n => back_two (ac_br c) n x x2)) chain_abi_forward.
End ABI.
Arguments abi : clear implicits. Arguments alink : clear implicits. Arguments achain : clear implicits.
