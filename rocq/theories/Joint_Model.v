(** * Joint_Model: the eight joint classes (rk_joint.c, rk_joint_*.c).

    Arrays of joint values ([double *]) are lists.  A method reads the first
    [size] entries; reading past the end of the list is undefined behaviour in C
    and gives [None] here.  The member [wrench] of rkJoint is only used by the
    articulated body algorithm and is modelled there. *)

From Coq Require Import List String ZArith.
From Verif Require Import Num Vec Motor_Model.
Import ListNotations.
Set Implicit Arguments.

(** Functions of ZM/ZEO that are not algebraic. Their laws, where needed, are
    in [ExtLaws] (a hypothesis of the theorems that use them). *)
Class Ext (F : Type) := mkExt {
  x_pi : F;                                 (* zPI *)
  x_phnorm : F -> F;                        (* zPhaseNormalize *)
  x_sin : F -> F; x_cos : F -> F;           (* zSinCos *)
  x_aa2m : vec3 F -> mat3 F;                (* zMat3DFromAA *)
  x_aacas : vec3 F -> vec3 F -> vec3 F;     (* zAACascade *)
  x_m3err : mat3 F -> mat3 F -> vec3 F;     (* zMat3DError *)
  x_tol : F                                 (* zTOL of zIsTiny *)
}.

Class ExtLaws (F : Type) (N : Num F) (E : Ext F) : Prop := mkExtLaws {
  x_sc : forall t : F, (x_sin t * x_sin t + x_cos t * x_cos t = 1)%num;
  x_sin0 : (x_sin 0 = 0)%num;
  x_cos0 : (x_cos 0 = 1)%num;
  x_pi_pos : (0 < x_pi)%num;
  x_ph_lo : forall t : F, (- x_pi < x_phnorm t)%num;        (* the phase is normalised into (-pi,pi] *)
  x_ph_hi : forall t : F, (x_phnorm t <= x_pi)%num;
  x_ph_id : forall t : F, (- x_pi < t)%num -> (t <= x_pi)%num -> x_phnorm t = t;
  x_aa_rot : forall v : vec3 F, rotation (x_aa2m v);
  x_aa_0 : x_aa2m v3zero = m3id;
  x_tol_pos : (0 < x_tol)%num
}.

Section Joint.
Context {F : Type} {N : Num F} {E : Ext F}.
Local Open Scope num_scope.

(** rkJointFrictionPivot, rk_joint.h 26-29. *)
Record fpivot := FP { fp_type : Z; fp_ref : F; fp_prev : F }.
Definition fp_zero : fpivot := FP 0 0 0.

(** Per-axis members of rkJointRevolPrp, rkJointPrismPrp, rkJointCylinPrp and
    rkJointHookePrp (dis vel acc trq min max stiffness viscosity coulomb tf sf _fp _u),
    rk_joint_revol.h 14-38 and likewise in the other three headers. *)
Record ax1 := Ax {
  a_dis : F; a_vel : F; a_acc : F; a_trq : F;
  a_min : option F; a_max : option F;
  a_stiff : F; a_visc : F; a_coul : F;
  a_tf : F; a_sf : F; a_fp : fpivot; a_u : F }.

Definition ax_dis (x : F) (a : ax1) := Ax x (a_vel a) (a_acc a) (a_trq a) (a_min a) (a_max a) (a_stiff a) (a_visc a) (a_coul a) (a_tf a) (a_sf a) (a_fp a) (a_u a).
Definition ax_vel (x : F) (a : ax1) := Ax (a_dis a) x (a_acc a) (a_trq a) (a_min a) (a_max a) (a_stiff a) (a_visc a) (a_coul a) (a_tf a) (a_sf a) (a_fp a) (a_u a).
Definition ax_acc (x : F) (a : ax1) := Ax (a_dis a) (a_vel a) x (a_trq a) (a_min a) (a_max a) (a_stiff a) (a_visc a) (a_coul a) (a_tf a) (a_sf a) (a_fp a) (a_u a).
Definition ax_trq (x : F) (a : ax1) := Ax (a_dis a) (a_vel a) (a_acc a) x (a_min a) (a_max a) (a_stiff a) (a_visc a) (a_coul a) (a_tf a) (a_sf a) (a_fp a) (a_u a).
Definition ax_min (x : option F) (a : ax1) := Ax (a_dis a) (a_vel a) (a_acc a) (a_trq a) x (a_max a) (a_stiff a) (a_visc a) (a_coul a) (a_tf a) (a_sf a) (a_fp a) (a_u a).
Definition ax_max (x : option F) (a : ax1) := Ax (a_dis a) (a_vel a) (a_acc a) (a_trq a) (a_min a) x (a_stiff a) (a_visc a) (a_coul a) (a_tf a) (a_sf a) (a_fp a) (a_u a).
Definition ax_tf (x : F) (a : ax1) := Ax (a_dis a) (a_vel a) (a_acc a) (a_trq a) (a_min a) (a_max a) (a_stiff a) (a_visc a) (a_coul a) x (a_sf a) (a_fp a) (a_u a).
Definition ax_fp (x : fpivot) (a : ax1) := Ax (a_dis a) (a_vel a) (a_acc a) (a_trq a) (a_min a) (a_max a) (a_stiff a) (a_visc a) (a_coul a) (a_tf a) (a_sf a) x (a_u a).
Definition ax_u (x : F) (a : ax1) := Ax (a_dis a) (a_vel a) (a_acc a) (a_trq a) (a_min a) (a_max a) (a_stiff a) (a_visc a) (a_coul a) (a_tf a) (a_sf a) (a_fp a) x.
(** Friction coefficients as set by the ZTK readers (rk_joint_revol.c 272-287). *)
Definition ax_coef (st vi co sf : F) (a : ax1) := Ax (a_dis a) (a_vel a) (a_acc a) (a_trq a) (a_min a) (a_max a) st vi co (a_tf a) sf (a_fp a) (a_u a).

(** zAlloc'ed memory is zero filled; _init sets infinite limits. *)
Definition ax_init : ax1 := Ax 0 0 0 0 None None 0 0 0 0 0 fp_zero 0.

Record revol := RV { rv_a : ax1; rv_s : F; rv_c : F; rv_m : motor F }.          (* rk_joint_revol.h 14-38 *)
Record prism := PR { pr_a : ax1; pr_m : motor F }.                               (* rk_joint_prism.h *)
Record cylin := CY { cy_0 : ax1; cy_1 : ax1; cy_s : F; cy_c : F; cy_m : motor F }. (* rk_joint_cylin.h *)
Record hooke := HK { hk_0 : ax1; hk_1 : ax1; hk_s0 : F; hk_c0 : F; hk_s1 : F; hk_c1 : F; hk_m : motor F }. (* rk_joint_hooke.h *)
Record spher := SP { sp_aa : vec3 F; sp_vel : vec3 F; sp_acc : vec3 F; sp_trq : vec3 F; sp_att : mat3 F; sp_m : motor F }. (* rk_joint_spher.h 14-27 *)
Record floatj := FL { fl_dis : vec6 F; fl_vel : vec6 F; fl_acc : vec6 F; fl_trq : vec6 F; fl_att : mat3 F }. (* rk_joint_float.h, rk_joint_brfloat.h *)

(** The method table (com) together with the property record (prp).
    [JBrFloat] carries ep_f and ep_t (rk_joint_brfloat.h; infinite = [None]). *)
Inductive joint :=
| JFixed | JRevol (r : revol) | JPrism (p : prism) | JCylin (c : cylin) | JHooke (h : hooke)
| JSpher (s : spher) | JFloat (f : floatj) | JBrFloat (f : floatj) (ep_f ep_t : option F).

Inductive jtype := TFixed | TRevol | TPrism | TCylin | THooke | TSpher | TFloat | TBrFloat.
Definition jtype_of (j : joint) : jtype :=
  match j with
  | JFixed => TFixed | JRevol _ => TRevol | JPrism _ => TPrism | JCylin _ => TCylin
  | JHooke _ => THooke | JSpher _ => TSpher | JFloat _ => TFloat | JBrFloat _ _ _ => TBrFloat end.

(** size and typestr members of the eight rkJointCom tables. *)
Definition jtype_size (t : jtype) : nat :=
  match t with TFixed => 0%nat | TRevol => 1%nat | TPrism => 1%nat | TCylin => 2%nat | THooke => 2%nat | TSpher => 3%nat | TFloat => 6%nat | TBrFloat => 6%nat end.
Definition joint_size (j : joint) : nat := jtype_size (jtype_of j).
Definition jtype_str (t : jtype) : string :=
  match t with
  | TFixed => "fixed" | TRevol => "revolute" | TPrism => "prismatic" | TCylin => "cylindrical"
  | THooke => "hooke" | TSpher => "spherical" | TFloat => "float" | TBrFloat => "breakablefloat" end.
Definition joint_typestr (j : joint) : string := jtype_str (jtype_of j).

(** Reading the leading entries of a [double *]. *)
Definition rd1 {A} (l : list A) : option A := match l with a :: _ => Some a | _ => None end.
Definition rd2 {A} (l : list A) : option (A * A) := match l with a :: b :: _ => Some (a, b) | _ => None end.
Definition rd3 (l : list F) : option (vec3 F) := match l with a :: b :: c :: _ => Some (V3 a b c) | _ => None end.
Definition rd6 (l : list F) : option (vec6 F) :=
  match l with a :: b :: c :: d :: e :: f :: _ => Some (V6 (V3 a b c) (V3 d e f)) | _ => None end.
Definition l3 (v : vec3 F) : list F := [vx v; vy v; vz v].
Definition l6 (v : vec6 F) : list F := l3 (vlin v) ++ l3 (vang v).

(** ** Displacement *)

(** _rkJoint*LimDis: rk_joint_revol.c 20-24, rk_joint_prism.c 20-22, rk_joint_cylin.c 22-29,
    rk_joint_hooke.c 22-30, rk_joint_spher.c 18-20, rk_joint_float.c 16-18, rk_joint_brfloat.c 25-27. *)
Definition lim_rot (a : ax1) (v : F) : F := clamp (x_phnorm v) (a_min a) (a_max a).
Definition lim_lin (a : ax1) (v : F) : F := clamp v (a_min a) (a_max a).
Definition joint_lim_dis (j : joint) (l : list F) : option (list F) :=
  match j with
  | JFixed => Some []
  | JRevol r => option_map (fun v => [lim_rot (rv_a r) v]) (rd1 l)
  | JPrism p => option_map (fun v => [lim_lin (pr_a p) v]) (rd1 l)
  | JCylin c => option_map (fun '(v,w) => [lim_lin (cy_0 c) v; lim_rot (cy_1 c) w]) (rd2 l)
  | JHooke h => option_map (fun '(v,w) => [lim_rot (hk_0 h) v; lim_rot (hk_1 h) w]) (rd2 l)
  | JSpher _ => option_map l3 (rd3 l)
  | JFloat _ | JBrFloat _ _ _ => option_map l6 (rd6 l)
  end.

(** _rkJoint*SetDis: rk_joint_revol.c 27-30, rk_joint_prism.c 25-27, rk_joint_cylin.c 32-35,
    rk_joint_hooke.c 33-41, rk_joint_spher.c 23-26, rk_joint_float.c 21-24, rk_joint_brfloat.c 30-33. *)
Definition revol_setdis (r : revol) (v : F) : revol :=
  let d := lim_rot (rv_a r) v in RV (ax_dis d (rv_a r)) (x_sin d) (x_cos d) (rv_m r).
Definition prism_setdis (p : prism) (v : F) : prism := PR (ax_dis (lim_lin (pr_a p) v) (pr_a p)) (pr_m p).
Definition cylin_setdis (c : cylin) (v w : F) : cylin :=
  let d := lim_rot (cy_1 c) w in
  CY (ax_dis (lim_lin (cy_0 c) v) (cy_0 c)) (ax_dis d (cy_1 c)) (x_sin d) (x_cos d) (cy_m c).
Definition hooke_setdis (h : hooke) (v w : F) : hooke :=
  let d0 := lim_rot (hk_0 h) v in
  let d1 := lim_rot (hk_1 h) w in
  HK (ax_dis d0 (hk_0 h)) (ax_dis d1 (hk_1 h)) (x_sin d0) (x_cos d0) (x_sin d1) (x_cos d1) (hk_m h).
Definition spher_setdis (s : spher) (v : vec3 F) : spher := SP v (sp_vel s) (sp_acc s) (sp_trq s) (x_aa2m v) (sp_m s).
Definition float_setdis (f : floatj) (v : vec6 F) : floatj := FL v (fl_vel f) (fl_acc f) (fl_trq f) (x_aa2m (vang v)).

Definition joint_set_dis (j : joint) (l : list F) : option joint :=
  match j with
  | JFixed => Some JFixed
  | JRevol r => option_map (fun v => JRevol (revol_setdis r v)) (rd1 l)
  | JPrism p => option_map (fun v => JPrism (prism_setdis p v)) (rd1 l)
  | JCylin c => option_map (fun '(v,w) => JCylin (cylin_setdis c v w)) (rd2 l)
  | JHooke h => option_map (fun '(v,w) => JHooke (hooke_setdis h v w)) (rd2 l)
  | JSpher s => option_map (fun v => JSpher (spher_setdis s v)) (rd3 l)
  | JFloat f => option_map (fun v => JFloat (float_setdis f v)) (rd6 l)
  | JBrFloat f a b => option_map (fun v => JBrFloat (float_setdis f v) a b) (rd6 l)
  end.

(** ** Limits, velocity, acceleration, torque: setters
    (rk_joint_revol.c 32-50, rk_joint_prism.c 29-47, rk_joint_cylin.c 37-55, rk_joint_hooke.c 43-61,
    rk_joint_spher.c 28-40, rk_joint_float.c 26-38, rk_joint_brfloat.c 35-47). *)
Definition joint_set_min (j : joint) (l : list (option F)) : option joint :=
  match j with
  | JRevol r => option_map (fun v => JRevol (RV (ax_min v (rv_a r)) (rv_s r) (rv_c r) (rv_m r))) (rd1 l)
  | JPrism p => option_map (fun v => JPrism (PR (ax_min v (pr_a p)) (pr_m p))) (rd1 l)
  | JCylin c => option_map (fun '(v,w) => JCylin (CY (ax_min v (cy_0 c)) (ax_min w (cy_1 c)) (cy_s c) (cy_c c) (cy_m c))) (rd2 l)
  | JHooke h => option_map (fun '(v,w) => JHooke (HK (ax_min v (hk_0 h)) (ax_min w (hk_1 h)) (hk_s0 h) (hk_c0 h) (hk_s1 h) (hk_c1 h) (hk_m h))) (rd2 l)
  | _ => Some j
  end.
Definition joint_set_max (j : joint) (l : list (option F)) : option joint :=
  match j with
  | JRevol r => option_map (fun v => JRevol (RV (ax_max v (rv_a r)) (rv_s r) (rv_c r) (rv_m r))) (rd1 l)
  | JPrism p => option_map (fun v => JPrism (PR (ax_max v (pr_a p)) (pr_m p))) (rd1 l)
  | JCylin c => option_map (fun '(v,w) => JCylin (CY (ax_max v (cy_0 c)) (ax_max w (cy_1 c)) (cy_s c) (cy_c c) (cy_m c))) (rd2 l)
  | JHooke h => option_map (fun '(v,w) => JHooke (HK (ax_max v (hk_0 h)) (ax_max w (hk_1 h)) (hk_s0 h) (hk_c0 h) (hk_s1 h) (hk_c1 h) (hk_m h))) (rd2 l)
  | _ => Some j
  end.
(** Shared shape of the velocity/acceleration/torque setters: [g] updates one axis record. *)
Definition joint_set_gen (g : F -> ax1 -> ax1) (gs : vec3 F -> spher -> spher) (gf : vec6 F -> floatj -> floatj)
  (j : joint) (l : list F) : option joint :=
  match j with
  | JFixed => Some JFixed
  | JRevol r => option_map (fun v => JRevol (RV (g v (rv_a r)) (rv_s r) (rv_c r) (rv_m r))) (rd1 l)
  | JPrism p => option_map (fun v => JPrism (PR (g v (pr_a p)) (pr_m p))) (rd1 l)
  | JCylin c => option_map (fun '(v,w) => JCylin (CY (g v (cy_0 c)) (g w (cy_1 c)) (cy_s c) (cy_c c) (cy_m c))) (rd2 l)
  | JHooke h => option_map (fun '(v,w) => JHooke (HK (g v (hk_0 h)) (g w (hk_1 h)) (hk_s0 h) (hk_c0 h) (hk_s1 h) (hk_c1 h) (hk_m h))) (rd2 l)
  | JSpher s => option_map (fun v => JSpher (gs v s)) (rd3 l)
  | JFloat f => option_map (fun v => JFloat (gf v f)) (rd6 l)
  | JBrFloat f a b => option_map (fun v => JBrFloat (gf v f) a b) (rd6 l)
  end.
Definition joint_set_vel := joint_set_gen ax_vel
  (fun v s => SP (sp_aa s) v (sp_acc s) (sp_trq s) (sp_att s) (sp_m s))
  (fun v f => FL (fl_dis f) v (fl_acc f) (fl_trq f) (fl_att f)).
Definition joint_set_acc := joint_set_gen ax_acc
  (fun v s => SP (sp_aa s) (sp_vel s) v (sp_trq s) (sp_att s) (sp_m s))
  (fun v f => FL (fl_dis f) (fl_vel f) v (fl_trq f) (fl_att f)).
Definition joint_set_trq := joint_set_gen ax_trq
  (fun v s => SP (sp_aa s) (sp_vel s) (sp_acc s) v (sp_att s) (sp_m s))
  (fun v f => FL (fl_dis f) (fl_vel f) (fl_acc f) v (fl_att f)).

(** ** Getters (rk_joint_revol.c 53-75, rk_joint_prism.c 50-72, rk_joint_cylin.c 58-80,
    rk_joint_hooke.c 64-86, rk_joint_spher.c 43-65, rk_joint_float.c 41-63, rk_joint_brfloat.c 50-72).
    The list returned is what is written to the first [size] entries. *)
Definition joint_get_gen (g : ax1 -> F) (gs : spher -> vec3 F) (gf : floatj -> vec6 F) (j : joint) : list F :=
  match j with
  | JFixed => []
  | JRevol r => [g (rv_a r)]
  | JPrism p => [g (pr_a p)]
  | JCylin c => [g (cy_0 c); g (cy_1 c)]
  | JHooke h => [g (hk_0 h); g (hk_1 h)]
  | JSpher s => l3 (gs s)
  | JFloat f | JBrFloat f _ _ => l6 (gf f)
  end.
Definition joint_get_dis := joint_get_gen a_dis sp_aa fl_dis.
Definition joint_get_vel := joint_get_gen a_vel sp_vel fl_vel.
Definition joint_get_acc := joint_get_gen a_acc sp_acc fl_acc.
Definition joint_get_trq := joint_get_gen a_trq sp_trq fl_trq.
Definition joint_get_lim (g : ax1 -> option F) (j : joint) : list (option F) :=
  match j with
  | JFixed => []
  | JRevol r => [g (rv_a r)]
  | JPrism p => [g (pr_a p)]
  | JCylin c => [g (cy_0 c); g (cy_1 c)]
  | JHooke h => [g (hk_0 h); g (hk_1 h)]
  | JSpher _ => [None; None; None]
  | JFloat _ | JBrFloat _ _ _ => [None; None; None; None; None; None]
  end.
Definition joint_get_min := joint_get_lim a_min.
Definition joint_get_max := joint_get_lim a_max.

(** ** Concatenation and subtraction of displacements (work on the caller's arrays)
    rk_joint_revol.c 77-83, rk_joint_prism.c 74-80, rk_joint_cylin.c 82-90, rk_joint_hooke.c 88-96,
    rk_joint_spher.c 67-85, rk_joint_float.c 65-84, rk_joint_brfloat.c 74-94. *)
Definition joint_cat_dis (j : joint) (dis : list F) (k : F) (val : list F) : option (list F) :=
  match j with
  | JFixed => Some []
  | JRevol _ | JPrism _ => match rd1 dis, rd1 val with Some d, Some v => Some [d + k * v] | _, _ => None end
  | JCylin _ | JHooke _ =>
      match rd2 dis, rd2 val with Some (d,e), Some (v,w) => Some [d + v * k; e + w * k] | _, _ => None end
  | JSpher _ => match rd3 dis, rd3 val with Some d, Some v => Some (l3 (x_aacas d (v3scale k v))) | _, _ => None end
  | JFloat _ | JBrFloat _ _ _ =>
      match rd6 dis, rd6 val with
      | Some d, Some v => Some (l6 (V6 (v3cat (vlin d) k (vlin v)) (x_aacas (vang d) (v3scale k (vang v)))))
      | _, _ => None end
  end.
Definition joint_sub_dis (j : joint) (dis sdis : list F) : option (list F) :=
  match j with
  | JFixed => Some []
  | JRevol _ | JPrism _ => match rd1 dis, rd1 sdis with Some d, Some v => Some [d - v] | _, _ => None end
  | JCylin _ | JHooke _ =>
      match rd2 dis, rd2 sdis with Some (d,e), Some (v,w) => Some [d - v; e - w] | _, _ => None end
  | JSpher _ => match rd3 dis, rd3 sdis with Some d, Some v => Some (l3 (x_m3err (x_aa2m d) (x_aa2m v))) | _, _ => None end
  | JFloat _ | JBrFloat _ _ _ =>
      match rd6 dis, rd6 sdis with
      | Some d, Some v => Some (l6 (V6 (v3sub (vlin d) (vlin v)) (x_m3err (x_aa2m (vang d)) (x_aa2m (vang v)))))
      | _, _ => None end
  end.

(** ** Continuous update: rk_joint_revol.c 86-95, rk_joint_prism.c 83-91, rk_joint_cylin.c 93-103,
    rk_joint_hooke.c 99-108, rk_joint_spher.c 88-102, rk_joint_float.c 87-103, rk_joint_brfloat.c 97-113.
    The one- and two-axis classes differentiate the requested value [v], not the
    stored one.  zVec3DDif(a,b,dt) = (b-a)/dt. *)
Definition ax_cnt (old : ax1) (v dt : F) (a : ax1) : ax1 :=
  let vel := (v - a_dis old) / dt in ax_acc ((vel - a_vel old) / dt) (ax_vel vel a).
Definition revol_cnt (r : revol) (v dt : F) : revol :=
  let r' := revol_setdis r v in RV (ax_cnt (rv_a r) v dt (rv_a r')) (rv_s r') (rv_c r') (rv_m r').
Definition prism_cnt (p : prism) (v dt : F) : prism :=
  let p' := prism_setdis p v in PR (ax_cnt (pr_a p) v dt (pr_a p')) (pr_m p').
Definition cylin_cnt (c : cylin) (v w dt : F) : cylin :=
  let c' := cylin_setdis c v w in
  CY (ax_cnt (cy_0 c) v dt (cy_0 c')) (ax_cnt (cy_1 c) w dt (cy_1 c')) (cy_s c') (cy_c c') (cy_m c').
Definition hooke_cnt (h : hooke) (v w dt : F) : hooke :=
  let h' := hooke_setdis h v w in
  HK (ax_cnt (hk_0 h) v dt (hk_0 h')) (ax_cnt (hk_1 h) w dt (hk_1 h')) (hk_s0 h') (hk_c0 h') (hk_s1 h') (hk_c1 h') (hk_m h').
Definition spher_cnt (s : spher) (v : vec3 F) (dt : F) : spher :=
  let s' := spher_setdis s v in
  let vel := v3div (x_m3err (sp_att s') (sp_att s)) dt in
  SP (sp_aa s') vel (v3div (v3sub vel (sp_vel s)) dt) (sp_trq s') (sp_att s') (sp_m s').
Definition float_cnt (f : floatj) (v : vec6 F) (dt : F) : floatj :=
  let f' := float_setdis f v in
  let vel := V6 (v3div (v3sub (vlin (fl_dis f')) (vlin (fl_dis f))) dt)
                (v3div (x_m3err (fl_att f') (fl_att f)) dt) in
  FL (fl_dis f') vel (V6 (v3div (v3sub (vlin vel) (vlin (fl_vel f))) dt) (v3div (v3sub (vang vel) (vang (fl_vel f))) dt))
     (fl_trq f') (fl_att f').
Definition joint_set_dis_cnt (j : joint) (l : list F) (dt : F) : option joint :=
  match j with
  | JFixed => Some JFixed
  | JRevol r => option_map (fun v => JRevol (revol_cnt r v dt)) (rd1 l)
  | JPrism p => option_map (fun v => JPrism (prism_cnt p v dt)) (rd1 l)
  | JCylin c => option_map (fun '(v,w) => JCylin (cylin_cnt c v w dt)) (rd2 l)
  | JHooke h => option_map (fun '(v,w) => JHooke (hooke_cnt h v w dt)) (rd2 l)
  | JSpher s => option_map (fun v => JSpher (spher_cnt s v dt)) (rd3 l)
  | JFloat f => option_map (fun v => JFloat (float_cnt f v dt)) (rd6 l)
  | JBrFloat f a b => option_map (fun v => JBrFloat (float_cnt f v dt) a b) (rd6 l)
  end.

(** ** Frame transformation: rk_joint_fixed.c 25-29, rk_joint_revol.c 98-109, rk_joint_prism.c 96-101,
    rk_joint_cylin.c 106-117, rk_joint_hooke.c 111-120, rk_joint_spher.c 105-109,
    rk_joint_float.c 106-112, rk_joint_brfloat.c 116-122. *)
Definition rotz_att (s c : F) (m : mat3 F) : mat3 F :=
  M3 (v3cat (v3scale c (mc0 m)) s (mc1 m)) (v3cat (v3scale (- s) (mc0 m)) c (mc1 m)) (mc2 m).
(** zMat3DFromZYXSC of ZEO. *)
Definition zyx_sc (sa ca sb cb sg cg : F) : mat3 F :=
  m3create (ca*cb) (ca*sb*sg - sa*cg) (ca*sb*cg + sa*sg)
           (sa*cb) (sa*sb*sg + ca*cg) (sa*sb*cg - ca*sg)
           (- sb)  (cb*sg)            (cb*cg).
Definition joint_xform (j : joint) (fo : frame F) : frame F :=
  match j with
  | JFixed => fo
  | JRevol r => Fr (fpos fo) (rotz_att (rv_s r) (rv_c r) (fatt fo))
  | JPrism p => Fr (v3cat (fpos fo) (a_dis (pr_a p)) (mc2 (fatt fo))) (fatt fo)
  | JCylin c => Fr (v3cat (fpos fo) (a_dis (cy_0 c)) (mc2 (fatt fo))) (rotz_att (cy_s c) (cy_c c) (fatt fo))
  | JHooke h => Fr (fpos fo) (m3mul (fatt fo) (zyx_sc (hk_s0 h) (hk_c0 h) (hk_s1 h) (hk_c1 h) 0 1))
  | JSpher s => Fr (fpos fo) (m3mul (fatt fo) (sp_att s))
  | JFloat f | JBrFloat f _ _ => Fr (xform fo (vlin (fl_dis f))) (m3mul (fatt fo) (fl_att f))
  end.

(** ** Rates *)
Definition add_ang (v : vec6 F) (w : vec3 F) : vec6 F := V6 (vlin v) (v3add (vang v) w).
Definition hooke_vec (h : hooke) (a b : F) : vec3 F := V3 (- hk_s1 h * a) b (hk_c1 h * a).
(** IncVel: rk_joint_revol.c 112-114, rk_joint_prism.c 104-106, rk_joint_cylin.c 120-123,
    rk_joint_hooke.c 123-127, rk_joint_spher.c 112-116, rk_joint_float.c 115-119, rk_joint_brfloat.c 125-129. *)
Definition joint_inc_vel (j : joint) (v : vec6 F) : vec6 F :=
  match j with
  | JFixed => v
  | JRevol r => V6 (vlin v) (V3 (vx (vang v)) (vy (vang v)) (vz (vang v) + a_vel (rv_a r)))
  | JPrism p => V6 (V3 (vx (vlin v)) (vy (vlin v)) (vz (vlin v) + a_vel (pr_a p))) (vang v)
  | JCylin c => V6 (V3 (vx (vlin v)) (vy (vlin v)) (vz (vlin v) + a_vel (cy_0 c)))
                   (V3 (vx (vang v)) (vy (vang v)) (vz (vang v) + a_vel (cy_1 c)))
  | JHooke h => add_ang v (hooke_vec h (a_vel (hk_0 h)) (a_vel (hk_1 h)))
  | JSpher s => add_ang v (m3tv (sp_att s) (sp_vel s))
  | JFloat f | JBrFloat f _ _ => v6add v (m3tv6 (fl_att f) (fl_vel f))
  end.
(** IncAccOnVel: rk_joint_revol.c 116-119, rk_joint_prism.c 108-111, rk_joint_cylin.c 125-130,
    rk_joint_hooke.c 129-138, rk_joint_spher.c 118-123, rk_joint_float.c 121-130, rk_joint_brfloat.c 131-141. *)
Definition joint_inc_acc_on_vel (j : joint) (w : vec3 F) (a : vec6 F) : vec6 F :=
  match j with
  | JFixed => a
  | JRevol r => let q := a_vel (rv_a r) in
      V6 (vlin a) (V3 (vx (vang a) + q * vy w) (vy (vang a) - q * vx w) (vz (vang a)))
  | JPrism p => let q := a_vel (pr_a p) in
      V6 (V3 (vx (vlin a) + n2 * q * vy w) (vy (vlin a) - n2 * q * vx w) (vz (vlin a))) (vang a)
  | JCylin c => let q := a_vel (cy_0 c) in let r := a_vel (cy_1 c) in
      V6 (V3 (vx (vlin a) + n2 * q * vy w) (vy (vlin a) - n2 * q * vx w) (vz (vlin a)))
         (V3 (vx (vang a) + r * vy w) (vy (vang a) - r * vx w) (vz (vang a)))
  | JHooke h =>
      let v := hooke_vec h (a_vel (hk_0 h)) (a_vel (hk_1 h)) in
      let dq2 := a_vel (hk_0 h) * a_vel (hk_1 h) in
      add_ang (add_ang a (v3cross w v)) (V3 (- hk_c1 h * dq2) 0 (- hk_s1 h * dq2))
  | JSpher s => add_ang a (v3cross w (m3tv (sp_att s) (sp_vel s)))
  | JFloat f | JBrFloat f _ _ =>
      let vl := m3tv6 (fl_att f) (fl_vel f) in
      V6 (v3cat (vlin a) n2 (v3cross w (vlin vl))) (v3add (vang a) (v3cross w (vang vl)))
  end.
(** IncAcc: rk_joint_revol.c 122-124, rk_joint_prism.c 114-116, rk_joint_cylin.c 133-136,
    rk_joint_hooke.c 140-144, rk_joint_spher.c 126-130, rk_joint_float.c 133-137, rk_joint_brfloat.c 144-148. *)
Definition joint_inc_acc (j : joint) (a : vec6 F) : vec6 F :=
  match j with
  | JFixed => a
  | JRevol r => V6 (vlin a) (V3 (vx (vang a)) (vy (vang a)) (vz (vang a) + a_acc (rv_a r)))
  | JPrism p => V6 (V3 (vx (vlin a)) (vy (vlin a)) (vz (vlin a) + a_acc (pr_a p))) (vang a)
  | JCylin c => V6 (V3 (vx (vlin a)) (vy (vlin a)) (vz (vlin a) + a_acc (cy_0 c)))
                   (V3 (vx (vang a)) (vy (vang a)) (vz (vang a) + a_acc (cy_1 c)))
  | JHooke h => add_ang a (hooke_vec h (a_acc (hk_0 h)) (a_acc (hk_1 h)))
  | JSpher s => add_ang a (m3tv (sp_att s) (sp_acc s))
  | JFloat f | JBrFloat f _ _ => v6add a (m3tv6 (fl_att f) (fl_acc f))
  end.
(** CalcTrq: rk_joint_revol.c 127-129, rk_joint_prism.c 119-121, rk_joint_cylin.c 139-142,
    rk_joint_hooke.c 147-150, rk_joint_spher.c 133-135, rk_joint_float.c 140-142, rk_joint_brfloat.c 151-153. *)
Definition joint_calc_trq (j : joint) (w : vec6 F) : joint :=
  match j with
  | JFixed => JFixed
  | JRevol r => JRevol (RV (ax_trq (vz (vang w)) (rv_a r)) (rv_s r) (rv_c r) (rv_m r))
  | JPrism p => JPrism (PR (ax_trq (vz (vlin w)) (pr_a p)) (pr_m p))
  | JCylin c => JCylin (CY (ax_trq (vz (vlin w)) (cy_0 c)) (ax_trq (vz (vang w)) (cy_1 c)) (cy_s c) (cy_c c) (cy_m c))
  | JHooke h => JHooke (HK (ax_trq (- hk_s1 h * vx (vang w) + hk_c1 h * vz (vang w)) (hk_0 h))
                           (ax_trq (vy (vang w)) (hk_1 h)) (hk_s0 h) (hk_c0 h) (hk_s1 h) (hk_c1 h) (hk_m h))
  | JSpher s => JSpher (SP (sp_aa s) (sp_vel s) (sp_acc s) (m3v (sp_att s) (vang w)) (sp_att s) (sp_m s))
  | JFloat f => JFloat (FL (fl_dis f) (fl_vel f) (fl_acc f) (m3v6 (fl_att f) w) (fl_att f))
  | JBrFloat f a b => JBrFloat (FL (fl_dis f) (fl_vel f) (fl_acc f) (m3v6 (fl_att f) w) (fl_att f)) a b
  end.

(** ** Axis vectors.  [None] is the null pointer (rkJointAxisNull, rk_joint.c 95-97).
    Tables: rk_joint_revol.c 137-143, rk_joint_prism.c 131-136, rk_joint_cylin.c 151-158,
    rk_joint_hooke.c 168-185, rk_joint_spher.c 145-172, rk_joint_float.c 151-184, rk_joint_brfloat.c 162-197. *)
Definition axis_z (f : frame F) : option (vec3 F) := Some (mc2 (fatt f)).        (* rk_joint.c 99-102 *)
Definition axis_null : option (vec3 F) := None.
Definition axis_att (att : mat3 F) (row : vec3 F) (f : frame F) : option (vec3 F) := Some (m3v (fatt f) row).
Definition joint_ang_axes (j : joint) (f : frame F) : list (option (vec3 F)) :=
  match j with
  | JFixed => []
  | JRevol _ => [axis_z f]
  | JPrism _ => [axis_null]
  | JCylin _ => [axis_null; axis_z f]
  | JHooke h => [Some (v3cat (v3scale (- hk_s1 h) (mc0 (fatt f))) (hk_c1 h) (mc2 (fatt f))); Some (mc1 (fatt f))]
  | JSpher s => let a := sp_att s in [axis_att a (m3row0 a) f; axis_att a (m3row1 a) f; axis_att a (m3row2 a) f]
  | JFloat g | JBrFloat g _ _ => let a := fl_att g in
      [axis_null; axis_null; axis_null; axis_att a (m3row0 a) f; axis_att a (m3row1 a) f; axis_att a (m3row2 a) f]
  end.
Definition joint_lin_axes (j : joint) (f : frame F) : list (option (vec3 F)) :=
  match j with
  | JFixed => []
  | JRevol _ => [axis_null]
  | JPrism _ => [axis_z f]
  | JCylin _ => [axis_z f; axis_null]
  | JHooke _ => [axis_null; axis_null]
  | JSpher _ => [axis_null; axis_null; axis_null]
  | JFloat g | JBrFloat g _ _ => let a := fl_att g in
      [axis_att a (m3row0 a) f; axis_att a (m3row1 a) f; axis_att a (m3row2 a) f; axis_null; axis_null; axis_null]
  end.

(** ** Friction *)
(** _rkJointRestTrq, rk_joint.h 282. *)
Definition rest_trq (a : ax1) : F := - a_stiff a * a_dis a - a_visc a * a_vel a - a_coul a * nsgn (a_vel a).
(** GetKFriction: rk_joint_revol.c 165-167, rk_joint_prism.c 158-160, rk_joint_cylin.c 183-186,
    rk_joint_hooke.c 212-215; the other classes leave the array as it was ([old]). *)
Definition joint_get_kfriction (j : joint) (old : list F) : list F :=
  match j with
  | JRevol r => [rest_trq (rv_a r)]
  | JPrism p => [rest_trq (pr_a p)]
  | JCylin c => [rest_trq (cy_0 c); rest_trq (cy_1 c)]
  | JHooke h => [rest_trq (hk_0 h); rest_trq (hk_1 h)]
  | _ => old
  end.
(** GetFriction / GetSFriction / SetFriction: rk_joint_revol.c 153-163, rk_joint_prism.c 146-156,
    rk_joint_cylin.c 170-182, rk_joint_hooke.c 197-210. *)
Definition joint_get_fric (g : ax1 -> F) (j : joint) (old : list F) : list F :=
  match j with
  | JRevol r => [g (rv_a r)]
  | JPrism p => [g (pr_a p)]
  | JCylin c => [g (cy_0 c); g (cy_1 c)]
  | JHooke h => [g (hk_0 h); g (hk_1 h)]
  | _ => old
  end.
Definition joint_get_friction := joint_get_fric a_tf.
Definition joint_get_sfriction := joint_get_fric a_sf.
Definition joint_set_friction (j : joint) (l : list F) : option joint :=
  match j with
  | JRevol r => option_map (fun v => JRevol (RV (ax_tf v (rv_a r)) (rv_s r) (rv_c r) (rv_m r))) (rd1 l)
  | JPrism p => option_map (fun v => JPrism (PR (ax_tf v (pr_a p)) (pr_m p))) (rd1 l)
  | JCylin c => option_map (fun '(v,w) => JCylin (CY (ax_tf v (cy_0 c)) (ax_tf w (cy_1 c)) (cy_s c) (cy_c c) (cy_m c))) (rd2 l)
  | JHooke h => option_map (fun '(v,w) => JHooke (HK (ax_tf v (hk_0 h)) (ax_tf w (hk_1 h)) (hk_s0 h) (hk_c0 h) (hk_s1 h) (hk_c1 h) (hk_m h))) (rd2 l)
  | _ => Some j
  end.
(** Set/GetFrictionPivot.  The result is the joint and the caller's array after the call.
    rk_joint_revol.c 145-151; rk_joint_prism.c 138-144, rk_joint_cylin.c 160-168 and
    rk_joint_hooke.c 187-195 copy in the opposite directions (as coded). *)
Definition joint_set_pivot (j : joint) (l : list fpivot) : option (joint * list fpivot) :=
  match j with
  | JRevol r => option_map (fun p => (JRevol (RV (ax_fp p (rv_a r)) (rv_s r) (rv_c r) (rv_m r)), l)) (rd1 l)
  | JPrism p => option_map (fun _ => (j, a_fp (pr_a p) :: tl l)) (rd1 l)
  | JCylin c => option_map (fun _ => (j, a_fp (cy_0 c) :: a_fp (cy_1 c) :: tl (tl l))) (rd2 l)
  | JHooke h => option_map (fun _ => (j, a_fp (hk_0 h) :: a_fp (hk_1 h) :: tl (tl l))) (rd2 l)
  | _ => Some (j, l)
  end.
Definition joint_get_pivot (j : joint) (l : list fpivot) : option (joint * list fpivot) :=
  match j with
  | JRevol r => option_map (fun _ => (j, a_fp (rv_a r) :: tl l)) (rd1 l)
  | JPrism p => option_map (fun q => (JPrism (PR (ax_fp q (pr_a p)) (pr_m p)), l)) (rd1 l)
  | JCylin c => option_map (fun '(q,q') => (JCylin (CY (ax_fp q (cy_0 c)) (ax_fp q' (cy_1 c)) (cy_s c) (cy_c c) (cy_m c)), l)) (rd2 l)
  | JHooke h => option_map (fun '(q,q') => (JHooke (HK (ax_fp q (hk_0 h)) (ax_fp q' (hk_1 h)) (hk_s0 h) (hk_c0 h) (hk_s1 h) (hk_c1 h) (hk_m h)), l)) (rd2 l)
  | _ => Some (j, l)
  end.

(** ** Motor access *)
(** GetMotor: rk_joint_revol.c 170, rk_joint_prism.c 163, rk_joint_cylin.c 189, rk_joint_hooke.c 218,
    rk_joint_spher.c 182; NULL for fixed and floating joints. *)
Definition joint_motor (j : joint) : option (motor F) :=
  match j with
  | JRevol r => Some (rv_m r) | JPrism p => Some (pr_m p) | JCylin c => Some (cy_m c)
  | JHooke h => Some (hk_m h) | JSpher s => Some (sp_m s) | _ => None end.
Definition joint_set_motor (j : joint) (m : motor F) : joint :=
  match j with
  | JRevol r => JRevol (RV (rv_a r) (rv_s r) (rv_c r) m)
  | JPrism p => JPrism (PR (pr_a p) m)
  | JCylin c => JCylin (CY (cy_0 c) (cy_1 c) (cy_s c) (cy_c c) m)
  | JHooke h => JHooke (HK (hk_0 h) (hk_1 h) (hk_s0 h) (hk_c0 h) (hk_s1 h) (hk_c1 h) m)
  | JSpher s => JSpher (SP (sp_aa s) (sp_vel s) (sp_acc s) (sp_trq s) (sp_att s) m)
  | _ => j end.
(** MotorSetInput (rk_joint_revol.c 172-174 etc.): the DC and torque motors read one value. *)
Definition joint_motor_set_input (j : joint) (l : list F) : option joint :=
  match joint_motor j with
  | None => Some j
  | Some m => match m_kind m with
              | MNone => Some j
              | _ => option_map (fun v => joint_set_motor j (motor_set_input m v)) (rd1 l)
              end
  end.
(** Driving torque used by the forward dynamics: rk_joint_revol.c 235-243, rk_joint_prism.c 227-235,
    rk_joint_cylin.c 260-268.  Two-axis joints have a motor that drives the first axis only
    (the motor methods write one value into a zeroed array). *)
Definition joint_driving_torque (j : joint) : joint :=
  match j with
  | JRevol r => let a := rv_a r in
      JRevol (RV (ax_u (motor_input_trq (rv_m r) 0 - motor_resist (rv_m r) (a_vel a) 0 + a_tf a) a) (rv_s r) (rv_c r) (rv_m r))
  | JPrism p => let a := pr_a p in
      JPrism (PR (ax_u (motor_input_trq (pr_m p) 0 - motor_resist (pr_m p) (a_vel a) 0 + a_tf a) a) (pr_m p))
  | JCylin c => let a := cy_0 c in
      JCylin (CY (ax_u (motor_input_trq (cy_m c) 0 - motor_resist (cy_m c) (a_vel a) 0 + a_tf a) a)
                 (ax_u (0 - 0 + a_tf (cy_1 c)) (cy_1 c)) (cy_s c) (cy_c c) (cy_m c))
  | _ => j
  end.

(** ** Assign, neutral, copy, clone *)
Definition motor_none_assigned : motor F := Mot None MNone.
(** zAlloc + _init of each class: rk_joint_revol.c 11-17, rk_joint_prism.c 11-17, rk_joint_cylin.c 11-19,
    rk_joint_hooke.c 11-19, rk_joint_spher.c 11-15, rk_joint_float.c 11-13, rk_joint_brfloat.c 15-22.
    The zero-filled cached values are overwritten by rkJointNeutral in rkJointAssign. *)
Definition joint_alloc (t : jtype) : joint :=
  match t with
  | TFixed => JFixed
  | TRevol => JRevol (RV ax_init 0 0 motor_none_assigned)
  | TPrism => JPrism (PR ax_init motor_none_assigned)
  | TCylin => JCylin (CY ax_init ax_init 0 0 motor_none_assigned)
  | THooke => JHooke (HK ax_init ax_init 0 0 0 0 motor_none_assigned)
  | TSpher => JSpher (SP v3zero v3zero v3zero v3zero m3zero motor_none_assigned)
  | TFloat => JFloat (FL v6zero v6zero v6zero v6zero m3zero)
  | TBrFloat => JBrFloat (FL v6zero v6zero v6zero v6zero m3zero) None None
  end.
(** rkJointNeutral, rk_joint.c 43-47. *)
Definition joint_neutral (j : joint) : option joint := joint_set_dis j [0; 0; 0; 0; 0; 0].
(** rkJointAssign, rk_joint.c 16-23. *)
Definition joint_assign (t : jtype) : option joint := joint_neutral (joint_alloc t).
(** rkJointIsNeutral, rk_joint.c 50-59. *)
Definition joint_is_neutral (j : joint) : bool := forallb (ntiny x_tol) (joint_get_dis j).
(** RK_JOINT_COM_ARRAY, rk_joint.h 335-345. *)
Definition joint_com_array : list jtype := [TFixed; TRevol; TPrism; TCylin; THooke; TSpher; TFloat; TBrFloat].
(** rkJointQueryAssign, rk_joint.c 25-33: NULL ([None]) when no entry matches. *)
Fixpoint joint_query (l : list jtype) (str : string) : option jtype :=
  match l with
  | [] => None
  | t :: l' => if String.eqb (jtype_str t) str then Some t else joint_query l' str
  end.
(** [j] is the joint before the call; the pair is (joint after the call, returned pointer is not NULL). *)
Definition joint_query_assign (j : joint) (str : string) : option (joint * bool) :=
  match joint_query joint_com_array str with
  | Some t => option_map (fun j' => (j', true)) (joint_assign t)
  | None => Some (j, false)
  end.
Definition obind {A B} (x : option A) (f : A -> option B) : option B := match x with Some a => f a | None => None end.
(** rkJointCopyState, rk_joint.c 74-83. *)
Definition joint_copy_state (src dst : joint) : option joint :=
  obind (joint_set_dis dst (joint_get_dis src)) (fun d =>
  obind (joint_set_vel d (joint_get_vel src)) (fun d =>
  obind (joint_set_acc d (joint_get_acc src)) (fun d =>
  joint_set_trq d (joint_get_trq src)))).
(** rkJointClone, rk_joint.c 62-71. *)
Definition joint_clone (org : joint) : option joint :=
  obind (joint_assign (jtype_of org)) (fun c =>
  obind (joint_copy_state org c) (fun c =>
  Some (match joint_motor org, joint_motor c with
        | Some mo, Some mc => joint_set_motor c (motor_clone mo mc)
        | _, _ => c end))).

(** ** Histories of joint API calls *)
Inductive jop :=
| OSetDis (l : list F) | OSetMin (l : list (option F)) | OSetMax (l : list (option F))
| OSetVel (l : list F) | OSetAcc (l : list F) | OSetTrq (l : list F)
| OSetDisCNT (l : list F) (dt : F) | OCalcTrq (w : vec6 F)
| OSetFriction (l : list F) | OSetPivot (l : list fpivot) | OGetPivot (l : list fpivot)
| OMotorInput (l : list F) | OSetMotor (m : motor F) | ODrivingTorque | ONeutral | OCopyFrom (src : joint).
Definition joint_step (j : joint) (o : jop) : option joint :=
  match o with
  | OSetDis l => joint_set_dis j l
  | OSetMin l => joint_set_min j l
  | OSetMax l => joint_set_max j l
  | OSetVel l => joint_set_vel j l
  | OSetAcc l => joint_set_acc j l
  | OSetTrq l => joint_set_trq j l
  | OSetDisCNT l dt => joint_set_dis_cnt j l dt
  | OCalcTrq w => Some (joint_calc_trq j w)
  | OSetFriction l => joint_set_friction j l
  | OSetPivot l => option_map fst (joint_set_pivot j l)
  | OGetPivot l => option_map fst (joint_get_pivot j l)
  | OMotorInput l => joint_motor_set_input j l
  | OSetMotor m => Some (joint_set_motor j m)
  | ODrivingTorque => Some (joint_driving_torque j)
  | ONeutral => joint_neutral j
  | OCopyFrom src => joint_copy_state src j
  end.
Fixpoint joint_run (j : joint) (ops : list jop) : option joint :=
  match ops with
  | [] => Some j
  | o :: ops' => obind (joint_step j o) (fun j' => joint_run j' ops')
  end.
End Joint.
Arguments fpivot : clear implicits. Arguments ax1 : clear implicits.
Arguments revol : clear implicits. Arguments prism : clear implicits. Arguments cylin : clear implicits.
Arguments hooke : clear implicits. Arguments spher : clear implicits. Arguments floatj : clear implicits.
Arguments joint : clear implicits. Arguments jop : clear implicits.
Arguments JFixed {F}.
Arguments ExtLaws F N E : clear implicits.
