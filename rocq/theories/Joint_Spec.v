(** * Joint_Spec: what the joint properties talk about, independent of the
    implementation's records. *)

From Coq Require Import List String ZArith.
From Verif Require Import Num Vec Motor_Model Joint_Model.
Import ListNotations.

Section Spec.
Context {F : Type} {N : Num F} {E : Ext F}.
Local Open Scope num_scope.

(** Calls that assign a displacement, and calls that change the limits. *)
Definition sets_dis (o : jop F) : Prop :=
  match o with OSetDis _ | OSetDisCNT _ _ | ONeutral | OCopyFrom _ => True | _ => False end.
Definition changes_limits (o : jop F) : Prop :=
  match o with OSetMin _ | OSetMax _ => True | _ => False end.
Definition sets_pivot (o : jop F) : Prop :=
  match o with OSetPivot _ => True | _ => False end.

(** The limits that can be read back are ordered. *)
Definition limits_ordered (j : joint F) : Prop :=
  forall i lo hi, nth_error (joint_get_min j) i = Some lo -> nth_error (joint_get_max j) i = Some hi ->
  limits_ok lo hi.
(** Every displacement component that can be read back lies within the limits that can be read back. *)
Definition within_limits (j : joint F) : Prop :=
  forall i lo hi d, nth_error (joint_get_min j) i = Some lo -> nth_error (joint_get_max j) i = Some hi ->
  nth_error (joint_get_dis j) i = Some d -> within lo hi d.

(** Elementary rotations and the documented local transformation of each joint
    type for a displacement (header comment of rkJointXform, rk_joint.h 213-226;
    the universal joint is "z-axis and y-axis"; spherical and floating joints use
    the attitude given by the angle-axis vector). *)
Definition rot_z (t : F) : mat3 F := m3create (x_cos t) (- x_sin t) 0  (x_sin t) (x_cos t) 0  0 0 1.
Definition rot_y (t : F) : mat3 F := m3create (x_cos t) 0 (x_sin t)  0 1 0  (- x_sin t) 0 (x_cos t).
Definition trans_z (d : F) : frame F := Fr (V3 0 0 d) m3id.
Definition doc_frame (t : jtype) (ds : list F) : option (frame F) :=
  match t, ds with
  | TFixed, [] => Some fid
  | TRevol, [q] => Some (Fr v3zero (rot_z q))
  | TPrism, [d] => Some (trans_z d)
  | TCylin, [d; q] => Some (fcascade (Fr v3zero (rot_z q)) (trans_z d))
  | THooke, [q1; q2] => Some (Fr v3zero (m3mul (rot_z q1) (rot_y q2)))
  | TSpher, [a; b; c] => Some (Fr v3zero (x_aa2m (V3 a b c)))
  | TFloat, [x; y; z; a; b; c] | TBrFloat, [x; y; z; a; b; c] => Some (Fr (V3 x y z) (x_aa2m (V3 a b c)))
  | _, _ => None
  end.

(** Component-wise sum of products, for powers of joint torques. *)
Fixpoint dotl (a b : list F) : F :=
  match a, b with x :: a', y :: b' => x * y + dotl a' b' | _, _ => 0 end.
(** Sum of axis vectors scaled by components; a null axis contributes nothing. *)
Fixpoint axis_sum (ax : list (option (vec3 F))) (q : list F) : vec3 F :=
  match ax, q with
  | a :: ax', k :: q' => v3add (match a with Some v => v3scale k v | None => v3zero end) (axis_sum ax' q')
  | _, _ => v3zero
  end.

(** Same limits. *)
Definition same_limits (a b : joint F) : Prop :=
  joint_get_min a = joint_get_min b /\ joint_get_max a = joint_get_max b.

(** A joint whose displacement was last set under its present (ordered) limits. *)
Definition settled (j : joint F) : Prop :=
  exists j0 o j1 ops, limits_ordered j0 /\ sets_dis o /\ joint_step j0 o = Some j1 /\
    (forall o', In o' ops -> ~ changes_limits o') /\ joint_run j1 ops = Some j.
End Spec.

Section Spec2.
Context {F : Type} {N : Num F} {E : Ext F}.
Local Open Scope num_scope.

(** The joint classes with one or two scalar components, and those with friction. *)
Definition scalar_axes (t : jtype) : Prop :=
  match t with TRevol | TPrism | TCylin | THooke => True | _ => False end.

(** [r] is the finite-difference rate from [before] to [after], component by component. *)
Definition rate_of (dt : F) (before after r : list F) : Prop :=
  List.length after = List.length before /\ List.length r = List.length before /\
  forall i b a v, nth_error before i = Some b -> nth_error after i = Some a -> nth_error r i = Some v ->
  v * dt = a - b.

(** Round trip of the friction pivot for one joint class: setting leaves the
    caller's array alone, and after any calls that do not set the pivot (reading it included),
    getting returns the value set and leaves the joint alone. *)
Definition pivot_roundtrip1 (t : jtype) : Prop :=
  forall (j j1 j2 j3 : joint F) p out ops buf buf',
  jtype_of j = t -> joint_set_pivot j [p] = Some (j1, out) ->
  (forall o, In o ops -> ~ sets_pivot o) -> joint_run j1 ops = Some j2 ->
  joint_get_pivot j2 [buf] = Some (j3, buf') ->
  out = [p] /\ buf' = [p] /\ j3 = j2.
Definition pivot_roundtrip2 (t : jtype) : Prop :=
  forall (j j1 j2 j3 : joint F) p q out ops b1 b2 buf',
  jtype_of j = t -> joint_set_pivot j [p; q] = Some (j1, out) ->
  (forall o, In o ops -> ~ sets_pivot o) -> joint_run j1 ops = Some j2 ->
  joint_get_pivot j2 [b1; b2] = Some (j3, buf') ->
  out = [p; q] /\ buf' = [p; q] /\ j3 = j2.

(** What a caller can read from a joint. *)
Definition same_state (a b : joint F) : Prop :=
  joint_get_dis a = joint_get_dis b /\ joint_get_vel a = joint_get_vel b /\
  joint_get_acc a = joint_get_acc b /\ joint_get_trq a = joint_get_trq b /\
  (forall fo, joint_xform a fo = joint_xform b fo).

(** Per-axis records, for conditions on parameters that have no getter. *)
Definition axes_of (j : joint F) : list (ax1 F) :=
  match j with
  | JRevol r => [rv_a r] | JPrism p => [pr_a p] | JCylin c => [cy_0 c; cy_1 c] | JHooke h => [hk_0 h; hk_1 h]
  | _ => [] end.
(** The displacement components that are angles about a joint axis. *)
Definition angles_of (j : joint F) : list F :=
  match j with
  | JRevol r => [a_dis (rv_a r)] | JCylin c => [a_dis (cy_1 c)] | JHooke h => [a_dis (hk_0 h); a_dis (hk_1 h)]
  | _ => [] end.
(** All parameters that are not state or motor are as after rkJointAssign. *)
Definition default_params (j : joint F) : Prop :=
  (forall a, In a (axes_of j) -> a_min a = None /\ a_max a = None /\ a_stiff a = 0 /\ a_visc a = 0 /\ a_coul a = 0 /\
     a_tf a = 0 /\ a_sf a = 0 /\ a_fp a = fp_zero /\ a_u a = 0) /\
  (forall f x y, j = JBrFloat f x y -> x = None /\ y = None).
(** Elastic energy 1/2 k q^2 changes at the rate k q dq/dt. *)
Definition elastic_power (j : joint F) : F :=
  nsum (map (fun a => a_stiff a * a_dis a * a_vel a) (axes_of j)).

(** The documented type names and numbers of components (rk_joint.h, README). *)
Definition doc_types : list (string * nat) :=
  [("fixed"%string, 0); ("revolute"%string, 1); ("prismatic"%string, 1); ("cylindrical"%string, 2);
   ("hooke"%string, 2); ("spherical"%string, 3); ("float"%string, 6); ("breakablefloat"%string, 6)]%nat.
End Spec2.
