(** * Ztk_Spec: what saving and loading a chain is expected to keep. *)
From Coq Require Import ZArith String List Permutation.
From Verif Require Import Num Vec Motor_Model Joint_Model Joint_Spec Body_Model Tree Link_Model Link_Spec Kin_Spec Ztk_Model.
Import ListNotations.

Section ZtkSpec.
Context {F : Type} {N : Num F} {E : Ext F} {Z : ZtkLib}.
Local Open Scope num_scope.

(** The components of a displacement that are angles; files have them in degrees.  Rotation vectors are not
    converted. *)
Definition angular (t : jtype) (i : nat) : bool :=
  match t, i with TRevol, O | TCylin, 1%nat | THooke, O | THooke, 1%nat => true | _, _ => false end.
Definition in_units (t : jtype) (i : nat) (written value : F) : Prop :=
  if angular t i then written * x_pi = value * nrat 180%Z 1 else written = value.

(** A motor with its input and state set to zero: what is left are the parameters. *)
Definition at_rest (m : mkind F) : mkind F :=
  match m with
  | MNone => MNone
  | MDC p => MDC (DC 0 0 (dc_k p) (dc_admit p) (dc_max p) (dc_min p) (dc_ratio p) (dc_inertia p) (dc_igear p) (dc_compk p) (dc_compl p))
  | MTrq p => MTrq (TQ 0 (tq_min p) (tq_max p))
  end.
(** Friction and stiffness parameters of an axis. *)
Definition axis_params (a : ax1 F) : F * F * F * F := (a_stiff a, a_visc a, a_coul a, a_sf a).
Definition thresholds (j : joint F) : option (option F * option F) := match j with JBrFloat _ a b => Some (a, b) | _ => None end.
(** The same joint: type, displacement, limits, parameters, motor, and the transformation it makes;
    at rest. *)
Definition same_joint (a b : joint F) : Prop :=
  jtype_of b = jtype_of a /\ joint_get_dis b = joint_get_dis a /\ same_limits a b /\
  map axis_params (axes_of b) = map axis_params (axes_of a) /\ thresholds b = thresholds a /\
  option_map (fun m => (m_name m, m_kind m)) (joint_motor b) = option_map (fun m => (m_name m, at_rest (m_kind m))) (joint_motor a) /\
  (forall fo, joint_xform b fo = joint_xform a fo) /\
  Forall (eq 0) (joint_get_vel b) /\ Forall (eq 0) (joint_get_acc b).
(** The same link, apart from state and the order of shapes and siblings. *)
Definition same_link (a b : link F) : Prop :=
  l_name b = l_name a /\ l_parent b = l_parent a /\ l_org b = l_org a /\ b_mp (l_body b) = b_mp (l_body a) /\
  b_stuff (l_body b) = b_stuff (l_body a) /\ Permutation (b_shapes (l_body b)) (b_shapes (l_body a)) /\
  same_joint (l_joint a) (l_joint b).

(** Setting the displacement a joint reports does nothing: it is normalised and within the limits. *)
Definition at_own_dis (j : joint F) : Prop := joint_set_dis j (joint_get_dis j) = Some j.
(** The motor of a joint is in the motor array under its name with the same parameters, or is the
    motor a joint is created with. *)
Definition motor_listed (arr : list (mslot F)) (m : motor F) : Prop :=
  match m_name m with
  | Some n => exists k, slot_find arr n = Some (Slot (Some n) (Some k)) /\ at_rest k = at_rest (m_kind m)
  | None => m_kind m = MNone /\ slot_find arr z_noname = None
  end.
Definition motor_saved (arr : option (list (mslot F))) (j : joint F) : Prop :=
  match joint_motor j with
  | None => True
  | Some m => exists a, arr = Some a /\ a <> [] /\ motor_listed a m
  end.
(** Every motor of the array has a name and a type. *)
Definition slots_complete (arr : list (mslot F)) : Prop := forall s, In s arr -> exists n k, s = Slot (Some n) (Some k).

(** A chain that can be saved and loaded. *)
Record savable (rb : robot F) : Prop := {
  sv_tree : well_formed (c_links (rb_chain rb));
  sv_name : rb_name rb <> None;
  sv_names : NoDup (map l_name (c_links (rb_chain rb)));
  sv_stuff : forall l, In l (c_links (rb_chain rb)) -> b_stuff (l_body l) <> None;
  sv_shapes : NoDup (rb_shapes rb);
  sv_shape : forall l i, In l (c_links (rb_chain rb)) -> In i (b_shapes (l_body l)) -> (i < List.length (rb_shapes rb))%nat;
  sv_slots : forall a, rb_motors rb = Some a -> slots_complete a;
  sv_dis : forall l, In l (c_links (rb_chain rb)) -> at_own_dis (l_joint l);
  sv_motor : forall l, In l (c_links (rb_chain rb)) -> motor_saved (rb_motors rb) (l_joint l) }.

(** Links of two copies of a robot. *)
Definition same_make (a b : link F) : Prop :=
  l_name b = l_name a /\ jtype_of (l_joint b) = jtype_of (l_joint a) /\ same_limits (l_joint a) (l_joint b).

Definition total_mass (h : list (link F)) : F := fold_right (fun l m => l_mass l + m) 0 h.
End ZtkSpec.
