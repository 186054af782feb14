(** * Conf_Spec: what the properties of joint torsion and link configurations talk about. *)
From Coq Require Import List Arith.
From Verif Require Import Num Vec Motor_Model Joint_Model Joint_Spec Body_Model Tree Tree_Proofs Link_Model Link_Spec Kin_Spec Conf_Model.
Import ListNotations.

Section ConfSpec.
Context {F : Type} {N : Num F} {E : Ext F} {C : ConfExt F}.
Local Open Scope num_scope.
Notation lk := (link F).

(** The angle-axis vector that zMat3DToAA gives for the attitude [m] stands for [m] again. *)
Definition aa_exact (m : mat3 F) : Prop := x_aa2m (x_m2aa m) = m.
(** Angle-axis vectors of the tilts that a revolute joint cannot follow: no tilt, or a tilt about a
    horizontal axis by an angle that is not tiny and less than a half turn. *)
Definition tilt (aa : vec3 F) : Prop :=
  aa = v3zero \/
  exists a nx ny, nx * nx + ny * ny = 1 /\ x_tol <= a /\ a <= x_pi /\ 0 < x_sin a /\ aa = V3 (a * nx) (a * ny) 0.
(** The frames that a joint of a type cannot produce, which the torsion is to report: [fo] is a distortion for
    the type. *)
Definition distortion (t : jtype) (fo : frame F) : Prop :=
  match t with
  | TFixed => True
  | TRevol => exists aa, tilt aa /\ fatt fo = x_aa2m aa
  | TPrism => v3dot (fpos fo) (mc2 (fatt fo)) = 0
  | TCylin => v3dot (fpos fo) (mc2 (fatt fo)) = 0 /\ exists aa, tilt aa /\ fatt fo = x_aa2m aa
  | THooke => exists q, - x_pi < q /\ q <= x_pi /\ fatt fo = x_aa2m (V3 q 0 0)
  | TSpher => fatt fo = m3id
  | TFloat | TBrFloat => fo = fid
  end.
(** Types whose torsion asks zMat3DToAA for an angle-axis vector. *)
Definition reads_aa (t : jtype) : Prop :=
  match t with TFixed | TPrism | TSpher | TFloat | TBrFloat => True | _ => False end.
(** Angle-axis vectors among the displacement are those that zMat3DToAA gives for their attitudes. *)
Definition reads_back (t : jtype) (ds : list F) : Prop :=
  match t, ds with
  | TSpher, [a; b; c] | TFloat, [_; _; _; a; b; c] | TBrFloat, [_; _; _; a; b; c] => x_m2aa (x_aa2m (V3 a b c)) = V3 a b c
  | _, _ => True
  end.
(** The first angle of a universal joint is less than a right angle. *)
Definition upright (j : joint F) : Prop :=
  jtype_of j = THooke -> forall a b, joint_get_dis j = [a; b] -> - x_pi < a /\ a <= x_pi /\ 0 < x_cos a.

(** A deviation put together again from its torsion: the joint is given the displacement, and mounted at the distorted frame. *)
Definition recompose (k : joint F) (d : frame F) : option (frame F) :=
  match joint_torsion (jtype_of k) d with
  | Some (t, ds) => option_map (fun k' => joint_xform k' (aa_to_frame (m3v6 (fatt d) t))) (joint_set_dis k ds)
  | None => None
  end.

(** Two chains made of the same links: tree, mounting frames, joint types and limits. *)
Definition same_mechanism (a b : list lk) : Prop :=
  Forall2 (fun l l' : lk => l_parent l' = l_parent l /\ l_child l' = l_child l /\ l_sibl l' = l_sibl l /\ l_org l' = l_org l /\
    jtype_of (l_joint l') = jtype_of (l_joint l) /\ same_limits (l_joint l') (l_joint l)) a b.
(** What the configuration of a chain must allow for it to be read back: joints set under their limits, universal
    joints upright, attitudes with exact angle-axis vectors. *)
Definition conf_ready (c1 : chain F) : Prop := forall i l, nth_error (c_links c1) i = Some l ->
  settled (l_joint l) /\ upright (l_joint l) /\ aa_exact (fatt (l_frame l)) /\
  (reads_aa (jtype_of (l_joint l)) -> forall d, doc_frame (jtype_of (l_joint l)) (joint_get_dis (l_joint l)) = Some d -> aa_exact (fatt d)).
End ConfSpec.
