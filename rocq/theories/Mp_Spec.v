(** * Mp_Spec: what a mass property says about rigid motion, and which links were chosen. *)
From Coq Require Import List ZArith.
From Verif Require Import Num Vec Motor_Model Joint_Model Body_Model Tree Link_Model.
Import ListNotations.

Section MpSpec.
Context {F : Type} {N : Num F}.
Local Open Scope num_scope.

(** A body with mass property [m] in the world frame, in a motion whose point at the origin has
    velocity [v] and whose angular velocity is [w]: momentum, angular momentum about the origin,
    and twice the kinetic energy. *)
Definition mot_p (m : mp F) (v w : vec3 F) : vec3 F := v3scale (mp_mass m) (v3add v (v3cross w (mp_com m))).
Definition mot_l (m : mp F) (v w : vec3 F) : vec3 F := v3add (v3cross (mp_com m) (mot_p m v w)) (m3v (mp_inertia m) w).
Definition mot_e (m : mp F) (v w : vec3 F) : F :=
  mp_mass m * v3sqr (v3add v (v3cross w (mp_com m))) + v3dot w (m3v (mp_inertia m) w).
(** [r] moves like the bodies [ms] together, whatever the motion. *)
Definition moves_like (r : mp F) (ms : list (mp F)) : Prop :=
  mp_mass r = nsum (map mp_mass ms) /\ forall v w,
  mot_p r v w = v3sum (map (fun m => mot_p m v w) ms) /\
  mot_l r v w = v3sum (map (fun m => mot_l m v w) ms) /\
  mot_e r v w = nsum (map (fun m => mot_e m v w) ms).
(** The mass property of a link, moved to the world frame. *)
Definition link_wmp (l : link F) : mp F := mp_xform (b_mp (l_body l)) (l_frame l).
(** The links named by the leading non-negative numbers of the input. *)
Definition chosen (h : list (link F)) (inp : list Z) (ls : list (link F)) : Prop := exists pre post,
  inp = pre ++ post /\ (forall z, In z pre -> (0 <= z)%Z) /\ (post = [] \/ exists z t, post = z :: t /\ (z < 0)%Z) /\
  map (fun z => nth_error h (Z.to_nat z)) pre = map Some ls.
End MpSpec.
