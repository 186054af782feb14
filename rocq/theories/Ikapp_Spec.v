(** * Ikapp_Spec: what is expected of rk_ik, in terms of the calls of the solver. *)
From Coq Require Import List Arith Bool.
From Verif Require Import Num Vec VecFacts Motor_Model Joint_Model Joint_Spec Body_Model Tree Link_Model Jacobi_Model Kin_Spec IK_Model IK_Spec IK_Usable IKCell_Properties IKSeq_Properties IKRow_Properties IKSolve_Properties.
Import ListNotations.

Section IkappSpec.
Context {F : Type} {N : Num F} {E : Ext F} {I : IKExt F}.
Notation registered c ops := (asked_all (length (c_links c)) (movable c) ops).

(** The calls of one step. *)
Definition calls (n : nat) (tol : F) (iter : nat) (e : seqcell F) : list (op F) := [Deactivate; Bind; SetSeq e; Solve (repeat 0%num n) tol iter].
(** A call that sets the solver up: it computes no velocities. *)
Definition setup (o : op F) : bool := match o with Rate | One _ _ | Solve _ _ _ => false | _ => true end.
(** Setting the joints to their displacements leaves the chain as it is. *)
Definition settable (c : chain F) : Prop := chain_set_joint_dis_all c (displacements c) = Some c.
(** A cell that is not forced, is attached to existing links, has no negative weight, and follows a position or an attitude. *)
Definition plain (n : nat) (ce : cell F) : Prop :=
  m_force (ce_mode ce) = false /\ valid n ce /\ (forall ax, 0 <= comp ax (a_w (ce_attr ce)))%num /\ bindable (ce_kind ce).
(** The chain [c1] and the solver [s] made for the chain [c] by the calls [ops]: the frames are those of the joint displacements, which are
    within ordered limits; nothing has been solved yet; some joint is registered, with positive weights. *)
Definition prepared (c : chain F) (ops : list (op F)) (c1 : chain F) (s : solver F) : Prop :=
  usable c /\ run c (ik_create c) ops = Some (c1, s) /\ posed c1 /\ all_ordered c1 /\ settable c1 /\ s_vel s = repeat 0%num (chain_joint_size c) /\
  wanted c (registered c ops) <> [] /\ (forall i w, In i (wanted c (registered c ops)) -> registered c ops i = Some w -> (0 < w)%num) /\
  forall x, In x (s_cells s) -> plain (length (c_links c)) (snd x).
(** No entry of a sequence has a negative weight. *)
Definition weighted (q : list (seqcell F)) : Prop := forall e x ax, In e q -> In x (sq_entries e) -> (0 <= comp ax (e_w x))%num.
Definition entries (q : list (seqcell F)) : list (entry F) := flat_map (fun e => sq_entries e) q.

(** A step that names none of the cells. *)
Definition unnamed (s : solver F) (e : seqcell F) : Prop := forall x y, In x (s_cells s) -> In y (sq_entries e) -> e_id y <> ce_id (snd x).
(** Joints with a rotation in space, and what is used of the composition of rotations for them: no rotation adds nothing. *)
Definition turns (j : joint F) : bool := match j with JSpher _ | JFloat _ | JBrFloat _ _ _ => true | _ => false end.
Definition aa_unit : Prop := forall a : vec3 F, x_aacas a v3zero = a.
Definition unit_turns (c : chain F) : Prop := forall l, In l (c_links c) -> turns (l_joint l) = true -> aa_unit.

(** The target of a cell in a step with entries [now], after the entries [before]; [ce0] is the cell as it was registered, [c] the posture
    the step begins with.  A cell that the step names is told the reference and the weight of its last entry; every other cell is to
    stay where it is, with the weight last given to it. *)
Definition angular (k : kind) : bool := match k with WldAtt | L2LAtt => true | _ => false end.
Definition aimed (c : chain F) (before now : list (entry F)) (ce0 ce : cell F) : Prop :=
  ce_id ce = ce_id ce0 /\ ce_kind ce = ce_kind ce0 /\
  a_id (ce_attr ce) = a_id (ce_attr ce0) /\ a_sub (ce_attr ce) = a_sub (ce_attr ce0) /\ a_ap (ce_attr ce) = a_ap (ce_attr ce0) /\
  ce_mode ce = Mode true true true (m_force (ce_mode ce0)) /\
  a_w (ce_attr ce) = match last_for (ce_id ce0) (before ++ now) with Some e => e_w e | None => a_w (ce_attr ce0) end /\
  match last_for (ce_id ce0) now with
  | Some e => if angular (ce_kind ce0) then ce_att ce = m3zyx (vx (e_val e)) (vy (e_val e)) (vz (e_val e)) else ce_pos ce = e_val e
  | None => cell_err c ce = Some v3zero
  end.
End IkappSpec.
