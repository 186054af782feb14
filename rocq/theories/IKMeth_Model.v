(** * IKMeth_Model: the choice of the method that resolves the joint velocities of the inverse kinematics
    solver (rk_ik.h 197-200, rk_ik.c 294-323).

    zLESolveMP and zLESolveSRDST belong to ZM.  The first is the external function [x_mp]; its result is always
    handed back.  The second sets up the normal equation of the weighted least squares problem damped by
    the weights on the norm, and solves it by zLESolveGaussDST, the external function [x_le]. *)
From Coq Require Import List Arith.
From Verif Require Import Num Vec Motor_Model Joint_Model Body_Model Tree Link_Model Jacobi_Model IK_Model.
Import ListNotations.

Class MPExt (F : Type) := mkMPExt {
  x_mp : list (list F) -> list F -> list F -> list F -> list F    (* zLESolveMP( a, b, wn, we, ans ) *)
}.

Section Meth.
Context {F : Type} {N : Num F} {E : Ext F} {I : IKExt F} {M : MPExt F}.
Local Open Scope num_scope.
Notation ch := (chain F).

(** The rows in use: rkIKEq sets the sizes, rk_ik.c 287-291. *)
Definition in_use {A} (s : solver F) (l : list A) : list A := firstn (s_rows s) l.
(** rkIKJointVelMP, rk_ik.c 294-299. *)
Definition joint_vel_mp (s : solver F) : solver F :=
  s_set_jvel (x_mp (in_use s (s_cmat s)) (in_use s (s_csrv s)) (s_wn s) (in_use s (s_cwe s))) s.
(** rkIKJointVelSR, rk_ik.c 301-307. *)
Definition sr_matrix (j : list (list F)) (we wn : list F) : list (list F) := add_diag 0 (mat_t_quad (length wn) j we) wn.
Definition sr_vector (j : list (list F)) (srv we wn : list F) : list F := mat_t_vec (length wn) j (vamp srv we).
Definition joint_vel_sr (s : solver F) : solver F :=
  let j := in_use s (s_cmat s) in
  let we := in_use s (s_cwe s) in
  match x_le (sr_matrix j we (s_wn s)) (sr_vector j (in_use s (s_csrv s)) we (s_wn s)) with
  | Some x => s_set_jvel x s
  | None => s
  end.

(** rkIKSolveRate 326-339, rkIKSolveOne 342-350 and rkIKSolve 353-368 with the function [jv] set by
    rkIKSetJointVelMethod (rk_ik.h 197), which may be any function that changes the solver. *)
Definition solve_rate_by (jv : solver F -> solver F) (c : ch) (s : solver F) : option (solver F) :=
  obind (ik_eq c s) (fun s =>
  let s := jv s in
  obind (s_jidx s) (fun idx =>
  option_map (fun v => s_set_vel v s) (scatter (c_links c) idx (s_jvel s) (s_vel s)))).
Definition solve_one_by (jv : solver F -> solver F) (c : ch) (s : solver F) (dis : list F) (dt : F) : option (ch * solver F * list F) :=
  obind (solve_rate_by jv c s) (fun s =>
  obind (chain_cat_joint_dis_all c dis dt (s_vel s)) (fun dis =>
  obind (chain_set_joint_dis_all c dis) (fun c =>
  obind (chain_get_joint_dis_all c dis) (fun dis =>
  obind (chain_update_fk c) (fun c => Some (c, s, dis)))))).
Fixpoint solve_loop_by (jv : solver F -> solver F) (tol : F) (k i : nat) (rest : option F) (c : ch) (s : solver F) (dis : list F)
  : option (ch * solver F * list F * option nat) :=
  match k with
  | O => Some (c, s, dis, None)
  | S k => obind (solve_one_by jv c s dis 1) (fun r =>
           let ev := s_eval (snd (fst r)) in
           if match rest with Some e => ntiny tol (ev - e) | None => false end
           then Some (r, Some i)
           else solve_loop_by jv tol k (S i) (Some ev) (fst (fst r)) (snd (fst r)) (snd r))
  end.
Definition solve_by (jv : solver F -> solver F) (c : ch) (s : solver F) (dis : list F) (tol : F) (iter : nat)
  : option (ch * solver F * list F * option nat) :=
  obind (chain_get_joint_dis_all c dis) (fun dis =>
  solve_loop_by jv tol (if Nat.eqb iter 0 then x_maxiter else iter) 0 None c (ik_acm_zero s) dis).
End Meth.
