(** * Ikapp_Model: the program rk_ik (app/rk_ik.c).

    Not modelled: options and files, the rounding of the numbers printed, and the verbose messages; files that
    cannot be read.  A call whose behaviour is undefined makes the whole run undefined. *)
From Coq Require Import String List.
From Verif Require Import Num Vec Motor_Model Joint_Model Body_Model Tree Link_Model Jacobi_Model IK_Model Ztk_Model IKConf_Model.
Import ListNotations.

Section Ikapp.
Context {F : Type} {N : Num F} {E : Ext F} {I : IKExt F} {Z : ZtkLib}.

(** A line of the output file: time step and joint displacements. *)
Definition ikline := (F * list F)%type.
(** The loop of rk_ik_solve, app/rk_ik.c 112-125; what rkIKSolve returns is not used. *)
Fixpoint rk_ik_solve (tol : F) (iter : nat) (c : chain F) (s : solver F) (v : list F) (q : list (seqcell F)) : option (list ikline) :=
  match q with
  | [] => Some []
  | e :: t =>
    let s := ik_deactivate s in
    obind (ik_bind c s) (fun s =>
    let s := seq_set s e in
    obind (ik_solve c s v tol iter) (fun r =>
    option_map (cons (sq_dt e, snd (fst r))) (rk_ik_solve tol iter (fst (fst (fst r))) (snd (fst (fst r))) (snd (fst r)) t)))
  end.
(** rk_ik_command_args 83-85 and rk_ik_solve 97-111: the chain [c] as read, the keys [l] of the configuration file. *)
Definition rk_ik (junk : cattr F) (tol : F) (iter : nat) (c : chain F) (l : list (ikkey F)) (q : list (seqcell F)) : option (list ikline) :=
  obind (ik_conf_read junk c l) (fun r =>
  rk_ik_solve tol iter (fst r) (snd r) (repeat 0%num (chain_joint_size (fst r))) q).
End Ikapp.
Arguments ikline : clear implicits.
