(** * Seq_Model: forward kinematics and inverse dynamics along a sequence (/repo/app/rk_fk.c, /repo/app/rk_id.c).

    The chain is the one read from the file (with the initial state file applied, if any).  A sequence
    (zSeq of ZM) is the list of its steps from the head of the list on, each with a vector and the time to
    the next step.  Command lines, file names, the messages on the terminal and the printing of numbers are
    not modelled; files can be opened and memory allocation never fails.
    [None]: undefined behaviour (memory outside an array or an uninitialised number is read). *)
From Coq Require Import Bool String List Arith.
From Verif Require Import Num Vec Motor_Model Joint_Model Body_Model Tree Link_Model Ztk_Model Cad_Model.
Import ListNotations.
Set Implicit Arguments.

Section Seq.
Context {F : Type} {N : Num F} {E : Ext F} {C : CadExt F}.
Local Open Scope num_scope.

(** zSeqCell of ZM: displacements and time step. *)
Record step := ST { st_v : list F; st_dt : F }.

(** ** rk_fk *)
(** A line of the log file: time, position and attitude of the link. *)
Record fkrow := FKR { fk_t : F; fk_pos : vec3 F; fk_rpy : vec3 F }.
(** rk_fkOutput, rk_fk.c 108-116, for the link at place [i]. *)
Definition fk_out (i : nat) (c : chain F) (t : F) : option fkrow :=
  option_map (fun l => FKR t (fpos (l_frame l)) (x_m2zyx (fatt (l_frame l)))) (nth_error (c_links c) i).
(** The loop of main, rk_fk.c 132-138. *)
Fixpoint fk_loop (i : nat) (c : chain F) (t : F) (s : list step) : option (list fkrow) :=
  match s with
  | [] => Some []
  | e :: s' => obind (chain_fk c (st_v e)) (fun c' =>
               obind (fk_out i c' t) (fun r => option_map (cons r) (fk_loop i c' (t + st_dt e) s')))
  end.
(** rk_fkCommandArgs, rk_fk.c 92-96, and main, 120-143: [Some None] for an unknown link; the first vector of
    an empty sequence would be read from the terminal cell of the list. *)
Definition rk_fk (c : chain F) (name : string) (s : list step) : option (option (list fkrow)) :=
  match find_name (map (@l_name F) (c_links c)) name with
  | None => Some None
  | Some i => match s with
              | [] => None
              | e :: _ => obind (chain_fk c (st_v e)) (fun c' => option_map Some (fk_loop i c' 0 s))
              end
  end.

(** ** rk_id *)
(** The lines of the seven log files at a time. *)
Record idrow := IDR { id_t : F; id_com : vec3 F; id_comvel : vec3 F; id_comacc : vec3 F; id_zmp : vec3 F;
  id_rpy : vec3 F; id_am : vec3 F; id_trq : list F }.
(** rk_idOutput, rk_id.c 118-135, with the height [z] of the floor; [trq] is the vector allocated in main.  When
    rkChainZMP gives nothing, an uninitialised vector is printed. *)
Definition id_out (g z : F) (c : chain F) (t : F) (trq : list F) : option idrow :=
  obind (chain_zmp c z) (fun zo => obind zo (fun zmp =>
  obind (c_root c) (fun r =>
  option_map (fun q =>
    IDR t (c_wcom c) (c_comvel c) (v3sub (c_comacc c) (vlin (grav g))) zmp (x_m2zyx (fatt (l_frame r)))
        (chain_am c (c_wcom c)) q)
    (chain_get_joint_trq_all c trq)))).
(** The loop of main, rk_id.c 154-160. *)
Fixpoint id_loop (g z : F) (c : chain F) (t : F) (trq : list F) (s : list step) : option (list idrow) :=
  match s with
  | [] => Some []
  | e :: s' => obind (chain_fkcnt g c (st_v e) (st_dt e)) (fun c' =>
               obind (id_out g z c' t trq) (fun r => option_map (cons r) (id_loop g z c' (t + st_dt e) (id_trq r) s')))
  end.
(** main, rk_id.c 139-167; the height of the floor is 0 (line 6). *)
Definition rk_id (g : F) (c : chain F) (s : list step) : option (list idrow) :=
  match s with
  | [] => None
  | e :: _ => obind (chain_fk c (st_v e)) (fun c' => id_loop g 0 c' 0 (repeat 0 (chain_joint_size c)) s)
  end.
End Seq.
Arguments step : clear implicits. Arguments fkrow : clear implicits. Arguments idrow : clear implicits.
