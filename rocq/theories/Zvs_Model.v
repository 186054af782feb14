(** * Zvs_Model: conversion of sequences of displacements (/repo/app/zvs2zkcs.c, /repo/app/zvs2zkci.c).

    Sequences are those of Seq_Model.v; the printing of numbers is not modelled, and the files of the chain and of the
    sequence can be read.  [None]: undefined behaviour. *)
From Coq Require Import Bool String List Arith.
From Verif Require Import Num Vec Motor_Model Joint_Model Body_Model Tree Link_Model Conf_Model Ztk_Model Cad_Model Seq_Model.
Import ListNotations.
Set Implicit Arguments.

Section Zvs.
Context {F : Type} {N : Num F} {E : Ext F} {K : ConfExt F} {Z : ZtkLib}.

(** ** zvs2zkcs *)
(** A line of the output: time step and configuration of the chain. *)
Definition confline := (F * list F)%type.
(** The loop of main, zvs2zkcs.c 39-46. *)
Fixpoint conf_loop (c : chain F) (s : list (step F)) : option (list confline) :=
  match s with
  | [] => Some []
  | e :: s' => obind (chain_fk c (st_v e)) (fun c' => option_map (cons (st_dt e, chain_get_conf c')) (conf_loop c' s'))
  end.
(** The third argument of the program: none, a file that exists or not. *)
Inductive dest := NoFile | InFile (there : bool).
(** main, zvs2zkcs.c 14-50: lines on standard output, lines written to the file, exit status.  The file is opened for
    reading (line 32), so nothing can be written to it. *)
Definition zvs2zkcs (c : chain F) (d : dest) (s : list (step F)) : option (list confline * list confline * nat) :=
  match d with
  | InFile false => Some ([], [], 1)
  | InFile true => option_map (fun _ => ([], [], 0)) (conf_loop c s)
  | NoFile => option_map (fun r => (r, [], 0)) (conf_loop c s)
  end.

(** ** zvs2zkci *)
(** The second argument: none, a number, "last". *)
Inductive pick := PFirst | PAt (n : nat) | PLast.
(** zvs2zkci.c 23-29; the head of an empty list and a step beyond the end (zSeqJump of ZM) are outside the list. *)
Definition picked (p : pick) (s : list (step F)) : option (step F) :=
  match p with PFirst => nth_error s 0 | PAt n => nth_error s n | PLast => nth_error s (pred (length s)) end.
(** zvs2zkci.c 30-31: the state of the chain before the posture is set. *)
Definition started (g : F) (c : chain F) (ini : option (list (key F))) : option (chain F) :=
  match ini with None => Some c | Some ks => posture_read g ks c end.
(** main, zvs2zkci.c 14-35: the keys of the [init] section printed. *)
Definition zvs2zkci (g : F) (c : chain F) (p : pick) (ini : option (list (key F))) (s : list (step F)) : option (list (key F)) :=
  obind (picked p s) (fun e => obind (started g c ini) (fun c => obind (chain_fk c (st_v e)) posture_print)).
End Zvs.
Arguments confline : clear implicits.
