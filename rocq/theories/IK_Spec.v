(** * IK_Spec: what the properties of the inverse kinematics solver talk about. *)
From Coq Require Import List Arith Bool.
From Verif Require Import Num Vec Motor_Model Joint_Model Body_Model Tree Link_Model Jacobi_Model IK_Model Kin_Spec.
Import ListNotations.

Section IKSpec.
Context {F : Type} {N : Num F} {E : Ext F} {I : IKExt F}.
Notation lk := (link F).

(** The public calls on a solver.  [CReg a ..]: the allocator returns address [a]; the calls on single cells
    take the pointer of the cell.  [MoveTo v]: the chain is given joint displacements and its forward
    kinematics is computed. *)
Inductive op :=
| JReg (i : nat) (w : F) | JUnreg (i : nat) | JRegAll (w : F)
| CReg (a : nat) (k : kind) (attr : option (cattr F)) (m : mask) | CUnreg (a : nat)
| CSetRef (a : nat) (v : vec3 F) | CSetRefForce (a : nat) (v : vec3 F) | CSetMode (a : nat) (m : mode) | CSetWeight (a : nat) (w : vec3 F)
| Deactivate | Bind | AcmZero | SetSeq (q : seqcell F)
| Rate | One (dis : list F) (dt : F) | Solve (dis : list F) (tol : F) (iter : nat)
| MoveTo (v : list F).

(** Their effect on chain and solver.  A call is not made with a dangling cell pointer, and the
    allocator does not return the address of a cell in use. *)
Definition has (a : nat) (s : solver F) : bool := existsb (Nat.eqb a) (map fst (s_cells s)).
Definition run_op (c : chain F) (s : solver F) (o : op) : option (chain F * solver F) :=
  let keep (x : option (solver F)) := option_map (fun s => (c, s)) x in
  match o with
  | JReg i w => keep (option_map fst (joint_reg c s i w))
  | JUnreg i => keep (option_map fst (joint_unreg c s i))
  | JRegAll w => keep (option_map fst (joint_reg_all c s w))
  | CReg a k attr m => if has a s then None else keep (cell_reg s a k attr m)
  | CUnreg a => keep (cell_unreg s a)
  | CSetRef a v => if has a s then keep (Some (on_cell (cell_set_ref v) s a)) else None
  | CSetRefForce a v => if has a s then keep (Some (on_cell (cell_set_ref_force v) s a)) else None
  | CSetMode a m => if has a s then keep (Some (on_cell (ce_set_mode m) s a)) else None
  | CSetWeight a w => if has a s then keep (Some (on_cell (ce_set_w w) s a)) else None
  | Deactivate => keep (Some (ik_deactivate s))
  | Bind => keep (ik_bind c s)
  | AcmZero => keep (Some (ik_acm_zero s))
  | SetSeq q => keep (Some (seq_set s q))
  | Rate => keep (ik_solve_rate c s)
  | One dis dt => option_map fst (ik_solve_one c s dis dt)
  | Solve dis tol iter => option_map (fun r => fst (fst r)) (ik_solve c s dis tol iter)
  | MoveTo v => option_map (fun c => (c, s)) (chain_fk c v)
  end.
Fixpoint run (c : chain F) (s : solver F) (ops : list op) : option (chain F * solver F) :=
  match ops with
  | [] => Some (c, s)
  | o :: t => obind (run_op c s o) (fun r => run (fst r) (snd r) t)
  end.

(** What the user asked for: the weight with which the joint of link [i] was registered last, if it has
    not been unregistered since.  [n]: number of links, [mov]: whether a link has a movable joint. *)
Definition asked (n : nat) (mov : nat -> bool) (o : op) (f : nat -> option F) (i : nat) : option F :=
  match o with
  | JReg k w => if Nat.eqb i k && Nat.ltb k n then Some w else f i
  | JUnreg k => if Nat.eqb i k && Nat.ltb k n then None else f i
  | JRegAll w => if mov i && Nat.ltb i n then Some w else f i
  | _ => f i
  end.
Definition asked_all (n : nat) (mov : nat -> bool) (ops : list op) : nat -> option F :=
  fold_left (fun f o => asked n mov o f) ops (fun _ => None).

Definition movable (c : chain F) (i : nat) : bool :=
  match nth_error (c_links c) i with Some l => Nat.ltb 0 (joint_size (l_joint l)) | None => false end.
Definition size_at (c : chain F) (i : nat) : nat :=
  match nth_error (c_links c) i with Some l => joint_size (l_joint l) | None => O end.
(** The registered movable joints in increasing order. *)
Definition wanted (c : chain F) (f : nat -> option F) : list nat :=
  filter (fun i => movable c i && match f i with Some _ => true | None => false end) (seq 0 (length (c_links c))).
(** Their weights, repeated for every component. *)
Definition wanted_weights (c : chain F) (f : nat -> option F) : list F :=
  flat_map (fun i => match f i with Some w => repeat w (size_at c i) | None => [] end) (wanted c f).
(** The column at which joint [i] begins. *)
Definition wanted_column (c : chain F) (f : nat -> option F) (i : nat) : nat :=
  fold_right Nat.add O (map (size_at c) (filter (fun k => Nat.ltb k i) (wanted c f))).
End IKSpec.
Arguments op : clear implicits.
