(** * IKConf_Model: configuration files of the inverse kinematics solver (rk_ik.c 370-530) and sequence files
    (rk_ik_seq.c 49-130).

    As in Ztk_Model, a section is the list of its keys with the values read; a sequence file is the list of
    its numbers.  The address of a new cell is the number of the cells there are. *)
From Coq Require Import String List ZArith.
From Verif Require Import Num Vec Motor_Model Joint_Model Body_Model Tree Link_Model Jacobi_Model IK_Model Ztk_Model.
Import ListNotations.

Section IKConf.
Context {F : Type} {N : Num F} {E : Ext F} {I : IKExt F} {Z : ZtkLib}.
Local Open Scope num_scope.
Notation ch := (chain F).

(** The values of a key [constraint] after the type, rk_ik.c 474-501: "at" and "w" with three numbers, "f", the name of a link. *)
Inductive citem := CAt (v : vec3 F) | CWeight (v : vec3 F) | CForce | CLink (s : string).
(** The keys of the section [ik].  [IKJoint s w d]: name, weight if there is one, and the numbers after the weight. *)
Inductive ikkey := IKJoint (s : string) (w : option F) (d : list F) | IKConstraint (t : string) (l : list citem).

(** RK_IK_JOINT_WEIGHT_DEFAULT, rk_ik.h 230. *)
Definition weight_default : F := nrat 1 1000.
(** __rk_ik_lookup, rk_ik.c 410-423. *)
Definition ik_table : list (string * kind) :=
  [("world_pos", WldPos); ("world_att", WldAtt); ("l2l_pos", L2LPos); ("l2l_att", L2LAtt); ("com", COM); ("am", AM); ("amcom", AMCOM)]%string.
(** _rkIKLookupCell, rk_ik.c 425-433. *)
Fixpoint ik_lookup (s : string) (l : list (string * kind)) : option kind :=
  match l with [] => None | (n, k) :: t => if String.eqb s n then Some k else ik_lookup s t end.

(** Chain, solver. *)
Definition conf := (ch * solver F)%type.
Definition is0 (x : F) : bool := andb (nleb x 0) (nleb 0 x).
(** _rkIKJointFromZTK, rk_ik.c 437-459; the flag is "did not return NULL".  A fixed joint has no _dis_fromZTK. *)
Definition ik_joint (x : conf) (s : string) (w : option F) (d : list F) : option (conf * bool) :=
  let (c, v) := x in
  let w := match w with Some w => w | None => weight_default end in
  if String.eqb s "all" then option_map (fun '(v', ok) => ((c, v'), ok)) (joint_reg_all c v w)
  else match find_name (map l_name (c_links c)) s with
       | None => Some (x, false)
       | Some i =>
         obind (nth_error (c_links c) i) (fun l =>
         if is0 w then
           match l_joint l with
           | JFixed => None
           | j => option_map (fun '(j', _) => ((c_set_links (lset i (l_set_joint j' l) (c_links c)) c, v), true)) (joint_key None j (KDis d))
           end
         else if Nat.eqb (joint_size (l_joint l)) 0 then Some (x, false)
         else option_map (fun '(v', ok) => ((c, v'), ok)) (joint_reg c v i w))
       end.
(** The loop of _rkIKConstraintFromZTK, rk_ik.c 469-500: [n] links so far.  [None]: an unknown link. *)
Fixpoint ik_items (names : list string) (n : nat) (a : cattr F) (m : mask) (l : list citem) : option (cattr F * mask) :=
  match l with
  | [] => Some (a, m)
  | CAt v :: t => ik_items names n (Attr (a_id a) (a_sub a) v (a_w a)) (Mask (k_id m) (k_sub m) true (k_force m) (k_weight m)) t
  | CWeight v :: t => ik_items names n (Attr (a_id a) (a_sub a) (a_ap a) v) (Mask (k_id m) (k_sub m) (k_ap m) (k_force m) true) t
  | CForce :: t => ik_items names n a (Mask (k_id m) (k_sub m) (k_ap m) true (k_weight m)) t
  | CLink s :: t =>
    match find_name names s with
    | None => None
    | Some i =>
      match n with
      | O => ik_items names 1 (Attr i (a_sub a) (a_ap a) (a_w a)) (Mask true (k_sub m) (k_ap m) (k_force m) (k_weight m)) t
      | S _ => ik_items names (S n) (Attr (a_id a) i (a_ap a) (a_w a)) (Mask (k_id m) true (k_ap m) (k_force m) (k_weight m)) t
      end
    end
  end.
(** _rkIKConstraintFromZTK, rk_ik.c 460-502; [junk] is the uninitialised local variable attr. *)
Definition ik_constraint (junk : cattr F) (x : conf) (t : string) (l : list citem) : option (conf * bool) :=
  match ik_lookup t ik_table with
  | None => Some (x, false)
  | Some k =>
    match ik_items (map l_name (c_links (fst x))) 0 junk (Mask false false false false false) l with
    | None => Some (x, false)
    | Some (a, m) => option_map (fun v => ((fst x, v), true)) (cell_reg (snd x) (List.length (s_cells (snd x))) k (Some a) m)
    end
  end.
Definition ik_key (junk : cattr F) (x : conf) (k : ikkey) : option (conf * bool) :=
  match k with IKJoint s w d => ik_joint x s w d | IKConstraint t l => ik_constraint junk x t l end.
(** ZTKEvalKey, as in Ztk_Model. *)
Fixpoint ik_keys (junk : cattr F) (x : conf) (l : list ikkey) : option (conf * bool) :=
  match l with
  | [] => Some (x, true)
  | k :: t => obind (ik_key junk x k) (fun '(y, ok) =>
              if ok then ik_keys junk y t
              else if z_stop_key then Some (y, false)
              else option_map (fun '(y', _) => (y', false)) (ik_keys junk y t))
  end.
(** rkIKConfReadZTK, rk_ik.c 513-530, on a file with a section [ik]; what ZTKEvalTag returns is ignored (rk_ik.c 513-517). *)
Definition ik_conf_read (junk : cattr F) (c : ch) (l : list ikkey) : option conf :=
  option_map fst (ik_keys junk (c, ik_create c) l).

(** ** Sequence files *)
(** A number of the file: written by %d or by %.10g. *)
Inductive num := NI (n : nat) | NF (x : F).
Definition vec_nums (v : vec3 F) : list num := [NF (vx v); NF (vy v); NF (vz v)].
Definition entry_print (e : entry F) : list num := NI (e_id e) :: vec_nums (e_w e) ++ vec_nums (e_val e).
(** rkIKSeqFPrint, rk_ik_seq.c 107-130, of the cells in the order of the queue. *)
Definition seq_print (q : list (seqcell F)) : list num :=
  flat_map (fun c => NF (sq_dt c) :: NI (List.length (sq_entries c)) :: flat_map entry_print (sq_entries c)) q.
(** zFDouble, zFInt; a number of the other form and the end of the file are outside the model. *)
Definition rd_f (l : list num) : option (F * list num) := match l with NF x :: t => Some (x, t) | _ => None end.
Definition rd_i (l : list num) : option (nat * list num) := match l with NI x :: t => Some (x, t) | _ => None end.
Definition rd_v (l : list num) : option (vec3 F * list num) :=
  obind (rd_f l) (fun '(x, l) => obind (rd_f l) (fun '(y, l) => obind (rd_f l) (fun '(z, l) => Some (V3 x y z, l)))).
Fixpoint entries_scan (n : nat) (l : list num) : option (list (entry F) * list num) :=
  match n with
  | O => Some ([], l)
  | S k => obind (rd_i l) (fun '(i, l) => obind (rd_v l) (fun '(w, l) => obind (rd_v l) (fun '(v, l) =>
           obind (entries_scan k l) (fun '(es, l) => Some (Entry i w v :: es, l)))))
  end.
(** rkIKSeqFScan, rk_ik_seq.c 61-90.  [zalloc0]: whether zAlloc of no entries succeeds; if not, reading stops there. *)
Fixpoint seq_scan (zalloc0 : bool) (fuel : nat) (l : list num) : option (list (seqcell F)) :=
  match l with
  | [] => Some []
  | _ => match fuel with
         | O => None
         | S k => obind (rd_f l) (fun '(dt, l) => obind (rd_i l) (fun '(n, l) =>
                  if andb (Nat.eqb n 0) (negb zalloc0) then Some []
                  else obind (entries_scan n l) (fun '(es, l) => option_map (cons (SeqCell dt es)) (seq_scan zalloc0 k l))))
         end
  end.
End IKConf.
Arguments ikkey : clear implicits. Arguments citem : clear implicits. Arguments num : clear implicits. Arguments conf : clear implicits.
