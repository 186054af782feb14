(** * IK_Model: inverse kinematics solver (/repo/src/rk_ik.c, rk_ik_cell.c, rk_ik_seq.c, rk_ik_imp.c).

    The solver does not own the chain; functions that read or move it take it as an argument.
    A cell list is listed from the tail to the head, the order of zListForEach.  A cell pointer is an
    address (nat); the address of a new cell is chosen by the allocator.  An access outside an array or
    through NULL is [None]. *)
From Coq Require Import List Arith.
From Verif Require Import Num Vec Motor_Model Joint_Model Body_Model Tree Link_Model Jacobi_Model.
Import ListNotations.

(** Four doubles: the storage of the union of zVec3D (the first three) and zEP, rk_ik_cell.h 24-30. *)
Record quad (F : Type) := Q4 { q0 : F; q1 : F; q2 : F; q3 : F }.
Arguments Q4 {F}. Arguments q0 {F}. Arguments q1 {F}. Arguments q2 {F}. Arguments q3 {F}.

(** External functions of ZM and ZEO used only here. *)
Class IKExt (F : Type) := mkIKExt {
  x_sqrt : F -> F;                                             (* sqrt *)
  x_le : list (list F) -> list F -> option (list F);           (* zLESolveGaussDST; None: singular *)
  x_aa2ep : vec3 F -> quad F;                                  (* zAA2EP *)
  x_ep2aa : quad F -> vec3 F;                                  (* zEP2AA *)
  x_epcas : quad F -> quad F -> quad F;                        (* zEPCascade *)
  x_maxiter : nat                                              (* Z_MAX_ITER_NUM of ZITERINIT *)
}.

Section IK.
Context {F : Type} {N : Num F} {E : Ext F} {I : IKExt F}.
Local Open Scope num_scope.
Notation lk := (link F).
Notation ch := (chain F).

(** ** Cells *)

(** The seven documented sets of functions, rk_ik.c 374-407. *)
Inductive kind := WldPos | WldAtt | L2LPos | L2LAtt | COM | AM | AMCOM.
(** Bits of the mode: XON, YON, ZON, FORCE, rk_ik_cell.h 48-52. *)
Record mode := Mode { m_x : bool; m_y : bool; m_z : bool; m_force : bool }.
(** rkIKCellAttr, rk_ik_cell.h 40-46 (without the mode, which is never read from an argument). *)
Record cattr := Attr { a_id : nat; a_sub : nat; a_ap : vec3 F; a_w : vec3 F }.
(** The mask bits ID, ID_SUB, AP, FORCE, WEIGHT, rk_ik_cell.h 33-38. *)
Record mask := Mask { k_id : bool; k_sub : bool; k_ap : bool; k_force : bool; k_weight : bool }.
(** rkIKCellDat, rk_ik_cell.h 70-85.  The union of position and attitude reference is two fields since
    every kind uses only one of them; e_old, h_old, index_offset and _util are never read. *)
Record cell := Cell {
  ce_id : nat; ce_kind : kind; ce_attr : cattr; ce_mode : mode;
  ce_pos : vec3 F; ce_att : mat3 F; ce_ae : quad F; ce_eval : F }.
Definition ce_set_id (i : nat) (c : cell) := Cell i (ce_kind c) (ce_attr c) (ce_mode c) (ce_pos c) (ce_att c) (ce_ae c) (ce_eval c).
Definition ce_set_mode (m : mode) (c : cell) := Cell (ce_id c) (ce_kind c) (ce_attr c) m (ce_pos c) (ce_att c) (ce_ae c) (ce_eval c).
Definition ce_set_w (w : vec3 F) (c : cell) :=
  Cell (ce_id c) (ce_kind c) (Attr (a_id (ce_attr c)) (a_sub (ce_attr c)) (a_ap (ce_attr c)) w) (ce_mode c) (ce_pos c) (ce_att c) (ce_ae c) (ce_eval c).
Definition ce_set_pos (p : vec3 F) (c : cell) := Cell (ce_id c) (ce_kind c) (ce_attr c) (ce_mode c) p (ce_att c) (ce_ae c) (ce_eval c).
Definition ce_set_att (m : mat3 F) (c : cell) := Cell (ce_id c) (ce_kind c) (ce_attr c) (ce_mode c) (ce_pos c) m (ce_ae c) (ce_eval c).
Definition ce_set_ae (q : quad F) (c : cell) := Cell (ce_id c) (ce_kind c) (ce_attr c) (ce_mode c) (ce_pos c) (ce_att c) q (ce_eval c).
Definition ce_set_eval (e : F) (c : cell) := Cell (ce_id c) (ce_kind c) (ce_attr c) (ce_mode c) (ce_pos c) (ce_att c) (ce_ae c) e.

(** rkIKCellAttrEnable, Disable, Force and IsDisabled, rk_ik_cell.h 55-59 and 93-100. *)
Definition mode_enable (m : mode) := Mode true true true (m_force m).
Definition mode_disable (m : mode) := Mode false false false (m_force m).
Definition mode_forced (m : mode) := Mode true true true true.
Definition mode_off (m : mode) : bool := negb (m_x m || m_y m || m_z m).
Definition cell_enable (c : cell) := ce_set_mode (mode_enable (ce_mode c)) c.
Definition cell_disable (c : cell) := ce_set_mode (mode_disable (ce_mode c)) c.

(** rkIKCellAcmZero, rk_ik_cell.c 45-50: zeroes the position view of the union, its first three doubles. *)
Definition acm_zero (q : quad F) : quad F := Q4 0 0 0 (q3 q).
Definition cell_acm_zero (c : cell) := ce_set_ae (acm_zero (ce_ae c)) c.
Definition quad_zero : quad F := Q4 0 0 0 0.
(** rkIKCellInit, rk_ik_cell.c 17-43, on the zero-filled memory of zAlloc; [attr = None] is NULL. *)
Definition cell_init (k : kind) (attr : option cattr) (m : mask) : cell :=
  let pick {A} (bit : bool) (f : cattr -> A) (d : A) := match attr with Some a => if bit then f a else d | None => d end in
  cell_disable (cell_acm_zero
    (Cell 0 k (Attr (pick (k_id m) a_id O) (pick (k_sub m) a_sub O) (pick (k_ap m) a_ap v3zero) (pick (k_weight m) a_w (V3 1 1 1)))
       (Mode false false false (k_force m)) v3zero m3zero quad_zero 0)).

(** zMat3DFromZYX of ZEO: rotation about z, then y, then x. *)
Definition m3zyx (a e t : F) : mat3 F :=
  m3mul (m3mul (m3create (x_cos a) (- x_sin a) 0 (x_sin a) (x_cos a) 0 0 0 1)
               (m3create (x_cos e) 0 (x_sin e) 0 1 0 (- x_sin e) 0 (x_cos e)))
        (m3create 1 0 0 0 (x_cos t) (- x_sin t) 0 (x_sin t) (x_cos t)).
(** The reference function of a cell, rk_ik.c 374-407 with rk_ik_cell.c 54-62. *)
Definition cell_ref (v : vec3 F) (c : cell) : cell :=
  match ce_kind c with
  | WldAtt | L2LAtt => ce_set_att (m3zyx (vx v) (vy v) (vz v)) c
  | _ => ce_set_pos v c
  end.
(** rkIKCellSetRef and rkIKCellSetRefForce, rk_ik_cell.h 105-117. *)
Definition cell_set_ref (v : vec3 F) (c : cell) : cell := cell_ref v (cell_enable c).
Definition cell_set_ref_force (v : vec3 F) (c : cell) : cell := cell_ref v (ce_set_mode (mode_forced (ce_mode c)) c).

(** Constraint matrix of a cell, rk_ik_cell.c 78-111. *)
Definition cell_cmat (c : ch) (ce : cell) (m : list (vec3 F)) : option (list (vec3 F)) :=
  let a := ce_attr ce in
  match ce_kind ce with
  | WldPos => wld_lin_jacobi c (a_id a) (a_ap a) m
  | WldAtt => wld_ang_jacobi c (a_id a) m
  | L2LPos => link_to_link_lin_jacobi c (a_id a) (a_sub a) (a_ap a) m
  | L2LAtt => link_to_link_ang_jacobi c (a_id a) (a_sub a) m
  | COM => com_jacobi c m
  | AM => am_jacobi c (a_ap a) m
  | AMCOM => am_com_jacobi c m
  end.
(** Error of a cell, rk_ik_cell.c 115-162. *)
Definition cell_err (c : ch) (ce : cell) : option (vec3 F) :=
  let a := ce_attr ce in
  match ce_kind ce with
  | WldPos => obind (nth_error (c_links c) (a_id a)) (fun l => Some (v3sub (ce_pos ce) (xform (l_frame l) (a_ap a))))
  | WldAtt => obind (nth_error (c_links c) (a_id a)) (fun l => Some (x_m3err (ce_att ce) (fatt (l_frame l))))
  | L2LPos => obind (nth_error (c_links c) (a_sub a)) (fun ls => obind (nth_error (c_links c) (a_id a)) (fun l =>
      Some (v3sub (ce_pos ce) (v3sub (xform (l_frame ls) (a_ap a)) (fpos (l_frame l))))))
  | L2LAtt => obind (nth_error (c_links c) (a_id a)) (fun l => obind (nth_error (c_links c) (a_sub a)) (fun ls =>
      Some (m3v (fatt (l_frame l)) (x_m3err (ce_att ce) (m3mul (m3tr (fatt (l_frame l))) (fatt (l_frame ls)))))))
  | COM => Some (v3sub (ce_pos ce) (c_wcom c))
  | AM => Some (v3opp (chain_am c (a_ap a)))
  | AMCOM => Some (v3opp (chain_am c (c_wcom c)))
  end.
(** Binding function of a cell, rk_ik_cell.c 166-203. *)
Definition cell_bound (c : ch) (ce : cell) : option cell :=
  let a := ce_attr ce in
  match ce_kind ce with
  | WldPos => obind (nth_error (c_links c) (a_id a)) (fun l => Some (ce_set_pos (xform (l_frame l) (a_ap a)) ce))
  | WldAtt => obind (nth_error (c_links c) (a_id a)) (fun l => Some (ce_set_att (fatt (l_frame l)) ce))
  | L2LPos => obind (nth_error (c_links c) (a_sub a)) (fun ls => obind (nth_error (c_links c) (a_id a)) (fun l =>
      Some (ce_set_pos (v3sub (xform (l_frame ls) (a_ap a)) (fpos (l_frame l))) ce)))
  | L2LAtt => obind (nth_error (c_links c) (a_id a)) (fun l => obind (nth_error (c_links c) (a_sub a)) (fun ls =>
      Some (ce_set_att (m3mul (m3tr (fatt (l_frame l))) (fatt (l_frame ls))) ce)))
  | COM => Some (ce_set_pos (c_wcom c) ce)
  | AM => Some (ce_set_pos (chain_am c (a_ap a)) ce)
  | AMCOM => Some (ce_set_pos (chain_am c (c_wcom c)) ce)
  end.
(** rkIKCellBind, rk_ik_cell.h 125-128. *)
Definition cell_bind (c : ch) (ce : cell) : option cell := cell_bound c (cell_enable ce).

(** zEPCatDRC *)
Definition quad_add (a b : quad F) : quad F := Q4 (q0 a + q0 b) (q1 a + q1 b) (q2 a + q2 b) (q3 a + q3 b).
(** rkIKAcmPos, rk_ik_cell.c 207-210, and rkIKAcmAtt, 212-220: new accumulator and corrected velocity. *)
Definition acm_pos (ae : quad F) (srv : vec3 F) : quad F * vec3 F :=
  let p := v3add (V3 (q0 ae) (q1 ae) (q2 ae)) srv in (Q4 (vx p) (vy p) (vz p) (q3 ae), v3add srv p).
Definition acm_att (ae : quad F) (srv : vec3 F) : quad F * vec3 F :=
  let e := x_aa2ep srv in
  let ae := quad_add ae e in
  (ae, x_ep2aa (x_epcas e ae)).
Definition cell_acm (ce : cell) (srv : vec3 F) : cell * vec3 F :=
  let r := match ce_kind ce with
           | WldPos | L2LPos | COM => acm_pos (ce_ae ce) srv
           | WldAtt | L2LAtt | AM | AMCOM => acm_att (ce_ae ce) srv
           end in
  (ce_set_ae (fst r) ce, snd r).

(** ** The solver *)

(** rkIK, rk_ik.h 78-102.  [s_jidx = None]: NULL.  Matrices are lists of rows; [s_cmat], [s_csrv], [s_cwe] have
    their allocated sizes, [s_rows] is the row size set by rkIKEq.  Working memory is not modelled. *)
Record solver := IK {
  s_sw : list bool; s_weight : list F; s_vel : list F; s_eval : F;
  s_cells : list (nat * cell);
  s_jidx : option (list nat); s_jofs : list (option nat);
  s_jvel : list F; s_wn : list F;
  s_cmat : list (list F); s_csrv : list F; s_cwe : list F; s_rows : nat }.
Definition s_set_cells (l : list (nat * cell)) (s : solver) :=
  IK (s_sw s) (s_weight s) (s_vel s) (s_eval s) l (s_jidx s) (s_jofs s) (s_jvel s) (s_wn s) (s_cmat s) (s_csrv s) (s_cwe s) (s_rows s).
Definition s_set_cmat (m : list (list F)) (s : solver) :=
  IK (s_sw s) (s_weight s) (s_vel s) (s_eval s) (s_cells s) (s_jidx s) (s_jofs s) (s_jvel s) (s_wn s) m (s_csrv s) (s_cwe s) (s_rows s).
Definition s_set_jvel (v : list F) (s : solver) :=
  IK (s_sw s) (s_weight s) (s_vel s) (s_eval s) (s_cells s) (s_jidx s) (s_jofs s) v (s_wn s) (s_cmat s) (s_csrv s) (s_cwe s) (s_rows s).
Definition s_set_vel (v : list F) (s : solver) :=
  IK (s_sw s) (s_weight s) v (s_eval s) (s_cells s) (s_jidx s) (s_jofs s) (s_jvel s) (s_wn s) (s_cmat s) (s_csrv s) (s_cwe s) (s_rows s).

Definition zeros (n : nat) : list F := repeat 0 n.
(** rkIKCreate, rk_ik.c 42-57; the initial content of _j_ofs is never read. *)
Definition ik_create (c : ch) : solver :=
  let n := length (c_links c) in
  IK (repeat false n) (zeros n) (zeros (chain_joint_size c)) 0 [] None (repeat (Some O) n) [] [] [] [] [] 0.

(** _rkIKAllocCMat, rk_ik.c 83-93. *)
Definition alloc_cmat (s : solver) : option solver :=
  match s_cells s with
  | [] => Some s
  | _ => obind (s_jidx s) (fun idx =>
         match idx with
         | [] => Some s
         | _ => Some (s_set_cmat (repeat (zeros (length (s_jvel s))) (length (s_cells s) * 3)) s)
         end)
  end.
(** _rkIKAllocJointIndex, rk_ik.c 96-135, and its loops 102-106, 113-115, 113-119, 131-133. *)
Fixpoint fix_sw (h : list lk) (sw : list bool) : list bool :=
  match h, sw with
  | l :: h', b :: sw' => (if Nat.eqb (joint_size (l_joint l)) 0 then false else b) :: fix_sw h' sw'
  | _, _ => sw
  end.
Fixpoint sw_index (i : nat) (sw : list bool) : list nat :=
  match sw with [] => [] | b :: t => if b then i :: sw_index (S i) t else sw_index (S i) t end.
Fixpoint sw_ofs (ofs : nat) (h : list lk) (sw : list bool) : list (option nat) :=
  match h, sw with
  | l :: h', b :: sw' =>
    if b then Some ofs :: sw_ofs (ofs + joint_size (l_joint l)) h' sw' else None :: sw_ofs ofs h' sw'
  | _, _ => []
  end.
Fixpoint weights (h : list lk) (w : list F) (idx : list nat) : option (list F) :=
  match idx with
  | [] => Some []
  | i :: t => obind (nth_error h i) (fun l => obind (nth_error w i) (fun x =>
              option_map (app (repeat x (joint_size (l_joint l)))) (weights h w t)))
  end.
Definition alloc_index (c : ch) (s : solver) : option solver :=
  let h := c_links c in
  let sw := fix_sw h (s_sw s) in
  let idx := sw_index 0 sw in
  match idx with
  | [] => Some (IK sw (s_weight s) (s_vel s) (s_eval s) (s_cells s) (s_jidx s) (s_jofs s) (s_jvel s) (s_wn s) (s_cmat s) (s_csrv s) (s_cwe s) (s_rows s))
  | _ =>
    obind (chain_index_size h idx) (fun n =>
    obind (weights h (s_weight s) idx) (fun wn =>
    alloc_cmat (IK sw (s_weight s) (s_vel s) (s_eval s) (s_cells s) (Some idx) (sw_ofs 0 h sw) (zeros n) wn (s_cmat s) (s_csrv s) (s_cwe s) (s_rows s))))
  end.
(** _rkIKJointReg, rk_ik.c 137-146; the flag is the return value. *)
Definition joint_reg_sw (c : ch) (s : solver) (id : nat) (b : bool) (w : F) : option (solver * bool) :=
  if Nat.ltb id (length (c_links c)) then
    option_map (fun s => (s, true))
      (alloc_index c (IK (set_nth id b (s_sw s)) (set_nth id w (s_weight s)) (s_vel s) (s_eval s) (s_cells s) (s_jidx s) (s_jofs s) (s_jvel s) (s_wn s) (s_cmat s) (s_csrv s) (s_cwe s) (s_rows s)))
  else Some (s, false).
(** rkIKJointReg 147-149, rkIKJointUnreg 150-152. *)
Definition joint_reg (c : ch) (s : solver) (id : nat) (w : F) := joint_reg_sw c s id true w.
Definition joint_unreg (c : ch) (s : solver) (id : nat) := joint_reg_sw c s id false 0.
(** rkIKJointRegAll, rk_ik.c 155-163. *)
Fixpoint reg_all (c : ch) (w : F) (s : solver) (i : nat) (h : list lk) : option (solver * bool) :=
  match h with
  | [] => Some (s, true)
  | l :: t =>
    if Nat.ltb 0 (joint_size (l_joint l))
    then obind (joint_reg c s i w) (fun r => if snd r then reg_all c w (fst r) (S i) t else Some (fst r, false))
    else reg_all c w s (S i) t
  end.
Definition joint_reg_all (c : ch) (s : solver) (w : F) := reg_all c w s 0 (c_links c).

(** _rkIKAllocSRV, rk_ik.c 166-179. *)
Definition alloc_srv (s : solver) : option solver :=
  match s_cells s with
  | [] => Some s
  | _ => let n := (length (s_cells s) * 3)%nat in
         alloc_cmat (IK (s_sw s) (s_weight s) (s_vel s) (s_eval s) (s_cells s) (s_jidx s) (s_jofs s) (s_jvel s) (s_wn s) (s_cmat s) (zeros n) (zeros n) (s_rows s))
  end.
(** rkIKCellReg, rk_ik.c 189-199: the place and identifier of a new cell. *)
Fixpoint insert_from (l : list (nat * cell)) (a : nat) (ce : cell) : list (nat * cell) :=
  match l with
  | [] => []
  | x :: t =>
    match t with
    | [] => [x; (a, ce_set_id (S (ce_id (snd x))) ce)]
    | y :: _ => if Nat.eqb (ce_id (snd y)) (S (ce_id (snd x))) then x :: insert_from t a ce
                else x :: (a, ce_set_id (S (ce_id (snd x))) ce) :: t
    end
  end.
Definition insert_cell (l : list (nat * cell)) (a : nat) (ce : cell) : list (nat * cell) :=
  match l with
  | [] => [(a, ce_set_id 0 ce)]
  | x :: _ => if Nat.eqb (ce_id (snd x)) 0 then insert_from l a ce else (a, ce_set_id 0 ce) :: l
  end.
(** rkIKCellReg, rk_ik.c 180-202. *)
Definition cell_reg (s : solver) (a : nat) (k : kind) (attr : option cattr) (m : mask) : option solver :=
  alloc_srv (s_set_cells (insert_cell (s_cells s) a (cell_init k attr m)) s).
(** rkIKCellUnreg, rk_ik.c 203-208; [None] when the pointer is not in the list. *)
Fixpoint purge (l : list (nat * cell)) (a : nat) : option (list (nat * cell)) :=
  match l with
  | [] => None
  | x :: t => if Nat.eqb (fst x) a then Some t else option_map (cons x) (purge t a)
  end.
Definition cell_unreg (s : solver) (a : nat) : option solver :=
  obind (purge (s_cells s) a) (fun l => alloc_srv (s_set_cells l s)).
(** rkIKFindCell, rk_ik.c 211-218: the address of the cell. *)
Fixpoint find_cell (l : list (nat * cell)) (id : nat) : option nat :=
  match l with
  | [] => None
  | x :: t => if Nat.eqb (ce_id (snd x)) id then Some (fst x) else find_cell t id
  end.
(** rkIKDeactivate 221-227, rkIKBind 230-236, rkIKAcmZero 239-245. *)
Definition ik_deactivate (s : solver) := s_set_cells (map (fun x => (fst x, cell_disable (snd x))) (s_cells s)) s.
Fixpoint bind_cells (c : ch) (l : list (nat * cell)) : option (list (nat * cell)) :=
  match l with
  | [] => Some []
  | x :: t => obind (cell_bind c (snd x)) (fun y => option_map (cons (fst x, y)) (bind_cells c t))
  end.
Definition ik_bind (c : ch) (s : solver) : option solver := option_map (fun l => s_set_cells l s) (bind_cells c (s_cells s)).
Definition ik_acm_zero (s : solver) := s_set_cells (map (fun x => (fst x, cell_acm_zero (snd x))) (s_cells s)) s.
(** A change of one cell through its pointer, e.g. rkIKCellSetRef. *)
Definition on_cell (f : cell -> cell) (s : solver) (a : nat) :=
  s_set_cells (map (fun x => if Nat.eqb (fst x) a then (fst x, f (snd x)) else x) (s_cells s)) s.

(** ** The constraint equation *)

(** [n] elements from position [k]. *)
Definition take_at {A} (k n : nat) (v : list A) : option (list A) :=
  if Nat.leb (k + n) (length v) then Some (firstn n (skipn k v)) else None.
(** The components of link [l] in a vector or matrix over all joints; the offset -1 is outside. *)
Definition link_slice {A} (l : lk) (v : list A) : option (list A) :=
  let n := joint_size (l_joint l) in
  match l_offset l with
  | Some o => take_at o n v
  | None => if Nat.eqb n 0 then Some [] else None
  end.
Fixpoint dot (a b : list F) : F :=
  match a, b with x :: a', y :: b' => x * y + dot a' b' | _, _ => 0 end.
Fixpoint sub_products (r : F) (a b : list F) : F :=
  match a, b with x :: a', y :: b' => sub_products (r - x * y) a' b' | _, _ => r end.
(** The loop over the links in _rkIKCellEq, rk_ik.c 255-265; [jrow] is row s of the matrix of the cell. *)
Fixpoint fill_row (h : list lk) (sw : list bool) (ofs : list (option nat)) (jrow vel : list F) (row : list F) (srv : F) : option (list F * F) :=
  match h with
  | [] => Some (row, srv)
  | l :: h' =>
    match sw, ofs with
    | b :: sw', o :: ofs' =>
      obind (link_slice l jrow) (fun a =>
      if b then
        match a with
        | [] => fill_row h' sw' ofs' jrow vel row srv
        | _ => obind o (fun o => obind (write_at o a row) (fun row => fill_row h' sw' ofs' jrow vel row srv))
        end
      else obind (link_slice l vel) (fun v => fill_row h' sw' ofs' jrow vel row (sub_products srv a v)))
    | _, _ => None
    end
  end.
(** The rows of the constraint matrix, the reference velocities and weights, and the next row. *)
Record eqs := Eqs { q_mat : list (list F); q_srv : list F; q_we : list F; q_row : nat }.
(** _rkIKCellEq, rk_ik.c 248-267. *)
Definition cell_eq (c : ch) (s : solver) (on : bool) (jrow : list F) (srv w : F) (q : eqs) : option eqs :=
  if on then
    obind (nth_error (q_mat q) (q_row q)) (fun row =>
    if andb (Nat.ltb (q_row q) (length (q_srv q))) (Nat.ltb (q_row q) (length (q_we q))) then
      obind (fill_row (c_links c) (s_sw s) (s_jofs s) jrow (s_vel s) row srv) (fun r =>
      Some (Eqs (set_nth (q_row q) (fst r) (q_mat q)) (set_nth (q_row q) (snd r) (q_srv q)) (set_nth (q_row q) w (q_we q)) (S (q_row q))))
    else None)
  else Some q.
(** zVec3DWSqrNorm *)
Definition v3wsqr (v w : vec3 F) : F := vx w * (vx v * vx v) + vy w * (vy v * vy v) + vz w * (vz v * vz v).
(** One turn of the loop in rkIKEq, rk_ik.c 275-285. *)
Definition eq_cell (c : ch) (s : solver) (ce : cell) (q : eqs) (ev : F) : option (cell * eqs * F) :=
  let w := a_w (ce_attr ce) in
  if mode_off (ce_mode ce) then Some (ce, q, ev)
  else
    obind (cell_cmat c ce (repeat v3zero (chain_joint_size c))) (fun jm =>
    obind (cell_err c ce) (fun srv =>
    let e := v3wsqr srv w in
    let ce := ce_set_eval (x_sqrt e) ce in
    let r := if m_force (ce_mode ce) then cell_acm ce srv else (ce, srv) in
    let srv := snd r in
    obind (cell_eq c s (m_x (ce_mode ce)) (map (fun v => vx v) jm) (vx srv) (vx w) q) (fun q =>
    obind (cell_eq c s (m_y (ce_mode ce)) (map (fun v => vy v) jm) (vy srv) (vy w) q) (fun q =>
    obind (cell_eq c s (m_z (ce_mode ce)) (map (fun v => vz v) jm) (vz srv) (vz w) q) (fun q =>
    Some (fst r, q, ev + e)))))).
Fixpoint eq_cells (c : ch) (s : solver) (l : list (nat * cell)) (q : eqs) (ev : F) : option (list (nat * cell) * eqs * F) :=
  match l with
  | [] => Some ([], q, ev)
  | x :: t => obind (eq_cell c s (snd x) q ev) (fun r =>
              obind (eq_cells c s t (snd (fst r)) (snd r)) (fun r' =>
              Some ((fst x, fst (fst r)) :: fst (fst r'), snd (fst r'), snd r')))
  end.
(** rkIKEq, rk_ik.c 268-292. *)
Definition ik_eq (c : ch) (s : solver) : option solver :=
  option_map (fun r => IK (s_sw s) (s_weight s) (s_vel s) (x_sqrt (snd r)) (fst (fst r)) (s_jidx s) (s_jofs s) (s_jvel s) (s_wn s)
                          (q_mat (snd (fst r))) (q_srv (snd (fst r))) (q_we (snd (fst r))) (q_row (snd (fst r))))
    (eq_cells c s (s_cells s) (Eqs (s_cmat s) (s_csrv s) (s_cwe s) 0) 0).

(** ** Joint velocities *)
Definition vscale (k : F) (v : list F) : list F := map (nmul k) v.
Fixpoint vadd (a b : list F) : list F := match a, b with x :: a', y :: b' => (x + y) :: vadd a' b' | _, _ => [] end.
Fixpoint vamp (a b : list F) : list F := match a, b with x :: a', y :: b' => (x * y) :: vamp a' b' | _, _ => [] end.   (* zVecAmpNC *)
(** zMulMatTVecNC: transposed matrix (with [n] columns) times vector. *)
Fixpoint mat_t_vec (n : nat) (m : list (list F)) (v : list F) : list F :=
  match m, v with r :: m', x :: v' => vadd (vscale x r) (mat_t_vec n m' v') | _, _ => zeros n end.
Definition column (m : list (list F)) (j : nat) : list F := map (fun r => nth j r 0) m.
(** zMatTQuadNC: m^T diag(w) m. *)
Definition mat_t_quad (n : nat) (m : list (list F)) (w : list F) : list (list F) :=
  map (fun j => mat_t_vec n m (vamp w (column m j))) (seq 0 n).
Fixpoint add_diag (i : nat) (m : list (list F)) (d : list F) : list (list F) :=
  match m, d with r :: m', x :: d' => set_nth i (nth i r 0 + x) r :: add_diag (S i) m' d' | _, _ => m end.
(** The linear equation set up by rkIKJointVelAD, rk_ik.c 315-320. *)
Definition ad_matrix (j : list (list F)) (srv we wn : list F) : list (list F) :=
  add_diag 0 (mat_t_quad (length wn) j we) (map (fun x => x + dot srv (vamp srv we)) wn).
Definition ad_vector (j : list (list F)) (srv we wn : list F) : list F := mat_t_vec (length wn) j (vamp srv we).
(** rkIKJointVelAD, rk_ik.c 310-323 (the default method; MP and SR are not modelled).  When the equation
    is singular the solver leaves its result as it was. *)
Definition joint_vel_ad (s : solver) : solver :=
  let j := firstn (s_rows s) (s_cmat s) in
  let srv := firstn (s_rows s) (s_csrv s) in
  let we := firstn (s_rows s) (s_cwe s) in
  match x_le (ad_matrix j srv we (s_wn s)) (ad_vector j srv we (s_wn s)) with
  | Some x => s_set_jvel x s
  | None => s
  end.
(** The loop of rkIKSolveRate, rk_ik.c 333-337. *)
Fixpoint scatter (h : list lk) (idx : list nat) (x vel : list F) : option (list F) :=
  match idx with
  | [] => Some vel
  | k :: t => obind (nth_error h k) (fun l =>
              let n := joint_size (l_joint l) in
              obind (take_at 0 n x) (fun a =>
              match a with
              | [] => scatter h t x vel
              | _ => obind (l_offset l) (fun o => obind (write_at o a vel) (fun vel => scatter h t (skipn n x) vel))
              end))
  end.
(** rkIKSolveRate, rk_ik.c 326-339. *)
Definition ik_solve_rate (c : ch) (s : solver) : option solver :=
  obind (ik_eq c s) (fun s =>
  let s := joint_vel_ad s in
  obind (s_jidx s) (fun idx =>
  option_map (fun v => s_set_vel v s) (scatter (c_links c) idx (s_jvel s) (s_vel s)))).
(** rkIKSolveOne, rk_ik.c 342-350: solver, chain and [dis] afterwards. *)
Definition ik_solve_one (c : ch) (s : solver) (dis : list F) (dt : F) : option (ch * solver * list F) :=
  obind (ik_solve_rate c s) (fun s =>
  obind (chain_cat_joint_dis_all c dis dt (s_vel s)) (fun dis =>
  obind (chain_set_joint_dis_all c dis) (fun c =>
  obind (chain_get_joint_dis_all c dis) (fun dis =>
  obind (chain_update_fk c) (fun c => Some (c, s, dis)))))).
(** The loop of rkIKSolve, rk_ik.c 361-366: [k] iterations left, iteration [i]; [rest = None] is HUGE_VAL.
    The last component is the return value, [None] is -1. *)
Fixpoint solve_loop (tol : F) (k i : nat) (rest : option F) (c : ch) (s : solver) (dis : list F) : option (ch * solver * list F * option nat) :=
  match k with
  | O => Some (c, s, dis, None)
  | S k => obind (ik_solve_one c s dis 1) (fun r =>
           let ev := s_eval (snd (fst r)) in
           if match rest with Some e => ntiny tol (ev - e) | None => false end
           then Some (r, Some i)
           else solve_loop tol k (S i) (Some ev) (fst (fst r)) (snd (fst r)) (snd r))
  end.
(** rkIKSolve, rk_ik.c 353-368; ZITERINIT replaces 0 by the default number of iterations. *)
Definition ik_solve (c : ch) (s : solver) (dis : list F) (tol : F) (iter : nat) : option (ch * solver * list F * option nat) :=
  obind (chain_get_joint_dis_all c dis) (fun dis =>
  solve_loop tol (if Nat.eqb iter 0 then x_maxiter else iter) 0 None c (ik_acm_zero s) dis).

(** ** Impedance, rk_ik_imp.c *)
(** rkIKImp, rk_ik_imp.h 21-24. *)
Record imp := Imp { i_k : vec3 F; i_c : vec3 F }.
Definition v3amp (a b : vec3 F) : vec3 F := V3 (vx a * vx b) (vy a * vy b) (vz a * vz b).
(** _rkIKImpSRV, rk_ik_imp.c 13-22. *)
Definition imp_srv (err v : vec3 F) (p : imp) : vec3 F := v3add (v3sub (v3amp err (i_k p)) (v3amp v (i_c p))) v.
(** rkIKImpWldAtt 25-35, rkIKImpWldPos 38-49, rkIKImpWldCOM 52-60. *)
Definition imp_wld_att (c : ch) (a : cattr) (p : imp) (ref : mat3 F) : option (vec3 F) :=
  obind (nth_error (c_links c) (a_id a)) (fun l =>
  Some (imp_srv (x_m3err ref (fatt (l_frame l))) (m3v (fatt (l_frame l)) (vang (l_vel l))) p)).
Definition imp_wld_pos (c : ch) (a : cattr) (p : imp) (ref : vec3 F) : option (vec3 F) :=
  obind (nth_error (c_links c) (a_id a)) (fun l =>
  Some (imp_srv (v3sub ref (xform (l_frame l) (a_ap a))) (m3v (fatt (l_frame l)) (link_point_vel l (a_ap a))) p)).
Definition imp_wld_com (c : ch) (p : imp) (ref : vec3 F) : vec3 F := imp_srv (v3sub ref (c_wcom c)) (c_comvel c) p.

(** ** Sequences, rk_ik_seq.c *)
(** rkIKEntry and rkIKSeqCell, rk_ik_seq.h 15-26. *)
Record entry := Entry { e_id : nat; e_w : vec3 F; e_val : vec3 F }.
Record seqcell := SeqCell { sq_dt : F; sq_entries : list entry }.
(** rkIKSeqCellSet, rk_ik_seq.c 10-25. *)
Definition seq_entry (s : solver) (e : entry) : solver :=
  match find_cell (s_cells s) (e_id e) with
  | None => s
  | Some a => on_cell (fun ce => cell_set_ref (e_val e) (ce_set_w (e_w e) ce)) s a
  end.
Definition seq_set (s : solver) (q : seqcell) : solver := fold_left seq_entry (sq_entries q) s.
End IK.
Arguments cattr : clear implicits. Arguments cell : clear implicits. Arguments solver : clear implicits.
Arguments entry : clear implicits. Arguments seqcell : clear implicits. Arguments imp : clear implicits. Arguments eqs : clear implicits.
