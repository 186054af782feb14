(** * CD_Model: collision detector, /repo/src/rk_cd.c and /repo/include/roki/rk_cd.h.

    Chains, links, cells are identified by their addresses (numbers).  A polyhedron is its vertex array
    and its face array (faces as triples of vertex indices).  Bounding boxes are opaque, and so are the
    geometric tests of the ZEO library (class [CDExt]); ZEO is not part of /repo.

    Lists are kept in the order zListForEach visits them: zListInsertHead appends at the end.

    Not modelled: memory allocation failure, the contact planes [cplane], the collision volume polyhedron
    and its norm, axes and barycentre (see Vol_Model), the friction type, the "fake crawler" fields, rkCDColVolBREPVert
    (see Vol_Model), and printing.  zShape3DToPH is taken to have been applied: a shape is its polyhedron.
    [None] is undefined behaviour (a dangling cell reference, or writing beyond the end of a vertex
    array), or an allocator returning a live block. *)

From Coq Require Import Bool List Arith.
From Verif Require Import Num Vec.
Import ListNotations.

(** zPH3D: vertices and faces. *)
Record ph (F : Type) := PH { vts : list (vec3 F); fcs : list (nat * nat * nat) }.
Arguments PH {F}. Arguments vts {F}. Arguments fcs {F}.

(** The kinds of volume computation: zIntersectPH3D (577-598), the B-Rep truncation (662-711) and its
    faster variant (713-748). *)
Inductive volkind := VolMP | VolBREP | VolBREPFast.

(** ZEO functions: zOBB3D, zBox3DXform, zBox3DToAABox3D, zBox3DToPH, zColChkAABox3D, zColChkBox3D,
    zColChkPH3D, zPH3DPointIsInside (without rim), zPH3DClosest, zVec3DOrthoSpace, zVec3DIsTiny,
    zVec3DNormalizeNCDRC, and the success of the volume computations. *)
Class CDExt (F BX AB : Type) := mkCDExt {
  x_obb : list (vec3 F) -> BX;
  x_bxf : BX -> frame F -> BX;
  x_aab : BX -> AB;
  x_boxph : BX -> ph F;
  x_caab : AB -> AB -> bool;
  x_cbox : BX -> BX -> bool;
  x_cph : ph F -> ph F -> bool;
  x_inside : ph F -> vec3 F -> bool;
  x_closest : ph F -> vec3 F -> vec3 F;
  x_ortho : vec3 F -> vec3 F * vec3 F;
  x_vtiny : vec3 F -> bool;
  x_unit : vec3 F -> vec3 F;
  x_vol : volkind -> ph F -> ph F -> bool }.

(** rkCDCellType (rk_cd.h 18). *)
Inductive ctype := Stat | Move.

Section CD.
Context {F BX AB : Type} {N : Num F} {X : CDExt F BX AB}.
Local Open Scope num_scope.

(** rkCDCellDat (rk_cd.h 23-40).  [k_buf] identifies the vertex buffer of the polyhedron.
    [k_reg], the frame of the link when the cell was registered, is a ghost: nothing reads it. *)
Record cell := Cell {
  k_addr : nat; k_chain : nat; k_link : nat; k_type : ctype;
  k_shape : ph F; k_bb : BX; k_aabb : AB; k_obb : BX; k_ph : ph F; k_buf : nat;
  k_bbf : bool; k_phf : bool; k_reg : frame F }.

(** rkCDVertDat (62-79): the vertex is (cell, buffer, index); the vectors with and without underscore. *)
Record vert := Vert {
  t_cell : nat; t_buf : nat; t_idx : nat;
  t_norm : vec3 F; t_axis : vec3 F * vec3 F * vec3 F; t_pro : vec3 F; t_ref : vec3 F;
  t_lnorm : vec3 F; t_laxis : vec3 F * vec3 F * vec3 F; t_lpro : vec3 F; t_lref : vec3 F }.

(** rkCDPairDat (93-106). *)
Record pair := Pair { p_c0 : nat; p_c1 : nat; p_col : bool; p_vl : list vert }.

(** rkCD (112-117). *)
Record cd := CD { d_cells : list cell; d_pairs : list pair; d_num : nat }.

(** rkCDCreate, rk_cd.c 106-113. *)
Definition cd_create : cd := CD [] [] 0.

(** zPH3DXform: writes the transformed vertices of the source over the destination's; the faces of the
    destination refer to their vertices by position and keep doing so. *)
Definition ph_xform (src : ph F) (f : frame F) (dst : ph F) : option (ph F) :=
  if ((length (vts src) <=? length (vts dst)) && (length (fcs src) <=? length (fcs dst)))%nat
  then Some (PH (map (xform f) (vts src) ++ skipn (length (vts src)) (vts dst)) (fcs dst))
  else None.

Definition place (p : ph F) (f : frame F) : ph F := PH (map (xform f) (vts p)) (fcs p).

(** _rkCDCellCreate, 24-48 (the world polyhedron is first cloned from the shape's). *)
Definition cell_create (w : nat -> frame F) (a chain link : nat) (sh : ph F) (ty : ctype) : cell :=
  let bb := x_obb (vts sh) in
  let obb := x_bxf bb (w link) in
  Cell a chain link ty sh bb (x_aab obb) obb (place sh (w link)) 0 false false (w link).

(** rkCDCellUpdateBB, 72-79. *)
Definition cell_bb (w : nat -> frame F) (c : cell) : cell :=
  match k_type c, k_bbf c with
  | Stat, _ => c
  | _, true => c
  | Move, false =>
    let obb := x_bxf (k_bb c) (w (k_link c)) in
    Cell (k_addr c) (k_chain c) (k_link c) (k_type c) (k_shape c) (k_bb c) (x_aab obb) obb
         (k_ph c) (k_buf c) true (k_phf c) (k_reg c)
  end.

(** rkCDCellUpdatePH, 82-88. *)
Definition cell_ph (w : nat -> frame F) (c : cell) : option cell :=
  match k_type c, k_phf c with
  | Stat, _ => Some c
  | _, true => Some c
  | Move, false =>
    match ph_xform (k_shape c) (w (k_link c)) (k_ph c) with
    | None => None
    | Some p => Some (Cell (k_addr c) (k_chain c) (k_link c) (k_type c) (k_shape c) (k_bb c) (k_aabb c)
                           (k_obb c) p (k_buf c) (k_bbf c) true (k_reg c))
    end
  end.

(** The cell at an address, and an update of it. *)
Definition get_cell (cs : list cell) (a : nat) : option cell := find (fun c => k_addr c =? a)%nat cs.
Definition put_cell (cs : list cell) (c : cell) : list cell :=
  map (fun x => if (k_addr x =? k_addr c)%nat then c else x) cs.

Definition upd_bb (w : nat -> frame F) (cs : list cell) (a : nat) : option (list cell) :=
  match get_cell cs a with None => None | Some c => Some (put_cell cs (cell_bb w c)) end.
Definition upd_ph (w : nat -> frame F) (cs : list cell) (a : nat) : option (list cell) :=
  match get_cell cs a with
  | None => None
  | Some c => match cell_ph w c with None => None | Some c' => Some (put_cell cs c') end
  end.
Definition upd2 (u : list cell -> nat -> option (list cell)) (cs : list cell) (p : pair) : option (list cell) :=
  match u cs (p_c0 p) with None => None | Some cs1 => u cs1 (p_c1 p) end.
Definition get2 (cs : list cell) (p : pair) : option (cell * cell) :=
  match get_cell cs (p_c0 p), get_cell cs (p_c1 p) with
  | Some a, Some b => Some (a, b)
  | _, _ => None
  end.

(** _rkCDPairReg, 142-158. *)
Definition pair_new (a b : nat) : pair := Pair a b false [].

Definition is_stat (c : cell) : bool := match k_type c with Stat => true | Move => false end.

(** _rkCDPairCellReg, 161-180: the cells a new cell is paired with. *)
Definition pairable (c x : cell) : bool :=
  negb (is_stat x && is_stat c) &&
  negb (k_link x =? k_link c)%nat &&
  negb ((k_chain x =? k_chain c)%nat && x_caab (k_aabb x) (k_aabb c) && x_cbox (k_obb x) (k_obb c)
        && x_cph (k_ph x) (k_ph c)).
Definition pair_cell_reg (cs : list cell) (c : cell) : list pair :=
  map (fun x => pair_new (k_addr x) (k_addr c)) (filter (pairable c) cs).

(** rkCDChainReg, 306-319: the shapes of the links of the chain, each with the address the allocator
    returns for its cell. *)
Fixpoint chain_reg (w : nat -> frame F) (chain : nat) (ty : ctype) (ss : list (nat * nat * ph F)) (s : cd) : option cd :=
  match ss with
  | [] => Some s
  | (link, a, sh) :: tl =>
    match get_cell (d_cells s) a with
    | Some _ => None
    | None =>
      let c := cell_create w a chain link sh ty in
      let cs := d_cells s ++ [c] in
      let ps := if (1 <? length cs)%nat then d_pairs s ++ pair_cell_reg cs c else d_pairs s in
      chain_reg w chain ty tl (CD cs ps (d_num s))
    end
  end.

(** Does a pair join the two links, in either order (211-214, 232-235)? *)
Definition joins (l1 l2 : nat) (a b : cell) : bool :=
  ((k_link a =? l1) && (k_link b =? l2) || (k_link a =? l2) && (k_link b =? l1))%nat.

(** A test of the two cells of every pair; [None] if a pair has a dangling cell. *)
Fixpoint pairs_with (q : cell -> cell -> bool) (cs : list cell) (ps : list pair) : option (list pair) :=
  match ps with
  | [] => Some []
  | p :: tl =>
    match get2 cs p with
    | None => None
    | Some (a, b) =>
      match pairs_with q cs tl with
      | None => None
      | Some r => Some (if q a b then p :: r else r)
      end
    end
  end.

(** rkCDPairReg, 205-223. *)
Fixpoint new_pairs (l1 l2 : nat) (cs : list cell) : list pair :=
  match cs with
  | [] => []
  | a :: tl => map (fun b => pair_new (k_addr a) (k_addr b)) (filter (joins l1 l2 a) tl) ++ new_pairs l1 l2 tl
  end.
Definition pair_reg (l1 l2 : nat) (s : cd) : option cd :=
  match pairs_with (joins l1 l2) (d_cells s) (d_pairs s) with
  | None => None
  | Some (_ :: _) => Some s
  | Some [] => Some (CD (d_cells s) (d_pairs s ++ new_pairs l1 l2 (d_cells s)) (d_num s))
  end.

Definition keep (q : cell -> cell -> bool) (s : cd) : option cd :=
  match pairs_with (fun a b => negb (q a b)) (d_cells s) (d_pairs s) with
  | None => None
  | Some ps => Some (CD (d_cells s) ps (d_num s))
  end.

(** rkCDPairUnreg, 226-243. *)
Definition pair_unreg (l1 l2 : nat) : cd -> option cd := keep (joins l1 l2).
(** rkCDPairChainUnreg, 245-260. *)
Definition pair_chain_unreg (chain : nat) : cd -> option cd :=
  keep (fun a b => (k_chain a =? chain) && (k_chain b =? chain))%nat.
(** rkCDChainUnreg, 321-345. *)
Definition chain_unreg (chain : nat) (s : cd) : option cd :=
  match keep (fun a b => (k_chain a =? chain) || (k_chain b =? chain))%nat s with
  | None => None
  | Some s1 => Some (CD (filter (fun c => negb (k_chain c =? chain)%nat) (d_cells s1)) (d_pairs s1) (d_num s1))
  end.

(** rkCDReset, 183-197. *)
Definition set_col (b : bool) (p : pair) : pair := Pair (p_c0 p) (p_c1 p) b (p_vl p).
Definition set_vl (l : list vert) (p : pair) : pair := Pair (p_c0 p) (p_c1 p) (p_col p) l.
Definition cell_reset (c : cell) : cell :=
  Cell (k_addr c) (k_chain c) (k_link c) (k_type c) (k_shape c) (k_bb c) (k_aabb c) (k_obb c)
       (k_ph c) (k_buf c) false false (k_reg c).
Definition cd_reset (s : cd) : cd :=
  CD (map cell_reset (d_cells s)) (map (set_col false) (d_pairs s)) (d_num s).

(** The loops over the pairs: a step may update cells, updates the pair and counts. *)
Fixpoint ploop (f : list cell -> pair -> option (list cell * pair * nat)) (cs : list cell) (ps : list pair)
  : option (list cell * list pair * nat) :=
  match ps with
  | [] => Some (cs, [], 0%nat)
  | p :: tl =>
    match f cs p with
    | None => None
    | Some (cs1, p1, n1) =>
      match ploop f cs1 tl with
      | None => None
      | Some (cs2, tl2, n2) => Some (cs2, p1 :: tl2, (n1 + n2)%nat)
      end
    end
  end.

(** _rkCDColChkAABB, 347-358. *)
Definition step_aabb (w : nat -> frame F) (cs : list cell) (p : pair) : option (list cell * pair * nat) :=
  match upd2 (upd_bb w) cs p with
  | None => None
  | Some cs' =>
    match get2 cs' p with
    | None => None
    | Some (a, b) => Some (cs', (if x_caab (k_aabb a) (k_aabb b) then set_col true p else p), 0%nat)
    end
  end.

(** _rkCDColChkOBB, 360-368. *)
Definition step_obb (cs : list cell) (p : pair) : option (list cell * pair * nat) :=
  match get2 cs p with
  | None => None
  | Some (a, b) => Some (cs, (if p_col p && negb (x_cbox (k_obb a) (k_obb b)) then set_col false p else p), 0%nat)
  end.

(** _rkCDColChkGJK, 370-385. *)
Definition step_gjk (w : nat -> frame F) (cs : list cell) (p : pair) : option (list cell * pair * nat) :=
  if p_col p then
    match upd2 (upd_ph w) cs p with
    | None => None
    | Some cs' =>
      match get2 cs' p with
      | None => None
      | Some (a, b) => Some (cs', (if x_cph (k_ph a) (k_ph b) then p else set_col false p), 0%nat)
      end
    end
  else Some (cs, p, 0%nat).

(** rkCDColChkGJKOnly, 413-419. *)
Definition step_gjko (w : nat -> frame F) (cs : list cell) (p : pair) : option (list cell * pair * nat) :=
  match upd2 (upd_ph w) cs p with
  | None => None
  | Some cs' =>
    match get2 cs' p with
    | None => None
    | Some (a, b) => Some (cs', (if x_cph (k_ph a) (k_ph b) then set_col true p else p), 0%nat)
    end
  end.

(** _rkCDColVol 577-598, _rkCDColVolBREP with _rkCDPairColVolBREP 662-711, _rkCDColVolBREPFast 713-748. *)
Definition step_vol (k : volkind) (w : nat -> frame F) (cs : list cell) (p : pair) : option (list cell * pair * nat) :=
  if p_col p then
    match upd2 (upd_ph w) cs p with
    | None => None
    | Some cs' =>
      match get2 cs' p with
      | None => None
      | Some (a, b) => Some (if x_vol k (k_ph a) (k_ph b) then (cs', p, 1%nat) else (cs', set_col false p, 0%nat))
      end
    end
  else Some (cs, p, 0%nat).

(** zVec3DProj: projection of a vector on a direction. *)
Definition v3proj (v n : vec3 F) : vec3 F := v3scale (v3dot v n / v3sqr n) n.

Definition map3 (g : vec3 F -> vec3 F) (t : vec3 F * vec3 F * vec3 F) : vec3 F * vec3 F * vec3 F :=
  let '(a, b, c) := t in (g a, g b, g c).

(** _rkCDVertReg, 447-466: a vertex found in the previous list. *)
Definition vert_again (f1 : frame F) (c0 : cell) (i : nat) (x : vec3 F) (old : vert) : vert :=
  let y := xforminv f1 x in
  let lpro := v3add y (v3proj (v3sub (t_lpro old) y) (t_lnorm old)) in
  Vert (k_addr c0) (k_buf c0) i
       (m3v (fatt f1) (t_lnorm old)) (map3 (xform f1) (t_laxis old)) (xform f1 lpro) (xform f1 (t_lref old))
       (t_lnorm old) (t_laxis old) lpro (t_lref old).

(** _rkCDVertNorm 422-430 and _rkCDVertReg 467-482: a vertex not found in the previous list. *)
Definition vert_new (f1 : frame F) (c0 c1 : cell) (i : nat) (x : vec3 F) : option vert :=
  let pro := x_closest (k_ph c1) x in
  let d := v3sub pro x in
  if x_vtiny d then None
  else
    let n := x_unit d in
    let ax := (n, fst (x_ortho n), snd (x_ortho n)) in
    Some (Vert (k_addr c0) (k_buf c0) i n ax pro pro
               (m3tv (fatt f1) n) (map3 (xforminv f1) ax) (xforminv f1 pro) (xforminv f1 pro)).

(** Is an entry of the vertex list about the vertex i of a cell (448)? *)
Definition same_vert (c0 : cell) (i : nat) (v : vert) : bool :=
  ((t_cell v =? k_addr c0) && (t_buf v =? k_buf c0) && (t_idx v =? i))%nat.

(** _rkCDVertReg, 432-485: the entries of the list are visited in turn, the last one found counts. *)
Definition vert_reg (f1 : frame F) (old : list vert) (c0 c1 : cell) (i : nat) (x : vec3 F) : option vert :=
  match find (same_vert c0 i) (rev old) with
  | Some v => Some (vert_again f1 c0 i x v)
  | None => vert_new f1 c0 c1 i x
  end.

(** _rkCDPairColChkVert, 494-503: the vertices of the polyhedron of c0 inside that of c1. *)
Fixpoint vert_scan (f1 : frame F) (old : list vert) (c0 c1 : cell) (i : nat) (xs : list (vec3 F)) : list vert :=
  match xs with
  | [] => []
  | x :: tl =>
    match (if x_inside (k_ph c1) x then vert_reg f1 old c0 c1 i x else None) with
    | Some v => v :: vert_scan f1 old c0 c1 (S i) tl
    | None => vert_scan f1 old c0 c1 (S i) tl
    end
  end.

(** _rkCDPairColChkVert, 487-510. *)
Definition pair_verts (w : nat -> frame F) (a b : cell) (old : list vert) : list vert :=
  vert_scan (w (k_link b)) old a b 0 (vts (k_ph a)) ++ vert_scan (w (k_link a)) old b a 0 (vts (k_ph b)).
Definition set_verts (l : list vert) (p : pair) : pair :=
  Pair (p_c0 p) (p_c1 p) (match l with [] => false | _ => p_col p end) l.

(** _rkCDColChkVert, 512-528. *)
Definition step_vert (w : nat -> frame F) (cs : list cell) (p : pair) : option (list cell * pair * nat) :=
  if p_col p then
    match upd2 (upd_ph w) cs p with
    | None => None
    | Some cs' =>
      match get2 cs' p with
      | None => None
      | Some (a, b) => let l := pair_verts w a b (p_vl p) in Some (cs', set_verts l p, length l)
      end
    end
  else Some (cs, set_vl [] p, 0%nat).

(** _rkCDColChkOBBVert, 536-569: the polyhedra of both cells are destroyed and created anew from their
    boxes (545-548), so that the vertex buffers are new ones.  The count is that of the vertices inside,
    registered or not (553, 558). *)
Definition box_cell (c : cell) : cell :=
  Cell (k_addr c) (k_chain c) (k_link c) (k_type c) (k_shape c) (k_bb c) (k_aabb c) (k_obb c)
       (x_boxph (k_obb c)) (S (k_buf c)) (k_bbf c) (k_phf c) (k_reg c).
Definition upd_box (cs : list cell) (a : nat) : option (list cell) :=
  match get_cell cs a with None => None | Some c => Some (put_cell cs (box_cell c)) end.
Definition inside_num (a b : cell) : nat := length (filter (x_inside (k_ph b)) (vts (k_ph a))).
Definition step_obbvert (w : nat -> frame F) (cs : list cell) (p : pair) : option (list cell * pair * nat) :=
  if p_col p then
    match upd2 upd_box cs p with
    | None => None
    | Some cs' =>
      match get2 cs' p with
      | None => None
      | Some (a, b) =>
        Some (cs', set_verts (pair_verts w a b (p_vl p)) p, (inside_num a b + inside_num b a)%nat)
      end
    end
  else Some (cs, set_vl [] p, 0%nat).

(** The checks: rkCDColChkAABB 387-392, OBB 394-398, GJK 400-404, GJKOnly 406-420, Vert 530-534,
    OBBVert 571-575, rkCDColVol 600-604, ColVolBREP 750-754, ColVolBREPFast 756-760. *)
Inductive check := CkAABB | CkOBB | CkGJK | CkGJKOnly | CkVert | CkOBBVert | CkVol (k : volkind).

Definition run_loop (counts : bool) (f : list cell -> pair -> option (list cell * pair * nat)) (s : cd) : option cd :=
  match ploop f (d_cells s) (d_pairs s) with
  | None => None
  | Some (cs, ps, n) => Some (CD cs ps (if counts then n else d_num s))
  end.

Definition obind {A B} (o : option A) (f : A -> option B) : option B :=
  match o with None => None | Some a => f a end.

Definition chk_aabb (w : nat -> frame F) (s : cd) : option cd :=
  match d_pairs s with
  | [] => Some s
  | _ => run_loop false (step_aabb w) (cd_reset s)
  end.
Definition chk_obb (w : nat -> frame F) (s : cd) : option cd :=
  obind (chk_aabb w s) (run_loop false step_obb).
Definition do_check (w : nat -> frame F) (k : check) (s : cd) : option cd :=
  match k with
  | CkAABB => chk_aabb w s
  | CkOBB => chk_obb w s
  | CkGJK => obind (chk_obb w s) (run_loop false (step_gjk w))
  | CkGJKOnly => match d_pairs s with [] => Some s | _ => run_loop false (step_gjko w) (cd_reset s) end
  | CkVert => obind (chk_obb w s) (run_loop true (step_vert w))
  | CkOBBVert => obind (chk_obb w s) (run_loop true (step_obbvert w))
  | CkVol v => obind (chk_obb w s) (run_loop true (step_vol v w))
  end.

(** Calls of the API. *)
Inductive op :=
| ChainReg (chain : nat) (ty : ctype) (ss : list (nat * nat * ph F))
| ChainUnreg (chain : nat)
| PairReg (l1 l2 : nat)
| PairUnreg (l1 l2 : nat)
| PairChainUnreg (chain : nat)
| Check (k : check).

Definition run_op (w : nat -> frame F) (o : op) (s : cd) : option cd :=
  match o with
  | ChainReg c ty ss => chain_reg w c ty ss s
  | ChainUnreg c => chain_unreg c s
  | PairReg a b => pair_reg a b s
  | PairUnreg a b => pair_unreg a b s
  | PairChainUnreg c => pair_chain_unreg c s
  | Check k => do_check w k s
  end.

(** A history: calls, each with the link frames at its time. *)
Fixpoint run (h : list ((nat -> frame F) * op)) (s : cd) : option cd :=
  match h with
  | [] => Some s
  | (w, o) :: tl => obind (run_op w o s) (run tl)
  end.
End CD.

Arguments cell : clear implicits. Arguments vert : clear implicits. Arguments pair : clear implicits.
Arguments cd : clear implicits. Arguments op : clear implicits.
