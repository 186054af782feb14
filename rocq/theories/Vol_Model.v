(** * Vol_Model: collision volumes of the collision detector, /repo/src/rk_cd.c 577-787.

    Extends CD_Model, where the volume computations only succeed or fail, by what they write to a pair: its normal vector, its
    contact axes, the collision volume and its center (rkCDPairDat, /repo/include/roki/rk_cd.h 78-91).

    B-Reps, truncation, intersection, convex hulls and barycenters belong to ZEO (class [VolExt]).  A face of a B-Rep is given by
    its three vertices.  Allocation succeeds, so that zPH3D2BREP and zPH3D2BREPInBox do.  [None] is undefined behaviour.
    The collision volume of a pair is overwritten without being destroyed (a leak, not modelled). *)
From Coq Require Import Bool List Arith.
From Verif Require Import Num Vec CD_Model.
Import ListNotations.

Definition tri (F : Type) : Type := vec3 F * vec3 F * vec3 F.
(** zPH3D2BREP or zPH3D2BREPInBox followed by zBREPTruncPH3D: the vertices and the faces left in the B-Rep of the first
    polyhedron after truncation by the second one ([None]: it fails); zIntersectPH3DBox; zCH3DPL; zPH3DBarycenter; zIntersectPH3D. *)
Class VolExt (F : Type) := mkVolExt {
  x_cut : volkind -> ph F -> ph F -> option (list (vec3 F) * list (tri F));
  x_isbox : ph F -> ph F -> bool;
  x_hull : list (vec3 F) -> ph F;
  x_bary : ph F -> vec3 F;
  x_isect : ph F -> ph F -> option (ph F) }.

Section Vol.
Context {F BX AB : Type} {N : Num F} {X : CDExt F BX AB} {V : VolExt F}.
Local Open Scope num_scope.

(** Part of rkCDPairDat, rk_cd.h 81-86. *)
Record vdat := VDat { n_norm : vec3 F; n_axis : tri F; n_center : vec3 F; n_vol : ph F }.

(** _rkCDIntegrationNormBREP, 606-629. *)
Definition face_prod (t : tri F) : vec3 F := let '(a, b, c) := t in v3cross (v3sub b a) (v3sub c a).
Definition int_norm (f1 f2 : list (tri F)) : vec3 F :=
  let n := fold_left (fun n t => v3sub n (face_prod t)) f1 v3zero in
  let n := fold_left (fun n t => v3add n (face_prod t)) f2 n in
  if x_vtiny n then V3 0 0 1 else x_unit n.
(** _rkCDColVolError, 646-660. *)
Definition vol_error (p : ph F) : bool :=
  let n := length (vts p) in
  existsb (fun '(i, j, k) => (n <? i) || (n <? j) || (n <? k))%nat (fcs p).
(** The axes, 689-690. *)
Definition axes (n : vec3 F) : tri F := (n, fst (x_ortho n), snd (x_ortho n)).

(** _rkCDPairColVolBREP, 662-697. *)
Definition pair_brep (a b : ph F) (d : vdat) : bool * vdat :=
  match x_cut VolBREP a b, x_cut VolBREP b a with
  | Some (v1, f1), Some (v2, f2) =>
    match v1 ++ v2 with
    | [] => (false, d)
    | vs =>
      let n := int_norm f1 f2 in
      let h := x_hull vs in
      if ((length (vts h) <? 4) || (length (fcs h) <? 4))%nat || vol_error h then (false, VDat n (n_axis d) (n_center d) (PH [] []))
      else (true, VDat n (axes n) (x_bary h) h)
    end
  | _, _ => (false, d)
  end.
(** The body of the loop in _rkCDColVolBREPFast, 713-748: when zIntersectPH3DBox fails, zBREPDestroy is applied to B-Reps that
    were not initialised. *)
Definition pair_fast (a b : ph F) (d : vdat) : option (bool * vdat) :=
  if negb (x_isbox a b) then None else
  Some (match x_cut VolBREPFast a b, x_cut VolBREPFast b a with
  | Some (v1, f1), Some (v2, f2) =>
    match v1 ++ v2 with
    | [] => (false, d)
    | vs => let n := int_norm f1 f2 in let h := x_hull vs in (true, VDat n (axes n) (x_bary h) h)
    end
  | _, _ => (false, d)
  end).
(** The body of the loop in _rkCDColVol, 577-598. *)
Definition pair_isect (a b : ph F) (d : vdat) : bool * vdat :=
  match x_isect a b with
  | None => (false, d)
  | Some h => (true, VDat (n_norm d) (axes (n_norm d)) (x_bary h) h)
  end.
Definition pair_vol (k : volkind) (a b : ph F) (d : vdat) : option (bool * vdat) :=
  match k with
  | VolMP => Some (pair_isect a b d)
  | VolBREP => Some (pair_brep a b d)
  | VolBREPFast => pair_fast a b d
  end.

(** The loops, 577-598, 699-711, 713-748.  [ds]: the data of the pairs, in the same order. *)
Definition step_data (k : volkind) (w : nat -> frame F) (cs : list (cell F BX AB)) (p : pair F) (d : vdat) : option (list (cell F BX AB) * pair F * vdat * nat) :=
  if p_col p then
    match upd2 (upd_ph w) cs p with
    | None => None
    | Some cs' =>
      match get2 cs' p with
      | None => None
      | Some (a, b) => match pair_vol k (k_ph a) (k_ph b) d with
                       | None => None
                       | Some (true, d') => Some (cs', p, d', 1%nat)
                       | Some (false, d') => Some (cs', set_col false p, d', 0%nat)
                       end
      end
    end
  else Some (cs, p, d, 0%nat).
Fixpoint vloop (f : list (cell F BX AB) -> pair F -> vdat -> option (list (cell F BX AB) * pair F * vdat * nat)) (cs : list (cell F BX AB)) (ps : list (pair F)) (ds : list vdat)
  : option (list (cell F BX AB) * list (pair F) * list vdat * nat) :=
  match ps, ds with
  | p :: ps', d :: ds' =>
    match f cs p d with
    | None => None
    | Some (cs1, p1, d1, n1) =>
      match vloop f cs1 ps' ds' with
      | None => None
      | Some (cs2, ps2, ds2, n2) => Some (cs2, p1 :: ps2, d1 :: ds2, (n1 + n2)%nat)
      end
    end
  | _, _ => Some (cs, [], [], 0%nat)
  end.
Definition vrun f (s1 : cd F BX AB) (ds : list vdat) : option (cd F BX AB * list vdat) :=
  match vloop f (d_cells s1) (d_pairs s1) ds with
  | None => None
  | Some (cs, ps, ds', n) => Some (CD cs ps n, ds')
  end.
(** rkCDColVol 600-604, rkCDColVolBREP 750-754, rkCDColVolBREPFast 756-760. *)
Definition col_vol (k : volkind) (w : nat -> frame F) (s : cd F BX AB) (ds : list vdat) : option (cd F BX AB * list vdat) :=
  obind (chk_obb w s) (fun s1 => vrun (step_data k w) s1 ds).

(** _rkCDColVolBREPVert, 762-781, and rkCDColVolBREPVert, 783-787.  [rigid]: whether the contact information of the pair of these two
    cells exists and is of the rigid type.  The vertices of a rigid pair stay in its list. *)
Definition step_both (rigid : nat -> nat -> bool) (w : nat -> frame F) (cs : list (cell F BX AB)) (p : pair F) (d : vdat) : option (list (cell F BX AB) * pair F * vdat * nat) :=
  if p_col p && rigid (p_c0 p) (p_c1 p) then step_data VolBREP w cs p d
  else match step_vert w cs p with
       | None => None
       | Some (cs', p', n) => Some (cs', p', d, n)
       end.
Definition col_both (rigid : nat -> nat -> bool) (w : nat -> frame F) (s : cd F BX AB) (ds : list vdat) : option (cd F BX AB * list vdat) :=
  obind (chk_obb w s) (fun s1 => vrun (step_both rigid w) s1 ds).
End Vol.
Arguments vdat : clear implicits.
