(** * Jacobi_Model: basic Jacobian matrices, /repo/src/rk_jacobi.c.
    A 3 x n matrix is the list of its n columns; zMatSetElemNC / zMatElemNC do not check indices, so an
    access outside the matrix is [None]. *)
From Coq Require Import List Arith.
From Verif Require Import Num Vec Motor_Model Joint_Model Body_Model Tree Link_Model.
Import ListNotations.

Section Jacobi.
Context {F : Type} {N : Num F} {E : Ext F}.
Local Open Scope num_scope.
Notation link := (link F).
Notation chain := (chain F).
Notation jac := (list (vec3 F)).

(** The four column operations, rk_jacobi.c 14-36. *)
Definition op_set (old s : vec3 F) : vec3 F := s.
Definition op_add (old s : vec3 F) : vec3 F := v3add old s.
Definition op_sub (old s : vec3 F) : vec3 F := v3sub old s.
Definition op_cat (k : F) (old s : vec3 F) : vec3 F := v3cat old k s.
Definition col_upd (op : vec3 F -> vec3 F -> vec3 F) (k : option nat) (s : vec3 F) (m : jac) : option jac :=
  obind k (fun k => obind (nth_error m k) (fun old => Some (set_nth k (op old s) m))).
(** Column rkLinkOffset(l)+i; the offset of a link without degree of freedom is -1. *)
Definition col_index (o : option nat) (i : nat) : option nat :=
  match o with Some k => Some (k + i)%nat | None => match i with O => None | S i' => Some i' end end.
(** The loop over the components of one joint, 38-44 and 60-66; [axes] lists for each component the
    vector computed for it, [None] when there is none. *)
Fixpoint cols (op : vec3 F -> vec3 F -> vec3 F) (o : option nat) (i : nat) (axes : list (option (vec3 F))) (m : jac) : option jac :=
  match axes with
  | [] => Some m
  | None :: t => cols op o (S i) t m
  | Some s :: t => obind (col_upd op (col_index o i) s m) (cols op o (S i) t)
  end.
(** _rkJacobiLinCol, 46-58, for every component. *)
Fixpoint lin_col (la aa : list (option (vec3 F))) (dp : vec3 F) : list (option (vec3 F)) :=
  match la, aa with
  | l :: la', a :: aa' =>
    match l, a with
    | Some s, _ => Some s
    | None, Some t => Some (v3cross t dp)
    | None, None => None
    end :: lin_col la' aa' dp
  | _, _ => []
  end.
Definition link_lin_col (l : link) (p : vec3 F) : list (option (vec3 F)) :=
  lin_col (joint_lin_axes (l_joint l) (l_frame l)) (joint_ang_axes (l_joint l) (l_frame l)) (v3sub p (fpos (l_frame l))).
Definition ang_cols (op : vec3 F -> vec3 F -> vec3 F) (l : link) (m : jac) : option jac :=
  cols op (l_offset l) 0 (joint_ang_axes (l_joint l) (l_frame l)) m.
Definition lin_cols (op : vec3 F -> vec3 F -> vec3 F) (p : vec3 F) (l : link) (m : jac) : option jac :=
  cols op (l_offset l) 0 (link_lin_col l p) m.

(** [for( l=rkChainLink(c,id); ; l=rkLinkParent(l) ){ body; if( l == rkChainRoot(c) ) break; }] *)
Fixpoint walk_root (body : link -> jac -> option jac) (fuel : nat) (h : list link) (i : nat) (m : jac) : option jac :=
  match fuel with
  | O => None
  | S k => obind (nth_error h i) (fun l =>
           obind (body l m) (fun m =>
           if Nat.eqb i 0 then Some m else obind (l_parent l) (fun q => walk_root body k h q m)))
  end.
(** [for( l=rkChainLink(c,id); l!=rkChainRoot(c); l=rkLinkParent(l) ){ if( l == rkChainLink(c,stop) ) return; body; }];
    the flag tells whether the function returned inside the loop. *)
Fixpoint walk_stop (body : link -> jac -> option jac) (stop : option nat) (fuel : nat) (h : list link) (i : nat) (m : jac) : option (jac * bool) :=
  match fuel with
  | O => None
  | S k =>
    if Nat.eqb i 0 then Some (m, false)
    else if match stop with Some s => Nat.eqb i s | None => false end then Some (m, true)
    else obind (nth_error h i) (fun l =>
         obind (body l m) (fun m => obind (l_parent l) (fun q => walk_stop body stop k h q m)))
  end.
(** [for( l=...; ; l=rkLinkParent(l) ){ if( l == rkChainLink(c,stop) ) return; body; if( l == rkChainRoot(c) ) break; }] *)
Fixpoint walk_root_stop (body : link -> jac -> option jac) (stop : nat) (fuel : nat) (h : list link) (i : nat) (m : jac) : option (jac * bool) :=
  match fuel with
  | O => None
  | S k =>
    if Nat.eqb i stop then Some (m, true)
    else obind (nth_error h i) (fun l =>
         obind (body l m) (fun m =>
         if Nat.eqb i 0 then Some (m, false) else obind (l_parent l) (fun q => walk_root_stop body stop k h q m)))
  end.

(** C [x == 0]. *)
Definition nzerob (x : F) : bool := andb (x <=? 0) (0 <=? x).
(** zMatZero *)
Definition jzero (m : jac) : jac := map (fun _ => v3zero) m.
(** rkChainLinkWldAngJacobi, 69-80. *)
Definition wld_ang_jacobi (c : chain) (id : nat) (m : jac) : option jac :=
  walk_root (ang_cols op_set) (c_fuel c) (c_links c) id (jzero m).
(** rkChainLinkWldLinJacobi, 83-95. *)
Definition wld_lin_jacobi (c : chain) (id : nat) (p : vec3 F) (m : jac) : option jac :=
  obind (nth_error (c_links c) id) (fun l =>
  walk_root (lin_cols op_set (xform (l_frame l) p)) (c_fuel c) (c_links c) id (jzero m)).
(** rkChainLinkToLinkAngJacobi, 99-112. *)
Definition link_to_link_ang_jacobi (c : chain) (from to : nat) (m : jac) : option jac :=
  obind (walk_stop (ang_cols op_set) (Some from) (c_fuel c) (c_links c) to (jzero m)) (fun r =>
  if snd r then Some (fst r)
  else option_map fst (walk_stop (ang_cols op_sub) None (c_fuel c) (c_links c) from (fst r))).
(** rkChainLinkToLinkLinJacobi, 116-133. *)
Definition link_to_link_lin_jacobi (c : chain) (from to : nat) (p : vec3 F) (m : jac) : option jac :=
  obind (nth_error (c_links c) to) (fun lt =>
  let tp := xform (l_frame lt) p in
  obind (walk_root_stop (lin_cols op_set tp) from (c_fuel c) (c_links c) to (jzero m)) (fun r =>
  if snd r then Some (fst r)
  else walk_root (lin_cols op_sub tp) (c_fuel c) (c_links c) from (fst r))).
(** rkChainCOMJacobi, 136-153. *)
Fixpoint com_jacobi_loop (c : chain) (i : nat) (h : list link) (m : jac) : option jac :=
  match h with
  | [] => Some m
  | l :: t =>
    obind (if nzerob (l_mass l) then Some m
           else walk_root (lin_cols (op_cat (l_mass l / c_mass c)) (b_wcom (l_body l))) (c_fuel c) (c_links c) i m)
          (com_jacobi_loop c (S i) t)
  end.
Definition com_jacobi (c : chain) (m : jac) : option jac := com_jacobi_loop c 0 (c_links c) (jzero m).
(** _rkChainLinkAMJacobi, 157-180. *)
Fixpoint am_cols (iw : mat3 F) (mass : F) (dp : vec3 F) (o : option nat) (i : nat) (aa la : list (option (vec3 F))) (m : jac) : option jac :=
  match aa, la with
  | a :: aa', l :: la' =>
    obind (match a with Some s => col_upd op_add (col_index o i) (m3v iw s) m | None => Some m end) (fun m =>
    obind (match l with Some s => col_upd (op_cat mass) (col_index o i) (v3cross dp s) m | None => Some m end)
    (am_cols iw mass dp o (S i) aa' la'))
  | _, _ => Some m
  end.
Definition link_am_body (li : link) (p : vec3 F) (l : link) (m : jac) : option jac :=
  am_cols (link_wld_inertia li) (l_mass li) (v3sub (b_wcom (l_body li)) p) (l_offset l) 0
    (joint_ang_axes (l_joint l) (l_frame l)) (link_lin_col l (b_wcom (l_body li))) m.
Definition link_am_jacobi' (c : chain) (id : nat) (p : vec3 F) (m : jac) : option jac :=
  obind (nth_error (c_links c) id) (fun li => walk_root (link_am_body li p) (c_fuel c) (c_links c) id m).
(** rkChainLinkAMJacobi, 183-187. *)
Definition link_am_jacobi (c : chain) (id : nat) (p : vec3 F) (m : jac) : option jac := link_am_jacobi' c id p (jzero m).
(** rkChainAMJacobi, 190-198. *)
Fixpoint am_jacobi_loop (c : chain) (i n : nat) (p : vec3 F) (m : jac) : option jac :=
  match n with
  | O => Some m
  | S k => obind (link_am_jacobi' c i p m) (am_jacobi_loop c (S i) k p)
  end.
Definition am_jacobi (c : chain) (p : vec3 F) (m : jac) : option jac :=
  am_jacobi_loop c 0 (List.length (c_links c)) p (jzero m).
(** rkChainAMCOMJacobi, 201-204. *)
Definition am_com_jacobi (c : chain) (m : jac) : option jac := am_jacobi c (c_wcom c) m.
End Jacobi.
