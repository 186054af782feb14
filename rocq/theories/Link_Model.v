(** * Link_Model: links, link trees and kinematic chains (rk_link.c, rk_chain.c). *)

From Coq Require Import List String ZArith.
From Verif Require Import Num Vec Motor_Model Joint_Model Body_Model Tree.
Import ListNotations.
Set Implicit Arguments.

Section Link.
Context {F : Type} {N : Num F} {E : Ext F}.
Local Open Scope num_scope.

(** rkLink, rk_link.h 37-57.  [l_offset = None] is offset -1.  References are indices into the link
    array, NULL is [None].  The ABI working memory is in ABI_Model; _util is not modelled. *)
Record link := Link {
  l_name : string; l_joint : joint F; l_body : body F; l_offset : option nat;
  l_org : frame F; l_adj : frame F; l_wrench : vec6 F;
  l_parent : option nat; l_child : option nat; l_sibl : option nat }.

Definition l_set_joint (j : joint F) (l : link) := Link (l_name l) j (l_body l) (l_offset l) (l_org l) (l_adj l) (l_wrench l) (l_parent l) (l_child l) (l_sibl l).
Definition l_set_body (b : body F) (l : link) := Link (l_name l) (l_joint l) b (l_offset l) (l_org l) (l_adj l) (l_wrench l) (l_parent l) (l_child l) (l_sibl l).
Definition l_set_offset (o : option nat) (l : link) := Link (l_name l) (l_joint l) (l_body l) o (l_org l) (l_adj l) (l_wrench l) (l_parent l) (l_child l) (l_sibl l).
Definition l_set_adj (f : frame F) (l : link) := Link (l_name l) (l_joint l) (l_body l) (l_offset l) (l_org l) f (l_wrench l) (l_parent l) (l_child l) (l_sibl l).
Definition l_set_wrench (w : vec6 F) (l : link) := Link (l_name l) (l_joint l) (l_body l) (l_offset l) (l_org l) (l_adj l) w (l_parent l) (l_child l) (l_sibl l).
Definition l_set_parent (p : option nat) (l : link) := Link (l_name l) (l_joint l) (l_body l) (l_offset l) (l_org l) (l_adj l) (l_wrench l) p (l_child l) (l_sibl l).
Definition l_set_child (p : option nat) (l : link) := Link (l_name l) (l_joint l) (l_body l) (l_offset l) (l_org l) (l_adj l) (l_wrench l) (l_parent l) p (l_sibl l).
Definition l_set_sibl (p : option nat) (l : link) := Link (l_name l) (l_joint l) (l_body l) (l_offset l) (l_org l) (l_adj l) (l_wrench l) (l_parent l) (l_child l) p.

Definition l_frame (l : link) : frame F := b_frame (l_body l).   (* rkLinkWldFrame *)
Definition l_vel (l : link) : vec6 F := b_vel (l_body l).        (* rkLinkVel *)
Definition l_acc (l : link) : vec6 F := b_acc (l_body l).        (* rkLinkAcc *)
Definition l_mass (l : link) : F := mp_mass (b_mp (l_body l)).   (* rkLinkMass *)
Definition l_com (l : link) : vec3 F := mp_com (b_mp (l_body l)). (* rkLinkCOM *)

Definition b_set_vel (v : vec6 F) (b : body F) : body F :=
  Body (b_mp b) (b_frame b) v (b_acc b) (b_wcom b) (b_comvel b) (b_comacc b) (b_extw b) (b_shapes b) (b_stuff b).
Definition b_set_acc (a : vec6 F) (b : body F) : body F :=
  Body (b_mp b) (b_frame b) (b_vel b) a (b_wcom b) (b_comvel b) (b_comacc b) (b_extw b) (b_shapes b) (b_stuff b).

(** rkLinkInit, rk_link.c 15-31, followed by rkJointAssign with joint [j]. *)
Definition link_new (name : string) (j : joint F) : link :=
  Link name j body_init None fid fid v6zero None None None.

Definition lset (i : nat) (l : link) (h : list link) : list link := set_nth i l h.

(** rkLinkAddSibl, rk_link.c 79-83: walk to the last sibling of [i], link [b] there.  [None] when a
    reference leaves the array or the walk never ends. *)
Fixpoint add_sibl (fuel : nat) (h : list link) (i b : nat) : option (list link) :=
  match fuel with
  | O => None
  | S k => match nth_error h i with
           | None => None
           | Some l => match l_sibl l with
                       | Some s => add_sibl k h s b
                       | None => Some (lset i (l_set_sibl (Some b) l) h)
                       end
           end
  end.
(** rkLinkAddChild, rk_link.c 86-91. *)
Definition add_child (h : list link) (i c : nat) : option (list link) :=
  match nth_error h c with
  | None => None
  | Some lc =>
    let h1 := lset c (l_set_parent (Some i) lc) h in
    match nth_error h1 i with
    | None => None
    | Some l => match l_child l with
                | None => Some (lset i (l_set_child (Some c) l) h1)
                | Some f => add_sibl (List.length h) h1 f c
                end
    end
  end.
(** A sequence of rkLinkAddChild calls (parent, child). *)
Fixpoint add_children (h : list link) (ops : list (nat * nat)) : option (list link) :=
  match ops with
  | [] => Some h
  | (i, c) :: ops' => obind (add_child h i c) (fun h' => add_children h' ops')
  end.

(** rkLinkPointVel, rk_link.c 94-98. *)
Definition link_point_vel (l : link) (p : vec3 F) : vec3 F := v3add (v3cross (vang (l_vel l)) p) (vlin (l_vel l)).
(** rkLinkPointAcc, rk_link.c 101-109. *)
Definition link_point_acc (l : link) (p : vec3 F) : vec3 F :=
  v3add (v3add (v3triple (vang (l_vel l)) (vang (l_vel l)) p) (v3cross (vang (l_acc l)) p)) (vlin (l_acc l)).
(** rkLinkWldInertia, rk_link.c 112-115. *)
Definition link_wld_inertia (l : link) : mat3 F := m3rot (fatt (l_frame l)) (mp_inertia (b_mp (l_body l))).

(** Non-recursive part of rkLinkUpdateFrame, rk_link.c 120-122. *)
Definition upd_frame (l : link) (pwf : frame F) : link :=
  let adj := joint_xform (l_joint l) (l_org l) in
  l_set_body (body_update_com (body_set_frame (l_body l) (fcascade pwf adj))) (l_set_adj adj l).
(** _rkLinkUpdateVel, rk_link.c 130-138. *)
Definition upd_vel (l : link) (pvel : vec6 F) : link :=
  l_set_body (body_update_comvel (b_set_vel (joint_inc_vel (l_joint l) (xform6lin (l_adj l) pvel)) (l_body l))) l.
(** _rkLinkUpdateAcc, rk_link.c 149-165. *)
Definition upd_acc (l : link) (pvel pacc : vec6 F) : link :=
  let p := fpos (l_adj l) in
  let a := v6linshift pacc p in
  let wp := v3cross (vang pvel) p in
  let a := V6 (v3add (vlin a) (v3cross (vang pvel) wp)) (vang a) in
  let a := m3tv6 (fatt (l_adj l)) a in
  let a := joint_inc_acc_on_vel (l_joint l) (vang (l_vel l)) a in
  let a := joint_inc_acc (l_joint l) a in
  l_set_body (body_update_comacc (b_set_acc a (l_body l))) l.
Definition upd_rate (l : link) (p : vec6 F * vec6 F) : link := upd_acc (upd_vel l (fst p)) (fst p) (snd p).
(** Non-recursive part of rkLinkUpdateWrench, rk_link.c 194-207: [wr_pre] before the children are
    visited, [wr_post] after. *)
Definition wr_pre (l : link) : link := l_set_wrench (v6angshift (body_net_wrench (l_body l)) (l_com l)) l.
Definition wr_post (l : link) (cs : list link) : link :=
  let w := fold_left (fun w c => v6add w (xform6ang (l_adj c) (l_wrench c))) cs (l_wrench l) in
  let w := v6sub w (body_ext_wrench (l_body l)) in
  l_set_joint (joint_calc_trq (l_joint l) w) (l_set_wrench w l).

(** rkLinkUpdateFrame 118-128, rkLinkUpdateVel 140-147, rkLinkUpdateAcc 167-174, rkLinkUpdateRate 177-185,
    rkLinkUpdateWrench 188-211 on a link array. *)
Definition update_frame := walk_down l_parent l_child l_sibl upd_frame l_frame.
Definition update_vel := walk_down l_parent l_child l_sibl upd_vel l_vel.
Definition update_acc := walk_down l_parent l_child l_sibl (fun l (p : vec6 F * vec6 F) => upd_acc l (fst p) (snd p)) (fun l => (l_vel l, l_acc l)).
Definition update_rate := walk_down l_parent l_child l_sibl upd_rate (fun l => (l_vel l, l_acc l)).
Definition update_wrench := walk_up l_child l_sibl wr_pre wr_post.

(** ** Chains *)

(** rkChain, rk_chain.h 22-35: name, shapes and motors are not modelled (joints carry their own motor). *)
Record chain := Chain { c_links : list link; c_mass : F; c_wcom : vec3 F; c_comvel : vec3 F; c_comacc : vec3 F }.
Definition c_set_links (h : list link) (c : chain) := Chain h (c_mass c) (c_wcom c) (c_comvel c) (c_comacc c).
Definition c_fuel (c : chain) : nat := S (List.length (c_links c)).

(** rkChainUpdateFrame/Vel/Acc/Rate/Wrench, rk_chain.h 259-268: from the root (link 0); [g] is the
    global RK_GRAVITY6D. *)
Definition grav (g : F) : vec6 F := V6 (V3 0 0 g) v3zero.
Definition chain_lift (f : nat -> list link -> option (list link)) (c : chain) : option chain :=
  option_map (fun h => c_set_links h c) (f (c_fuel c) (c_links c)).
Definition chain_update_frame := chain_lift (fun n h => update_frame n h 0 fid).
Definition chain_update_vel := chain_lift (fun n h => update_vel n h 0 v6zero).
Definition chain_update_acc (g : F) := chain_lift (fun n h => update_acc n h 0 (v6zero, grav g)).
Definition chain_update_rate (g : F) := chain_lift (fun n h => update_rate n h 0 (v6zero, grav g)).
Definition chain_update_wrench := chain_lift (fun n h => update_wrench n h 0).

(** rkChainCalcMass, rk_chain.c 391-399. *)
Definition chain_calc_mass (c : chain) : chain :=
  Chain (c_links c) (fold_left (fun m l => m + l_mass l) (c_links c) 0) (c_wcom c) (c_comvel c) (c_comacc c).
(** rkChainCalcCOM, rk_chain.c 402-411. *)
Definition chain_calc_com (c : chain) : chain :=
  Chain (c_links c) (c_mass c)
    (v3div (fold_left (fun p l => v3cat p (l_mass l) (b_wcom (l_body l))) (c_links c) v3zero) (c_mass c))
    (c_comvel c) (c_comacc c).
(** rkChainCalcCOMVel, rk_chain.c 414-428. *)
Definition chain_calc_comvel (c : chain) : chain :=
  Chain (c_links c) (c_mass c) (c_wcom c)
    (fold_left (fun p l => v3cat p (l_mass l / c_mass c) (m3v (fatt (l_frame l)) (b_comvel (l_body l)))) (c_links c) v3zero)
    (c_comacc c).
(** rkChainCalcCOMAcc, rk_chain.c 431-445. *)
Definition chain_calc_comacc (c : chain) : chain :=
  Chain (c_links c) (c_mass c) (c_wcom c) (c_comvel c)
    (fold_left (fun p l => v3cat p (l_mass l / c_mass c) (m3v (fatt (l_frame l)) (b_comacc (l_body l)))) (c_links c) v3zero).
(** rkChainUpdateFK, rk_chain.c 353-357. *)
Definition chain_update_fk (c : chain) : option chain := option_map chain_calc_com (chain_update_frame c).
(** rkChainUpdateID, rk_chain.c 367-373. *)
Definition chain_update_id (g : F) (c : chain) : option chain :=
  obind (chain_update_rate g c) (fun c => option_map (fun c => chain_calc_comacc (chain_calc_comvel c)) (chain_update_wrench c)).

(** rkChainJointSize, rk_chain.c 92-99. *)
Definition chain_joint_size (c : chain) : nat := fold_left (fun s l => (s + joint_size (l_joint l))%nat) (c_links c) 0%nat.
(** rkChainSetOffset, rk_chain.c 525-535. *)
Fixpoint set_offsets (s : nat) (h : list link) : list link :=
  match h with
  | [] => []
  | l :: t => let n := joint_size (l_joint l) in
              if Nat.ltb 0 n then l_set_offset (Some s) l :: set_offsets (s + n) t
              else l_set_offset None l :: set_offsets s t
  end.
Definition chain_set_offset (c : chain) : chain := c_set_links (set_offsets 0 (c_links c)) c.
(** rkChainCreateDefaultJointIndex, rk_chain.c 102-119. *)
Fixpoint default_index (i : nat) (h : list link) : list nat :=
  match h with
  | [] => []
  | l :: t => if Nat.ltb 0 (joint_size (l_joint l)) then i :: default_index (S i) t else default_index (S i) t
  end.
Definition chain_default_index (c : chain) : list nat := default_index 0 (c_links c).
(** rkChainJointIndexSize, rk_chain.c 122-129 ([None]: index outside the array). *)
Fixpoint chain_index_size (h : list link) (idx : list nat) : option nat :=
  match idx with
  | [] => Some O
  | i :: t => obind (nth_error h i) (fun l => option_map (Nat.add (joint_size (l_joint l))) (chain_index_size h t))
  end.

(** Set through an index: rkChainSetJointDis 132-141, SetJointDisCNT 144-153, SetJointVel 156-165;
    [buf] is the rest of the vector behind the running pointer.  Reading beyond the vector is [None]. *)
Fixpoint set_by_index (set : joint F -> list F -> option (joint F)) (h : list link) (idx : list nat) (buf : list F) : option (list link) :=
  match idx with
  | [] => Some h
  | i :: t => obind (nth_error h i) (fun l =>
              obind (set (l_joint l) buf) (fun j =>
              set_by_index set (lset i (l_set_joint j l) h) t (skipn (joint_size j) buf)))
  end.
Definition chain_set_joint_dis (c : chain) (idx : list nat) (v : list F) := option_map (fun h => c_set_links h c) (set_by_index joint_set_dis (c_links c) idx v).
Definition chain_set_joint_vel (c : chain) (idx : list nat) (v : list F) := option_map (fun h => c_set_links h c) (set_by_index joint_set_vel (c_links c) idx v).
Definition chain_set_joint_dis_cnt (c : chain) (idx : list nat) (v : list F) (dt : F) :=
  option_map (fun h => c_set_links h c) (set_by_index (fun j l => joint_set_dis_cnt j l dt) (c_links c) idx v).
(** rkChainSetJointRate, rk_chain.c 168-179. *)
Fixpoint set_rate_by_index (h : list link) (idx : list nat) (vb ab : list F) : option (list link) :=
  match idx with
  | [] => Some h
  | i :: t => obind (nth_error h i) (fun l =>
              obind (joint_set_vel (l_joint l) vb) (fun j =>
              obind (joint_set_acc j ab) (fun j =>
              set_rate_by_index (lset i (l_set_joint j l) h) t (skipn (joint_size j) vb) (skipn (joint_size j) ab))))
  end.
Definition chain_set_joint_rate (c : chain) (idx : list nat) (v a : list F) := option_map (fun h => c_set_links h c) (set_rate_by_index (c_links c) idx v a).
(** Writing [vals] into a vector at position [k]; [None] when it would run over the end. *)
Definition write_at (k : nat) (vals v : list F) : option (list F) :=
  if Nat.leb (k + List.length vals) (List.length v)
  then Some (firstn k v ++ vals ++ skipn (k + List.length vals) v) else None.
(** Get through an index: rkChainGetJointDis 182-192, GetJointVel 195-205, GetJointAcc 208-218. *)
Fixpoint get_by_index (get : joint F -> list F) (h : list link) (idx : list nat) (k : nat) (v : list F) : option (list F) :=
  match idx with
  | [] => Some v
  | i :: t => obind (nth_error h i) (fun l =>
              obind (write_at k (get (l_joint l)) v) (fun v =>
              get_by_index get h t (k + joint_size (l_joint l)) v))
  end.
Definition chain_get_joint_dis (c : chain) (idx : list nat) (v : list F) := get_by_index joint_get_dis (c_links c) idx 0 v.
Definition chain_get_joint_vel (c : chain) (idx : list nat) (v : list F) := get_by_index joint_get_vel (c_links c) idx 0 v.
Definition chain_get_joint_acc (c : chain) (idx : list nat) (v : list F) := get_by_index joint_get_acc (c_links c) idx 0 v.

(** The All variants, rk_chain.c 221-324: every link with offset >= 0, at its offset. *)
Fixpoint set_all (set : joint F -> list F -> option (joint F)) (h : list link) (v : list F) : option (list link) :=
  match h with
  | [] => Some []
  | l :: t =>
    match l_offset l with
    | None => option_map (cons l) (set_all set t v)
    | Some o => obind (set (l_joint l) (skipn o v)) (fun j =>
                option_map (cons (l_set_joint j l)) (set_all set t v))
    end
  end.
Definition chain_set_joint_dis_all (c : chain) (v : list F) := option_map (fun h => c_set_links h c) (set_all joint_set_dis (c_links c) v).
Definition chain_set_joint_vel_all (c : chain) (v : list F) := option_map (fun h => c_set_links h c) (set_all joint_set_vel (c_links c) v).
Definition chain_set_joint_dis_cnt_all (c : chain) (v : list F) (dt : F) :=
  option_map (fun h => c_set_links h c) (set_all (fun j l => joint_set_dis_cnt j l dt) (c_links c) v).
(** rkChainSetJointRateAll, rk_chain.c 275-285: per link the velocity, then the acceleration. *)
Fixpoint set_rate_all (h : list link) (v a : list F) : option (list link) :=
  match h with
  | [] => Some []
  | l :: t =>
    match l_offset l with
    | None => option_map (cons l) (set_rate_all t v a)
    | Some o => obind (joint_set_vel (l_joint l) (skipn o v)) (fun j =>
                obind (joint_set_acc j (skipn o a)) (fun j =>
                option_map (cons (l_set_joint j l)) (set_rate_all t v a)))
    end
  end.
Definition chain_set_joint_rate_all (c : chain) (v a : list F) := option_map (fun h => c_set_links h c) (set_rate_all (c_links c) v a).
Fixpoint get_all (get : joint F -> list F) (h : list link) (v : list F) : option (list F) :=
  match h with
  | [] => Some v
  | l :: t =>
    match l_offset l with
    | None => get_all get t v
    | Some o => obind (write_at o (get (l_joint l)) v) (fun v => get_all get t v)
    end
  end.
Definition chain_get_joint_dis_all (c : chain) (v : list F) := get_all joint_get_dis (c_links c) v.
Definition chain_get_joint_vel_all (c : chain) (v : list F) := get_all joint_get_vel (c_links c) v.
Definition chain_get_joint_acc_all (c : chain) (v : list F) := get_all joint_get_acc (c_links c) v.
Definition chain_get_joint_trq_all (c : chain) (v : list F) := get_all joint_get_trq (c_links c) v.
(** rkChainCatJointDisAll 232-239 and rkChainSubJointDisAll 242-249: [joint_cat_dis] and
    [joint_sub_dis] give the new values of the joint's components in [dis]. *)
Fixpoint map_all2 (f : joint F -> list F -> list F -> option (list F)) (h : list link) (dis v : list F) : option (list F) :=
  match h with
  | [] => Some dis
  | l :: t =>
    match l_offset l with
    | None => map_all2 f t dis v
    | Some o => obind (f (l_joint l) (skipn o dis) (skipn o v)) (fun r =>
                obind (write_at o (firstn (joint_size (l_joint l)) r) dis) (fun dis =>
                map_all2 f t dis v))
    end
  end.
Definition chain_cat_joint_dis_all (c : chain) (dis : list F) (k : F) (v : list F) := map_all2 (fun j d v => joint_cat_dis j d k v) (c_links c) dis v.
Definition chain_sub_joint_dis_all (c : chain) (dis sdis : list F) := map_all2 joint_sub_dis (c_links c) dis sdis.

(** rkChainFK 360-364, rkChainID 376-380, rkChainFKCNT 383-388. *)
Definition chain_fk (c : chain) (dis : list F) : option chain := obind (chain_set_joint_dis_all c dis) chain_update_fk.
Definition chain_id (g : F) (c : chain) (vel acc : list F) : option chain := obind (chain_set_joint_rate_all c vel acc) (chain_update_id g).
Definition chain_fkcnt (g : F) (c : chain) (dis : list F) (dt : F) : option chain :=
  obind (chain_set_joint_dis_cnt_all c dis dt) (fun c => obind (chain_update_fk c) (chain_update_id g)).

(** ** Clone *)

(** Address of element [i] of an array at [base], in units of sizeof(rkLink). *)
Definition addr (base : Z) (i : nat) : Z := (base + Z.of_nat i)%Z.
(** [p ? p - org + cln : NULL], rk_link.c 59-64. *)
Definition clone_ref (org cln : Z) (p : option Z) : option Z := option_map (fun a => (a - org + cln)%Z) p.
(** The element of the array of length [n] at [base] an address points to; [None] is a dangling pointer. *)
Definition index_of (base : Z) (n : nat) (a : Z) : option nat :=
  if andb (Z.leb base a) (Z.ltb a (base + Z.of_nat n)) then Some (Z.to_nat (a - base)) else None.
Definition clone_field (bo bc : Z) (n i : nat) (p : option nat) : option (option nat) :=
  match clone_ref (addr bo i) (addr bc i) (option_map (addr bo) p) with
  | None => Some None
  | Some a => option_map Some (index_of bc n a)
  end.
(** zArrayAlloc: zero-filled elements. *)
Definition body_zeroed : body F :=
  Body (MP 0 v3zero m3zero) (Fr v3zero m3zero) v6zero v6zero v3zero v3zero v3zero [] [] None.
(** rkLinkClone, rk_link.c 44-66: element [i] of the array of [n] links at address [bo] is cloned into
    element [i] of the zero-filled array at [bc].  [None]: a reference of the clone points outside
    its array, or the joint cannot be cloned. *)
Definition link_clone (bo bc : Z) (n i : nat) (org : link) : option link :=
  obind (joint_clone (l_joint org)) (fun j =>
  obind (clone_field bo bc n i (l_parent org)) (fun p =>
  obind (clone_field bo bc n i (l_child org)) (fun c =>
  obind (clone_field bo bc n i (l_sibl org)) (fun s =>
  Some (Link (l_name org) j (body_clone (l_body org) body_zeroed) (l_offset org) (l_org org)
             (Fr v3zero m3zero) v6zero p c s))))).
(** rkLinkCopyState, rk_link.c 69-76. *)
Definition link_copy_state (src dst : link) : option link :=
  obind (joint_copy_state (l_joint src) (l_joint dst)) (fun j =>
  Some (Link (l_name dst) j (body_copy_state (l_body src) (l_body dst)) (l_offset dst) (l_org dst)
             (l_adj src) (l_wrench src) (l_parent dst) (l_child dst) (l_sibl dst))).
Fixpoint clone_links (bo bc : Z) (n i : nat) (h : list link) : option (list link) :=
  match h with
  | [] => Some []
  | l :: t => obind (link_clone bo bc n i l) (fun l' => option_map (cons l') (clone_links bo bc n (S i) t))
  end.
Fixpoint copy_links (src dst : list link) : option (list link) :=
  match src, dst with
  | [], _ => Some dst
  | s :: src', d :: dst' => obind (link_copy_state s d) (fun d' => option_map (cons d') (copy_links src' dst'))
  | _ :: _, [] => None
  end.
(** rkChainCopyState, rk_chain.c 79-89. *)
Definition chain_copy_state (src dst : chain) : option chain :=
  obind (copy_links (c_links src) (c_links dst)) (fun h => Some (Chain h (c_mass dst) (c_wcom src) (c_comvel src) (c_comacc src))).
(** rkChainClone, rk_chain.c 47-76 (allocation failure not modelled); empty chains give NULL. *)
Definition chain_clone (bo bc : Z) (org : chain) : option chain :=
  match c_links org with
  | [] => None
  | _ => obind (clone_links bo bc (List.length (c_links org)) 0 (c_links org)) (fun h =>
         chain_copy_state org (Chain h (c_mass org) v3zero v3zero v3zero))
  end.

(** ** Whole-body quantities *)
Definition c_root (c : chain) : option link := nth_error (c_links c) 0.
(** rkChainGravityDir, rk_chain.c 347-350: row 2 of the root attitude. *)
Definition gravity_dir (r : link) : vec3 F := m3row2 (fatt (l_frame r)).
(** rkChainZMP, rk_chain.c 448-460 (inner [None]: NULL, no ZMP). *)
Definition chain_zmp (c : chain) (z : F) : option (option (vec3 F)) :=
  option_map (fun r =>
    let dz := gravity_dir r in
    let f := v3dot dz (vlin (l_wrench r)) in
    if ntiny x_tol f then None
    else
      let p := v3cross dz (vang (l_wrench r)) in
      let p := v3cat p (z - vz (fpos (l_frame r))) (vlin (l_wrench r)) in
      Some (xform (l_frame r) (v3div p f))) (c_root c).
(** rkChainYawTorque, rk_chain.c 463-469. *)
Definition chain_yaw_torque (c : chain) : option F :=
  option_map (fun r => v3dot (vang (l_wrench r)) (vlin (l_wrench r)) / v3dot (vang (l_wrench r)) (gravity_dir r)) (c_root c).
(** rkChainAM, rk_chain.c 472-485. *)
Definition chain_am (c : chain) (p : vec3 F) : vec3 F :=
  fold_left (fun am l => v3add am (m3v (fatt (l_frame l)) (body_am (l_body l) (xforminv (l_frame l) p)))) (c_links c) v3zero.
(** rkChainKE, rk_chain.c 488-496. *)
Definition chain_ke (c : chain) : F := fold_left (fun e l => e + body_ke (l_body l)) (c_links c) 0.
(** rkChainCalcExtWrench, rk_chain.c 499-513; zVec6DEqual compares components with the tolerance. *)
Definition v6tiny (w : vec6 F) : bool := forallb (ntiny x_tol) (l6 w).
Definition chain_ext_wrench (c : chain) : vec6 F :=
  fold_left (fun w l =>
    let ew := body_ext_wrench (l_body l) in
    if v6tiny ew then w
    else v6add w (v6angshift (m3v6 (fatt (l_frame l)) ew) (fpos (l_frame l)))) (c_links c) v6zero.
End Link.
Arguments link : clear implicits. Arguments chain : clear implicits.
