(** * Urdf_Model: conversion of URDF robot descriptions to chain description files
    (/repo/app/urdf2ztk.c).

    The parsing of XML text (libxml2, zXML of ZEDA) is not modelled: a document is a tree of elements with
    attributes.  An attribute value comes with the numbers sscanf and atof would read from it.  Materials
    (lines 14-16, 132-163, 262-277, 574-582) and the dimensions of shapes (lines 211-247, 584-622) are left out: of a
    shape there are the name, whether it has a type, and the frame.  Memory allocation never fails.
    [None]: undefined behaviour (a null pointer or an uninitialised number is used, or a recursion does not end). *)
From Coq Require Import Bool String List Arith DecimalString.
From Verif Require Import Num Vec Motor_Model Joint_Model Body_Model Tree Link_Model IK_Model Ztk_Model.
Import ListNotations.
Set Implicit Arguments.

(** External functions: zVec3DAAError (angle-axis vector that turns the first direction to the second),
    zVec3DIsTiny and zMat3DIsIdent (within a tolerance). *)
Class UrdfExt (F : Type) := mkUrdfExt {
  x_vaaerr : vec3 F -> vec3 F -> vec3 F;
  x_v3tiny : vec3 F -> bool;
  x_m3ident : mat3 F -> bool
}.

Section Urdf.
Context {F : Type} {N : Num F} {E : Ext F} {U : UrdfExt F}.
Local Open Scope num_scope.

(** ** Documents *)
Record aval := AV { av_text : string; av_num : list F }.
Inductive xml := Elem (tag : string) (attrs : list (string * aval)) (kids : list xml).
Definition x_tag (x : xml) : string := let 'Elem t _ _ := x in t.
Definition x_attrs (x : xml) : list (string * aval) := let 'Elem _ a _ := x in a.
Definition x_kids (x : xml) : list xml := let 'Elem _ _ k := x in k.
(** zXMLFindNodeAttr ([None]: NULL). *)
Definition x_find (x : xml) (name : string) : option aval :=
  option_map snd (find (fun a => String.eqb (fst a) name) (x_attrs x)).
(** atof. *)
Definition a_num (a : aval) : F := hd 0 (av_num a).

(** ** Information about the robot, urdf2ztk.c 18-104 *)

(** Pointers to links, joints and shapes are indices in document order (zListInsertHead puts a cell at
    the end of the order of zListForEach). *)
Record ulink := UL { ul_name : option string; ul_mp : mp F; ul_shapes : list nat; ul_joint : option nat; ul_child : option nat }.
Record ushape := US { us_name : string; us_type : option string; us_fl : frame F }.
Record ujoint := UJ { uj_name : option string; uj_type : option string; uj_fl : frame F; uj_axis : vec3 F;
  uj_damping : option aval; uj_friction : option aval; uj_lower : option aval; uj_upper : option aval;
  uj_parent : option nat; uj_child : option nat; uj_sibl : option nat }.
Record uinfo := UI { ui_name : option string; ui_shapes : list ushape; ui_links : list ulink; ui_joints : list ujoint }.

(** ** Evaluation of elements *)

Definition ofold {A B} (f : A -> B -> option A) (l : list B) (a : A) : option A :=
  fold_left (fun s b => obind s (fun s => f s b)) l (Some a).
(** urdf2ztk_get_vec, 108-111: components for which there is no number are left alone. *)
Definition get_vec (l : list F) (v : vec3 F) : vec3 F :=
  match l with
  | [] => v
  | [x] => V3 x (vy v) (vz v)
  | [x; y] => V3 x y (vz v)
  | x :: y :: z :: _ => V3 x y z
  end.
(** urdf2ztk_get_att, 113-119. *)
Definition get_att (l : list F) : option (mat3 F) :=
  match l with roll :: pitch :: yaw :: _ => Some (m3zyx yaw pitch roll) | _ => None end.
(** urdf2ztk_eval_origin, 121-130. *)
Definition eval_origin (x : xml) (f : frame F) : option (frame F) :=
  ofold (fun f (a : string * aval) =>
    if String.eqb (fst a) "xyz" then Some (Fr (get_vec (av_num (snd a)) (fpos f)) (fatt f))
    else if String.eqb (fst a) "rpy" then option_map (Fr (fpos f)) (get_att (av_num (snd a)))
    else Some f) (x_attrs x) f.

(** urdf2ztk_eval_link_inertia, 175-191: each attribute overwrites its number. *)
Definition inertia_num (x : xml) (name : string) : F :=
  fold_left (fun s a => if String.eqb (fst a) name then a_num (snd a) else s) (x_attrs x) 0.
Definition eval_inertia (x : xml) : mat3 F :=
  let n := inertia_num x in
  m3create (n "ixx"%string) (n "ixy"%string) (n "ixz"%string) (n "ixy"%string) (n "iyy"%string) (n "iyz"%string)
           (n "ixz"%string) (n "iyz"%string) (n "izz"%string).
(** urdf2ztk_eval_link_inertial, 193-207, with urdf2ztk_eval_link_mass, 169-173. *)
Definition eval_inertial (x : xml) (m : mp F) : option (mp F) :=
  obind (ofold (fun '(f, m) k =>
    if String.eqb (x_tag k) "origin" then option_map (fun f' => (f', m)) (eval_origin k f)
    else if String.eqb (x_tag k) "mass" then option_map (fun a => (f, MP (a_num a) (mp_com m) (mp_inertia m))) (x_find k "value")
    else if String.eqb (x_tag k) "inertia" then Some (f, MP (mp_mass m) (mp_com m) (eval_inertia k))
    else Some (f, m)) (x_kids x) (fid, m)) (fun '(f, m) =>
  Some (MP (mp_mass m) (fpos f) (m3rot (fatt f) (mp_inertia m)))).

(** urdf2ztk_eval_shape_geometry, 249-260. *)
Definition is_geometry (s : string) : bool := existsb (String.eqb s) ["box"; "sphere"; "cylinder"; "mesh"]%string.
Definition eval_geometry (x : xml) (t : option string) : option string :=
  fold_left (fun t k => if is_geometry (x_tag k) then Some (x_tag k) else t) (x_kids x) t.
(** urdf2ztk_eval_link_visual, 281-318 (a link without a name printed with %s: [None]). *)
Definition eval_visual (x : xml) (lname : option string) (n : nat) : option ushape :=
  obind (match x_find x "name" with
         | Some a => Some (av_text a)
         | None => option_map (fun s => (s ++ "_" ++ NilZero.string_of_uint (Nat.to_uint n))%string) lname
         end) (fun name =>
  ofold (fun s k =>
    if String.eqb (x_tag k) "origin" then option_map (US (us_name s) (us_type s)) (eval_origin k (us_fl s))
    else if String.eqb (x_tag k) "geometry" then Some (US (us_name s) (eval_geometry k (us_type s)) (us_fl s))
    else Some s) (x_kids x) (US name None fid)).
(** urdf2ztk_eval_link, 320-341. *)
Definition eval_link (i : uinfo) (x : xml) : option uinfo :=
  let name := option_map av_text (x_find x "name") in
  obind (ofold (fun '(ss, l) k =>
    if String.eqb (x_tag k) "inertial" then option_map (fun m => (ss, UL (ul_name l) m (ul_shapes l) (ul_joint l) (ul_child l))) (eval_inertial k (ul_mp l))
    else if String.eqb (x_tag k) "visual" then
      option_map (fun s => (ss ++ [s], UL (ul_name l) (ul_mp l) (ul_shapes l ++ [List.length ss]) (ul_joint l) (ul_child l)))
                 (eval_visual k (ul_name l) (List.length (ul_shapes l)))
    else Some (ss, l)) (x_kids x) (ui_shapes i, UL name (MP 0 v3zero m3zero) [] None None)) (fun '(ss, l) =>
  Some (UI (ui_name i) ss (ui_links i ++ [l]) (ui_joints i))).

(** urdf2ztk_add_joint_sibling, 345-349. *)
Fixpoint add_joint_sibl (fuel : nat) (js : list ujoint) (j s : nat) : option (list ujoint) :=
  match fuel with
  | O => None
  | S k =>
    obind (nth_error js j) (fun o =>
    match uj_sibl o with
    | None => Some (set_nth j (UJ (uj_name o) (uj_type o) (uj_fl o) (uj_axis o) (uj_damping o) (uj_friction o) (uj_lower o) (uj_upper o)
                                  (uj_parent o) (uj_child o) (Some s)) js)
    | Some j' => add_joint_sibl k js j' s
    end)
  end.
(** urdf2ztk_add_link_child, 351-355. *)
Definition add_link_child (i : uinfo) (p j : nat) : option uinfo :=
  obind (nth_error (ui_links i) p) (fun l =>
  match ul_child l with
  | None => Some (UI (ui_name i) (ui_shapes i) (set_nth p (UL (ul_name l) (ul_mp l) (ul_shapes l) (ul_joint l) (Some j)) (ui_links i)) (ui_joints i))
  | Some c => option_map (UI (ui_name i) (ui_shapes i) (ui_links i)) (add_joint_sibl (S (List.length (ui_links i) + List.length (ui_joints i))) (ui_joints i) c j)
  end).
(** link_list_find, 5-12; strcmp with a null pointer is undefined. *)
Fixpoint find_link (ls : list ulink) (name : option string) (k : nat) : option (option nat) :=
  match ls with
  | [] => Some None
  | l :: t => obind (ul_name l) (fun n => obind name (fun s => if String.eqb n s then Some (Some k) else find_link t name (S k)))
  end.
Definition set_joint (f : ujoint -> ujoint) (j : nat) (i : uinfo) : option uinfo :=
  option_map (fun o => UI (ui_name i) (ui_shapes i) (ui_links i) (set_nth j (f o) (ui_joints i))) (nth_error (ui_joints i) j).
(** urdf2ztk_bind_joint_parent, 357-361: a parent that is not there is dereferenced. *)
Definition bind_parent (i : uinfo) (j : nat) (s : option string) : option uinfo :=
  obind (find_link (ui_links i) s 0) (fun p =>
  obind (set_joint (fun o => UJ (uj_name o) (uj_type o) (uj_fl o) (uj_axis o) (uj_damping o) (uj_friction o) (uj_lower o) (uj_upper o)
                                p (uj_child o) (uj_sibl o)) j i) (fun i =>
  obind p (fun p => add_link_child i p j))).
(** urdf2ztk_bind_joint_child, 363-367. *)
Definition bind_child (i : uinfo) (j : nat) (s : option string) : option uinfo :=
  obind (find_link (ui_links i) s 0) (fun c =>
  obind (set_joint (fun o => UJ (uj_name o) (uj_type o) (uj_fl o) (uj_axis o) (uj_damping o) (uj_friction o) (uj_lower o) (uj_upper o)
                                (uj_parent o) c (uj_sibl o)) j i) (fun i =>
  match c with
  | None => Some i
  | Some c => option_map (fun l => UI (ui_name i) (ui_shapes i) (set_nth c (UL (ul_name l) (ul_mp l) (ul_shapes l) (Some j) (ul_child l)) (ui_links i)) (ui_joints i))
                         (nth_error (ui_links i) c)
  end)).
(** The last of the attributes with the name. *)
Definition last_attr (x : xml) (name : string) (d : option aval) : option aval :=
  fold_left (fun s a => if String.eqb (fst a) name then Some (snd a) else s) (x_attrs x) d.
(** The elements of a joint, 369-408 and 437-444. *)
Definition eval_joint_elem (j : nat) (i : uinfo) (k : xml) : option uinfo :=
  let up f := set_joint f j i in
  if String.eqb (x_tag k) "origin" then
    obind (nth_error (ui_joints i) j) (fun o => obind (eval_origin k (uj_fl o)) (fun f =>
    up (fun o => UJ (uj_name o) (uj_type o) f (uj_axis o) (uj_damping o) (uj_friction o) (uj_lower o) (uj_upper o) (uj_parent o) (uj_child o) (uj_sibl o))))
  else if String.eqb (x_tag k) "parent" then bind_parent i j (option_map av_text (x_find k "link"))
  else if String.eqb (x_tag k) "child" then bind_child i j (option_map av_text (x_find k "link"))
  else if String.eqb (x_tag k) "axis" then
    obind (x_find k "xyz") (fun a =>
    up (fun o => UJ (uj_name o) (uj_type o) (uj_fl o) (get_vec (av_num a) (uj_axis o)) (uj_damping o) (uj_friction o) (uj_lower o) (uj_upper o) (uj_parent o) (uj_child o) (uj_sibl o)))
  else if String.eqb (x_tag k) "dynamic" then
    up (fun o => UJ (uj_name o) (uj_type o) (uj_fl o) (uj_axis o) (last_attr k "damping" (uj_damping o)) (last_attr k "friction" (uj_friction o)) (uj_lower o) (uj_upper o) (uj_parent o) (uj_child o) (uj_sibl o))
  else if String.eqb (x_tag k) "limit" then
    up (fun o => UJ (uj_name o) (uj_type o) (uj_fl o) (uj_axis o) (uj_damping o) (uj_friction o) (last_attr k "lower" (uj_lower o)) (last_attr k "upper" (uj_upper o)) (uj_parent o) (uj_child o) (uj_sibl o))
  else Some i.
(** urdf2ztk_eval_joint, 410-445. *)
Definition eval_joint (i : uinfo) (x : xml) : option uinfo :=
  let o := UJ (option_map av_text (last_attr x "name" None)) (option_map av_text (last_attr x "type" None)) fid ex None None None None None None None in
  ofold (eval_joint_elem (List.length (ui_joints i))) (x_kids x) (UI (ui_name i) (ui_shapes i) (ui_links i) (ui_joints i ++ [o])).
(** urdf2ztk_eval_robot and urdf2ztk_eval, 449-476; inner [None]: false is returned. *)
Definition with_tag (t : string) (l : list xml) : list xml := filter (fun k => String.eqb (x_tag k) t) l.
Definition eval_robot (x : xml) : option (option uinfo) :=
  if String.eqb (x_tag x) "robot" then
    obind (ofold eval_link (with_tag "link" (x_kids x)) (UI (option_map av_text (x_find x "name")) [] [] [])) (fun i =>
    option_map Some (ofold eval_joint (with_tag "joint" (x_kids x)) i))
  else Some None.

(** ** Correction of frames *)

(** The frames fw of the joints, the inertia tensors _iw of the links, the frames fw of the shapes; and
    the frames fl of the joints, the inertia tensors of the links, the frames fl of the shapes. *)
Record wstate := WS { w_fw : nat -> frame F; w_iw : nat -> mat3 F; w_sw : nat -> frame F;
                      w_fl : nat -> frame F; w_in : nat -> mat3 F; w_sl : nat -> frame F }.
Definition upd {A} (f : nat -> A) (i : nat) (a : A) (j : nat) : A := if Nat.eqb i j then a else f j.
Definition upds {A} (f : nat -> A) (l : list nat) (g : nat -> A) : nat -> A := fold_left (fun f s => upd f s (g s)) l f.
(** One joint in urdf2ztk_xform, 480-499: joint [j], the joint of its parent link, its child link and the
    shapes of it. *)
Definition xform_at (j : nat) (pj : option nat) (c : nat) (shapes : list nat) (w : wstate) : wstate :=
  let fw := match pj with None => w_fl w j | Some q => fcascade (w_fw w q) (w_fl w j) end in
  WS (upd (w_fw w) j fw) (upd (w_iw w) c (m3rot (fatt fw) (w_in w c))) (upds (w_sw w) shapes (fun s => fcascade fw (w_sl w s)))
     (w_fl w) (w_in w) (w_sl w).
(** One joint in urdf2ztk_xform_inv, 501-520. *)
Definition xform_inv_at (j : nat) (pj : option nat) (c : nat) (shapes : list nat) (w : wstate) : wstate :=
  let fl := match pj with Some q => frel (w_fw w q) (w_fw w j) | None => w_fw w j end in
  WS (w_fw w) (w_iw w) (w_sw w)
     (upd (w_fl w) j fl) (upd (w_in w) c (m3rotinv (fatt fl) (w_iw w c))) (upds (w_sl w) shapes (fun s => frel (w_fw w j) (w_sw w s))).
(** The recursion of both: the joint, the joints of its child link, its sibling; it stops at a joint
    that is not connected. *)
Fixpoint walk_joints (act : nat -> option nat -> nat -> list nat -> wstate -> wstate) (i : uinfo) (fuel : nat) (w : wstate) (j : nat) : option (wstate * bool) :=
  match fuel with
  | O => None
  | S k =>
    obind (nth_error (ui_joints i) j) (fun o =>
    match uj_parent o, uj_child o with
    | Some p, Some c =>
      obind (nth_error (ui_links i) p) (fun lp => obind (nth_error (ui_links i) c) (fun lc =>
      let w := act j (ul_joint lp) c (ul_shapes lc) w in
      obind (match ul_child lc with None => Some (w, true) | Some cj => walk_joints act i k w cj end) (fun '(w, ok) =>
      if ok then match uj_sibl o with None => Some (w, true) | Some s => walk_joints act i k w s end else Some (w, false))))
    | _, _ => Some (w, false)
    end)
  end.
(** urdf2ztk_find_root, 522-529. *)
Definition find_root (i : uinfo) : option ulink := find (fun l => match ul_joint l with None => true | _ => false end) (ui_links i).
(** 536-549 (the type of a joint without one is a null pointer). *)
Definition is_revol (t : string) : bool := String.eqb t "revolute" || String.eqb t "continuous".
Definition is_prism (t : string) : bool := String.eqb t "prismatic".
Definition is_float (t : string) : bool := String.eqb t "float".
(** The loop of urdf2ztk_correct_frame, 562-567; zMat3DRotDRC turns the matrix in the world frame. *)
Fixpoint turn_joints (js : list ujoint) (k : nat) (w : wstate) : option wstate :=
  match js with
  | [] => Some w
  | o :: t =>
    obind (uj_type o) (fun ty =>
    turn_joints t (S k)
      (if is_revol ty || is_prism ty then
         WS (upd (w_fw w) k (Fr (fpos (w_fw w k)) (m3mul (x_aa2m (x_vaaerr ez (uj_axis o))) (fatt (w_fw w k))))) (w_iw w) (w_sw w) (w_fl w) (w_in w) (w_sl w)
       else w))
  end.
(** urdf2ztk_correct_frame, 551-570; the results of urdf2ztk_xform and urdf2ztk_xform_inv are not looked
    at, and main, 766, does not look at the result of this function.  Links and joints start with
    fw the identity and _iw zero. *)
Definition wstart (i : uinfo) : wstate :=
  WS (fun _ => fid) (fun _ => m3zero) (fun _ => fid)
     (fun j => match nth_error (ui_joints i) j with Some o => uj_fl o | None => fid end)
     (fun l => match nth_error (ui_links i) l with Some o => mp_inertia (ul_mp o) | None => m3zero end)
     (fun s => match nth_error (ui_shapes i) s with Some o => us_fl o | None => fid end).
Definition walk_from (act : nat -> option nat -> nat -> list nat -> wstate -> wstate) (i : uinfo) (root : ulink) (w : wstate) : option wstate :=
  match ul_child root with
  | None => Some w
  | Some j => option_map fst (walk_joints act i (S (List.length (ui_links i) + List.length (ui_joints i))) w j)
  end.
Definition correct_frame (i : uinfo) : option wstate :=
  match find_root i with
  | None => Some (wstart i)
  | Some r =>
    obind (walk_from xform_at i r (wstart i)) (fun w =>
    obind (turn_joints (ui_joints i) 0 w) (fun w =>
    walk_from xform_inv_at i r w))
  end.

(** ** Output *)

(** The keys pos and att of a frame, 635-642 and 687-694. *)
Definition frame_keys (f : frame F) : list (key F) :=
  (if x_v3tiny (fpos f) then [] else [KPos (fpos f)]) ++ (if x_m3ident (fatt f) then [] else [KAtt (fatt f)]).
(** output_ztk_shape, 624-652: the sections of the shapes with a type. *)
Fixpoint output_shapes (ss : list ushape) (k : nat) (w : wstate) : list (string * list (key F)) :=
  match ss with
  | [] => []
  | s :: t => match us_type s with
              | None => output_shapes t (S k) w
              | Some _ => (us_name s, frame_keys (w_sl w k)) :: output_shapes t (S k) w
              end
  end.
(** output_ztk_joint, 662-695. *)
Definition limit_keys (deg : F -> F) (o : ujoint) : list (key F) :=
  match uj_lower o with None => [] | Some a => [KMin [Some (deg (a_num a))]] end ++
  match uj_upper o with None => [] | Some a => [KMax [Some (deg (a_num a))]] end.
Definition output_joint (o : ujoint) (fl : frame F) : list (key F) :=
  match uj_type o with
  | None => limit_keys (fun _ => 0) o
  | Some t =>
    if is_revol t then KJointType "revolute" :: limit_keys to_deg o
    else if is_prism t then KJointType "prismatic" :: limit_keys (fun x => x) o
    else KJointType (if is_float t then "float" else "fixed") :: limit_keys (fun _ => 0) o
  end ++
  match uj_damping o with None => [] | Some a => [KVisc (av_num a)] end ++
  match uj_friction o with None => [] | Some a => [KCoul (av_num a)] end ++
  frame_keys fl.
Definition opt_keys {A} (o : option A) (f : A -> option (list (key F))) : option (list (key F)) :=
  match o with None => Some [] | Some a => f a end.
(** output_ztk_link, 697-722 (a parent without a name printed with %s: [None]). *)
Definition output_link (i : uinfo) (w : wstate) (k : nat) (l : ulink) : option (list (key F)) :=
  obind (opt_keys (ul_joint l) (fun j => option_map (fun o => output_joint o (w_fl w j)) (nth_error (ui_joints i) j))) (fun kj =>
  obind (omap (fun s => option_map us_name (nth_error (ui_shapes i) s)) (ul_shapes l)) (fun ss =>
  obind (opt_keys (ul_joint l) (fun j => obind (nth_error (ui_joints i) j) (fun o => opt_keys (uj_parent o) (fun p =>
                    obind (nth_error (ui_links i) p) (fun lp => option_map (fun n => [KParent n]) (ul_name lp)))))) (fun kp =>
  let m := mp_mass (ul_mp l) in
  Some (match ul_name l with None => [] | Some n => [KName n] end ++ kj ++
        (if andb (nleb m 0) (nleb 0 m) then []
         else [KMass m] ++ (if x_v3tiny (mp_com (ul_mp l)) then [] else [KCOM (mp_com (ul_mp l))]) ++ [KInertia (w_in w k)]) ++
        map KShape ss ++ kp)))).
Fixpoint output_links (i : uinfo) (w : wstate) (ls : list ulink) (k : nat) : option (list (list (key F))) :=
  match ls with
  | [] => Some []
  | l :: t => obind (output_link i w k l) (fun s => option_map (cons s) (output_links i w t (S k)))
  end.
(** output_ztk, 724-734: the chain description file and the frames in its [shape] sections. *)
Record urdf_out := UO { uo_file : ztk F; uo_shapes : list (string * list (key F)) }.
Definition output_ztk (i : uinfo) (w : wstate) : option urdf_out :=
  let ss := output_shapes (ui_shapes i) 0 w in
  obind (ui_name i) (fun n =>
  option_map (fun ls => UO (Ztk [KName n] (map fst ss) [] ls []) ss) (output_links i w (ui_links i) 0)).
(** main, 751-774; inner [None]: nothing is written. *)
Definition urdf2ztk (x : xml) : option (option urdf_out) :=
  obind (eval_robot x) (fun o =>
  match o with
  | None => Some None
  | Some i => obind (correct_frame i) (fun w => option_map Some (output_ztk i w))
  end).
End Urdf.
Arguments aval : clear implicits. Arguments xml : clear implicits. Arguments uinfo : clear implicits.
Arguments ulink : clear implicits. Arguments ujoint : clear implicits. Arguments ushape : clear implicits.
Arguments wstate : clear implicits. Arguments urdf_out : clear implicits.
