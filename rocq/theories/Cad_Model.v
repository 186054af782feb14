(** * Cad_Model: conversion of CAD tables to chain description files (/repo/app/cad2ztk.c).

    The reading of CSV text (zCSV of ZEDA) is not modelled: a row is given by its text fields and the
    numbers that follow them.  Text fields fit the buffers, files can be opened, memory allocation never
    fails.  The optical section and the file names of shapes are left out of the chain file.
    [None]: undefined behaviour (a null pointer or an uninitialised number is used). *)
From Coq Require Import Bool String List Arith ZArith.
From Verif Require Import Num Vec Motor_Model Joint_Model Body_Model Tree Link_Model IK_Model Ztk_Model Urdf_Model.
Import ListNotations.
Set Implicit Arguments.

(** External function zMat3DToZYX: azimuth, elevation and tilt of an attitude. *)
Class CadExt (F : Type) := mkCadExt { x_m2zyx : mat3 F -> vec3 F }.

Section Cad.
Context {F : Type} {N : Num F} {E : Ext F} {C : CadExt F}.
Local Open Scope num_scope.

(** ** Tables *)
Record crow := CR { cr_name : string; cr_parent : string; cr_joint : string; cr_num : list F }.
Record srow := SR { sr_name : string; sr_stl : string; sr_link : string; sr_num : list F }.

(** link_t, cad2ztk.c 7-14; the pointer to the parent is an index. *)
Record clink := CL { cl_name : string; cl_pname : string; cl_joint : string; cl_parent : option nat; cl_frame : frame F; cl_mp : mp F }.
(** shape_t, cad2ztk.c 85-90. *)
Record cshape := CS { cs_name : string; cs_stl : string; cs_link : nat; cs_frame : frame F }.

(** One row of link_array_read_csv, cad2ztk.c 57-77: the nine components of the attitude are stored
    in the order of memory, which is by columns. *)
Definition read_link (r : crow) : option clink :=
  match cr_num r with
  | px :: py :: pz :: a0 :: a1 :: a2 :: a3 :: a4 :: a5 :: a6 :: a7 :: a8 :: m :: cx :: cy :: cz :: xx :: xy :: xz :: yy :: yz :: zz :: _ =>
    Some (CL (cr_name r) (cr_parent r) (cr_joint r) None
      (Fr (V3 px py pz) (M3 (V3 a0 a1 a2) (V3 a3 a4 a5) (V3 a6 a7 a8)))
      (MP m (V3 cx cy cz) (m3create xx xy xz xy yy yz xz yz zz)))
  | _ => None
  end.
(** link_array_find_link, cad2ztk.c 18-25. *)
Definition find_clink (ls : list clink) (s : string) : option nat := find_name (map cl_name ls) s.
(** link_array_assoc_parent, cad2ztk.c 27-43: [false] when a parent is not there. *)
Definition assoc_one (ls : list clink) (l : clink) : clink * bool :=
  let set p := CL (cl_name l) (cl_pname l) (cl_joint l) p (cl_frame l) (cl_mp l) in
  if String.eqb (cl_pname l) "nil" then (set None, true)
  else match find_clink ls (cl_pname l) with Some p => (set (Some p), true) | None => (set None, false) end.
Definition assoc_parent (ls : list clink) : list clink * bool :=
  (map (fun l => fst (assoc_one ls l)) ls, forallb (fun l => snd (assoc_one ls l)) ls).
(** One row of shape_array_read_csv, cad2ztk.c 108-121; a link that is not there is dereferenced in line 121. *)
Definition read_shape (ls : list clink) (r : srow) : option cshape :=
  obind (find_clink ls (sr_link r)) (fun k =>
  match sr_num r with
  | px :: py :: pz :: a0 :: a1 :: a2 :: a3 :: a4 :: a5 :: a6 :: a7 :: a8 :: _ =>
    Some (CS (sr_name r) (sr_stl r) k (Fr (V3 px py pz) (M3 (V3 a0 a1 a2) (V3 a3 a4 a5) (V3 a6 a7 a8))))
  | _ => None
  end).

(** ** Output *)

(** The frame of a link relative to the parent, cad2ztk.c 344-347 and 420-423. *)
Definition rel_frame (ls : list clink) (l : clink) : option (frame F) :=
  match cl_parent l with None => Some (cl_frame l) | Some p => option_map (fun lp => frel (cl_frame lp) (cl_frame l)) (nth_error ls p) end.
Definition own_mp (l : clink) : mp F := mp_gmm2kgm (mp_xforminv (cl_mp l) (cl_frame l)).
(** cad2ztk_output_ztk_link_shape, cad2ztk.c 395-405. *)
Definition shapes_on (ss : list cshape) (i : nat) : list cshape := filter (fun s => Nat.eqb (cs_link s) i) ss.
(** cad2ztk_output_ztk_link, cad2ztk.c 407-434. *)
Definition ztk_link (ls : list clink) (ss : list cshape) (i : nat) (l : clink) : option (list (key F)) :=
  obind (rel_frame ls l) (fun f =>
  option_map (fun kp => [KName (cl_name l); KJointType (cl_joint l); KFrame (Fr (v3scale (nrat 1 1000) (fpos f)) (fatt f));
         KMass (mp_mass (own_mp l)); KCOM (mp_com (own_mp l)); KInertia (mp_inertia (own_mp l))] ++
        map (fun s => KShape (cs_name s)) (shapes_on ss i) ++ kp)
    (match cl_parent l with None => Some [] | Some p => option_map (fun lp => [KParent (cl_name lp)]) (nth_error ls p) end)).
Fixpoint ztk_links (ls : list clink) (ss : list cshape) (i : nat) (t : list clink) : option (list (list (key F))) :=
  match t with [] => Some [] | l :: t => obind (ztk_link ls ss i l) (fun s => option_map (cons s) (ztk_links ls ss (S i) t)) end.
(** cad2ztk_output_ztk, cad2ztk.c 436-458 (and the names of shapes, 381-393). *)
Definition cad_ztk (nm : string) (ls : list clink) (ss : list cshape) : option (ztk F) :=
  option_map (fun secs => Ztk [KName nm] (map cs_name ss) [] secs []) (ztk_links ls ss 0 ls).
(** shape_array_output_stlconv_sh, cad2ztk.c 126-157: for each shape the translation and the components
    of the rotation given to the converter of STL files. *)
Record conv := Conv { cv_from : string; cv_to : string; cv_t : list F; cv_r : list F }.
Definition rows9 (m : mat3 F) : list F :=
  [vx (mc0 m); vx (mc1 m); vx (mc2 m); vy (mc0 m); vy (mc1 m); vy (mc2 m); vz (mc0 m); vz (mc1 m); vz (mc2 m)].
Definition stl_conv (ls : list clink) (s : cshape) : option conv :=
  option_map (fun l => let f := frel (cl_frame l) (cs_frame s) in
    Conv (cs_stl s) (cs_name s) (l3 (fpos f)) (rows9 (fatt f))) (nth_error ls (cs_link s)).

(** *** URDF *)
(** cad2ztk_output_urdf_jointtype, cad2ztk.c 274-289 ([None]: NULL). *)
Definition urdf_joint (s : string) : option string := find (fun t => String.eqb t s) ["fixed"; "revolute"; "prismatic"; "float"]%string.
Definition xtxt (s : string) : aval F := AV s [].
Definition xnum (l : list F) : aval F := AV "" l.
(** cad2ztk_output_urdf_link_shape, cad2ztk.c 291-306. *)
Definition urdf_visual (s : cshape) : xml F :=
  Elem "visual" [] [Elem "geometry" [] [Elem "mesh" [("filename"%string, xtxt (cs_name s))] []];
                    Elem "origin" [("xyz"%string, xnum [0; 0; 0]); ("rpy"%string, xnum [0; 0; 0])] []].
(** cad2ztk_output_urdf_link, cad2ztk.c 308-330. *)
Definition urdf_link (ss : list cshape) (i : nat) (l : clink) : xml F :=
  let m := own_mp l in
  Elem "link" [("name"%string, xtxt (cl_name l))] (map urdf_visual (shapes_on ss i) ++
    [Elem "inertial" [] [Elem "mass" [("value"%string, xnum [mp_mass m])] []; Elem "origin" [("xyz"%string, xnum (l3 (mp_com m)))] [];
       Elem "inertia" [("ixx"%string, xnum [vx (mc0 (mp_inertia m))]); ("ixy"%string, xnum [vx (mc1 (mp_inertia m))]); ("ixz"%string, xnum [vx (mc2 (mp_inertia m))]);
                       ("iyy"%string, xnum [vy (mc1 (mp_inertia m))]); ("iyz"%string, xnum [vy (mc2 (mp_inertia m))]); ("izz"%string, xnum [vz (mc2 (mp_inertia m))])] []]]).
(** cad2ztk_output_urdf_joint, cad2ztk.c 332-358; a null pointer printed with %s is undefined. *)
Definition urdf_joint_xml (ls : list clink) (l : clink) : option (xml F) :=
  obind (urdf_joint (cl_joint l)) (fun t =>
  option_map (fun f => Elem "joint" [("name"%string, xtxt (cl_name l)); ("type"%string, xtxt t)]
    [Elem "parent" [("link"%string, xtxt (cl_pname l))] []; Elem "child" [("link"%string, xtxt (cl_name l))] [];
     Elem "origin" [("xyz"%string, xnum (l3 (v3scale (nrat 1 1000) (fpos f)))); ("rpy"%string, xnum (l3 (x_m2zyx (fatt f))))] [];
     Elem "axis" [("xyz"%string, xnum [0; 0; 1])] []]) (rel_frame ls l)).
Fixpoint urdf_links (ss : list cshape) (i : nat) (ls : list clink) : list (xml F) :=
  match ls with [] => [] | l :: t => urdf_link ss i l :: urdf_links ss (S i) t end.
(** cad2ztk_output_urdf, cad2ztk.c 360-377. *)
Definition cad_urdf (nm : string) (ls : list clink) (ss : list cshape) : option (xml F) :=
  option_map (fun js => Elem "robot" [("name"%string, xtxt nm)] (urdf_links ss 0 ls ++ js)) (omap (urdf_joint_xml ls) ls).

(** ** The program *)
Inductive cad_file := OutZtk (f : ztk F) | OutUrdf (x : xml F).
Record cad_out := CO { co_script : list conv; co_file : cad_file }.
(** main, cad2ztk.c 460-492, from the reading of the tables on (line 471); inner [None]: nothing is written. *)
Definition cad2ztk (urdf : bool) (nm : string) (rows : list crow) (srows : list srow) : option (option cad_out) :=
  match rows with
  | [] => Some None
  | _ =>
    obind (omap read_link rows) (fun ls0 =>
    let '(ls, ok) := assoc_parent ls0 in
    if ok then
      obind (omap (read_shape ls) srows) (fun ss =>
      obind (omap (stl_conv ls) ss) (fun cv =>
      option_map (fun f => Some (CO cv f))
        (if urdf then option_map OutUrdf (cad_urdf nm ls ss) else option_map OutZtk (cad_ztk nm ls ss))))
    else Some None)
  end.
(** The command line after zOptionRead: the flags and the name of the model, given by -n or as an argument. *)
Record cad_args := CA { ca_help : bool; ca_doc : bool; ca_urdf : bool; ca_name : option string }.
(** cad2ztk_usage and cad2ztk_how_to_use, cad2ztk.c 186-244: print, then exit whatever comes [next]. *)
Definition exits (next : option (option cad_out)) : option (option cad_out) := Some None.
(** cad2ztk_read_cmdarg, cad2ztk.c 246-265, and main, 460-492 (with arguments). *)
Definition cad2ztk_main (a : cad_args) (rows : list crow) (srows : list srow) : option (option cad_out) :=
  exits (
  let go := match ca_name a with Some nm => cad2ztk (ca_urdf a) nm rows srows | None => Some None end in
  if ca_help a then exits go else if ca_doc a then exits go else go).
End Cad.
Arguments crow : clear implicits. Arguments srow : clear implicits. Arguments clink : clear implicits. Arguments cshape : clear implicits.
Arguments conv : clear implicits. Arguments cad_file : clear implicits. Arguments cad_out : clear implicits.
