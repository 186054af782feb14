(** * Urdf_Spec: robot descriptions as the URDF standard defines them, independently of the converter. *)
From Coq Require Import String List Arith DecimalString.
From Verif Require Import Num Vec Joint_Model Body_Model Link_Model IK_Model Conf_Model Ztk_Model Urdf_Model.
Import ListNotations.

(** ** Documents *)
Inductive utype := UFixed | URevolute | UContinuous | UPrismatic | UFloating | UPlanar.
Definition utype_name (t : utype) : string :=
  match t with UFixed => "fixed" | URevolute => "revolute" | UContinuous => "continuous"
             | UPrismatic => "prismatic" | UFloating => "floating" | UPlanar => "planar" end.

Section UrdfSpec.
Context {F : Type} {N : Num F} {E : Ext F} {U : UrdfExt F}.
Local Open Scope num_scope.

(** An origin: position, and roll, pitch, yaw about fixed axes. *)
Record origin := Org { o_xyz : vec3 F; o_rpy : vec3 F }.
Record inertial := Inert { in_origin : origin; in_mass : F; in_xx : F; in_xy : F; in_xz : F; in_yy : F; in_yz : F; in_zz : F }.
Record visual := Vis { vi_name : option string; vi_origin : origin; vi_geometry : string }.
Record dlink := DL { dl_name : string; dl_inertial : option inertial; dl_visuals : list visual }.
(** Optional parts: axis (default x), limit (lower and upper, each optional), dynamics (damping, friction). *)
Record djoint := DJ { dj_name : string; dj_type : utype; dj_origin : origin; dj_parent : string; dj_child : string;
  dj_axis : option (vec3 F); dj_limit : option (option F * option F); dj_dynamics : option (F * F) }.
Record udoc := Doc { d_name : string; d_links : list dlink; d_joints : list djoint }.

(** As XML, with the names of elements and attributes of the URDF standard. *)
Definition txt (s : string) : aval F := AV s [].
Definition num (l : list F) : aval F := AV "" l.
Definition v3l (v : vec3 F) : list F := [vx v; vy v; vz v].
Definition origin_xml (o : origin) : xml F := Elem "origin" [("xyz"%string, num (v3l (o_xyz o))); ("rpy"%string, num (v3l (o_rpy o)))] [].
Definition inertial_xml (n : inertial) : xml F :=
  Elem "inertial" [] [origin_xml (in_origin n); Elem "mass" [("value"%string, num [in_mass n])] [];
    Elem "inertia" [("ixx"%string, num [in_xx n]); ("ixy"%string, num [in_xy n]); ("ixz"%string, num [in_xz n]);
                    ("iyy"%string, num [in_yy n]); ("iyz"%string, num [in_yz n]); ("izz"%string, num [in_zz n])] []].
Definition opt {A B} (f : A -> B) (o : option A) : list B := match o with None => [] | Some a => [f a] end.
Definition visual_xml (v : visual) : xml F :=
  Elem "visual" (opt (fun n => ("name"%string, txt n)) (vi_name v)) [origin_xml (vi_origin v); Elem "geometry" [] [Elem (vi_geometry v) [] []]].
Definition link_xml (l : dlink) : xml F :=
  Elem "link" [("name"%string, txt (dl_name l))] (opt inertial_xml (dl_inertial l) ++ map visual_xml (dl_visuals l)).
Definition joint_xml (j : djoint) : xml F :=
  Elem "joint" [("name"%string, txt (dj_name j)); ("type"%string, txt (utype_name (dj_type j)))]
    ([origin_xml (dj_origin j); Elem "parent" [("link"%string, txt (dj_parent j))] []; Elem "child" [("link"%string, txt (dj_child j))] []] ++
     opt (fun a => Elem "axis" [("xyz"%string, num (v3l a))] []) (dj_axis j) ++
     opt (fun '(lo, up) => Elem "limit" (opt (fun x => ("lower"%string, num [x])) lo ++ opt (fun x => ("upper"%string, num [x])) up) []) (dj_limit j) ++
     opt (fun '(d, f) => Elem "dynamics" [("damping"%string, num [d]); ("friction"%string, num [f])] []) (dj_dynamics j)).
Definition doc_xml (d : udoc) : xml F :=
  Elem "robot" [("name"%string, txt (d_name d))] (map link_xml (d_links d) ++ map joint_xml (d_joints d)).

(** ** Meaning *)
Definition origin_frame (o : origin) : frame F := Fr (o_xyz o) (m3zyx (vz (o_rpy o)) (vy (o_rpy o)) (vx (o_rpy o))).
Definition axis_of (j : djoint) : vec3 F := match dj_axis j with Some a => a | None => ex end.
(** The motion a joint allows between the joint frame and the child link. *)
Inductive umotion : utype -> vec3 F -> list F -> frame F -> Prop :=
| um_fixed a : umotion UFixed a [] fid
| um_revolute a t : umotion URevolute a [t] (Fr v3zero (rodrigues (x_sin t) (x_cos t) a))
| um_continuous a t : umotion UContinuous a [t] (Fr v3zero (rodrigues (x_sin t) (x_cos t) a))
| um_prismatic a x : umotion UPrismatic a [x] (Fr (v3scale x a) m3id)
| um_floating a x y z p q r : umotion UFloating a [x; y; z; p; q; r] (Fr (V3 x y z) (x_aa2m (V3 p q r))).
(** [upose d q n f]: with displacement [q c] of the joint whose child is link [c], link [n] is at [f] in the
    frame of the first link. *)
Inductive upose (d : udoc) (q : string -> list F) : string -> frame F -> Prop :=
| up_root l rest : d_links d = l :: rest -> upose d q (dl_name l) fid
| up_child j fp m : In j (d_joints d) -> upose d q (dj_parent j) fp -> umotion (dj_type j) (axis_of j) (q (dj_child j)) m ->
    upose d q (dj_child j) (fcascade fp (fcascade (origin_frame (dj_origin j)) m)).
(** Connected to the first link. *)
Inductive reaches (d : udoc) : string -> Prop :=
| re_root l rest : d_links d = l :: rest -> reaches d (dl_name l)
| re_child j : In j (d_joints d) -> reaches d (dj_parent j) -> reaches d (dj_child j).
(** One tree whose root is the first link. *)
Definition valid_doc (d : udoc) : Prop :=
  d_links d <> [] /\ NoDup (map dl_name (d_links d)) /\ NoDup (map dj_child (d_joints d)) /\
  (forall j, In j (d_joints d) -> In (dj_parent j) (map dl_name (d_links d)) /\ In (dj_child j) (map dl_name (d_links d))) /\
  (forall l, In l (d_links d) -> reaches d (dl_name l)) /\
  (forall j l rest, In j (d_joints d) -> d_links d = l :: rest -> dj_child j <> dl_name l) /\
  (forall l v, In l (d_links d) -> In v (dl_visuals l) -> In (vi_geometry v) ["box"; "sphere"; "cylinder"; "mesh"]%string).

(** The mass properties of a link in its frame: the tensor is given in the frame of the inertial element. *)
Definition tensor (n : inertial) : mat3 F :=
  m3create (in_xx n) (in_xy n) (in_xz n) (in_xy n) (in_yy n) (in_yz n) (in_xz n) (in_yz n) (in_zz n).
Definition lmp (l : dlink) : mp F :=
  match dl_inertial l with
  | None => MP 0 v3zero m3zero
  | Some n => MP (in_mass n) (fpos (origin_frame (in_origin n))) (m3rot (fatt (origin_frame (in_origin n))) (tensor n))
  end.
(** A visual element without a name is called after the link and its number. *)
Definition vis_name (lname : string) (k : nat) (v : visual) : string :=
  match vi_name v with Some n => n | None => (lname ++ "_" ++ NilZero.string_of_uint (Nat.to_uint k))%string end.
Definition visual_names (l : dlink) : list string :=
  map (fun p => vis_name (dl_name l) (fst p) (snd p)) (combine (seq 0 (length (dl_visuals l))) (dl_visuals l)).
(** The limits of a joint as written. *)
Definition lower_of (x : djoint) : option F := match dj_limit x with Some (lo, _) => lo | None => None end.
Definition upper_of (x : djoint) : option F := match dj_limit x with Some (_, up) => up | None => None end.
(** The range of a joint as the standard has it: a continuous joint has none, for the others a limit element
    is required, whose attributes default to zero. *)
Definition urange (x : djoint) : option (option F * option F) :=
  match dj_type x with
  | UContinuous => Some (None, None)
  | URevolute | UPrismatic =>
    option_map (fun '(lo, up) => (Some (match lo with Some a => a | None => 0 end), Some (match up with Some a => a | None => 0 end))) (dj_limit x)
  | _ => None
  end.

(** The joints that have an axis. *)
Definition has_axis (t : utype) : bool := match t with URevolute | UContinuous | UPrismatic => true | _ => false end.
(** The frame of a link when no joint is displaced: the product of origins. *)
Inductive home (d : udoc) : string -> frame F -> Prop :=
| ho_root l rest : d_links d = l :: rest -> home d (dl_name l) fid
| ho_child j fp : In j (d_joints d) -> home d (dj_parent j) fp -> home d (dj_child j) (fcascade fp (origin_frame (dj_origin j))).
(** The rotation that turns the z axis to the axis of the joint, both taken in the same frame. *)
Definition align (j : djoint) : mat3 F := if has_axis (dj_type j) then x_aa2m (x_vaaerr ez (axis_of j)) else m3id.
(** The home frame of a link with [align] applied in the frame of the first link. *)
Inductive turned (d : udoc) : string -> frame F -> Prop :=
| tu_root l rest : d_links d = l :: rest -> turned d (dl_name l) fid
| tu_child j f : In j (d_joints d) -> home d (dj_child j) f -> turned d (dj_child j) (Fr (fpos f) (m3mul (align j) (fatt f))).
(** Turning by [align] in the frame of the first link brings the z axis of the joint to its axis. *)
Definition axes_turn (d : udoc) : Prop := forall j f, In j (d_joints d) -> has_axis (dj_type j) = true -> home d (dj_child j) f ->
  m3v (align j) (m3v (fatt f) ez) = m3v (fatt f) (axis_of j).
(** A frame that the printing conditions do not alter. *)
Definition prints_exactly (f : frame F) : Prop :=
  (x_v3tiny (fpos f) = true -> fpos f = v3zero) /\ (x_m3ident (fatt f) = true -> fatt f = m3id).
Definition joints_exact (d : udoc) : Prop := forall j a b, In j (d_joints d) -> turned d (dj_parent j) a -> turned d (dj_child j) b -> prints_exactly (frel a b).
Definition visuals_exact (d : udoc) : Prop := forall l v a b, In l (d_links d) -> In v (dl_visuals l) -> home d (dl_name l) a -> turned d (dl_name l) b ->
  prints_exactly (frel b (fcascade a (origin_frame (vi_origin v)))).

(** Documents with the joint types fixed, revolute, continuous and prismatic. *)
Definition convertible (t : utype) : bool := match t with UFixed | URevolute | UContinuous | UPrismatic => true | _ => false end.
Definition convertible_doc (d : udoc) : Prop := forall x, In x (d_joints d) -> convertible (dj_type x) = true.
(** A rotation from the frame the document gives a link to another one with the same origin: its z axis is the axis
    of the joint; the frames of links without an axis are the same. *)
Definition link_turn (d : udoc) (l : dlink) (r : mat3 F) : Prop :=
  rotation r /\ (forall x, In x (d_joints d) -> dj_child x = dl_name l -> if has_axis (dj_type x) then m3v r ez = axis_of x else r = m3id) /\
  ((forall x, In x (d_joints d) -> dj_child x <> dl_name l) -> r = m3id).
(** No origin of a joint is rotated. *)
Definition unrotated (d : udoc) : Prop := forall x, In x (d_joints d) -> o_rpy (dj_origin x) = v3zero.
(** The mass properties of a link that the printing conditions do not alter. *)
Definition mass_exact (l : dlink) : Prop := mp_mass (lmp l) <> 0 /\ (x_v3tiny (mp_com (lmp l)) = true -> mp_com (lmp l) = v3zero).

(** The displacement of the joint of the link called [n] in a chain. *)
Definition dis_of (h : list (link F)) (n : string) : list F :=
  match find (fun l => String.eqb (l_name l) n) h with Some l => joint_get_dis (l_joint l) | None => [] end.
(** The frame a section gives: keys pos and att, each the identity when missing. *)
Definition section_frame (ks : list (key F)) : frame F :=
  fold_left (fun f k => match k with KPos v => Fr v (fatt f) | KAtt m => Fr (fpos f) m | _ => f end) ks fid.
End UrdfSpec.
Arguments udoc : clear implicits. Arguments dlink : clear implicits. Arguments djoint : clear implicits. Arguments visual : clear implicits.
Arguments inertial : clear implicits. Arguments origin : clear implicits.

(** What the converter relies on: zVec3DAAError turns the one direction into the other unless they are opposite. *)
Class UrdfLaws (F : Type) (N : Num F) (E : Ext F) (U : UrdfExt F) : Prop := mkUrdfLaws {
  x_vaaerr_turns : forall u v : vec3 F, v3sqr u = 1%num -> v3sqr v = 1%num -> v3add u v <> v3zero -> m3v (x_aa2m (x_vaaerr u v)) u = v;
  x_vaaerr_self : forall u : vec3 F, x_vaaerr u u = v3zero
}.
