(** * Ztk_Model: chain description files (the ZTK readers and printers of rk_chain.c, rk_link.c,
    rk_joint_*.c, rk_motor*.c) at the level of keys.

    The text layer (ZTKParse, fprintf, %.10g rounding) is not modelled: a file is a list of sections,
    a section is a list of keys with their values.  Printing a number and reading it back is taken
    to be exact.  A key's values are those ZTKDouble, ZTKVal, zVec3DFromZTK etc. deliver; a key with
    too few values gives [None]. *)

From Coq Require Import List String ZArith.
From Verif Require Import Num Vec Motor_Model Joint_Model Body_Model Tree Link_Model.
Import ListNotations.
Set Implicit Arguments.

(** What is not fixed by the sources of this library: the string zName gives for an object without
    a name, whether ZTKEvalTag goes on after a section whose handler failed, and whether ZTKEvalKey
    goes on after a key whose handler failed (it returns NULL either way). *)
Class ZtkLib := mkZtkLib { z_noname : string; z_stop_tag : bool; z_stop_key : bool }.

Inductive dcfield := DFk | DFadmit | DFmax | DFmin | DFratio | DFinertia | DFigear | DFcompk | DFcompl.

Section Ztk.
Context {F : Type} {N : Num F} {E : Ext F} {Z : ZtkLib}.
Local Open Scope num_scope.

(** The keys: __ztk_prp_rklink and __ztk_prp_rklink_parent (rk_link.c 332-349), the joint tables
    (rk_joint_revol.c 323-332, rk_joint_prism.c 310-319, rk_joint_cylin.c 369-378, rk_joint_hooke.c 337-346,
    rk_joint_spher.c 252-255, rk_joint_float.c 243-245, rk_joint_brfloat.c 291-295), the motor tables
    (rk_motor.c 63-66, rk_motor_dc.c 134-144, rk_motor_trq.c 63-66; the latter's max and min are [KMax], [KMin])
    and __ztk_prp_rkchain_initkey (rk_chain.c 655-660).  [KFrame] is both "frame" and "DH" with the
    frame read; [KRot] has the angle-axis vector read. *)
Inductive key :=
| KName (s : string) | KType (s : string) | KDC (f : dcfield) (x : F)
| KJointType (s : string) | KMass (x : F) | KStuff (s : string) | KCOM (v : vec3 F) | KInertia (m : mat3 F)
| KPos (v : vec3 F) | KAtt (m : mat3 F) | KRot (v : vec3 F) | KFrame (f : frame F) | KShape (s : string) | KParent (s : string)
| KDis (l : list F) | KMin (l : list (option F)) | KMax (l : list (option F))
| KStiff (l : list F) | KVisc (l : list F) | KCoul (l : list F) | KSf (l : list F) | KMotor (s : string)
| KForceTh (x : option F) | KTorqueTh (x : option F)
| KJoint (s : string) (l : list F).

(** A file: [chain], shapes (their names; the sections [optic] and [shape] are read and printed by
    ZEO), [motor]s, [link]s, [init]. *)
Record ztk := Ztk { z_chain : list key; z_shapes : list string; z_motors : list (list key); z_links : list (list key); z_init : list key }.

(** ZTKEvalKey: the handler of each key of the section in file order; the flag is "did not return NULL".
    A key that is not in the table leaves the object alone. *)
Fixpoint eval_keys {A : Type} (h : A -> key -> option (A * bool)) (s : A) (l : list key) : option (A * bool) :=
  match l with
  | [] => Some (s, true)
  | k :: t => obind (h s k) (fun '(s', ok) =>
              if ok then eval_keys h s' t
              else if z_stop_key then Some (s', false)
              else option_map (fun '(s'', _) => (s'', false)) (eval_keys h s' t))
  end.
(** ZTKEvalTag on the sections with one tag; [i] counts them. *)
Fixpoint eval_tag {A : Type} (h : nat -> A -> list key -> option (A * bool)) (i : nat) (s : A) (l : list (list key)) : option A :=
  match l with
  | [] => Some s
  | k :: t => obind (h i s k) (fun '(s', ok) =>
              if andb (negb ok) z_stop_tag then Some s' else eval_tag h (S i) s' t)
  end.
(** zName. *)
Definition zname (o : option string) : string := match o with Some s => s | None => z_noname end.

(** ** Motors *)

(** An element of the motor array: name and, when com is not NULL, the table with the properties. *)
Record mslot := Slot { s_name : option string; s_kind : option (mkind F) }.
(** __ztk_prp_rkmotor, rk_motor.c 48-66. *)
Definition motor_key (s : mslot) (k : key) : option (mslot * bool) :=
  Some (match k with
        | KName n => (Slot (Some n) (s_kind s), true)
        | KType t => match motor_query_assign (Mot (s_name s) MNone) t with
                     | Some m => (Slot (s_name s) (Some (m_kind m)), true)
                     | None => (s, false)
                     end
        | _ => (s, true)
        end).
(** rk_motor_dc.c 70-104. *)
Definition dc_set (f : dcfield) (x : F) (p : dcprp F) : dcprp F :=
  match f with
  | DFk => DC (dc_e p) (dc_tf p) x (dc_admit p) (dc_max p) (dc_min p) (dc_ratio p) (dc_inertia p) (dc_igear p) (dc_compk p) (dc_compl p)
  | DFadmit => DC (dc_e p) (dc_tf p) (dc_k p) x (dc_max p) (dc_min p) (dc_ratio p) (dc_inertia p) (dc_igear p) (dc_compk p) (dc_compl p)
  | DFmax => DC (dc_e p) (dc_tf p) (dc_k p) (dc_admit p) x (dc_min p) (dc_ratio p) (dc_inertia p) (dc_igear p) (dc_compk p) (dc_compl p)
  | DFmin => DC (dc_e p) (dc_tf p) (dc_k p) (dc_admit p) (dc_max p) x (dc_ratio p) (dc_inertia p) (dc_igear p) (dc_compk p) (dc_compl p)
  | DFratio => DC (dc_e p) (dc_tf p) (dc_k p) (dc_admit p) (dc_max p) (dc_min p) x (dc_inertia p) (dc_igear p) (dc_compk p) (dc_compl p)
  | DFinertia => DC (dc_e p) (dc_tf p) (dc_k p) (dc_admit p) (dc_max p) (dc_min p) (dc_ratio p) x (dc_igear p) (dc_compk p) (dc_compl p)
  | DFigear => DC (dc_e p) (dc_tf p) (dc_k p) (dc_admit p) (dc_max p) (dc_min p) (dc_ratio p) (dc_inertia p) x (dc_compk p) (dc_compl p)
  | DFcompk => DC (dc_e p) (dc_tf p) (dc_k p) (dc_admit p) (dc_max p) (dc_min p) (dc_ratio p) (dc_inertia p) (dc_igear p) x (dc_compl p)
  | DFcompl => DC (dc_e p) (dc_tf p) (dc_k p) (dc_admit p) (dc_max p) (dc_min p) (dc_ratio p) (dc_inertia p) (dc_igear p) (dc_compk p) x
  end.
(** The tables of the three motor classes. *)
Definition mkind_key (m : mkind F) (k : key) : option (mkind F * bool) :=
  match m, k with
  | MDC p, KDC f x => Some (MDC (dc_set f x p), true)
  | MTrq p, KMax l => option_map (fun x => (MTrq (TQ (tq_input p) (tq_min p) x), true)) (rd1 l)
  | MTrq p, KMin l => option_map (fun x => (MTrq (TQ (tq_input p) x (tq_max p)), true)) (rd1 l)
  | _, _ => Some (m, true)
  end.
(** rkMotorFromZTK, rk_motor.c 68-74 ([None]: a section without type, where com is NULL). *)
Definition motor_read (ks : list key) : option (mslot * bool) :=
  obind (eval_keys motor_key (Slot None None) ks) (fun '(s, ok) =>
  if ok then obind (s_kind s) (fun m => option_map (fun '(m', _) => (Slot (s_name s) (Some m'), true)) (eval_keys mkind_key m ks))
  else Some (s, false)).
(** rkMotorFPrintZTK, rk_motor.c 76-82. *)
Definition mkind_print (m : mkind F) : list key :=
  match m with
  | MNone => []
  | MDC p => [KDC DFk (dc_k p); KDC DFadmit (dc_admit p); KDC DFmax (dc_max p); KDC DFmin (dc_min p); KDC DFratio (dc_ratio p);
              KDC DFinertia (dc_inertia p); KDC DFigear (dc_igear p); KDC DFcompk (dc_compk p); KDC DFcompl (dc_compl p)]
  | MTrq p => [KMax [tq_max p]; KMin [tq_min p]]
  end.
Definition motor_print (s : mslot) : option (list key) :=
  option_map (fun m => [KName (zname (s_name s)); KType (mcom_typestr (mcom_of (Mot (s_name s) m)))] ++ mkind_print m) (s_kind s).
(** rkMotorArrayFind, rk_motor.c 106-115, on the array being read. *)
Definition slot_find (arr : list mslot) (name : string) : option mslot :=
  find (fun s => match s_name s with Some n => String.eqb n name | None => false end) arr.

(** ** Joints *)

(** zRad2Deg, zDeg2Rad. *)
Definition to_deg (x : F) : F := x * nrat 180 1 / x_pi.
Definition to_rad (x : F) : F := x * x_pi / nrat 180 1.
(** Which components are angles given in degrees. *)
Definition units (t : jtype) : list bool :=
  match t with
  | TFixed => [] | TRevol => [true] | TPrism => [false] | TCylin => [false; true] | THooke => [true; true]
  | TSpher => [false; false; false] | TFloat | TBrFloat => [false; false; false; false; false; false] end.
Fixpoint conv {A : Type} (f : A -> A) (us : list bool) (l : list A) : list A :=
  match us, l with
  | u :: us', x :: l' => (if u then f x else x) :: conv f us' l'
  | _, _ => []
  end.
Definition has_axes (t : jtype) : bool := match t with TRevol | TPrism | TCylin | THooke => true | _ => false end.
(** One coefficient of each axis: rk_joint_revol.c 273-288, rk_joint_prism.c 263-278, rk_joint_cylin.c 304-323, rk_joint_hooke.c 286-305. *)
Definition joint_coef (g : F -> ax1 F -> ax1 F) (j : joint F) (l : list F) : option (joint F) :=
  if has_axes (jtype_of j) then joint_set_gen g (fun _ s => s) (fun _ f => f) j l else Some j.
Definition ax_stiff (x : F) (a : ax1 F) := ax_coef x (a_visc a) (a_coul a) (a_sf a) a.
Definition ax_visc (x : F) (a : ax1 F) := ax_coef (a_stiff a) x (a_coul a) (a_sf a) a.
Definition ax_coul (x : F) (a : ax1 F) := ax_coef (a_stiff a) (a_visc a) x (a_sf a) a.
Definition ax_sf (x : F) (a : ax1 F) := ax_coef (a_stiff a) (a_visc a) (a_coul a) x a.
(** _rkJoint*MotorFromZTK (rk_joint_revol.c 289-293 etc.): the array is NULL when the file has no
    [motor] section, and rkMotorArrayFind does not check that. *)
Definition joint_motor_key (arr : option (list mslot)) (j : joint F) (s : string) : option (joint F * bool) :=
  match joint_motor j with
  | None => Some (j, true)
  | Some m =>
    obind arr (fun a =>
    match slot_find a s with
    | None => Some (j, false)
    | Some sl => option_map (fun k => (joint_set_motor j (motor_clone (Mot (s_name sl) k) m), true)) (s_kind sl)
    end)
  end.
Definition okay {A} (x : option A) : option (A * bool) := option_map (fun a => (a, true)) x.
(** The joint tables. *)
Definition joint_key (arr : option (list mslot)) (j : joint F) (k : key) : option (joint F * bool) :=
  let us := units (jtype_of j) in
  match k with
  | KDis l => okay (joint_set_dis j (conv to_rad us l))
  | KMin l => okay (joint_set_min j (conv (option_map to_rad) us l))
  | KMax l => okay (joint_set_max j (conv (option_map to_rad) us l))
  | KStiff l => okay (joint_coef ax_stiff j l)
  | KVisc l => okay (joint_coef ax_visc j l)
  | KCoul l => okay (joint_coef ax_coul j l)
  | KSf l => okay (joint_coef ax_sf j l)
  | KMotor s => joint_motor_key arr j s
  | KForceTh x => Some (match j with JBrFloat f _ b => JBrFloat f x b | _ => j end, true)
  | KTorqueTh x => Some (match j with JBrFloat f a _ => JBrFloat f a x | _ => j end, true)
  | _ => Some (j, true)
  end.
(** The printers of the joint tables. *)
Definition joint_dis_print (j : joint F) : list F := conv to_deg (units (jtype_of j)) (joint_get_dis j).
Definition joint_print (j : joint F) : list key :=
  let us := units (jtype_of j) in
  match jtype_of j with TFixed => [] | _ => [KDis (joint_dis_print j)] end ++
  (if has_axes (jtype_of j) then
     [KMin (conv (option_map to_deg) us (joint_get_min j)); KMax (conv (option_map to_deg) us (joint_get_max j));
      KStiff (joint_get_gen a_stiff sp_aa fl_dis j); KVisc (joint_get_gen a_visc sp_aa fl_dis j);
      KCoul (joint_get_gen a_coul sp_aa fl_dis j); KSf (joint_get_gen a_sf sp_aa fl_dis j)]
   else []) ++
  match joint_motor j with Some m => [KMotor (zname (m_name m))] | None => [] end ++
  match j with JBrFloat _ a b => [KForceTh a; KTorqueTh b] | _ => [] end.

(** ** Links *)

(** A link while it is read: the name and the joint's com may still be NULL. *)
Record rlink := RL { rl_name : option string; rl_joint : option (joint F); rl_body : body F; rl_org : frame F }.
Definition b_set_mp (f : mp F -> mp F) (b : body F) : body F := body_set_mp b (f (b_mp b)).
Definition b_set_stuff (s : string) (b : body F) : body F :=
  Body (b_mp b) (b_frame b) (b_vel b) (b_acc b) (b_wcom b) (b_comvel b) (b_comacc b) (b_extw b) (b_shapes b) (Some s).
(** rkBodyShapePush, rk_body.h 318: insertion at the tail, the front of the order of zListForEach. *)
Definition b_push_shape (i : nat) (b : body F) : body F :=
  Body (b_mp b) (b_frame b) (b_vel b) (b_acc b) (b_wcom b) (b_comvel b) (b_comacc b) (b_extw b) (i :: b_shapes b) (b_stuff b).
(** zArrayFindName: index of the first element with the name. *)
Fixpoint find_name (l : list string) (s : string) : option nat :=
  match l with
  | [] => None
  | n :: t => if String.eqb n s then Some 0%nat else option_map S (find_name t s)
  end.
(** __ztk_prp_rklink, rk_link.c 239-309 and 332-345.  [names]: the names set so far in the link array;
    [shapes]: empty when the file has no [shape] section, the array is then NULL. *)
Definition link_key (names : list string) (shapes : list string) (r : rlink) (k : key) : option (rlink * bool) :=
  let up b := Some (RL (rl_name r) (rl_joint r) b (rl_org r), true) in
  let org f := Some (RL (rl_name r) (rl_joint r) (rl_body r) f, true) in
  match k with
  | KName s => Some (if existsb (String.eqb s) names then (r, false) else (RL (Some s) (rl_joint r) (rl_body r) (rl_org r), true))
  | KJointType s => option_map (fun '(j, ok) => (if ok : bool then RL (rl_name r) (Some j) (rl_body r) (rl_org r) else r, ok)) (joint_query_assign JFixed s)
  | KMass x => up (b_set_mp (fun m => MP x (mp_com m) (mp_inertia m)) (rl_body r))
  | KStuff s => up (b_set_stuff s (rl_body r))
  | KCOM v => up (b_set_mp (fun m => MP (mp_mass m) v (mp_inertia m)) (rl_body r))
  | KInertia i => up (b_set_mp (fun m => MP (mp_mass m) (mp_com m) i) (rl_body r))
  | KPos v => org (Fr v (fatt (rl_org r)))
  | KAtt m => org (Fr (fpos (rl_org r)) m)
  | KRot v => org (Fr (fpos (rl_org r)) (m3mul (x_aa2m v) (fatt (rl_org r))))
  | KFrame f => org f
  | KShape s => match shapes with
                | [] => None
                | _ => match find_name shapes s with
                       | None => Some (r, false)
                       | Some i => up (b_push_shape i (rl_body r))
                       end
                end
  | _ => Some (r, true)
  end.
(** rkLinkFromZTK, rk_link.c 351-363; rkJointFromZTK returns NULL when a key of the joint fails, which is ignored. *)
Definition link_read (names shapes : list string) (arr : option (list mslot)) (ks : list key) : option (rlink * bool) :=
  obind (eval_keys (link_key names shapes) (RL None None body_init fid) ks) (fun '(r, ok) =>
  if ok then
    obind (match rl_joint r with Some j => Some j | None => joint_assign TFixed end) (fun j =>
    option_map (fun '(j', _) => (RL (rl_name r) (Some j') (rl_body r) (rl_org r), true)) (eval_keys (joint_key arr) j ks))
  else Some (r, false)).
(** rkLinkFPrintZTK, rk_link.c 374-386 ([None]: the stuff is NULL and printed with %s, or a reference
    leaves its array). *)
Fixpoint omap {A B} (f : A -> option B) (l : list A) : option (list B) :=
  match l with [] => Some [] | a :: t => obind (f a) (fun b => option_map (cons b) (omap f t)) end.
Definition link_print (names shapes : list string) (l : link F) : option (list key) :=
  let b := l_body l in
  obind (b_stuff b) (fun st =>
  obind (omap (nth_error shapes) (b_shapes b)) (fun ss =>
  obind (match l_parent l with None => Some [] | Some p => option_map (fun n => [KParent n]) (nth_error names p) end) (fun par =>
  Some ([KName (l_name l); KJointType (joint_typestr (l_joint l)); KMass (l_mass l); KStuff st; KCOM (l_com l);
         KInertia (mp_inertia (b_mp b)); KPos (fpos (l_org l)); KAtt (fatt (l_org l))]
        ++ joint_print (l_joint l) ++ map KShape ss ++ par)))).
(** _rkLinkParentFromZTK and rkLinkConnectFromZTK, rk_link.c 289-298 and 365-372. *)
Definition connect_key (i : nat) (h : list (link F)) (k : key) : option (list (link F) * bool) :=
  match k with
  | KParent s => match find_name (map l_name h) s with
                 | None => Some (h, false)
                 | Some p => okay (add_child h p i)
                 end
  | _ => Some (h, true)
  end.

(** ** Chains *)

(** rkChain with its name and its shape and motor arrays (no shapes: NULL; no motors: [None], NULL). *)
Record robot := Robot { rb_name : option string; rb_shapes : list string; rb_motors : option (list mslot); rb_chain : chain F }.

(** __ztk_prp_rkchain_initkey, rk_chain.c 619-660.  The joint key calls _dis_fromZTK, which the fixed
    joint does not have ([None], rk_joint_fixed.c 144). *)
Definition init_key (h : list (link F)) (k : key) : option (list (link F) * bool) :=
  let root f := option_map (fun l => (lset 0 (Link (l_name l) (l_joint l) (l_body l) (l_offset l) (f (l_org l)) (l_adj l) (l_wrench l) (l_parent l) (l_child l) (l_sibl l)) h, true)) (nth_error h 0) in
  match k with
  | KPos v => root (fun o => Fr v (fatt o))
  | KAtt m => root (fun o => Fr (fpos o) m)
  | KFrame f => root (fun _ => f)
  | KJoint s d =>
    match find_name (map l_name h) s with
    | None => Some (h, false)
    | Some i => obind (nth_error h i) (fun l =>
                match l_joint l with
                | JFixed => None
                | j => option_map (fun '(j', _) => (lset i (l_set_joint j' l) h, true)) (joint_key None j (KDis d))
                end)
    end
  | _ => Some (h, true)
  end.
(** _rkChainInitFPrintZTK, rk_chain.c 668-681. *)
Definition init_joint_print (l : link F) : list key :=
  if orb (Nat.eqb (joint_size (l_joint l)) 0) (joint_is_neutral (l_joint l)) then []
  else [KJoint (l_name l) (joint_dis_print (l_joint l))].
Definition init_print (h : list (link F)) : option (list key) :=
  option_map (fun r => [KPos (fpos (l_org r)); KAtt (fatt (l_org r))] ++ flat_map init_joint_print h) (nth_error h 0).

(** rkChainFPrintZTK, rk_chain.c 736-752. *)
Definition robot_print (rb : robot) : option ztk :=
  let h := c_links (rb_chain rb) in
  obind (match rb_motors rb with None => Some [] | Some a => omap motor_print a end) (fun ms =>
  obind (omap (link_print (map l_name h) (rb_shapes rb)) h) (fun ls =>
  option_map (Ztk [KName (zname (rb_name rb))] (rb_shapes rb) ms ls) (init_print h))).

Definition motor_tag (i : nat) (a : list mslot) (ks : list key) : option (list mslot * bool) :=
  option_map (fun '(m, ok) => (set_nth i m a, ok)) (motor_read ks).
Definition named (a : list rlink) : list string := flat_map (fun r => match rl_name r with Some n => [n] | None => [] end) a.
Definition link_tag (shapes : list string) (arr : option (list mslot)) (i : nat) (a : list rlink) (ks : list key) : option (list rlink * bool) :=
  option_map (fun '(r, ok) => (set_nth i r a, ok)) (link_read (named a) shapes arr ks).
Definition connect_tag (i : nat) (h : list (link F)) (ks : list key) : option (list (link F) * bool) := eval_keys (connect_key i) h ks.
(** A link after reading; [None]: its joint has no com, which rkChainSetOffset dereferences. *)
Definition link_done (r : rlink) : option (link F) :=
  option_map (fun j => Link (zname (rl_name r)) j (rl_body r) None (rl_org r) fid v6zero None None None) (rl_joint r).
Definition chain_key (n : option string) (k : key) : option (option string * bool) :=
  Some (match k with KName s => Some s | _ => n end, true).

(** rkChainFromZTK, rk_chain.c 699-733.  Outer [None]: undefined behaviour; inner [None]: NULL returned. *)
Definition robot_read (g : F) (z : ztk) : option (option robot) :=
  match z_links z with
  | [] => Some None
  | _ =>
    obind (match z_motors z with
           | [] => Some None
           | ms => option_map Some (eval_tag motor_tag 0 (repeat (Slot None None) (List.length ms)) ms)
           end) (fun arr =>
    obind (eval_tag (link_tag (z_shapes z) arr) 0 (repeat (RL None None body_zeroed (Fr v3zero m3zero)) (List.length (z_links z))) (z_links z)) (fun a =>
    obind (omap link_done a) (fun h =>
    obind (eval_tag connect_tag 0 h (z_links z)) (fun h =>
    obind (eval_keys chain_key None (z_chain z)) (fun '(nm, _) =>
    obind (eval_keys init_key h (z_init z)) (fun '(h, _) =>
    let c := chain_calc_mass (Chain h 0 v3zero v3zero v3zero) in
    let c := if andb (nleb (c_mass c) 0) (nleb 0 (c_mass c)) then Chain (c_links c) 1 (c_wcom c) (c_comvel c) (c_comacc c) else c in
    obind (chain_update_fk (chain_set_offset c)) (fun c =>
    option_map (fun c => Some (Robot nm (z_shapes z) arr c)) (chain_update_id g c))))))))
  end.

(** rkChainInitFromZTK, rk_chain.c 789-795 (read an [init] section into an existing chain), and
    rkChainInitFPrintZTK, rk_chain.c 797-801. *)
Definition posture_read (g : F) (ks : list key) (c : chain F) : option (chain F) :=
  obind (eval_keys init_key (c_links c) ks) (fun '(h, _) => obind (chain_update_fk (c_set_links h c)) (chain_update_id g)).
Definition posture_print (c : chain F) : option (list key) := init_print (c_links c).
End Ztk.
Arguments key : clear implicits. Arguments ztk : clear implicits. Arguments mslot : clear implicits.
Arguments rlink : clear implicits. Arguments robot : clear implicits.
