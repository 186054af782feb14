(** * Cad_Spec: tables of a mechanism in CAD units and what they mean, independently of the converter. *)
From Coq Require Import String List Arith ZArith.
From Verif Require Import Num Vec Motor_Model Joint_Model Joint_Spec Body_Model Tree Link_Model IK_Model Ztk_Model Urdf_Model Cad_Model.
Import ListNotations.

Section CadSpec.
Context {F : Type} {N : Num F} {E : Ext F}.
Local Open Scope num_scope.

(** A link: its frame in the world (mm), mass (g), centre of mass in the world (mm), and the inertia
    tensor about the centre of mass along the axes of the world (g mm^2), all in the home position. *)
Record trow := TR { t_name : string; t_parent : option string; t_joint : jtype; t_frame : frame F; t_mp : mp F }.
Record tshape := TS { ts_name : string; ts_stl : string; ts_link : string; ts_frame : frame F }.

(** As rows of CSV files, with the order of columns in the documentation the program prints. *)
Definition nine (m : mat3 F) : list F := l3 (mc0 m) ++ l3 (mc1 m) ++ l3 (mc2 m).
Definition row_csv (r : trow) : crow F :=
  CR (t_name r) (match t_parent r with Some p => p | None => "nil"%string end) (jtype_str (t_joint r))
     (l3 (fpos (t_frame r)) ++ nine (fatt (t_frame r)) ++ [mp_mass (t_mp r)] ++ l3 (mp_com (t_mp r)) ++
      [vx (mc0 (mp_inertia (t_mp r))); vx (mc1 (mp_inertia (t_mp r))); vx (mc2 (mp_inertia (t_mp r)));
       vy (mc1 (mp_inertia (t_mp r))); vy (mc2 (mp_inertia (t_mp r))); vz (mc2 (mp_inertia (t_mp r)))]).
Definition shape_csv (s : tshape) : srow F := SR (ts_name s) (ts_stl s) (ts_link s) (l3 (fpos (ts_frame s)) ++ nine (fatt (ts_frame s))).

(** One tree whose root is in the first row. *)
Inductive treach (t : list trow) : string -> Prop :=
| tr_root r rest : t = r :: rest -> treach t (t_name r)
| tr_child r p : In r t -> t_parent r = Some p -> treach t p -> treach t (t_name r).
Definition tree_table (t : list trow) : Prop :=
  (exists r rest, t = r :: rest /\ t_parent r = None) /\ NoDup (map t_name t) /\
  (forall r, In r t -> treach t (t_name r)) /\
  (forall r p, In r t -> t_parent r = Some p -> In p (map t_name t) /\ p <> "nil"%string).
Definition valid_table (t : list trow) : Prop :=
  tree_table t /\ forall r, In r t -> rigid (t_frame r) /\ m3tr (mp_inertia (t_mp r)) = mp_inertia (t_mp r).
Definition valid_shapes (t : list trow) (ss : list tshape) : Prop := forall s, In s ss -> In (ts_link s) (map t_name t).

(** Joints that have a name in the URDF writer. *)
Definition supported (t : list trow) : Prop := forall r, In r t -> In (t_joint r) [TFixed; TRevol; TPrism; TFloat].
(** The name of an XML element. *)
Definition xname (x : xml F) : option string := option_map av_text (x_find x "name").
(** The external function gives the angles of an attitude. *)
Definition zyx_exact {C : CadExt F} (m : mat3 F) : Prop := m3zyx (vx (x_m2zyx m)) (vy (x_m2zyx m)) (vz (x_m2zyx m)) = m.

(** Units: a thousandth of each. *)
Definition milli : F := nrat 1 1000.
Definition metres (f : frame F) : frame F := Fr (v3scale milli (fpos f)) (fatt f).
Definition kilograms (m : mp F) : mp F := MP (milli * mp_mass m) (v3scale milli (mp_com m)) (m3scale (milli * (milli * milli)) (mp_inertia m)).

(** What a link of the chain must be. *)
Record as_table (t : list trow) (ss : list tshape) (shapes : list string) (h : list (link F)) (r : trow) (l : link F) : Prop := AsTable {
  at_name : l_name l = t_name r;
  at_joint : jtype_of (l_joint l) = t_joint r;
  at_parent : match t_parent r with
              | None => l_parent l = None
              | Some p => exists q lq, l_parent l = Some q /\ nth_error h q = Some lq /\ l_name lq = p
              end;
  at_shapes : map (nth_error shapes) (b_shapes (l_body l)) = map Some (rev (map ts_name (filter (fun s => String.eqb (ts_link s) (t_name r)) ss))) }.
End CadSpec.
Arguments trow : clear implicits. Arguments tshape : clear implicits.
