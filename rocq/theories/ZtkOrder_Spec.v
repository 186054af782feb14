(** * ZtkOrder_Spec: sections of chain files with the same keys in different orders (C103). *)
From Coq Require Import Bool String List.
From Verif Require Import Num Vec Motor_Model Joint_Model Body_Model Tree Link_Model Ztk_Model.
Import ListNotations.

Section ZOS.
Context {F : Type} {N : Num F} {E : Ext F} {Z : ZtkLib}.

Definition dcfield_eqb (f g : dcfield) : bool :=
  match f, g with
  | DFk, DFk | DFadmit, DFadmit | DFmax, DFmax | DFmin, DFmin | DFratio, DFratio | DFinertia, DFinertia | DFigear, DFigear | DFcompk, DFcompk | DFcompl, DFcompl => true
  | _, _ => false
  end.
(** Keys whose order means something: two of the same kind, for a motor parameter or an initial displacement about the same
    one; those that set the position or the attitude of a frame; displacement and limits. *)
Definition clash (a b : key F) : bool :=
  match a, b with
  | KName _, KName _ | KType _, KType _ | KJointType _, KJointType _ | KMass _, KMass _ | KStuff _, KStuff _ | KCOM _, KCOM _ | KInertia _, KInertia _ => true
  | KShape _, KShape _ | KParent _, KParent _ | KMotor _, KMotor _ | KForceTh _, KForceTh _ | KTorqueTh _, KTorqueTh _ => true
  | KStiff _, KStiff _ | KVisc _, KVisc _ | KCoul _, KCoul _ | KSf _, KSf _ => true
  | KDC f _, KDC g _ => dcfield_eqb f g
  | KJoint s _, KJoint t _ => String.eqb s t
  | (KPos _ | KFrame _), (KPos _ | KFrame _) => true
  | (KAtt _ | KRot _), (KAtt _ | KRot _ | KFrame _) | KFrame _, (KAtt _ | KRot _) => true
  | KDis _, (KDis _ | KMin _ | KMax _) | (KMin _ | KMax _), KDis _ | KMin _, KMin _ | KMax _, KMax _ => true
  | _, _ => false
  end.
(** The same keys, those that clash in the same order. *)
Inductive reordered : list (key F) -> list (key F) -> Prop :=
| ro_refl l : reordered l l
| ro_swap l a b m : clash a b = false -> reordered (l ++ a :: b :: m) (l ++ b :: a :: m)
| ro_trans l m n : reordered l m -> reordered m n -> reordered l n.
(** Two files with the same sections, in which the keys are in different orders. *)
Definition reordered_file (z z' : ztk F) : Prop :=
  reordered (z_chain z) (z_chain z') /\ z_shapes z' = z_shapes z /\ Forall2 reordered (z_motors z) (z_motors z') /\
  Forall2 reordered (z_links z) (z_links z') /\ reordered (z_init z) (z_init z').

(** The names given to links in a section. *)
Definition names_in (ks : list (key F)) : list string := flat_map (fun k => match k with KName s => [s] | _ => [] end) ks.
(** What the file refers to is there: types of motors and joints, shapes, motors and links of the initial state by the
    names they end up with; no link name is given twice. *)
Record resolved (z : ztk F) : Prop := {
  re_motor : forall ks t, In ks (z_motors z) -> In (KType t) ks -> motor_query_assign (F := F) (Mot None MNone) t <> None;
  re_names : NoDup (flat_map names_in (z_links z));
  re_joint : forall ks t, In ks (z_links z) -> In (KJointType t) ks -> joint_query joint_com_array t <> None;
  re_shape : forall ks s, In ks (z_links z) -> In (KShape s) ks -> In s (z_shapes z);
  re_drive : forall ks s, In ks (z_links z) -> In (KMotor s) ks -> exists ms n, In ms (z_motors z) /\ names_in ms = n ++ [s];
  re_init : forall s d, In (KJoint s d) (z_init z) -> exists ls n, In ls (z_links z) /\ names_in ls = n ++ [s] }.
End ZOS.
