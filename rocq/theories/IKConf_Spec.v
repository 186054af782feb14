(** * IKConf_Spec: what a configuration file of the inverse kinematics solver says. *)
From Coq Require Import String List Arith Bool ZArith.
From Verif Require Import Num Vec Motor_Model Joint_Model Joint_Spec Body_Model Tree Link_Model Jacobi_Model IK_Model IK_Spec Ztk_Model Ztk_Spec IKConf_Model.
Import ListNotations.

Section IKConfSpec.
Context {F : Type} {N : Num F} {E : Ext F} {I : IKExt F} {Z : ZtkLib}.


Definition names (c : chain F) : list string := map l_name (c_links c).
Definition zero_b (x : F) : bool := nleb x 0%num && nleb 0%num x.
(** The weight of a key [joint]: 0.001 if there is none. *)
Definition weight_of (w : option F) : F := match w with Some w => w | None => nrat 1 1000 end.

(** The weight with which the keys ask for the joint of link [i]: the last key that names the link with
    a weight other than zero, or names all links. *)
Definition asks (c : chain F) (k : ikkey F) (f : nat -> option F) (i : nat) : option F :=
  match k with
  | IKJoint s w _ =>
    if String.eqb s "all"%string then if movable c i then Some (weight_of w) else f i
    else if zero_b (weight_of w) then f i
    else match nth_error (names c) i with Some n => if String.eqb n s then Some (weight_of w) else f i | None => f i end
  | IKConstraint _ _ => f i
  end.
Definition asked_by (c : chain F) (l : list (ikkey F)) : nat -> option F := fold_left (fun f k => asks c k f) l (fun _ => None).

(** The displacement given for the joint of a link: the last key that names it with weight zero. *)
Definition fixes (n : string) (k : ikkey F) (o : option (list F)) : option (list F) :=
  match k with
  | IKJoint s w d => if String.eqb n s && negb (String.eqb s "all"%string) && zero_b (weight_of w) then Some d else o
  | IKConstraint _ _ => o
  end.
Definition fixed_at (n : string) (l : list (ikkey F)) : option (list F) := fold_left (fun o k => fixes n k o) l None.
(** The link before and after: only the joint named with weight zero is moved, to the displacement given
    in degrees, within its limits. *)
Definition postured (l : list (ikkey F)) (a b : link F) : Prop :=
  match fixed_at (l_name a) l with
  | None => b = a
  | Some d => exists j d', b = l_set_joint j a /\ joint_set_dis (l_joint a) d' = Some j /\
      forall i x, i < joint_size (l_joint a) -> nth_error d i = Some x -> exists y, nth_error d' i = Some y /\ in_units (jtype_of (l_joint a)) i x y
  end.

(** The constraints of the file in order. *)
Definition constraints (l : list (ikkey F)) : list (string * list (citem F)) :=
  flat_map (fun k => match k with IKConstraint t l => [(t, l)] | _ => [] end) l.
Definition type_name (k : kind) : string :=
  match k with WldPos => "world_pos" | WldAtt => "world_att" | L2LPos => "l2l_pos" | L2LAtt => "l2l_att" | COM => "com" | AM => "am" | AMCOM => "amcom" end%string.
Definition link_names (l : list (citem F)) : list string := flat_map (fun x => match x with CLink s => [s] | _ => [] end) l.
Definition points (l : list (citem F)) : list (vec3 F) := flat_map (fun x => match x with CAt v => [v] | _ => [] end) l.
Definition cweights (l : list (citem F)) : list (vec3 F) := flat_map (fun x => match x with CWeight v => [v] | _ => [] end) l.
Definition forced (l : list (citem F)) : bool := existsb (fun x => match x with CForce => true | _ => false end) l.
(** The cell made of constraint number [n]: identifier; kind; the link named first and the one named last
    after it; the last attention point and weight; the axes are off. *)
Definition described (c : chain F) (n : nat) (x : string * list (citem F)) (y : nat * cell F) : Prop :=
  let a := ce_attr (snd y) in
  ce_id (snd y) = n /\ type_name (ce_kind (snd y)) = fst x /\
  match link_names (snd x) with [] => a_id a = O | s :: _ => nth_error (names c) (a_id a) = Some s end /\
  match rev (tl (link_names (snd x))) with [] => a_sub a = O | s :: _ => nth_error (names c) (a_sub a) = Some s end /\
  a_ap a = last (points (snd x)) v3zero /\ a_w a = last (cweights (snd x)) (V3 1 1 1)%num /\
  ce_mode (snd y) = Mode false false false (forced (snd x)).
(** A file that is meant to be read: the keys refer to links of the chain with movable joints and to types that
    exist, and a constraint comes after the first joint that is to move. *)
Definition meant (c : chain F) (p : list (ikkey F)) (k : ikkey F) : Prop :=
  match k with
  | IKJoint s w d =>
    s = "all"%string \/
    exists i l, nth_error (c_links c) i = Some l /\ l_name l = s /\ 0 < joint_size (l_joint l) /\ (zero_b (weight_of w) = true -> joint_size (l_joint l) <= length d)
  | IKConstraint t l => (exists k, type_name k = t) /\ incl (link_names l) (names c) /\ wanted c (asked_by c p) <> []
  end.
Definition readable (c : chain F) (l : list (ikkey F)) : Prop := forall p k t, l = p ++ k :: t -> meant c p k.
End IKConfSpec.
