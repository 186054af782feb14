(** * UrdfForm_Properties: documents however they are written (C102).

    C84 to C86 are about [doc_xml], with elements and attributes in one order and every origin written out.  Here: elements and
    attributes in any order, among elements and attributes that the converter does not know, and origins left out
    where they are zero. *)
From Coq Require Import Bool String ZArith QArith Qcanon List Arith Lia Field.
From Verif Require Import Num NumFacts Vec VecFacts Motor_Model Joint_Model Joint_Properties ExtQ Body_Model Tree Tree_Proofs Link_Model Link_Spec Link_Properties IK_Model Conf_Model Ztk_Model Ztk_Properties Urdf_Model Urdf_Spec Urdf_Tree Urdf_Doc Urdf_Q Urdf_Walk Urdf_Read Urdf_Proofs Urdf_Pose Urdf_Properties UrdfForm_Proofs.
Import ListNotations.
Local Open Scope nat_scope.

Section Written.
Context {F : Type} {N : Num F} {L : NumLaws F N} {E : Ext F} {X : ExtLaws F N E} {U : UrdfExt F}.
Add Field FFieldUW : num_field.

(** ** Documents as written *)
(** The elements with a tag and the values of the attributes with a name, in order. *)
Definition elems (t : string) (l : list (xml F)) : list (xml F) := filter (fun k => String.eqb (x_tag k) t) l.
Definition vals (n : string) (l : list (string * aval F)) : list (aval F) := map snd (filter (fun a => String.eqb (fst a) n) l).
(** The origin among elements [ks]: none if zero, else one whose attributes are given unless zero. *)
Inductive has_origin (o : origin F) (ks : list (xml F)) : Prop :=
| no_origin : elems "origin" ks = [] -> o_xyz o = v3zero -> o_rpy o = v3zero -> has_origin o ks
| an_origin l sub : elems "origin" ks = [Elem "origin" l sub] ->
    (vals "xyz" l = [num (v3l (o_xyz o))] \/ (vals "xyz" l = [] /\ o_xyz o = v3zero)) ->
    (vals "rpy" l = [num (v3l (o_rpy o))] \/ (vals "rpy" l = [] /\ o_rpy o = v3zero)) -> has_origin o ks.
Inductive inertial_as (n : inertial F) : xml F -> Prop :=
| ia l ks lm sm li si : has_origin (in_origin n) ks -> elems "mass" ks = [Elem "mass" lm sm] -> vals "value" lm = [num [in_mass n]] ->
    elems "inertia" ks = [Elem "inertia" li si] ->
    vals "ixx" li = [num [in_xx n]] -> vals "ixy" li = [num [in_xy n]] -> vals "ixz" li = [num [in_xz n]] ->
    vals "iyy" li = [num [in_yy n]] -> vals "iyz" li = [num [in_yz n]] -> vals "izz" li = [num [in_zz n]] ->
    inertial_as n (Elem "inertial" l ks).
Inductive visual_as (v : visual F) : xml F -> Prop :=
| va l ks lg g lb sb : vals "name" l = opt txt (vi_name v) -> has_origin (vi_origin v) ks ->
    elems "geometry" ks = [Elem "geometry" lg g] -> g = [Elem (vi_geometry v) lb sb] -> visual_as v (Elem "visual" l ks).
Inductive link_as (d : dlink F) : xml F -> Prop :=
| la l ks : vals "name" l = [txt (dl_name d)] ->
    match dl_inertial d with None => elems "inertial" ks = [] | Some n => exists x, elems "inertial" ks = [x] /\ inertial_as n x end ->
    Forall2 visual_as (dl_visuals d) (elems "visual" ks) -> link_as d (Elem "link" l ks).
Inductive joint_as (d : djoint F) : xml F -> Prop :=
| ja l ks lp sp lc sc : vals "name" l = [txt (dj_name d)] -> vals "type" l = [txt (utype_name (dj_type d))] -> has_origin (dj_origin d) ks ->
    elems "parent" ks = [Elem "parent" lp sp] -> vals "link" lp = [txt (dj_parent d)] ->
    elems "child" ks = [Elem "child" lc sc] -> vals "link" lc = [txt (dj_child d)] ->
    match dj_axis d with None => elems "axis" ks = [] | Some a => exists la sa, elems "axis" ks = [Elem "axis" la sa] /\ vals "xyz" la = [num (v3l a)] end ->
    match dj_limit d with
    | None => elems "limit" ks = []
    | Some (lo, up) => exists ll sl, elems "limit" ks = [Elem "limit" ll sl] /\ vals "lower" ll = opt (fun x => num [x]) lo /\ vals "upper" ll = opt (fun x => num [x]) up
    end ->
    elems "dynamic" ks = [] -> joint_as d (Elem "joint" l ks).
(** Links and joints keep their order among each other; dynamics elements, which the converter does not look at
    (C86), may be anything. *)
Inductive written_as (d : udoc F) : xml F -> Prop :=
| wa l ks : vals "name" l = [txt (d_name d)] -> Forall2 link_as (d_links d) (elems "link" ks) -> Forall2 joint_as (d_joints d) (elems "joint" ks) ->
    written_as d (Elem "robot" l ks).

(** ** Evaluation *)
Lemma zero_origin o : o_xyz o = v3zero -> o_rpy o = v3zero -> origin_frame o = fid.
Proof. destruct o as [p r]. cbn. intros -> ->. unfold origin_frame, fid. cbn [o_xyz o_rpy v3zero vx vy vz]. f_equal. unfold m3zyx. rewrite x_sin0, x_cos0. clear -L. vdestruct. vunfold. vsplit; ring. Qed.
Lemma zyx_zero : m3zyx (F := F) 0%num 0%num 0%num = m3id.
Proof. unfold m3zyx. rewrite x_sin0, x_cos0. clear -L. vunfold. vsplit; ring. Qed.
Lemma get_vec_v3l (v w : vec3 F) : get_vec (v3l v) w = v. Proof. destruct v. reflexivity. Qed.
Lemma origin_elem o l sub : (vals "xyz" l = [num (v3l (o_xyz o))] \/ (vals "xyz" l = [] /\ o_xyz o = v3zero)) ->
  (vals "rpy" l = [num (v3l (o_rpy o))] \/ (vals "rpy" l = [] /\ o_rpy o = v3zero)) -> eval_origin (Elem "origin" l sub) fid = Some (origin_frame o).
Proof.
  intros A B. rewrite eval_origin_form. change (attrs "rpy" l) with (vals "rpy" l). change (attrs "xyz" l) with (vals "xyz" l). unfold origin_frame.
  destruct o as [p r]. cbn [o_xyz o_rpy] in *.
  assert (P : fold_left (fun v a => get_vec (av_num a) v) (vals "xyz" l) (fpos (@fid F N)) = p).
  { destruct A as [-> | [-> ->]]; [|reflexivity]. cbn [fold_left num av_num]. apply get_vec_v3l. }
  rewrite P. destruct B as [-> | [-> ->]]; [reflexivity|]. unfold ofold. cbn [fold_left obind v3zero vx vy vz fid fatt]. now rewrite zyx_zero.
Qed.

Lemma elems_tagged t ks : tagged t ks = elems t ks. Proof. reflexivity. Qed.
Lemma elems_tag t ks k : In k (elems t ks) -> x_tag k = t.
Proof. intros H. apply filter_In in H as [_ H]. now apply String.eqb_eq. Qed.
Lemma has_tag t l ks : x_tag (F := F) (Elem t l ks) = t. Proof. reflexivity. Qed.
Lemma ofold_nil {A B} (f : A -> B -> option A) a : ofold f [] a = Some a. Proof. reflexivity. Qed.
Lemma ofold_one {A B} (f : A -> B -> option A) b a : ofold f [b] a = f a b. Proof. reflexivity. Qed.
Local Ltac nodup := repeat constructor; cbn; intuition discriminate.

Lemma inertial_as_eval n x m : inertial_as n x -> eval_inertial x m = eval_inertial (inertial_xml n) m.
Proof.
  intros [l ks lm sm li si O EM VM EI V1 V2 V3 V4 V5 V6]. rewrite inertial_eval. unfold eval_inertial. cbn [x_kids].
  change (fun '(f, m0) (k : xml F) => _) with inertial_step.
  assert (R : ofold inertial_step ks (fid, m) = Some (origin_frame (in_origin n), MP (in_mass n) (mp_com m) (tensor n))).
  { rewrite (sorted inertial_step ["origin"; "mass"; "inertia"]%string).
    - cbn [flat_map]. change (@tagged F) with elems. rewrite EM, EI. rewrite ofold_app.
      assert (OO : ofold inertial_step (elems "origin" ks) (fid, m) = Some (origin_frame (in_origin n), m)).
      { destruct O as [O1 O2 O3|lo so O1 O2 O3]; rewrite O1; [now rewrite ofold_nil, (zero_origin _ O2 O3)|]. rewrite ofold_one. unfold inertial_step. cbn [x_tag String.eqb Ascii.eqb Bool.eqb]. now rewrite (origin_elem _ _ _ O2 O3). }
      rewrite OO. cbn [obind app]. rewrite !ofold_cons. unfold inertial_step at 1. cbn [x_tag String.eqb Ascii.eqb Bool.eqb]. rewrite x_find_form. change (attrs "value" lm) with (vals "value" lm). rewrite VM. cbn [hd_error option_map obind].
      rewrite ofold_cons. unfold inertial_step at 1. cbn [x_tag String.eqb Ascii.eqb Bool.eqb obind mp_mass mp_com]. rewrite ofold_nil. unfold eval_inertia. rewrite !inertia_num_form. 
      change (attrs ?a li) with (vals a li). rewrite V1, V2, V3, V4, V5, V6. reflexivity.
    - nodup.
    - apply inertial_swaps.
    - intros k H [f m0]. unfold inertial_step. destruct (String.eqb_spec (x_tag k) "origin"); [exfalso; apply H; cbn; auto|]. destruct (String.eqb_spec (x_tag k) "mass"); [exfalso; apply H; cbn; auto|].
      destruct (String.eqb_spec (x_tag k) "inertia"); [exfalso; apply H; cbn; auto|]. reflexivity. }
  rewrite R. reflexivity.
Qed.
Lemma visual_as_eval v x lname k : In (vi_geometry v) ["box"; "sphere"; "cylinder"; "mesh"]%string -> visual_as v x -> eval_visual x (Some lname) k = eval_visual (visual_xml v) (Some lname) k.
Proof.
  intros G [l ks lg g lb sb VN O EG ->]. rewrite (visual_eval v lname k G). unfold eval_visual. cbn [x_kids]. rewrite x_find_form. change (attrs "name" l) with (vals "name" l). rewrite VN.
  change (fun (s : ushape F) (k0 : xml F) => _) with visual_step.
  assert (IG : is_geometry (vi_geometry v) = true) by (destruct G as [<-|[<-|[<-|[<-|[]]]]]; reflexivity).
  assert (R : forall nm, ofold visual_step ks (US nm None fid) = Some (US nm (Some (vi_geometry v)) (origin_frame (vi_origin v)))).
  { intros nm. rewrite (sorted visual_step ["origin"; "geometry"]%string).
    - cbn [flat_map]. change (@tagged F) with elems. rewrite EG, ofold_app.
      assert (OO : ofold visual_step (elems "origin" ks) (US nm None fid) = Some (US nm None (origin_frame (vi_origin v)))).
      { destruct O as [O1 O2 O3|lo so O1 O2 O3]; rewrite O1; [now rewrite ofold_nil, (zero_origin _ O2 O3)|]. rewrite ofold_one. unfold visual_step. cbn [x_tag String.eqb Ascii.eqb Bool.eqb us_fl us_name us_type]. now rewrite (origin_elem _ _ _ O2 O3). }
      rewrite OO. cbn [obind app]. rewrite ofold_one. unfold visual_step. cbn [x_tag String.eqb Ascii.eqb Bool.eqb us_fl us_name us_type]. unfold eval_geometry. cbn [x_kids fold_left x_tag]. now rewrite IG.
    - nodup.
    - apply visual_swaps.
    - intros k0 H s. unfold visual_step. destruct (String.eqb_spec (x_tag k0) "origin"); [exfalso; apply H; cbn; auto|]. destruct (String.eqb_spec (x_tag k0) "geometry"); [exfalso; apply H; cbn; auto|]. reflexivity. }
  unfold vshape, vis_name. destruct (vi_name v) as [nm|]; cbn [opt hd_error txt av_text option_map obind]; rewrite R; reflexivity.
Qed.
(** The steps keep the name of the link. *)
Lemma link_step_name ss (l : ulink F) k ss' l' : link_step (ss, l) k = Some (ss', l') -> ul_name l' = ul_name l.
Proof.
  unfold link_step. destruct (String.eqb (x_tag k) "inertial"); [destruct (eval_inertial k (ul_mp l)); [|discriminate]; intros H; injection H as _ <-; reflexivity|].
  destruct (String.eqb (x_tag k) "visual"); [destruct (eval_visual k _ _); [|discriminate]; intros H; injection H as _ <-; reflexivity|]. intros H. now injection H as _ <-.
Qed.
Lemma link_steps_as lname l m : Forall2 (fun b c => forall ss u, ul_name u = Some lname -> link_step (ss, u) b = link_step (ss, u) c) l m ->
  forall ss u, ul_name u = Some lname -> ofold link_step l (ss, u) = ofold link_step m (ss, u).
Proof.
  induction 1 as [|b c l m H _ IH]; intros ss u Q; [reflexivity|]. rewrite !ofold_cons, (H ss u Q). destruct (link_step (ss, u) c) as [[ss1 u1]|] eqn:S; [|reflexivity]. cbn [obind]. apply IH. rewrite (link_step_name _ _ _ _ _ S). exact Q.
Qed.
Lemma link_as_eval i d x : (forall v, In v (dl_visuals d) -> In (vi_geometry v) ["box"; "sphere"; "cylinder"; "mesh"]%string) -> link_as d x -> eval_link i x = eval_link i (link_xml d).
Proof.
  intros G [l ks VN EI EV]. unfold eval_link. rewrite x_find_form. change (attrs "name" l) with (vals "name" l). rewrite VN. cbn [hd_error option_map link_xml x_find x_attrs find fst snd String.eqb Ascii.eqb Bool.eqb txt av_text x_kids].
  change (fun '(ss, l0) (k : xml F) => _) with link_step. f_equal.
  rewrite (sorted link_step ["inertial"; "visual"]%string).
  - cbn [flat_map]. change (@tagged F) with elems. rewrite app_nil_r. apply (link_steps_as (dl_name d)); [|reflexivity]. apply Forall2_app.
    + destruct (dl_inertial d) as [n|]; cbn [opt]; [|rewrite EI; constructor]. destruct EI as (y & -> & H). constructor; [|constructor]. intros ss u _. pose proof (inertial_as_eval n y (ul_mp u) H) as EQ. destruct H.
      unfold link_step. cbn [x_tag inertial_xml String.eqb Ascii.eqb Bool.eqb]. change (eval_inertial (Elem "inertial" [] _) ?a) with (eval_inertial (inertial_xml n) a). rewrite EQ. reflexivity.
    + clear EI VN. induction EV as [|v y vs ys HV _ IH]; cbn [map]; constructor.
      * intros ss u Q. pose proof (visual_as_eval v y (dl_name d) (length (ul_shapes u)) (G v (or_introl eq_refl)) HV) as EQ. destruct HV as [l0 ks0 lg g lb sb H1 H2 H3 H4].
        unfold link_step. cbn [x_tag visual_xml String.eqb Ascii.eqb Bool.eqb]. rewrite Q. change (eval_visual (Elem "visual" (opt _ _) _) ?a ?b) with (eval_visual (visual_xml v) a b). rewrite EQ. reflexivity.
      * apply IH. intros v0 H. apply G. now right.
  - nodup.
  - apply link_swaps.
  - intros k H [ss u]. unfold link_step. destruct (String.eqb_spec (x_tag k) "inertial"); [exfalso; apply H; cbn; auto|]. destruct (String.eqb_spec (x_tag k) "visual"); [exfalso; apply H; cbn; auto|]. reflexivity.
Qed.

Lemma ofold_forall2 {A B} (f : A -> B -> option A) l m : Forall2 (fun b c => forall a, f a b = f a c) l m -> forall a, ofold f l a = ofold f m a.
Proof. induction 1 as [|b c l m H _ IH]; intros a; [reflexivity|]. rewrite !ofold_cons, (H a). destruct (f a c); cbn [obind]; auto. Qed.
Lemma joint_as_eval i d x : joint_as d x -> eval_joint i x = eval_joint i (joint_xml d).
Proof.
  intros [l ks lp sp lc sc VN VT O EP VP EC VC EA EL ED]. unfold eval_joint.
  assert (NT : forall y : xml F, last_attr y "name" None = hd_error (rev (attrs "name" (x_attrs y))) /\ last_attr y "type" None = hd_error (rev (attrs "type" (x_attrs y)))).
  { intros [t ly ky]. split; rewrite last_attr_form; cbn [x_attrs]; set (q := attrs _ ly); clearbody q; (induction q as [|a q IH] using rev_ind; [reflexivity|]; now rewrite fold_left_app, rev_app_distr). }
  destruct (NT (Elem "joint" l ks)) as [-> ->]. destruct (NT (joint_xml d)) as [-> ->]. cbn [x_attrs x_kids]. change (attrs "name" l) with (vals "name" l). change (attrs "type" l) with (vals "type" l). rewrite VN, VT.
  change (attrs "name" (x_attrs (joint_xml d))) with [txt (F := F) (dj_name d)]. change (attrs "type" (x_attrs (joint_xml d))) with [txt (F := F) (utype_name (dj_type d))].
  set (J := length (ui_joints i)). set (o0 := UJ _ _ _ _ _ _ _ _ _ _ _).
  assert (NB : nth_error (ui_joints i ++ [o0]) J = Some o0) by (unfold J; rewrite nth_error_app2, Nat.sub_diag by lia; reflexivity).
  set (i0 := UI _ _ _ _).
  rewrite (sorted (eval_joint_elem J) ["origin"; "parent"; "child"; "axis"; "limit"; "dynamic"]%string) at 1.
  - cbn [flat_map]. change (@tagged F) with elems. rewrite ED, EP, EC, app_nil_r. unfold joint_xml. cbn [x_kids].
    cbn [app]. rewrite (ofold_cons _ (origin_xml (dj_origin d))), ofold_app.
    assert (OO : ofold (eval_joint_elem J) (elems "origin" ks) i0 = eval_joint_elem J i0 (origin_xml (dj_origin d))).
    { unfold eval_joint_elem at 2. cbn [x_tag origin_xml String.eqb Ascii.eqb Bool.eqb]. change (eval_origin (Elem "origin" _ _) ?f) with (eval_origin (origin_xml (dj_origin d)) f).
      unfold i0 at 2. cbn [ui_joints]. rewrite NB. cbn [obind uj_fl o0]. rewrite eval_origin_eq. cbn [obind].
      destruct O as [O1 O2 O3|lo so O1 O2 O3]; rewrite O1.
      - rewrite ofold_nil. rewrite (zero_origin _ O2 O3). unfold set_joint. unfold i0 at 2 3 4 5 6. cbn [ui_joints ui_name ui_shapes ui_links]. rewrite NB. cbn [option_map]. unfold i0. do 2 f_equal. symmetry. apply set_nth_id. exact NB.
      - rewrite ofold_one. unfold eval_joint_elem. cbn [x_tag String.eqb Ascii.eqb Bool.eqb]. unfold i0 at 1. cbn [ui_joints]. rewrite NB. cbn [obind uj_fl o0]. now rewrite (origin_elem _ _ _ O2 O3). }
    rewrite OO. destruct (eval_joint_elem J i0 (origin_xml (dj_origin d))) as [i1|]; [|reflexivity]. cbn [obind].
    rewrite (ofold_cons _ (Elem "parent" lp sp)), (ofold_cons _ (Elem "parent" [("link"%string, txt (dj_parent d))] [])).
    assert (PP : eval_joint_elem J i1 (Elem "parent" lp sp) = eval_joint_elem J i1 (Elem "parent" [("link"%string, txt (dj_parent d))] [])).
    { unfold eval_joint_elem. cbn [x_tag String.eqb Ascii.eqb Bool.eqb]. rewrite !x_find_form. change (attrs "link" lp) with (vals "link" lp). now rewrite VP. }
    rewrite PP. destruct (eval_joint_elem J i1 (Elem "parent" [("link"%string, txt (dj_parent d))] [])) as [i2|]; [|reflexivity]. cbn [obind].
    rewrite (ofold_cons _ (Elem "child" lc sc)), (ofold_cons _ (Elem "child" [("link"%string, txt (dj_child d))] [])).
    assert (CC : eval_joint_elem J i2 (Elem "child" lc sc) = eval_joint_elem J i2 (Elem "child" [("link"%string, txt (dj_child d))] [])).
    { unfold eval_joint_elem. cbn [x_tag String.eqb Ascii.eqb Bool.eqb]. rewrite !x_find_form. change (attrs "link" lc) with (vals "link" lc). now rewrite VC. }
    rewrite CC. destruct (eval_joint_elem J i2 (Elem "child" [("link"%string, txt (dj_child d))] [])) as [i3|]; [|reflexivity]. cbn [obind].
    rewrite !ofold_app.
    assert (AA : ofold (eval_joint_elem J) (elems "axis" ks) i3 = ofold (eval_joint_elem J) (opt (fun a => Elem "axis" [("xyz"%string, num (v3l a))] []) (dj_axis d)) i3).
    { destruct (dj_axis d) as [a|]; cbn [opt]; [|now rewrite EA]. destruct EA as (lx & sx & -> & VX). rewrite !ofold_one. unfold eval_joint_elem. cbn [x_tag String.eqb Ascii.eqb Bool.eqb]. rewrite x_find_form. change (attrs "xyz" lx) with (vals "xyz" lx). now rewrite VX. }
    rewrite AA. destruct (ofold _ (opt _ (dj_axis d)) i3) as [i4|]; [|reflexivity]. cbn [obind]. rewrite ?ofold_app. cbn [app].
    assert (LL : ofold (eval_joint_elem J) (elems "limit" ks) i4 = ofold (eval_joint_elem J) (opt (fun '(lo, up) => Elem "limit" (opt (fun x => ("lower"%string, num [x])) lo ++ opt (fun x => ("upper"%string, num [x])) up) []) (dj_limit d)) i4).
    { destruct (dj_limit d) as [[lo up]|]; cbn [opt]; [|now rewrite EL]. destruct EL as (ll & sl & -> & VL & VU). rewrite !ofold_one. unfold eval_joint_elem. cbn [x_tag String.eqb Ascii.eqb Bool.eqb]. unfold set_joint.
      destruct (nth_error (ui_joints i4) J) as [o|]; [|reflexivity]. cbn [option_map]. rewrite !last_attr_form. change (attrs "lower" ll) with (vals "lower" ll). change (attrs "upper" ll) with (vals "upper" ll). rewrite VL, VU.
      destruct lo, up; reflexivity. }
    rewrite LL. destruct (ofold _ (opt _ (dj_limit d)) i4) as [i5|]; [|reflexivity]. cbn [obind]. rewrite ?ofold_nil. destruct (dj_dynamics d) as [[da fr]|]; reflexivity.
  - nodup.
  - apply joint_swaps.
  - intros k H a. unfold eval_joint_elem.
    repeat match goal with |- context [String.eqb (x_tag k) ?t] => destruct (String.eqb_spec (x_tag k) t) as [T|_]; [exfalso; apply H; rewrite T; cbn; tauto|] end. reflexivity.
Qed.
Lemma with_tag_all {A} t (f : A -> xml F) l : (forall a, x_tag (f a) = t) -> with_tag t (map f l) = map f l.
Proof. intros H. induction l as [|a l IH]; [reflexivity|]. cbn [map]. unfold with_tag in *. cbn [filter]. rewrite H, String.eqb_refl. now rewrite IH. Qed.
Lemma with_tag_none {A} t (f : A -> xml F) l : (forall a, x_tag (f a) <> t) -> with_tag t (map f l) = [].
Proof. intros H. induction l as [|a l IH]; [reflexivity|]. cbn [map]. unfold with_tag in *. cbn [filter]. destruct (String.eqb_spec (x_tag (f a)) t) as [T|_]; [destruct (H _ T)|exact IH]. Qed.
Lemma written_eval d x : (forall l v, In l (d_links d) -> In v (dl_visuals l) -> In (vi_geometry v) ["box"; "sphere"; "cylinder"; "mesh"]%string) -> written_as d x -> eval_robot x = eval_robot (doc_xml d).
Proof.
  intros G [l ks VN HL HJ]. unfold eval_robot, doc_xml. cbn [x_tag String.eqb Ascii.eqb Bool.eqb x_kids]. rewrite x_find_form. change (attrs "name" l) with (vals "name" l). rewrite VN. cbn [hd_error x_find x_attrs find fst snd String.eqb Ascii.eqb Bool.eqb].
  unfold with_tag at 3 4. rewrite !filter_app. fold (with_tag (F := F) "link" (map link_xml (d_links d))). fold (with_tag (F := F) "link" (map joint_xml (d_joints d))).
  fold (with_tag (F := F) "joint" (map link_xml (d_links d))). fold (with_tag (F := F) "joint" (map joint_xml (d_joints d))).
  rewrite (with_tag_all "link" link_xml), (with_tag_none "link" joint_xml), (with_tag_none "joint" link_xml), (with_tag_all "joint" joint_xml) by (intros a; (reflexivity || discriminate)). rewrite app_nil_r. cbn [app].
  change (with_tag "link" ks) with (elems "link" ks). change (with_tag "joint" ks) with (elems "joint" ks).
  rewrite (ofold_forall2 eval_link (elems "link" ks) (map link_xml (d_links d))).
  - destruct (ofold eval_link _ _) as [i|]; [|reflexivity]. cbn [obind]. f_equal. apply ofold_forall2. clear -HJ L X. induction HJ as [|a b la lb H _ IH]; cbn [map]; constructor; [|exact IH]. intros i. now apply joint_as_eval.
  - clear HJ VN. induction HL as [|a b la lb H _ IH]; cbn [map]; constructor.
    + intros i. apply link_as_eval; [|exact H]. intros v. apply G. now left.
    + apply IH. intros l0 v H0. apply G. now right.
Qed.

(** ** C102 *)
(** However a document is written, the conversion gives the same file. *)
Theorem C102_any_form d x y : valid_doc d -> written_as d x -> written_as d y -> urdf2ztk x = urdf2ztk y.
Proof.
  intros V A B. assert (G : forall l v, In l (d_links d) -> In v (dl_visuals l) -> In (vi_geometry v) ["box"; "sphere"; "cylinder"; "mesh"]%string) by apply V.
  unfold urdf2ztk. now rewrite (written_eval d x G A), (written_eval d y G B).
Qed.
(** The form of C84 to C86 is one of them. *)
Theorem C102_written d : written_as d (doc_xml d).
Proof.
  assert (H : forall (A : Type) (t : string) (f : A -> xml F) (R : A -> xml F -> Prop) l, (forall a, x_tag (f a) = t) -> (forall a, R a (f a)) -> Forall2 R l (elems t (map f l))).
  { intros A t f R l T P. change (elems t (map f l)) with (with_tag t (map f l)). rewrite (with_tag_all t f l T). induction l as [|a l IH]; cbn [map]; constructor; auto. }
  assert (OR : forall o ks, elems "origin" ks = [origin_xml o] -> has_origin o ks) by (intros o ks Q; eapply an_origin; [exact Q|left; reflexivity|left; reflexivity]).
  assert (IA : forall n, inertial_as n (inertial_xml n)) by (intros n; eapply ia; try reflexivity; apply OR; reflexivity).
  assert (VA : forall v, visual_as v (visual_xml v)).
  { intros v. eapply va; try reflexivity; [|apply OR; reflexivity]. destruct v as [[nm|] o g]; reflexivity. }
  apply wa; [reflexivity| |].
  - unfold doc_xml, elems. rewrite filter_app. fold (elems "link" (map link_xml (d_links d))). fold (elems "link" (map joint_xml (d_joints d))).
    change (elems "link" (map joint_xml (d_joints d))) with (with_tag "link" (map joint_xml (d_joints d))). rewrite (with_tag_none "link" joint_xml) by discriminate. rewrite app_nil_r.
    apply H; [reflexivity|]. intros l. apply la; [reflexivity| |].
    + unfold elems. rewrite filter_app. fold (elems "inertial" (map visual_xml (dl_visuals l))). change (elems "inertial" (map visual_xml (dl_visuals l))) with (with_tag "inertial" (map visual_xml (dl_visuals l))).
      rewrite (with_tag_none "inertial" visual_xml) by discriminate. rewrite app_nil_r. destruct (dl_inertial l) as [n|]; [|reflexivity]. exists (inertial_xml n). auto.
    + unfold elems. rewrite filter_app. fold (elems "visual" (map visual_xml (dl_visuals l))).
      replace (filter (fun k => String.eqb (x_tag k) "visual") (opt inertial_xml (dl_inertial l))) with (@nil (xml F)) by (destruct (dl_inertial l); reflexivity). apply H; [reflexivity|exact VA].
  - unfold doc_xml, elems. rewrite filter_app. fold (elems "joint" (map link_xml (d_links d))). fold (elems "joint" (map joint_xml (d_joints d))).
    change (elems "joint" (map link_xml (d_links d))) with (with_tag "joint" (map link_xml (d_links d))). rewrite (with_tag_none "joint" link_xml) by discriminate.
    apply H; [reflexivity|]. intros j. destruct j as [nm ty o pa ch ax li dy]. unfold joint_xml. cbn [dj_name dj_type dj_origin dj_parent dj_child dj_axis dj_limit dj_dynamics].
    apply (ja _ _ _ [("link"%string, txt pa)] [] [("link"%string, txt ch)] []); cbn [dj_name dj_type dj_origin dj_parent dj_child dj_axis dj_limit dj_dynamics]; try reflexivity.
    + apply OR. destruct ax, li as [[lo up]|], dy as [[da fr]|]; reflexivity.
    + destruct ax, li as [[lo up]|], dy as [[da fr]|]; reflexivity.
    + destruct ax, li as [[lo up]|], dy as [[da fr]|]; reflexivity.
    + destruct ax as [a|]; [exists [("xyz"%string, num (v3l a))], []; split; [|reflexivity]|]; destruct li as [[lo up]|], dy as [[da fr]|]; reflexivity.
    + destruct li as [[lo up]|]; [do 2 eexists; split; [destruct ax, dy as [[da fr]|]; reflexivity|]; destruct lo, up; split; reflexivity|destruct ax, dy as [[da fr]|]; reflexivity].
    + destruct ax, li as [[lo up]|], dy as [[da fr]|]; reflexivity.
Qed.
(** What C84 says of the structure, for documents however they are written. *)
Theorem C102_structure {Z : ZtkLib} (g : F) (d : udoc F) x : valid_doc d -> written_as d x ->
  exists o rb, urdf2ztk x = Some (Some o) /\ robot_read g (uo_file o) = Some (Some rb) /\
    rb_name rb = Some (d_name d) /\ well_formed (c_links (rb_chain rb)) /\
    map l_name (c_links (rb_chain rb)) = map dl_name (d_links d) /\
    (forall x k, In x (d_joints d) -> In k (c_links (rb_chain rb)) -> l_name k = dj_child x ->
       exists p q, l_parent k = Some p /\ nth_error (c_links (rb_chain rb)) p = Some q /\ l_name q = dj_parent x) /\
    (forall l k, In l (d_links d) -> In k (c_links (rb_chain rb)) -> l_name k = dl_name l ->
       map (nth_error (rb_shapes rb)) (b_shapes (l_body k)) = map Some (rev (visual_names l))).
Proof. intros V W. rewrite (C102_any_form d x (doc_xml d) V W (C102_written d)). exact (C84_structure g d V). Qed.
(** The poses of C84. *)
Theorem C102_poses_partial {Z : ZtkLib} (g : F) (d : udoc F) x o rb : valid_doc d -> written_as d x -> convertible_doc d -> axes_turn d -> joints_exact d ->
  urdf2ztk x = Some (Some o) -> robot_read g (uo_file o) = Some (Some rb) ->
  forall l, In l (d_links d) -> exists r, link_turn d l r /\
    forall v c' k, chain_fk (rb_chain rb) v = Some c' -> In k (c_links c') -> l_name k = dl_name l ->
    exists f, upose d (dis_of (c_links c')) (dl_name l) f /\ l_frame k = fcascade f (Fr v3zero r).
Proof. intros V W. rewrite (C102_any_form d x (doc_xml d) V W (C102_written d)). apply C84_poses_partial. exact V. Qed.
End Written.

(** ** Examples *)
(** The document of C85 with a shape on the base: the joint comes before the links, which come among others; attitudes
    before positions; zero origins left out or in part. *)
Definition uform : udoc Qc := Doc "straight" [DL "base" None [Vis None (org 0 0 0) "box"]; DL "a" (Some (Inert (Org (q3 1 2 3) (q3 0 1 0)) (qz 2) (qz 1) (qz 0) (qz 0) (qz 2) (qz 0) (qz 3))) []]
  [DJ "j" UContinuous (org 0 1 0) "base" "a" (Some (q3 0 0 1)) None None].
Definition an (s : string) (l : list Z) : string * aval Qc := (s, AV "" (map qz l)).
Definition at_ (s t : string) : string * aval Qc := (s, AV t []).
Definition uwrit : xml Qc := Elem "robot" [at_ "version" "1.0"; at_ "name" "straight"]
  [Elem "joint" [at_ "type" "continuous"; at_ "name" "j"]
     [Elem "dynamics" [an "damping" [3]%Z] []; Elem "axis" [an "xyz" [0; 0; 1]%Z] []; Elem "child" [at_ "link" "a"] []; Elem "mimic" [at_ "joint" "j"] [];
      Elem "parent" [at_ "link" "base"] []; Elem "origin" [an "xyz" [0; 1; 0]%Z] []];
   Elem "material" [at_ "name" "red"] [];
   Elem "link" [at_ "name" "base"] [Elem "collision" [] [Elem "origin" [an "xyz" [9; 9; 9]%Z] []]; Elem "visual" [] [Elem "geometry" [] [Elem "box" [an "size" [1; 2; 3]%Z] []]; Elem "material" [] []]];
   Elem "link" [at_ "name" "a"]
     [Elem "inertial" []
        [Elem "inertia" [an "izz" [3]%Z; an "iyy" [2]%Z; an "ixx" [1]%Z; an "ixy" [0]%Z; an "iyz" [0]%Z; an "ixz" [0]%Z] []; Elem "mass" [an "value" [2]%Z] [];
         Elem "origin" [an "rpy" [0; 1; 0]%Z; an "xyz" [1; 2; 3]%Z] []]]].
Lemma uform_valid : valid_doc uform. Proof. unfold uform. apply valid_two; [discriminate|reflexivity|reflexivity|]. intros v [<-|[]]. reflexivity. Qed.
Lemma zero_org : q3 0 0 0 = v3zero. Proof. apply qv3b_eq. vm_compute. reflexivity. Qed.
Example C102_ex_written : valid_doc uform /\ written_as uform uwrit /\ uwrit <> doc_xml uform.
Proof.
  split; [exact uform_valid|]. split; [|discriminate]. apply wa; [reflexivity| |].
  - constructor; [|constructor; [|constructor]].
    + apply la; [reflexivity|reflexivity|]. constructor; [|constructor]. eapply va; try reflexivity. apply no_origin; [reflexivity|exact zero_org|reflexivity].
    + apply la; [reflexivity| |constructor]. eexists. split; [reflexivity|]. eapply ia; try reflexivity. eapply an_origin; [reflexivity|left; reflexivity|left; reflexivity].
  - constructor; [|constructor]. eapply ja; try reflexivity; [|do 2 eexists; split; reflexivity]. eapply an_origin; [reflexivity|left; reflexivity|right; split; reflexivity].
Qed.
Definition uwrun (Z : ZtkLib) (x : xml Qc) (v : list Qc) : option (urdf_out Qc * robot Qc * chain Qc) :=
  match urdf2ztk x with
  | Some (Some o) => match robot_read (qz 10) (uo_file o) with Some (Some rb) => match chain_fk (rb_chain rb) v with Some c => Some (o, rb, c) | None => None end | _ => None end
  | _ => None
  end.
Definition uwview (r : urdf_out Qc * robot Qc * chain Qc) : list (list Qc) :=
  let '(_, _, c) := r in match nth_error (c_links c) 1 with Some k => [v3c (fpos (l_frame k)); v3c (mc0 (fatt (l_frame k))); v3c (mp_com (b_mp (l_body k))); diag3 (mp_inertia (b_mp (l_body k)))] | None => [] end.
Example C102_ex (Z : ZtkLib) : exists r, uwrun Z uwrit [qz 1] = Some r /\ uwview r = [v3c (q3 0 1 0); v3c (q3 0 1 0); v3c (q3 1 2 3); map qz [3; 2; 1]%Z].
Proof. apply (some_exq _ uwview). destruct Z. vm_compute. reflexivity. Qed.

Print Assumptions C102_any_form.
Print Assumptions C102_written.
Print Assumptions C102_structure.
Print Assumptions C102_poses_partial.
