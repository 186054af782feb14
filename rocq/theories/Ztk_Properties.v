(** * Ztk_Properties: theorems C73-C75, chain description files. *)
From Coq Require Import String ZArith QArith Qcanon List Arith Lia Permutation Field.
From Verif Require Import Num NumFacts Vec VecFacts Motor_Model Joint_Model Joint_Spec Joint_Proofs Body_Model Tree Tree_Proofs
  Link_Model Link_Spec Link_Proofs Chain_Proofs Link_Properties Chain_Properties Kin_Spec Kin_Proofs ExtQ
  Ztk_Model Ztk_Spec Ztk_Proofs Ztk_Chain Ztk_Posture Ztk_Read.
Import ListNotations.
Local Open Scope nat_scope.

Section Thms.
Context {F : Type} {N : Num F} {L : NumLaws F N} {E : Ext F} {X : ExtLaws F N E} {Z : ZtkLib}.
Add Field FFieldZtkP : num_field.

(** ** C73: saving a chain and loading it *)

(** rkChainFPrintZTK on a chain that can be saved, followed by rkChainFromZTK on what was printed,
    gives a chain with the same name and shapes; the same motors at rest; the same tree with the same
    links (name, parent, mounting frame, mass properties, material, shapes; joint type, limits,
    displacement, friction and stiffness parameters, thresholds, motor and transformation) at rest;
    the total mass; and every link at the pose the original has in its configuration.  Missing: chains
    with a link without material, with a motor not in the motor array or without motor array (below);
    the order of the shapes of a link and of siblings; rounding of the printed numbers. *)
Theorem C73_save_load_partial (g : F) (rb : robot F) : (x_tol <= x_pi)%num -> savable rb ->
  exists z rb', robot_print rb = Some z /\ robot_read g z = Some (Some rb') /\
    rb_name rb' = rb_name rb /\ rb_shapes rb' = rb_shapes rb /\
    rb_motors rb' = match rb_motors rb with Some (s :: a) => Some (map (fun s => Slot (s_name s) (option_map at_rest (s_kind s))) (s :: a)) | _ => None end /\
    well_formed (c_links (rb_chain rb')) /\ Forall2 same_link (c_links (rb_chain rb)) (c_links (rb_chain rb')) /\
    (total_mass (c_links (rb_chain rb)) = 0%num -> c_mass (rb_chain rb') = 1%num) /\
    (total_mass (c_links (rb_chain rb)) <> 0%num -> c_mass (rb_chain rb') = total_mass (c_links (rb_chain rb))) /\
    (forall i t, lineage (c_links (rb_chain rb)) i t -> exists l', nth_error (c_links (rb_chain rb')) i = Some l' /\
       doc_pose (c_links (rb_chain rb)) t = Some (l_frame l')).
Proof. apply save_load. Qed.
(** The files have angles in degrees and lengths as they are, in the order of the components. *)
Theorem C73_units (j : joint F) l i : (In (KDis l) (joint_print j) -> forall x d, nth_error l i = Some x -> nth_error (joint_get_dis j) i = Some d -> in_units (jtype_of j) i x d) /\
  (forall m, In (KMin m) (joint_print j) -> forall x d, nth_error m i = Some (Some x) -> nth_error (joint_get_min j) i = Some (Some d) -> in_units (jtype_of j) i x d) /\
  (forall m, In (KMax m) (joint_print j) -> forall x d, nth_error m i = Some (Some x) -> nth_error (joint_get_max j) i = Some (Some d) -> in_units (jtype_of j) i x d).
Proof.
  assert (A : forall d : F, (to_deg d * x_pi = d * nrat 180%Z 1)%num).
  { intros d. unfold to_deg, nrat, nZ. assert (x_pi <> (0%num : F)) by (intros H; pose proof x_pi_pos as P; rewrite H in P; exact (nlt_irrefl _ P)).
    pose proof (npos_nz 1). field. auto. }
  destruct j as [|r|p|c|h|s|f|f ef et].
  all: split; [|split].
  all: cbn -[to_deg nth_error in_units].
  all: first [intros m H x d HA HB | intros H x d HA HB]; repeat match goal with K : _ \/ _ |- _ => destruct K as [K|K] end; try easy.
  all: injection H as <-; destruct i as [|[|[|[|[|[|i]]]]]]; cbn [nth_error] in HA, HB; try easy; unfold in_units; cbn [angular].
  all: try congruence; try (destruct i; easy).
  all: injection HB as HB; rewrite HB in HA; cbn [option_map] in HA.
  all: first [replace x with (to_deg d) by congruence; apply A|congruence].
Qed.
(** Joints whose displacement was last set under their present limits meet the requirement on joints. *)
Theorem C73_settled (j : joint F) : settled j -> at_own_dis j.
Proof.
  intros H. apply settled_stable in H as [S C]. unfold at_own_dis, stable in *.
  destruct j as [|r|p|c|h|s|f|f ef et]; cbn in S, C |- *.
  - reflexivity.
  - injection S as S. destruct C as [C1 C2]. unfold revol_setdis. rewrite S. destruct r as [a s c m]. cbn in *. rewrite <- C1, <- C2. destruct a; reflexivity.
  - injection S as S. unfold prism_setdis. rewrite S. destruct p as [a m]. cbn in *. destruct a; reflexivity.
  - injection S as S0 S1. destruct C as [C1 C2]. unfold cylin_setdis. rewrite S0, S1. destruct c as [a b s c m]. cbn in *. rewrite <- C1, <- C2. destruct a, b; reflexivity.
  - injection S as S0 S1. destruct C as [[C1 C2] [C3 C4]]. unfold hooke_setdis. rewrite S0, S1. destruct h as [a b s0 c0 s1 c1 m]. cbn in *. rewrite <- C1, <- C2, <- C3, <- C4. destruct a, b; reflexivity.
  - destruct s as [[x y z] v ac tr at_ m]. cbn in *. unfold spher_setdis. cbn. rewrite <- C. reflexivity.
  - destruct f as [[[x y z] [x' y' z']] v ac tr at_]. cbn in *. unfold float_setdis. cbn. rewrite <- C. reflexivity.
  - destruct f as [[[x y z] [x' y' z']] v ac tr at_]. cbn in *. unfold float_setdis. cbn. rewrite <- C. reflexivity.
Qed.

(** ** C74: posture files *)

(** What rkChainInitFPrintZTK writes for a chain, read by rkChainInitFromZTK into a chain of the same
    make, moves the root link to its mounting frame and every joint that is not neutral to its
    displacement, and updates the frames to match.  Missing: the joints neutral in the written chain
    stay where they are, so the posture is not restored (below). *)
Theorem C74_posture_partial (g : F) (c d : chain F) : well_formed (c_links d) -> joints_made (c_links d) -> NoDup (map l_name (c_links c)) ->
  (forall l, In l (c_links c) -> at_own_dis (l_joint l)) -> Forall2 same_make (c_links c) (c_links d) ->
  exists ks d', posture_print c = Some ks /\ posture_read g ks d = Some d' /\ well_formed (c_links d') /\ length (c_links d') = length (c_links d) /\
    (forall i lc ld, nth_error (c_links c) i = Some lc -> nth_error (c_links d) i = Some ld -> exists l', nth_error (c_links d') i = Some l' /\
       l_name l' = l_name ld /\ l_parent l' = l_parent ld /\ jtype_of (l_joint l') = jtype_of (l_joint ld) /\ b_mp (l_body l') = b_mp (l_body ld) /\
       l_org l' = (if Nat.eqb i 0 then l_org lc else l_org ld) /\
       joint_get_dis (l_joint l') = (if joint_is_neutral (l_joint lc) then joint_get_dis (l_joint ld) else joint_get_dis (l_joint lc)) /\
       forall t, lineage (c_links d) i t -> doc_pose (c_links d') t = Some (l_frame l')).
Proof. apply posture. Qed.
(** In particular, a copy of the chain whose joints are at the same displacement wherever the written
    chain is neutral takes over the pose of every link. *)
Theorem C74_restore_partial (g : F) (c d : chain F) : well_formed (c_links d) -> joints_made (c_links d) -> NoDup (map l_name (c_links c)) ->
  (forall l, In l (c_links c) -> at_own_dis (l_joint l)) ->
  Forall2 (fun a b => same_make a b /\ (l_parent a <> None -> l_org b = l_org a) /\ l_parent b = l_parent a /\
    (joint_is_neutral (l_joint a) = true -> joint_get_dis (l_joint b) = joint_get_dis (l_joint a))) (c_links c) (c_links d) ->
  exists ks d', posture_print c = Some ks /\ posture_read g ks d = Some d' /\
    forall i t, lineage (c_links c) i t -> exists l', nth_error (c_links d') i = Some l' /\ doc_pose (c_links c) t = Some (l_frame l').
Proof.
  intros W MD ND O FM. assert (FS : Forall2 same_make (c_links c) (c_links d)) by (clear - FM; induction FM as [|a b ? ? (H & _) _ IH]; constructor; auto).
  destruct (C74_posture_partial g c d W MD ND O FS) as (ks & d' & P & R & W' & LN & K). exists ks, d'. split; [exact P|]. split; [exact R|].
  assert (LE : length (c_links d) = length (c_links c)) by (eapply forall2_len; eauto).
  assert (AT : forall i lc, nth_error (c_links c) i = Some lc -> exists ld, nth_error (c_links d) i = Some ld).
  { intros i lc H. destruct (nth_error (c_links d) i) eqn:Q; [eauto|]. apply nth_error_None in Q. apply nth_lt in H. lia. }
  intros i t HT. assert (HTD : lineage (c_links d) i t).
  { eapply lineage_ext; [|exact HT]. intros k x Hx. destruct (AT k x Hx) as (y & Hy). exists y. split; [exact Hy|].
    apply (forall2_nth_inv _ _ _ FM k x y Hx Hy). }
  destruct (nth_error (c_links c) i) as [lc|] eqn:HC; [|inversion HT; congruence]. destruct (AT i lc HC) as (ld & HD).
  destruct (K i lc ld HC HD) as (l' & Hl' & _ & _ & _ & _ & _ & _ & DP). exists l'. split; [exact Hl'|]. rewrite <- (DP t HTD). symmetry.
  apply doc_pose_ext; [|apply (lineage_lt _ _ _ HT)]. intros k _ x Hx. destruct (AT k x Hx) as (y & Hy).
  destruct (K k x y Hx Hy) as (x' & Hx' & _ & _ & JT & _ & OR & DI & _). exists x'. split; [exact Hx'|].
  destruct (forall2_nth_inv _ _ _ FM k x y Hx Hy) as ((_ & T & _) & OE & PE & NE). split; [congruence|]. split.
  - rewrite DI. destruct (joint_is_neutral (l_joint x)); auto.
  - rewrite OR. destruct (Nat.eqb k 0) eqn:K0; [reflexivity|]. apply OE. rewrite <- PE. intros Q. apply (wf_root (c_links d) k y W Hy) in Q. subst k. discriminate.
Qed.

(** ** C75: files of any content *)

(** Whatever the file, a chain that is returned has one link per [link] section, at least one, all
    references inside the link array, the offsets rkChainSetOffset would give, a mass that is not zero,
    the shapes of the file and one motor per [motor] section.  Missing: that the links form one
    tree, and that a file that cannot be read is rejected rather than dereferencing NULL (below). *)
Theorem C75_read_partial (g : F) (z : ztk F) rb : robot_read g z = Some (Some rb) ->
  length (c_links (rb_chain rb)) = length (z_links z) /\ 0 < length (c_links (rb_chain rb)) /\ refs_ok (c_links (rb_chain rb)) /\
  chain_set_offset (rb_chain rb) = rb_chain rb /\ c_mass (rb_chain rb) <> 0%num /\ rb_shapes rb = z_shapes z /\
  match rb_motors rb with Some a => length a = length (z_motors z) | None => z_motors z = [] end.
Proof.
  intros H. destruct (read_facts g z rb H) as (A & B & C & D & M & S & T). do 3 (split; [assumption|]). split; [|auto].
  unfold chain_set_offset. destruct (rb_chain rb) as [h m a b c]. cbn [c_links] in *. unfold c_set_links. cbn. now rewrite D.
Qed.
(** A file without [link] section is rejected. *)
Theorem C75_no_link (g : F) (z : ztk F) : robot_read g z = Some None <-> z_links z = [].
Proof.
  split; [|intros H; unfold robot_read; now rewrite H].
  unfold robot_read. destruct (z_links z) as [|s t]; [reflexivity|].
  repeat match goal with |- context [obind ?x _] => destruct x as [?|] eqn:?; cbn [obind]; [|discriminate] end.
  intros H. exfalso. revert H.
  repeat match goal with p : _ * _ |- _ => destruct p | |- context [obind ?x _] => destruct x as [?|]; cbn [obind] | |- context [option_map _ ?x] => destruct x as [?|]; cbn [option_map] end; discriminate.
Qed.
End Thms.

(** ** Concrete cases *)
Lemma view_some {A B} (h : A -> B) o v : option_map h o = Some v -> exists a, o = Some a /\ h a = v.
Proof. destruct o as [a|]; cbn; intros H; [injection H as <-; eauto|discriminate]. Qed.

(** Base with a shape, a revolute arm turned by 1 rad and limited to 2, driven by the DC motor "m", and a
    prismatic hand at zero driven by the same motor. *)
Definition dcm : mkind Qc := MDC (DC (qz 3) (qz 1) (qz 2) (qz 1) (qz 9) (qz (-9)) (qz 10) (qz 1) (qz 1) (qz 0) (qz 0)).
Definition zrun (j : joint Qc) ops := match joint_run j ops with Some j' => j' | None => JFixed end.
Definition zrev : joint Qc := zrun (joint_alloc TRevol) [OSetMax [Some (qz 2)]; OSetDis [qz 1]; OSetVel [qz 3]; OSetMotor (Mot (Some "m"%string) dcm)].
Definition zpri : joint Qc := zrun (joint_alloc TPrism) [OSetDis [qz 0]; OSetMotor (Mot (Some "m"%string) dcm)].
Definition zbody (m : Z) (sh : list nat) : body Qc :=
  let b := body_init in Body (MP (qz m) (V3 (qz 1) (qz 0) (qz 0)) m3id) (b_frame b) (b_vel b) (b_acc b) (b_wcom b) (b_comvel b) (b_comacc b) (b_extw b) sh (Some "steel"%string).
Definition zlink (n : string) (j : joint Qc) (m : Z) sh : link Qc := Link n j (zbody m sh) None (Fr (V3 (qz 1) (qz 0) (qz 0)) m3id) fid v6zero None None None.
Definition zthree : list (link Qc) := [zlink "base" JFixed 5 [0]; zlink "arm" zrev 2 []; zlink "hand" zpri 1 []].
Definition zops : list (nat * nat) := [(0, 1); (1, 2)].
Definition ztree : list (link Qc) := match add_children zthree zops with Some h => h | None => [] end.
Definition zarm : robot Qc := Robot (Some "arm3"%string) ["ball"%string] (Some [Slot (Some "m"%string) (Some dcm)]) (Chain ztree (qz 8) v3zero v3zero v3zero).
Ltac three i H := destruct i as [|[|[|i]]]; cbn [nth_error ztree zthree] in H; [injection H as <-|injection H as <-|injection H as <-|destruct i; discriminate H].
Lemma zlegal : legal (length zthree) [] zops.
Proof.
  unfold zops. cbn [length zthree].
  repeat (constructor; [lia | lia | cbn; lia | | ]); cbn [app].
  all: try solve [constructor].
  all: intros H; repeat (apply below_inv in H; destruct H as [H | (? & I & H)]; [discriminate H | cbn in I;
      repeat (destruct I as [I|I]; [try discriminate I; try (injection I as <-)|]); try (destruct I; fail)]).
Qed.
Lemma ztree_wf : well_formed ztree.
Proof.
  apply (C23_complete_tree zthree zops); [|apply zlegal|cbn; lia|cbn; lia| |reflexivity].
  - intros i l H. three i H; repeat split.
  - intros c H. cbn in H. cbn. lia.
Qed.
Lemma zrev_settled : settled zrev.
Proof.
  exists (zrun (joint_alloc TRevol) [OSetMax [Some (qz 2)]]), (OSetDis [qz 1]). eexists _, [OSetVel [qz 3]; OSetMotor (Mot (Some "m"%string) dcm)].
  split; [|split; [exact I|split; [reflexivity|split; [|reflexivity]]]].
  - intros [|i] lo hi; cbn; [intros [= <-] [= <-]; exact I | destruct i; discriminate].
  - cbn. intuition subst; auto.
Qed.
Lemma zpri_settled : settled zpri.
Proof.
  exists (joint_alloc TPrism), (OSetDis [qz 0]). eexists _, [OSetMotor (Mot (Some "m"%string) dcm)].
  split; [|split; [exact I|split; [reflexivity|split; [|reflexivity]]]].
  - intros [|i] lo hi; cbn; [intros [= <-] [= <-]; exact I | destruct i; discriminate].
  - cbn. intuition subst; auto.
Qed.
Lemma ztree_own l : In l ztree -> at_own_dis (l_joint l).
Proof.
  intros H. apply In_nth_error in H as (i & H). three i H; cbn [l_joint].
  - reflexivity.
  - apply (C73_settled zrev), zrev_settled.
  - apply (C73_settled zpri), zpri_settled.
Qed.
Example C73_ex_savable (Z : ZtkLib) : savable zarm /\ ((x_tol : Qc) <= x_pi)%num.
Proof.
  split; [|vm_compute; reflexivity]. constructor; cbn [zarm rb_chain rb_name rb_shapes rb_motors c_links].
  - apply ztree_wf.
  - discriminate.
  - cbn. repeat constructor; cbn; intuition discriminate.
  - intros l H. apply In_nth_error in H as (i & H). three i H; discriminate.
  - repeat constructor. intros [].
  - intros l k H. apply In_nth_error in H as (i & H). three i H; cbn; intuition lia.
  - intros a [= <-] s [<-|[]]. eauto.
  - apply ztree_own.
  - intros l H. apply In_nth_error in H as (i & H). unfold motor_saved. three i H; [exact I| |];
      (exists [Slot (Some "m"%string) (Some dcm)]; split; [reflexivity|]; split; [discriminate|]; exists dcm; split; reflexivity).
Qed.
(** The number of sections and keys printed, and what is read back: the displacements, the position of
    the hand, the motor's gear ratio and voltage. *)
Definition zview (rb : robot Qc) : list Qc :=
  c_mass (rb_chain rb) :: flat_map (fun l => joint_get_dis (l_joint l)) (c_links (rb_chain rb)) ++ pos_list (rb_chain rb) 2 ++
  match rb_motors rb with Some [Slot _ (Some (MDC p))] => [dc_ratio p; dc_e p] | _ => [] end.
Example C73_ex : exists z, robot_print (Z := mkZtkLib "?" true true) zarm = Some z /\
  (length (z_motors z), map (fun l => length l) (z_links z), length (z_init z)) = (1, [9; 17; 17], 3) /\
  exists rb, robot_read (Z := mkZtkLib "?" true true) (qz 10) z = Some (Some rb) /\
  map this (zview rb) = map this [qz 8; qz 1; qz 0; qz 2; qz 1; qz 0; qz 10; qz 0] /\ map (fun l => b_shapes (l_body l)) (c_links (rb_chain rb)) = [[0]; []; []].
Proof.
  destruct (view_some (fun z => (length (z_motors z), map (fun l => length l) (z_links z), length (z_init z),
    match robot_read (Z := mkZtkLib "?" true true) (qz 10) z with Some (Some rb) => Some (map this (zview rb), map (fun l => b_shapes (l_body l)) (c_links (rb_chain rb))) | _ => None end))
    (robot_print (Z := mkZtkLib "?" true true) zarm) (1, [9; 17; 17], 3, Some (map this [qz 8; qz 1; qz 0; qz 2; qz 1; qz 0; qz 10; qz 0], [[0]; []; []]))) as (z & P & V);
    [vm_compute; reflexivity|].
  exists z. split; [exact P|]. apply pair_equal_spec in V as [V1 V2]. split; [exact V1|].
  destruct (robot_read (qz 10) z) as [[rb|]|]; [|discriminate V2|discriminate V2]. exists rb. split; [reflexivity|].
  assert (V3 := f_equal (fun o => match o with Some x => x | None => ([], []) end) V2). cbv beta iota in V3. apply pair_equal_spec in V3. exact V3.
Qed.
Example C73_ex_thm (Z : ZtkLib) : exists z rb', robot_print zarm = Some z /\ robot_read (qz 10) z = Some (Some rb') /\ Forall2 same_link ztree (c_links (rb_chain rb')).
Proof.
  destruct (C73_ex_savable Z) as [S T]. destruct (C73_save_load_partial (qz 10) zarm T S) as (z & rb & A & B & _ & _ & _ & _ & C & _). eauto.
Qed.

(** C73 is false for a chain whose links have no material, as every chain not read from a file: NULL is
    printed with %s. *)
Definition always_saved : Prop := forall (Z : ZtkLib) (rb : robot Qc), well_formed (c_links (rb_chain rb)) -> rb_name rb <> None ->
  NoDup (map l_name (c_links (rb_chain rb))) -> (forall l, In l (c_links (rb_chain rb)) -> settled (l_joint l) /\ joint_motor (l_joint l) = None) -> robot_print rb <> None.
Lemma one_wf (l : link Qc) : unattached l -> well_formed [l].
Proof.
  intros U. apply (C23_complete_tree [l] []); [|constructor|cbn; lia|intros []| |reflexivity].
  - intros [|i] x H; [injection H as <-; exact U|destruct i; discriminate].
  - intros c H. cbn in H. lia.
Qed.
Lemma fixed_settled : settled (JFixed : joint Qc).
Proof.
  exists JFixed, (OSetDis []), JFixed, []. split; [|split; [exact I|split; [reflexivity|split; [intros ? []|reflexivity]]]].
  intros [|i] lo hi; cbn; discriminate.
Qed.
Theorem C73_material_refuted : ~ always_saved.
Proof.
  intros H. apply (H (mkZtkLib "?" true true) (Robot (Some "r"%string) [] None (Chain [link_new "base" JFixed] (qz 0) v3zero v3zero v3zero))).
  - apply one_wf. repeat split.
  - discriminate.
  - repeat constructor. intros [].
  - intros l [<-|[]]. split; [apply fixed_settled|reflexivity].
  - reflexivity.
Qed.
(** C73 is false for a chain with a revolute joint and no motor array: the printed file makes
    rkChainFromZTK search a motor in a NULL array. *)
Definition motorless : robot Qc := Robot (Some "r"%string) [] None (Chain [zlink "base" (zrun (joint_alloc TRevol) [OSetDis [qz 1]]) 5 []] (qz 5) v3zero v3zero v3zero).
Definition always_loaded : Prop := forall (Z : ZtkLib) (rb : robot Qc) z, well_formed (c_links (rb_chain rb)) -> rb_name rb <> None ->
  NoDup (map l_name (c_links (rb_chain rb))) -> (forall l, In l (c_links (rb_chain rb)) -> settled (l_joint l)) -> robot_print rb = Some z -> robot_read (qz 10) z <> None.
Theorem C73_motorless_refuted (Z : ZtkLib) : (exists z, robot_print motorless = Some z /\ robot_read (qz 10) z = None) /\ ~ always_loaded.
Proof.
  assert (G : forall Z : ZtkLib, exists z, robot_print motorless = Some z /\ robot_read (qz 10) z = None).
  { intros Z'. destruct (robot_print motorless) as [z|] eqn:P; [|discriminate P]. exists z. split; [reflexivity|].
    assert (Q : obind (robot_print motorless) (robot_read (qz 10)) = None) by (vm_compute; reflexivity). rewrite P in Q. exact Q. }
  split; [apply G|]. intros H. destruct (G Z) as (z & P & R). revert R. apply (H Z motorless z); [| | | |exact P].
  - apply one_wf. repeat split.
  - discriminate.
  - repeat constructor. intros [].
  - intros l [<-|[]]. cbn [l_joint zlink]. exists (joint_alloc TRevol), (OSetDis [qz 1]). eexists _, [].
    split; [|split; [exact I|split; [reflexivity|split; [intros ? []|reflexivity]]]].
    intros [|i] lo hi; cbn; [intros [= <-] [= <-]; exact I | destruct i; discriminate].
Qed.

(** C74: the arm at its posture, and a copy of it with the arm at 0 and the hand at 4. *)
Definition zrev0 : joint Qc := zrun (joint_alloc TRevol) [OSetMax [Some (qz 2)]; OSetDis [qz 0]].
Definition zpri4 : joint Qc := zrun (joint_alloc TPrism) [OSetDis [qz 4]].
Definition ztree2 : list (link Qc) := match add_children [zlink "base" JFixed 5 [0]; zlink "arm" zrev0 2 []; zlink "hand" zpri4 1 []] zops with Some h => h | None => [] end.
Definition zc : chain Qc := Chain ztree (qz 8) v3zero v3zero v3zero.
Definition zd : chain Qc := Chain ztree2 (qz 8) v3zero v3zero v3zero.
Lemma ztree2_wf : well_formed ztree2.
Proof.
  apply (C23_complete_tree [zlink "base" JFixed 5 [0]; zlink "arm" zrev0 2 []; zlink "hand" zpri4 1 []] zops); [|apply zlegal|cbn; lia|cbn; lia| |reflexivity].
  - intros i l H. three i H; repeat split.
  - intros c H. cbn in H. cbn. lia.
Qed.
Lemma ztree2_made : joints_made ztree2.
Proof.
  intros i l H. three i H; cbn [l_joint].
  - exists TFixed, JFixed, []. split; reflexivity.
  - exists TRevol. eexists. exists [OSetMax [Some (qz 2)]; OSetDis [qz 0]]. split; reflexivity.
  - exists TPrism. eexists. exists [OSetDis [qz 4]]. split; reflexivity.
Qed.
Lemma zmake : Forall2 same_make ztree ztree2.
Proof. repeat (constructor; [repeat split|]). constructor. Qed.
(** The arm takes its displacement; the hand, at 0 in the written posture, stays at 4. *)
Example C74_ex (Z : ZtkLib) : exists ks d', posture_print zc = Some ks /\ posture_read (qz 10) ks zd = Some d' /\
  exists l1 l2, nth_error (c_links d') 1 = Some l1 /\ nth_error (c_links d') 2 = Some l2 /\ map this (joint_get_dis (l_joint l1)) = [this (qz 1)] /\ map this (joint_get_dis (l_joint l2)) = [this (qz 4)].
Proof.
  destruct (C74_posture_partial (qz 10) zc zd ztree2_wf ztree2_made) as (ks & d' & P & R & _ & _ & K);
    [cbn; repeat constructor; cbn; intuition discriminate|apply ztree_own|apply zmake|].
  exists ks, d'. split; [exact P|]. split; [exact R|].
  destruct (K 1 _ _ eq_refl eq_refl) as (l1 & A1 & _ & _ & _ & _ & _ & D1 & _). destruct (K 2 _ _ eq_refl eq_refl) as (l2 & A2 & _ & _ & _ & _ & _ & D2 & _).
  exists l1, l2. split; [exact A1|]. split; [exact A2|]. rewrite D1, D2. split; vm_compute; reflexivity.
Qed.
Definition posture_restored : Prop := forall (Z : ZtkLib) (c d d' : chain Qc) ks,
  well_formed (c_links c) -> well_formed (c_links d) -> joints_made (c_links d) -> NoDup (map l_name (c_links c)) ->
  (forall l, In l (c_links c) -> settled (l_joint l)) -> Forall2 same_make (c_links c) (c_links d) ->
  posture_print c = Some ks -> posture_read (qz 10) ks d = Some d' ->
  forall i lc l, nth_error (c_links c) i = Some lc -> nth_error (c_links d') i = Some l -> joint_get_dis (l_joint l) = joint_get_dis (l_joint lc).
Theorem C74_neutral_refuted : ~ posture_restored.
Proof.
  intros H. destruct (C74_ex (mkZtkLib "?" true true)) as (ks & d' & P & R & l1 & l2 & A1 & A2 & _ & D2).
  specialize (H (mkZtkLib "?" true true) zc zd d' ks ztree_wf ztree2_wf ztree2_made).
  assert (S : forall l, In l ztree -> settled (l_joint l)).
  { intros l Hl. apply In_nth_error in Hl as (i & Hl). three i Hl; cbn [l_joint]; [apply fixed_settled|apply zrev_settled|apply zpri_settled]. }
  specialize (H ltac:(cbn; repeat constructor; cbn; intuition discriminate) S zmake P R 2 _ l2 eq_refl A2).
  rewrite H in D2. apply (f_equal (map (fun q => Qnum q))) in D2. vm_compute in D2. discriminate D2.
Qed.

(** C75: what the reader does with a few files. *)
Definition lsec (n : string) (rest : list (key Qc)) : list (key Qc) := KName n :: rest.
Definition zfile (links : list (list (key Qc))) (ini : list (key Qc)) : ztk Qc := Ztk [KName "r"] [] [] links ini.
Definition read_safe : Prop := forall (Z : ZtkLib) (z : ztk Qc), robot_read (qz 10) z <> None.
Definition read_tree : Prop := forall (Z : ZtkLib) (z : ztk Qc) rb, robot_read (qz 10) z = Some (Some rb) -> well_formed (c_links (rb_chain rb)).
(** Two links of one name: the second has no joint. *)
Theorem C75_duplicate_refuted (Z : ZtkLib) : robot_read (qz 10) (zfile [lsec "a" []; lsec "a" []] []) = None.
Proof. destruct Z as [n [] []]; vm_compute; reflexivity. Qed.
(** An initial displacement for a link with a fixed joint calls a NULL function. *)
Theorem C75_fixed_init_refuted (Z : ZtkLib) : robot_read (qz 10) (zfile [lsec "a" []] [KJoint "a" [qz 1]]) = None.
Proof. destruct Z as [n [] []]; vm_compute; reflexivity. Qed.
(** Two links that are each other's parents: the recursion of the frame update does not end. *)
Definition loop : list (link Qc) :=
  match add_children [link_new "a" JFixed; link_new "b" JFixed] [(1, 0); (0, 1)] with Some h => h | None => [] end.
Lemma loop_step (a b : link Qc) p : l_child a = Some 1 -> l_child b = Some 0 ->
  l_child (upd_frame a p) = Some 1 /\ l_child (upd_frame b p) = Some 0.
Proof. intros A B. split; [exact A|exact B]. Qed.
Lemma loop_ends fuel : forall (a b : link Qc) i p, l_child a = Some 1 -> l_child b = Some 0 -> (i < 2)%nat -> update_frame fuel [a; b] i p = None.
Proof.
  induction fuel as [|k IH]; intros a b i p A B Hi; [reflexivity|]. unfold update_frame in *. cbn [walk_down].
  destruct (loop_step a b p A B) as [A' B']. destruct i as [|[|i]]; [| |lia]; cbn [nth_error set_nth].
  - rewrite A'. rewrite IH; [reflexivity|exact A'|exact B|lia].
  - rewrite B'. rewrite IH; [reflexivity|exact A|exact B'|lia].
Qed.
Theorem C75_loop_refuted (Z : ZtkLib) : robot_read (qz 10) (zfile [lsec "a" [KParent "b"]; lsec "b" [KParent "a"]] []) = None /\
  forall fuel, update_frame fuel loop 0 fid = None.
Proof. split; [destruct Z as [n [] []]; vm_compute; reflexivity|]. intros fuel. apply loop_ends; [reflexivity|reflexivity|lia]. Qed.
Theorem C75_safe_refuted : ~ read_safe.
Proof. intros H. exact (H (mkZtkLib "?" true true) _ (C75_duplicate_refuted _)). Qed.
(** A parent that does not exist: the chain is returned with a link that hangs nowhere. *)
Theorem C75_detached_refuted : ~ read_tree.
Proof.
  intros H. set (Z := mkZtkLib "?" false true). specialize (H Z (zfile [lsec "a" []; lsec "b" [KParent "c"]] [])).
  destruct (view_some (fun o => option_map (fun rb => (length (c_links (rb_chain rb)), map (@l_parent Qc) (c_links (rb_chain rb)))) o) (robot_read (qz 10) (zfile [lsec "a" []; lsec "b" [KParent "c"]] [])) (Some (2, [None; None]))) as (o & R & V); [vm_compute; reflexivity|].
  destruct o as [rb|]; [|discriminate V]. specialize (H rb R). cbn [option_map] in V. assert (V1 : (length (c_links (rb_chain rb)), map (@l_parent Qc) (c_links (rb_chain rb))) = (2, [None; None])) by (injection V as V1 V2; rewrite V1, V2; reflexivity).
  apply pair_equal_spec in V1 as [V1 V2]. destruct (nth_error (c_links (rb_chain rb)) 1) as [l|] eqn:Hl; [|apply nth_error_None in Hl; lia].
  assert (P : l_parent l = None). { pose proof (map_nth_error (@l_parent Qc) 1 _ Hl) as Q. rewrite V2 in Q. injection Q as Q. auto. }
  apply (wf_root _ 1 l H Hl) in P. discriminate.
Qed.
(** A file that is read, with a link whose motor does not exist. *)
Example C75_ex : exists rb, robot_read (Z := mkZtkLib "?" true true) (qz 10)
    (Ztk [KName "r"] [] [[KName "m"; KType "trq"; KMax [Some (qz 5)]]] [lsec "a" []; lsec "b" [KJointType "revolute"; KMotor "n"; KParent "a"]] [KJoint "b" [qz 60]]) = Some (Some rb) /\
  (length (c_links (rb_chain rb)), map this [c_mass (rb_chain rb)]) = (2, map this [qz 1]).
Proof.
  destruct (view_some (fun o => option_map (fun rb => (length (c_links (rb_chain rb)), map this [c_mass (rb_chain rb)])) o) (robot_read (Z := mkZtkLib "?" true true) (qz 10)
    (Ztk [KName "r"] [] [[KName "m"; KType "trq"; KMax [Some (qz 5)]]] [lsec "a" []; lsec "b" [KJointType "revolute"; KMotor "n"; KParent "a"]] [KJoint "b" [qz 60]])) (Some (2, map this [qz 1]))) as (o & R & V);
    [vm_compute; reflexivity|].
  destruct o as [rb|]; [|discriminate V]. exists rb. split; [exact R|]. exact (f_equal (fun o => match o with Some x => x | None => (0, []) end) V).
Qed.

Print Assumptions C73_save_load_partial.
Print Assumptions C73_units.
Print Assumptions C73_settled.
Print Assumptions C73_material_refuted.
Print Assumptions C73_motorless_refuted.
Print Assumptions C74_posture_partial.
Print Assumptions C74_restore_partial.
Print Assumptions C74_neutral_refuted.
Print Assumptions C75_read_partial.
Print Assumptions C75_no_link.
Print Assumptions C75_duplicate_refuted.
Print Assumptions C75_fixed_init_refuted.
Print Assumptions C75_loop_refuted.
Print Assumptions C75_safe_refuted.
Print Assumptions C75_detached_refuted.
