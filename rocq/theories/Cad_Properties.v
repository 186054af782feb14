(** * Cad_Properties: C88 and C89, the conversion of CAD tables to chain files and to URDF files. *)
From Coq Require Import Bool String List ZArith Arith Lia QArith Qcanon Reals Lra Field.
From Verif Require Import Num NumFacts Vec VecFacts Motor_Model Joint_Model Joint_Spec Joint_Proofs Body_Model Body_Proofs Tree Tree_Proofs Link_Model Link_Spec Link_Proofs Chain_Proofs Kin_Spec Kin_Proofs Kin_Properties Jacobi_Proofs Dyn_Proofs IK_Model Conf_Model Ztk_Model Ztk_Spec Ztk_Proofs Ztk_Chain Urdf_Model Urdf_Spec Urdf_Tree Urdf_Doc Urdf_Read Urdf_Proofs Urdf_Pose Urdf_Q ExtQ ExtR Cad_Model Cad_Spec Cad_Proofs.
Import ListNotations.

Section P88.
Context {F : Type} {N : Num F} {L : NumLaws F N} {E : Ext F} {X : ExtLaws F N E} {Z : ZtkLib} {U : UrdfExt F} {C : CadExt F}.
Add Field FFieldCPr : num_field.
Local Ltac vring := intros; vdestruct; vunfold; vsplit; ring.
Local Open Scope num_scope.

(** C88: the chain file written for a table is read as a robot of that name whose links are, in order, those
    of the table: same names, joint types, parents and shapes; the links form one tree. *)
Theorem C88_reads (g : F) nm t ss : valid_table t -> valid_shapes t ss ->
  exists o f rb, cad2ztk false nm (map row_csv t) (map shape_csv ss) = Some (Some o) /\ co_file o = OutZtk f /\
    robot_read g f = Some (Some rb) /\ rb_name rb = Some nm /\ well_formed (c_links (rb_chain rb)) /\
    Forall2 (as_table t ss (rb_shapes rb) (c_links (rb_chain rb))) t (c_links (rb_chain rb)).
Proof.
  intros V VS. destruct (cad_ok t V ss VS nm) as (cv & O & _). destruct (cad_load t V ss g nm) as (rb & RR & RN & RS & W & LN & KR).
  do 3 eexists. split; [exact O|]. split; [reflexivity|]. split; [exact RR|]. split; [exact RN|]. split; [exact W|].
  apply forall2_of_nth; [congruence|]. intros i r l Hr Hl. destruct (KR i r Hr) as (l' & Hl' & A1 & _ & A2 & _ & _ & A3 & A4). assert (l' = l) by congruence. subst l'.
  constructor; [exact A1|exact A2| |].
  - destruct (t_parent r) as [p|] eqn:Q; [|rewrite A4; unfold tpar; now rewrite Q]. destruct (par_at t V r p (nth_error_In _ _ Hr) Q) as (k & rp & B1 & B2 & B3).
    destruct (KR k rp B2) as (lq & Hq & Q1 & _). exists k, lq. split; [congruence|]. split; [exact Hq|]. congruence.
  - rewrite A3, RS, map_rev, (pos_names (shapes0 ss) (tnames ss r) (tnames_in ss r)), map_rev. reflexivity.
Qed.

(** C88: in motion, each link keeps to its parent the place it has in the table, but for the displacement
    of its joint. *)
Theorem C88_motion (g : F) nm t ss o f rb v c' : valid_table t -> valid_shapes t ss ->
  cad2ztk false nm (map row_csv t) (map shape_csv ss) = Some (Some o) -> co_file o = OutZtk f -> robot_read g f = Some (Some rb) ->
  chain_fk (rb_chain rb) v = Some c' ->
  forall r l, In r t -> In l (c_links c') -> l_name l = t_name r ->
  exists J, doc_frame (t_joint r) (joint_get_dis (l_joint l)) = Some J /\
    match t_parent r with
    | None => l_frame l = fcascade (metres (t_frame r)) J
    | Some p => exists rp lp, In rp t /\ t_name rp = p /\ In lp (c_links c') /\ l_name lp = p /\
        l_frame l = fcascade (l_frame lp) (fcascade (frel (metres (t_frame rp)) (metres (t_frame r))) J)
    end.
Proof.
  intros V VS HO HF HR FK r l Ir Il QN. destruct (cad_ok t V ss VS nm) as (cv & O & _). rewrite O in HO. injection HO as <-. injection HF as <-.
  destruct (cad_load t V ss g nm) as (rb' & RR & _ & _ & W & LN & KR). rewrite RR in HR. injection HR as ->.
  assert (CK : forall i k, nth_error (c_links (rb_chain rb)) i = Some k -> cache_ok (l_joint k)).
  { intros i k Hk. destruct (nth_same_len (c_links (rb_chain rb)) t i k ltac:(congruence) Hk) as (x & Hx). destruct (KR i x Hx) as (k' & Hk' & _ & _ & _ & K & _). congruence. }
  destruct (fk_keeps (rb_chain rb) c' v W CK FK) as (LE & FO & CK' & KE).
  assert (AT : forall i x, nth_error t i = Some x -> exists k, nth_error (c_links c') i = Some k /\ l_name k = t_name x /\ l_org k = metres (trel t x) /\ jtype_of (l_joint k) = t_joint x /\ l_parent k = tpar t x).
  { intros i x Hx. destruct (KR i x Hx) as (k0 & H0 & A1 & A2 & A3 & _ & _ & _ & A4). destruct (KE i k0 H0) as (k & Hk & B1 & B2 & B3 & B4 & _). exists k. split; [exact Hk|]. repeat split; congruence. }
  apply In_nth_error in Ir as (i & Hr). destruct (AT i r Hr) as (k & Hk & A1 & A2 & A3 & A4).
  apply In_nth_error in Il as (j & Hl). destruct (nth_same_len (c_links c') t j l ltac:(congruence) Hl) as (x & Hx). destruct (AT j x Hx) as (k' & Hk' & B1 & _). assert (k' = l) by congruence. subst k'.
  assert (x = r) by (apply (name_inj t V); [eapply nth_error_In; eauto|eapply nth_error_In; eauto|congruence]). subst x.
  assert (j = i) by (pose proof (found_at t V i r Hr); pose proof (found_at t V j r Hx); congruence). subst j. assert (k = l) by congruence. subst k.
  destruct (FO i l Hl) as (AD & _ & PF). destruct (cache_doc (l_joint l) (l_org l) (CK' i l Hl)) as (J & DF & XF). exists J. rewrite <- A3. split; [exact DF|].
  rewrite AD, XF, A2 in PF. rewrite A4 in PF. destruct (t_parent r) as [p|] eqn:Q.
  - destruct (par_at t V r p (nth_error_In _ _ Hr) Q) as (q & rp & C1 & C2 & C3). rewrite C1 in PF. destruct PF as (lq & Hq & PF). destruct (AT q rp C2) as (lq' & Hq' & D1 & _). assert (lq' = lq) by congruence. subst lq'.
    exists rp, lq. split; [eapply nth_error_In; eauto|]. split; [exact C3|]. split; [eapply nth_error_In; eauto|]. split; [congruence|]. rewrite PF. unfold trel. rewrite C1, C2, <- frel_metres. reflexivity.
  - unfold tpar in PF. rewrite Q in PF. rewrite PF, fcascade_id_l. unfold trel, tpar. rewrite Q. reflexivity.
Qed.

Lemma doc_home jt ds (J : frame F) : doc_frame jt ds = Some J -> Forall (fun d => d = 0) ds -> J = fid.
Proof.
  intros D Hz. assert (RZ : rot_z (0 : F) = m3id) by (unfold rot_z; rewrite x_sin0, x_cos0; clear -L; vring). assert (RY : rot_y (0 : F) = m3id) by (unfold rot_y; rewrite x_sin0, x_cos0; clear -L; vring).
  destruct jt; cbn [doc_frame] in D; repeat (destruct ds as [|? ds]; try discriminate D); repeat match goal with H : Forall _ (_ :: _) |- _ => inversion H; clear H; subst end; injection D as <-; try reflexivity.
  - now rewrite RZ.
  - rewrite RZ. unfold trans_z. clear -L. vring.
  - rewrite RZ, RY, m3mul_id_l. reflexivity.
  - change (V3 (0 : F) 0 0) with (v3zero (F:=F)). now rewrite x_aa_0.
  - change (V3 (0 : F) 0 0) with (v3zero (F:=F)). now rewrite x_aa_0.
  - change (V3 (0 : F) 0 0) with (v3zero (F:=F)). now rewrite x_aa_0.
Qed.

(** C88: with no displacement every link is where the table says, in metres, and has there the mass, the
    centre of mass and the inertia tensor of the table, in kilograms and metres. *)
Theorem C88_home (g : F) nm t ss o f rb v c' : valid_table t -> valid_shapes t ss ->
  cad2ztk false nm (map row_csv t) (map shape_csv ss) = Some (Some o) -> co_file o = OutZtk f -> robot_read g f = Some (Some rb) ->
  chain_fk (rb_chain rb) v = Some c' -> (forall l, In l (c_links c') -> Forall (fun d => d = 0) (joint_get_dis (l_joint l))) ->
  forall r l, In r t -> In l (c_links c') -> l_name l = t_name r ->
  l_frame l = metres (t_frame r) /\ mp_xform (b_mp (l_body l)) (l_frame l) = kilograms (t_mp r).
Proof.
  intros V VS HO HF HR FK HZ r l Ir Il QN. pose proof (C88_motion g nm t ss o f rb v c' V VS HO HF HR FK) as M.
  assert (FR : l_frame l = metres (t_frame r)).
  { pose proof V as ((_ & _ & RE & _) & RG). specialize (RE r Ir). remember (t_name r) as s eqn:Hs. revert r l Hs Ir Il QN. induction RE as [r0 rest ET|r0 p I0 Q0 _ IH]; intros r l Hs Ir Il QN.
    - assert (r = r0) by (apply (name_inj t V); [exact Ir|rewrite ET; now left|now symmetry]). subst r0. pose proof V as (((r1 & rest1 & ET1 & P1) & _) & _). assert (r1 = r) by congruence. subst r1.
      destruct (M r l Ir Il QN) as (J & DF & PF). rewrite P1 in PF. rewrite PF, (doc_home _ _ _ DF (HZ l Il)). apply fcascade_id_r.
    - assert (r = r0) by (apply (name_inj t V); [exact Ir|exact I0|now symmetry]). subst r0. destruct (M r l Ir Il QN) as (J & DF & PF). rewrite Q0 in PF. destruct PF as (rp & lp & Irp & Np & Ilp & Nlp & PF).
      rewrite PF, (doc_home _ _ _ DF (HZ l Il)), fcascade_id_r, (IH rp lp (eq_sym Np) Irp Ilp Nlp). rewrite frel_spec; [reflexivity|]. apply rigid_metres, (RG rp Irp). }
  split; [exact FR|]. rewrite FR. destruct (cad_ok t V ss VS nm) as (cv & O & _). rewrite O in HO. injection HO as <-. injection HF as <-.
  destruct (cad_load t V ss g nm) as (rb' & RR & _ & _ & W & LN & KR). rewrite RR in HR. injection HR as ->.
  assert (CK : forall i k, nth_error (c_links (rb_chain rb)) i = Some k -> cache_ok (l_joint k)).
  { intros i k Hk. destruct (nth_same_len (c_links (rb_chain rb)) t i k ltac:(congruence) Hk) as (x & Hx). destruct (KR i x Hx) as (k' & Hk' & _ & _ & _ & K & _). congruence. }
  destruct (fk_keeps (rb_chain rb) c' v W CK FK) as (LE & _ & _ & KE).
  apply In_nth_error in Il as (j & Hl). destruct (nth_same_len (c_links c') t j l ltac:(congruence) Hl) as (x & Hx). destruct (KR j x Hx) as (k0 & H0 & A1 & _ & _ & _ & A5 & _).
  destruct (KE j k0 H0) as (k & Hk & B1 & _ & _ & _ & B5). assert (k = l) by congruence. subst k.
  assert (x = r) by (apply (name_inj t V); [eapply nth_error_In; eauto|exact Ir|congruence]). subst x. rewrite B5, A5. apply own_world, V, Ir.
Qed.

(** C88: the script moves the points of each shape file, given in the frame of the shape, into the frame of
    the link, both as placed by the tables: position and rows of the attitude. *)
Theorem C88_script nm urdf t ss o : valid_table t -> valid_shapes t ss ->
  cad2ztk urdf nm (map row_csv t) (map shape_csv ss) = Some (Some o) ->
  Forall2 (fun s c => cv_from c = ts_stl s /\ cv_to c = ts_name s /\ exists r p m, In r t /\ t_name r = ts_link s /\ cv_t c = l3 p /\
    cv_r c = [vx (mc0 m); vx (mc1 m); vx (mc2 m); vy (mc0 m); vy (mc1 m); vy (mc2 m); vz (mc0 m); vz (mc1 m); vz (mc2 m)] /\
    fcascade (t_frame r) (Fr p m) = ts_frame s) ss (co_script o).
Proof.
  intros V VS HO. assert (CV : exists cv, omap (stl_conv (map (ln t) t)) (map (cs0 t) ss) = Some cv /\ cv = co_script o).
  { destruct (conv_rows t ss VS) as (cv & A & _). exists cv. split; [exact A|]. unfold cad2ztk in HO. destruct (map row_csv t) as [|x0 xs] eqn:Q.
    - pose proof V as (((r & rest & -> & _) & _) & _). discriminate.
    - rewrite <- Q in HO. rewrite (read_rows t V) in HO. cbn [obind] in HO. rewrite (assoc_rows t V), (read_srows t ss VS) in HO. cbn [obind] in HO. rewrite A in HO. cbn [obind] in HO.
      destruct urdf; [destruct (cad_urdf _ _ _)|destruct (cad_ztk _ _ _)]; cbn [option_map] in HO; try discriminate; injection HO as <-; reflexivity. }
  destruct CV as (cv & A & <-). destruct (conv_rows t ss VS) as (cv' & A' & B). assert (cv' = cv) by congruence. subst cv'. revert B. clear - L V.
  induction 1 as [|s c ss cv (r & I & QN & ->) _ IH]; constructor; [|exact IH]. cbn [cv_from cv_to cv_t cv_r]. split; [reflexivity|]. split; [reflexivity|].
  exists r, (fpos (frel (t_frame r) (ts_frame s))), (fatt (frel (t_frame r) (ts_frame s))). split; [exact I|]. split; [exact QN|]. split; [reflexivity|]. split; [reflexivity|].
  replace (Fr (fpos (frel (t_frame r) (ts_frame s))) (fatt (frel (t_frame r) (ts_frame s)))) with (frel (t_frame r) (ts_frame s)) by reflexivity. apply frel_spec, V, I.
Qed.

(** C88: when a row names a parent that is not in the table, neither file nor script is written, whatever else is in the tables. *)
Theorem C88_orphan nm urdf t srows r p : In r t -> t_parent r = Some p -> p <> "nil"%string -> ~ In p (map t_name t) ->
  cad2ztk urdf nm (map row_csv t) srows = Some None.
Proof.
  intros I QP NN NI. assert (K : exists ls, omap read_link (map row_csv t) = Some ls /\ Forall2 (fun r0 l => cl_name l = t_name r0 /\ cl_pname l = cr_parent (row_csv r0)) t ls).
  { clear I NI. induction t as [|r0 t0 (ls & A & B)]; [exists []; split; [reflexivity|constructor]|].
    cbn [map omap]. assert (Q : exists l, read_link (row_csv r0) = Some l /\ cl_name l = t_name r0 /\ cl_pname l = cr_parent (row_csv r0)) by (do 2 eexists; [reflexivity|]; split; reflexivity).
    destruct Q as (l & Q & Q1). rewrite Q. cbn [obind]. rewrite A. cbn. eexists. split; [reflexivity|]. constructor; assumption. }
  destruct K as (ls & A & B). unfold cad2ztk. destruct (map row_csv t) as [|x xs] eqn:Q; [reflexivity|]. rewrite A. cbn [obind].
  assert (NS : map cl_name ls = map t_name t) by (clear -B; induction B as [|r0 l t0 ls0 [H _] _ IH]; [reflexivity|cbn; now rewrite H, IH]).
  assert (J : exists l, In l ls /\ cl_pname l = p).
  { clear -B I QP. induction B as [|r0 l t0 ls0 [_ H] _ IH]; [contradiction|]. destruct I as [->|I]; [|destruct (IH I) as (l' & ? & ?); exists l'; split; [now right|assumption]].
    exists l. split; [now left|]. rewrite H. unfold row_csv. cbn. now rewrite QP. }
  destruct J as (l & Il & Hl). unfold assoc_parent.
  replace (forallb (fun l0 => snd (assoc_one ls l0)) ls) with false; [reflexivity|]. symmetry. apply not_true_is_false. intros H. rewrite forallb_forall in H. specialize (H l Il).
  unfold assoc_one in H. rewrite Hl in H. destruct (String.eqb_spec p "nil") as [|_]; [contradiction|]. unfold find_clink in H. rewrite NS in H.
  destruct (find_name (map t_name t) p) as [k|] eqn:QF; [|discriminate]. apply NI. clear -QF. revert k QF. induction (map t_name t) as [|x0 n0 IH]; intros k QF; [discriminate|]. cbn in QF. destruct (String.eqb_spec x0 p) as [->|_]; [now left|]. right. destruct (find_name n0 p) as [k'|]; [exact (IH k' eq_refl)|discriminate].
Qed.

(** C89: read as urdf2ztk reads a link, each link of the URDF file has the mass properties of the table. *)
Theorem C89_links nm t ss : valid_table t -> valid_shapes t ss -> supported t ->
  exists o x, cad2ztk true nm (map row_csv t) (map shape_csv ss) = Some (Some o) /\ co_file o = OutUrdf x /\ x_tag x = "robot"%string /\ xname x = Some nm /\
    forall r, In r t -> exists e k, In e (x_kids x) /\ x_tag e = "link"%string /\ xname e = Some (t_name r) /\ In k (x_kids e) /\ x_tag k = "inertial"%string /\
      forall m0, exists m, eval_inertial k m0 = Some m /\ mp_xform m (metres (t_frame r)) = kilograms (t_mp r).
Proof.
  intros V VS SU. destruct (urdf_ok t V ss VS nm SU) as (cv & O). do 2 eexists. split; [exact O|]. split; [reflexivity|]. split; [reflexivity|]. split; [reflexivity|].
  intros r I. apply In_nth_error in I as (i & Hr). pose proof (ulinks_in t ss r i Hr) as IU. do 2 eexists. split; [cbn [uout x_kids]; apply in_or_app; left; exact IU|]. split; [reflexivity|]. split; [reflexivity|].
  split; [cbn [urdf_link x_kids]; apply in_or_app; right; left; reflexivity|]. split; [reflexivity|]. intros m0. eexists. split; [reflexivity|].
  destruct (proj2 V r (nth_error_In _ _ Hr)) as [RG SY]. rewrite <- (own_world (t_mp r) (t_frame r) RG). f_equal.
  assert (SO : m3tr (mp_inertia (tmp r)) = mp_inertia (tmp r)).
  { unfold tmp, mp_gmm2kgm, mp_xforminv. cbn [mp_inertia]. rewrite m3tr_scale. f_equal. unfold m3rotinv. rewrite !m3tr_mul, m3tr_tr, SY. rewrite m3mul_assoc. reflexivity. }
  unfold own_mp. change (cl_mp (ln t r)) with (t_mp r). change (cl_frame (ln t r)) with (t_frame r). fold (tmp r). revert SO. destruct (tmp r) as [m [cx cy cz] [[a0 a1 a2] [a3 a4 a5] [a6 a7 a8]]]. intros SO. injection SO as S1 S2 S3 S4 S5 S6. cbn in S1, S2, S3, S4, S5, S6. subst.
  cbn. unfold eval_inertia, inertia_num. cbn. f_equal. unfold m3rot. rewrite m3mul_id_l. change (m3tr m3id) with (m3id (F:=F)). rewrite m3mul_id_r. reflexivity.
Qed.

(** C89: the joint of each link that has a parent connects it to the parent and places the origin of its frame
    as the table says; the attitude is that of the table when its azimuth and tilt are equal.
    Missing: other attitudes ([C89_attitude_refuted]). *)
Theorem C89_joints_partial nm t ss : valid_table t -> valid_shapes t ss -> supported t ->
  exists o x, cad2ztk true nm (map row_csv t) (map shape_csv ss) = Some (Some o) /\ co_file o = OutUrdf x /\
    forall r rp, In r t -> In rp t -> t_parent r = Some (t_name rp) -> exists e k f, In e (x_kids x) /\ x_tag e = "joint"%string /\ xname e = Some (t_name r) /\
      In (Elem "parent" [("link"%string, AV (t_name rp) [])] []) (x_kids e) /\ In (Elem "child" [("link"%string, AV (t_name r) [])] []) (x_kids e) /\
      In k (x_kids e) /\ x_tag k = "origin"%string /\ eval_origin k fid = Some f /\
      fpos (fcascade (metres (t_frame rp)) f) = fpos (metres (t_frame r)) /\
      (let m := fatt (frel (t_frame rp) (t_frame r)) in zyx_exact m -> vx (x_m2zyx m) = vz (x_m2zyx m) -> fcascade (metres (t_frame rp)) f = metres (t_frame r)).
Proof.
  intros V VS SU. destruct (urdf_ok t V ss VS nm SU) as (cv & O). do 2 eexists. split; [exact O|]. split; [reflexivity|].
  intros r rp Ir Irp Q. do 3 eexists. split; [cbn [uout x_kids]; apply in_or_app; right; apply in_map; exact Ir|]. split; [reflexivity|]. split; [reflexivity|].
  split; [left; unfold pname; rewrite Q; reflexivity|]. split; [right; left; reflexivity|]. split; [right; right; left; reflexivity|]. split; [reflexivity|]. split; [reflexivity|].
  assert (TR : trel t r = frel (t_frame rp) (t_frame r)).
  { unfold trel, tpar. rewrite Q. apply In_nth_error in Irp as (k & Hk). rewrite (found_at t V k rp Hk), Hk. reflexivity. }
  rewrite TR. pose proof (proj1 (proj2 V rp Irp)) as RG.
  assert (SP : fcascade (metres (t_frame rp)) (metres (frel (t_frame rp) (t_frame r))) = metres (t_frame r)) by (rewrite <- frel_metres; apply frel_spec, rigid_metres, RG).
  split.
  - rewrite <- SP. unfold fcascade. cbn [fpos fatt]. reflexivity.
  - cbn zeta. intros ZX EQ. rewrite <- SP. f_equal. unfold zyx_exact in ZX. rewrite EQ in ZX. unfold metres at 2. f_equal. cbn [l3]. rewrite EQ. exact ZX.
Qed.

(** C89: no URDF file it writes can be read by urdf2ztk: the root is the child of a link "nil" that is not there. *)
Theorem C89_read_refuted nm t ss o x : valid_table t -> valid_shapes t ss -> supported t -> ~ In "nil"%string (map t_name t) ->
  cad2ztk true nm (map row_csv t) (map shape_csv ss) = Some (Some o) -> co_file o = OutUrdf x -> urdf2ztk x = None.
Proof.
  intros V VS SU NN HO HX. destruct (urdf_ok t V ss VS nm SU) as (cv & O). rewrite O in HO. injection HO as <-. injection HX as <-.
  assert (ER : eval_robot (uout t ss nm) = None); [|unfold urdf2ztk; now rewrite ER].
  unfold eval_robot. cbn [uout x_tag x_kids]. cbn [String.eqb Ascii.eqb Bool.eqb]. unfold with_tag. rewrite !filter_app.
  change (filter (fun k => String.eqb (x_tag k) ?s) ?l) with (with_tag s l). rewrite (proj1 (links_tags t ss 0 (map (ln t) t))), (proj2 (links_tags t ss 0 (map (ln t) t))), (proj1 (joints_tags t t)), (proj2 (joints_tags t t)). rewrite app_nil_r. cbn [app].
  destruct (ofold eval_link _ _) as [i|] eqn:EL; [|reflexivity]. cbn [obind]. apply links_named in EL. cbn [ui_links map app] in EL.
  pose proof V as (((r0 & rest & ET & P0) & _) & _). rewrite ET at 2. cbn [map]. rewrite ofold_some.
  assert (EJ : eval_joint i (ujt t r0) = None); [|now rewrite EJ].
  unfold eval_joint. cbn [ujt x_kids]. rewrite ofold_some. unfold eval_joint_elem at 1. cbn [x_tag String.eqb Ascii.eqb Bool.eqb]. unfold bind_parent. cbn [ui_links x_find x_attrs find fst snd String.eqb Ascii.eqb Bool.eqb option_map xtxt av_text].
  unfold pname. rewrite P0. destruct (find_link (ui_links i) (Some "nil"%string) 0) as [[p|]|] eqn:FL; [|cbn [obind]; destruct (set_joint _ _ _); reflexivity|reflexivity].
  exfalso. revert FL. apply find_absent. rewrite EL. intros I. apply NN.
  assert (G : forall (ls : list (clink F)) sh k, map xname (urdf_links sh k ls) = map (fun l => Some (cl_name l)) ls).
  { clear. induction ls as [|l ls IH]; intros sh k; [reflexivity|]. cbn [map urdf_links]. rewrite IH. reflexivity. }
  rewrite G, map_map in I. apply in_map_iff in I as (r & Q & I). injection Q as Q. cbn [ln cl_name] in Q. rewrite <- Q. now apply in_map.
Qed.
End P88.

Close Scope R_scope. Close Scope Qc_scope. Close Scope Q_scope.
(** ** Examples *)
Section Ex.
#[local] Instance Cad_Qc : CadExt Qc := mkCadExt (fun _ => v3zero).
(** A body with an arm that turns about y and a slider on it, in mm and g. *)
Definition ck : mat3 Qc := m3create (qz 3) (qz 0) (qz 1) (qz 0) (qz 5) (qz 0) (qz 1) (qz 0) (qz 4).
Definition cy90 : mat3 Qc := m3create (qz 0) (qz 0) (qz 1) (qz 0) (qz 1) (qz 0) (qz (-1)) (qz 0) (qz 0).
Definition ctab : list (trow Qc) :=
  [TR "base" None TFloat (Fr (V3 (qz 0) (qz 0) (qz 1000)) m3id) (MP (qz 2000) (V3 (qz 0) (qz 100) (qz 1000)) ck);
   TR "slider" (Some "arm"%string) TPrism (Fr (V3 (qz 1000) (qz 0) (qz 2000)) m3id) (MP (qz 500) (V3 (qz 600) (qz 0) (qz 2000)) ck);
   TR "arm" (Some "base"%string) TRevol (Fr (V3 (qz 0) (qz 0) (qz 2000)) cy90) (MP (qz 1000) (V3 (qz 1000) (qz 0) (qz 2000)) ck)].
Definition cshp : list (tshape Qc) := [TS "s1" "part1" "arm" (Fr (V3 (qz 0) (qz 0) (qz 2100)) m3id); TS "s2" "part2" "base" fid; TS "s3" "part3" "arm" fid].
Lemma ctab_valid : valid_table ctab.
Proof.
  split.
  - split; [do 2 eexists; split; reflexivity|]. split; [cbn; repeat constructor; cbn; intuition discriminate|].
    assert (RB : treach ctab "base") by (change "base"%string with (t_name (nth 0 ctab (TR "" None TFixed fid (MP (qz 0) v3zero m3zero)))); eapply tr_root; reflexivity).
    assert (RA : treach ctab "arm") by (eapply (tr_child ctab (nth 2 ctab (TR "" None TFixed fid (MP (qz 0) v3zero m3zero)))); [right; right; left; reflexivity|reflexivity|exact RB]).
    split.
    + intros r [<-|[<-|[<-|[]]]]; [exact RB| |exact RA]. eapply tr_child; [right; left; reflexivity|reflexivity|exact RA].
    + intros r p [<-|[<-|[<-|[]]]] Q; cbn in Q; try discriminate; injection Q as <-; cbn; (split; [tauto|discriminate]).
  - intros r [<-|[<-|[<-|[]]]]; (split; [split; vm_compute; reflexivity|vm_compute; reflexivity]).
Qed.
Lemma cshp_valid : valid_shapes ctab cshp.
Proof. intros s [<-|[<-|[<-|[]]]]; cbn; tauto. Qed.
Lemma ctab_supported : supported ctab.
Proof. intros r [<-|[<-|[<-|[]]]]; cbn; tauto. Qed.

Lemma crun (Z : ZtkLib) t ss v i n (w : cad_out Qc -> link Qc -> list (list Qc)) r :
  match cad2ztk false "r" (map row_csv t) (map shape_csv ss) with
  | Some (Some o) => match co_file o with
    | OutZtk f => match robot_read (qz 10) f with
      | Some (Some rb) => match chain_fk (rb_chain rb) v with
        | Some c => match nth_error (c_links c) i with Some k => andb (String.eqb (l_name k) n) (qlbs (w o k) r) | None => false end
        | None => false end
      | _ => false end
    | _ => false end
  | _ => false end = true ->
  exists o f rb c k, cad2ztk false "r" (map row_csv t) (map shape_csv ss) = Some (Some o) /\ co_file o = OutZtk f /\ robot_read (qz 10) f = Some (Some rb) /\
    chain_fk (rb_chain rb) v = Some c /\ In k (c_links c) /\ l_name k = n /\ w o k = r.
Proof.
  destruct (cad2ztk _ _ _ _) as [[o|]|]; try discriminate. destruct (co_file o) as [f|] eqn:HF; try discriminate. destruct (robot_read _ f) as [[rb|]|] eqn:HR; try discriminate.
  destruct (chain_fk _ v) as [c|] eqn:HC; try discriminate. destruct (nth_error (c_links c) i) as [k|] eqn:HK; try discriminate. intros H. apply andb_prop in H as [H1 H2].
  exists o, f, rb, c, k. split; [reflexivity|]. split; [exact HF|]. split; [exact HR|]. split; [exact HC|]. split; [eapply nth_error_In; eauto|]. split; [now apply String.eqb_eq|now apply qlbs_eq].
Qed.
Definition cv3 (v : vec3 Qc) : list Qc := l3 v.
(** The slider moves by 2 along its z axis, with the body lifted by 1. *)
Example C88_ex (Z : ZtkLib) : valid_table ctab /\ valid_shapes ctab cshp /\ exists o f rb c k, cad2ztk false "r" (map row_csv ctab) (map shape_csv cshp) = Some (Some o) /\ co_file o = OutZtk f /\
  robot_read (qz 10) f = Some (Some rb) /\ chain_fk (rb_chain rb) (map qz [0; 0; 1; 0; 0; 0; 2; 0])%Z = Some c /\ In k (c_links c) /\ l_name k = "slider"%string /\
  cv3 (fpos (l_frame k)) :: map cv_t (co_script o) = map (map qz) [[1; 0; 5]; [-100; 0; 0]; [0; 0; -1000]; [2000; 0; 0]]%Z.
Proof. split; [exact ctab_valid|]. split; [exact cshp_valid|]. apply (crun Z ctab cshp _ 1 "slider" (fun o k => cv3 (fpos (l_frame k)) :: map cv_t (co_script o))). destruct Z. vm_compute. reflexivity. Qed.
(** At home the arm lies along x; its centre of mass is on its z axis. *)
Example C88_ex_home (Z : ZtkLib) : exists o f rb c k, cad2ztk false "r" (map row_csv ctab) (map shape_csv cshp) = Some (Some o) /\ co_file o = OutZtk f /\
  robot_read (qz 10) f = Some (Some rb) /\ chain_fk (rb_chain rb) (map qz [0; 0; 0; 0; 0; 0; 0; 0])%Z = Some c /\ In k (c_links c) /\ l_name k = "arm"%string /\
  [cv3 (fpos (l_frame k)); cv3 (mc2 (fatt (l_frame k))); cv3 (mp_com (b_mp (l_body k))); [mp_mass (b_mp (l_body k))]; map (fun i => qz (Z.of_nat i)) (b_shapes (l_body k))] =
  map (map qz) [[0; 0; 2]; [1; 0; 0]; [0; 0; 1]; [1]; [2; 0]]%Z.
Proof. apply (crun Z ctab cshp _ 2 "arm" (fun _ k => [cv3 (fpos (l_frame k)); cv3 (mc2 (fatt (l_frame k))); cv3 (mp_com (b_mp (l_body k))); [mp_mass (b_mp (l_body k))]; map (fun i => qz (Z.of_nat i)) (b_shapes (l_body k))])). destruct Z. vm_compute. reflexivity. Qed.

(** An arm on a link that is not there. *)
Example C88_ex_orphan : exists r p, In r (ctab ++ [TR "hand" (Some "wrist"%string) TFixed fid (MP (qz 1) v3zero m3id)]) /\ t_parent r = Some p /\ p <> "nil"%string /\
  ~ In p (map t_name (ctab ++ [TR "hand" (Some "wrist"%string) TFixed fid (MP (qz 1) v3zero m3id)])).
Proof. exists (TR "hand" (Some "wrist"%string) TFixed fid (MP (qz 1) v3zero m3id)), "wrist"%string. split; [apply in_or_app; right; left; reflexivity|]. split; [reflexivity|]. split; [discriminate|]. cbn. intuition discriminate. Qed.
(** C88: the program as it stands writes nothing, whatever the tables: it prints its documentation first and exits. *)
Theorem C88_main_refuted : exists (t : list (trow Qc)) ss o, valid_table t /\ valid_shapes t ss /\ cad2ztk false "r" (map row_csv t) (map shape_csv ss) = Some (Some o) /\
  forall a, cad2ztk_main a (map row_csv t) (map shape_csv ss) = Some None.
Proof. exists ctab, cshp. eexists. split; [exact ctab_valid|]. split; [exact cshp_valid|]. split; [vm_compute; reflexivity|]. intros a. reflexivity. Qed.
(** C88: a shape of a link that is not in the table is undefined behaviour, not an error. *)
Theorem C88_shape_refuted : exists (t : list (trow Qc)) s, valid_table t /\ ~ In (ts_link s) (map t_name t) /\ cad2ztk false "r" (map row_csv t) (map shape_csv [s]) = None.
Proof. exists ctab, (TS "s" "p" "leg" fid). split; [exact ctab_valid|]. split; [cbn; intuition discriminate|vm_compute; reflexivity]. Qed.
(** C88: when the root is not in the first row the file that is written is not read as these links. *)
Definition trow0 : trow Qc := TR "" None TFixed fid (MP (qz 0) v3zero m3zero).
Definition cswap : list (trow Qc) := [nth 2 ctab trow0; nth 0 ctab trow0].
Theorem C88_order_refuted (Z : ZtkLib) : exists o f rb c k, cad2ztk false "r" (map row_csv cswap) (map shape_csv []) = Some (Some o) /\ co_file o = OutZtk f /\ robot_read (qz 10) f = Some (Some rb) /\
  chain_fk (rb_chain rb) (map qz [0; 0; 0; 0; 0; 0; 0])%Z = Some c /\ In k (c_links c) /\ l_name k = "base"%string /\
  [cv3 (fpos (l_frame k)); cv3 (fpos (metres (t_frame (nth 1 cswap trow0))))] = map (map qz) [[0; 0; 0]; [0; 0; 1]]%Z.
Proof. apply (crun Z cswap [] _ 1 "base" (fun _ k => [cv3 (fpos (l_frame k)); cv3 (fpos (metres (t_frame (nth 1 cswap trow0))))])). destruct Z. vm_compute. reflexivity. Qed.

(** C89 *)
Example C89_ex : supported ctab /\ ~ In "nil"%string (map t_name ctab) /\ exists o, cad2ztk true "r" (map row_csv ctab) (map shape_csv cshp) = Some (Some o).
Proof. split; [exact ctab_supported|]. split; [cbn; intuition discriminate|]. destruct (cad2ztk true "r" (map row_csv ctab) (map shape_csv cshp)) as [[o|]|] eqn:Q; [eauto|vm_compute in Q; discriminate|vm_compute in Q; discriminate]. Qed.
(** The slider: its attitude relative to the base has no azimuth and no tilt in this small table. *)
Example C89_ex_straight : zyx_exact (fatt (frel (fid : frame Qc) (Fr (V3 (qz 1) (qz 2) (qz 3)) m3id))) /\ vx (x_m2zyx (m3id : mat3 Qc)) = vz (x_m2zyx (m3id : mat3 Qc)).
Proof. split; [|reflexivity]. unfold zyx_exact. apply qm3b_eq. vm_compute. reflexivity. Qed.
(** C89: a joint that the chain file has but URDF writer does not know is undefined behaviour. *)
Definition cspher : list (trow Qc) := [nth 0 ctab trow0; TR "ball" (Some "base"%string) TSpher fid (MP (qz 1) v3zero m3id)].
Theorem C89_joint_refuted : valid_table cspher /\ (exists o, cad2ztk false "r" (map row_csv cspher) [] = Some (Some o)) /\ cad2ztk true "r" (map row_csv cspher) [] = None.
Proof.
  split; [split|].
  - split; [do 2 eexists; split; reflexivity|]. split; [cbn; repeat constructor; cbn; intuition discriminate|].
    assert (RB : treach cspher "base") by (change "base"%string with (t_name (nth 0 cspher trow0)); eapply tr_root; reflexivity).
    split.
    + intros r [<-|[<-|[]]]; [exact RB|]. eapply tr_child; [right; left; reflexivity|reflexivity|exact RB].
    + intros r p [<-|[<-|[]]] Q; cbn in Q; try discriminate; injection Q as <-; cbn; (split; [tauto|discriminate]).
  - intros r [<-|[<-|[]]]; (split; [split; vm_compute; reflexivity|vm_compute; reflexivity]).
  - split; [|vm_compute; reflexivity]. destruct (cad2ztk false "r" (map row_csv cspher) []) as [[o|]|] eqn:Q; [eauto|vm_compute in Q; discriminate|vm_compute in Q; discriminate].
Qed.
End Ex.

(** C89: the angles are written in the order azimuth, elevation, tilt as roll, pitch, yaw: a link turned by a right
    angle about z is turned otherwise in the URDF file, whatever exact angles the external function gives. *)
Section Rpy.
Context {F : Type} {N : Num F} {L : NumLaws F N} {E : Ext F} {X : ExtLaws F N E} {Z : ZtkLib} {U : UrdfExt F} {C : CadExt F}.
Add Field FFieldCPq : num_field.
Local Open Scope num_scope.
Definition qturn : mat3 F := m3create 0 (- (1)) 0 1 0 0 0 0 1.
Definition tturn : list (trow F) := [TR "base" None TFixed fid (MP 1 v3zero m3id); TR "a" (Some "base"%string) TRevol (Fr v3zero qturn) (MP 1 v3zero m3id)].
Theorem C89_attitude_refuted : zyx_exact qturn -> valid_table tturn /\ supported tturn /\
  exists o x, cad2ztk true "r" (map row_csv tturn) [] = Some (Some o) /\ co_file o = OutUrdf x /\
  forall e k f, In e (x_kids x) -> x_tag e = "joint"%string -> xname e = Some "a"%string -> In k (x_kids e) -> x_tag k = "origin"%string -> eval_origin k fid = Some f ->
    fcascade (metres fid) f <> metres (Fr v3zero qturn).
Proof.
  intros ZX. assert (VT : valid_table tturn).
  { split; [split; [do 2 eexists; split; reflexivity|]; split; [cbn; repeat constructor; cbn; intuition discriminate|]; split|].
    - assert (RB : treach tturn "base") by (change "base"%string with (t_name (nth 0 tturn (TR "" None TFixed fid (MP 0 v3zero m3zero)))); eapply tr_root; reflexivity).
      intros r [<-|[<-|[]]]; [exact RB|]. eapply tr_child; [right; left; reflexivity|reflexivity|exact RB].
    - intros r p [<-|[<-|[]]] Q; cbn in Q; try discriminate; injection Q as <-; cbn; (split; [tauto|discriminate]).
    - intros r [<-|[<-|[]]]; (split; [|reflexivity]); [apply rigid_id|]. split; unfold qturn; cbn; vunfold; vsplit; ring. }
  assert (ST : supported tturn) by (intros r [<-|[<-|[]]]; cbn; tauto).
  split; [exact VT|]. split; [exact ST|]. assert (VS : valid_shapes tturn (@nil (tshape F))) by (intros s []).
  destruct (urdf_ok tturn VT [] VS "r" ST) as (cv & O). do 2 eexists. split; [exact O|]. split; [reflexivity|].
  intros e k f Ie Te Ne Ik Tk Ef. cbn [uout x_kids] in Ie. apply in_app_or in Ie as [Ie|Ie]; [exfalso; revert Te; cbn in Ie; destruct Ie as [<-|[<-|[]]]; discriminate|].
  cbn [map tturn] in Ie. destruct Ie as [<-|[<-|[]]]; [discriminate Ne|]. cbn [ujt x_kids] in Ik. destruct Ik as [<-|[<-|[<-|[<-|[]]]]]; try discriminate Tk.
  cbn in Ef. injection Ef as <-. intros Q. apply (f_equal (@fatt F)) in Q. unfold fcascade, metres in Q. cbn [fatt fid] in Q. rewrite m3mul_id_l in Q.
  change (m3tr m3id) with (m3id (F:=F)) in Q. rewrite m3mul_id_l in Q.
  unfold zyx_exact in ZX. revert ZX Q. generalize (x_m2zyx qturn). intros [a e t]. cbn [vx vy vz]. intros ZX Q.
  apply (f_equal (fun m => vz (mc2 m))) in ZX. apply (f_equal (fun m => vx (mc0 m))) in Q. unfold m3zyx, qturn in ZX, Q. revert ZX Q. vunfold. intros ZX Q.
  apply n1_neq_0. rewrite <- ZX at 1. etransitivity; [|exact Q]. ring.
Qed.
End Rpy.
(** Over the reals the angles are a right angle, 0 and 0. *)
Example C89_ex_turn : @zyx_exact R Num_R Ext_R (mkCadExt (fun _ => V3 (PI / 2)%R 0%R 0%R)) (@qturn R Num_R).
Proof.
  unfold zyx_exact, x_m2zyx, m3zyx, qturn. cbn [vx vy vz x_sin x_cos Ext_R]. rewrite sin_PI2, cos_PI2, sin_0, cos_0. vunfold; cbn [n0 n1 nadd nmul nsub nopp Num_R]. vsplit; lra.
Qed.

Print Assumptions C88_reads.
Print Assumptions C88_motion.
Print Assumptions C88_home.
Print Assumptions C88_script.
Print Assumptions C88_orphan.
Print Assumptions C88_main_refuted.
Print Assumptions C88_shape_refuted.
Print Assumptions C88_order_refuted.
Print Assumptions C89_links.
Print Assumptions C89_joints_partial.
Print Assumptions C89_read_refuted.
Print Assumptions C89_joint_refuted.
Print Assumptions C89_attitude_refuted.
