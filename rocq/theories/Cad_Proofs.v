(** * Cad_Proofs: the chain file the converter writes for a table, and what it is read to. *)
From Coq Require Import Bool String List ZArith Arith Lia Permutation Field.
From Verif Require Import Num NumFacts Vec VecFacts Motor_Model Joint_Model Joint_Spec Joint_Proofs Body_Model Body_Proofs Tree Tree_Proofs Link_Model Link_Spec Link_Proofs Chain_Proofs
  Link_Properties Kin_Spec Kin_Proofs Jacobi_Proofs Dyn_Proofs IK_Model IK_Usable Conf_Model Ztk_Model Ztk_Spec Ztk_Proofs Ztk_Chain Urdf_Model Urdf_Spec Urdf_Tree Urdf_Doc Urdf_Walk Urdf_Read Urdf_Proofs Urdf_Pose Cad_Model Cad_Spec.
Import ListNotations.

Section CP.
Context {F : Type} {N : Num F} {L : NumLaws F N} {E : Ext F} {X : ExtLaws F N E} {Z : ZtkLib} {U : UrdfExt F} {C : CadExt F}.
Add Field FFieldCP : num_field.
Local Ltac vring := intros; vdestruct; vunfold; vsplit; ring.

(** ** Units *)
Lemma milli3 : nrat 1 1000000000 = (@milli F N * (milli * milli))%num.
Proof.
  unfold milli, nrat. pose proof (npos_nz (F:=F) 1000) as H. pose proof (npos_nz (F:=F) 1000000000) as H9.
  assert (Q : @npos F N 1000000000 = (npos 1000 * (npos 1000 * npos 1000))%num) by (cbn [npos]; unfold n2; ring). rewrite Q in *.
  cbn [nZ]. change (@npos F N 1) with (1 : F)%num. clear Q. revert H H9. generalize (@npos F N 1000). intros k H _. field. exact H.
Qed.
Lemma own_world (m : mp F) (f : frame F) : rigid f -> mp_xform (mp_gmm2kgm (mp_xforminv m f)) (metres f) = kilograms m.
Proof.
  intros R. unfold mp_xform, mp_gmm2kgm, mp_xforminv, kilograms, metres. cbn [mp_mass mp_com mp_inertia fpos fatt]. rewrite milli3. fold (@milli F N). f_equal.
  - ring.
  - unfold xform, xforminv. cbn [fpos fatt]. rewrite m3v_scale_r, (rot_v_tv _ _ R). generalize (@milli F N) (fpos f) (mp_com m). clear -L. vring.
  - unfold m3rot. rewrite m3mul_scale_r, m3mul_scale_l. f_equal. exact (m3rot_rotinv (fatt f) (mp_inertia m) R).
Qed.
Lemma frel_metres (a b : frame F) : frel (metres a) (metres b) = metres (frel a b).
Proof. unfold metres. generalize (@milli F N). clear -L. vring. Qed.
Lemma rigid_metres (a : frame F) : rigid a -> rigid (metres a).
Proof. intros H. exact H. Qed.

(** ** Tables as read *)
Section Table.
Context (t : list (trow F)) (V : valid_table t).
Notation names := (map t_name t).
Definition pname (r : trow F) : string := match t_parent r with Some p => p | None => "nil"%string end.
Definition ln0 (r : trow F) : clink F := CL (t_name r) (pname r) (jtype_str (t_joint r)) None (t_frame r) (t_mp r).
Definition tpar (r : trow F) : option nat := match t_parent r with Some p => find_name names p | None => None end.
Definition ln (r : trow F) : clink F := CL (t_name r) (pname r) (jtype_str (t_joint r)) (tpar r) (t_frame r) (t_mp r).
Lemma read_row r : In r t -> read_link (row_csv r) = Some (ln0 r).
Proof.
  intros I. destruct (proj2 V r I) as [_ S]. destruct r as [n p j f [m c i]]. cbn in S. unfold read_link, row_csv, ln0, pname. cbn. f_equal. f_equal.
  - destruct f as [[px py pz] [[a0 a1 a2] [a3 a4 a5] [a6 a7 a8]]]. reflexivity.
  - f_equal; [destruct c; reflexivity|]. revert S. clear. destruct i as [[a0 a1 a2] [a3 a4 a5] [a6 a7 a8]]. unfold m3tr, m3create. cbn. intros S. injection S as S1 S2 S3 S4 S5 S6. subst. reflexivity.
Qed.
Lemma omap_map {A B} (f : A -> option B) (g : A -> B) l : (forall a, In a l -> f a = Some (g a)) -> omap f l = Some (map g l).
Proof. induction l as [|a l IH]; intros H; [reflexivity|]. cbn. rewrite (H a (or_introl eq_refl)), IH by (intros; apply H; now right). reflexivity. Qed.
Lemma read_rows : omap read_link (map row_csv t) = Some (map ln0 t).
Proof.
  assert (G : forall l, (forall r, In r l -> In r t) -> omap read_link (map row_csv l) = Some (map ln0 l)).
  { induction l as [|r l IH]; intros H; [reflexivity|]. cbn [map omap]. rewrite (read_row r) by (apply H; now left). cbn [obind]. rewrite IH by (intros; apply H; now right). reflexivity. }
  now apply G.
Qed.
Lemma names_ln0 : map cl_name (map ln0 t) = names.
Proof. rewrite map_map. reflexivity. Qed.
Lemma names_ln : map cl_name (map ln t) = names.
Proof. rewrite map_map. reflexivity. Qed.
Lemma name_found s : In s names -> exists k r, find_name names s = Some k /\ nth_error t k = Some r /\ t_name r = s.
Proof.
  intros I. destruct (find_in names s I) as (k & A & B). rewrite nth_error_map in B. destruct (nth_error t k) as [r|] eqn:Q; [|discriminate]. injection B as B. eauto.
Qed.
Lemma found_at k r : nth_error t k = Some r -> find_name names (t_name r) = Some k.
Proof. intros H. apply find_name_nth; [apply V|]. now rewrite nth_error_map, H. Qed.
Lemma assoc_row r : In r t -> assoc_one (map ln0 t) (ln0 r) = (ln r, true).
Proof.
  intros I. unfold assoc_one, find_clink. rewrite names_ln0. unfold ln0, ln, tpar, pname. cbn [cl_name cl_pname cl_joint cl_frame cl_mp].
  destruct (t_parent r) as [p|] eqn:Q; [|reflexivity]. destruct V as ((_ & _ & _ & P) & _). destruct (P r p I Q) as [IP NP].
  apply String.eqb_neq in NP. rewrite NP. destruct (name_found p IP) as (k & x & -> & _). reflexivity.
Qed.
Lemma assoc_rows : assoc_parent (map ln0 t) = (map ln t, true).
Proof.
  unfold assoc_parent. f_equal.
  - rewrite map_map. apply map_ext_in. intros r I. now rewrite assoc_row.
  - apply forallb_forall. intros x I. apply in_map_iff in I as (r & <- & I). now rewrite assoc_row.
Qed.
Context (ss : list (tshape F)) (VS : valid_shapes t ss).
Definition cs0 (s : tshape F) : cshape F := CS (ts_name s) (ts_stl s) (pos_of names (ts_link s)) (ts_frame s).
Lemma read_srow s : In s ss -> read_shape (map ln t) (shape_csv s) = Some (cs0 s).
Proof.
  intros I. destruct (name_found _ (VS s I)) as (k & r & Q & _). unfold read_shape, find_clink, shape_csv. cbn [sr_link sr_num sr_name sr_stl]. rewrite names_ln. rewrite Q. cbn [obind].
  unfold cs0, pos_of. rewrite Q. cbn. f_equal. f_equal. destruct (ts_frame s) as [[px py pz] [[a0 a1 a2] [a3 a4 a5] [a6 a7 a8]]]. reflexivity.
Qed.
Lemma read_srows : omap (read_shape (map ln t)) (map shape_csv ss) = Some (map cs0 ss).
Proof.
  assert (G : forall l, (forall s, In s l -> In s ss) -> omap (read_shape (map ln t)) (map shape_csv l) = Some (map cs0 l)).
  { induction l as [|r l IH]; intros H; [reflexivity|]. cbn [map omap]. rewrite (read_srow r) by (apply H; now left). cbn [obind]. rewrite IH by (intros; apply H; now right). reflexivity. }
  now apply G.
Qed.
Lemma conv_row s : In s ss -> exists r, In r t /\ t_name r = ts_link s /\
  stl_conv (map ln t) (cs0 s) = Some (Conv (ts_stl s) (ts_name s) (l3 (fpos (frel (t_frame r) (ts_frame s)))) (rows9 (fatt (frel (t_frame r) (ts_frame s))))).
Proof.
  intros I. destruct (name_found _ (VS s I)) as (k & r & Q & H & E1). exists r. split; [eapply nth_error_In; eauto|]. split; [exact E1|].
  unfold stl_conv, cs0, pos_of. cbn [cs_link]. rewrite Q, nth_error_map, H. reflexivity.
Qed.
Lemma conv_rows : exists cv, omap (stl_conv (map ln t)) (map cs0 ss) = Some cv /\ Forall2 (fun s c => exists r, In r t /\ t_name r = ts_link s /\
  c = Conv (ts_stl s) (ts_name s) (l3 (fpos (frel (t_frame r) (ts_frame s)))) (rows9 (fatt (frel (t_frame r) (ts_frame s))))) ss cv.
Proof.
  assert (G : forall l, (forall s, In s l -> In s ss) -> exists cv, omap (stl_conv (map ln t)) (map cs0 l) = Some cv /\ Forall2 (fun s c => exists r, In r t /\ t_name r = ts_link s /\
    c = Conv (ts_stl s) (ts_name s) (l3 (fpos (frel (t_frame r) (ts_frame s)))) (rows9 (fatt (frel (t_frame r) (ts_frame s))))) l cv).
  { induction l as [|s l IH]; intros H; [exists []; split; [reflexivity|constructor]|]. destruct (conv_row s (H s (or_introl eq_refl))) as (r & A & B & D). destruct IH as (cv & P & Q); [intros; apply H; now right|].
    cbn [map omap]. rewrite D, P. eexists. split; [reflexivity|]. constructor; eauto. }
  apply G. auto.
Qed.

(** ** Sections *)
Definition trel (r : trow F) : frame F :=
  match tpar r with Some k => match nth_error t k with Some rp => frel (t_frame rp) (t_frame r) | None => t_frame r end | None => t_frame r end.
Definition tmp (r : trow F) : mp F := mp_gmm2kgm (mp_xforminv (t_mp r) (t_frame r)).
Definition tnames (r : trow F) : list string := map ts_name (filter (fun s => String.eqb (ts_link s) (t_name r)) ss).
Definition csec (r : trow F) : list (key F) :=
  [KName (t_name r); KJointType (jtype_str (t_joint r)); KFrame (metres (trel r)); KMass (mp_mass (tmp r)); KCOM (mp_com (tmp r)); KInertia (mp_inertia (tmp r))] ++
  map KShape (tnames r) ++ match t_parent r with Some p => [KParent p] | None => [] end.
Lemma par_at r p : In r t -> t_parent r = Some p -> exists k rp, tpar r = Some k /\ nth_error t k = Some rp /\ t_name rp = p.
Proof. intros I Q. destruct V as ((_ & _ & _ & P) & _). destruct (P r p I Q) as [IP _]. destruct (name_found p IP) as (k & rp & A & B & D). exists k, rp. unfold tpar. rewrite Q. auto. Qed.
Lemma shapes_at i r : nth_error t i = Some r -> map (fun s => KShape (cs_name s)) (shapes_on (map cs0 ss) i) = map (@KShape F) (tnames r).
Proof.
  intros H. unfold shapes_on, tnames. assert (G : forall l, (forall s, In s l -> In s ss) -> map (fun s => KShape (cs_name s)) (filter (fun s => Nat.eqb (cs_link s) i) (map cs0 l)) =
    map (@KShape F) (map ts_name (filter (fun s => String.eqb (ts_link s) (t_name r)) l))).
  { induction l as [|s l IH]; intros K; [reflexivity|]. cbn [map filter]. destruct (name_found _ (VS s (K s (or_introl eq_refl)))) as (k & x & A & B & D).
    replace (Nat.eqb (cs_link (cs0 s)) i) with (String.eqb (ts_link s) (t_name r)).
    - destruct (String.eqb (ts_link s) (t_name r)); cbn [map]; rewrite IH by (intros; apply K; now right); reflexivity.
    - unfold cs0, pos_of. cbn [cs_link]. rewrite A. destruct (String.eqb_spec (ts_link s) (t_name r)) as [Q|Q].
      + rewrite Q, (found_at i r H) in A. injection A as <-. symmetry. apply Nat.eqb_refl.
      + symmetry. apply Nat.eqb_neq. intros ->. apply Q. congruence. }
  apply G. auto.
Qed.
Lemma link_at_row i r : nth_error t i = Some r -> ztk_link (map ln t) (map cs0 ss) i (ln r) = Some (csec r).
Proof.
  intros H. pose proof (nth_error_In _ _ H) as I. unfold ztk_link, rel_frame, csec, trel. change (own_mp (ln r)) with (tmp r). change (cl_parent (ln r)) with (tpar r). rewrite (shapes_at i r H).
  destruct (t_parent r) as [p|] eqn:Q.
  - destruct (par_at r p I Q) as (k & rp & A & B & D). rewrite A. rewrite nth_error_map, B. cbn [option_map obind ln cl_name]. rewrite D. reflexivity.
  - unfold tpar. rewrite Q. reflexivity.
Qed.
Lemma links_at_rows : ztk_links (map ln t) (map cs0 ss) 0 (map ln t) = Some (map csec t).
Proof.
  assert (G : forall l k, (forall i r, nth_error l i = Some r -> nth_error t (k + i) = Some r) -> ztk_links (map ln t) (map cs0 ss) k (map ln l) = Some (map csec l)).
  { induction l as [|r l IH]; intros k H; [reflexivity|]. cbn [map ztk_links]. pose proof (H 0 r eq_refl) as H0. rewrite Nat.add_0_r in H0. rewrite (link_at_row k r H0). cbn [obind].
    rewrite (IH (S k)); [reflexivity|]. intros i x Hx. replace (S k + i) with (k + S i) by lia. apply H. exact Hx. }
  apply G. auto.
Qed.

(** ** Reading *)
Definition shapes0 : list string := map ts_name ss.
Definition cbody (m : mp F) (shs : list nat) : body F := Body m fid v6zero v6zero v3zero v3zero v3zero [] shs None.
Lemma cshapes_link ns shapes (l : list string) : (forall s, In s l -> In s shapes) -> forall (r : rlink F) m shs, rl_body r = cbody m shs ->
  eval_keys (link_key ns shapes) r (map KShape l) = Some (RL (rl_name r) (rl_joint r) (cbody m (rev (map (pos_of shapes) l) ++ shs)) (rl_org r), true).
Proof.
  induction l as [|s l IH]; intros I r m shs H.
  - cbn [map eval_keys app rev]. rewrite <- H. destruct r; reflexivity.
  - destruct (find_in shapes s (I s (or_introl eq_refl))) as (k & FN & HK).
    cbn [map eval_keys link_key]. destruct shapes as [|s0 shapes']; [destruct k; discriminate|]. set (shapes := s0 :: shapes') in *.
    rewrite FN. cbn [obind]. rewrite H.
    rewrite (IH (fun x Hx => I x (or_intror Hx)) (RL (rl_name r) (rl_joint r) (b_push_shape k (cbody m shs)) (rl_org r)) m (k :: shs) eq_refl).
    cbn [rl_name rl_joint rl_org map rev]. rewrite <- app_assoc. replace (pos_of shapes s) with k by (unfold pos_of; now rewrite FN). reflexivity.
Qed.
Lemma tnames_in r s : In s (tnames r) -> In s shapes0.
Proof. unfold tnames, shapes0. intros I. apply in_map_iff in I as (x & <- & I). apply filter_In in I as [I _]. now apply in_map. Qed.
Lemma query_all jt : joint_query joint_com_array (jtype_str jt) = Some jt.
Proof. destruct jt; reflexivity. Qed.
Definition clnk (r : trow F) (j : joint F) : link F :=
  Link (t_name r) j (cbody (tmp r) (rev (map (pos_of shapes0) (tnames r)))) None (metres (trel r)) fid v6zero None None None.
Lemma csec_reads r j : joint_assign (t_joint r) = Some j -> sec_reads shapes0 (clnk r j) (csec r).
Proof.
  intros HJ ns NI. cbn [clnk l_name] in NI. unfold link_read.
  assert (EL : eval_keys (link_key ns shapes0) (RL None None body_init fid) (csec r) = Some (RL (Some (t_name r)) (Some j) (cbody (tmp r) (rev (map (pos_of shapes0) (tnames r)))) (metres (trel r)), true)).
  { unfold csec. cbn [app]. cbn [eval_keys link_key]. replace (existsb (String.eqb (t_name r)) ns) with false.
    2:{ symmetry. destruct (existsb (String.eqb (t_name r)) ns) eqn:Q; [|reflexivity]. apply existsb_exists in Q as (y & I & Q). apply String.eqb_eq in Q. subst y. contradiction. }
    cbn [obind rl_name rl_joint rl_body rl_org]. unfold joint_query_assign. rewrite query_all, HJ. cbn [option_map obind rl_name rl_joint rl_body rl_org].
    assert (BE : forall b, b = cbody (tmp r) [] -> forall o tl, eval_keys (link_key ns shapes0) (RL (Some (t_name r)) (Some j) b o) (map KShape (tnames r) ++ tl) =
      eval_keys (link_key ns shapes0) (RL (Some (t_name r)) (Some j) (cbody (tmp r) (rev (map (pos_of shapes0) (tnames r)) ++ [])) o) tl).
    { intros b QB o tl. exact (eval_app _ _ _ _ _ (cshapes_link ns shapes0 (tnames r) (tnames_in r) (RL (Some (t_name r)) (Some j) b o) (tmp r) [] QB)). }
    rewrite BE by (destruct (tmp r); reflexivity). clear BE. cbn [rl_name rl_joint rl_org]. rewrite app_nil_r.
    destruct (t_parent r); reflexivity. }
  rewrite EL. cbn [obind rl_joint].
  assert (EJ : eval_keys (joint_key None) j (csec r) = Some (j, true)).
  { apply eval_skip. intros k I. unfold csec in I. apply in_app_or in I as [I|I]; [cbn [In] in I; repeat (destruct I as [<-|I]; [reflexivity|]); destruct I|].
    apply in_app_or in I as [I|I]; [apply in_map_iff in I as (x & <- & _); reflexivity|]. destruct (t_parent r); [destruct I as [<-|[]]; reflexivity|destruct I]. }
  rewrite EJ. reflexivity.
Qed.
Lemma csec_connects r (h : list (link F)) i : eval_keys (connect_key i) h (csec r) = eval_keys (connect_key i) h (match t_parent r with Some p => [KParent p] | None => [] end).
Proof.
  assert (G : forall l tl, (forall k, In k l -> match k with KParent _ => False | _ => True end) -> eval_keys (connect_key i) h (l ++ tl) = eval_keys (connect_key i) h tl).
  { intros l tl. induction l as [|k l IH]; intros H; [reflexivity|]. cbn [app eval_keys].
    assert (K : connect_key i h k = Some (h, true)) by (specialize (H k (or_introl eq_refl)); destruct k; try reflexivity; contradiction).
    rewrite K. cbn [obind]. apply IH. intros; apply H; right; assumption. }
  unfold csec. rewrite G. 2:{ intros k I. cbn [In] in I. repeat (destruct I as [<-|I]; [exact Logic.I|]). destruct I. }
  rewrite G; [reflexivity|]. intros k I. apply in_map_iff in I as (x & <- & _). exact Logic.I.
Qed.

(** ** The tree *)
Definition tjoint (r : trow F) : list (djoint F) :=
  match t_parent r with Some p => [DJ (t_name r) UFixed (Org v3zero v3zero) p (t_name r) None None None] | None => [] end.
Definition tdoc : udoc F := Doc "" (map (fun r => DL (t_name r) None []) t) (flat_map tjoint t).
Lemma tdoc_names : map dl_name (d_links tdoc) = names.
Proof. cbn. rewrite map_map. reflexivity. Qed.
Lemma tdoc_joint x : In x (d_joints tdoc) <-> exists r p, In r t /\ t_parent r = Some p /\ x = DJ (t_name r) UFixed (Org v3zero v3zero) p (t_name r) None None None.
Proof.
  cbn. rewrite in_flat_map. unfold tjoint. split.
  - intros (r & I & J). destruct (t_parent r) as [p|] eqn:Q; [|destruct J]. destruct J as [<-|[]]. eauto.
  - intros (r & p & I & Q & ->). exists r. split; [exact I|]. rewrite Q. now left.
Qed.
Lemma name_inj r r' : In r t -> In r' t -> t_name r = t_name r' -> r = r'.
Proof.
  intros I I' Q. apply In_nth_error in I as (k & Hk). apply In_nth_error in I' as (k' & Hk'). pose proof (found_at k r Hk) as A. pose proof (found_at k' r' Hk') as B. congruence.
Qed.
Lemma tdoc_valid : valid_doc tdoc.
Proof.
  pose proof V as ((RT & ND & RE & PA) & _). destruct RT as (r0 & rest & ET & P0). split; [cbn; rewrite ET; discriminate|]. split; [now rewrite tdoc_names|]. split; [|split; [|split; [|split]]].
  - cbn. revert ND. clear. induction t as [|r l IH]; intros ND; [constructor|]. cbn [map] in ND. inversion ND as [|? ? NI ND']. subst. cbn [flat_map]. rewrite map_app.
    unfold tjoint at 1. destruct (t_parent r) as [p|]; cbn [map app dj_child]; [|auto]. constructor; [|auto]. intros I. apply NI. apply in_map_iff in I as (x & Q & I).
    apply in_flat_map in I as (r' & I & J). unfold tjoint in J. destruct (t_parent r'); [|destruct J]. destruct J as [<-|[]]. cbn in Q. rewrite <- Q. now apply in_map.
  - intros x I. apply tdoc_joint in I as (r & p & I & Q & ->). rewrite tdoc_names. cbn. split; [apply (PA r p I Q)|now apply in_map].
  - intros l I. cbn in I. apply in_map_iff in I as (r & <- & I). cbn [dl_name]. specialize (RE r I). revert RE. generalize (t_name r). clear - V. intros s H. induction H as [r rest ET|r p I Q _ IH].
    + change (t_name r) with (dl_name (DL (t_name r) None [] : dlink F)). eapply re_root. cbn. rewrite ET. reflexivity.
    + change (t_name r) with (dj_child (DJ (t_name r) UFixed (Org v3zero v3zero) p (t_name r) None None None : djoint F)). apply re_child; [|exact IH]. apply tdoc_joint. eauto.
  - intros x l rest' I Q. apply tdoc_joint in I as (r & p & I & Qp & ->). cbn in Q |- *. rewrite ET in Q. cbn in Q. injection Q as <- _. cbn. intros EQ.
    assert (r = r0) by (apply name_inj; [exact I|rewrite ET; now left|exact EQ]). subst r. congruence.
  - intros l v I J. cbn in I. apply in_map_iff in I as (r & <- & _). destruct J.
Qed.
Lemma rows_joints : exists js, Forall2 (fun r j => joint_assign (t_joint r) = Some j /\ jtype_of j = t_joint r /\ cache_ok j) t js.
Proof. clear. induction t as [|r l [js H]]; [exists []; constructor|]. destruct (assign_some (t_joint r)) as (j & A). exists (j :: js). constructor; auto. Qed.

Lemma cad_load (g : F) nm : exists rb, robot_read g (Ztk [KName nm] shapes0 [] (map csec t) []) = Some (Some rb) /\ rb_name rb = Some nm /\ rb_shapes rb = shapes0 /\
  well_formed (c_links (rb_chain rb)) /\ length (c_links (rb_chain rb)) = length t /\
  forall i r, nth_error t i = Some r -> exists l, nth_error (c_links (rb_chain rb)) i = Some l /\ l_name l = t_name r /\ l_org l = metres (trel r) /\
    jtype_of (l_joint l) = t_joint r /\ cache_ok (l_joint l) /\ b_mp (l_body l) = tmp r /\ b_shapes (l_body l) = rev (map (pos_of shapes0) (tnames r)) /\ l_parent l = tpar r.
Proof.
  destruct rows_joints as (js & HJ). pose proof (forall2_len _ _ _ HJ) as LJ.
  set (hb := map (fun '(r, j) => clnk r j) (combine t js)).
  assert (LB : length hb = length t) by (unfold hb; rewrite map_length, combine_length, LJ; lia).
  assert (HB : forall i r, nth_error t i = Some r -> exists j, nth_error hb i = Some (clnk r j) /\ joint_assign (t_joint r) = Some j /\ jtype_of j = t_joint r /\ cache_ok j).
  { unfold hb. revert HJ. clear. revert js. induction t as [|r l IH]; intros js H i x Hx; [destruct i; discriminate|]. inversion H as [|? j ? js' A B]. subst. destruct i as [|i]; cbn in Hx |- *.
    - injection Hx as <-. exists j. auto.
    - eapply IH; eauto. }
  assert (HN : map l_name hb = names). { apply nth_ext_map; [congruence|]. intros i m r Hm Hr. destruct (HB i r Hr) as (j & H & _). assert (m = clnk r j) by congruence. subst m. reflexivity. }
  destruct (doc_eval tdoc tdoc_valid hb) as (_ & hs & _ & _ & W & LH & PA & _).
  { rewrite tdoc_names, map_length. exact LB. }
  { intros i m Hm. destruct (nth_same_len hb t i m (eq_sym LB) Hm) as (r & Hr). destruct (HB i r Hr) as (j & H & _). assert (m = clnk r j) by congruence. subst m. repeat split. }
  rewrite tdoc_names, map_length in LH.
  assert (PS : forall i r s, nth_error t i = Some r -> nth_error hs i = Some s -> l_parent s = tpar r).
  { intros i r s Hr Hs. assert (Q : forall q, l_parent s = Some q <-> tpar r = Some q); [|destruct (l_parent s) as [q|]; [symmetry; now apply Q|destruct (tpar r) as [q|]; [now apply Q|reflexivity]]].
    intros q. rewrite (PA i s Hs q). unfold jops. rewrite in_map_iff. unfold idx. rewrite tdoc_names. split.
    - intros (x & EQ & I). apply tdoc_joint in I as (r' & p & I & Qp & ->). cbn [dj_parent dj_child] in EQ. injection EQ as E1 E2.
      apply In_nth_error in I as (k & Hk). rewrite (found_at k r' Hk) in E2. subst k. assert (r' = r) by congruence. subst r'. unfold tpar. rewrite Qp.
      destruct (par_at r p (nth_error_In _ _ Hr) Qp) as (k & rp & A & _). unfold tpar in A. rewrite Qp in A. rewrite A in E1 |- *. now rewrite E1.
    - intros A. unfold tpar in A. destruct (t_parent r) as [p|] eqn:Qp; [|discriminate]. eexists. split; [|apply tdoc_joint; exists r, p; split; [eapply nth_error_In; eauto|split; [exact Qp|reflexivity]]].
      cbn [dj_parent dj_child]. rewrite A, (found_at i r Hr). reflexivity. }
  destruct (file_load g nm shapes0 hs hb (map csec t)) as (rb & RR & RN & RS & WR & LR & KR).
  - exact W.
  - congruence.
  - rewrite HN. apply V.
  - apply Forall_forall. intros m I. apply In_nth_error in I as (i & Hi). destruct (nth_same_len hb t i m (eq_sym LB) Hi) as (r & Hr). destruct (HB i r Hr) as (j & H & _). assert (m = clnk r j) by congruence. subst m. reflexivity.
  - apply forall2_of_nth; [rewrite map_length; congruence|]. intros i m sec Hm Hsec. rewrite nth_error_map in Hsec. destruct (nth_error t i) as [r|] eqn:Hr; [|discriminate]. injection Hsec as <-.
    destruct (HB i r Hr) as (j & H & J & _). assert (m = clnk r j) by congruence. subst m. now apply csec_reads.
  - apply forall2_of_nth; [rewrite map_length; congruence|]. intros i s sec Hs Hsec h k. rewrite nth_error_map in Hsec. destruct (nth_error t i) as [r|] eqn:Hr; [|discriminate]. injection Hsec as <-.
    rewrite csec_connects. unfold link_par. rewrite (PS i r s Hr Hs), HN. destruct (t_parent r) as [p|] eqn:Qp.
    + destruct (par_at r p (nth_error_In _ _ Hr) Qp) as (q & rp & A & B & D). rewrite A, nth_error_map, B. cbn [option_map]. now rewrite D.
    + unfold tpar. rewrite Qp. reflexivity.
  - intros m I. apply In_nth_error in I as (i & Hi). destruct (nth_same_len hb t i m (eq_sym LB) Hi) as (r & Hr). destruct (HB i r Hr) as (j & H & _ & _ & K). assert (m = clnk r j) by congruence. subst m. exact K.
  - exists rb. split; [exact RR|]. split; [exact RN|]. split; [exact RS|]. split; [exact WR|]. split; [congruence|]. intros i r Hr. destruct (HB i r Hr) as (j & H & _ & TJ & CK).
    destruct (nth_same_len t hs i r ltac:(congruence) Hr) as (s & Hs). destruct (KR i _ s H Hs) as (l & w & Hl & K1 & K2 & K3 & K4 & K5 & K6). exists l. split; [exact Hl|]. rewrite K3, K4, K5, K6. cbn [clnk l_name l_org l_joint l_body b_mp b_shapes cbody].
    split; [exact K1|]. split; [exact K2|]. split; [rewrite type_trq; exact TJ|]. split; [apply cache_trq; exact CK|]. split; [reflexivity|]. split; [reflexivity|]. exact (PS i r s Hr Hs).
Qed.
Lemma cad_ok nm : exists cv, cad2ztk false nm (map row_csv t) (map shape_csv ss) = Some (Some (CO cv (OutZtk (Ztk [KName nm] shapes0 [] (map csec t) [])))) /\
  Forall2 (fun s c => exists r, In r t /\ t_name r = ts_link s /\
  c = Conv (ts_stl s) (ts_name s) (l3 (fpos (frel (t_frame r) (ts_frame s)))) (rows9 (fatt (frel (t_frame r) (ts_frame s))))) ss cv.
Proof.
  destruct conv_rows as (cv & A & B). exists cv. split; [|exact B]. unfold cad2ztk. destruct (map row_csv t) as [|x0 xs] eqn:Q.
  - pose proof V as (((r & rest & -> & _) & _) & _). discriminate.
  - rewrite <- Q. rewrite read_rows. cbn [obind]. rewrite assoc_rows, read_srows. cbn [obind]. rewrite A. cbn [obind option_map]. unfold cad_ztk. rewrite links_at_rows. cbn [option_map].
    unfold shapes0. replace (map cs_name (map cs0 ss)) with (map ts_name ss) by (rewrite map_map; reflexivity). reflexivity.
Qed.

(** ** URDF *)
Definition ujt (r : trow F) : xml F :=
  Elem "joint" [("name"%string, xtxt (t_name r)); ("type"%string, xtxt (jtype_str (t_joint r)))]
    [Elem "parent" [("link"%string, xtxt (pname r))] []; Elem "child" [("link"%string, xtxt (t_name r))] [];
     Elem "origin" [("xyz"%string, xnum (l3 (fpos (metres (trel r))))); ("rpy"%string, xnum (l3 (x_m2zyx (fatt (trel r)))))] [];
     Elem "axis" [("xyz"%string, xnum [0; 0; 1]%num)] []].
Lemma joint_row r : supported t -> In r t -> urdf_joint_xml (map ln t) (ln r) = Some (ujt r).
Proof.
  intros SU I. unfold urdf_joint_xml. replace (urdf_joint (cl_joint (ln r))) with (Some (jtype_str (t_joint r))).
  2:{ pose proof (SU r I) as J. cbn [ln cl_joint]. revert J. generalize (t_joint r). intros j J. cbn [In] in J. decompose [or] J; try subst j; try reflexivity. contradiction. }
  cbn [obind]. replace (rel_frame (map ln t) (ln r)) with (Some (trel r)); [reflexivity|].
  unfold rel_frame, trel. cbn [ln cl_parent cl_frame]. destruct (t_parent r) as [p|] eqn:Q.
  - destruct (par_at r p I Q) as (k & rp & A & B & _). rewrite A, nth_error_map, B. reflexivity.
  - unfold tpar. rewrite Q. reflexivity.
Qed.
Lemma joint_rows : supported t -> omap (urdf_joint_xml (map ln t)) (map ln t) = Some (map ujt t).
Proof.
  intros SU. assert (G : forall l, (forall r, In r l -> In r t) -> omap (urdf_joint_xml (map ln t)) (map ln l) = Some (map ujt l)).
  { induction l as [|r l IH]; intros H; [reflexivity|]. cbn [map omap]. rewrite (joint_row r SU) by (apply H; now left). cbn [obind]. rewrite IH by (intros; apply H; now right). reflexivity. }
  now apply G.
Qed.
Definition uout (nm : string) : xml F := Elem "robot" [("name"%string, xtxt nm)] (urdf_links (map cs0 ss) 0 (map ln t) ++ map ujt t).
Lemma urdf_ok nm : supported t -> exists cv, cad2ztk true nm (map row_csv t) (map shape_csv ss) = Some (Some (CO cv (OutUrdf (uout nm)))).
Proof.
  intros SU. destruct conv_rows as (cv & A & B). exists cv. unfold cad2ztk. destruct (map row_csv t) as [|x0 xs] eqn:Q.
  - pose proof V as (((r & rest & -> & _) & _) & _). discriminate.
  - rewrite <- Q. rewrite read_rows. cbn [obind]. rewrite assoc_rows, read_srows. cbn [obind]. rewrite A. cbn [obind option_map]. unfold cad_urdf. rewrite (joint_rows SU). reflexivity.
Qed.
Lemma links_tags k l : with_tag "link" (urdf_links (map cs0 ss) k l) = urdf_links (map cs0 ss) k l /\ with_tag "joint" (urdf_links (map cs0 ss) k l) = [].
Proof. unfold with_tag. revert k. induction l as [|a l IH]; intros k; [split; reflexivity|]. cbn [urdf_links filter]. cbn [urdf_link x_tag String.eqb Ascii.eqb Bool.eqb]. destruct (IH (S k)) as [-> ->]. split; reflexivity. Qed.
Lemma joints_tags l : with_tag "link" (map ujt l) = [] /\ with_tag "joint" (map ujt l) = map ujt l.
Proof. unfold with_tag. induction l as [|a l IH]; [split; reflexivity|]. cbn [map filter]. cbn [ujt x_tag String.eqb Ascii.eqb Bool.eqb]. destruct IH as [-> ->]. split; reflexivity. Qed.
Lemma ulinks_in r i : nth_error t i = Some r -> In (urdf_link (map cs0 ss) i (ln r)) (urdf_links (map cs0 ss) 0 (map ln t)).
Proof.
  assert (G : forall l k i, nth_error l i = Some r -> In (urdf_link (map cs0 ss) (k + i) (ln r)) (urdf_links (map cs0 ss) k (map ln l))).
  { induction l as [|a l IH]; intros k j H; [destruct j; discriminate|]. cbn [map urdf_links]. destruct j as [|j].
    - injection H as ->. left. now rewrite Nat.add_0_r.
    - right. replace (k + S j) with (S k + j) by lia. now apply IH. }
  apply (G t 0).
Qed.
End Table.

(** *** Links as the URDF converter reads them *)
Lemma ofold_some {A B} (f : A -> B -> option A) b l a : ofold f (b :: l) a = match f a b with Some a' => ofold f l a' | None => None end.
Proof. unfold ofold. cbn [fold_left obind]. destruct (f a b) as [a'|]; [reflexivity|]. induction l as [|x l IH]; [reflexivity|exact IH]. Qed.
Lemma link_named (x : xml F) i i' : eval_link i x = Some i' -> exists l, ui_links i' = ui_links i ++ [l] /\ ul_name l = xname x.
Proof.
  unfold eval_link. fold (xname x). match goal with |- context [ofold ?f (x_kids x) ?a] => set (st := f); set (a0 := a) end.
  assert (G : forall l ss u ss' u', ofold st l (ss, u) = Some (ss', u') -> ul_name u' = ul_name u).
  { induction l as [|k l IH]; intros ss u ss' u' H; [injection H as _ <-; reflexivity|]. rewrite ofold_some in H. destruct (st (ss, u) k) as [[s1 u1]|] eqn:S1; [|discriminate].
    rewrite (IH _ _ _ _ H). unfold st in S1. destruct (String.eqb (x_tag k) "inertial"); [destruct (eval_inertial k (ul_mp u)); [|discriminate]; injection S1 as _ <-; reflexivity|].
    destruct (String.eqb (x_tag k) "visual"); [|injection S1 as _ <-; reflexivity]. destruct (eval_visual _ _ _); [|discriminate]. injection S1 as _ <-. reflexivity. }
  destruct (ofold st (x_kids x) a0) as [[ss l]|] eqn:Q; [|discriminate]. cbn [obind]. intros H. injection H as <-. exists l. split; [reflexivity|]. exact (G _ _ _ _ _ Q).
Qed.
Lemma links_named l : forall i i', ofold eval_link l i = Some i' -> map ul_name (ui_links i') = map ul_name (ui_links i) ++ map xname l.
Proof.
  induction l as [|x l IH]; intros i i' H; [injection H as <-; now rewrite app_nil_r|]. rewrite ofold_some in H. destruct (eval_link i x) as [i1|] eqn:Q; [|discriminate].
  rewrite (IH _ _ H). destruct (link_named x i i1 Q) as (u & -> & U1). rewrite map_app, <- app_assoc. cbn [map app]. now rewrite U1.
Qed.
Lemma find_absent (ls : list (ulink F)) s : ~ In (Some s) (map ul_name ls) -> forall k p, find_link ls (Some s) k <> Some (Some p).
Proof.
  induction ls as [|u ls IH]; intros NI k p; cbn [find_link]; [discriminate|]. cbn [map In] in NI. destruct (ul_name u) as [n|]; cbn [obind]; [|discriminate].
  destruct (String.eqb_spec n s) as [->|_]; [tauto|]. apply IH. tauto.
Qed.
End CP.
