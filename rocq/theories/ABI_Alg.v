(** * ABI_Alg: algebra of one joint of the articulated body algorithm. *)
From Coq Require Import List Arith Lia Field.
From Verif Require Import Num NumFacts Vec VecFacts Motor_Model Joint_Model Joint_Spec Joint_Proofs Body_Model Body_Proofs
  Tree Link_Model Walk ABI_Model ABI_Spec.
Import ListNotations.

Section A.
Context {F : Type} {N : Num F} {L : NumLaws F N} {E : Ext F} {MI : MInv F}.
Add Field FField : num_field.
Local Open Scope num_scope.
Ltac vring := intros; vdestruct; vunfold; vsplit; ring.

(** ** Symmetric 6x6 matrices *)
Lemma m3tr_rot (r m : mat3 F) : m3tr (m3rot r m) = m3rot r (m3tr m).
Proof. unfold m3rot. rewrite !m3tr_mul, m3tr_tr, m3mul_assoc. reflexivity. Qed.
Lemma m3rot_v (r m : mat3 F) v : m3v (m3rot r m) v = m3v r (m3v m (m3tv r v)).
Proof. unfold m3rot. rewrite !m3mul_v, m3tv_tr. reflexivity. Qed.
Lemma tr_skew_v (p : vec3 F) m w : m3v (m3tr (m3mul (m3skew p) m)) w = m3v (m3tr m) (v3cross w p).
Proof. vring. Qed.
Lemma skew_mul_v (p : vec3 F) m w : m3v (m3mul (m3skew p) m) w = v3cross p (m3v m w).
Proof. rewrite m3mul_v, v3skew_v. reflexivity. Qed.
Lemma sym6_parts (m : mat6 F) : sym6 m <-> m3tr (mll m) = mll m /\ mla m = m3tr (mal m) /\ m3tr (maa m) = maa m.
Proof.
  destruct m as [a b c d]. unfold sym6, m6tr. cbn [mll mla mal maa]. split.
  - intros H. injection H as H1 H2 H3 H4. auto.
  - intros (H1 & -> & H3). rewrite m3tr_tr. congruence.
Qed.
Lemma sym3_form (m : mat3 F) : m3tr m = m -> exists a b c d e f, m = M3 (V3 a b c) (V3 b d e) (V3 c e f).
Proof.
  destruct m as [[a1 a2 a3] [b1 b2 b3] [c1 c2 c3]]. unfold m3tr. cbn. intros H. injection H as H1 H2 H3 H4 H5 H6. subst.
  repeat eexists.
Qed.
Lemma xm6_sym f (m : mat6 F) : sym6 m -> sym6 (joint_xform_mat6 f m).
Proof.
  intros S. apply sym6_parts in S as (S1 & S2 & S3). apply sym6_parts. unfold joint_xform_mat6. cbn [mll mla mal maa].
  assert (Q : m3tr (m3rot (fatt f) (mll m)) = m3rot (fatt f) (mll m)) by (rewrite m3tr_rot; congruence).
  assert (Q3 : m3tr (m3rot (fatt f) (maa m)) = m3rot (fatt f) (maa m)) by (rewrite m3tr_rot; congruence).
  split; [exact Q|]. split; [reflexivity|].
  revert Q Q3. generalize (m3rot (fatt f) (mll m)) (m3rot (fatt f) (maa m)) (m3rot (fatt f) (mal m)) (fpos f). intros A B C p Q Q3.
  apply sym3_form in Q as (a1 & a2 & a3 & a4 & a5 & a6 & ->). apply sym3_form in Q3 as (b1 & b2 & b3 & b4 & b5 & b6 & ->).
  vring.
Qed.
(** The transformed inertia maps accelerations of the parent to forces on the parent. *)
Lemma xm6_spec f (m : mat6 F) v : sym6 m -> m6v (joint_xform_mat6 f m) v = xform6ang f (m6v m (xform6lin f v)).
Proof.
  intros S. apply sym6_parts in S as (S1 & S2 & S3). unfold joint_xform_mat6, m6v, xform6ang, xform6lin, v6angshift, v6linshift, m3v6, m3tv6.
  cbn [mll mla mal maa vlin vang].
  assert (Q : m3tr (m3rot (fatt f) (mll m)) = m3rot (fatt f) (mll m)) by (rewrite m3tr_rot; congruence).
  rewrite S2.
  rewrite !m3v_add_r, <- !m3rot_v, <- m3tr_rot.
  revert Q. generalize (m3rot (fatt f) (mll m)) (m3rot (fatt f) (maa m)) (m3rot (fatt f) (mal m)) (fpos f) (vlin v) (vang v).
  intros A B C p x y Q. apply sym3_form in Q as (a1 & a2 & a3 & a4 & a5 & a6 & ->). clear S1 S2 S3. vring.
Qed.
Lemma m6add_sym (a b : mat6 F) : sym6 a -> sym6 b -> sym6 (m6add a b).
Proof.
  rewrite !sym6_parts. intros (A1 & A2 & A3) (B1 & B2 & B3). unfold m6add. cbn [mll mla mal maa].
  rewrite !m3tr_add. repeat split; congruence.
Qed.
Lemma m6zero_sym : sym6 (m6zero : mat6 F).
Proof. apply sym6_parts. repeat split. Qed.
Lemma dyad_sym k (a : vec6 F) : sym6 (m6scaledyad k a a).
Proof. unfold sym6, m6scaledyad. vring. Qed.
Lemma sym_colza (m : mat6 F) : sym6 m -> m6rowza m = m6colza m.
Proof.
  rewrite sym6_parts. intros (S1 & S2 & S3). unfold m6rowza, m6colza, m3row2. rewrite S2, S3. reflexivity.
Qed.
Lemma sym_colz (m : mat6 F) : sym6 m -> m6rowz m = m6colz m.
Proof.
  rewrite sym6_parts. intros (S1 & S2 & S3). unfold m6rowz, m6colz, m3row2. rewrite S2, m3tr_tr, S1. reflexivity.
Qed.
Definition zlin (q : F) : vec6 F := V6 (V3 0 0 q) v3zero.
Definition zang (q : F) : vec6 F := V6 v3zero (V3 0 0 q).
Lemma m6v_zang (m : mat6 F) q : m6v m (zang q) = v6scale q (m6colza m).
Proof. unfold zang. vring. Qed.
Lemma m6v_zlin (m : mat6 F) q : m6v m (zlin q) = v6scale q (m6colz m).
Proof. unfold zlin. vring. Qed.
Lemma rowza_dot (m : mat6 F) v : v6dot (m6rowza m) v = vz (vang (m6v m v)).
Proof. vring. Qed.
Lemma rowz_dot (m : mat6 F) v : v6dot (m6rowz m) v = vz (vlin (m6v m v)).
Proof. vring. Qed.
Lemma m6scaledyad_v k (a b v : vec6 F) : m6v (m6scaledyad k a b) v = v6scale (k * v6dot b v) a.
Proof. unfold m6scaledyad. vring. Qed.
Lemma m6zero_v (v : vec6 F) : m6v m6zero v = v6zero.
Proof. vring. Qed.
Lemma add_zang (a : vec6 F) q : V6 (vlin a) (V3 (vx (vang a)) (vy (vang a)) (vz (vang a) + q)) = v6add a (zang q).
Proof. unfold zang. vring. Qed.
Lemma add_zlin (a : vec6 F) q : V6 (V3 (vx (vlin a)) (vy (vlin a)) (vz (vlin a) + q)) (vang a) = v6add a (zlin q).
Proof. unfold zlin. vring. Qed.
Lemma m6rows_v (m : mat6 F) v : mat_v6 (m6rows m) v = m6v m v.
Proof. unfold m6rows, mat_v6, row6, elem. cbn [m3rows combine map app nth fst snd l3]. vring. Qed.

(** Joints whose ABI methods hand the right inertia and bias to the parent. *)
Definition gives (j : joint F) : Prop :=
  match j with JFixed | JRevol _ | JFloat _ | JBrFloat _ _ _ => True | _ => False end.
Lemma give_sym br j m f h : sym6 m -> match j with JCylin _ => False | _ => True end -> sym6 (joint_give_abi br j m f h).
Proof.
  intros S J. destruct j; try contradiction; cbn [joint_give_abi]; try apply m6zero_sym; try (apply xm6_sym; assumption).
  - apply xm6_sym, m6add_sym; auto. rewrite sym_colza by auto. apply dyad_sym.
  - apply xm6_sym, m6add_sym; auto. rewrite sym_colz by auto. apply dyad_sym.
  - destruct br; [apply xm6_sym; assumption|apply m6zero_sym].
Qed.

Lemma v6add_opp_l (b : vec6 F) : v6add (v6opp b) b = v6zero. Proof. vring. Qed.

(** What a child hands over is the force it exerts on its parent. *)
Lemma joint_hand_over j m b f c pa old ax0 :
  gives j -> sym6 m ->
  let x := joint_axis_inertia false j m ax0 in
  regular j (fst x) (snd x) ->
  let icb := v6add (m6v m c) b in
  let r := joint_qacc false j m b (v6add (xform6lin f pa) c) (snd x) old in
  v6add (m6v (joint_give_abi false j m f (snd x)) pa) (joint_give_bias false j m icb f (snd x))
  = xform6ang f (joint_wrench m b (snd r)).
Proof.
  intros G S x RG icb r. unfold joint_wrench. destruct j; try contradiction; cbn [joint_give_abi joint_give_bias].
  - subst r. cbn [joint_qacc snd]. rewrite xm6_spec by auto. rewrite <- xform6ang_add. f_equal. unfold icb.
    rewrite m6v_add_r, v6add_assoc. reflexivity.
  - subst r. cbn [joint_qacc snd]. rewrite xm6_spec.
    2:{ apply m6add_sym; auto. rewrite sym_colza by auto. apply dyad_sym. }
    rewrite <- xform6ang_add. f_equal. rewrite add_zang, !m6v_add_r, m6v_add_l, m6scaledyad_v, m6v_zang, !rowza_dot. unfold icb.
    generalize (elem (snd x) 0 0) (m6colza m) (a_u (rv_a r0)). rewrite !m6v_add_r. generalize (m6v m (xform6lin f pa)) (m6v m c). clear -L.
    vring.
  - subst r. cbn [joint_qacc snd fst] in *. subst x. cbn [joint_axis_inertia fst snd] in *.
    assert (Q := RG (v6opp b)). rewrite m6rows_v in Q. rewrite Q, v6add_opp_l, m6zero_v, v6add_0_l, xform6ang_0. reflexivity.
  - subst r. cbn [joint_qacc snd fst] in *. subst x. cbn [joint_axis_inertia fst snd] in *.
    assert (Q := RG (v6opp b)). rewrite m6rows_v in Q. rewrite Q, v6add_opp_l, m6zero_v, v6add_0_l, xform6ang_0. reflexivity.
Qed.

(** The acceleration of the link is what the joint acceleration makes of it. *)
Definition rot_ok (j : joint F) : Prop :=
  match j with JFloat f | JBrFloat f _ _ => rotation (fl_att f) | _ => True end.
Definition qaccs (j : joint F) : Prop := match j with JHooke _ | JSpher _ => False | _ => True end.
Lemma att_back (r : mat3 F) (a b : vec6 F) : rotation r -> v6add b (m3tv6 r (m3v6 r (v6sub a b))) = a.
Proof.
  intros R. unfold m3tv6, m3v6. cbn [vlin vang]. rewrite !rot_tv_v by assumption. vring.
Qed.
Lemma qacc_inc j m b jac h old : qaccs j -> rot_ok j ->
  let r := joint_qacc false j m b jac h old in joint_inc_acc (fst r) jac = snd r.
Proof.
  destruct j; intros Q R; try contradiction; try reflexivity; cbn [joint_qacc joint_inc_acc fst snd fl_att fl_acc]; now apply att_back.
Qed.

(** The projected wrench balances the driving force. *)
Lemma driving_idem (j : joint F) : joint_driving_torque (joint_driving_torque j) = joint_driving_torque j.
Proof. destruct j; reflexivity. Qed.
Lemma inv1_mul h : 0 < x_tol -> ntiny x_tol h = false -> h * inv1 h = 1.
Proof. intros T H. unfold inv1. rewrite H. field. now apply (ntiny_false_neq x_tol). Qed.
Lemma drive_u (m : motor F) v a tf : motor_driving_trq m v a 0 + tf = motor_input_trq m 0 - motor_resist m v 0 + tf - motor_inertia m 0 * a.
Proof. unfold motor_driving_trq, motor_input_trq, motor_resist, motor_inertia. destruct (m_kind m); ring. Qed.
Lemma qacc_drive j0 m b jac old ax0 : let j := joint_driving_torque j0 in 0 < x_tol ->
  let x := joint_axis_inertia false j m ax0 in regular j (fst x) (snd x) ->
  let r := joint_qacc false j m b jac (snd x) old in
  projected (fst r) (joint_wrench m b (snd r)) = drive (fst r).
Proof.
  intros j T x RG r. unfold projected, joint_wrench. destruct j0 as [|r0|p0|c0|h0|s0|f0|f0 ef et]; subst j; try (destruct RG; fail); try reflexivity.
  - cbn [joint_driving_torque joint_axis_inertia] in x. subst x r. cbn [fst snd] in *.
    cbn [joint_driving_torque joint_qacc fst snd rv_a rv_s rv_c rv_m joint_calc_trq drive].
    change (regular (JRevol r0) [[motor_inertia (rv_m r0) 0 + vz (mc2 (maa m))]] []) in RG. cbn [regular elem nth] in *.
    apply (inv1_mul _ T) in RG. revert RG. set (h := motor_inertia (rv_m r0) 0 + vz (mc2 (maa m))). intros RG.
    unfold joint_get_trq, joint_get_gen. cbn [rv_a]. rewrite drive_u. cbn [a_trq a_vel a_acc a_tf a_u ax_trq ax_acc ax_u]. f_equal.
    rewrite add_zang, m6v_add_r, m6v_zang, rowza_dot. 
    set (u := motor_input_trq _ _ - _ + _). 
    replace (vz (vang (v6add (v6add (m6v m jac) (v6scale (inv1 h * (u - vz (vang (m6v m jac)) - vz (vang b))) (m6colza m))) b)))
      with (vz (vang (m6v m jac)) + inv1 h * (u - vz (vang (m6v m jac)) - vz (vang b)) * vz (mc2 (maa m)) + vz (vang b)).
    2:{ generalize (m6v m jac) (inv1 h) u. clear -L. intros. destruct m as [m1 m2 m3 m4]; vdestruct; vunfold; ring. }
    replace (vz (mc2 (maa m))) with (h - motor_inertia (rv_m r0) 0) by (unfold h; ring).
    revert RG. generalize (inv1 h) (vz (vang (m6v m jac))) (vz (vang b)) u (motor_inertia (rv_m r0) 0). clearbody h. clear -L. intros i x y u0 J RG.
    transitivity (x + (h * i) * (u0 - x - y) - J * (i * (u0 - x - y)) + y); [ring|]. rewrite RG. ring.
  - cbn [joint_driving_torque joint_axis_inertia] in x. subst x r. cbn [fst snd] in *.
    cbn [joint_driving_torque joint_qacc fst snd pr_a pr_m joint_calc_trq drive].
    change (regular (JPrism p0) [[motor_inertia (pr_m p0) 0 + vz (mc2 (mll m))]] []) in RG. cbn [regular elem nth] in *.
    apply (inv1_mul _ T) in RG. revert RG. set (h := motor_inertia (pr_m p0) 0 + vz (mc2 (mll m))). intros RG.
    unfold joint_get_trq, joint_get_gen. cbn [pr_a]. rewrite drive_u. cbn [a_trq a_vel a_acc a_tf a_u ax_trq ax_acc ax_u]. f_equal.
    rewrite add_zlin, m6v_add_r, m6v_zlin, rowz_dot. 
    set (u := motor_input_trq _ _ - _ + _). 
    replace (vz (vlin (v6add (v6add (m6v m jac) (v6scale (inv1 h * (u - vz (vlin (m6v m jac)) - vz (vlin b))) (m6colz m))) b)))
      with (vz (vlin (m6v m jac)) + inv1 h * (u - vz (vlin (m6v m jac)) - vz (vlin b)) * vz (mc2 (mll m)) + vz (vlin b)).
    2:{ generalize (m6v m jac) (inv1 h) u. clear -L. intros. destruct m as [m1 m2 m3 m4]; vdestruct; vunfold; ring. }
    replace (vz (mc2 (mll m))) with (h - motor_inertia (pr_m p0) 0) by (unfold h; ring).
    revert RG. generalize (inv1 h) (vz (vlin (m6v m jac))) (vz (vlin b)) u (motor_inertia (pr_m p0) 0). clearbody h. clear -L. intros i x y u0 J RG.
    transitivity (x + (h * i) * (u0 - x - y) - J * (i * (u0 - x - y)) + y); [ring|]. rewrite RG. ring.
  - subst r x. cbn [joint_driving_torque joint_axis_inertia joint_qacc snd fst] in *.
    assert (Q := RG (v6opp b)). rewrite m6rows_v in Q. rewrite Q, v6add_opp_l. cbn [joint_calc_trq fl_att drive joint_get_trq joint_get_gen fl_trq]. unfold joint_get_trq, joint_get_gen. cbn [fl_trq].
    replace (m3v6 (fl_att f0) v6zero) with (v6zero : vec6 F) by (clear -L; destruct f0 as [? ? ? ? A]; cbn [fl_att]; vring). reflexivity.
  - subst r x. cbn [joint_driving_torque joint_axis_inertia joint_qacc snd fst] in *.
    assert (Q := RG (v6opp b)). rewrite m6rows_v in Q. rewrite Q, v6add_opp_l. cbn [joint_calc_trq fl_att drive joint_get_trq joint_get_gen fl_trq]. unfold joint_get_trq, joint_get_gen. cbn [fl_trq].
    replace (m3v6 (fl_att f0) v6zero) with (v6zero : vec6 F) by (clear -L; destruct f0 as [? ? ? ? A]; cbn [fl_att]; vring). reflexivity.
Qed.

(** ** One link *)
Lemma v3sum_add {A} (f g : A -> vec3 F) l : v3sum (map (fun x => v3add (f x) (g x)) l) = v3add (v3sum (map f l)) (v3sum (map g l)).
Proof.
  induction l as [|a l IH]; [cbn [map]; change (v3sum []) with (v3zero : vec3 F); vring|]. cbn [map]. change (v3sum (?a :: ?l)) with (v3add a (v3sum l)). rewrite IH.
  generalize (v3sum (map f l)) (v3sum (map g l)) (f a) (g a). vring.
Qed.
Lemma v3sum_cross {A} c (f : A -> vec3 F) l : v3sum (map (fun x => v3cross c (f x)) l) = v3cross c (v3sum (map f l)).
Proof.
  induction l as [|a l IH]; [cbn [map]; change (v3sum []) with (v3zero : vec3 F); vring|]. cbn [map]. change (v3sum (?a :: ?l)) with (v3add a (v3sum l)). rewrite IH.
  generalize (v3sum (map f l)) (f a). clear -L. vring.
Qed.
Lemma v3sum_sub {A} (f g : A -> vec3 F) l : v3sum (map (fun x => v3sub (f x) (g x)) l) = v3sub (v3sum (map f l)) (v3sum (map g l)).
Proof.
  induction l as [|a l IH]; [cbn [map]; change (v3sum []) with (v3zero : vec3 F); vring|]. cbn [map]. change (v3sum (?a :: ?l)) with (v3add a (v3sum l)). rewrite IH.
  generalize (v3sum (map f l)) (v3sum (map g l)) (f a) (g a). vring.
Qed.
Lemma v6sum_lin {A} (f : A -> vec6 F) l : vlin (v6sum (map f l)) = v3sum (map (fun x => vlin (f x)) l).
Proof. induction l as [|a l IH]; [reflexivity|]. cbn [map]. change (v6sum (?a :: ?l)) with (v6add a (v6sum l)). cbn [v6add vlin]. now rewrite IH. Qed.
Lemma v6sum_ang {A} (f : A -> vec6 F) l : vang (v6sum (map f l)) = v3sum (map (fun x => vang (f x)) l).
Proof. induction l as [|a l IH]; [reflexivity|]. cbn [map]. change (v6sum (?a :: ?l)) with (v6add a (v6sum l)). cbn [v6add vang]. now rewrite IH. Qed.

(** Rate of the momentum about the link origin. *)
Lemma mass_mat_v (l : link F) a :
  let w := vang (l_vel l) in let I := mp_inertia (b_mp (l_body l)) in let c := l_com l in
  let ac := v3scale (l_mass l) (v3add (vlin a) (v3add (v3cross (vang a) c) (v3cross w (v3cross w c)))) in
  v6add (m6v (link_mass_mat l) a) (V6 (v3scale (l_mass l) (v3triple w w c)) (v3cross w (m3v (maa (link_mass_mat l)) w)))
  = V6 ac (v3add (v3cross c ac) (v3add (m3v I (vang a)) (v3cross w (m3v I w)))).
Proof.
  cbv zeta. unfold link_mass_mat. cbn [maa]. generalize (l_mass l) (l_com l) (vang (l_vel l)) (mp_inertia (b_mp (l_body l))). clear l. vring.
Qed.
Definition abi_grav (g : F) (l : link F) : vec6 F :=
  let gf := m3tv (fatt (l_frame l)) (V3 0 0 (- g * l_mass l)) in V6 gf (v3cross (l_com l) gf).
Lemma spatial_newton_euler g (l : link F) (cs : list (link F)) ew :
  l_wrench l = v6add (v6sub (v6add (m6v (link_mass_mat l) (l_acc l))
     (V6 (v3scale (l_mass l) (v3triple (vang (l_vel l)) (vang (l_vel l)) (l_com l))) (v3cross (vang (l_vel l)) (m3v (maa (link_mass_mat l)) (vang (l_vel l))))))
     (v6add (wl_net ew) (abi_grav g l)))
     (v6sum (map (fun k => xform6ang (l_adj k) (l_wrench k)) cs)) ->
  newton_euler g l cs ew.
Proof.
  rewrite mass_mat_v. intros H. unfold newton_euler. cbv zeta.
  set (I := mp_inertia (b_mp (l_body l))) in *. set (w := vang (l_vel l)) in *. set (c := l_com l) in *.
  set (ac := v3scale (l_mass l) _) in *. set (rm := v3add (m3v I (vang (l_acc l))) (v3cross w (m3v I w))) in *.
  unfold link_force, link_moment. fold c.
  assert (HL := f_equal (@vlin F) H). assert (HA := f_equal (@vang F) H). clear H.
  cbn [v6add v6sub vlin vang abi_grav] in HL, HA. rewrite wl_net_sum, !v6sum_lin in HL. rewrite wl_net_sum, !v6sum_ang in HA.
  unfold wr_shift, xform6ang, v6angshift, m3v6 in HL, HA. cbn [vlin vang] in HL, HA.
  replace (- g * l_mass l) with (- (l_mass l * g)) in HL by ring. replace (- g * l_mass l) with (- (l_mass l * g)) in HA by ring.
  fold c in HA. set (gf := m3tv (fatt (l_frame l)) _) in *.
  rewrite !v3sum_add in HA.
  rewrite (map_ext (fun k => v3add (m3v (fatt (l_adj k)) (vang (l_wrench k))) (v3cross (v3sub (fpos (l_adj k)) c) (m3v (fatt (l_adj k)) (vlin (l_wrench k)))))
     (fun k => v3sub (v3add (m3v (fatt (l_adj k)) (vang (l_wrench k))) (v3cross (fpos (l_adj k)) (m3v (fatt (l_adj k)) (vlin (l_wrench k)))))
     (v3cross c (m3v (fatt (l_adj k)) (vlin (l_wrench k)))))).
  2:{ intros k. generalize (fpos (l_adj k)) (m3v (fatt (l_adj k)) (vlin (l_wrench k))) (m3v (fatt (l_adj k)) (vang (l_wrench k))). clearbody c. clear -L. vring. }
  rewrite (map_ext (fun e => v3add (vang (wr_w e)) (v3cross (v3sub (wr_p e) c) (vlin (wr_w e))))
    (fun e => v3sub (v3add (vang (wr_w e)) (v3cross (wr_p e) (vlin (wr_w e)))) (v3cross c (vlin (wr_w e))))).
  2:{ intros e. generalize (wr_p e) (vang (wr_w e)) (vlin (wr_w e)). clearbody c. clear -L. vring. }
  rewrite !v3sum_sub, !v3sum_cross, !v3sum_add.
  revert HL HA. generalize (vlin (l_wrench l)) (vang (l_wrench l)).
  generalize (v3sum (map (fun k => m3v (fatt (l_adj k)) (vlin (l_wrench k))) cs)) (v3sum (map (fun k => m3v (fatt (l_adj k)) (vang (l_wrench k))) cs)).
  generalize (v3sum (map (fun k => v3cross (fpos (l_adj k)) (m3v (fatt (l_adj k)) (vlin (l_wrench k)))) cs)).
  generalize (v3sum (map (fun e => vlin (wr_w e)) ew)) (v3sum (map (fun e => vang (wr_w e)) ew)) (v3sum (map (fun e => v3cross (wr_p e) (vlin (wr_w e))) ew)).
  clearbody c ac rm gf. clear -L. intros. subst. split; vring.
Qed.

(** The velocity dependent terms are those of the theorem of relative motion. *)
Lemma relative_acc_form (l : link F) j pv pa :
  match l_joint l with JHooke _ => False | _ => True end ->
  joint_inc_vel j v6zero = joint_inc_vel (l_joint l) v6zero -> joint_inc_acc_on_vel j = joint_inc_acc_on_vel (l_joint l) ->
  let X := l_adj l in
  let c := joint_inc_acc_on_vel j (m3tv (fatt X) (vang pv)) v6zero in
  let c := V6 (v3add (vlin c) (m3tv (fatt X) (v3triple (vang pv) (vang pv) (fpos X)))) (vang c) in
  joint_inc_acc (l_joint l) (v6add (xform6lin X pa) c) = relative_acc l (pv, pa).
Proof.
  intros NH _ EA. cbv zeta. rewrite EA. unfold relative_acc. cbn [fst snd].
  unfold xform6lin, v6linshift, m3tv6. cbn [vlin vang].
  rewrite !m3tv_add_r. change (v3triple (vang pv) (vang pv) (fpos (l_adj l))) with (v3cross (vang pv) (v3cross (vang pv) (fpos (l_adj l)))).
  generalize (m3tv (fatt (l_adj l)) (vang pv)) (m3tv (fatt (l_adj l)) (vlin pa)) (m3tv (fatt (l_adj l)) (vang pa)) (m3tv (fatt (l_adj l)) (v3cross (vang pa) (fpos (l_adj l))))
   (m3tv (fatt (l_adj l)) (v3cross (vang pv) (v3cross (vang pv) (fpos (l_adj l))))). intros w a1 a2 a3 a4.
  destruct (l_joint l) as [|r|p|cy|hk|s|f|f ef et]; try contradiction; cbn [joint_inc_acc joint_inc_acc_on_vel joint_inc_vel]; unfold add_ang; cbn [vlin vang v6zero v3zero vx vy vz v6add].
  - vring.
  - generalize (a_vel (rv_a r)) (a_acc (rv_a r)). vring.
  - generalize (a_vel (pr_a p)) (a_acc (pr_a p)). unfold n2. vring.
  - generalize (a_vel (cy_0 cy)) (a_acc (cy_0 cy)) (a_vel (cy_1 cy)) (a_acc (cy_1 cy)). unfold n2. vring.
  - generalize (m3tv (sp_att s) (sp_vel s)) (m3tv (sp_att s) (sp_acc s)). vring.
  - generalize (m3tv6 (fl_att f) (fl_vel f)) (m3tv6 (fl_att f) (fl_acc f)). unfold n2. vring.
  - generalize (m3tv6 (fl_att f) (fl_vel f)) (m3tv6 (fl_att f) (fl_acc f)). unfold n2. vring.
Qed.
End A.
