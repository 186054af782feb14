(** * Ztk_Proofs: saving and loading joints, motors and links. *)
From Coq Require Import String List ZArith Arith Lia Permutation Field.
From Verif Require Import Num NumFacts Vec VecFacts Motor_Model Joint_Model Joint_Spec Joint_Proofs Body_Model Tree Tree_Proofs Link_Model Link_Spec Link_Proofs Kin_Spec Kin_Proofs Ztk_Model Ztk_Spec.
Import ListNotations.

Section ZJ.
Context {F : Type} {N : Num F} {L : NumLaws F N} {E : Ext F} {X : ExtLaws F N E} {Z : ZtkLib}.
Add Field FFieldZ : num_field.
Local Open Scope num_scope.

Lemma eval_app {A} (h : A -> key F -> option (A * bool)) l1 l2 s s1 : eval_keys h s l1 = Some (s1, true) ->
  eval_keys h s (l1 ++ l2) = eval_keys h s1 l2.
Proof.
  revert s. induction l1 as [|k l1 IH]; intros s H; cbn [eval_keys app] in *; [congruence|].
  destruct (h s k) as [[s' ok]|]; cbn [obind] in *; [|discriminate]. destruct ok; [auto|].
  destruct z_stop_key; [discriminate|]. destruct (eval_keys h s' l1) as [[? ?]|]; discriminate.
Qed.
(** Keys of other tables. *)
Lemma eval_skip {A} (h : A -> key F -> option (A * bool)) l s : (forall k, In k l -> h s k = Some (s, true)) -> eval_keys h s l = Some (s, true).
Proof.
  induction l as [|k l IH]; intros H; cbn [eval_keys]; [reflexivity|]. rewrite (H k (or_introl eq_refl)). cbn [obind]. apply IH. auto using in_cons.
Qed.
Lemma npos_pos p : 0 < (npos p : F).
Proof.
  assert (T : 0 < (n2 : F)) by (unfold n2; apply nlt_0_add_l; [apply nlt_0_1 | apply nle_0_1]).
  induction p as [p IH|p IH|]; cbn [npos]; [|apply nlt_0_mul; assumption|apply nlt_0_1].
  apply nlt_0_add_l; [apply nlt_0_1|]. apply nlt_le, nlt_0_mul; assumption.
Qed.
Lemma npos_nz p : npos p <> (0 : F).
Proof. intros H. pose proof (npos_pos p) as P. rewrite H in P. exact (nlt_irrefl _ P). Qed.
Lemma deg_rad (x : F) : to_rad (to_deg x) = x.
Proof.
  unfold to_rad, to_deg, nrat, nZ. assert (x_pi <> (0 : F)) by (intros H; pose proof x_pi_pos as P; rewrite H in P; exact (nlt_irrefl _ P)).
  pose proof (npos_nz 180). pose proof (npos_nz 1). field. auto.
Qed.
Lemma deg_rad_opt (x : option F) : option_map to_rad (option_map to_deg x) = x.
Proof. destruct x; [|reflexivity]. cbn [option_map]. now rewrite deg_rad. Qed.

(** ** Joints *)
Definition rest_ax (d : F) (a : ax1 F) : ax1 F :=
  Ax d 0 0 0 (a_min a) (a_max a) (a_stiff a) (a_visc a) (a_coul a) 0 (a_sf a) fp_zero 0.
Definition rest_motor (m : motor F) : motor F := Mot (m_name m) (at_rest (m_kind m)).
(** The joint at rest with the same parameters; [f] is applied to the angles. *)
Definition rest_joint (f : F -> F) (j : joint F) : joint F :=
  match j with
  | JFixed => JFixed
  | JRevol r => let q := f (a_dis (rv_a r)) in JRevol (RV (rest_ax q (rv_a r)) (x_sin q) (x_cos q) (rest_motor (rv_m r)))
  | JPrism p => JPrism (PR (rest_ax (a_dis (pr_a p)) (pr_a p)) (rest_motor (pr_m p)))
  | JCylin c => let q := f (a_dis (cy_1 c)) in
      JCylin (CY (rest_ax (a_dis (cy_0 c)) (cy_0 c)) (rest_ax q (cy_1 c)) (x_sin q) (x_cos q) (rest_motor (cy_m c)))
  | JHooke h => let q0 := f (a_dis (hk_0 h)) in let q1 := f (a_dis (hk_1 h)) in
      JHooke (HK (rest_ax q0 (hk_0 h)) (rest_ax q1 (hk_1 h)) (x_sin q0) (x_cos q0) (x_sin q1) (x_cos q1) (rest_motor (hk_m h)))
  | JSpher s => JSpher (SP (sp_aa s) v3zero v3zero v3zero (x_aa2m (sp_aa s)) (rest_motor (sp_m s)))
  | JFloat f => JFloat (FL (fl_dis f) v6zero v6zero v6zero (x_aa2m (vang (fl_dis f))))
  | JBrFloat f a b => JBrFloat (FL (fl_dis f) v6zero v6zero v6zero (x_aa2m (vang (fl_dis f)))) a b
  end.
Definition rest_slot (s : mslot F) : mslot F := Slot (s_name s) (option_map at_rest (s_kind s)).
Lemma find_rest (a : list (mslot F)) n : slot_find (map rest_slot a) n = option_map rest_slot (slot_find a n).
Proof.
  unfold slot_find. induction a as [|s a IH]; [reflexivity|]. cbn [map find rest_slot s_name].
  destruct (match s_name s with Some n0 => String.eqb n0 n | None => false end); [reflexivity|exact IH].
Qed.
Lemma clone_rest (n : string) (k : mkind F) m0 : motor_clone (Mot (Some n) (at_rest k)) m0 = Mot (Some n) (at_rest k).
Proof. destruct k; reflexivity. Qed.
Lemma rest_idem (k : mkind F) : at_rest (at_rest k) = at_rest k.
Proof. destruct k; reflexivity. Qed.
(** The motor key of a printed joint. *)
Lemma motor_key_saved (a : list (mslot F)) (j j0 : joint F) m : joint_motor j = Some m -> jtype_of j0 = jtype_of j ->
  joint_motor j0 = Some motor_none_assigned -> motor_listed a m ->
  exists b, joint_motor_key (Some (map rest_slot a)) j0 (zname (m_name m)) = Some (joint_set_motor j0 (rest_motor m), b).
Proof.
  intros Hm TY H0 LI. unfold joint_motor_key. rewrite H0. cbn [obind]. rewrite find_rest.
  unfold motor_listed in LI. destruct m as [nm k]. cbn [m_name m_kind] in *. destruct nm as [n|]; cbn [zname].
  - destruct LI as (k' & F1 & F2). rewrite F1. cbn [option_map rest_slot s_name s_kind]. exists true. rewrite clone_rest. unfold rest_motor. cbn [m_name m_kind]. now rewrite F2.
  - destruct LI as [-> F1]. rewrite F1. cbn [option_map]. exists false. unfold rest_motor. cbn [m_name m_kind at_rest].
    f_equal. f_equal. unfold motor_none_assigned in H0. destruct j0 as [|[]|[]|[]|[]|[]| |]; cbn in *; congruence.
Qed.
Definition tail_key (k : key F) : Prop := match k with KShape _ | KParent _ => True | _ => False end.
Lemma eval_motor_tail arr (j j1 : joint F) s tl b : Forall tail_key tl -> joint_motor_key arr j s = Some (j1, b) ->
  exists b', eval_keys (joint_key arr) j (KMotor s :: tl) = Some (j1, b').
Proof.
  intros T H. cbn [eval_keys joint_key]. rewrite H. cbn [obind].
  assert (SK : eval_keys (joint_key arr) j1 tl = Some (j1, true)).
  { apply eval_skip. intros k Hk. rewrite Forall_forall in T. specialize (T k Hk). destruct k; try contradiction; reflexivity. }
  rewrite SK. cbn [option_map]. destruct b; [eauto|]. destruct z_stop_key; eauto.
Qed.
Lemma joint_load (arr : option (list (mslot F))) (j j0 : joint F) tl : joint_assign (jtype_of j) = Some j0 -> Forall tail_key tl ->
  motor_saved arr j -> exists b, eval_keys (joint_key (option_map (map rest_slot) arr)) j0 (joint_print j ++ tl) = Some (rest_joint x_phnorm j, b).
Proof.
  intros A T MS. assert (SK : forall arr (j : joint F), eval_keys (joint_key arr) j tl = Some (j, true)).
  { intros a0 j1. apply eval_skip. intros k Hk. rewrite Forall_forall in T. specialize (T k Hk). destruct k; try contradiction; reflexivity. }
  assert (FIN : forall (j1 : joint F) m pre, joint_print j = pre ++ [KMotor (zname (m_name m))] -> joint_motor j = Some m ->
    eval_keys (joint_key (option_map (map rest_slot) arr)) j0 pre = Some (j1, true) -> jtype_of j1 = jtype_of j -> joint_motor j1 = Some motor_none_assigned ->
    joint_set_motor j1 (rest_motor m) = rest_joint x_phnorm j ->
    exists b, eval_keys (joint_key (option_map (map rest_slot) arr)) j0 (joint_print j ++ tl) = Some (rest_joint x_phnorm j, b)).
  { intros j1 m pre EP Hm EV TY M1 ER. rewrite EP, <- app_assoc, (eval_app _ _ _ _ _ EV). unfold motor_saved in MS. rewrite Hm in MS.
    destruct MS as (a & -> & _ & LI). destruct (motor_key_saved a j j1 m Hm TY M1 LI) as (b & K).
    cbn [option_map app]. rewrite <- ER. eapply eval_motor_tail; eauto. }
  destruct j as [|[a s c m]|[a m]|[a0 a1 s c m]|[a0 a1 s0 c0 s1 c1 m]|[[x y z] v ac tr at_ m]|[[[x y z] [x' y' z']] v ac tr at_]|[[[x y z] [x' y' z']] v ac tr at_] ef et];
    cbn in A; injection A as <-.
  - exists true. apply SK.
  - eapply (FIN _ m [_; _; _; _; _; _; _]); [reflexivity|reflexivity| | | |].
    + cbn -[to_rad to_deg]. rewrite !deg_rad, !deg_rad_opt. reflexivity.
    + reflexivity.
    + reflexivity.
    + reflexivity.
  - eapply (FIN _ m [_; _; _; _; _; _; _]); [reflexivity|reflexivity| | | |].
    + cbn -[to_rad to_deg]. reflexivity.
    + reflexivity.
    + reflexivity.
    + reflexivity.
  - eapply (FIN _ m [_; _; _; _; _; _; _]); [reflexivity|reflexivity| | | |].
    + cbn -[to_rad to_deg]. rewrite !deg_rad, !deg_rad_opt. reflexivity.
    + reflexivity.
    + reflexivity.
    + reflexivity.
  - eapply (FIN _ m [_; _; _; _; _; _; _]); [reflexivity|reflexivity| | | |].
    + cbn -[to_rad to_deg]. rewrite !deg_rad, !deg_rad_opt. reflexivity.
    + reflexivity.
    + reflexivity.
    + reflexivity.
  - eapply (FIN _ m [_]); [reflexivity|reflexivity| | | |]; reflexivity.
  - exists true. erewrite eval_app; [|cbn -[to_rad to_deg]; reflexivity]. apply SK.
  - exists true. erewrite eval_app; [|cbn -[to_rad to_deg]; reflexivity]. apply SK.
Qed.

(** What [at_own_dis] says about each class. *)
Lemma own_revol (r : revol F) : at_own_dis (JRevol r) -> lim_rot (rv_a r) (a_dis (rv_a r)) = a_dis (rv_a r) /\
  rv_s r = x_sin (a_dis (rv_a r)) /\ rv_c r = x_cos (a_dis (rv_a r)).
Proof.
  unfold at_own_dis. cbn. intros H. assert (G : revol_setdis r (a_dis (rv_a r)) = r) by congruence. clear H. unfold revol_setdis in G.
  set (d := lim_rot (rv_a r) (a_dis (rv_a r))) in *. assert (D : d = a_dis (rv_a r)) by (apply (f_equal (fun r => a_dis (rv_a r))) in G; exact G).
  rewrite <- D. split; [reflexivity|]. split; [apply (f_equal rv_s) in G|apply (f_equal rv_c) in G]; symmetry; exact G.
Qed.
Lemma own_prism (p : prism F) : at_own_dis (JPrism p) -> lim_lin (pr_a p) (a_dis (pr_a p)) = a_dis (pr_a p).
Proof.
  unfold at_own_dis. cbn. intros H. assert (G : prism_setdis p (a_dis (pr_a p)) = p) by congruence.
  apply (f_equal (fun p => a_dis (pr_a p))) in G. exact G.
Qed.
Lemma own_cylin (c : cylin F) : at_own_dis (JCylin c) -> lim_lin (cy_0 c) (a_dis (cy_0 c)) = a_dis (cy_0 c) /\
  lim_rot (cy_1 c) (a_dis (cy_1 c)) = a_dis (cy_1 c) /\ cy_s c = x_sin (a_dis (cy_1 c)) /\ cy_c c = x_cos (a_dis (cy_1 c)).
Proof.
  unfold at_own_dis. cbn. intros H. assert (G : cylin_setdis c (a_dis (cy_0 c)) (a_dis (cy_1 c)) = c) by congruence. clear H. unfold cylin_setdis in G.
  set (d := lim_rot (cy_1 c) (a_dis (cy_1 c))) in *. assert (D : d = a_dis (cy_1 c)) by (apply (f_equal (fun r => a_dis (cy_1 r))) in G; exact G).
  rewrite <- D. split; [apply (f_equal (fun c => a_dis (cy_0 c))) in G; exact G|]. split; [reflexivity|].
  split; [apply (f_equal cy_s) in G|apply (f_equal cy_c) in G]; symmetry; exact G.
Qed.
Lemma own_hooke (h : hooke F) : at_own_dis (JHooke h) -> (lim_rot (hk_0 h) (a_dis (hk_0 h)) = a_dis (hk_0 h) /\
  hk_s0 h = x_sin (a_dis (hk_0 h)) /\ hk_c0 h = x_cos (a_dis (hk_0 h))) /\
  (lim_rot (hk_1 h) (a_dis (hk_1 h)) = a_dis (hk_1 h) /\ hk_s1 h = x_sin (a_dis (hk_1 h)) /\ hk_c1 h = x_cos (a_dis (hk_1 h))).
Proof.
  unfold at_own_dis. cbn. intros H. assert (G : hooke_setdis h (a_dis (hk_0 h)) (a_dis (hk_1 h)) = h) by congruence. clear H. unfold hooke_setdis in G.
  set (d := lim_rot (hk_0 h) (a_dis (hk_0 h))) in *. assert (D : d = a_dis (hk_0 h)) by (apply (f_equal (fun r => a_dis (hk_0 r))) in G; exact G).
  set (e := lim_rot (hk_1 h) (a_dis (hk_1 h))) in *. assert (D' : e = a_dis (hk_1 h)) by (apply (f_equal (fun r => a_dis (hk_1 r))) in G; exact G).
  rewrite <- D, <- D'. split; (split; [reflexivity|]); split;
    [apply (f_equal hk_s0) in G|apply (f_equal hk_c0) in G|apply (f_equal hk_s1) in G|apply (f_equal hk_c1) in G]; symmetry; exact G.
Qed.
Lemma own_spher (s : spher F) : at_own_dis (JSpher s) -> sp_att s = x_aa2m (sp_aa s).
Proof.
  unfold at_own_dis. destruct s as [[x y z] v a t m mt]. cbn. intros H. injection H as H. rewrite H at 1. reflexivity.
Qed.
Lemma own_float (f : floatj F) : at_own_dis (JFloat f) -> fl_att f = x_aa2m (vang (fl_dis f)).
Proof.
  unfold at_own_dis. destruct f as [[[x y z] [x' y' z']] v a t m]. cbn. intros H. injection H as H. rewrite H at 1. reflexivity.
Qed.
Lemma own_brfloat (f : floatj F) ef et : at_own_dis (JBrFloat f ef et) -> fl_att f = x_aa2m (vang (fl_dis f)).
Proof.
  unfold at_own_dis. destruct f as [[[x y z] [x' y' z']] v a t m]. cbn. intros H. injection H as H. rewrite H at 1. reflexivity.
Qed.
Lemma lim_rest_rot q a d : lim_rot (rest_ax q a) d = lim_rot a d.
Proof. reflexivity. Qed.
Lemma lim_rest_lin q a d : lim_lin (rest_ax q a) d = lim_lin a d.
Proof. reflexivity. Qed.
Lemma joint_load_init (j : joint F) : at_own_dis j -> joint_key None (rest_joint x_phnorm j) (KDis (joint_dis_print j)) = Some (rest_joint (fun q => q) j, true).
Proof.
  intros O. destruct j as [|r|p|c|h|[[x y z] v ac tr at_ m]|[[[x y z] [x' y' z']] v ac tr at_]|[[[x y z] [x' y' z']] v ac tr at_] ef et]; try reflexivity.
  - destruct (own_revol r O) as (A & _). cbn -[to_rad to_deg lim_rot]. rewrite deg_rad. unfold revol_setdis. cbn [rv_a rv_m]. rewrite lim_rest_rot, A. reflexivity.
  - pose proof (own_prism p O) as A. cbn -[to_rad to_deg lim_lin]. unfold prism_setdis. cbn [pr_a pr_m]. rewrite lim_rest_lin, A. reflexivity.
  - destruct (own_cylin c O) as (A & B & _). cbn -[to_rad to_deg lim_rot lim_lin]. rewrite deg_rad. unfold cylin_setdis. cbn [cy_0 cy_1 cy_m]. rewrite lim_rest_rot, lim_rest_lin, A, B. reflexivity.
  - destruct (own_hooke h O) as ((A & _) & (B & _)). cbn -[to_rad to_deg lim_rot lim_lin]. rewrite !deg_rad. unfold hooke_setdis. cbn [hk_0 hk_1 hk_m]. rewrite !lim_rest_rot, A, B. reflexivity.
Qed.
Lemma nlt_add_iff (x y z : F) : x < y <-> x + z < y + z.
Proof.
  assert (G : forall a b c : F, a < b -> a + c < b + c).
  { intros a b c H. apply nlt_le_neq in H as [H NE]. apply nlt_le_neq. split; [apply nleb_add; exact H|].
    intros Q. apply NE. replace a with (a + c - c) by ring. rewrite Q. ring. }
  split; [apply G|]. intros H. apply (G _ _ (- z)) in H. replace (x + z + - z) with x in H by ring. replace (y + z + - z) with y in H by ring. exact H.
Qed.
Lemma tiny_norm (q : F) : x_tol <= x_pi -> ntiny x_tol q = true -> x_phnorm q = q.
Proof.
  intros TP T. unfold ntiny in T. apply nltb_lt in T. unfold nabs in T. destruct (0 <=? q) eqn:S.
  - apply x_ph_id; [|apply nlt_le; eapply nlt_le_trans; eauto].
    eapply nlt_le_trans; [|exact S]. apply (nlt_add_iff _ _ x_pi). replace (- x_pi + x_pi) with (0 : F) by ring. replace (0 + x_pi) with (x_pi : F) by ring. apply x_pi_pos.
  - apply x_ph_id.
    + assert (G : - q < x_pi) by (eapply nlt_le_trans; eauto). apply (nlt_add_iff _ _ (x_pi - q)).
      replace (- x_pi + (x_pi - q)) with (- q) by ring. replace (q + (x_pi - q)) with (x_pi : F) by ring. exact G.
    + apply nlt_le. eapply nlt_trans; [exact S|apply x_pi_pos].
Qed.
Lemma joint_load_neutral (j : joint F) : x_tol <= x_pi -> joint_is_neutral j = true -> rest_joint x_phnorm j = rest_joint (fun q => q) j.
Proof.
  intros TP T. unfold joint_is_neutral in T. rewrite forallb_forall in T.
  destruct j as [|r|p|c|h|s|f|f ef et]; try reflexivity; cbn [rest_joint].
  - rewrite (tiny_norm (a_dis (rv_a r))); [reflexivity|exact TP|apply T; left; reflexivity].
  - rewrite (tiny_norm (a_dis (cy_1 c))); [reflexivity|exact TP|apply T; right; left; reflexivity].
  - rewrite (tiny_norm (a_dis (hk_0 h))), (tiny_norm (a_dis (hk_1 h))); try reflexivity; try exact TP; apply T; [right; left|left]; reflexivity.
Qed.
Lemma rest_same (j : joint F) : at_own_dis j -> same_joint j (rest_joint (fun q => q) j).
Proof.
  intros O. unfold same_joint.
  destruct j as [|r|p|c|h|s|f|f ef et]; repeat split; try reflexivity; try (repeat constructor; fail).
  - destruct (own_revol r O) as (_ & A & B). intros fo. cbn. rewrite <- A, <- B. reflexivity.
  - destruct (own_cylin c O) as (_ & _ & A & B). intros fo. cbn. rewrite <- A, <- B. reflexivity.
  - destruct (own_hooke h O) as ((_ & A & B) & (_ & C & D)). intros fo. cbn. rewrite <- A, <- B, <- C, <- D. reflexivity.
  - pose proof (own_spher s O) as A. intros fo. cbn. rewrite <- A. reflexivity.
  - pose proof (own_float f O) as A. intros fo. cbn. rewrite <- A. reflexivity.
  - pose proof (own_brfloat f ef et O) as A. intros fo. cbn. rewrite <- A. reflexivity.
Qed.
Lemma rest_type (f : F -> F) (j : joint F) : jtype_of (rest_joint f j) = jtype_of j.
Proof. destruct j; reflexivity. Qed.
Lemma rest_cache (f : F -> F) (j : joint F) : cache_ok (rest_joint f j).
Proof. destruct j; cbn; auto. Qed.

(** ** Motors *)
Lemma motor_load (n : string) (k : mkind F) : exists ks, motor_print (Slot (Some n) (Some k)) = Some ks /\
  motor_read ks = Some (rest_slot (Slot (Some n) (Some k)), true).
Proof. eexists. split; [reflexivity|]. destruct k as [|[]|[]]; reflexivity. Qed.

(** ** Lists *)
Lemma omap_some {A B} (f : A -> option B) l : (forall a, In a l -> exists b, f a = Some b) -> exists l', omap f l = Some l'.
Proof.
  induction l as [|a l IH]; intros H; [exists []; reflexivity|]. cbn [omap]. destruct (H a (or_introl eq_refl)) as (b & ->). cbn [obind].
  destruct (IH (fun a Ha => H a (or_intror Ha))) as (l' & ->). eexists. reflexivity.
Qed.
Lemma omap_forall2 {A B} (f : A -> option B) l l' : omap f l = Some l' -> Forall2 (fun a b => f a = Some b) l l'.
Proof.
  revert l'. induction l as [|a l IH]; intros l' H; cbn [omap] in H; [injection H as <-; constructor|].
  destruct (f a) eqn:A0; cbn [obind] in H; [|discriminate]. destruct (omap f l); [|discriminate]. injection H as <-. constructor; auto.
Qed.
Lemma forall2_omap {A B} (f : A -> option B) l l' : Forall2 (fun a b => f a = Some b) l l' -> omap f l = Some l'.
Proof. induction 1 as [|a b l l' H _ IH]; [reflexivity|]. cbn [omap]. rewrite H, IH. reflexivity. Qed.
Lemma find_name_nth (l : list string) i n : NoDup l -> nth_error l i = Some n -> find_name l n = Some i.
Proof.
  revert i. induction l as [|m l IH]; intros i ND H; [destruct i; discriminate|]. cbn [find_name]. inversion ND as [|? ? NI ND']; subst.
  destruct i as [|i]; cbn [nth_error] in H.
  - injection H as ->. rewrite String.eqb_refl. reflexivity.
  - destruct (String.eqb_spec m n) as [->|NE]; [exfalso; apply NI; eapply nth_error_In; eauto|]. rewrite (IH i ND' H). reflexivity.
Qed.
Lemma set_nth_mid {A} (l1 l2 : list A) x y : set_nth (length l1) y (l1 ++ x :: l2) = l1 ++ y :: l2.
Proof. induction l1 as [|a l1 IH]; [reflexivity|]. cbn [length app set_nth]. now rewrite IH. Qed.

(** ** Links *)
Definition load_body (b : body F) : body F :=
  Body (b_mp b) fid v6zero v6zero v3zero v3zero v3zero [] (rev (b_shapes b)) (b_stuff b).
Definition load_link (l : link F) : rlink F := RL (Some (l_name l)) (Some (rest_joint x_phnorm (l_joint l))) (load_body (l_body l)) (l_org l).
Definition joint_table (k : key F) : Prop :=
  match k with KDis _ | KMin _ | KMax _ | KStiff _ | KVisc _ | KCoul _ | KSf _ | KMotor _ | KForceTh _ | KTorqueTh _ => True | _ => False end.
Lemma joint_print_table (j : joint F) k : In k (joint_print j) -> joint_table k.
Proof.
  unfold joint_print. rewrite !in_app_iff. intros [H|[H|[H|H]]].
  - destruct (jtype_of j); cbn in H; (destruct H as [H|H]; [rewrite <- H; exact I|destruct H]) || destruct H.
  - destruct (has_axes (jtype_of j)); cbn in H; [|destruct H]. repeat (destruct H as [<-|H]; [exact I|]). destruct H.
  - destruct (joint_motor j); [|destruct H]. destruct H as [<-|[]]. exact I.
  - destruct j; cbn in H; try contradiction. destruct H as [<-|[<-|[]]]; exact I.
Qed.
Lemma eval_shapes names shapes (idx : list nat) ss : NoDup shapes -> Forall2 (fun i s => nth_error shapes i = Some s) idx ss ->
  forall (r : rlink F), eval_keys (link_key names shapes) r (map KShape ss) =
    Some (RL (rl_name r) (rl_joint r) (let b := rl_body r in Body (b_mp b) (b_frame b) (b_vel b) (b_acc b) (b_wcom b) (b_comvel b) (b_comacc b) (b_extw b) (rev idx ++ b_shapes b) (b_stuff b)) (rl_org r), true).
Proof.
  intros ND. induction 1 as [|i s idx ss H _ IH]; intros r.
  - cbn [map eval_keys rev app]. destruct r as [n j b o]. destruct b; reflexivity.
  - cbn [map eval_keys link_key]. destruct shapes as [|s0 sh] eqn:SH; [destruct i; discriminate|]. rewrite <- SH in *.
    rewrite (find_name_nth _ _ _ ND H). cbn [obind]. rewrite IH. cbn [rl_name rl_joint rl_body rl_org b_push_shape b_mp b_frame b_vel b_acc b_wcom b_comvel b_comacc b_extw b_shapes b_stuff rev].
    rewrite <- app_assoc. reflexivity.
Qed.
Lemma link_load (names names' shapes : list string) arr (l : link F) :
  b_stuff (l_body l) <> None -> NoDup shapes -> (forall i, In i (b_shapes (l_body l)) -> (i < length shapes)%nat) ->
  (forall q, l_parent l = Some q -> (q < length names)%nat) -> ~ In (l_name l) names' -> motor_saved arr (l_joint l) ->
  exists ks, link_print names shapes l = Some ks /\
    link_read names' shapes (option_map (map rest_slot) arr) ks = Some (load_link l, true) /\
    (forall h i, eval_keys (connect_key i) h ks = eval_keys (connect_key i) h
       (match l_parent l with None => [] | Some q => match nth_error names q with Some n => [KParent n] | None => [] end end)).
Proof.
  intros ST ND SH PA NI MS. destruct (b_stuff (l_body l)) as [st|] eqn:Est; [|congruence].
  destruct (omap_some (nth_error shapes) (b_shapes (l_body l))) as (ss & Ess).
  { intros i Hi. specialize (SH i Hi). destruct (nth_error shapes i) eqn:G; [eauto|]. apply nth_error_None in G. lia. }
  pose proof (omap_forall2 _ _ _ Ess) as F2.
  set (par := match l_parent l with None => [] | Some q => match nth_error names q with Some n => [KParent n] | None => [] end end).
  set (hd := [KName (l_name l); KJointType (joint_typestr (l_joint l)); KMass (l_mass l); KStuff st; KCOM (l_com l);
         KInertia (mp_inertia (b_mp (l_body l))); KPos (fpos (l_org l)); KAtt (fatt (l_org l))]).
  exists (hd ++ joint_print (l_joint l) ++ map KShape ss ++ par).
  assert (PT : forall k, In k par -> exists n, k = KParent n).
  { unfold par. destruct (l_parent l) as [q|]; [|intros k []]. destruct (nth_error names q) as [n|]; [|intros k []]. intros k [<-|[]]. eauto. }
  assert (TL : Forall tail_key (map KShape ss ++ par)).
  { rewrite Forall_forall. intros k Hk. apply in_app_iff in Hk as [Hk|Hk]; [apply in_map_iff in Hk as (x & <- & _); exact I|].
    destruct (PT k Hk) as (n & ->). exact I. }
  split; [|split].
  - unfold link_print. rewrite Est. cbn [obind]. rewrite Ess. cbn [obind].
    assert (PE : match l_parent l with None => Some [] | Some p => option_map (fun n => [KParent n]) (nth_error names p) end = Some par).
    { unfold par. destruct (l_parent l) as [q|]; [|reflexivity]. specialize (PA q eq_refl).
      destruct (nth_error names q) as [n|] eqn:G; [reflexivity|]. apply nth_error_None in G. lia. }
    rewrite PE. reflexivity.
  - unfold link_read. destruct (joint_assign (jtype_of (l_joint l))) as [j0|] eqn:A; [|destruct (l_joint l); discriminate].
    assert (EX : existsb (String.eqb (l_name l)) names' = false).
    { apply Bool.not_true_is_false. intros H. apply existsb_exists in H as (x & Hx & Q). apply String.eqb_eq in Q. congruence. }
    assert (QA : joint_query_assign JFixed (joint_typestr (l_joint l)) = Some (j0, true)).
    { unfold joint_query_assign, joint_typestr. assert (Q : joint_query joint_com_array (jtype_str (jtype_of (l_joint l))) = Some (jtype_of (l_joint l))) by (destruct (jtype_of (l_joint l)); reflexivity).
      rewrite Q, A. reflexivity. }
    assert (HD : eval_keys (link_key names' shapes) (RL None None body_init fid) hd = Some (RL (Some (l_name l)) (Some j0)
       (Body (b_mp (l_body l)) fid v6zero v6zero v3zero v3zero v3zero [] [] (Some st)) (l_org l), true)).
    { unfold hd. cbn [eval_keys link_key]. rewrite EX. cbn [obind]. rewrite QA. cbn [obind option_map eval_keys link_key].
      unfold l_mass, l_com. destruct (l_body l) as [[m c i] ? ? ? ? ? ? ? ? ?]. destruct (l_org l) as [fp fa]. reflexivity. }
    rewrite (eval_app _ _ _ _ _ HD).
    assert (SJ : forall r, eval_keys (link_key names' shapes) r (joint_print (l_joint l)) = Some (r, true)).
    { intros r. apply eval_skip. intros k Hk. apply joint_print_table in Hk. destruct k; try contradiction; reflexivity. }
    rewrite (eval_app _ _ _ _ _ (SJ _)). rewrite (eval_app _ _ _ _ _ (eval_shapes names' shapes _ _ ND F2 _)).
    rewrite eval_skip by (intros k Hk; destruct (PT k Hk) as (n & ->); reflexivity). cbn [obind rl_joint rl_name rl_body rl_org b_mp b_frame b_vel b_acc b_wcom b_comvel b_comacc b_extw b_shapes b_stuff].
    assert (JH : eval_keys (joint_key (option_map (map rest_slot) arr)) j0 hd = Some (j0, true)).
    { apply eval_skip. unfold hd. intros k Hk. repeat (destruct Hk as [<-|Hk]; [reflexivity|]). destruct Hk. }
    rewrite (eval_app _ _ _ _ _ JH). destruct (joint_load arr (l_joint l) j0 _ A TL MS) as (b & JL). rewrite JL. cbn [option_map].
    unfold load_link, load_body. rewrite Est, app_nil_r. reflexivity.
  - intros h i. assert (CH : forall l1 l2, (forall k, In k l1 -> connect_key i h k = Some (h, true)) -> eval_keys (connect_key i) h (l1 ++ l2) = eval_keys (connect_key i) h l2).
    { intros l1 l2 H. apply eval_app. apply eval_skip. exact H. }
    rewrite !CH; [reflexivity| | |].
    + intros k Hk. apply in_map_iff in Hk as (x & <- & _). reflexivity.
    + intros k Hk. apply joint_print_table in Hk. destruct k; try contradiction; reflexivity.
    + unfold hd. intros k Hk. repeat (destruct Hk as [<-|Hk]; [reflexivity|]). destruct Hk.
Qed.
End ZJ.
