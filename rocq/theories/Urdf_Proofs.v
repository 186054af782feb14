(** * Urdf_Proofs: the converted file and the chain read from it. *)
From Coq Require Import Bool String List ZArith Arith Lia Permutation Field.
From Verif Require Import Num NumFacts Vec VecFacts Motor_Model Joint_Model Joint_Spec Joint_Proofs Body_Model Body_Proofs Tree Tree_Proofs Link_Model Link_Spec Link_Proofs Chain_Proofs Link_Properties Kin_Spec Kin_Proofs Jacobi_Proofs Dyn_Proofs IK_Model IK_Usable Conf_Model Ztk_Model Ztk_Spec Ztk_Proofs Ztk_Chain Urdf_Model Urdf_Spec Urdf_Tree Urdf_Doc Urdf_Walk Urdf_Read.
Import ListNotations.

Lemma list_choice {A B} (R : nat -> A -> B -> Prop) (l : list A) : (forall c x, nth_error l c = Some x -> exists y, R c x y) ->
  exists l', length l' = length l /\ forall c x y, nth_error l c = Some x -> nth_error l' c = Some y -> R c x y.
Proof.
  revert R. induction l as [|a l IH]; intros R H; [exists []; split; [reflexivity|]; intros [|c] ? ? Q; discriminate|].
  destruct (H 0 a eq_refl) as (b & Hb). destruct (IH (fun c => R (S c))) as (l' & LE & Q); [intros c x Hx; apply (H (S c)); exact Hx|].
  exists (b :: l'). split; [cbn [length]; congruence|]. intros [|c] x y Hx Hy; cbn [nth_error] in Hx, Hy; [congruence|]. eapply Q; eauto.
Qed.
Lemma forall2_of_nth {A B} (R : A -> B -> Prop) (l : list A) : forall m, length m = length l -> (forall c x y, nth_error l c = Some x -> nth_error m c = Some y -> R x y) -> Forall2 R l m.
Proof.
  induction l as [|a l IH]; intros [|b m] LE H; try discriminate; constructor; [apply (H 0); reflexivity|]. apply IH; [injection LE; auto|]. intros c x y Hx Hy. apply (H (S c)); assumption.
Qed.
Lemma nth_ext_map {A B C} (f : A -> C) (g : B -> C) (l : list A) : forall m, length m = length l -> (forall c x y, nth_error l c = Some x -> nth_error m c = Some y -> f x = g y) -> map f l = map g m.
Proof.
  induction l as [|a l IH]; intros [|b m] LE H; try discriminate; [reflexivity|]. cbn [map]. f_equal; [apply (H 0); reflexivity|].
  apply IH; [injection LE; auto|]. intros c x y Hx Hy. apply (H (S c)); assumption.
Qed.
Lemma nth_same_len {A B} (l : list A) (m : list B) c x : length m = length l -> nth_error l c = Some x -> exists y, nth_error m c = Some y.
Proof. intros LE H. destruct (nth_error m c) eqn:Q; [eauto|]. apply nth_error_None in Q. apply nth_lt in H. lia. Qed.

Section UP.
Context {F : Type} {N : Num F} {L : NumLaws F N} {E : Ext F} {X : ExtLaws F N E} {Z : ZtkLib} {U : UrdfExt F}.
Add Field FFieldUP : num_field.

(** ** The written file *)
Definition vis_names (l : dlink F) : list string := map us_name (vshapes (dl_name l) 0 (dl_visuals l)).
Lemma output_joint_eq (o : ujoint F) x p c fl : jcore o = jkept x p c -> output_joint o fl = joint_sec x fl.
Proof.
  intros H. assert (H1 : uj_type o = uj_type (jkept x p c)) by (rewrite <- H; reflexivity). assert (H2 : uj_damping o = None) by (change (uj_damping (jcore o) = None); rewrite H; reflexivity).
  assert (H3 : uj_friction o = None) by (change (uj_friction (jcore o) = None); rewrite H; reflexivity).
  assert (H4 : uj_lower o = uj_lower (jkept x p c)) by (rewrite <- H; reflexivity). assert (H5 : uj_upper o = uj_upper (jkept x p c)) by (rewrite <- H; reflexivity).
  unfold output_joint, limit_keys, joint_sec, lim_keys, lower_of, upper_of. rewrite H1, H2, H3, H4, H5. cbn [jkept uj_type uj_lower uj_upper].
  destruct (dj_type x); destruct (dj_limit x) as [[[lo|] [up|]]|]; reflexivity.
Qed.
Lemma output_shapes_nth (ss : list (ushape F)) (w : wstate F) : (forall s, In s ss -> us_type s <> None) -> forall k,
  map fst (output_shapes ss k w) = map us_name ss /\ forall n s, nth_error ss n = Some s -> nth_error (output_shapes ss k w) n = Some (us_name s, frame_keys (w_sl w (k + n))).
Proof.
  induction ss as [|s ss IH]; intros H k; [split; [reflexivity|]; intros [|n] ? Q; discriminate|].
  cbn [output_shapes]. destruct (us_type s) eqn:T; [|exfalso; exact (H s (or_introl eq_refl) T)].
  destruct (IH (fun x Hx => H x (or_intror Hx)) (S k)) as [A B]. split; [cbn [map fst]; now rewrite A|]. intros [|n] x Hx; cbn [nth_error] in *.
  - injection Hx as ->. now rewrite Nat.add_0_r.
  - rewrite (B n x Hx). now rewrite Nat.add_succ_r.
Qed.
Lemma vshapes_typed lname vs : forall k (s : ushape F), In s (vshapes lname k vs) -> us_type s <> None.
Proof. induction vs as [|v vs IH]; intros k s I; cbn [vshapes In] in I; [destruct I|]. destruct I as [<-|I]; [discriminate|eauto]. Qed.
Lemma frame_back_section (f : frame F) : section_frame (frame_keys f) = frame_back f.
Proof. unfold section_frame, frame_keys, frame_back. destruct (x_v3tiny _), (x_m3ident _); reflexivity. Qed.
Lemma frame_back_exact (f : frame F) : prints_exactly f -> frame_back f = f.
Proof.
  intros [A B]. unfold frame_back. destruct f as [p m]. cbn [fpos fatt] in *. destruct (x_v3tiny p); destruct (x_m3ident m); rewrite ?A, ?B by reflexivity; reflexivity.
Qed.

(** What the chain read from the written file has at the place of a link. *)
Record converted (d : udoc F) (h : list (link F)) (shapes : list string) (c : nat) (l : dlink F) (k : link F) : Prop := Conv {
  cv_name : l_name k = dl_name l;
  cv_shapes : map (nth_error shapes) (b_shapes (l_body k)) = map Some (rev (vis_names l));
  cv_root : c = 0 -> l_parent k = None /\ jtype_of (l_joint k) = TFixed /\ cache_ok (l_joint k) /\ l_org k = fid /\ b_mp (l_body k) = mp_back (lmp l);
  cv_child : forall x, In x (d_joints d) -> dj_child x = dl_name l -> l_parent k = Some (idx d (dj_parent x)) /\
    joint_back (dj_type x) (lower_of x) (upper_of x) (l_joint k) /\
    exists a b e, turned d (dj_parent x) a /\ home d (dj_child x) e /\ turned d (dj_child x) b /\ b = Fr (fpos e) (m3mul (align x) (fatt e)) /\
      l_org k = frame_back (frel a b) /\
      b_mp (l_body k) = mp_back (MP (mp_mass (lmp l)) (mp_com (lmp l)) (m3rotinv (fatt (frel a b)) (m3rot (fatt e) (mp_inertia (lmp l))))) }.

Lemma back_trq t lo up (j : joint F) w : joint_back t lo up j -> joint_back t lo up (joint_calc_trq j w).
Proof. intros (A & B & C). unfold joint_back. destruct j; cbn in *; auto. Qed.
Lemma type_trq (j : joint F) w : jtype_of (joint_calc_trq j w) = jtype_of j.
Proof. destruct j; reflexivity. Qed.
Lemma cache_trq (j : joint F) w : cache_ok j -> cache_ok (joint_calc_trq j w).
Proof. destruct j; auto. Qed.

Lemma convert (g : F) (d : udoc F) : valid_doc d ->
  exists o rb, urdf2ztk (doc_xml d) = Some (Some o) /\ robot_read g (uo_file o) = Some (Some rb) /\
    rb_name rb = Some (d_name d) /\ rb_shapes rb = flat_map vis_names (d_links d) /\ map fst (uo_shapes o) = flat_map vis_names (d_links d) /\
    well_formed (c_links (rb_chain rb)) /\ length (c_links (rb_chain rb)) = length (d_links d) /\
    (forall c l k, nth_error (d_links d) c = Some l -> nth_error (c_links (rb_chain rb)) c = Some k -> converted d (c_links (rb_chain rb)) (rb_shapes rb) c l k) /\
    (forall l n v, In l (d_links d) -> nth_error (dl_visuals l) n = Some v -> exists e b, home d (dl_name l) e /\ turned d (dl_name l) b /\
       In (vis_name (dl_name l) n v, frame_keys (frel b (fcascade e (origin_frame (vi_origin v))))) (uo_shapes o)).
Proof.
  intros V. set (z := Link "" JFixed body_init None fid fid v6zero None None None : link F).
  destruct (doc_eval d V (repeat z (length (d_links d)))) as (i & hs & EV & ST & WF & LH & PA & _).
  { now rewrite repeat_length, map_length. }
  { intros j l Hl. apply nth_error_In, repeat_spec in Hl. subst l. repeat split. }
  rewrite map_length in LH. destruct WF as (tr & TR).
  destruct (correct_ok d V i _ hs ST tr TR LH PA) as (w & EC & CJ & C0 & S0).
  assert (LU : length (ui_links i) = length (d_links d)) by (eapply ui_links_length; eauto).
  assert (SH : ui_shapes i = shapes_of (d_links d)) by (rewrite (js_shapes _ _ _ _ _ _ ST); reflexivity).
  assert (NM : ui_name i = Some (d_name d)) by (rewrite (js_name _ _ _ _ _ _ ST); reflexivity).
  assert (TY : forall s, In s (shapes_of (d_links d)) -> us_type s <> None).
  { intros s I. unfold shapes_of in I. apply in_flat_map in I as (l & _ & I). eapply vshapes_typed; eauto. }
  set (jo := fun c => match ljt i c with Some j => match nth_error (d_joints d) j with Some x => Some (x, w_fl w j) | None => None end | None => None end).
  set (secf := fun c (l : dlink F) => link_sec (dl_name l) (jo c) (MP (mp_mass (lmp l)) (mp_com (lmp l)) (w_in w c)) (vis_names l)).
  assert (SECN : forall c l, nth_error (d_links d) c = Some l -> omap (fun s => option_map us_name (nth_error (ui_shapes i) s)) (shp i c) = Some (vis_names l)).
  { intros c l Hl. rewrite (shp_eq d i _ hs ST c l Hl), SH. unfold vis_names. set (p := length (shapes_of (firstn c (d_links d)))).
    assert (G : forall n vs k, (forall m v, nth_error vs m = Some v -> nth_error (shapes_of (d_links d)) (p + k + m) = Some (vshape (dl_name l) (k + m) v)) -> n = length vs ->
      omap (fun s => option_map us_name (nth_error (shapes_of (d_links d)) s)) (seq (p + k) n) = Some (map us_name (vshapes (dl_name l) k vs))).
    { induction n as [|n IH]; intros vs k H Q; destruct vs as [|v vs]; try discriminate; [reflexivity|]. cbn [seq omap vshapes map].
      pose proof (H 0 v eq_refl) as H0. rewrite !Nat.add_0_r in H0. rewrite H0. cbn [option_map obind]. replace (S (p + k)) with (p + S k) by lia.
      rewrite (IH vs (S k)); [reflexivity| |injection Q; auto]. intros m y Hy. specialize (H (S m) y Hy). replace (p + S k + m) with (p + k + S m) by lia. rewrite H. do 2 f_equal. lia. }
    rewrite <- (Nat.add_0_r p). apply G; [|reflexivity]. intros m v Hv. rewrite Nat.add_0_r. cbn [Nat.add]. apply (shapes_nth _ c l m v Hl Hv). }
  assert (OL : forall c l u, nth_error (d_links d) c = Some l -> nth_error (ui_links i) c = Some u -> output_link i w c u = Some (secf c l)).
  { intros c l u Hl Hu. destruct (link_at d i _ hs ST c l Hl) as (u' & Hu' & LC). assert (u' = u) by congruence. subst u'. unfold lcore in LC. cbn [lkept ul_name ul_mp ul_shapes] in LC.
    assert (L1 : ul_name u = Some (dl_name l)) by congruence. assert (L2 : ul_mp u = lmp l) by congruence.
    pose proof (SECN c l Hl) as SN. unfold shp in SN. rewrite Hu in SN. unfold output_link, secf, link_sec, jo, ljt. rewrite Hu. destruct (ul_joint u) as [j|] eqn:UJ.
    - assert (LJ : ljt i c = Some j) by (unfold ljt; rewrite Hu; exact UJ). apply (ljt_iff d V i _ hs ST LH) in LJ as (x & Hx & CX). rewrite Hx.
      destruct (joint_at d i _ hs ST j x Hx) as (o & Ho & JC). cbn [opt_keys]. rewrite Ho. cbn [option_map obind]. rewrite SN. cbn [obind].
      assert (OP : uj_parent o = Some (idx d (dj_parent x))) by (change (uj_parent (jcore o) = Some (idx d (dj_parent x))); rewrite JC; reflexivity). rewrite OP. cbn [opt_keys].
      destruct (joint_names d V x (nth_error_In _ _ Hx)) as [N1 _]. destruct (idx_nth d V _ N1) as [IN _]. rewrite nth_error_map in IN.
      destruct (nth_error (d_links d) (idx d (dj_parent x))) as [lp|] eqn:HP; [|discriminate]. cbn [option_map] in IN. injection IN as IN.
      destruct (link_at d i _ hs ST _ lp HP) as (up & Hup & LCP). unfold lcore in LCP. cbn [lkept ul_name ul_mp ul_shapes] in LCP. assert (UN : ul_name up = Some (dl_name lp)) by congruence.
      rewrite Hup. cbn [obind]. rewrite UN, L1, L2, IN. cbn [option_map obind]. rewrite (output_joint_eq o x _ _ _ JC). reflexivity.
    - cbn [opt_keys obind]. rewrite SN. cbn [obind]. rewrite L1, L2. reflexivity. }
  assert (OS : forall us ls k, length us = length ls -> (forall n u l, nth_error us n = Some u -> nth_error ls n = Some l -> output_link i w (k + n) u = Some (secf (k + n) l)) ->
    exists secs, output_links i w us k = Some secs /\ length secs = length ls /\ forall n l, nth_error ls n = Some l -> nth_error secs n = Some (secf (k + n) l)).
  { induction us as [|u us IH]; intros [|l ls] k LE H; try discriminate.
    - exists []. repeat split. intros [|n] ? Q; discriminate.
    - cbn [output_links]. pose proof (H 0 u l eq_refl eq_refl) as H0. rewrite Nat.add_0_r in H0. rewrite H0. cbn [obind].
      destruct (IH ls (S k)) as (secs & EQ & LS & NS); [injection LE; auto|intros n u' l' A B; specialize (H (S n) u' l' A B); now rewrite Nat.add_succ_r in H|].
      exists (secf k l :: secs). rewrite EQ. split; [reflexivity|]. split; [cbn [length]; congruence|]. intros [|n] l' Hl'; cbn [nth_error] in *; [rewrite Nat.add_0_r; congruence|].
      rewrite (NS n l' Hl'). now rewrite Nat.add_succ_r. }
  destruct (OS (ui_links i) (d_links d) 0 LU) as (secs & EO & LS & NS); [intros n u l A B; apply OL; assumption|].
  destruct (output_shapes_nth (shapes_of (d_links d)) w TY 0) as (SF & SN).
  set (shapes := map us_name (shapes_of (d_links d))) in *.
  assert (SV : shapes = flat_map vis_names (d_links d)).
  { unfold shapes, shapes_of. generalize (d_links d) as ls. clear. induction ls as [|l ls IH]; [reflexivity|]. cbn [flat_map]. rewrite map_app. f_equal. apply IH. }
  assert (EU : urdf2ztk (doc_xml d) = Some (Some (UO (Ztk [KName (d_name d)] shapes [] secs []) (output_shapes (shapes_of (d_links d)) 0 w)))).
  { unfold urdf2ztk. rewrite EV. cbn [obind]. rewrite EC. cbn [obind]. unfold output_ztk. rewrite NM, SH. cbn [obind]. rewrite EO. cbn [option_map]. rewrite SF. reflexivity. }
  (* the links that are read *)
  assert (CH : exists hb, length hb = length (d_links d) /\ forall c l m, nth_error (d_links d) c = Some l -> nth_error hb c = Some m ->
     sec_reads shapes m (secf c l) /\ fresh m /\ l_name m = dl_name l /\ b_mp (l_body m) = mp_back (MP (mp_mass (lmp l)) (mp_com (lmp l)) (w_in w c)) /\
     b_shapes (l_body m) = rev (map (pos_of shapes) (vis_names l)) /\ l_org m = (match jo c with Some (_, fl) => frame_back fl | None => fid end) /\
     match jo c with Some (x, _) => joint_back (dj_type x) (lower_of x) (upper_of x) (l_joint m) | None => jtype_of (l_joint m) = TFixed /\ cache_ok (l_joint m) end).
  { apply (list_choice (fun c l m => sec_reads shapes m (secf c l) /\ fresh m /\ l_name m = dl_name l /\ b_mp (l_body m) = mp_back (MP (mp_mass (lmp l)) (mp_com (lmp l)) (w_in w c)) /\
     b_shapes (l_body m) = rev (map (pos_of shapes) (vis_names l)) /\ l_org m = (match jo c with Some (_, fl) => frame_back fl | None => fid end) /\
     match jo c with Some (x, _) => joint_back (dj_type x) (lower_of x) (upper_of x) (l_joint m) | None => jtype_of (l_joint m) = TFixed /\ cache_ok (l_joint m) end)).
    intros c l Hl. destruct (link_sec_reads (dl_name l) (jo c) (MP (mp_mass (lmp l)) (mp_com (lmp l)) (w_in w c)) (vis_names l) shapes) as (j & SR & JB).
    { intros s I. rewrite SV. apply in_flat_map. exists l. split; [eapply nth_error_In; eauto|exact I]. }
    eexists. split; [exact SR|]. split; [reflexivity|]. split; [reflexivity|]. split; [reflexivity|]. split; [reflexivity|]. split; [reflexivity|exact JB]. }
  destruct CH as (hb & LB & HB).
  assert (NB : map l_name hb = map dl_name (d_links d)).
  { apply nth_ext_map; [congruence|]. intros c m l Hm Hl. apply (HB c l m Hl Hm). }
  assert (JO : forall c x fl, jo c = Some (x, fl) <-> exists j, nth_error (d_joints d) j = Some x /\ idx d (dj_child x) = c /\ fl = w_fl w j).
  { intros c x fl. unfold jo. split.
    - destruct (ljt i c) as [j|] eqn:LJ; [|discriminate]. apply (ljt_iff d V i _ hs ST LH) in LJ as (y & Hy & CY). rewrite Hy. intros Q. injection Q as -> <-. eauto.
    - intros (j & Hx & CX & ->). assert (LJ : ljt i c = Some j) by (apply (ljt_iff d V i _ hs ST LH); eauto). now rewrite LJ, Hx. }
  destruct (file_load g (d_name d) shapes hs hb secs) as (rb & RR & RN & RS & WR & LR & KR).
  - exists tr. exact TR.
  - congruence.
  - rewrite NB. pose proof V as (_ & ND & _). exact ND.
  - apply Forall_forall. intros m I. apply In_nth_error in I as (c & Hm). destruct (nth_same_len hb (d_links d) c m ltac:(congruence) Hm) as (l & Hl). apply (HB c l m Hl Hm).
  - apply forall2_of_nth; [congruence|]. intros c m sec Hm Hs. destruct (nth_same_len hb (d_links d) c m ltac:(congruence) Hm) as (l & Hl).
    rewrite (NS c l Hl) in Hs. injection Hs as <-. apply (HB c l m Hl Hm).
  - apply forall2_of_nth; [congruence|]. intros c s sec Hs Hsec h' n. destruct (nth_same_len hs (d_links d) c s ltac:(congruence) Hs) as (l & Hl).
    rewrite (NS c l Hl) in Hsec. injection Hsec as <-. cbn [Nat.add]. unfold secf. rewrite link_sec_connects. f_equal. unfold link_par. rewrite NB.
    destruct (jo c) as [[x fl]|] eqn:QJ.
    + apply JO in QJ as (j & Hx & CX & _). assert (LP : l_parent s = Some (idx d (dj_parent x))).
      { apply (PA c s Hs). unfold jops. apply in_map_iff. exists x. split; [congruence|eapply nth_error_In; eauto]. }
      rewrite LP. destruct (joint_names d V x (nth_error_In _ _ Hx)) as [N1 _]. now rewrite (proj1 (idx_nth d V _ N1)).
    + destruct (l_parent s) as [q|] eqn:LP; [|reflexivity]. exfalso. apply (PA c s Hs) in LP. unfold jops in LP. apply in_map_iff in LP as (x & Q & I). injection Q as _ Q.
      apply In_nth_error in I as (j & Hj). assert (jo c = Some (x, w_fl w j)) by (apply JO; eauto). congruence.
  - intros m I. apply In_nth_error in I as (c & Hm). destruct (nth_same_len hb (d_links d) c m ltac:(congruence) Hm) as (l & Hl). destruct (HB c l m Hl Hm) as (_ & _ & _ & _ & _ & _ & J).
    destruct (jo c) as [[x fl]|]; [apply J|apply J].
  - exists (UO (Ztk [KName (d_name d)] shapes [] secs []) (output_shapes (shapes_of (d_links d)) 0 w)), rb.
    split; [exact EU|]. split; [exact RR|]. split; [exact RN|]. split; [congruence|]. split; [cbn [uo_shapes]; congruence|]. split; [exact WR|]. split; [congruence|]. split.
    + intros c l k Hl Hk. destruct (nth_same_len (d_links d) hb c l ltac:(congruence) Hl) as (m & Hm). destruct (nth_same_len (d_links d) hs c l ltac:(congruence) Hl) as (s & Hs).
      destruct (KR c m s Hm Hs) as (k' & wr & Hk' & K1 & K2 & K3 & K4 & K5 & K6). assert (k' = k) by congruence. subst k'.
      destruct (HB c l m Hl Hm) as (_ & _ & M1 & M2 & M3 & M4 & M5).
      assert (WI : w_in (wstart i) c = mp_inertia (lmp l)).
      { destruct (link_at d i _ hs ST c l Hl) as (u & Hu & LC). cbn [wstart w_in]. rewrite Hu. unfold lcore in LC. cbn [lkept ul_name ul_mp ul_shapes] in LC. congruence. }
      constructor.
      * congruence.
      * rewrite K5, M3, RS. rewrite map_rev, pos_names, <- map_rev; [reflexivity|]. intros x I. rewrite SV. apply in_flat_map. exists l. split; [eapply nth_error_In; eauto|exact I].
      * intros ->. assert (JN : jo 0 = None).
        { destruct (jo 0) as [[x fl]|] eqn:QJ; [|reflexivity]. exfalso. apply JO in QJ as (j & Hx & CX & _). pose proof V as (_ & _ & _ & _ & _ & RT & _).
          destruct (d_links d) as [|l0 rest] eqn:HL; [discriminate|]. apply (RT x l0 rest (nth_error_In _ _ Hx) eq_refl).
          destruct (joint_names d V x (nth_error_In _ _ Hx)) as [_ N2]. destruct (idx_nth d V _ N2) as [IN _]. rewrite CX, HL in IN. cbn in IN. congruence. }
        rewrite JN in M4, M5. split; [|split; [|split; [|split]]].
        -- rewrite K6. destruct (l_parent s) as [q|] eqn:LP; [|reflexivity]. exfalso. apply (PA 0 s Hs) in LP. unfold jops in LP. apply in_map_iff in LP as (x & Q & I). injection Q as _ Q.
           apply In_nth_error in I as (j & Hj). assert (jo 0 = Some (x, w_fl w j)) by (apply JO; eauto). congruence.
        -- rewrite K3, type_trq. apply M5.
        -- rewrite K3. apply cache_trq. apply M5.
        -- congruence.
        -- rewrite K4, M2, C0, WI. destruct (lmp l); reflexivity.
      * intros x I CX. apply In_nth_error in I as (j & Hx). assert (CC : idx d (dj_child x) = c).
        { rewrite CX. pose proof V as (_ & ND & _). unfold idx. now rewrite (find_name_nth _ c (dl_name l) ND) by (rewrite nth_error_map, Hl; reflexivity). }
        assert (QJ : jo c = Some (x, w_fl w j)) by (apply JO; eauto). rewrite QJ in M4, M5.
        assert (LP : l_parent s = Some (idx d (dj_parent x))) by (apply (PA c s Hs); unfold jops; apply in_map_iff; exists x; split; [congruence|eapply nth_error_In; eauto]).
        split; [congruence|]. split; [rewrite K3; apply back_trq, M5|].
        destruct (CJ j x Hx) as (a & b & e & TA & HE & TB & BE & FL & WN & _). exists a, b, e. split; [exact TA|]. split; [exact HE|]. split; [exact TB|]. split; [exact BE|].
        split; [congruence|]. rewrite K4, M2. rewrite (cj_nth d _ _ Hx), CC in WN. rewrite WN, WI. reflexivity.
    + intros l n v Il Hv. apply In_nth_error in Il as (c & Hl). cbn [uo_shapes].
      pose proof (shapes_nth _ c l n v Hl Hv) as SV2. pose proof (SN _ _ SV2) as SNV. cbn [Nat.add] in SNV. set (s := length (shapes_of (firstn c (d_links d))) + n) in *.
      assert (IS : In s (shp i c)). { rewrite (shp_eq d i _ hs ST c l Hl). apply in_seq. apply nth_lt in Hv. unfold s. lia. }
      assert (WS : w_sl (wstart i) s = origin_frame (vi_origin v)) by (cbn [wstart w_sl]; rewrite SH, SV2; reflexivity).
      assert (G : exists e b, home d (dl_name l) e /\ turned d (dl_name l) b /\ w_sl w s = frel b (fcascade e (origin_frame (vi_origin v)))).
      { pose proof V as (VE & ND & _ & _ & RE & _). pose proof (RE l (nth_error_In _ _ Hl)) as R. inversion R as [l0 rest HL EQ|x IJ _ EQ].
        - assert (c = 0). { assert (H0 : nth_error (map dl_name (d_links d)) 0 = Some (dl_name l)) by (rewrite HL; cbn; congruence).
            apply (proj1 (NoDup_nth_error _) ND); [rewrite map_length; eapply nth_lt; eauto|]. rewrite H0, nth_error_map, Hl. reflexivity. }
          subst c. exists fid, fid. split; [econstructor; exact HL|]. split; [econstructor; exact HL|]. rewrite fcascade_id_l, (S0 s IS), WS.
          symmetry. rewrite <- (fcascade_id_l (origin_frame (vi_origin v))) at 1. apply frel_cascade, rigid_id.
        - apply In_nth_error in IJ as (j & Hx). destruct (CJ j x Hx) as (a & b & e & _ & HE & TB & _ & _ & _ & SB). exists e, b. split; [exact HE|]. split; [exact TB|].
          rewrite <- WS. apply SB. rewrite (cj_nth d _ _ Hx), EQ. replace (idx d (dl_name l)) with c; [exact IS|].
          unfold idx. now rewrite (find_name_nth _ c (dl_name l) ND) by (rewrite nth_error_map, Hl; reflexivity). }
      destruct G as (e & b & HE & TB & WE). exists e, b. split; [exact HE|]. split; [exact TB|]. rewrite <- WE. eapply nth_error_In. rewrite SNV. reflexivity.
Qed.
End UP.
