(** * Ztk_Posture: reading the [init] section written for one chain into another of the same make. *)
From Coq Require Import String List ZArith Arith Lia Permutation Field.
From Verif Require Import Num NumFacts Vec VecFacts Motor_Model Joint_Model Joint_Spec Joint_Proofs Body_Model Tree Tree_Proofs Link_Model Link_Spec Link_Proofs Chain_Proofs Link_Properties Kin_Spec Kin_Proofs Jacobi_Proofs Ztk_Model Ztk_Spec Ztk_Proofs Ztk_Chain.
Import ListNotations.

Section ZP.
Context {F : Type} {N : Num F} {L : NumLaws F N} {E : Ext F} {X : ExtLaws F N E} {Z : ZtkLib}.
Add Field FFieldZP : num_field.

Lemma lim_eq_rot (a b : ax1 F) d : a_min a = a_min b -> a_max a = a_max b -> lim_rot b d = lim_rot a d.
Proof. intros H1 H2. unfold lim_rot. now rewrite H1, H2. Qed.
Lemma lim_eq_lin (a b : ax1 F) d : a_min a = a_min b -> a_max a = a_max b -> lim_lin b d = lim_lin a d.
Proof. intros H1 H2. unfold lim_lin. now rewrite H1, H2. Qed.
Lemma joint_pose (jc jd : joint F) : at_own_dis jc -> jtype_of jd = jtype_of jc -> same_limits jc jd ->
  exists jd', joint_key None jd (KDis (joint_dis_print jc)) = Some (jd', true) /\ joint_get_dis jd' = joint_get_dis jc /\ jtype_of jd' = jtype_of jd /\ cache_ok jd'.
Proof.
  intros O T [SL SU]. destruct jc as [|r|p|c|h|s|f|f ef et], jd as [|r'|p'|c'|h'|s'|f'|f' ef' et']; try discriminate T; clear T.
  - exists JFixed. repeat split.
  - destruct (own_revol r O) as (A & _). cbn in SL, SU. injection SL as SL. injection SU as SU.
    exists (JRevol (revol_setdis r' (a_dis (rv_a r)))). cbn -[to_rad to_deg revol_setdis]. rewrite deg_rad. unfold revol_setdis. cbn.
    rewrite (lim_eq_rot (rv_a r)), A by assumption. auto.
  - pose proof (own_prism p O) as A. cbn in SL, SU. injection SL as SL. injection SU as SU.
    exists (JPrism (prism_setdis p' (a_dis (pr_a p)))). cbn -[to_rad to_deg prism_setdis]. unfold prism_setdis. cbn.
    rewrite (lim_eq_lin (pr_a p)), A by assumption. auto.
  - destruct (own_cylin c O) as (A & B & _). cbn in SL, SU. injection SL as SL SL'. injection SU as SU SU'.
    exists (JCylin (cylin_setdis c' (a_dis (cy_0 c)) (a_dis (cy_1 c)))). cbn -[to_rad to_deg cylin_setdis]. rewrite deg_rad. unfold cylin_setdis. cbn.
    rewrite (lim_eq_lin (cy_0 c)), (lim_eq_rot (cy_1 c)), A, B by assumption. auto.
  - destruct (own_hooke h O) as ((A & _) & (B & _)). cbn in SL, SU. injection SL as SL SL'. injection SU as SU SU'.
    exists (JHooke (hooke_setdis h' (a_dis (hk_0 h)) (a_dis (hk_1 h)))). cbn -[to_rad to_deg hooke_setdis]. rewrite !deg_rad. unfold hooke_setdis. cbn.
    rewrite (lim_eq_rot (hk_0 h) (hk_0 h')), (lim_eq_rot (hk_1 h) (hk_1 h')), A, B by assumption. auto 6.
  - destruct s as [[x y z] v ac tr at_ m]. eexists. split; [reflexivity|]. cbn. auto.
  - destruct f as [[[x y z] [x' y' z']] v ac tr at_]. eexists. split; [reflexivity|]. cbn. auto.
  - destruct f as [[[x y z] [x' y' z']] v ac tr at_]. eexists. split; [reflexivity|]. cbn. auto.
Qed.

(** One link of the receiving chain after the joint keys. *)
Definition took (lc ld l : link F) : Prop :=
  exists j, l = l_set_joint j ld /\ jtype_of j = jtype_of (l_joint ld) /\
    joint_get_dis j = (if joint_is_neutral (l_joint lc) then joint_get_dis (l_joint ld) else joint_get_dis (l_joint lc)) /\
    (cache_ok (l_joint ld) -> cache_ok j).
Lemma joints_take ls2 g2 : Forall2 same_make ls2 g2 -> (forall l, In l ls2 -> at_own_dis (l_joint l)) ->
  forall g1, NoDup (map l_name (g1 ++ g2)) ->
  exists g2', eval_keys init_key (g1 ++ g2) (flat_map init_joint_print ls2) = Some (g1 ++ g2', true) /\ length g2' = length g2 /\
    (forall i lc ld, nth_error ls2 i = Some lc -> nth_error g2 i = Some ld -> exists l, nth_error g2' i = Some l /\ took lc ld l).
Proof.
  induction 1 as [|l ld ls2 g2 H _ IH]; intros O g1 ND; [exists []; split; [reflexivity|]; split; [reflexivity|]; intros [|i] ? ? HH; discriminate|].
  destruct H as (HN & HT & HL).
  assert (G : exists l', eval_keys init_key (g1 ++ ld :: g2) (init_joint_print l) = Some (g1 ++ l' :: g2, true) /\ took l ld l').
  { assert (SELF : ld = l_set_joint (l_joint ld) ld) by (destruct ld; reflexivity).
    unfold init_joint_print. destruct (Nat.eqb (joint_size (l_joint l)) 0) eqn:SZ; cbn [orb].
    - exists ld. split; [reflexivity|]. exists (l_joint ld). split; [exact SELF|]. split; [reflexivity|]. split; [|auto].
      destruct (l_joint l); try discriminate. destruct (l_joint ld); try discriminate. destruct (joint_is_neutral _); reflexivity.
    - destruct (joint_is_neutral (l_joint l)) eqn:NE.
      + exists ld. split; [reflexivity|]. exists (l_joint ld). rewrite NE. auto.
      + destruct (joint_pose (l_joint l) (l_joint ld) (O l (or_introl eq_refl)) HT HL) as (j & JK & JD & JT & JC).
        exists (l_set_joint j ld). split; [|exists j; rewrite NE; auto].
        cbn [eval_keys init_key]. rewrite (find_name_nth _ (length g1)); [|exact ND|].
        2:{ rewrite map_app, nth_error_app2; rewrite map_length; [|lia]. rewrite Nat.sub_diag. cbn [map nth_error]. now rewrite HN. }
        rewrite nth_error_app2, Nat.sub_diag by lia. cbn [nth_error obind].
        assert (NF : l_joint ld <> JFixed). { intros Q. rewrite Q in HT. destruct (l_joint l); discriminate. }
        destruct (l_joint ld) as [|r|p|c|k|s|f|f ef et] eqn:EJ; [congruence|..]; rewrite JK; cbn [option_map obind]; unfold lset; rewrite set_nth_mid; reflexivity. }
  destruct G as (l' & G & TK). cbn [flat_map]. rewrite (eval_app _ _ _ _ _ G).
  destruct (IH (fun l H => O l (or_intror H)) (g1 ++ [l'])) as (g2' & A & B & C).
  { rewrite <- app_assoc. rewrite map_app in ND |- *. cbn [app map] in *. destruct TK as (j & -> & _). exact ND. }
  rewrite <- !app_assoc in A. exists (l' :: g2'). split; [exact A|]. split; [cbn [length]; now rewrite B|].
  intros [|i] lc ld' H1 H2; cbn [nth_error] in *; [|eauto]. injection H1 as ->. injection H2 as ->. eauto.
Qed.

Lemma posture (g : F) (c d : chain F) : well_formed (c_links d) -> joints_made (c_links d) -> NoDup (map l_name (c_links c)) ->
  (forall l, In l (c_links c) -> at_own_dis (l_joint l)) -> Forall2 same_make (c_links c) (c_links d) ->
  exists ks d', posture_print c = Some ks /\ posture_read g ks d = Some d' /\ well_formed (c_links d') /\ length (c_links d') = length (c_links d) /\
    (forall i lc ld, nth_error (c_links c) i = Some lc -> nth_error (c_links d) i = Some ld -> exists l', nth_error (c_links d') i = Some l' /\
       l_name l' = l_name ld /\ l_parent l' = l_parent ld /\ jtype_of (l_joint l') = jtype_of (l_joint ld) /\ b_mp (l_body l') = b_mp (l_body ld) /\
       l_org l' = (if Nat.eqb i 0 then l_org lc else l_org ld) /\
       joint_get_dis (l_joint l') = (if joint_is_neutral (l_joint lc) then joint_get_dis (l_joint ld) else joint_get_dis (l_joint lc)) /\
       forall t, lineage (c_links d) i t -> doc_pose (c_links d') t = Some (l_frame l')).
Proof.
  intros W MD ND O FM. unfold posture_print, posture_read, init_print.
  destruct (c_links c) as [|rc hc] eqn:EC; [inversion FM as [EQ|]; destruct (well_formed_refs_ok _ W) as [_ NE]; congruence|].
  destruct (c_links d) as [|rd hd] eqn:ED; [inversion FM|]. cbn [nth_error option_map]. eexists. 
  set (rd' := Link (l_name rd) (l_joint rd) (l_body rd) (l_offset rd) (l_org rc) (l_adj rd) (l_wrench rd) (l_parent rd) (l_child rd) (l_sibl rd)).
  assert (FM' : Forall2 same_make (rc :: hc) (rd' :: hd)). { inversion FM as [|? ? ? ? HR FT]; subst. constructor; [exact HR|exact FT]. }
  destruct (joints_take _ _ FM' O []) as (h' & EV & LE & TK).
  { cbn [app map]. replace (l_name rd' :: map l_name hd) with (map l_name (rc :: hc)); [exact ND|].
    clear - FM'. change (l_name rd' :: map l_name hd) with (map l_name (rd' :: hd)). induction FM' as [|x y a b (Q & _) _ IH]; [reflexivity|]. cbn [map]. rewrite IH. now rewrite Q. }
  cbn [app] in EV.
  assert (EV' : eval_keys init_key (rd :: hd) ([KPos (fpos (l_org rc)); KAtt (fatt (l_org rc))] ++ flat_map init_joint_print (rc :: hc)) = Some (h', true)).
  { assert (G : eval_keys init_key (rd :: hd) [KPos (fpos (l_org rc)); KAtt (fatt (l_org rc))] = Some (rd' :: hd, true)) by (unfold rd'; destruct (l_org rc); reflexivity).
    rewrite (eval_app _ _ _ _ _ G). exact EV. }
  assert (AT : forall i lc ld, nth_error (rc :: hc) i = Some lc -> nth_error (rd :: hd) i = Some ld -> exists l' j, nth_error h' i = Some l' /\
     l' = Link (l_name ld) j (l_body ld) (l_offset ld) (if Nat.eqb i 0 then l_org lc else l_org ld) (l_adj ld) (l_wrench ld) (l_parent ld) (l_child ld) (l_sibl ld) /\
     jtype_of j = jtype_of (l_joint ld) /\ joint_get_dis j = (if joint_is_neutral (l_joint lc) then joint_get_dis (l_joint ld) else joint_get_dis (l_joint lc)) /\ cache_ok j).
  { intros i lc ld HC HD. assert (CK : cache_ok (l_joint ld)) by (apply made_cache; eauto).
    destruct i as [|i].
    - cbn [nth_error] in HC, HD. injection HC as <-. injection HD as <-. destruct (TK 0 rc rd' eq_refl eq_refl) as (l' & Hl' & (j & -> & J1 & J2 & J3)).
      eexists. exists j. split; [exact Hl'|]. split; [reflexivity|]. auto.
    - destruct (TK (S i) lc ld HC HD) as (l' & Hl' & (j & -> & J1 & J2 & J3)). eexists. exists j. split; [exact Hl'|]. split; [reflexivity|]. auto. }
  assert (CN : forall i ld, nth_error (rd :: hd) i = Some ld -> exists lc, nth_error (rc :: hc) i = Some lc).
  { intros i ld HD. destruct (nth_error (rc :: hc) i) eqn:Q; [eauto|]. apply nth_error_None in Q. apply forall2_len in FM. apply nth_lt in HD. lia. }
  assert (W' : well_formed (c_links (c_set_links h' d))).
  { destruct W as [k T]. exists k. cbn [c_links c_set_links]. eapply well_formed_refs; [| |exact T]; [exact LE|].
    intros i ld HD. destruct (CN i ld HD) as (lc & HC). destruct (AT i lc ld HC HD) as (l' & j & Hl' & -> & _). eexists. split; [exact Hl'|]. repeat split. }
  destruct (update_keeps g (c_set_links h' d) W') as (c1 & c2 & U1 & U2 & W2 & _ & LN & KP).
  { cbn [c_links c_set_links]. intros i l' Hl'. pose proof (nth_lt _ _ _ Hl') as Hi. rewrite LE in Hi. change (length (rd' :: hd)) with (length (rd :: hd)) in Hi.
    destruct (nth_error (rd :: hd) i) as [ld|] eqn:HD; [|apply nth_error_None in HD; lia]. destruct (CN i ld HD) as (lc & HC).
    destruct (AT i lc ld HC HD) as (l2 & j & Hl2 & EQ & _ & _ & CK). replace l' with l2 by congruence. rewrite EQ. exact CK. }
  exists c2. split; [reflexivity|]. rewrite EV'. cbn [obind]. rewrite U1. cbn [obind]. split; [exact U2|]. split; [exact W2|].
  split; [rewrite LN; cbn [c_links c_set_links]; exact LE|]. cbn [c_links c_set_links] in KP.
  intros i lc ld HC HD. destruct (AT i lc ld HC HD) as (l' & j & Hl' & EL & J1 & J2 & J3). destruct (KP i l' Hl') as (l2 & w & Hl2 & K1 & K2 & K3 & _ & K4 & K5 & _ & _ & K6).
  assert (TD : forall b, jtype_of (joint_calc_trq b w) = jtype_of b /\ joint_get_dis (joint_calc_trq b w) = joint_get_dis b) by (intros b; destruct b; split; reflexivity).
  exists l2. split; [exact Hl2|]. rewrite K1, K2, K3, K4, K5, (proj1 (TD _)), (proj2 (TD _)), EL. cbn [l_name l_parent l_joint l_body l_org].
  do 2 (split; [reflexivity|]). split; [exact J1|]. split; [reflexivity|]. split; [reflexivity|]. split; [exact J2|].
  intros t HT. assert (HT' : lineage h' i t).
  { eapply lineage_ext; [|exact HT]. intros k x Hx. destruct (CN k x Hx) as (xc & HXC). destruct (AT k xc x HXC Hx) as (y & jy & Hy & -> & _). eexists. split; [exact Hy|]. reflexivity. }
  rewrite <- (K6 t HT'). apply doc_pose_ext; [|apply (lineage_lt _ _ _ HT')].
  intros k _ x Hx. destruct (KP k x Hx) as (y & w' & Hy & _ & Y2 & _ & _ & Y4 & _). exists y. split; [exact Hy|]. rewrite Y4, Y2.
  split; [destruct (l_joint x); reflexivity|]. split; [destruct (l_joint x); reflexivity|reflexivity].
Qed.
End ZP.
