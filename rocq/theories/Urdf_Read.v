(** * Urdf_Read: reading the chain file that the converter writes. *)
From Coq Require Import Bool String List ZArith Arith Lia Permutation Field.
From Verif Require Import Num NumFacts Vec VecFacts Motor_Model Joint_Model Joint_Spec Joint_Proofs Body_Model Tree Tree_Proofs Link_Model Link_Spec Link_Proofs Chain_Proofs Link_Properties Kin_Spec Kin_Proofs Jacobi_Proofs Dyn_Proofs IK_Model IK_Usable Conf_Model Ztk_Model Ztk_Spec Ztk_Proofs Ztk_Chain Urdf_Model Urdf_Spec Urdf_Tree Urdf_Doc Urdf_Walk.
Import ListNotations.

Section UR.
Context {F : Type} {N : Num F} {L : NumLaws F N} {E : Ext F} {X : ExtLaws F N E} {Z : ZtkLib} {U : UrdfExt F}.
Add Field FFieldUR : num_field.

(** ** Reading a file whose sections are known *)
Definition fresh (m : link F) : Prop := m = Link (l_name m) (l_joint m) (l_body m) None (l_org m) fid v6zero None None None.
Definition rl_of (m : link F) : rlink F := RL (Some (l_name m)) (Some (l_joint m)) (l_body m) (l_org m).
Definition sec_reads (shapes : list string) (m : link F) (sec : list (key F)) : Prop :=
  forall names, ~ In (l_name m) names -> link_read names shapes None sec = Some (rl_of m, true).
Lemma named_of (l1 : list (link F)) k : named (map rl_of l1 ++ repeat (RL None None body_zeroed (Fr (F:=F) v3zero m3zero)) k) = map l_name l1.
Proof.
  unfold named. rewrite flat_map_app. replace (flat_map _ (repeat _ k)) with (@nil string) by (induction k; [reflexivity|exact IHk]).
  rewrite app_nil_r. induction l1 as [|l l1 IH]; [reflexivity|]. cbn. now rewrite IH.
Qed.
Lemma done_of (hb : list (link F)) : Forall fresh hb -> omap link_done (map rl_of hb) = Some hb.
Proof. induction 1 as [|m hb H _ IH]; [reflexivity|]. cbn [map omap]. rewrite IH. unfold link_done. cbn [rl_of rl_joint rl_name rl_body rl_org option_map zname obind]. now rewrite <- H. Qed.
Lemma file_load (g : F) nm shapes (hs hb : list (link F)) secs : well_formed hs -> length hb = length hs -> NoDup (map l_name hb) -> Forall fresh hb ->
  Forall2 (sec_reads shapes) hb secs ->
  Forall2 (fun l ks => forall (h : list (link F)) i, eval_keys (connect_key i) h ks = eval_keys (connect_key i) h (link_par (map l_name hb) l)) hs secs ->
  (forall m, In m hb -> cache_ok (l_joint m)) ->
  exists rb, robot_read g (Ztk [KName nm] shapes [] secs []) = Some (Some rb) /\ rb_name rb = Some nm /\ rb_shapes rb = shapes /\
    well_formed (c_links (rb_chain rb)) /\ length (c_links (rb_chain rb)) = length hb /\
    forall i m s, nth_error hb i = Some m -> nth_error hs i = Some s -> exists l w, nth_error (c_links (rb_chain rb)) i = Some l /\
      l_name l = l_name m /\ l_org l = l_org m /\ l_joint l = joint_calc_trq (l_joint m) w /\ b_mp (l_body l) = b_mp (l_body m) /\
      b_shapes (l_body l) = b_shapes (l_body m) /\ l_parent l = l_parent s.
Proof.
  intros W LE ND FR SR SC CK0. destruct (well_formed_refs_ok hs W) as [RO NE].
  assert (LR : eval_tag (link_tag shapes None) 0 (repeat (RL None None body_zeroed (Fr v3zero m3zero)) (length secs)) secs = Some (map rl_of hb)).
  { apply (eval_fill _ (link_tag shapes None) (RL None None body_zeroed (Fr v3zero m3zero)) rl_of hb secs SR []).
    intros l1 m l2 sec k EQ HS. cbn [app] in EQ. unfold link_tag.
    change (RL None None body_zeroed (Fr v3zero m3zero) :: repeat (RL None None body_zeroed (Fr v3zero m3zero)) k) with (repeat (RL None None body_zeroed (Fr (F:=F) v3zero m3zero)) (S k)).
    rewrite named_of. rewrite (HS (map l_name l1)).
    - cbn [option_map repeat]. rewrite <- (map_length rl_of l1), set_nth_mid. reflexivity.
    - rewrite EQ, map_app in ND. cbn [map] in ND. apply NoDup_remove_2 in ND. intros Q. apply ND. apply in_or_app. auto. }
  assert (UN : forall i l, nth_error hb i = Some l -> unattached l).
  { intros i l Hl. rewrite Forall_forall in FR. rewrite (FR l (nth_error_In _ _ Hl)). repeat split. }
  pose proof (ops_legal hs W hs [] eq_refl) as LG. cbn [ops_from length] in LG. rewrite <- LE in LG.
  destruct (C23_add_child_forest _ _ UN LG) as (h1 & AC & LE1 & _ & PA & SD).
  assert (W1 : well_formed h1).
  { eapply C23_complete_tree; [exact UN|exact LG| | | |exact AC].
    - rewrite LE. destruct hs; [congruence|cbn [length]; lia].
    - intros I. apply in_map_iff in I as ([q x] & EX & I). cbn [snd] in EX. subst x. apply ops_from_in in I as (i & l & Hl & EI & Hp).
      destruct i as [|i]; [|discriminate]. pose proof (proj2 (wf_root hs 0 l W Hl) eq_refl). congruence.
    - intros c [C0 C1]. rewrite LE in C1. destruct (nth_error hs c) as [l|] eqn:Hl; [|apply nth_error_None in Hl; lia].
      destruct (l_parent l) as [q|] eqn:Hp.
      + apply in_map_iff. exists (q, c). split; [reflexivity|]. apply ops_from_in. exists c, l. auto.
      + apply (wf_root hs c l W Hl) in Hp. lia. }
  set (c0 := chain_calc_mass (Chain h1 0%num v3zero v3zero v3zero)).
  set (c1 := if andb (nleb (c_mass c0) 0%num) (nleb 0%num (c_mass c0)) then Chain (c_links c0) 1%num (c_wcom c0) (c_comvel c0) (c_comacc c0) else c0).
  set (c2 := chain_set_offset c1).
  assert (C2 : c_links c2 = set_offsets 0 h1). { unfold c2, chain_set_offset, c1. destruct (andb _ _); reflexivity. }
  assert (W2 : well_formed (c_links c2)).
  { rewrite C2. destruct W1 as [k T]. exists k. eapply well_formed_refs; [| |exact T]; [apply set_offsets_length|].
    intros i l Hl. destruct (offsets_keep 0 h1 i l Hl) as (o & Ho). exists (l_set_offset o l). split; [exact Ho|]. repeat split. }
  assert (ON : forall i m, nth_error hb i = Some m -> exists l1 l2, nth_error h1 i = Some l1 /\ nth_error (c_links c2) i = Some l2 /\ same_data m l1 /\
     l_name l2 = l_name l1 /\ l_joint l2 = l_joint l1 /\ l_body l2 = l_body l1 /\ l_org l2 = l_org l1 /\ l_parent l2 = l_parent l1).
  { intros i m Hm. destruct (SD i m Hm) as (l1 & Hl1 & S1). destruct (offsets_keep 0 h1 i l1 Hl1) as (o & Ho). exists l1, (l_set_offset o l1). rewrite C2. repeat split; auto; apply S1. }
  assert (LN2 : length (c_links c2) = length hb) by (rewrite C2, set_offsets_length; exact LE1).
  assert (CK : forall i l, nth_error (c_links c2) i = Some l -> cache_ok (l_joint l)).
  { intros i l Hl. pose proof (nth_lt _ _ _ Hl) as Hi. rewrite LN2 in Hi. destruct (nth_error hb i) as [m|] eqn:Hm; [|apply nth_error_None in Hm; lia].
    destruct (ON i m Hm) as (l1 & l2 & _ & H2 & SDm & _ & J & _). assert (l2 = l) by congruence. subst l2. destruct SDm as (_ & SJ & _). rewrite J, <- SJ. apply CK0. eapply nth_error_In; eauto. }
  destruct (update_keeps g c2 W2 CK) as (c3 & c4 & U1 & U2 & W4 & _ & LE4 & KP).
  exists (Robot (Some nm) shapes None c4). split; [|cbn [rb_name rb_shapes rb_chain]; split; [reflexivity|]; split; [reflexivity|]; split; [exact W4|]; split; [congruence|]].
  - unfold robot_read. cbn [z_links z_motors z_shapes z_chain z_init].
    destruct secs as [|s0 secs0]; [apply forall2_len in SC; destruct hs; [congruence|discriminate]|].
    cbn [obind]. rewrite LR. cbn [obind]. rewrite (done_of hb FR). cbn [obind].
    rewrite (connect_load (map l_name hb) hs (s0 :: secs0) ND SC) with (h' := h1); [|  |reflexivity|exact AC].
    2:{ intros l q Hl Hq. rewrite map_length, LE. apply In_nth_error in Hl as (i & Hi). destruct (RO i l Hi) as (P & _). rewrite Hq in P. exact P. }
    cbn [obind eval_keys chain_key]. fold c0. fold c1. fold c2. rewrite U1. cbn [obind]. rewrite U2. reflexivity.
  - intros i m s Hm Hs. destruct (ON i m Hm) as (l1 & l2 & Hl1 & Hl2 & (S1 & S2 & S3 & S4 & S5 & _) & N1 & J1 & B1 & O1 & P1).
    destruct (KP i l2 Hl2) as (l4 & w & Hl4 & K1 & K2 & K3 & _ & K4 & K5 & _ & K7 & _). exists l4, w.
    split; [exact Hl4|]. split; [congruence|]. split; [congruence|]. split; [congruence|]. split; [congruence|]. split; [congruence|].
    rewrite K3, P1. destruct (l_parent s) as [q|] eqn:Hp.
    + apply (PA i l1 Hl1). apply ops_from_in. exists i, s. auto.
    + destruct (l_parent l1) as [q|] eqn:Hp1; [|reflexivity]. apply (PA i l1 Hl1) in Hp1.
      apply ops_from_in in Hp1 as (i' & l' & Hl' & -> & Hp'). cbn [Nat.add] in *. congruence.
Qed.

(** ** One section *)
Definition zjt (t : utype) : jtype := match t with URevolute | UContinuous => TRevol | UPrismatic => TPrism | _ => TFixed end.
Definition lim_keys (x : djoint F) : list (key F) :=
  let f := match zjt (dj_type x) with TRevol => to_deg | TPrism => fun v => v | _ => fun _ => 0%num end in
  match lower_of x with None => [] | Some a => [KMin [Some (f a)]] end ++ match upper_of x with None => [] | Some a => [KMax [Some (f a)]] end.
Definition joint_sec (x : djoint F) (fl : frame F) : list (key F) := KJointType (jtype_str (zjt (dj_type x))) :: lim_keys x ++ frame_keys fl.
Definition mass_sec (m : mp F) : list (key F) :=
  if andb (nleb (mp_mass m) 0%num) (nleb 0%num (mp_mass m)) then []
  else [KMass (mp_mass m)] ++ (if x_v3tiny (mp_com m) then [] else [KCOM (mp_com m)]) ++ [KInertia (mp_inertia m)].
Definition link_sec (n : string) (jo : option (djoint F * frame F)) (m : mp F) (ss : list string) : list (key F) :=
  [KName n] ++ match jo with Some (x, fl) => joint_sec x fl | None => [] end ++ mass_sec m ++ map KShape ss ++
  match jo with Some (x, _) => [KParent (dj_parent x)] | None => [] end.
(** What it reads to. *)
Definition mp_back (m : mp F) : mp F :=
  if andb (nleb (mp_mass m) 0%num) (nleb 0%num (mp_mass m)) then MP 0%num v3zero m3zero
  else MP (mp_mass m) (if x_v3tiny (mp_com m) then v3zero else mp_com m) (mp_inertia m).
Lemma mp_back_exact (m : mp F) : mp_mass m <> 0%num -> (x_v3tiny (mp_com m) = true -> mp_com m = v3zero) -> mp_back m = m.
Proof.
  intros H K. unfold mp_back. destruct (andb _ _) eqn:Q.
  - apply andb_prop in Q as [Q1 Q2]. exfalso. apply H. apply nle_antisym; assumption.
  - destruct m as [a c i]. cbn in *. destruct (x_v3tiny c) eqn:T; [now rewrite K|reflexivity].
Qed.
Definition body_back (m : mp F) (shs : list nat) : body F :=
  Body (mp_back m) fid v6zero v6zero v3zero v3zero v3zero [] shs None.
Definition frame_back (fl : frame F) : frame F := Fr (if x_v3tiny (fpos fl) then v3zero else fpos fl) (if x_m3ident (fatt fl) then m3id else fatt fl).
(** The joint that is read. *)
Definition joint_back (t : utype) (lo up : option F) (j : joint F) : Prop :=
  jtype_of j = zjt t /\ cache_ok j /\ (has_axis t = true -> joint_get_min j = [lo] /\ joint_get_max j = [up] /\ joint_get_gen a_visc sp_aa fl_dis j = [0%num] /\ joint_get_gen a_coul sp_aa fl_dis j = [0%num]).

Lemma assign_some t : exists j : joint F, joint_assign t = Some j /\ jtype_of j = t /\ cache_ok j.
Proof.
  assert (H : exists j : joint F, joint_assign t = Some j) by (destruct t; eexists; reflexivity).
  destruct H as (j & H). exists j. split; [exact H|]. split; [|eapply assign_cache; eauto]. destruct t; cbn in H; injection H as <-; reflexivity.
Qed.
Lemma query_str t : zjt t = TFixed \/ zjt t = TRevol \/ zjt t = TPrism.
Proof. destruct t; auto. Qed.
Lemma query_zjt t : joint_query joint_com_array (jtype_str (zjt t)) = Some (zjt t).
Proof. destruct t; reflexivity. Qed.

Lemma frame_keys_link names shapes (r : rlink F) fl : rl_org r = fid ->
  eval_keys (link_key names shapes) r (frame_keys fl) = Some (RL (rl_name r) (rl_joint r) (rl_body r) (frame_back fl), true).
Proof.
  intros H. unfold frame_keys, frame_back. destruct (x_v3tiny (fpos fl)), (x_m3ident (fatt fl)); cbn [app eval_keys link_key obind rl_name rl_joint rl_body rl_org fpos fatt]; rewrite ?H; try reflexivity.
  change (Fr v3zero m3id) with (fid (F:=F)). rewrite <- H. destruct r; reflexivity.
Qed.
Lemma mass_sec_link names shapes (r : rlink F) m : rl_body r = body_init ->
  eval_keys (link_key names shapes) r (mass_sec m) = Some (RL (rl_name r) (rl_joint r) (body_back m []) (rl_org r), true).
Proof.
  intros H. unfold mass_sec, body_back, mp_back. destruct (andb _ _).
  - cbn [eval_keys]. change (Body (MP 0%num v3zero m3zero) fid v6zero v6zero v3zero v3zero v3zero [] [] None) with (@body_init F N). rewrite <- H. destruct r; reflexivity.
  - destruct (x_v3tiny (mp_com m)); cbn [app eval_keys link_key obind rl_name rl_joint rl_body rl_org]; rewrite H; reflexivity.
Qed.
(** The place of a name in the list of shapes. *)
Definition pos_of (shapes : list string) (s : string) : nat := match find_name shapes s with Some k => k | None => 0 end.
Lemma find_in (shapes : list string) s : In s shapes -> exists k, find_name shapes s = Some k /\ nth_error shapes k = Some s.
Proof.
  induction shapes as [|a t IH]; intros I; [destruct I|]. cbn [find_name]. destruct (String.eqb_spec a s) as [->|NE]; [exists 0; auto|].
  destruct I as [->|I]; [congruence|]. destruct (IH I) as (k & -> & Hk). exists (S k). auto.
Qed.
Lemma pos_names shapes ss : (forall s, In s ss -> In s shapes) -> map (nth_error shapes) (map (pos_of shapes) ss) = map Some ss.
Proof.
  induction ss as [|s ss IH]; intros I; [reflexivity|]. cbn [map]. rewrite IH by (intros; apply I; right; assumption). f_equal.
  destruct (find_in shapes s (I s (or_introl eq_refl))) as (k & FN & HK). unfold pos_of. now rewrite FN.
Qed.
Lemma shapes_link names shapes ss : (forall s, In s ss -> In s shapes) -> forall (r : rlink F) m shs, rl_body r = body_back m shs ->
  eval_keys (link_key names shapes) r (map KShape ss) = Some (RL (rl_name r) (rl_joint r) (body_back m (rev (map (pos_of shapes) ss) ++ shs)) (rl_org r), true).
Proof.
  induction ss as [|s ss IH]; intros I r m shs H.
  - cbn [map eval_keys app rev]. rewrite <- H. destruct r; reflexivity.
  - destruct (find_in shapes s (I s (or_introl eq_refl))) as (k & FN & HK).
    cbn [map eval_keys link_key]. destruct shapes as [|s0 shapes']; [destruct k; discriminate|]. set (shapes := s0 :: shapes') in *.
    rewrite FN. cbn [obind]. rewrite H.
    rewrite (IH (fun x Hx => I x (or_intror Hx)) (RL (rl_name r) (rl_joint r) (b_push_shape k (body_back m shs)) (rl_org r)) m (k :: shs) eq_refl).
    cbn [rl_name rl_joint rl_org map rev]. rewrite <- app_assoc. replace (pos_of shapes s) with k by (unfold pos_of; now rewrite FN). reflexivity.
Qed.

(** Keys that the joint ignores. *)
Lemma quiet_frame (j : joint F) fl : forall k, In k (frame_keys fl) -> joint_key None j k = Some (j, true).
Proof. intros k H. unfold frame_keys in H. destruct (x_v3tiny _), (x_m3ident _); cbn [app In] in H; repeat (destruct H as [<-|H]; [reflexivity|]); destruct H. Qed.
Lemma quiet_mass (j : joint F) m : forall k, In k (mass_sec m) -> joint_key None j k = Some (j, true).
Proof. intros k H. unfold mass_sec in H. destruct (andb _ _); [destruct H|]. destruct (x_v3tiny _); cbn [app In] in H; repeat (destruct H as [<-|H]; [reflexivity|]); destruct H. Qed.
Lemma quiet_shape (j : joint F) ss : forall k, In k (map KShape ss) -> joint_key None j k = Some (j, true).
Proof. intros k H. apply in_map_iff in H as (s & <- & _). reflexivity. Qed.
Lemma lim_link names shapes (r : rlink F) x : eval_keys (link_key names shapes) r (lim_keys x) = Some (r, true).
Proof. unfold lim_keys. destruct (lower_of x), (upper_of x); reflexivity. Qed.
Lemma lim_joint x (j0 : joint F) : joint_assign (zjt (dj_type x)) = Some j0 -> exists j, eval_keys (joint_key None) j0 (lim_keys x) = Some (j, true) /\ joint_back (dj_type x) (lower_of x) (upper_of x) j.
Proof.
  intros H. unfold lim_keys, joint_back. destruct (dj_type x); cbn [zjt] in *; cbn in H; injection H as <-;
    destruct (lower_of x), (upper_of x); cbn -[to_rad to_deg]; rewrite ?deg_rad; eexists; (split; [reflexivity|]); cbn; repeat split; try discriminate; auto.
Qed.

Lemma link_sec_reads n jo m ss shapes : (forall s, In s ss -> In s shapes) ->
  exists j, sec_reads shapes (Link n j (body_back m (rev (map (pos_of shapes) ss))) None (match jo with Some (_, fl) => frame_back fl | None => fid end) fid v6zero None None None) (link_sec n jo m ss) /\
    match jo with Some (x, _) => joint_back (dj_type x) (lower_of x) (upper_of x) j | None => jtype_of j = TFixed /\ cache_ok j end.
Proof.
  intros IS. destruct (assign_some (match jo with Some (x, _) => zjt (dj_type x) | None => TFixed end)) as (j0 & HJ & TJ & CJ).
  assert (JJ : exists j, eval_keys (joint_key None) j0 (link_sec n jo m ss) = Some (j, true) /\
    match jo with Some (x, _) => joint_back (dj_type x) (lower_of x) (upper_of x) j | None => jtype_of j = TFixed /\ cache_ok j end).
  { unfold link_sec. cbn [app]. destruct jo as [[x fl]|].
    - destruct (lim_joint x j0 HJ) as (j & EJ & BJ). exists j. split; [|exact BJ]. unfold joint_sec. cbn [app eval_keys joint_key obind].
      rewrite <- app_assoc. rewrite (eval_app _ _ _ _ _ EJ). apply eval_skip. intros k I.
      apply in_app_or in I as [I|I]; [exact (quiet_frame j fl k I)|]. apply in_app_or in I as [I|I]; [exact (quiet_mass j m k I)|].
      apply in_app_or in I as [I|I]; [exact (quiet_shape j ss k I)|destruct I as [<-|[]]; reflexivity].
    - exists j0. split; [|auto]. cbn [app eval_keys joint_key obind]. apply eval_skip. intros k I.
      apply in_app_or in I as [I|I]; [exact (quiet_mass j0 m k I)|]. apply in_app_or in I as [I|I]; [exact (quiet_shape j0 ss k I)|destruct I]. }
  destruct JJ as (j & EJ & BJ). exists j. split; [|exact BJ]. intros names NI. cbn [l_name] in NI. unfold link_read.
  assert (EL : eval_keys (link_key names shapes) (RL None None body_init fid) (link_sec n jo m ss) =
    Some (RL (Some n) (match jo with Some _ => Some j0 | None => None end) (body_back m (rev (map (pos_of shapes) ss))) (match jo with Some (_, fl) => frame_back fl | None => fid end), true)).
  { unfold link_sec. cbn [app]. cbn [eval_keys link_key]. replace (existsb (String.eqb n) names) with false.
    2:{ symmetry. destruct (existsb (String.eqb n) names) eqn:Q; [|reflexivity]. apply existsb_exists in Q as (y & I & Q). apply String.eqb_eq in Q. subst y. contradiction. }
    cbn [obind rl_joint rl_body rl_org]. destruct jo as [[x fl]|].
    - unfold joint_sec. cbn [app eval_keys link_key]. unfold joint_query_assign. rewrite query_zjt, HJ. cbn [option_map obind rl_name rl_body rl_org].
      rewrite <- app_assoc, (eval_app _ _ _ _ _ (lim_link _ _ _ x)), (eval_app _ _ _ _ _ (frame_keys_link names shapes (RL (Some n) (Some j0) body_init fid) fl eq_refl)). cbn [rl_name rl_joint rl_body].
      rewrite (eval_app _ _ _ _ _ (mass_sec_link names shapes (RL (Some n) (Some j0) body_init (frame_back fl)) m eq_refl)). cbn [rl_name rl_joint rl_org].
      rewrite (eval_app _ _ _ _ _ (shapes_link names shapes ss IS (RL (Some n) (Some j0) (body_back m []) (frame_back fl)) m [] eq_refl)). cbn [rl_name rl_joint rl_org eval_keys link_key obind]. rewrite app_nil_r. reflexivity.
    - cbn [app]. rewrite (eval_app _ _ _ _ _ (mass_sec_link names shapes (RL (Some n) None body_init fid) m eq_refl)). cbn [rl_name rl_joint rl_org].
      rewrite (eval_app _ _ _ _ _ (shapes_link names shapes ss IS (RL (Some n) None (body_back m []) fid) m [] eq_refl)). cbn [rl_name rl_joint rl_org eval_keys]. rewrite app_nil_r. reflexivity. }
  rewrite EL. cbn [obind rl_joint]. replace (match match jo with Some _ => Some j0 | None => None end with Some a => Some a | None => joint_assign TFixed end) with (Some j0).
  2:{ destruct jo as [[x fl]|]; [reflexivity|symmetry; exact HJ]. }
  cbn [obind]. rewrite EJ. reflexivity.
Qed.
Lemma link_sec_connects n jo m ss (h : list (link F)) i :
  eval_keys (connect_key i) h (link_sec n jo m ss) = eval_keys (connect_key i) h (match jo with Some (x, _) => [KParent (dj_parent x)] | None => [] end).
Proof.
  assert (G : forall l tl, (forall k, In k l -> match k with KParent _ => False | _ => True end) -> eval_keys (connect_key i) h (l ++ tl) = eval_keys (connect_key i) h tl).
  { intros l tl. induction l as [|k l IH]; intros H; [reflexivity|]. cbn [app eval_keys].
    assert (K : connect_key i h k = Some (h, true)) by (specialize (H k (or_introl eq_refl)); destruct k; try reflexivity; contradiction).
    rewrite K. cbn [obind]. apply IH. intros; apply H; right; assumption. }
  unfold link_sec. rewrite (G [KName n]) by (intros k [<-|[]]; exact I).
  assert (GM : forall k, In k (mass_sec m) -> match k with KParent _ => False | _ => True end).
  { intros k H. unfold mass_sec in H. destruct (andb _ _); [destruct H|]. destruct (x_v3tiny _); cbn [app In] in H; repeat (destruct H as [<-|H]; [exact I|]); destruct H. }
  assert (GS : forall k, In k (map (@KShape F) ss) -> match k with KParent _ => False | _ => True end) by (intros k H; apply in_map_iff in H as (s & <- & _); exact I).
  destruct jo as [[x fl]|]; [rewrite G|cbn [app]]; [rewrite (G _ _ GM), (G _ _ GS); reflexivity| |rewrite (G _ _ GM), (G _ _ GS); reflexivity].
  unfold joint_sec, lim_keys, frame_keys. intros k [<-|H]; [exact I|]. repeat (apply in_app_or in H as [H|H]).
  - destruct (lower_of x); [destruct H as [<-|[]]; exact I|destruct H].
  - destruct (upper_of x); [destruct H as [<-|[]]; exact I|destruct H].
  - destruct (x_v3tiny _); [destruct H|destruct H as [<-|[]]; exact I].
  - destruct (x_m3ident _); [destruct H|destruct H as [<-|[]]; exact I].
Qed.
End UR.
