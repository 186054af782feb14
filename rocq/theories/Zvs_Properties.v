(** * Zvs_Properties: what the converters of sequences write (C93, C94). *)
From Coq Require Import String ZArith QArith Qcanon Reals List Arith Lia Bool Field.
From Verif Require Import Num NumFacts Vec VecFacts Motor_Model Joint_Model Joint_Spec Joint_Proofs ExtQ ExtR Body_Model Tree Tree_Proofs Link_Model Link_Spec Link_Proofs Chain_Proofs Link_Properties Chain_Properties Kin_Spec Kin_Proofs Kin_Properties Jacobi_Proofs IK_Usable
  Conf_Model Conf_Spec Conf_Proofs Conf_R Conf_Q Conf_Chain Conf_Properties Ztk_Model Ztk_Spec Ztk_Proofs Ztk_Chain Ztk_Properties Cad_Model Seq_Model Seq_Spec Seq_Proofs Seq_Step Seq_Properties IKSolve_Properties Ikapp_Proofs Zvs_Model.
Import ListNotations.

Section Zvs.
Context {F : Type} {N : Num F} {L : NumLaws F N} {E : Ext F} {X : ExtLaws F N E}.
Add Field FFieldZvs : num_field.

(** ** The chain after rkChainFK *)
Definition twin (a b : link F) : Prop :=
  lfix a = lfix b /\ jtype_of (l_joint b) = jtype_of (l_joint a) /\ same_limits (l_joint a) (l_joint b).
Lemma settled_fixed : settled (JFixed : joint F).
Proof. exists JFixed, (OSetDis []), JFixed, []. split; [intros [|i] lo hi; cbn; discriminate|]. split; [exact Logic.I|]. split; [reflexivity|]. split; [intros ? []|reflexivity]. Qed.
Lemma fk_state (c c' : chain F) v : usable c -> all_ordered c -> chain_fk c v = Some c' ->
  IK_Usable.posed c' /\ (forall l, In l (c_links c') -> settled (l_joint l)) /\ Forall2 twin (c_links c) (c_links c').
Proof.
  intros U O H. unfold chain_fk in H. destruct (chain_set_joint_dis_all c v) as [c1|] eqn:A; [|discriminate]. cbn [obind] in H. pose proof (usable_set _ _ _ U A) as U1.
  split; [exists c1; auto|]. destruct (fk_kept c1 c' (proj1 U1) H) as [K _].
  unfold chain_set_joint_dis_all in A. destruct (set_all joint_set_dis (c_links c) v) as [h|] eqn:Q; [|discriminate]. injection A as <-. cbn [c_links c_set_links] in K. apply set_all_rel in Q.
  pose proof (proj1 (proj2 U)) as PO. apply offsets_placed in PO.
  assert (G : Forall2 (fun a b => twin a b /\ settled (l_joint b)) (c_links c) h).
  { assert (O' : forall l, In l (c_links c) -> limits_ordered (l_joint l)) by (intros l Hl; apply In_nth_error in Hl as (i & Hl); exact (O i l Hl)).
    clear - Q PO O' L. revert PO. generalize 0%nat as s. revert O'. induction Q as [|a b t t' R Q IH]; intros O' s PO; constructor.
    - apply placed_cons in PO as [P1 _]. unfold set_rel in R. destruct (l_offset a) as [o|].
      + destruct R as (j & J & ->). cbn [l_joint l_set_joint]. split.
        * split; [reflexivity|]. split; [apply set_dis_base in J; now apply base_type|]. pose proof (set_dis_lims _ _ _ J) as LL. unfold lims in LL. injection LL as L1 L2. split; symmetry; assumption.
        * exists (l_joint a), (OSetDis (skipn o v)), j, []. split; [apply O'; now left|]. split; [exact Logic.I|]. split; [exact J|]. split; [intros ? []|reflexivity].
      + subst b. destruct (Nat.ltb_spec 0 (lsize a)); [discriminate|]. split; [repeat split|]. rewrite (size0 (l_joint a)) by (unfold lsize in *; lia). apply settled_fixed.
    - apply placed_cons in PO as [_ PO]. eapply IH; [|exact PO]. intros l Hl. apply O'. now right. }
  assert (G2 : Forall2 (fun a b => twin a b /\ settled (l_joint b)) (c_links c) (c_links c')).
  { clear - G K. revert K. generalize (c_links c'). induction G as [|a b t t' [(T1 & T2 & T3) S] G IH]; intros h' K; inversion K as [|? y ? ? [K1 K2] K']; subst; constructor; [|auto].
    rewrite <- K2. split; [|exact S]. split; [congruence|]. rewrite <- K2. split; [exact T2|exact T3]. }
  split; [|eapply F2_mono; [|exact G2]; intros a b [A _]; exact A].
  intros l Hl. clear - G2 Hl. induction G2 as [|a b t t' [_ S] G IH]; [destruct Hl|]. destruct Hl as [<-|Hl]; auto.
Qed.
Lemma frame_again' (c : chain F) : IK_Usable.posed c -> exists c2, chain_update_frame c = Some c2 /\ c_links c2 = c_links c.
Proof. intros P. pose proof (fk_again c P) as H. unfold chain_update_fk in H. destruct (chain_update_frame c) as [c2|]; [|discriminate]. injection H as H. exists c2. split; [reflexivity|]. rewrite <- H. reflexivity. Qed.
Lemma conf_links {K : ConfExt F} (a b : chain F) : Forall2 (fun l l' : link F => l_frame l = l_frame l') (c_links a) (c_links b) -> chain_get_conf a = chain_get_conf b.
Proof. unfold chain_get_conf. induction 1 as [|x y t t' Q _ IH]; [reflexivity|]. cbn [flat_map]. now rewrite Q, IH. Qed.

Lemma nth_error_ext_map {A B} (f : A -> B) : forall h k : list A, length k = length h -> (forall i x, nth_error h i = Some x -> exists y, nth_error k i = Some y /\ f y = f x) -> map f k = map f h.
Proof.
  induction h as [|x h IH]; intros [|y k] Q H; try discriminate Q; [reflexivity|]. cbn. f_equal; [destruct (H 0%nat x eq_refl) as (y' & Y1 & Y2); injection Y1 as <-; exact Y2|].
  apply IH; [now injection Q|]. intros i z Hz. exact (H (S i) z Hz).
Qed.

Lemma F2_comb {A B D} (P : A -> B -> Prop) (Q : A -> D -> Prop) (R : B -> D -> Prop) h k m :
  (forall x y z, P x y -> Q x z -> R y z) -> Forall2 P h k -> Forall2 Q h m -> Forall2 R k m.
Proof. intros S H. revert m. induction H as [|x y t t' H1 H IH]; intros m G; inversion G; subst; constructor; eauto. Qed.
Lemma twin_mechanism (h h' k : list (link F)) : Forall2 twin h h' -> same_mechanism h k -> same_mechanism h' k.
Proof.
  apply F2_comb. intros x y z (A & B & C1 & C2) (D1 & D2 & D3 & D4 & D5 & D6 & D7). unfold lfix in A. injection A as A1 A2 A3 A4 A5 A6 A7 A8.
  unfold same_limits. repeat split; congruence.
Qed.

(** ** C93: configurations *)
Context {K : ConfExt F}.
Lemma conf_rows (c0 : chain F) (U : usable c0) (s : list (step F)) : forall c, near c0 c -> (forall e, In e s -> length (st_v e) = chain_joint_size c0) ->
  exists rows, conf_loop c s = Some rows /\ length rows = length s /\
    forall k e, nth_error s k = Some e -> exists d, chain_fk c0 (st_v e) = Some d /\ nth_error rows k = Some (st_dt e, chain_get_conf d).
Proof.
  induction s as [|e s IH]; intros c NC LV; [exists []; split; [reflexivity|split; [reflexivity|intros [|k] e H; discriminate]]|].
  destruct (fk_step c0 U c (st_v e) NC (LV e (or_introl eq_refl))) as (c' & d & Q1 & Q2 & R2 & _ & NC' & ND).
  destruct (IH c' NC') as (rows & QL & LL & QR); [intros e1 I; apply LV; now right|].
  cbn [conf_loop]. rewrite Q1. cbn [obind]. rewrite QL. cbn [option_map]. eexists. split; [reflexivity|]. split; [cbn; congruence|]. intros [|k] e1 H1; cbn [nth_error] in *; [|auto].
  injection H1 as <-. exists d. split; [exact Q2|]. do 2 f_equal. apply conf_links. eapply F2_mono; [|exact (proj1 R2)]. intros a b [_ P]. unfold Seq_Proofs.posed in P. now injection P.
Qed.
(** On standard output there is a line for every step: its time step and the configuration the chain as read gets from
    rkChainFK with the vector of that step alone. *)
Theorem C93_lines : forall (c : chain F) (s : list (step F)), usable c -> (forall e, In e s -> length (st_v e) = chain_joint_size c) ->
  exists rows, zvs2zkcs c NoFile s = Some (rows, [], 0%nat) /\ length rows = length s /\
    forall k e, nth_error s k = Some e -> exists c', chain_fk c (st_v e) = Some c' /\ nth_error rows k = Some (st_dt e, chain_get_conf c').
Proof. intros c s U LV. destruct (conf_rows c U s c (near_c0 c U) LV) as (rows & A & B & D). exists rows. unfold zvs2zkcs. rewrite A. auto. Qed.
(** A line read back (rkChainSetConf) on a chain of the same mechanism gives the frames of the step, which the next forward
    kinematics confirms, and the displacements of the step. *)
Theorem C93_restore {KL : ConfLaws F N E K} : forall (c d c' : chain F) (s : list (step F)) rows k e line, usable c -> all_ordered c -> (forall e, In e s -> length (st_v e) = chain_joint_size c) ->
  zvs2zkcs c NoFile s = Some (rows, [], 0%nat) -> nth_error s k = Some e -> nth_error rows k = Some line -> chain_fk c (st_v e) = Some c' ->
  conf_ready c' -> same_mechanism (c_links c) (c_links d) ->
  exists d1 d2, chain_set_conf d (snd line) = Some d1 /\ chain_update_frame d1 = Some d2 /\
    map l_frame (c_links d1) = map l_frame (c_links c') /\ map l_frame (c_links d2) = map l_frame (c_links c') /\
    Forall2 (fun l l1 : link F => reads_back (jtype_of (l_joint l)) (joint_get_dis (l_joint l)) -> joint_get_dis (l_joint l1) = joint_get_dis (l_joint l)) (c_links c') (c_links d1).
Proof.
  intros c d c' s rows k e line U O LV Z Hk Hl Fk CR SM. destruct (C93_lines c s U LV) as (rows' & A & _ & D). rewrite Z in A. injection A as <-. destruct (D k e Hk) as (c1 & D1 & D2).
  assert (c1 = c') by congruence. subst c1. rewrite Hl in D2. injection D2 as ->. cbn [snd]. destruct (fk_state c c' _ U O Fk) as (P & _ & T). destruct (frame_again' c' P) as (c2 & F1 & F2).
  destruct (IK_Usable.posed_usable c' P) as (W & _ & _ & OR).
  destruct (C78_configuration c' c2 d W OR F1) as (d1 & d2 & R1 & R2 & R3 & R4 & R5); [unfold conf_ready; rewrite F2; exact CR|exact (twin_mechanism _ _ _ T SM)|].
  assert (chain_get_conf c2 = chain_get_conf c') as Q by (unfold chain_get_conf; now rewrite F2). rewrite Q in R1. rewrite F2 in R4, R5. exists d1, d2. auto.
Qed.

(** ** C94: initial postures *)
Context {Z : ZtkLib}.
(** A chain that can take the posture over: a copy, wherever its root is placed. *)
Definition copy (a b : link F) : Prop := same_make a b /\ l_parent b = l_parent a /\ (l_parent a <> None -> l_org b = l_org a).
(** The section printed for a step, read on a copy of the chain, gives every link the frame it has after rkChainFK with the
    vector of the step, as long as the joints that are neutral in the step are so placed in the copy. *)
Theorem C94_restore (g : F) : forall (c c1 d c' : chain F) p ini (s : list (step F)) e, started g c ini = Some c1 -> usable c1 -> all_ordered c1 -> NoDup (map l_name (c_links c1)) ->
  picked p s = Some e -> chain_fk c1 (st_v e) = Some c' ->
  well_formed (c_links d) -> joints_made (c_links d) -> Forall2 copy (c_links c1) (c_links d) ->
  Forall2 (fun a b : link F => joint_is_neutral (l_joint a) = true -> joint_get_dis (l_joint b) = joint_get_dis (l_joint a)) (c_links c') (c_links d) ->
  exists ks d', zvs2zkci g c p ini s = Some ks /\ posture_read g ks d = Some d' /\ map l_frame (c_links d') = map l_frame (c_links c').
Proof.
  intros c c1 d c' p ini s e ST U O ND PK FK WD MD CP NE. destruct (fk_state c1 c' _ U O FK) as (P & SE & T).
  assert (NM : map l_name (c_links c') = map l_name (c_links c1)).
  { clear - T. induction T as [|a b t t' (A & _) _ IH]; cbn; [reflexivity|]. f_equal; [|exact IH]. unfold lfix in A. now injection A. }
  assert (ND' : NoDup (map l_name (c_links c'))) by now rewrite NM.
  assert (OW : forall l, In l (c_links c') -> at_own_dis (l_joint l)) by (intros l Hl; apply C73_settled; auto).
  assert (G : Forall2 copy (c_links c') (c_links d)).
  { apply (F2_comb twin copy copy (c_links c1)); [|exact T|exact CP]. clear. intros x y z (A & B & C1 & C2) ((D1 & D2 & D3 & D4) & D5 & D6). unfold lfix in A. injection A as A1 A2 A3 A4 A5 A6 A7 A8.
    unfold copy, same_make, same_limits. rewrite <- A1, <- A5, <- A6. split; [|split; [exact D5|exact D6]]. split; [exact D1|]. split; [congruence|]. split; congruence. }
  assert (GF : Forall2 (fun a b : link F => same_make a b /\ (l_parent a <> None -> l_org b = l_org a) /\ l_parent b = l_parent a /\
    (joint_is_neutral (l_joint a) = true -> joint_get_dis (l_joint b) = joint_get_dis (l_joint a))) (c_links c') (c_links d)).
  { clear - G NE. induction G as [|a b t t' (A & B & D) _ IH]; inversion NE; subst; constructor; auto. }
  assert (GS : Forall2 same_make (c_links c') (c_links d)) by (eapply F2_mono; [|exact G]; intros a b (A & _); exact A).
  destruct (C74_restore_partial g c' d WD MD ND' OW GF) as (ks & d' & PR & RD & FR). destruct (C74_posture_partial g c' d WD MD ND' OW GS) as (ks2 & d2 & PR2 & RD2 & _ & LD & _).
  assert (ks2 = ks) by congruence. subst ks2. assert (d2 = d') by congruence. subst d2. exists ks, d'. split; [|split; [exact RD|]].
  { unfold zvs2zkci. rewrite PK. cbn [obind]. rewrite ST. cbn [obind]. rewrite FK. exact PR. }
  destruct (frame_again' c' P) as (c2 & F1 & F2). destruct (IK_Usable.posed_usable c' P) as (W & _ & JM & _).
  assert (LE : length (c_links d') = length (c_links c')) by (rewrite LD; eapply forall2_len; exact GS).
  apply nth_error_ext_map; [exact LE|]. intros i lc Hc. rewrite <- F2 in Hc. destruct (C30_frame_is_product c' c2 i lc W JM F1 Hc) as (t & LT & DP).
  destruct (FR i t LT) as (l' & Hl & DP'). exists l'. split; [exact Hl|]. congruence.
Qed.
End Zvs.

(** Over R, what has to hold of the posture is that universal joints are bent by less than a right angle; the displacements come back
    where the angle-axis vectors among them are shorter than a half turn. *)
Theorem C93_restore_R : forall (c d c' : chain R) (s : list (step R)) rows k e line, usable c -> all_ordered c -> (forall e, In e s -> length (st_v e) = chain_joint_size c) ->
  zvs2zkcs c NoFile s = Some (rows, [], 0%nat) -> nth_error s k = Some e -> nth_error rows k = Some line -> chain_fk c (st_v e) = Some c' ->
  (forall l, In l (c_links c') -> upright (l_joint l)) -> same_mechanism (c_links c) (c_links d) ->
  exists d1 d2, chain_set_conf d (snd line) = Some d1 /\ chain_update_frame d1 = Some d2 /\
    map l_frame (c_links d1) = map l_frame (c_links c') /\ map l_frame (c_links d2) = map l_frame (c_links c') /\
    Forall2 (fun l l1 : link R => short_aa (jtype_of (l_joint l)) (joint_get_dis (l_joint l)) -> joint_get_dis (l_joint l1) = joint_get_dis (l_joint l)) (c_links c') (c_links d1).
Proof.
  intros c d c' s rows k e line U O LV Z Hk Hl Fk UP SM. destruct (fk_state c c' _ U O Fk) as (P & SE & _). destruct (frame_again' c' P) as (c2 & F1 & F2). destruct (IK_Usable.posed_usable c' P) as (W & _ & _ & OR).
  assert (CR : conf_ready c') by (assert (Q : conf_ready c2) by (apply (ready_R c' c2 W OR F1); intros i l H; apply nth_error_In in H; split; auto); unfold conf_ready in *; now rewrite F2 in Q).
  destruct (C93_restore c d c' s rows k e line U O LV Z Hk Hl Fk CR SM) as (d1 & d2 & A & B & D & G & H). exists d1, d2. repeat (split; [assumption|]).
  clear - H. induction H as [|? ? ? ? H1 _ IH]; constructor; auto. intros Q. apply H1. now apply short_reads_back.
Qed.

(** ** Examples and witnesses *)
Lemma twin_same (h h' : list (link Qc)) : Forall2 twin h h' -> same_mechanism h h'.
Proof.
  apply F2_mono. intros x y (A & B & C1 & C2). unfold lfix in A. injection A as A1 A2 A3 A4 A5 A6 A7 A8.
  unfold same_limits. repeat split; congruence.
Qed.
Lemma twin_copy (h h' : list (link Qc)) : Forall2 twin h h' -> Forall2 copy h h'.
Proof.
  apply F2_mono. intros x y (A & B & C1 & C2). unfold lfix in A. injection A as A1 A2 A3 A4 A5 A6 A7 A8.
  unfold copy, same_make, same_limits. repeat split; congruence.
Qed.
Definition at_ (v : list Qc) : chain Qc := match chain_fk lmech v with Some c => c | None => lmech end.
Lemma some_match {A} (o : option A) d : match o with Some _ => true | None => false end = true -> o = Some (match o with Some x => x | None => d end).
Proof. destruct o; [reflexivity|discriminate]. Qed.
Lemma at_is v : match chain_fk lmech v with Some _ => true | None => false end = true -> chain_fk lmech v = Some (at_ v).
Proof. apply some_match. Qed.
Lemma at_state v : match chain_fk lmech v with Some _ => true | None => false end = true -> IK_Usable.posed (at_ v) /\ (forall l, In l (c_links (at_ v)) -> settled (l_joint l)) /\ Forall2 twin (c_links lmech) (c_links (at_ v)).
Proof. intros H. apply (fk_state lmech (at_ v) v lmech_usable lmech_ordered), at_is, H. Qed.
Definition v1 := [qq 1 2; qq 1 4]. Definition v2 := [qz 0; qq 1 8].
Definition two : list (step Qc) := [ST v1 (qz 1); ST v2 (qz 2)].
Lemma two_size e : In e two -> List.length (st_v e) = chain_joint_size lmech.
Proof. intros [<-|[<-|[]]]; reflexivity. Qed.
Lemma joints_prism v : forallb (fun l => match jtype_of (l_joint l) with TPrism => true | _ => false end) (c_links (at_ v)) = true -> forall l, In l (c_links (at_ v)) -> upright (l_joint l).
Proof. intros H l I Q. rewrite forallb_forall in H. specialize (H l I). rewrite Q in H. discriminate H. Qed.
Lemma at_ready v : match chain_fk lmech v with Some _ => true | None => false end = true ->
  forallb (fun l => match jtype_of (l_joint l) with TPrism => true | _ => false end) (c_links (at_ v)) = true ->
  forallb frame_ok (map (fun l => Some (l_frame l)) (c_links (at_ v))) = true ->
  forallb frame_ok (map (fun l => doc_frame (jtype_of (l_joint l)) (joint_get_dis (l_joint l))) (c_links (at_ v))) = true -> conf_ready (at_ v).
Proof.
  intros S P A B. apply ready_of; [|exact A|exact B]. intros i l H. apply nth_error_In in H. split; [apply (at_state v S); exact H|apply (joints_prism v P); exact H].
Qed.
(** Two steps of a chain with limits: two lines; the second, read by the chain left in another posture, gives the frames of
    the second step. *)
Example C93_ex : exists rows line d1 d2, zvs2zkcs lmech NoFile two = Some (rows, [], 0%nat) /\ nth_error rows 1 = Some line /\ fst line = qz 2 /\
  chain_set_conf (at_ v1) (snd line) = Some d1 /\ chain_update_frame d1 = Some d2 /\ map l_frame (c_links d2) = map l_frame (c_links (at_ v2)).
Proof.
  destruct (C93_lines lmech two lmech_usable two_size) as (rows & A & _ & D). destruct (D 1%nat (ST v2 (qz 2)) eq_refl) as (c' & D1 & D2). cbn [st_v st_dt] in *.
  assert (Q : c' = at_ v2) by (rewrite (at_is v2) in D1 by (vm_compute; reflexivity); injection D1; auto). rewrite Q in *.
  assert (SM : same_mechanism (c_links lmech) (c_links (at_ v1))) by (apply twin_same, at_state; vm_compute; reflexivity).
  assert (CR : conf_ready (at_ v2)) by (apply at_ready; vm_compute; reflexivity).
  destruct (C93_restore lmech (at_ v1) (at_ v2) two rows 1 _ _ lmech_usable lmech_ordered two_size A eq_refl D2 D1 CR SM) as (d1 & d2 & R1 & R2 & _ & R4 & _).
  exists rows, (qz 2, chain_get_conf (at_ v2)), d1, d2. repeat (split; [assumption || reflexivity|]). exact R4.
Qed.
(** A floating base, an arm and a hand on a universal joint: the first line read back by the chain at rest. *)
Definition moving_arm : list (step Qc) := [ST [qz 1; qz 2; qz 3; qz 0; qq 1 2; qz 0; qq 1 2; qq 1 3; qq 1 4] (qz 1); ST (repeat (qz 0) 9) (qz 1)].
Example C93_ex_arm : exists r d1, zvs2zkcs (chain_set_offset (cchain (cj false))) NoFile moving_arm = Some r /\ chain_set_conf (cchain (cj false)) (snd (nth 0 (fst (fst r)) (qz 0, []))) = Some d1 /\
  chain_dis d1 = [[qz 1; qz 2; qz 3; qz 0; qq 1 2; qz 0]; [qq 1 2]; [qq 1 3; qq 1 4]].
Proof.
  destruct (zvs2zkcs (chain_set_offset (cchain (cj false))) NoFile moving_arm) as [r|] eqn:A; [|vm_compute in A; discriminate A].
  assert (B : match zvs2zkcs (chain_set_offset (cchain (cj false))) NoFile moving_arm with Some r => match chain_set_conf (cchain (cj false)) (snd (nth 0 (fst (fst r)) (qz 0, []))) with Some d => qlbs (chain_dis d) [[qz 1; qz 2; qz 3; qz 0; qq 1 2; qz 0]; [qq 1 2]; [qq 1 3; qq 1 4]] | None => false end | None => false end = true) by (vm_compute; reflexivity).
  rewrite A in B. clear A. destruct (chain_set_conf (cchain (cj false)) (snd (nth 0 (fst (fst r)) (qz 0, [])))) as [d|] eqn:Q; [|discriminate B]. exists r, d. split; [reflexivity|]. split; [exact Q|exact (qlbs_eq _ _ B)].
Qed.
(** The lines go to the file that is given as the third argument. *)
Lemma file_empty (c : chain Qc) (s : list (step Qc)) : usable c -> (forall e, In e s -> List.length (st_v e) = chain_joint_size c) -> zvs2zkcs c (InFile true) s = Some ([], [], 0%nat).
Proof.
  intros U H. destruct (C93_lines c s U H) as (rows & A & _). unfold zvs2zkcs in *. destruct (conf_loop c s); [reflexivity|discriminate A].
Qed.
Definition file_written : Prop := forall (c : chain Qc) there (s : list (step Qc)) out file st, usable c -> (forall e, In e s -> List.length (st_v e) = chain_joint_size c) ->
  zvs2zkcs c (InFile there) s = Some (out, file, st) -> List.length file = List.length s.
Lemma not_written (c : chain Qc) (s : list (step Qc)) : usable c -> (forall e, In e s -> List.length (st_v e) = chain_joint_size c) -> List.length s = 2%nat -> ~ file_written.
Proof. intros U V Q H. specialize (H c true s [] [] 0%nat U V (file_empty c s U V)). rewrite Q in H. discriminate H. Qed.
Theorem C93_file_refuted : ~ file_written.
Proof. exact (not_written lmech two lmech_usable two_size eq_refl). Qed.

(** C94: the last step, read by a chain left at (0, 1/4): the first joint is neutral in the step and in the chain. *)
Definition v0 := [qz 0; qq 1 4].
Lemma at_fit v d : match chain_fk lmech v with Some _ => true | None => false end = true -> match chain_fk lmech d with Some _ => true | None => false end = true ->
  well_formed (c_links (at_ d)) /\ joints_made (c_links (at_ d)) /\ Forall2 copy (c_links lmech) (c_links (at_ d)).
Proof.
  intros _ H. destruct (at_state d H) as (P & _ & T). destruct (IK_Usable.posed_usable _ P) as (W & _ & JM & _). split; [exact W|]. split; [exact JM|]. apply twin_copy, T.
Qed.
Lemma neutral_match (a b : list (link Qc)) : map (fun l => qlbs [if joint_is_neutral (l_joint (fst l)) then joint_get_dis (l_joint (snd l)) else joint_get_dis (l_joint (fst l))] [joint_get_dis (l_joint (fst l))]) (combine a b) = repeat true (List.length a) ->
  List.length a = List.length b -> Forall2 (fun a b : link Qc => joint_is_neutral (l_joint a) = true -> joint_get_dis (l_joint b) = joint_get_dis (l_joint a)) a b.
Proof.
  revert b. induction a as [|x a IH]; intros [|y b] H Q; try discriminate Q; constructor.
  - intros Z. cbn [combine map repeat List.length fst snd] in H. rewrite Z in H. apply (f_equal (hd false)) in H. cbn [hd] in H. apply qlbs_eq in H. now injection H.
  - apply IH; [apply (f_equal (@tl bool)) in H; exact H|now injection Q].
Qed.
Example C94_ex (Z : ZtkLib) : exists ks d', zvs2zkci (qz 10) lmech PLast None two = Some ks /\ posture_read (qz 10) ks (at_ v0) = Some d' /\
  map l_frame (c_links d') = map l_frame (c_links (at_ v2)).
Proof.
  destruct (at_fit v2 v0) as (W & JM & CP); [vm_compute; reflexivity|vm_compute; reflexivity|].
  apply (C94_restore (qz 10) lmech lmech (at_ v0) (at_ v2) PLast None two (ST v2 (qz 2))); [reflexivity|exact lmech_usable|exact lmech_ordered| |reflexivity| |exact W|exact JM|exact CP|].
  - cbn. repeat constructor; cbn; intuition discriminate.
  - apply at_is. vm_compute. reflexivity.
  - apply neutral_match; vm_compute; reflexivity.
Qed.
Definition poses_copied (Z : ZtkLib) : Prop := forall (c d c' d' : chain Qc) p (s : list (step Qc)) e ks, usable c -> all_ordered c -> NoDup (map l_name (c_links c)) ->
  picked p s = Some e -> chain_fk c (st_v e) = Some c' -> well_formed (c_links d) -> joints_made (c_links d) -> Forall2 copy (c_links c) (c_links d) ->
  zvs2zkci (qz 10) c p None s = Some ks -> posture_read (qz 10) ks d = Some d' -> map l_frame (c_links d') = map l_frame (c_links c').
(** Read by a chain left at (1/2, 1/4), the first joint stays at 1/2. *)
Definition off (d : chain Qc) : bool :=
  andb (qlbs (chain_dis d) [[qq 1 2]; [qq 1 8]]) (negb (qlbs (map (fun l => frl (l_frame l)) (c_links d)) (map (fun l => frl (l_frame l)) (c_links (at_ v2))))).
Lemma two_stage {A B} (o : option A) (f : A -> option B) (chk : B -> bool) : match o with Some x => match f x with Some y => chk y | None => false end | None => false end = true ->
  exists x y, o = Some x /\ f x = Some y /\ chk y = true.
Proof. destruct o as [x|]; [|discriminate]. destruct (f x) as [y|] eqn:Q; [|discriminate]. intros H. exists x, y. auto. Qed.
Lemma reread (Z : ZtkLib) : exists ks d', zvs2zkci (qz 10) lmech PLast None two = Some ks /\ posture_read (qz 10) ks (at_ v1) = Some d' /\ off d' = true.
Proof. apply (two_stage (zvs2zkci (qz 10) lmech PLast None two) (fun ks => posture_read (qz 10) ks (at_ v1)) off). destruct Z. vm_compute. reflexivity. Qed.
Lemma frames_view (a b : list (link Qc)) : map l_frame a = map l_frame b -> map (fun l => frl (l_frame l)) a = map (fun l => frl (l_frame l)) b.
Proof. intros H. rewrite <- !(map_map l_frame frl). now rewrite H. Qed.
Lemma qlb_refl a : qlb a a = true.
Proof. induction a as [|x a IH]; [reflexivity|]. cbn. rewrite (proj2 (Qeq_bool_iff x x)) by reflexivity. exact IH. Qed.
Lemma qlbs_refl a : qlbs a a = true.
Proof. induction a as [|x a IH]; [reflexivity|]. cbn. rewrite qlb_refl. exact IH. Qed.
Lemma frames_differ (a b : list (link Qc)) : qlbs (map (fun l => frl (l_frame l)) a) (map (fun l => frl (l_frame l)) b) = false -> map l_frame a <> map l_frame b.
Proof. intros V G. apply frames_view in G. rewrite G, qlbs_refl in V. discriminate V. Qed.
Lemma last_two : picked PLast two = Some (ST v2 (qz 2)). Proof. reflexivity. Qed.
Lemma lmech_nodup : NoDup (map l_name (c_links lmech)).
Proof. cbn. repeat constructor; cbn; intuition discriminate. Qed.
Lemma last_fk : chain_fk lmech (st_v (ST v2 (qz 2))) = Some (at_ v2).
Proof. apply (at_is v2). vm_compute. reflexivity. Qed.
Lemma v1_fit : well_formed (c_links (at_ v1)) /\ joints_made (c_links (at_ v1)) /\ Forall2 copy (c_links lmech) (c_links (at_ v1)).
Proof. apply (at_fit v2 v1); vm_compute; reflexivity. Qed.
Lemma off_frames d : off d = true -> qlbs (map (fun l => frl (l_frame l)) (c_links d)) (map (fun l => frl (l_frame l)) (c_links (at_ v2))) = false.
Proof. unfold off. intros H. apply andb_prop in H as [_ H]. now apply negb_true_iff. Qed.
Lemma not_copied (Z : ZtkLib) (c d c' d' : chain Qc) p (s : list (step Qc)) e ks : usable c -> all_ordered c -> NoDup (map l_name (c_links c)) ->
  picked p s = Some e -> chain_fk c (st_v e) = Some c' -> (well_formed (c_links d) /\ joints_made (c_links d) /\ Forall2 copy (c_links c) (c_links d)) ->
  zvs2zkci (qz 10) c p None s = Some ks /\ posture_read (qz 10) ks d = Some d' ->
  qlbs (map (fun l => frl (l_frame l)) (c_links d')) (map (fun l => frl (l_frame l)) (c_links c')) = false -> ~ poses_copied Z.
Proof. intros U O ND P Fk (W & J & C1) (K1 & K2) V H. apply (frames_differ _ _ V). apply (H c d c' d' p s e ks); assumption. Qed.
Theorem C94_neutral_refuted (Z : ZtkLib) : ~ poses_copied Z.
Proof.
  destruct (reread Z) as (ks & d' & A & B & V).
  exact (not_copied Z lmech (at_ v1) (at_ v2) d' PLast two (ST v2 (qz 2)) ks lmech_usable lmech_ordered lmech_nodup last_two last_fk v1_fit (conj A B) (off_frames d' V)).
Qed.
(** A sequence without steps is not rejected. *)
Theorem C94_empty_refuted (Z : ZtkLib) : ~ (forall (c : chain Qc) p s, usable c -> (forall e, In e s -> List.length (st_v e) = chain_joint_size c) -> zvs2zkci (qz 10) c p None s <> None).
Proof. intros H. refine (H lmech PFirst [] lmech_usable _ eq_refl). intros e []. Qed.

Print Assumptions C93_lines.
Print Assumptions C93_restore.
Print Assumptions C93_restore_R.
Print Assumptions C93_file_refuted.
Print Assumptions C94_restore.
Print Assumptions C94_neutral_refuted.
Print Assumptions C94_empty_refuted.
