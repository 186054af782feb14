(** * Move_Properties: a chain whose base is placed elsewhere (C105). *)
From Coq Require Import String ZArith QArith Qcanon List Arith Lia Bool Field Permutation.
From Verif Require Import Conf_Q Num NumFacts Vec VecFacts Motor_Model Joint_Model Joint_Spec Joint_Proofs Body_Model Body_Proofs Tree Tree_Proofs Link_Model Link_Spec Link_Proofs Chain_Proofs Link_Properties Chain_Properties Kin_Spec Kin_Proofs Jacobi_Model Jacobi_Proofs Conf_Proofs Kin_Properties ExtQ.
Import ListNotations.

Section Move.
Context {F : Type} {N : Num F} {L : NumLaws F N} {E : Ext F} {X : ExtLaws F N E}.
Local Open Scope num_scope.
Local Ltac vring := intros; vdestruct; vunfold; vsplit; ring.
Add Field FFieldMv : num_field.
Notation lk := (link F).

(** The base of a chain is its link without a parent. [base_at T c]: the same chain mounted elsewhere, at [T]. *)
Definition l_mount (T : frame F) (l : lk) : lk :=
  match l_parent l with
  | None => Link (l_name l) (l_joint l) (l_body l) (l_offset l) (fcascade T (l_org l)) (l_adj l) (l_wrench l) None (l_child l) (l_sibl l)
  | Some _ => l
  end.
Definition base_at (T : frame F) (c : chain F) : chain F := c_set_links (map (l_mount T) (c_links c)) c.
(** [T] keeps the vertical: a shift and a turn about the z axis. *)
Definition keeps_vertical (T : frame F) : Prop := m3tv (fatt T) (V3 0 0 1) = V3 0 0 1.

(** ** Passes over a mapped array of links *)
Lemma same_entries {A} : forall (l m : list A), (forall i, nth_error l i = nth_error m i) -> l = m.
Proof.
  induction l as [|a l IH]; intros [|b m] H; [reflexivity|discriminate (H 0%nat)|discriminate (H 0%nat)|]. f_equal; [specialize (H 0%nat); cbn in H; congruence|]. apply IH. intros i. exact (H (S i)).
Qed.
Section Passes.
Context {P : Type} (f1 f2 : lk -> lk).
Lemma map_wf (h : list lk) : (forall l, same_refs l_parent l_child l_sibl l (f1 l)) -> forall k, tree_of h k -> tree_of (map f1 h) k.
Proof.
  intros S k [R PM]. split; [|now rewrite map_length]. eapply rep_ext; [|exact R]. intros i l _ Hl. exists (f1 l). split; [now apply map_nth_error|apply S].
Qed.
Section Down.
Context (upd : lk -> P -> lk) (par : lk -> P) (psi : P -> P).
Lemma solved_mapped h h' k' f : (forall l q p, In l h -> l_parent l = Some q -> upd (f1 l) (psi p) = f2 (upd l p)) -> (forall l, par (f2 l) = psi (par l)) ->
  forall q o p, rep l_parent l_child l_sibl h (Some q) o f -> solved upd par h h' f p -> solved upd par (map f1 h) k' f (psi p) ->
  forall i, In i (ids f) -> exists x, nth_error h' i = Some x /\ nth_error k' i = Some (f2 x).
Proof.
  intros U PR. induction f as [|j k IHk r IHr]; intros q o p R S S' i Hi; [destruct Hi|]. cbn [rep] in R. destruct R as (_ & l & Hl & HP & Rk & Rr).
  cbn [solved] in S, S'. destruct S as (l1 & A1 & A2 & A3 & A4), S' as (l2 & B1 & B2 & B3 & B4).
  replace l1 with l in * by congruence. rewrite (map_nth_error f1 _ _ Hl) in B1. injection B1 as <-. rewrite (U l q p (nth_error_In _ _ Hl) HP) in *.
  cbn [ids] in Hi. destruct Hi as [<-|Hi]; [eauto|]. apply in_app_or in Hi. destruct Hi as [Hi|Hi].
  - rewrite PR in B3. exact (IHk _ _ _ Rk A3 B3 i Hi).
  - exact (IHr _ _ _ Rr A4 B4 i Hi).
Qed.
Lemma walk_down_mapped (h : list lk) p0 fuel : (forall l p, same_refs l_parent l_child l_sibl l (upd l p)) -> (forall l, same_refs l_parent l_child l_sibl l (f1 l)) ->
  (forall l q p, In l h -> l_parent l = Some q -> upd (f1 l) (psi p) = f2 (upd l p)) -> (forall l, In l h -> l_parent l = None -> upd (f1 l) p0 = f2 (upd l p0)) ->
  (forall l, par (f2 l) = psi (par l)) -> well_formed h -> (length h <= fuel)%nat ->
  exists h', walk_down l_parent l_child l_sibl upd par fuel h 0 p0 = Some h' /\ walk_down l_parent l_child l_sibl upd par fuel (map f1 h) 0 p0 = Some (map f2 h').
Proof.
  intros UR FR U1 U0 PR [k T] FU. pose proof (map_wf h FR k T) as T'.
  destruct (walk_down_wf upd par h p0 fuel UR (ex_intro _ k T) FU) as (h' & W & LN & SV & _).
  destruct (walk_down_wf upd par (map f1 h) p0 fuel UR (ex_intro _ k T')) as (k' & W' & LN' & SV' & _); [now rewrite map_length|].
  exists h'. split; [exact W|]. rewrite W'. f_equal. specialize (SV k T). specialize (SV' k T'). rewrite map_length in LN'.
  cut (forall i, In i (ids (FCons 0 k FNil)) -> exists x, nth_error h' i = Some x /\ nth_error k' i = Some (f2 x)).
  { intros H. apply same_entries. intros i. destruct (Nat.lt_ge_cases i (length h)) as [Q|Q].
    - assert (I : In i (ids (FCons 0 k FNil))) by (apply (tree_in _ _ _ T); exact Q). destruct (H i I) as (x & H1 & ->). symmetry. now apply map_nth_error.
    - transitivity (@None lk); [apply nth_error_None; lia|symmetry; apply nth_error_None; rewrite map_length; lia]. }
  destruct T as [R _]. cbn [lrep rep] in R. destruct R as (_ & l & Hl & HP & Rk & _). cbn [solved] in SV, SV'. destruct SV as (l1 & A1 & A2 & A3 & _), SV' as (l2 & B1 & B2 & B3 & _).
  replace l1 with l in * by congruence. rewrite (map_nth_error f1 _ _ Hl) in B1. injection B1 as <-. rewrite (U0 l (nth_error_In _ _ Hl) HP) in *.
  intros i Hi. cbn [ids] in Hi. rewrite app_nil_r in Hi. destruct Hi as [<-|Hi]; [eauto|]. rewrite PR in B3. exact (solved_mapped h h' k' k U1 PR _ _ _ Rk A3 B3 i Hi).
Qed.
End Down.
Section Up.
Context (pre : lk -> lk) (upd : lk -> list lk -> lk).
Lemma pick_mapped h' k' is : (forall i, In i is -> exists x, nth_error h' i = Some x /\ nth_error k' i = Some (f1 x)) -> pick k' is = map f1 (pick h' is).
Proof.
  induction is as [|a t IH]; intros H; [reflexivity|]. cbn [pick]. destruct (H a (or_introl eq_refl)) as (x & -> & ->). cbn [map]. f_equal. apply IH. intros; apply H. now right.
Qed.
Lemma pick_parent (h' : list lk) q is : (forall i, In i is -> exists x, nth_error h' i = Some x /\ l_parent x = q) -> forall c, In c (pick h' is) -> l_parent c = q.
Proof.
  induction is as [|a t IH]; intros H c Hc; [destruct Hc|]. cbn [pick] in Hc. destruct (H a (or_introl eq_refl)) as (x & Q & HP). rewrite Q in Hc. destruct Hc as [<-|Hc]; [exact HP|].
  apply IH; [intros; apply H; now right|exact Hc].
Qed.
Lemma solved_up_mapped h h' k' f : (forall l, same_refs l_parent l_child l_sibl l (pre l)) -> (forall l cs, same_refs l_parent l_child l_sibl l (upd l cs)) ->
  (forall l cs, (forall c, In c cs -> l_parent c <> None) -> upd (pre (f1 l)) (map f1 cs) = f1 (upd (pre l) cs)) ->
  forall q o, rep l_parent l_child l_sibl h q o f -> solved_up pre upd h h' f -> solved_up pre upd (map f1 h) k' f ->
  (forall i, In i (ids f) -> exists x, nth_error h' i = Some x /\ nth_error k' i = Some (f1 x)) /\
  (forall i, In i (roots f) -> exists x, nth_error h' i = Some x /\ l_parent x = q).
Proof.
  intros P1 P2 U. induction f as [|j k IHk r IHr]; intros q o R S S'; [split; intros i []|]. cbn [rep] in R. destruct R as (_ & l & Hl & HP & Rk & Rr).
  cbn [solved_up] in S, S'. destruct S as (l1 & A1 & A2 & A3 & A4), S' as (l2 & B1 & B2 & B3 & B4).
  replace l1 with l in * by congruence. rewrite (map_nth_error f1 _ _ Hl) in B1. injection B1 as <-.
  destruct (IHk _ _ Rk A3 B3) as [K1 K2]. destruct (IHr _ _ Rr A4 B4) as [M1 M2].
  rewrite (pick_mapped h' k') in B2 by (intros i Hi; apply K1; now apply roots_ids).
  rewrite U in B2 by (intros c Hc; rewrite (pick_parent h' _ _ K2 c Hc); discriminate).
  split.
  - intros i Hi. cbn [ids] in Hi. destruct Hi as [<-|Hi]; [eauto|]. apply in_app_or in Hi. destruct Hi; auto.
  - intros i Hi. cbn [roots] in Hi. destruct Hi as [<-|Hi]; [|auto]. eexists. split; [exact A2|]. rewrite <- (proj1 (P2 _ _)), <- (proj1 (P1 _)). exact HP.
Qed.
Lemma walk_up_mapped (h : list lk) fuel : (forall l, same_refs l_parent l_child l_sibl l (pre l)) -> (forall l cs, same_refs l_parent l_child l_sibl l (upd l cs)) ->
  (forall l, same_refs l_parent l_child l_sibl l (f1 l)) ->
  (forall l cs, (forall c, In c cs -> l_parent c <> None) -> upd (pre (f1 l)) (map f1 cs) = f1 (upd (pre l) cs)) -> well_formed h -> (length h <= fuel)%nat ->
  exists h', walk_up l_child l_sibl pre upd fuel h 0 = Some h' /\ walk_up l_child l_sibl pre upd fuel (map f1 h) 0 = Some (map f1 h').
Proof.
  intros P1 P2 FR U [k T] FU. pose proof (map_wf h FR k T) as T'.
  destruct (walk_up_wf pre upd h fuel P1 P2 (ex_intro _ k T) FU) as (h' & W & LN & SV & _).
  destruct (walk_up_wf pre upd (map f1 h) fuel P1 P2 (ex_intro _ k T')) as (k' & W' & LN' & SV' & _); [now rewrite map_length|].
  exists h'. split; [exact W|]. rewrite W'. f_equal. rewrite map_length in LN'. pose proof T as [R _].
  destruct (solved_up_mapped h h' k' _ P1 P2 U _ _ R (SV k T) (SV' k T')) as [H _]. apply same_entries. intros i. destruct (Nat.lt_ge_cases i (length h)) as [Q|Q].
  - assert (I : In i (ids (FCons 0 k FNil))) by (apply (tree_in _ _ _ T); exact Q). destruct (H i I) as (x & H1 & ->). symmetry. now apply map_nth_error.
  - transitivity (@None lk); [apply nth_error_None; lia|symmetry; apply nth_error_None; rewrite map_length; lia].
Qed.
End Up.
End Passes.

Lemma set_all_mapped (f : lk -> lk) set : (forall l, l_offset (f l) = l_offset l) -> (forall l, l_joint (f l) = l_joint l) -> (forall j l, f (l_set_joint j l) = l_set_joint j (f l)) ->
  forall h v, set_all set (map f h) v = option_map (map f) (set_all set h v).
Proof.
  intros O J S h v. induction h as [|l t IH]; [reflexivity|]. cbn [map set_all]. rewrite O, J, IH. destruct (l_offset l) as [o|].
  - destruct (set (l_joint l) (skipn o v)) as [j|]; [|reflexivity]. cbn [obind]. destruct (set_all set t v); [|reflexivity]. cbn. now rewrite S.
  - destruct (set_all set t v); reflexivity.
Qed.
Lemma set_rate_mapped (f : lk -> lk) : (forall l, l_offset (f l) = l_offset l) -> (forall l, l_joint (f l) = l_joint l) -> (forall j l, f (l_set_joint j l) = l_set_joint j (f l)) ->
  forall h v a, set_rate_all (map f h) v a = option_map (map f) (set_rate_all h v a).
Proof.
  intros O J S h v a. rewrite !set_rate_all_split, (set_all_mapped f _ O J S). destruct (set_all joint_set_vel h v) as [h1|]; [|reflexivity]. cbn [obind option_map]. apply (set_all_mapped f _ O J S).
Qed.
Lemma set_all_same_refs set (h h' : list lk) v : set_all set h v = Some h' -> Forall2 (same_refs l_parent l_child l_sibl) h h'.
Proof.
  revert h'. induction h as [|l t IH]; intros h' A; cbn [set_all] in A; [injection A as <-; constructor|]. destruct (l_offset l) as [o|].
  - destruct (set (l_joint l) (skipn o v)) as [j|]; [|discriminate]. cbn [obind] in A. destruct (set_all set t v) as [t'|]; [|discriminate]. injection A as <-. constructor; [repeat split|auto].
  - destruct (set_all set t v) as [t'|]; [|discriminate]. injection A as <-. constructor; [repeat split|auto].
Qed.
Lemma set_rate_wf (h h' : list lk) v a : set_rate_all h v a = Some h' -> well_formed h -> well_formed h'.
Proof.
  rewrite set_rate_all_split. destruct (set_all joint_set_vel h v) as [h1|] eqn:Q; [|discriminate]. cbn [obind]. intros A W.
  eapply wf_of_refs; [exact (set_all_same_refs _ _ _ _ A)|]. eapply wf_of_refs; [exact (set_all_same_refs _ _ _ _ Q)|exact W].
Qed.

(** ** The moved chain after a pass *)
Definition b_move (T : frame F) (b : body F) : body F :=
  Body (b_mp b) (fcascade T (b_frame b)) (b_vel b) (b_acc b) (xform T (b_wcom b)) (b_comvel b) (b_comacc b) (b_extw b) (b_shapes b) (b_stuff b).
Definition l_move (T : frame F) (l : lk) : lk :=
  Link (l_name l) (l_joint l) (b_move T (l_body l)) (l_offset l) (match l_parent l with None => fcascade T (l_org l) | Some _ => l_org l end)
    (match l_parent l with None => fcascade T (l_adj l) | Some _ => l_adj l end) (l_wrench l) (l_parent l) (l_child l) (l_sibl l).
Lemma mount_refs T l : same_refs l_parent l_child l_sibl l (l_mount T l).
Proof. unfold l_mount. destruct (l_parent l) eqn:Q; [repeat split|]. repeat split. exact Q. Qed.
Lemma move_refs T l : same_refs l_parent l_child l_sibl l (l_move T l).
Proof. repeat split. Qed.
Lemma frame_moved T l q p : l_parent l = Some q -> upd_frame (l_mount T l) (fcascade T p) = l_move T (upd_frame l p).
Proof.
  intros HP. unfold l_mount. rewrite HP. unfold upd_frame, l_move, b_move, body_update_com, body_set_frame, l_set_body, l_set_adj. cbn. rewrite HP. f_equal. rewrite <- fcascade_assoc, xform_cascade. reflexivity.
Qed.
Lemma frame_moved_root T l : cache_ok (l_joint l) -> l_parent l = None -> upd_frame (l_mount T l) fid = l_move T (upd_frame l fid).
Proof.
  intros CO HP. unfold l_mount. rewrite HP. unfold upd_frame, l_move, b_move, body_update_com, body_set_frame, l_set_body, l_set_adj. cbn. rewrite HP.
  rewrite (xform_fid (l_joint l) (fcascade T (l_org l)) CO), (xform_fid (l_joint l) (l_org l) CO), <- fcascade_assoc, !fcascade_id_l, xform_cascade. reflexivity.
Qed.
Lemma rate_moved T l q p : l_parent l = Some q -> upd_rate (l_move T l) p = l_move T (upd_rate l p).
Proof. intros HP. unfold l_move at 1. rewrite HP. unfold l_move, upd_rate, upd_acc, upd_vel. cbn. rewrite HP. reflexivity. Qed.
Lemma base_vel (f : frame F) : xform6lin f v6zero = v6zero. Proof. vring. Qed.
Lemma turned_up (T A : mat3 F) g : m3tv T (V3 0 0 1) = V3 0 0 1 -> m3tv (m3mul T A) (V3 0 0 g) = m3tv A (V3 0 0 g).
Proof.
  intros H. replace (V3 0 0 g) with (v3scale g (V3 0 0 1)) at 1 by vring. replace (m3tv (m3mul T A) (v3scale g (V3 0 0 1))) with (m3tv A (v3scale g (m3tv T (V3 0 0 1)))) by (clear H; vring).
  rewrite H. f_equal. vring.
Qed.
Definition base_acc (f : frame F) (p : vec6 F) : vec6 F :=
  m3tv6 (fatt f) (V6 (v3add (vlin (v6linshift p (fpos f))) (v3cross (vang v6zero) (v3cross (vang v6zero) (fpos f)))) (vang (v6linshift p (fpos f)))).
Lemma base_acc_moved (T f : frame F) g : keeps_vertical T -> base_acc (fcascade T f) (grav g) = base_acc f (grav g).
Proof.
  assert (Q : forall f : frame F, base_acc f (grav g) = V6 (m3tv (fatt f) (V3 0 0 g)) v3zero) by (intros f0; unfold base_acc, grav; vring).
  intros K. rewrite !Q. f_equal. cbn [fatt fcascade]. now apply turned_up.
Qed.
Lemma rate_moved_root T l g : keeps_vertical T -> l_parent l = None -> upd_rate (l_move T l) (v6zero, grav g) = l_move T (upd_rate l (v6zero, grav g)).
Proof.
  intros K HP. pose proof (base_acc_moved T (l_adj l) g K) as BA. unfold base_acc in BA. unfold l_move at 1. rewrite HP. unfold upd_rate, upd_acc, upd_vel. cbn [l_adj l_body l_joint fst snd l_set_body]. rewrite !base_vel, BA. unfold l_move. cbn. rewrite HP. reflexivity.
Qed.
Lemma wrench_moved T l cs : (forall c, In c cs -> l_parent c <> None) -> wr_post (wr_pre (l_move T l)) (map (l_move T) cs) = l_move T (wr_post (wr_pre l) cs).
Proof.
  intros H. unfold wr_post, wr_pre. cbn [l_wrench l_body l_joint l_set_wrench]. set (w0 := v6angshift _ _).
  change (v6angshift (body_net_wrench (l_body (l_move T l))) (l_com (l_move T l))) with w0.
  replace (fold_left (fun w c => v6add w (xform6ang (l_adj c) (l_wrench c))) (map (l_move T) cs) w0) with (fold_left (fun w c => v6add w (xform6ang (l_adj c) (l_wrench c))) cs w0).
  - reflexivity.
  - generalize w0. clear w0. induction cs as [|c cs IH]; intros w0; [reflexivity|]. cbn [map fold_left]. rewrite IH by (intros; apply H; now right). f_equal. f_equal.
    unfold l_move. cbn. destruct (l_parent c) eqn:Q; [reflexivity|]. now destruct (H c (or_introl eq_refl)).
Qed.

(** Two links at the same configuration and motion, the second one seen from elsewhere. *)
Definition carried (T : frame F) (a b : lk) : Prop :=
  l_name b = l_name a /\ l_joint b = l_joint a /\ l_frame b = fcascade T (l_frame a) /\ b_wcom (l_body b) = xform T (b_wcom (l_body a)) /\
  l_vel b = l_vel a /\ l_acc b = l_acc a /\ b_comvel (l_body b) = b_comvel (l_body a) /\ b_comacc (l_body b) = b_comacc (l_body a) /\ l_wrench b = l_wrench a.
Lemma move_carried T h : Forall2 (carried T) h (map (l_move T) h).
Proof. induction h; constructor; [repeat split|assumption]. Qed.
(** The mass of the chain is the sum of the masses of its links. *)
Definition weighed (c : chain F) : Prop := c_mass (chain_calc_mass c) = c_mass c /\ c_mass c <> 0.

Lemma fk_moved T (c c1 : chain F) dis : usable c -> length dis = chain_joint_size c -> chain_fk c dis = Some c1 ->
  well_formed (c_links c1) /\ c_mass c1 = c_mass c /\ map l_mass (c_links c1) = map l_mass (c_links c) /\
  c_wcom c1 = v3div (fold_left (fun p l => v3cat p (l_mass l) (b_wcom (l_body l))) (c_links c1) v3zero) (c_mass c1) /\
  chain_fk (base_at T c) dis = Some (chain_calc_com (Chain (map (l_move T) (c_links c1)) (c_mass c1) (c_wcom c) (c_comvel c1) (c_comacc c1))).
Proof.
  intros US LN A. unfold chain_fk in A. destruct (chain_set_joint_dis_all c dis) as [d|] eqn:Q; [|discriminate]. cbn [obind] in A.
  destruct (usable_set_dis c d dis US LN Q) as [(W & _ & JM & _) _]. unfold chain_fk, chain_set_joint_dis_all in *. cbn [base_at c_links c_set_links].
  rewrite (set_all_mapped (l_mount T)).
  2-4: intros; unfold l_mount; destruct l as [? ? ? ? ? ? ? [?|] ? ?]; reflexivity.
  destruct (set_all joint_set_dis (c_links c) dis) as [h|] eqn:SA; [|discriminate]. injection Q as <-. cbn [option_map obind c_links c_set_links c_mass c_wcom c_comvel c_comacc] in *.
  assert (SM : map l_mass h = map l_mass (c_links c)).
  { clear - SA. revert h SA. induction (c_links c) as [|l t IH]; intros h SA; cbn [set_all] in SA; [now injection SA as <-|]. destruct (l_offset l) as [o|].
    - destruct (joint_set_dis (l_joint l) (skipn o dis)) as [j|]; [|discriminate]. cbn [obind] in SA. destruct (set_all joint_set_dis t dis) as [t'|]; [|discriminate]. injection SA as <-. cbn [map]. now rewrite (IH t' eq_refl).
    - destruct (set_all joint_set_dis t dis) as [t'|]; [|discriminate]. injection SA as <-. cbn [map]. now rewrite (IH t' eq_refl). }
  unfold chain_update_fk, chain_update_frame, chain_lift, update_frame, c_fuel in *. cbn [c_links c_set_links] in *. rewrite map_length.
  destruct (walk_down_mapped (l_mount T) (l_move T) upd_frame l_frame (fcascade T) h fid (S (length h))) as (h' & B1 & B2).
  - repeat split.
  - apply mount_refs.
  - intros l q p _ HP. now apply (frame_moved T l q).
  - intros l Hl HP. apply frame_moved_root; [|exact HP]. destruct (In_nth_error _ _ Hl) as [i Hi]. apply made_cache. exact (JM i l Hi).
  - reflexivity.
  - exact W.
  - lia.
  - rewrite B1 in A. rewrite B2. cbn [option_map] in *. injection A as <-. cbn [c_links chain_calc_com c_mass c_set_links c_wcom c_comvel c_comacc]. split; [|split; [reflexivity|split; [|split; reflexivity]]].
    + destruct (C24_fk_id_total 0 (c_set_links h c) W) as [(c' & D & W') _]. unfold chain_update_fk, chain_update_frame, chain_lift, update_frame, c_fuel in D. cbn [c_links c_set_links] in D. rewrite B1 in D. cbn [option_map] in D. injection D as <-. exact W'.
    + destruct (walk_down_wf upd_frame l_frame h fid (S (length h))) as (h2 & D1 & D2 & _ & D4); [repeat split|exact W|lia|]. rewrite B1 in D1. injection D1 as <-. rewrite <- SM. apply same_entries. intros i.
      destruct (nth_error h i) as [l|] eqn:Hl.
      * destruct (D4 i l Hl) as (p & Hp & _). rewrite (map_nth_error _ _ _ Hl), (map_nth_error _ _ _ Hp). reflexivity.
      * transitivity (@None F); [|symmetry]; apply nth_error_None; rewrite map_length; apply nth_error_None in Hl; lia.
Qed.
Lemma id_moved T g (c c2 d : chain F) vel acc : keeps_vertical T -> well_formed (c_links c) -> chain_id g c vel acc = Some c2 -> c_links d = map (l_move T) (c_links c) ->
  exists h, c_links c2 = h /\ c_mass c2 = c_mass c /\ c_wcom c2 = c_wcom c /\ c_comvel c2 = c_comvel (chain_calc_comvel c2) /\ c_comacc c2 = c_comacc (chain_calc_comacc c2) /\
    chain_id g d vel acc = Some (chain_calc_comacc (chain_calc_comvel (c_set_links (map (l_move T) h) d))).
Proof.
  intros K W A D. unfold chain_id, chain_set_joint_rate_all in *. rewrite D, (set_rate_mapped (l_move T)) by reflexivity.
  destruct (set_rate_all (c_links c) vel acc) as [h|] eqn:SR; [|discriminate]. pose proof (set_rate_wf _ _ _ _ SR W) as W1. cbn [option_map obind] in *.
  unfold chain_update_id, chain_update_rate, chain_lift, update_rate, c_fuel in *. cbn [c_links c_set_links] in *. rewrite map_length.
  destruct (walk_down_mapped (l_move T) (l_move T) upd_rate (fun l => (l_vel l, l_acc l)) (fun p => p) h (v6zero, grav g) (S (length h))) as (h1 & B1 & B2).
  - repeat split.
  - apply move_refs.
  - intros l q p _ HP. now apply (rate_moved T l q).
  - intros l _ HP. now apply rate_moved_root.
  - reflexivity.
  - exact W1.
  - lia.
  - assert (W2 : well_formed h1).
    { destruct (C24_rate_pass g (c_set_links h c) W1) as (c' & Q & _ & W'). unfold chain_update_rate, chain_lift, update_rate, c_fuel in Q. cbn [c_links c_set_links] in Q. rewrite B1 in Q. injection Q as <-. exact W'. }
    rewrite B1 in A. rewrite B2. cbn [option_map obind] in *. unfold chain_update_wrench, chain_lift, update_wrench, c_fuel in *. cbn [c_links c_set_links] in *. rewrite map_length.
    destruct (walk_up_mapped (l_move T) wr_pre wr_post h1 (S (length h1))) as (h2 & C1 & C2); [repeat split|repeat split|apply move_refs|intros; now apply wrench_moved|exact W2|lia|].
    rewrite C1 in A. rewrite C2. cbn [option_map] in *. injection A as <-. exists h2. repeat split.
Qed.

(** ** Sums over the links *)
Lemma sum_moved (T : frame F) (h : list lk) : forall p m, fold_left (fun p l => v3cat p (l_mass l) (b_wcom (l_body l))) (map (l_move T) h) (v3add (m3v (fatt T) p) (v3scale m (fpos T))) =
  v3add (m3v (fatt T) (fold_left (fun p l => v3cat p (l_mass l) (b_wcom (l_body l))) h p)) (v3scale (fold_left (fun m l => m + l_mass l) h m) (fpos T)).
Proof.
  induction h as [|l h IH]; intros p m; [reflexivity|]. cbn [map fold_left]. rewrite <- IH. f_equal. change (l_mass (l_move T l)) with (l_mass l). change (b_wcom (l_body (l_move T l))) with (xform T (b_wcom (l_body l))).
  generalize (l_mass l) (b_wcom (l_body l)). vring.
Qed.
Lemma sum_masses (h k : list lk) : map l_mass h = map l_mass k -> forall m, fold_left (fun m l => m + l_mass l) h m = fold_left (fun m l => m + l_mass l) k m.
Proof. revert k. induction h as [|a h IH]; intros [|b k] Q m; try discriminate Q; [reflexivity|]. injection Q as Q1 Q2. cbn [fold_left]. rewrite Q1. now apply IH. Qed.
Lemma com_moved (T : frame F) (h : list lk) m : fold_left (fun m l => m + l_mass l) h 0 = m -> m <> 0 ->
  v3div (fold_left (fun p l => v3cat p (l_mass l) (b_wcom (l_body l))) (map (l_move T) h) v3zero) m = xform T (v3div (fold_left (fun p l => v3cat p (l_mass l) (b_wcom (l_body l))) h v3zero) m).
Proof.
  intros Q NZ. pose proof (sum_moved T h v3zero 0) as S. replace (v3add (m3v (fatt T) v3zero) (v3scale 0 (fpos T))) with (v3zero : vec3 F) in S by vring. rewrite S, Q.
  generalize (fold_left (fun p l => v3cat p (l_mass l) (b_wcom (l_body l))) h v3zero). intros [x y z]. destruct T as [[t1 t2 t3] [[a b c] [d e f] [k u w]]]. vunfold. cbn. vunfold. f_equal; field; exact NZ.
Qed.
Lemma turned_sum (T : frame F) (v : lk -> F) (w : lk -> vec3 F) (h : list lk) : (forall l, v (l_move T l) = v l) -> (forall l, w (l_move T l) = w l) -> forall p,
  fold_left (fun p l => v3cat p (v l) (m3v (fatt (l_frame l)) (w l))) (map (l_move T) h) (m3v (fatt T) p) = m3v (fatt T) (fold_left (fun p l => v3cat p (v l) (m3v (fatt (l_frame l)) (w l))) h p).
Proof.
  intros V W. induction h as [|l h IH]; intros p; [reflexivity|]. cbn [map fold_left]. rewrite <- IH. f_equal. rewrite V, W. change (l_frame (l_move T l)) with (fcascade T (l_frame l)).
  generalize (v l) (w l) (l_frame l). clear - L. vring.
Qed.

Theorem C105_kinematics : forall (T : frame F) (c c1 : chain F) dis, usable c -> length dis = chain_joint_size c -> chain_fk c dis = Some c1 ->
  exists d1, chain_fk (base_at T c) dis = Some d1 /\ Forall2 (carried T) (c_links c1) (c_links d1) /\ (weighed c -> c_wcom d1 = xform T (c_wcom c1)).
Proof.
  intros T c c1 dis US LN A. destruct (fk_moved T c c1 dis US LN A) as (W & M & LM & CM & B). eexists. split; [exact B|]. cbn [c_links chain_calc_com c_wcom c_mass]. split; [apply move_carried|].
  intros [WS NZ]. rewrite CM. apply com_moved; [|now rewrite M]. rewrite M, <- WS. cbn [chain_calc_mass c_mass]. now apply sum_masses.
Qed.
Theorem C105_dynamics : forall (T : frame F) g (c c1 c2 : chain F) dis vel acc, rigid T -> keeps_vertical T -> usable c -> length dis = chain_joint_size c ->
  chain_fk c dis = Some c1 -> chain_id g c1 vel acc = Some c2 ->
  exists d1 d2, chain_fk (base_at T c) dis = Some d1 /\ chain_id g d1 vel acc = Some d2 /\ Forall2 (carried T) (c_links c2) (c_links d2) /\
    (forall v, chain_get_joint_trq_all d2 v = chain_get_joint_trq_all c2 v) /\
    (weighed c -> c_wcom d2 = xform T (c_wcom c2)) /\ c_comvel d2 = m3v (fatt T) (c_comvel c2) /\ c_comacc d2 = m3v (fatt T) (c_comacc c2) /\
    (forall z, chain_zmp d2 (z + vz (fpos T)) = option_map (option_map (xform T)) (chain_zmp c2 z)) /\ chain_yaw_torque d2 = chain_yaw_torque c2 /\
    (forall p, chain_am d2 (xform T p) = m3v (fatt T) (chain_am c2 p)) /\ chain_ke d2 = chain_ke c2.
Proof.
  intros T g c c1 c2 dis vel acc RT K US LN A B. destruct (fk_moved T c c1 dis US LN A) as (W & M & LM & CM & D1).
  set (d1 := chain_calc_com _) in D1. destruct (id_moved T g c1 c2 d1 vel acc K W B eq_refl) as (h & <- & M2 & C2 & CV & CA & D2).
  exists d1. eexists. split; [exact D1|]. split; [exact D2|]. cbn [c_links chain_calc_comacc chain_calc_comvel c_set_links c_wcom c_comvel c_comacc c_mass].
  assert (RD : forall A : mat3 F, m3row2 (m3mul (fatt T) A) = m3row2 A).
  { intros Q. transitivity (m3tv Q (m3tv (fatt T) (V3 0 0 1))); [clear - L; generalize (fatt T); vring|]. rewrite K. clear - L. vring. }
  split; [apply move_carried|]. split; [|split; [|split; [|split; [|split; [|split; [|split]]]]]].
  - intros v. unfold chain_get_joint_trq_all. cbn [c_links chain_calc_comacc chain_calc_comvel c_set_links]. generalize (c_links c2) v. clear - L. induction l as [|l t IH]; intros v; [reflexivity|]. cbn [map get_all]. cbn [l_offset l_move l_joint]. destruct (l_offset l); [|apply IH]. destruct (write_at _ _ _); [apply IH|reflexivity].
  - intros WG. rewrite C2, CM. cbn [d1 chain_calc_com c_wcom c_links c_mass]. destruct WG as [WS NZ]. apply com_moved; [|now rewrite M]. rewrite M, <- WS. cbn [chain_calc_mass c_mass]. now apply sum_masses.
  - rewrite CV. cbn [chain_calc_comvel c_comvel]. replace (c_mass d1) with (c_mass c2) by (rewrite M2; reflexivity).
    rewrite <- (turned_sum T (fun l => l_mass l / c_mass c2) (fun l => b_comvel (l_body l))) by reflexivity. f_equal. clear - L. vring.
  - rewrite CA. cbn [chain_calc_comacc c_comacc]. replace (c_mass d1) with (c_mass c2) by (rewrite M2; reflexivity).
    rewrite <- (turned_sum T (fun l => l_mass l / c_mass c2) (fun l => b_comacc (l_body l))) by reflexivity. f_equal. clear - L. vring.
  - intros z. unfold chain_zmp, c_root. cbn [c_links chain_calc_comacc chain_calc_comvel c_set_links]. destruct (c_links c2) as [|r t]; [reflexivity|]. cbn [map nth_error option_map]. f_equal. unfold gravity_dir. change (l_frame (l_move T r)) with (fcascade T (l_frame r)).
    change (fatt (fcascade T (l_frame r))) with (m3mul (fatt T) (fatt (l_frame r))). rewrite RD. cbn [l_wrench l_move]. destruct (ntiny _ _); [reflexivity|]. cbn [option_map]. f_equal. rewrite xform_cascade. f_equal. f_equal. f_equal. f_equal.
    replace (vz (fpos (fcascade T (l_frame r)))) with (v3dot (m3tv (fatt T) (V3 0 0 1)) (fpos (l_frame r)) + vz (fpos T)) by (clear - L; generalize (l_frame r); vring). rewrite K. clear - L. generalize (l_frame r). intros [[x y w] ?]. vunfold. cbn. ring.
  - unfold chain_yaw_torque, c_root. cbn [c_links chain_calc_comacc chain_calc_comvel c_set_links]. destruct (c_links c2) as [|r t]; [reflexivity|]. cbn [map nth_error option_map]. f_equal. unfold gravity_dir. change (l_frame (l_move T r)) with (fcascade T (l_frame r)).
    change (fatt (fcascade T (l_frame r))) with (m3mul (fatt T) (fatt (l_frame r))). now rewrite RD.
  - intros p. unfold chain_am. cbn [c_links chain_calc_comacc chain_calc_comvel c_set_links].
    transitivity (fold_left (fun am l => v3add am (m3v (fatt (l_frame l)) (body_am (l_body l) (xforminv (l_frame l) (xform T p))))) (map (l_move T) (c_links c2)) (m3v (fatt T) v3zero)); [f_equal; clear - L; vring|].
    clear D2 CV CA C2 B. generalize (v3zero : vec3 F) (c_links c2). intros z0 h0. revert z0. induction h0 as [|l t IH]; intros a; [reflexivity|]. cbn [map fold_left]. rewrite <- IH. f_equal.
    change (l_frame (l_move T l)) with (fcascade T (l_frame l)). change (body_am (l_body (l_move T l))) with (body_am (l_body l)).
    replace (xforminv (fcascade T (l_frame l)) (xform T p)) with (xforminv (l_frame l) p).
    + generalize (l_frame l) (body_am (l_body l) (xforminv (l_frame l) p)). clear - L. vring.
    + unfold xforminv at 1. replace (v3sub p (fpos (l_frame l))) with (v3sub (xforminv T (xform T p)) (xforminv T (xform T (fpos (l_frame l))))) by (rewrite !xforminv_xform by exact RT; reflexivity).
      generalize (l_frame l) (xform T p). clear - L. vring.
  - unfold chain_ke. cbn [c_links chain_calc_comacc chain_calc_comvel c_set_links]. generalize 0 (c_links c2). intros z0 h0. revert z0. induction h0 as [|l t IH]; intros a; [reflexivity|]. cbn [map fold_left]. apply IH.
Qed.
End Move.

(** ** Concrete cases *)
(** A quarter turn about the vertical with a shift, and a quarter turn about the x axis. *)
Definition quarter : frame Qc := Fr (V3 (qz 3) (qz (-1)) (qz 2)) (M3 (V3 (qz 0) (qz 1) (qz 0)) (V3 (qz (-1)) (qz 0) (qz 0)) (V3 (qz 0) (qz 0) (qz 1))).
Definition tilted : frame Qc := Fr v3zero (M3 (V3 (qz 1) (qz 0) (qz 0)) (V3 (qz 0) (qz 0) (qz 1)) (V3 (qz 0) (qz (-1)) (qz 0))).
Definition macc : list Qc := map qz [0; 1; 0; 2; 0; 0; 1; -1; 0; 1; 0; 2]%Z.
Definition full (c : chain Qc) : option (chain Qc) := obind (chain_fk c mdis) (fun c1 => chain_id (qz 10) c1 mvel macc).
Definition trq_of (c : chain Qc) : list Qc := match chain_get_joint_trq_all c (repeat (qz 0) 12) with Some v => v | None => [] end.
Definition zmp_of (z : Z) (c : chain Qc) : list Qc := match chain_zmp c (qz z) with Some (Some p) => l3 (v3scale (qz 5) p) | _ => [] end.
Definition seen (z : Z) (c : chain Qc) : list (list Qc) := [trq_of c; l3 (v3scale (qz 7) (c_wcom c)); l3 (v3scale (qz 7) (c_comvel c)); zmp_of z c].
Example C105_ex : exists c, full mech = Some c /\ seen 1 c = zq [[15; 20; 5; 88; -5; 32; 27; -22; 0; 0; -3; 10]; [19; -6; 9]; [13; -8; -20]; [15; 98; 5]]%Z.
Proof. apply (some_exq _ (seen 1)). vm_compute. reflexivity. Qed.
Example C105_ex_moved : exists c, full (base_at quarter mech) = Some c /\ seen 3 c = zq [[15; 20; 5; 88; -5; 32; 27; -22; 0; 0; -3; 10]; [27; 12; 23]; [8; 13; -20]; [-83; 10; 15]]%Z.
Proof. apply (some_exq _ (seen 3)). vm_compute. reflexivity. Qed.
(** The torques of a tilted chain are others. *)
Example C105_ex_tilted : exists c, full (base_at tilted mech) = Some c /\ [trq_of c] = zq [[15; 90; -65; 268; 45; 82; 57; -42; 0; 0; -13; 10]]%Z.
Proof. apply (some_exq _ (fun c => [trq_of c])). vm_compute. reflexivity. Qed.
(** The chain and the quarter turn meet the hypotheses. *)
Lemma quarter_turn : rigid quarter /\ keeps_vertical quarter.
Proof. split; [|reflexivity]. repeat split; apply Qc_is_canon; reflexivity. Qed.
Lemma mech_weighed : weighed mech.
Proof. split; [reflexivity|]. intros H. discriminate (f_equal this H). Qed.
Example C105_ex_theorem c1 c2 : chain_fk mech mdis = Some c1 -> chain_id (qz 10) c1 mvel macc = Some c2 -> exists d1 d2, chain_fk (base_at quarter mech) mdis = Some d1 /\ chain_id (qz 10) d1 mvel macc = Some d2 /\
  (forall v, chain_get_joint_trq_all d2 v = chain_get_joint_trq_all c2 v) /\ c_wcom d2 = xform quarter (c_wcom c2).
Proof.
  intros A B. destruct quarter_turn as [R K]. destruct mech_usable as [U S].
  destruct (C105_dynamics quarter (qz 10) mech c1 c2 mdis mvel macc R K U (eq_sym S) A B) as (d1 & d2 & D1 & D2 & _ & TQ & CM & _). exists d1, d2. split; [exact D1|]. split; [exact D2|]. split; [exact TQ|exact (CM mech_weighed)].
Qed.

Print Assumptions C105_kinematics.
Print Assumptions C105_dynamics.
