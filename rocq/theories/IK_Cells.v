(** * IK_Cells: lemmas on the cell list of the inverse kinematics solver. *)
From Coq Require Import List Arith Lia Bool Sorted.
From Verif Require Import Num Vec Motor_Model Joint_Model Body_Model Tree Link_Model Jacobi_Model IK_Model IK_Spec.
Import ListNotations.

Section Cells.
Context {F : Type} {N : Num F} {E : Ext F} {I : IKExt F}.
Notation cl := (list (nat * cell F)).
Definition cids (l : cl) : list nat := map (fun x => ce_id (snd x)) l.
Definition cadr (l : cl) : list nat := map fst l.
Definition cells_ok (l : cl) : Prop := StronglySorted lt (cids l) /\ NoDup (cadr l).

Lemma insert_from_spec (l : cl) a ce : forall x t, l = x :: t -> StronglySorted lt (cids l) ->
  exists pre post, l = pre ++ post /\ pre <> [] /\
    insert_from l a ce = pre ++ (a, ce_set_id (ce_id (snd x) + length pre) ce) :: post /\
    cids pre = seq (ce_id (snd x)) (length pre) /\ Forall (fun j => ce_id (snd x) + length pre < j) (cids post).
Proof.
  induction l as [|z l IH]; intros x t EQ S; [discriminate|]. injection EQ as -> ->. destruct t as [|y t].
  - exists [x], []. cbn. rewrite Nat.add_1_r. repeat split; auto. discriminate.
  - change (insert_from (x :: y :: t) a ce) with
      (if Nat.eqb (ce_id (snd y)) (Datatypes.S (ce_id (snd x))) then x :: insert_from (y :: t) a ce
       else x :: (a, ce_set_id (Datatypes.S (ce_id (snd x))) ce) :: y :: t).
    cbn [cids map] in S. inversion S as [|? ? S' Fa]; subst. inversion Fa as [|? ? LT Fa']; subst.
    destruct (Nat.eqb_spec (ce_id (snd y)) (Datatypes.S (ce_id (snd x)))) as [e|ne].
    + destruct (IH y t eq_refl S') as (pre & post & A & B & C & D & G). rewrite C, A.
      exists (x :: pre), post. rewrite e in *. cbn [length app]. rewrite <- plus_n_Sm. repeat split; auto; try discriminate.
      cbn [cids map seq]. f_equal. exact D.
    + exists [x], (y :: t). cbn [length app]. rewrite Nat.add_1_r. repeat split; auto; try discriminate.
      assert (H1 : Datatypes.S (ce_id (snd x)) < ce_id (snd y)) by lia. cbn [cids map]. constructor; [exact H1|].
      inversion S' as [|? ? _ Fy]; subst. eapply Forall_impl; [|exact Fy]. intros; lia.
Qed.
Lemma insert_cell_spec (l : cl) a ce : StronglySorted lt (cids l) ->
  exists pre post, l = pre ++ post /\ insert_cell l a ce = pre ++ (a, ce_set_id (length pre) ce) :: post /\
    cids pre = seq 0 (length pre) /\ Forall (fun j => length pre < j) (cids post).
Proof.
  intros S. destruct l as [|x l]; [exists [], []; cbn; auto|]. cbn [insert_cell].
  destruct (Nat.eqb_spec (ce_id (snd x)) 0) as [e|ne].
  - destruct (insert_from_spec (x :: l) a ce x l eq_refl S) as (pre & post & A & B & C & D & G). rewrite e in *. exists pre, post. auto.
  - exists [], (x :: l). cbn [app length]. repeat split; auto. cbn [cids map] in *. inversion S as [|? ? _ Fx]; subst.
    constructor; [lia|]. eapply Forall_impl; [|exact Fx]. intros; lia.
Qed.

Lemma ssorted_app (l m : list nat) : StronglySorted lt (l ++ m) <->
  StronglySorted lt l /\ StronglySorted lt m /\ (forall x y, In x l -> In y m -> x < y).
Proof.
  induction l as [|a l IH]; cbn.
  - split; [intros H; repeat split; auto; [constructor|tauto]|tauto].
  - split.
    + intros H. inversion H as [|? ? S Fa]; subst. apply IH in S as (A & B & C). rewrite Forall_app in Fa. destruct Fa as [F1 F2].
      repeat split; auto; [constructor; auto|]. intros x y [<-|H1] H2; [rewrite Forall_forall in F2; auto|auto].
    + intros (A & B & C). inversion A as [|? ? S Fa]; subst. constructor.
      * apply IH. repeat split; auto.
      * rewrite Forall_app. split; auto. rewrite Forall_forall. auto.
Qed.
Lemma cids_app (l m : cl) : cids (l ++ m) = cids l ++ cids m.
Proof. apply map_app. Qed.
Lemma cadr_app (l m : cl) : cadr (l ++ m) = cadr l ++ cadr m.
Proof. apply map_app. Qed.

Lemma insert_cell_ok (l : cl) a ce : cells_ok l -> ~ In a (cadr l) -> cells_ok (insert_cell l a ce).
Proof.
  intros [S D] NI. destruct (insert_cell_spec l a ce S) as (pre & post & A & B & C & G). rewrite B. subst l.
  rewrite cids_app, ssorted_app in S. destruct S as (S1 & S2 & S3). rewrite cadr_app in D, NI. split.
  - rewrite cids_app. cbn [cids map snd ce_id ce_set_id]. fold (cids post). apply ssorted_app. split; [exact S1|]. split.
    + constructor; auto.
    + intros x y H1 [<-|H2]; [|auto]. rewrite C in H1. apply in_seq in H1. lia.
  - rewrite cadr_app. cbn [cadr map fst]. fold (cadr post). apply NoDup_Add with (a := a) (l := cadr pre ++ cadr post); [apply Add_app|auto].
Qed.
Lemma purge_spec (l : cl) a : forall l', purge l a = Some l' -> exists pre x post, l = pre ++ x :: post /\ l' = pre ++ post /\ fst x = a /\ ~ In a (cadr pre).
Proof.
  induction l as [|x l IH]; intros l' H; [discriminate|]. cbn [purge] in H. destruct (Nat.eqb_spec (fst x) a) as [e|ne].
  - injection H as <-. exists [], x, l. auto.
  - destruct (purge l a) as [r|]; [|discriminate]. injection H as <-. destruct (IH r eq_refl) as (pre & y & post & -> & -> & A & B).
    exists (x :: pre), y, post. repeat split; auto. cbn. tauto.
Qed.
Lemma purge_total (l : cl) a : In a (cadr l) -> exists l', purge l a = Some l'.
Proof.
  induction l as [|x l IH]; cbn; [tauto|]. intros H. destruct (Nat.eqb_spec (fst x) a); [eauto|].
  destruct IH as [l' ->]; [tauto|]. cbn. eauto.
Qed.
Lemma purge_ok (l l' : cl) a : cells_ok l -> purge l a = Some l' -> cells_ok l'.
Proof.
  intros [S D] H. destruct (purge_spec l a l' H) as (pre & x & post & -> & -> & _). rewrite cids_app in S. apply ssorted_app in S as (S1 & S2 & S3).
  cbn [cids map] in S2. inversion S2 as [|? ? S4 _]; subst. split.
  - rewrite cids_app. apply ssorted_app. split; [exact S1|]. split; [exact S4|]. intros u v H1 H2. apply S3; [auto|]. right. auto.
  - rewrite cadr_app in *. cbn [cadr map] in D. apply NoDup_remove_1 in D. exact D.
Qed.
Lemma find_cell_spec (l : cl) id a : cells_ok l -> (find_cell l id = Some a <-> exists ce, In (a, ce) l /\ ce_id ce = id).
Proof.
  intros [S D]. split.
  - clear. induction l as [|x l IH]; cbn; [discriminate|]. destruct (Nat.eqb_spec (ce_id (snd x)) id).
    + intros H. injection H as <-. exists (snd x). destruct x; auto.
    + intros H. destruct (IH H) as (ce & A & B). eauto.
  - intros (ce & IN & ID). induction l as [|x l IH]; cbn; [contradiction|]. cbn [cids cadr map] in S, D.
    inversion S as [|? ? S' Fx]; subst. inversion D as [|? ? NI D']; subst. destruct IN as [->|IN].
    + cbn. rewrite Nat.eqb_refl. auto.
    + destruct (Nat.eqb_spec (ce_id (snd x)) (ce_id ce)) as [e|ne]; [|auto].
      rewrite Forall_forall in Fx. specialize (Fx (ce_id ce)). rewrite e in Fx. exfalso. apply (Nat.lt_irrefl (ce_id ce)), Fx.
      apply (in_map (fun x => ce_id (snd x)) _ _ IN).
Qed.

(** Lists with the same identifiers and addresses. *)
Definition same_cells (l l' : cl) : Prop := cids l' = cids l /\ cadr l' = cadr l.
Lemma same_cells_ok (l l' : cl) : same_cells l l' -> cells_ok l -> cells_ok l'.
Proof. intros [A B]. unfold cells_ok. now rewrite A, B. Qed.
Lemma same_cells_refl l : same_cells l l. Proof. split; auto. Qed.
Lemma same_cells_trans l m n : same_cells l m -> same_cells m n -> same_cells l n.
Proof. intros [A B] [C D]. split; congruence. Qed.
Lemma same_cells_map (f : nat * cell F -> nat * cell F) l : (forall x, fst (f x) = fst x /\ ce_id (snd (f x)) = ce_id (snd x)) -> same_cells l (map f l).
Proof.
  intros H. split; unfold cids, cadr; rewrite map_map; apply map_ext; intros x; apply H.
Qed.
Lemma same_cells_length l m : same_cells l m -> length m = length l.
Proof. intros [_ A]. apply (f_equal (@length nat)) in A. unfold cadr in A. now rewrite !map_length in A. Qed.
Lemma cell_ref_id v (ce : cell F) : ce_id (cell_ref v ce) = ce_id ce.
Proof. unfold cell_ref. destruct (ce_kind ce); reflexivity. Qed.
Lemma bind_cells_same c (l l' : cl) : bind_cells c l = Some l' -> same_cells l l'.
Proof.
  revert l'. induction l as [|x l IH]; cbn; intros l' H; [injection H as <-; apply same_cells_refl|].
  unfold obind in H. destruct (cell_bind c (snd x)) as [y|] eqn:B; [|discriminate]. destruct (bind_cells c l) as [r|]; [|discriminate].
  injection H as <-. destruct (IH r eq_refl) as [A1 A2]. unfold same_cells, cids, cadr in *. cbn. rewrite A1, A2. split; [f_equal|reflexivity].
  unfold cell_bind, cell_bound, cell_enable, obind in B. cbn [ce_kind ce_set_mode] in B.
  destruct (ce_kind (snd x)); repeat (match type of B with context [nth_error ?h ?i] => destruct (nth_error h i); [|discriminate B] end); injection B as <-; reflexivity.
Qed.
Lemma on_cell_same (f : cell F -> cell F) s a : (forall ce, ce_id (f ce) = ce_id ce) -> same_cells (s_cells s) (s_cells (on_cell f s a)).
Proof. intros H. apply same_cells_map. intros x. destruct (Nat.eqb (fst x) a); cbn; auto. Qed.
Lemma seq_set_same s q : same_cells (s_cells s) (s_cells (seq_set s q)).
Proof.
  unfold seq_set. generalize (sq_entries q). intros es. revert s. induction es as [|e es IH]; intros s; [apply same_cells_refl|].
  cbn [fold_left]. eapply same_cells_trans; [|apply IH]. unfold seq_entry. destruct (find_cell (s_cells s) (e_id e)); [|apply same_cells_refl].
  apply on_cell_same. intros ce. unfold cell_set_ref. rewrite cell_ref_id. reflexivity.
Qed.
Lemma eq_cell_id c s (ce : cell F) q ev r : eq_cell c s ce q ev = Some r -> ce_id (fst (fst r)) = ce_id ce.
Proof.
  unfold eq_cell, obind. destruct (mode_off (ce_mode ce)); [intros H; injection H as <-; reflexivity|].
  destruct (cell_cmat c ce _); [|discriminate]. destruct (cell_err c ce) as [v|]; [|discriminate].
  do 3 (match goal with |- match ?x with Some _ => _ | None => _ end = _ -> _ => destruct x; [|discriminate] end).
  intros H; injection H as <-. cbn [fst snd ce_mode ce_set_eval]. destruct (m_force (ce_mode ce)); reflexivity.
Qed.
Lemma eq_cells_same c s (l : cl) : forall q ev r, eq_cells c s l q ev = Some r -> same_cells l (fst (fst r)).
Proof.
  induction l as [|x l IH]; cbn [eq_cells]; intros q ev r H; [injection H as <-; apply same_cells_refl|].
  unfold obind in H. destruct (eq_cell c s (snd x) q ev) as [y|] eqn:B; [|discriminate]. destruct (eq_cells c s l _ _) as [z|] eqn:G; [|discriminate].
  injection H as <-. destruct (IH _ _ _ G) as [A1 A2]. unfold same_cells, cids, cadr in *. cbn [map fst snd]. rewrite A1, A2, (eq_cell_id _ _ _ _ _ _ B). auto.
Qed.
Lemma ik_eq_same c s s' : ik_eq c s = Some s' -> same_cells (s_cells s) (s_cells s').
Proof.
  unfold ik_eq. destruct (eq_cells c s _ _ _) as [r|] eqn:H; [|discriminate]. intros X; injection X as <-. exact (eq_cells_same _ _ _ _ _ _ H).
Qed.
Lemma solve_rate_same c s s' : ik_solve_rate c s = Some s' -> same_cells (s_cells s) (s_cells s').
Proof.
  unfold ik_solve_rate, obind. destruct (ik_eq c s) as [s1|] eqn:H; [|discriminate]. apply ik_eq_same in H.
  destruct (s_jidx (joint_vel_ad s1)); [|discriminate]. destruct (scatter _ _ _ _); [|discriminate]. intros X; injection X as <-.
  cbn [s_cells s_set_vel]. unfold joint_vel_ad. destruct (x_le _ _); exact H.
Qed.
Lemma solve_one_same c s dis dt r : ik_solve_one c s dis dt = Some r -> same_cells (s_cells s) (s_cells (snd (fst r))).
Proof.
  unfold ik_solve_one, obind. destruct (ik_solve_rate c s) as [s1|] eqn:H; [|discriminate]. apply solve_rate_same in H.
  repeat (match goal with |- match ?x with Some _ => _ | None => _ end = _ -> _ => destruct x; [|discriminate] end).
  intros X; injection X as <-. exact H.
Qed.
Lemma solve_loop_same tol k : forall i rest c s dis r, solve_loop tol k i rest c s dis = Some r -> same_cells (s_cells s) (s_cells (snd (fst (fst r)))).
Proof.
  induction k as [|k IH]; cbn [solve_loop]; intros i rest c s dis r H; [injection H as <-; apply same_cells_refl|].
  unfold obind in H. destruct (ik_solve_one c s dis _) as [r1|] eqn:H1; [|discriminate]. apply solve_one_same in H1.
  destruct (match rest with Some _ => _ | None => _ end); [injection H as <-; exact H1|]. eapply same_cells_trans; [exact H1|eapply IH; exact H].
Qed.
Lemma alloc_cmat_cells (s s' : solver F) : alloc_cmat s = Some s' -> s_cells s' = s_cells s.
Proof.
  unfold alloc_cmat, obind. destruct (s_cells s) eqn:Q; [intros H; injection H as <-; auto|]. destruct (s_jidx s) as [[|i idx]|]; [| |discriminate]; intros H; injection H as <-; auto.
Qed.
Lemma alloc_srv_cells (s s' : solver F) : alloc_srv s = Some s' -> s_cells s' = s_cells s.
Proof.
  unfold alloc_srv. destruct (s_cells s) eqn:Q; [intros H; injection H as <-; auto|]. intros H. apply alloc_cmat_cells in H. cbn [s_cells] in H. congruence.
Qed.
Lemma alloc_index_cells c (s s' : solver F) : alloc_index c s = Some s' -> s_cells s' = s_cells s.
Proof.
  unfold alloc_index, obind. destruct (sw_index 0 _); [intros H; injection H as <-; auto|].
  destruct (chain_index_size _ _); [|discriminate]. destruct (weights _ _ _); [|discriminate]. intros H. apply alloc_cmat_cells in H. exact H.
Qed.
Lemma joint_reg_sw_cells c (s : solver F) i b w r : joint_reg_sw c s i b w = Some r -> s_cells (fst r) = s_cells s.
Proof.
  unfold joint_reg_sw. destruct (Nat.ltb i _); [|intros H; injection H as <-; auto].
  destruct (alloc_index c _) as [s'|] eqn:A; [|discriminate]. intros H; injection H as <-. apply alloc_index_cells in A. exact A.
Qed.
Lemma reg_all_cells c w h : forall i (s : solver F) r, reg_all c w s i h = Some r -> s_cells (fst r) = s_cells s.
Proof.
  induction h as [|l h IH]; cbn [reg_all]; intros i s r H; [injection H as <-; auto|]. destruct (Nat.ltb 0 _); [|eauto].
  unfold obind, joint_reg in H. destruct (joint_reg_sw c s i true w) as [r1|] eqn:A; [|discriminate]. apply joint_reg_sw_cells in A.
  destruct (snd r1); [rewrite (IH _ _ _ H); exact A|injection H as <-; exact A].
Qed.

(** Every call keeps the list well-formed. *)
Lemma has_true a (s : solver F) : has a s = true <-> In a (cadr (s_cells s)).
Proof.
  unfold has. rewrite existsb_exists. split; [intros (x & A & B); apply Nat.eqb_eq in B; subst; exact A|intros H; exists a; split; [exact H|apply Nat.eqb_refl]].
Qed.
Lemma run_op_cells c s o c' s' : run_op c s o = Some (c', s') -> cells_ok (s_cells s) -> cells_ok (s_cells s').
Proof.
  intros H OK. destruct o; cbn [run_op] in H; unfold option_map in H.
  - destruct (joint_reg c s i w) as [r|] eqn:A; [|discriminate]. injection H as <- <-. rewrite (joint_reg_sw_cells _ _ _ _ _ _ A). exact OK.
  - destruct (joint_unreg c s i) as [r|] eqn:A; [|discriminate]. injection H as <- <-. rewrite (joint_reg_sw_cells _ _ _ _ _ _ A). exact OK.
  - destruct (joint_reg_all c s w) as [r|] eqn:A; [|discriminate]. injection H as <- <-. rewrite (reg_all_cells _ _ _ _ _ _ A). exact OK.
  - destruct (has a s) eqn:B; [discriminate|]. destruct (cell_reg s a k attr m) as [s1|] eqn:A; [|discriminate]. injection H as <- <-.
    unfold cell_reg in A. apply alloc_srv_cells in A. rewrite A. cbn [s_cells s_set_cells]. apply insert_cell_ok; [exact OK|]. rewrite <- has_true. congruence.
  - destruct (cell_unreg s a) as [s1|] eqn:A; [|discriminate]. injection H as <- <-. unfold cell_unreg, obind in A.
    destruct (purge (s_cells s) a) as [l|] eqn:P; [|discriminate]. apply alloc_srv_cells in A. rewrite A. cbn [s_cells s_set_cells]. eapply purge_ok; eauto.
  - destruct (has a s); [|discriminate]. injection H as <- <-. eapply same_cells_ok; [|exact OK]. apply on_cell_same. intros ce; unfold cell_set_ref, cell_set_ref_force; rewrite cell_ref_id; reflexivity.
  - destruct (has a s); [|discriminate]. injection H as <- <-. eapply same_cells_ok; [|exact OK]. apply on_cell_same. intros ce; unfold cell_set_ref, cell_set_ref_force; rewrite cell_ref_id; reflexivity.
  - destruct (has a s); [|discriminate]. injection H as <- <-. eapply same_cells_ok; [|exact OK]. apply on_cell_same. reflexivity.
  - destruct (has a s); [|discriminate]. injection H as <- <-. eapply same_cells_ok; [|exact OK]. apply on_cell_same. reflexivity.
  - injection H as <- <-. eapply same_cells_ok; [|exact OK]. apply same_cells_map. auto.
  - destruct (ik_bind c s) as [s1|] eqn:A; [|discriminate]. injection H as <- <-. unfold ik_bind in A. destruct (bind_cells c (s_cells s)) as [l|] eqn:B; [|discriminate].
    injection A as <-. eapply same_cells_ok; [|exact OK]. exact (bind_cells_same _ _ _ B).
  - injection H as <- <-. eapply same_cells_ok; [|exact OK]. apply same_cells_map. auto.
  - injection H as <- <-. eapply same_cells_ok; [|exact OK]. apply seq_set_same.
  - destruct (ik_solve_rate c s) as [s1|] eqn:A; [|discriminate]. injection H as <- <-. eapply same_cells_ok; [|exact OK]. exact (solve_rate_same _ _ _ A).
  - destruct (ik_solve_one c s dis dt) as [r|] eqn:A; [|discriminate]. injection H as H. eapply same_cells_ok; [|exact OK]. apply solve_one_same in A. rewrite H in A. exact A.
  - destruct (ik_solve c s dis tol iter) as [r|] eqn:A; [|discriminate]. injection H as H. unfold ik_solve, obind in A.
    destruct (chain_get_joint_dis_all c dis); [|discriminate]. apply solve_loop_same in A. rewrite H in A. cbn [snd] in A. eapply same_cells_ok; [exact A|].
    eapply same_cells_ok; [|exact OK]. apply same_cells_map. auto.
  - destruct (chain_fk c v); [|discriminate]. injection H as <- <-. exact OK.
Qed.
Lemma run_cells ops : forall c s c' s', run c s ops = Some (c', s') -> cells_ok (s_cells s) -> cells_ok (s_cells s').
Proof.
  induction ops as [|o ops IH]; cbn [run]; intros c s c' s' H OK; [injection H as <- <-; exact OK|]. unfold obind in H.
  destruct (run_op c s o) as [[c1 s1]|] eqn:A; [|discriminate]. eapply IH; [exact H|]. eapply run_op_cells; eauto.
Qed.
Lemma create_cells c : cells_ok (s_cells (ik_create c)).
Proof. split; constructor. Qed.
End Cells.
