(** * IK_Erase: the fourth double of the accumulated error of a position cell is never read. *)
From Coq Require Import List Arith Lia Bool.
From Verif Require Import Num Vec Motor_Model Joint_Model Body_Model Tree Link_Model Jacobi_Model IK_Model IK_Spec.
Import ListNotations.

Section Erase.
Context {F : Type} {N : Num F} {E : Ext F} {I : IKExt F}.
Local Open Scope num_scope.
Notation cl := (list (nat * cell F)).

Definition er (ce : cell F) : cell F :=
  match ce_kind ce with
  | WldPos | L2LPos | COM => ce_set_ae (Q4 (q0 (ce_ae ce)) (q1 (ce_ae ce)) (q2 (ce_ae ce)) 0) ce
  | _ => ce
  end.
Definition ers (l : cl) : cl := map (fun x => (fst x, er (snd x))) l.
Definition es (s : solver F) : solver F := s_set_cells (ers (s_cells s)) s.
Lemma option_map_map {A B C} (f : A -> B) (g : B -> C) o : option_map g (option_map f o) = option_map (fun x => g (f x)) o.
Proof. destruct o; reflexivity. Qed.
Ltac er := match goal with ce : cell F |- _ => destruct ce as [? [] ? ? ? ? ? ?]; reflexivity end.

Lemma er_kind ce : ce_kind (er ce) = ce_kind ce. Proof. er. Qed.
Lemma er_id ce : ce_id (er ce) = ce_id ce. Proof. er. Qed.
Lemma er_attr ce : ce_attr (er ce) = ce_attr ce. Proof. er. Qed.
Lemma er_mode ce : ce_mode (er ce) = ce_mode ce. Proof. er. Qed.
Lemma er_cmat c ce m : cell_cmat c (er ce) m = cell_cmat c ce m. Proof. er. Qed.
Lemma er_err c ce : cell_err c (er ce) = cell_err c ce. Proof. er. Qed.
Lemma er_set_id i ce : ce_set_id i (er ce) = er (ce_set_id i ce). Proof. er. Qed.
Lemma er_set_mode m ce : ce_set_mode m (er ce) = er (ce_set_mode m ce). Proof. er. Qed.
Lemma er_set_w w ce : ce_set_w w (er ce) = er (ce_set_w w ce). Proof. er. Qed.
Lemma er_set_pos p ce : ce_set_pos p (er ce) = er (ce_set_pos p ce). Proof. er. Qed.
Lemma er_set_att p ce : ce_set_att p (er ce) = er (ce_set_att p ce). Proof. er. Qed.
Lemma er_set_eval p ce : ce_set_eval p (er ce) = er (ce_set_eval p ce). Proof. er. Qed.
Lemma er_enable ce : cell_enable (er ce) = er (cell_enable ce). Proof. er. Qed.
Lemma er_disable ce : cell_disable (er ce) = er (cell_disable ce). Proof. er. Qed.
Lemma er_acm_zero ce : cell_acm_zero (er ce) = er (cell_acm_zero ce). Proof. er. Qed.
Lemma er_init k a m : er (cell_init k a m) = cell_init k a m. Proof. unfold er. destruct k; reflexivity. Qed.
Lemma er_ref v ce : cell_ref v (er ce) = er (cell_ref v ce). Proof. er. Qed.
Lemma er_set_ref v ce : cell_set_ref v (er ce) = er (cell_set_ref v ce).
Proof. unfold cell_set_ref. rewrite er_enable, er_ref. reflexivity. Qed.
Lemma er_set_ref_force v ce : cell_set_ref_force v (er ce) = er (cell_set_ref_force v ce).
Proof. unfold cell_set_ref_force. rewrite er_mode, er_set_mode, er_ref. reflexivity. Qed.
Lemma er_bind c ce : cell_bind c (er ce) = option_map er (cell_bind c ce).
Proof.
  unfold cell_bind. rewrite er_enable. generalize (cell_enable ce). clear ce. intros ce. unfold cell_bound. rewrite er_kind, er_attr.
  destruct (ce_kind ce); cbn [obind option_map];
    repeat (match goal with |- context [nth_error ?h ?i] => destruct (nth_error h i); cbn [obind option_map] end);
    rewrite ?er_set_pos, ?er_set_att; reflexivity.
Qed.
Lemma er_acm ce v : cell_acm (er ce) v = (er (fst (cell_acm ce v)), snd (cell_acm ce v)). Proof. er. Qed.

Lemma ers_length l : length (ers l) = length l. Proof. apply map_length. Qed.
Lemma ers_nil l : ers l = [] <-> l = []. Proof. destruct l; split; cbn; congruence. Qed.
Lemma ers_insert_from l a ce : insert_from (ers l) a (er ce) = ers (insert_from l a ce).
Proof.
  induction l as [|x l IH]; [reflexivity|]. destruct l as [|y t].
  - cbn. rewrite er_id, er_set_id. reflexivity.
  - change (insert_from (x :: y :: t) a ce) with
      (if Nat.eqb (ce_id (snd y)) (S (ce_id (snd x))) then x :: insert_from (y :: t) a ce
       else x :: (a, ce_set_id (S (ce_id (snd x))) ce) :: y :: t).
    change (insert_from (ers (x :: y :: t)) a (er ce)) with
      (if Nat.eqb (ce_id (er (snd y))) (S (ce_id (er (snd x)))) then (fst x, er (snd x)) :: insert_from (ers (y :: t)) a (er ce)
       else (fst x, er (snd x)) :: (a, ce_set_id (S (ce_id (er (snd x)))) (er ce)) :: ers (y :: t)).
    rewrite !er_id, IH, er_set_id. destruct (Nat.eqb _ _); reflexivity.
Qed.
Lemma ers_insert l a ce : insert_cell (ers l) a (er ce) = ers (insert_cell l a ce).
Proof.
  destruct l as [|x t]; [cbn; rewrite er_set_id; reflexivity|].
  change (insert_cell (ers (x :: t)) a (er ce)) with
    (if Nat.eqb (ce_id (er (snd x))) 0 then insert_from (ers (x :: t)) a (er ce) else (a, ce_set_id 0 (er ce)) :: ers (x :: t)).
  change (insert_cell (x :: t) a ce) with (if Nat.eqb (ce_id (snd x)) 0 then insert_from (x :: t) a ce else (a, ce_set_id 0 ce) :: x :: t).
  rewrite er_id, ers_insert_from, er_set_id. destruct (Nat.eqb _ _); reflexivity.
Qed.
Lemma ers_purge l a : purge (ers l) a = option_map ers (purge l a).
Proof.
  induction l as [|x t IH]; [reflexivity|]. cbn [ers map purge fst]. fold (ers t). rewrite IH.
  destruct (Nat.eqb (fst x) a); [reflexivity|]. destruct (purge t a); reflexivity.
Qed.
Lemma ers_find l i : find_cell (ers l) i = find_cell l i.
Proof.
  induction l as [|x t IH]; [reflexivity|]. cbn [ers map find_cell fst snd]. fold (ers t). rewrite er_id, IH. reflexivity.
Qed.
Lemma ers_bind c l : bind_cells c (ers l) = option_map ers (bind_cells c l).
Proof.
  induction l as [|x t IH]; [reflexivity|]. cbn [ers map bind_cells fst snd]. fold (ers t). rewrite er_bind, IH.
  destruct (cell_bind c (snd x)); [|reflexivity]. cbn [obind option_map]. destruct (bind_cells c t); reflexivity.
Qed.

Lemma es_has a s : has a (es s) = has a s.
Proof. unfold has, es. cbn. unfold ers. rewrite map_map. reflexivity. Qed.
Lemma es_alloc_cmat s : alloc_cmat (es s) = option_map es (alloc_cmat s).
Proof.
  destruct s as [sw w vel ev [|x t] [[|i idx]|] ofs jv wn cm sr we rw]; unfold alloc_cmat, es, s_set_cmat, s_set_cells;
    cbn [s_sw s_weight s_vel s_eval s_cells s_jidx s_jofs s_jvel s_wn s_cmat s_csrv s_cwe s_rows]; rewrite ?ers_length; reflexivity.
Qed.
Lemma es_alloc_srv s : alloc_srv (es s) = option_map es (alloc_srv s).
Proof.
  destruct s as [sw w vel ev [|x t] jx ofs jv wn cm sr we rw]; [reflexivity|]. unfold alloc_srv.
  cbn [es s_set_cells s_sw s_weight s_vel s_eval s_cells s_jidx s_jofs s_jvel s_wn s_cmat s_csrv s_cwe s_rows ers map].
  fold (ers t). change ((fst x, er (snd x)) :: ers t) with (ers (x :: t)). rewrite ers_length, <- es_alloc_cmat. reflexivity.
Qed.
Lemma es_alloc_index c s : alloc_index c (es s) = option_map es (alloc_index c s).
Proof.
  unfold alloc_index. cbn [es s_set_cells s_sw s_weight s_vel s_eval s_cells s_jidx s_jofs s_jvel s_wn s_cmat s_csrv s_cwe s_rows].
  destruct (sw_index 0 _) as [|i idx]; [reflexivity|].
  destruct (chain_index_size _ _); cbn [obind]; [|reflexivity]. destruct (weights _ _ _); cbn [obind]; [|reflexivity].
  rewrite <- es_alloc_cmat. reflexivity.
Qed.
Definition es1 (r : solver F * bool) := (es (fst r), snd r).
Lemma es_joint_reg_sw c s i b w : joint_reg_sw c (es s) i b w = option_map es1 (joint_reg_sw c s i b w).
Proof.
  unfold joint_reg_sw. destruct (Nat.ltb i _); [|reflexivity].
  rewrite option_map_map. cbn [es1].
  match goal with |- option_map _ (alloc_index c ?x) = option_map _ (alloc_index c ?y) => change x with (es y) end.
  rewrite es_alloc_index, option_map_map. reflexivity.
Qed.
Lemma es_reg_all c w h : forall s i, reg_all c w (es s) i h = option_map es1 (reg_all c w s i h).
Proof.
  induction h as [|l t IH]; intros s i; [reflexivity|]. cbn [reg_all]. destruct (Nat.ltb 0 _); [|apply IH].
  unfold joint_reg. rewrite es_joint_reg_sw. destruct (joint_reg_sw c s i true w) as [[s' b]|]; [|reflexivity].
  cbn [obind option_map es1 fst snd]. destruct b; [apply IH|reflexivity].
Qed.
Lemma es_on_cell f s a : (forall ce, f (er ce) = er (f ce)) -> on_cell f (es s) a = es (on_cell f s a).
Proof.
  intros H. unfold on_cell, es, s_set_cells, ers. cbn [s_sw s_weight s_vel s_eval s_cells s_jidx s_jofs s_jvel s_wn s_cmat s_csrv s_cwe s_rows]. rewrite !map_map. f_equal. apply map_ext. intros x. cbn.
  destruct (Nat.eqb (fst x) a); cbn; [rewrite H|]; reflexivity.
Qed.
Lemma es_seq s q : seq_set (es s) q = es (seq_set s q).
Proof.
  unfold seq_set. generalize (sq_entries q). clear q. intros l. revert s. induction l as [|e l IH]; intros s; [reflexivity|].
  cbn [fold_left]. rewrite <- IH. f_equal. unfold seq_entry. cbn [es s_set_cells s_cells]. rewrite ers_find.
  destruct (find_cell _ _); [|reflexivity]. apply es_on_cell. intros ce. rewrite er_set_w, er_set_ref. reflexivity.
Qed.

Lemma es_eq_cell c s ce q ev : eq_cell c (es s) (er ce) q ev = option_map (fun r => (er (fst (fst r)), snd (fst r), snd r)) (eq_cell c s ce q ev).
Proof.
  unfold eq_cell. rewrite er_mode, er_attr, er_cmat, er_err. destruct (mode_off _); [reflexivity|].
  destruct (cell_cmat _ _ _) as [jm|]; [|reflexivity]. cbn [obind]. destruct (cell_err c ce) as [srv|]; [|reflexivity]. cbn [obind].
  rewrite er_set_eval. set (ce1 := ce_set_eval _ ce). rewrite er_mode.
  assert (H : (if m_force (ce_mode ce1) then cell_acm (er ce1) srv else (er ce1, srv)) =
              (er (fst (if m_force (ce_mode ce1) then cell_acm ce1 srv else (ce1, srv))), snd (if m_force (ce_mode ce1) then cell_acm ce1 srv else (ce1, srv)))).
  { destruct (m_force _); [apply er_acm|reflexivity]. }
  rewrite H. generalize (if m_force (ce_mode ce1) then cell_acm ce1 srv else (ce1, srv)). intros r. cbn [fst snd].
  repeat match goal with |- context [cell_eq c (es s) ?b ?j ?x ?w ?q] => change (cell_eq c (es s) b j x w q) with (cell_eq c s b j x w q) end.
  destruct (cell_eq c s (m_x _) _ _ _ q) as [q'|]; [|reflexivity]. cbn [obind].
  change (cell_eq c (es s)) with (cell_eq c s).
  destruct (cell_eq c s (m_y _) _ _ _ q') as [q''|]; [|reflexivity]. cbn [obind].
  destruct (cell_eq c s (m_z _) _ _ _ q'') as [q3|]; reflexivity.
Qed.
Lemma es_eq_cells c s l : forall q ev, eq_cells c (es s) (ers l) q ev = option_map (fun r => (ers (fst (fst r)), snd (fst r), snd r)) (eq_cells c s l q ev).
Proof.
  induction l as [|x t IH]; intros q ev; [reflexivity|]. cbn [ers map eq_cells fst snd]. fold (ers t). rewrite es_eq_cell.
  destruct (eq_cell c s (snd x) q ev) as [[[ce' q'] ev']|]; [|reflexivity]. cbn [obind option_map fst snd]. rewrite IH.
  destruct (eq_cells c s t q' ev') as [[[l' q''] ev'']|]; reflexivity.
Qed.
Lemma es_eq c s : ik_eq c (es s) = option_map es (ik_eq c s).
Proof.
  unfold ik_eq. rewrite option_map_map. cbn [es s_set_cells s_sw s_weight s_vel s_eval s_cells s_jidx s_jofs s_jvel s_wn s_cmat s_csrv s_cwe s_rows].
  fold (es s). rewrite es_eq_cells, option_map_map. reflexivity.
Qed.
Lemma es_rate c s : ik_solve_rate c (es s) = option_map es (ik_solve_rate c s).
Proof.
  unfold ik_solve_rate. rewrite es_eq. destruct (ik_eq c s) as [s1|]; [|reflexivity]. cbn [obind option_map].
  assert (H : joint_vel_ad (es s1) = es (joint_vel_ad s1)).
  { unfold joint_vel_ad. cbn [es s_set_cells s_wn s_cmat s_csrv s_cwe s_rows]. destruct (x_le _ _); reflexivity. }
  rewrite H. generalize (joint_vel_ad s1). intros s2. cbn [es s_set_cells s_jidx]. destruct (s_jidx s2) as [idx|]; [|reflexivity].
  cbn [obind]. rewrite option_map_map. reflexivity.
Qed.
Lemma es_one c s dis dt : ik_solve_one c (es s) dis dt = option_map (fun r => (fst (fst r), es (snd (fst r)), snd r)) (ik_solve_one c s dis dt).
Proof.
  unfold ik_solve_one. rewrite es_rate. destruct (ik_solve_rate c s) as [s1|]; [|reflexivity]. cbn [obind option_map].
  change (s_vel (es s1)) with (s_vel s1).
  destruct (chain_cat_joint_dis_all c dis dt (s_vel s1)) as [d1|]; [|reflexivity]. cbn [obind].
  destruct (chain_set_joint_dis_all c d1) as [c1|]; [|reflexivity]. cbn [obind].
  destruct (chain_get_joint_dis_all c1 d1) as [d2|]; [|reflexivity]. cbn [obind].
  destruct (chain_update_fk c1); reflexivity.
Qed.
Definition es3 (r : chain F * solver F * list F * option nat) := (fst (fst (fst r)), es (snd (fst (fst r))), snd (fst r), snd r).
Lemma es_loop tol k : forall i rest c s dis, solve_loop tol k i rest c (es s) dis = option_map es3 (solve_loop tol k i rest c s dis).
Proof.
  induction k as [|k IH]; intros i rest c s dis; [reflexivity|]. cbn [solve_loop]. rewrite es_one.
  destruct (ik_solve_one c s dis 1) as [[[c' s'] d']|]; [|reflexivity]. cbn [obind option_map fst snd].
  change (s_eval (es s')) with (s_eval s'). destruct (match rest with Some e => ntiny tol (s_eval s' - e) | None => false end); [reflexivity|apply IH].
Qed.
Lemma es_acm_zero s : ik_acm_zero (es s) = es (ik_acm_zero s).
Proof. unfold ik_acm_zero, es, s_set_cells, ers. cbn [s_sw s_weight s_vel s_eval s_cells s_jidx s_jofs s_jvel s_wn s_cmat s_csrv s_cwe s_rows]. rewrite !map_map. f_equal. apply map_ext. intros x. cbn. rewrite er_acm_zero. reflexivity. Qed.

Definition es2 (r : chain F * solver F) := (fst r, es (snd r)).
Lemma es_srv_cells s l : option_map es (alloc_srv (s_set_cells l s)) = alloc_srv (s_set_cells (ers l) (es s)).
Proof. rewrite <- es_alloc_srv. reflexivity. Qed.
Lemma es_op c s o : run_op c (es s) o = option_map es2 (run_op c s o).
Proof.
  destruct o; cbn [run_op].
  - unfold joint_reg. rewrite es_joint_reg_sw, !option_map_map. reflexivity.
  - unfold joint_unreg. rewrite es_joint_reg_sw, !option_map_map. reflexivity.
  - unfold joint_reg_all. rewrite es_reg_all, !option_map_map. reflexivity.
  - rewrite es_has. destruct (has a s); [reflexivity|]. unfold cell_reg. cbn [es s_set_cells s_cells]. fold (es s).
    rewrite <- (er_init k attr m) at 1. rewrite ers_insert, <- es_srv_cells, !option_map_map. reflexivity.
  - unfold cell_unreg. cbn [es s_set_cells s_cells]. fold (es s). rewrite ers_purge. destruct (purge (s_cells s) a) as [l|]; [|reflexivity].
    cbn [obind option_map]. rewrite <- es_srv_cells, !option_map_map. reflexivity.
  - rewrite es_has, es_on_cell by apply er_set_ref. destruct (has a s); reflexivity.
  - rewrite es_has, es_on_cell by apply er_set_ref_force. destruct (has a s); reflexivity.
  - rewrite es_has, es_on_cell by apply er_set_mode. destruct (has a s); reflexivity.
  - rewrite es_has, es_on_cell by apply er_set_w. destruct (has a s); reflexivity.
  - cbn [option_map]. unfold es2, es, ik_deactivate, s_set_cells, ers. cbn [fst snd s_sw s_weight s_vel s_eval s_cells s_jidx s_jofs s_jvel s_wn s_cmat s_csrv s_cwe s_rows].
    rewrite !map_map. do 3 f_equal. apply map_ext. intros x. cbn. rewrite er_disable. reflexivity.
  - unfold ik_bind. cbn [es s_set_cells s_cells]. rewrite ers_bind, !option_map_map. reflexivity.
  - cbn [option_map]. rewrite es_acm_zero. reflexivity.
  - cbn [option_map]. rewrite es_seq. reflexivity.
  - rewrite es_rate, !option_map_map. reflexivity.
  - rewrite es_one, !option_map_map. reflexivity.
  - unfold ik_solve. destruct (chain_get_joint_dis_all c dis) as [d|]; [|reflexivity]. cbn [obind]. rewrite es_acm_zero, es_loop, !option_map_map. reflexivity.
  - rewrite !option_map_map. reflexivity.
Qed.
Lemma es_run ops : forall c s, run c (es s) ops = option_map es2 (run c s ops).
Proof.
  induction ops as [|o t IH]; intros c s; [reflexivity|]. cbn [run]. rewrite es_op. destruct (run_op c s o) as [[c' s']|]; [|reflexivity].
  cbn [obind option_map es2 fst snd]. apply IH.
Qed.
End Erase.
