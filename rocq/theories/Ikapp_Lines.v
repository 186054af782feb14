(** * Ikapp_Lines: the loop of rk_ik as calls of the solver. *)
From Coq Require Import List Arith Lia Bool Field.
From Verif Require Import Num NumFacts Vec VecFacts Motor_Model Joint_Model Joint_Spec Joint_Proofs Body_Model Tree Tree_Proofs Link_Model Link_Spec Link_Properties Chain_Proofs Chain_Properties Jacobi_Model Kin_Spec Kin_Proofs Kin_Properties Jacobi_Proofs
  IK_Model IK_Laws IK_Spec IK_Cells IK_Index IK_Dims IK_Rows IK_Usable IKCell_Properties IKSeq_Properties IKRow_Properties IKSolve_Properties Ikapp_Model Ikapp_Spec Ikapp_Proofs Ikapp_Hold.
Import ListNotations.

Section Lines.
Context {F : Type} {N : Num F} {L : NumLaws F N} {E : Ext F} {X : ExtLaws F N E} {I : IKExt F}.
Notation registered c ops := (asked_all (length (c_links c)) (movable c) ops).

(** ** The state the loop begins with *)
Lemma empty_stable (j : joint F) : joint_size j = 0 -> stable j.
Proof. destruct j; cbn; try discriminate. reflexivity. Qed.
Lemma settable_steady (c : chain F) : usable c -> all_ordered c -> settable c -> steady c.
Proof.
  intros U O S l Hl. unfold settable, chain_set_joint_dis_all in S. destruct (set_all joint_set_dis (c_links c) (displacements c)) as [h|] eqn:Q; [|discriminate].
  assert (Hh : h = c_links c) by (injection S as S; rewrite <- S; reflexivity). subst h. apply set_all_rel in Q. apply In_nth_error in Hl as (i & Hl).
  destruct (Forall2_nth_r _ _ _ Q i l Hl) as (l0 & H0 & RR). assert (l0 = l) by congruence. subst l0. unfold set_rel in RR. destruct (l_offset l) as [o|] eqn:Of.
  - destruct RR as (j & J & K). assert (Ej : l_joint l = j) by (rewrite K; reflexivity). rewrite <- Ej in J. eapply set_dis_stable; [|exact J]. exact (O i l Hl).
  - apply empty_stable. pose proof (placed_nth 0 (c_links c) i l (offsets_placed c (proj1 (proj2 U))) Hl) as P. rewrite Of in P. destruct (Nat.ltb_spec 0 (lsize l)); [discriminate|]. unfold lsize in *. lia.
Qed.
Lemma alloc_cmat_vel (s s' : solver F) : alloc_cmat s = Some s' -> s_vel s' = s_vel s.
Proof. unfold alloc_cmat, obind. intros H. repeat match type of H with match ?t with _ => _ end = _ => destruct t; try discriminate H end; injection H as <-; reflexivity. Qed.
Lemma alloc_index_vel c (s s' : solver F) : alloc_index c s = Some s' -> s_vel s' = s_vel s.
Proof.
  unfold alloc_index, obind. intros H. cbv zeta in H. repeat match type of H with match ?t with _ => _ end = _ => destruct t; try discriminate H end; try (injection H as <-; reflexivity);
  apply alloc_cmat_vel in H; exact H.
Qed.
Lemma alloc_srv_vel (s s' : solver F) : alloc_srv s = Some s' -> s_vel s' = s_vel s.
Proof. unfold alloc_srv. destruct (s_cells s); intros H; [injection H as <-; reflexivity|]. apply alloc_cmat_vel in H. exact H. Qed.
Lemma reg_sw_vel c (s : solver F) i b w s' r : joint_reg_sw c s i b w = Some (s', r) -> s_vel s' = s_vel s.
Proof.
  unfold joint_reg_sw. destruct (Nat.ltb _ _); intros H; [|injection H as <- _; reflexivity]. destruct (alloc_index _ _) as [s2|] eqn:A; [|discriminate]. injection H as <- _. apply alloc_index_vel in A. exact A.
Qed.
Lemma reg_all_vel c w (h : list (link F)) : forall (s : solver F) i s' r, reg_all c w s i h = Some (s', r) -> s_vel s' = s_vel s.
Proof.
  induction h as [|l h IH]; cbn [reg_all]; intros s i s' r H; [injection H as <- _; reflexivity|]. destruct (Nat.ltb _ _); [|eauto]. unfold obind in H.
  destruct (joint_reg c s i w) as [[s2 b]|] eqn:A; [|discriminate]. apply reg_sw_vel in A. cbn [fst snd] in H. destruct b; [rewrite (IH _ _ _ _ H); exact A|injection H as <- _; exact A].
Qed.
Lemma seq_vel e : forall (s : solver F), s_vel (seq_set s e) = s_vel s.
Proof.
  unfold seq_set. induction (sq_entries e) as [|x l IH]; intros s; [reflexivity|]. cbn [fold_left]. rewrite IH. unfold seq_entry. destruct (find_cell _ _); reflexivity.
Qed.
Lemma op_keeps (c : chain F) (s : solver F) o c2 s2 : usable c -> all_ordered c -> steady c -> setup o = true -> run_op c s o = Some (c2, s2) ->
  all_ordered c2 /\ steady c2 /\ s_vel s2 = s_vel s.
Proof.
  intros U O S Q A. assert (G : c2 = c -> s_vel s2 = s_vel s -> all_ordered c2 /\ steady c2 /\ s_vel s2 = s_vel s) by (intros -> V; auto).
  destruct o; try discriminate Q; cbn [run_op] in A.
  - destruct (joint_reg c s i w) as [[s1 b]|] eqn:B; [|discriminate]. injection A as <- <-. apply G; auto. eapply reg_sw_vel; exact B.
  - destruct (joint_unreg c s i) as [[s1 b]|] eqn:B; [|discriminate]. injection A as <- <-. apply G; auto. eapply reg_sw_vel; exact B.
  - destruct (joint_reg_all c s w) as [[s1 b]|] eqn:B; [|discriminate]. injection A as <- <-. apply G; auto. eapply reg_all_vel; exact B.
  - destruct (has a s); [discriminate|]. destruct (cell_reg s a k attr m) as [s1|] eqn:B; [|discriminate]. injection A as <- <-. apply G; auto. apply alloc_srv_vel in B. exact B.
  - unfold cell_unreg, obind in A. destruct (purge (s_cells s) a); [|discriminate]. destruct (alloc_srv _) as [s1|] eqn:B; [|discriminate]. injection A as <- <-. apply G; auto. apply alloc_srv_vel in B. exact B.
  - destruct (has a s); [|discriminate]. injection A as <- <-. apply G; reflexivity.
  - destruct (has a s); [|discriminate]. injection A as <- <-. apply G; reflexivity.
  - destruct (has a s); [|discriminate]. injection A as <- <-. apply G; reflexivity.
  - destruct (has a s); [|discriminate]. injection A as <- <-. apply G; reflexivity.
  - injection A as <- <-. apply G; reflexivity.
  - unfold ik_bind in A. destruct (bind_cells c (s_cells s)); [|discriminate]. injection A as <- <-. apply G; reflexivity.
  - injection A as <- <-. apply G; reflexivity.
  - injection A as <- <-. apply G; [reflexivity|apply seq_vel].
  - unfold chain_fk in A. destruct (chain_set_joint_dis_all c v) as [c1|] eqn:B; [|discriminate]. cbn [obind] in A. destruct (chain_update_fk c1) as [c3|] eqn:D; [|discriminate]. injection A as <- <-.
    pose proof (usable_set _ _ _ U B) as U1. pose proof (fk_joints c1 c3 U1 D) as Fj. split; [|split; [|reflexivity]].
    + eapply respects_ordered; [exact O|]. eapply respects_joints; [eapply set_respects; eauto|exact Fj].
    + eapply joints_steady; [exact Fj|]. eapply set_steady; eauto.
Qed.
Lemma setup_keeps ops : forall (c : chain F) (s : solver F) c1 s1, usable c -> all_ordered c -> steady c -> forallb setup ops = true -> run c s ops = Some (c1, s1) ->
  all_ordered c1 /\ steady c1 /\ s_vel s1 = s_vel s.
Proof.
  induction ops as [|o ops IH]; cbn [run forallb]; intros c s c1 s1 U O S Q H; [injection H as <- <-; auto|]. apply andb_prop in Q as [Q1 Q2].
  destruct (run_op c s o) as [[c2 s2]|] eqn:A; [|discriminate]. cbn [obind fst snd] in H. pose proof (run_op_usable c s o c2 s2 U A) as [U2 _].
  destruct (op_keeps c s o c2 s2 U O S Q1 A) as (K1 & K2 & K3). destruct (IH _ _ _ _ U2 K1 K2 Q2 H) as (B1 & B2 & B3). rewrite B3, K3. auto.
Qed.
Lemma prepared_ok (c : chain F) ops c1 s : le_laws x_le -> prepared c ops c1 s -> state_ok c ops c1 s.
Proof.
  intros LE (U & R & Po & O & S & V & _ & _ & K).
  split; [exact R|]. split; [apply (run_inv LE ops c (fun _ => None) (ik_create c) c1 s (create_inv c) R)|]. split; [exact Po|]. split; [exact O|]. split; [apply settable_steady; auto using posed_usable|]. split; [|exact K].
  intros i l _ _. rewrite V. reflexivity.
Qed.

(** ** Joint types *)
Definition jtypes (c : chain F) := map (fun l : link F => jtype_of (l_joint l)) (c_links c).
Lemma set_types (c c1 : chain F) v : chain_set_joint_dis_all c v = Some c1 -> jtypes c1 = jtypes c.
Proof.
  unfold chain_set_joint_dis_all, jtypes. destruct (set_all joint_set_dis (c_links c) v) as [h|] eqn:Q; [|discriminate]. intros H; injection H as <-. cbn. apply set_all_rel in Q.
  induction Q as [|l l' t t' R Q IH]; [reflexivity|]. cbn. rewrite IH. f_equal. unfold set_rel in R. destruct (l_offset l); [|now subst]. destruct R as (j & J & ->). cbn. eapply set_dis_type; eauto.
Qed.
Lemma steps_types n : forall (c : chain F) s d c2 s2 d2, usable c -> steps n (c, s, d) = Some (c2, s2, d2) -> jtypes c2 = jtypes c.
Proof.
  induction n as [|n IH]; cbn [steps fst snd]; intros c s d c2 s2 d2 U H; [injection H as <- _ _; reflexivity|]. destruct (ik_solve_one c s d 1%num) as [[[c1 s1] d1]|] eqn:A; [|discriminate]. cbn [obind] in H.
  rewrite (IH _ _ _ _ _ _ (posed_usable _ (solve_one_posed _ _ _ _ _ _ _ U A)) H). unfold ik_solve_one, obind in A. destruct (ik_solve_rate c s); [|discriminate]. destruct (chain_cat_joint_dis_all _ _ _ _); [|discriminate].
  destruct (chain_set_joint_dis_all c _) as [c3|] eqn:B; [|discriminate]. destruct (chain_get_joint_dis_all _ _); [|discriminate]. destruct (chain_update_fk c3) as [c4|] eqn:D; [|discriminate]. injection A as <- _ _.
  rewrite <- (set_types _ _ _ B). unfold jtypes. rewrite <- !(map_map (fun l : link F => l_joint l) jtype_of), (fk_joints c3 c4 (usable_set _ _ _ U B) D). reflexivity.
Qed.
Lemma turns_types (c c1 : chain F) : jtypes c1 = jtypes c -> unit_turns c -> unit_turns c1.
Proof.
  intros T H l Hl Tl. pose proof (in_map (fun l : link F => jtype_of (l_joint l)) _ _ Hl) as K. fold (jtypes c1) in K. rewrite T in K. unfold jtypes in K. apply in_map_iff in K as (l0 & K & H0).
  apply (H l0 H0). revert K Tl. destruct (l_joint l), (l_joint l0); cbn; congruence.
Qed.

(** ** The loop *)
Context (c : chain F) (LE : le_laws x_le) (O : chain_set_offset c = c).
Notation size := (chain_joint_size c).
Definition pos_weights (f : nat -> option F) : Prop := forall i w, In i (wanted c f) -> f i = Some w -> (0 < w)%num.
Lemma calls_next n tol iter ops e : registered c (ops ++ calls n tol iter e) = registered c ops.
Proof. unfold asked_all. rewrite fold_left_app. reflexivity. Qed.
Lemma solve_any c1 (s : solver F) v w tol iter : chain_set_offset c1 = c1 -> length v = chain_joint_size c1 -> length w = chain_joint_size c1 -> ik_solve c1 s v tol iter = ik_solve c1 s w tol iter.
Proof. intros Of A B. unfold ik_solve. rewrite !get_chain by auto. reflexivity. Qed.
Lemma step_ok tol iter ops c1 (s : solver F) v e : wanted c (registered c ops) <> [] -> pos_weights (registered c ops) -> state_ok c ops c1 s -> length v = size -> weighted [e] ->
  exists sb c2 s2 r, ik_bind c1 (ik_deactivate s) = Some sb /\ ik_solve c1 (seq_set sb e) v tol iter = Some (c2, s2, displacements c2, r) /\
  length (displacements c2) = size /\ state_ok c (ops ++ calls size tol iter e) c2 s2 /\ run c1 s (calls size tol iter e) = Some (c2, s2).
Proof.
  intros W Wj G Lv We. pose proof (deact_ok c _ _ _ G) as Gd. destruct (bind_total c _ _ _ Gd) as (sb & B). pose proof (bind_ok c _ _ _ _ B Gd) as Gb.
  pose proof (seq_ok c _ _ _ e (fun x ax => We e x ax (or_introl eq_refl)) Gb) as Gs.
  assert (Rg : registered c (((ops ++ [Deactivate]) ++ [Bind]) ++ [SetSeq e]) = registered c ops) by (rewrite !registered_next by reflexivity; reflexivity).
  destruct (solve_total c LE O tol iter _ c1 (seq_set sb e) v ltac:(rewrite Rg; exact W) ltac:(rewrite Rg; exact Wj) Gs Lv) as ([[[c2 s2] d2] r] & S).
  destruct (solve_dis c LE _ _ _ _ _ _ _ _ _ _ Gs Lv S) as [D Ld]. subst d2. exists sb, c2, s2, r. split; [exact B|]. split; [exact S|]. split; [exact Ld|].
  assert (S0 : ik_solve c1 (seq_set sb e) (repeat 0%num size) tol iter = Some (c2, s2, displacements c2, r)).
  { destruct G as (_ & J & (Po & _)). rewrite <- S. pose proof (same_joints_total c c1 J). apply solve_any; [exact (proj1 (proj2 (posed_usable _ Po)))|rewrite repeat_length; congruence|congruence]. }
  split.
  - pose proof (solve_ok c LE O _ _ _ _ _ _ _ _ _ _ ltac:(rewrite Rg; exact W) S0 Gs) as Go. rewrite <- !app_assoc in Go. exact Go.
  - unfold calls. cbn [run run_op option_map obind fst snd]. rewrite B. cbn [option_map obind fst snd]. rewrite S0. reflexivity.
Qed.
Lemma lines_total tol iter q : forall ops c1 (s : solver F) v, wanted c (registered c ops) <> [] -> pos_weights (registered c ops) -> state_ok c ops c1 s -> length v = size -> weighted q ->
  exists rows, rk_ik_solve tol iter c1 s v q = Some rows /\ length rows = length q /\
  forall k e, nth_error q k = Some e -> exists ck sk, nth_error rows k = Some (sq_dt e, displacements ck) /\ run c1 s (flat_map (calls size tol iter) (firstn (S k) q)) = Some (ck, sk) /\
    state_ok c (ops ++ flat_map (calls size tol iter) (firstn (S k) q)) ck sk /\ (0 < budget iter -> respects c1 ck).
Proof.
  induction q as [|e q IH]; intros ops c1 s v W Wj G Lv We; cbn [rk_ik_solve]; [exists []; split; [reflexivity|]; split; [reflexivity|]; intros [|k] e H; discriminate|].
  destruct (step_ok tol iter ops c1 s v e W Wj G Lv) as (sb & c2 & s2 & r & B & Sv & Ld & G2 & R2); [intros x y ax [<-|[]]; apply We; now left|].
  destruct (IH (ops ++ calls size tol iter e) c2 s2 (displacements c2)) as (rows & Rr & Lr & Kr); rewrite ?calls_next; auto; [intros x y ax Hx; apply We; now right|].
  assert (Rs : 0 < budget iter -> respects c1 c2).
  { intros Bu. destruct G as (_ & J & (Po & Or & _)). eapply (C50_limits c1 c2); [exact (posed_usable _ Po)|exact Or| |exact Bu|exact Sv]. rewrite (same_joints_total c c1 J). exact Lv. }
  rewrite B. cbn [obind]. rewrite Sv. cbn [obind fst snd]. rewrite Rr. exists ((sq_dt e, displacements c2) :: rows). split; [reflexivity|]. split; [cbn; now rewrite Lr|].
  intros [|k] e' H; cbn [nth_error] in H.
  - injection H as <-. exists c2, s2. cbn [firstn flat_map]. rewrite app_nil_r. split; [reflexivity|]. split; [exact R2|]. split; [exact G2|exact Rs].
  - destruct (Kr k e' H) as (ck & sk & K1 & K2 & K3 & K4). exists ck, sk. split; [exact K1|]. change (firstn (S (S k)) (e :: q)) with (e :: firstn (S k) q). cbn [flat_map]. split.
    + rewrite run_more, R2. exact K2.
    + rewrite app_assoc. split; [exact K3|]. intros Bu. eapply respects_trans; eauto.
Qed.
Context (ERR : forall m : mat3 F, rotation m -> x_m3err m m = v3zero).
(** ** Targets *)
(** What is kept of a cell through the steps, and its weight. *)
Definition held (es : list (entry F)) (ce0 ce : cell F) : Prop :=
  ce_id ce = ce_id ce0 /\ ce_kind ce = ce_kind ce0 /\ a_id (ce_attr ce) = a_id (ce_attr ce0) /\ a_sub (ce_attr ce) = a_sub (ce_attr ce0) /\ a_ap (ce_attr ce) = a_ap (ce_attr ce0) /\
  m_force (ce_mode ce) = m_force (ce_mode ce0) /\ a_w (ce_attr ce) = match last_for (ce_id ce0) es with Some e => e_w e | None => a_w (ce_attr ce0) end.
Definition helds es (l l' : list (nat * cell F)) : Prop := Forall2 (fun x y => fst y = fst x /\ held es (snd x) (snd y)) l l'.
Lemma last_app id (a b : list (entry F)) : last_for id (a ++ b) = match last_for id b with Some e => Some e | None => last_for id a end.
Proof. unfold last_for. rewrite rev_app_distr. induction (rev b) as [|x t IH]; [reflexivity|]. cbn [app find]. destruct (Nat.eqb (e_id x) id); [reflexivity|exact IH]. Qed.
Lemma helds_refl (l : list (nat * cell F)) : helds [] l l.
Proof. unfold helds. induction l; constructor; auto. repeat split. Qed.
Lemma helds_map es (l l' : list (nat * cell F)) f : helds es l l' -> (forall ce0 ce, held es ce0 ce -> held es ce0 (f ce)) -> helds es l (map (fun x => (fst x, f (snd x))) l').
Proof. intros H Hf. induction H as [|x y l l' [A B] H IH]; cbn; constructor; [split; [exact A|apply Hf; exact B]|exact IH]. Qed.
Lemma bind_held c1 es (ce0 ce ce' : cell F) : cell_bind c1 ce = Some ce' -> held es ce0 ce -> held es ce0 ce' /\ ce_mode ce' = Mode true true true (m_force (ce_mode ce0)).
Proof.
  unfold cell_bind, cell_bound. destruct ce as [i k a m p t q v]. cbn. intros H. unfold held. cbn. intros (K1 & K2 & K3 & K4 & K5 & K6 & K7). rewrite <- K6. cbn in K2. subst k.
  destruct (ce_kind ce0); cbn in H; unfold obind in H; repeat match type of H with match ?t with _ => _ end = _ => destruct t; [|discriminate H] end; injection H as <-; cbn; repeat split; auto.
Qed.
Lemma told_held es (ce0 a b : cell F) : told a = told b -> held es ce0 b -> held es ce0 a.
Proof. destruct a, b. unfold told, held. cbn. intros H. injection H as -> -> -> -> -> ->. auto. Qed.
Lemma helds_told es l (m m' : list (nat * cell F)) : tolds m' = tolds m -> helds es l m -> helds es l m'.
Proof.
  intros T H. revert m' T. induction H as [|x y l m [A B] H IH]; intros [|z m'] T; cbn in T; try discriminate; constructor.
  - injection T as T1 T2 T3 T4 T5 T6 T7 _. split; [congruence|]. eapply told_held; [|exact B]. unfold told. congruence.
  - apply IH. unfold tolds. congruence.
Qed.
Lemma bound_helds c1 es l : forall m m', bind_cells c1 m = Some m' -> helds es l m ->
  Forall2 (fun x y => fst y = fst x /\ held es (snd x) (snd y) /\ ce_mode (snd y) = Mode true true true (m_force (ce_mode (snd x)))) l m'.
Proof.
  intros m m' B H. revert m' B. induction H as [|x y l m [A K] H IH]; intros m' B; cbn [bind_cells] in B; [injection B as <-; constructor|]. unfold obind in B.
  destruct (cell_bind c1 (snd y)) as [z|] eqn:Z; [|discriminate]. destruct (bind_cells c1 m) as [t|]; [|discriminate]. injection B as <-. constructor; [|apply IH; reflexivity]. cbn. split; [exact A|]. eapply bind_held; eauto.
Qed.
Lemma follows_held es l (ce0 ce : cell F) : held es ce0 ce -> held (es ++ l) ce0 (follows l ce).
Proof.
  intros (K1 & K2 & K3 & K4 & K5 & K6 & K7). unfold held, follows. rewrite K1, last_app. destruct (last_for (ce_id ce0) l); cbn; repeat split; auto.
Qed.
(** Before the solver is called. *)
Lemma step_aimed ops c1 (s sb : solver F) e es l : state_ok c ops c1 s -> helds es l (s_cells s) -> run c1 s [Deactivate; Bind; SetSeq e] = Some (c1, sb) ->
  Forall2 (fun x y => fst y = fst x /\ aimed c1 es (sq_entries e) (snd x) (snd y)) l (s_cells sb) /\ helds (es ++ sq_entries e) l (s_cells sb).
Proof.
  intros G H R. pose proof (deact_ok c _ _ _ G) as Gd. cbn [run run_op option_map obind fst snd] in R. destruct (ik_bind c1 (ik_deactivate s)) as [s1|] eqn:B; [|discriminate]. cbn [option_map obind fst snd] in R. injection R as <-.
  pose proof (bind_ok c _ _ _ _ B Gd) as Gb. pose proof (C67_sequence c c1 s1 _ e (proj1 Gb)) as K. cbn [run_op option_map] in K. injection K as K. rewrite K. cbn [s_cells s_set_cells].
  assert (Hd : helds es l (s_cells (ik_deactivate s))) by (apply helds_map; [exact H|intros ce0 ce Hc; exact Hc]).
  assert (Bi : forall a ce, In (a, ce) (s_cells s1) -> cell_err c1 ce = Some v3zero).
  { intros a ce Hx. destruct Gb as (_ & _ & Gb). destruct (good_fit _ _ _ _ _ Gb Hx) as (_ & _ & _ & F4). refine (proj1 (C51_bind_zero_error_partial c1 (ik_deactivate s) s1 a ce _ ERR B Hx F4)).
    intros i y. apply posed_rot. apply G. }
  unfold ik_bind in B. destruct (bind_cells c1 (s_cells (ik_deactivate s))) as [m|] eqn:Bc; [|discriminate]. injection B as <-. cbn [s_cells s_set_cells] in *.
  pose proof (bound_helds c1 es l _ _ Bc Hd) as Hb. clear - Hb Bi. split; induction Hb as [|x [a ce] l m (A & Hh & Md) Hb IH]; cbn [map fst snd] in *; try constructor.
  - split; [exact A|]. pose proof (follows_held es (sq_entries e) _ _ Hh) as (K1 & K2 & K3 & K4 & K5 & K6 & K7). unfold aimed. do 5 (split; [assumption|]). split; [|split; [exact K7|]].
    + unfold follows. rewrite (proj1 Hh). destruct (last_for (ce_id (snd x)) (sq_entries e)); [cbn; f_equal; apply Hh|exact Md].
    + unfold follows. rewrite (proj1 Hh). destruct (last_for (ce_id (snd x)) (sq_entries e)) as [y|] eqn:Q.
      * unfold followed. rewrite (proj1 (proj2 Hh)). unfold angular. destruct (ce_kind (snd x)); reflexivity.
      * eapply Bi. left. reflexivity.
  - apply IH. intros b ce' Hx. apply (Bi b ce'). now right.
  - split; [exact A|]. apply follows_held. exact Hh.
  - apply IH. intros b ce' Hx. apply (Bi b ce'). now right.
Qed.
Lemma run_calls_split tol iter e c1 (s : solver F) c2 s2 : run c1 s (calls size tol iter e) = Some (c2, s2) ->
  exists sb d r, run c1 s [Deactivate; Bind; SetSeq e] = Some (c1, sb) /\ ik_solve c1 sb (repeat 0%num size) tol iter = Some (c2, s2, d, r).
Proof.
  unfold calls. cbn [run run_op option_map obind fst snd]. destruct (ik_bind c1 (ik_deactivate s)) as [s1|]; [|discriminate]. cbn [option_map obind fst snd].
  destruct (ik_solve c1 (seq_set s1 e) (repeat 0%num size) tol iter) as [[[[c3 s3] d] r]|] eqn:S; [|discriminate]. cbn. intros H. injection H as <- <-. exists (seq_set s1 e), d, r. split; [reflexivity|exact S].
Qed.
Lemma lines_aimed tol iter q : forall ops c1 (s : solver F) es l, wanted c (registered c ops) <> [] -> pos_weights (registered c ops) -> state_ok c ops c1 s -> weighted q -> helds es l (s_cells s) ->
  forall k e ck sk sb, nth_error q k = Some e -> run c1 s (flat_map (calls size tol iter) (firstn k q)) = Some (ck, sk) -> run ck sk [Deactivate; Bind; SetSeq e] = Some (ck, sb) ->
  Forall2 (fun x y => fst y = fst x /\ aimed ck (es ++ entries (firstn k q)) (sq_entries e) (snd x) (snd y)) l (s_cells sb).
Proof.
  induction q as [|e q IH]; intros ops c1 s es l W Wj G We H k e' ck sk sb Hk R1 R2; [destruct k; discriminate|]. destruct k as [|k]; cbn [nth_error firstn flat_map entries] in *.
  - injection Hk as <-. cbn in R1. injection R1 as <- <-. rewrite app_nil_r. eapply step_aimed; eauto.
  - rewrite run_more in R1. destruct (step_ok tol iter ops c1 s (repeat 0%num size) e W Wj G (repeat_length _ _)) as (sb1 & c2 & s2 & r & _ & _ & _ & G2 & Rc); [intros x y ax [<-|[]]; apply We; now left|].
    rewrite Rc in R1. cbn [obind fst snd] in R1. destruct (run_calls_split _ _ _ _ _ _ _ Rc) as (s3 & d & r' & Ra & Sv). destruct (step_aimed _ _ _ _ _ _ _ G H Ra) as [_ Hn].
    assert (H2 : helds (es ++ sq_entries e) l (s_cells s2)) by (eapply helds_told; [exact (solve_told _ _ _ _ _ _ _ _ _ Sv)|exact Hn]).
    rewrite app_assoc. eapply IH; try exact Hk; try exact R1; try exact R2; [..|exact G2| |exact H2]; rewrite ?calls_next; auto. intros x y ax Hx. apply We. now right.
Qed.
Lemma lines_hold tol iter q : forall ops c1 (s : solver F) v rows, wanted c (registered c ops) <> [] -> pos_weights (registered c ops) -> unit_turns c1 -> state_ok c ops c1 s -> length v = size -> weighted q ->
  rk_ik_solve tol iter c1 s v q = Some rows -> forall k e, nth_error q k = Some e -> unnamed s e ->
  nth_error rows k = option_map (pair (sq_dt e)) match k with 0 => Some (displacements c1) | S m => option_map snd (nth_error rows m) end.
Proof.
  induction q as [|e q IH]; intros ops c1 s v rows W Wj T G Lv We H k e' Hk Em; [destruct k; discriminate|]. cbn [rk_ik_solve] in H.
  destruct (step_ok tol iter ops c1 s v e W Wj G Lv) as (sb & c2 & s2 & r & B & Sv & Ld & G2 & R2); [intros x y ax [<-|[]]; apply We; now left|].
  rewrite B in H. cbn [obind] in H. rewrite Sv in H. cbn [obind fst snd] in H. destruct (rk_ik_solve tol iter c2 s2 (displacements c2) q) as [rows2|] eqn:Rr; [|discriminate]. injection H as <-.
  destruct k as [|k]; cbn [nth_error] in Hk.
  - injection Hk as <-. destruct (empty_rest c LE O ERR tol iter ops c1 s v e W Wj T G Lv Em) as (sb' & s2' & r' & B' & S'). assert (sb' = sb) by congruence. subst sb'. rewrite Sv in S'. injection S' as Ec _ _ _. subst c2. reflexivity.
  - assert (T2 : unit_turns c2).
    { destruct (C50_report _ _ _ _ _ _ _ _ _ Sv) as (d0 & n & _ & _ & St & _). destruct G as (_ & _ & (Po & _)). eapply turns_types; [eapply steps_types; [exact (posed_usable _ Po)|exact St]|exact T]. }
    pose proof (IH (ops ++ calls size tol iter e) c2 s2 (displacements c2) rows2) as K. rewrite calls_next in K. assert (Em2 : unnamed s2 e').
    { destruct (run_calls_split _ _ _ _ _ _ _ R2) as (s3 & d & r' & Ra & Sw). destruct (step_aimed _ _ _ _ _ _ _ G (helds_refl (s_cells s)) Ra) as [_ Hn].
      pose proof (helds_told _ _ _ _ (solve_told _ _ _ _ _ _ _ _ _ Sw) Hn) as H2. intros z y Hz Hy Ne. apply In_nth_error in Hz as (j & Hz).
      destruct (Forall2_nth_r _ _ _ H2 j z Hz) as (x & Hx & _ & Hh). apply (Em x y (nth_error_In _ _ Hx) Hy). rewrite Ne. exact (proj1 Hh). }
    specialize (K W Wj T2 G2 Ld ltac:(intros x y ax Hx; apply We; now right) Rr k e' Hk Em2).
    cbn [nth_error]. rewrite K. destruct k; reflexivity.
Qed.

End Lines.
