(** * IKAcm_Properties: zeroing the accumulated error of the inverse kinematics solver (C52). *)
From Coq Require Import List Arith Lia Bool ZArith QArith Qcanon.
From Verif Require Import Num NumFacts Vec Motor_Model Joint_Model Body_Model Tree Link_Model Jacobi_Model Chain_Proofs Chain_Properties Kin_Spec Kin_Properties ExtQ
  IK_Model IK_Spec IK_Laws IK_Gauss IK_Erase IKCell_Properties IKRow_Properties.
Import ListNotations.

Section Acm.
Context {F : Type} {N : Num F} {E : Ext F} {I : IKExt F}.
Local Open Scope num_scope.

(** The solver without what it has accumulated. *)
Definition no_acm (s : solver F) : solver F := s_set_cells (map (fun x => (fst x, ce_set_ae (Q4 0 0 0 0) (snd x))) (s_cells s)) s.
Definition position_type (k : kind) : Prop := match k with WldPos | L2LPos | COM => True | WldAtt | L2LAtt | AM | AMCOM => False end.
(** The same state, except for the fourth double in the accumulators of position cells. *)
Definition same_acm (x y : cell F) : Prop :=
  let p q := (q0 q, q1 q, q2 q) in
  if match ce_kind x with WldPos | L2LPos | COM => true | _ => false end then p (ce_ae x) = p (ce_ae y) else ce_ae x = ce_ae y.
Definition same_state (s1 s2 : solver F) : Prop :=
  no_acm s1 = no_acm s2 /\ Forall2 (fun x y => same_acm (snd x) (snd y)) (s_cells s1) (s_cells s2).

Lemma er_same x y : er x = er y -> ce_set_ae (Q4 0 0 0 0) x = ce_set_ae (Q4 0 0 0 0) y /\ same_acm x y.
Proof.
  intros H. pose proof (f_equal ce_kind H) as K. rewrite !er_kind in K. destruct x as [i1 k1 a1 m1 p1 t1 e1 v1], y as [i2 k2 a2 m2 p2 t2 e2 v2].
  cbn in K. subst k2. unfold same_acm. destruct k1; cbn in *; injection H; intros; subst; (split; [reflexivity|]); repeat match goal with H : _ = _ |- _ => rewrite H; clear H end; reflexivity.
Qed.
Lemma ers_same l : forall m, ers l = ers m -> map (fun x => (fst x, ce_set_ae (Q4 0 0 0 0) (snd x))) l = map (fun x => (fst x, ce_set_ae (Q4 0 0 0 0) (snd x))) m /\
  Forall2 (fun x y => same_acm (snd x) (snd y)) l m.
Proof.
  induction l as [|x l IH]; intros [|y m] H; try discriminate; [split; constructor|]. cbn [ers map] in H. injection H as H1 H2 H3.
  apply er_same in H2 as (A & B). apply IH in H3 as (C & D). cbn [map]. split; [congruence|constructor; auto].
Qed.
Lemma es_same s1 s2 : es s1 = es s2 -> same_state s1 s2.
Proof.
  destruct s1 as [? ? ? ? l1 ? ? ? ? ? ? ? ?], s2 as [? ? ? ? l2 ? ? ? ? ? ? ? ?]. unfold es, same_state, no_acm, s_set_cells. cbn. intros H. injection H; intros.
  destruct (ers_same l1 l2) as (A & B); [assumption|]. subst. split; [rewrite A; reflexivity|exact B].
Qed.
Lemma zero_cells l : forall m, map (fun x : nat * cell F => (fst x, ce_set_ae (Q4 0 0 0 0) (snd x))) l = map (fun x => (fst x, ce_set_ae (Q4 0 0 0 0) (snd x))) m ->
  (forall x, In x l -> position_type (ce_kind (snd x))) ->
  ers (map (fun x => (fst x, cell_acm_zero (snd x))) l) = ers (map (fun x => (fst x, cell_acm_zero (snd x))) m).
Proof.
  induction l as [|[a x] l IH]; intros [|[b y] m] H P; try discriminate; [reflexivity|]. cbn [map fst snd] in *. injection H; intros. cbn [ers map fst snd].
  f_equal.
  - pose proof (P (a, x) (or_introl eq_refl)) as K. cbn [snd] in K. destruct x as [i1 k1 a1 m1 p1 t1 e1 v1], y as [i2 k2 a2 m2 p2 t2 e2 v2]. cbn in *. subst.
    destruct k2; cbn in *; try contradiction; reflexivity.
  - apply IH; auto. intros z Z. apply P. right. exact Z.
Qed.
Lemma zero_es s1 s2 : no_acm s1 = no_acm s2 -> (forall x, In x (s_cells s1) -> position_type (ce_kind (snd x))) -> es (ik_acm_zero s1) = es (ik_acm_zero s2).
Proof.
  destruct s1 as [? ? ? ? l1 ? ? ? ? ? ? ? ?], s2 as [? ? ? ? l2 ? ? ? ? ? ? ? ?]. unfold es, no_acm, ik_acm_zero, s_set_cells. cbn. intros H P. injection H; intros.
  subst. f_equal. apply zero_cells; assumption.
Qed.

(** Two solvers of position type cells that differ only in what they have accumulated: after the accumulated
    error is zeroed, any sequence of calls, among which cells of other types may be registered, is defined for
    both or for neither, and leaves the same chain and the same state.  Missing: attitude and momentum cells
    registered before, for which it fails (below). *)
Theorem C52_position_cells_partial : forall (c c' : chain F) (s1 s2 s1' : solver F) ops,
  no_acm s1 = no_acm s2 -> (forall x, In x (s_cells s1) -> position_type (ce_kind (snd x))) ->
  run c (ik_acm_zero s1) ops = Some (c', s1') ->
  exists s2', run c (ik_acm_zero s2) ops = Some (c', s2') /\ same_state s1' s2'.
Proof.
  intros c c' s1 s2 s1' ops H P R. pose proof (es_run ops c (ik_acm_zero s1)) as A. pose proof (es_run ops c (ik_acm_zero s2)) as B.
  rewrite <- (zero_es s1 s2 H P), A, R in B. destruct (run c (ik_acm_zero s2) ops) as [[c2 s2']|]; [|discriminate B].
  assert (B0 : (c', es s1') = (c2, es s2')) by (exact (f_equal (fun o => match o with Some r => r | None => (c', es s1') end) B)).
  pose proof (f_equal fst B0) as B1. pose proof (f_equal snd B0) as B2. cbn [fst snd] in B1, B2. exists s2'. subst c2. split; [reflexivity|]. apply es_same. exact B2.
Qed.
(** The whole solution, which begins with zeroing: same pose, same displacements, same return value. *)
Theorem C52_solve_partial : forall (c c' : chain F) (s1 s2 s1' : solver F) dis dis' tol iter r,
  no_acm s1 = no_acm s2 -> (forall x, In x (s_cells s1) -> position_type (ce_kind (snd x))) ->
  ik_solve c s1 dis tol iter = Some (c', s1', dis', r) ->
  exists s2', ik_solve c s2 dis tol iter = Some (c', s2', dis', r) /\ same_state s1' s2'.
Proof.
  intros c c' s1 s2 s1' dis dis' tol iter r H P R. unfold ik_solve in *. destruct (chain_get_joint_dis_all c dis) as [d|]; [|discriminate R].
  cbn [obind] in *. set (k := if Nat.eqb iter 0 then x_maxiter else iter) in *.
  pose proof (es_loop tol k 0 None c (ik_acm_zero s1) d) as A. pose proof (es_loop tol k 0 None c (ik_acm_zero s2) d) as B.
  rewrite <- (zero_es s1 s2 H P), A, R in B. destruct (solve_loop tol k 0 None c (ik_acm_zero s2) d) as [[[[c2 s2'] d2] r2]|]; [|discriminate B].
  assert (B0 : (c', es s1', dis', r) = (c2, es s2', d2, r2)) by (exact (f_equal (fun o => match o with Some r => r | None => (c', es s1', dis', r) end) B)).
  pose proof (f_equal (fun x => fst (fst (fst x))) B0) as B1. pose proof (f_equal (fun x => snd (fst (fst x))) B0) as B2. pose proof (f_equal (fun x => snd (fst x)) B0) as B3.
  pose proof (f_equal snd B0) as B4. cbn [fst snd] in B1, B2, B3, B4. subst c2 d2 r2. exists s2'. split; [reflexivity|]. apply es_same. exact B2.
Qed.

End Acm.

Section Residue.
Context {F : Type} {N : Num F} {L : NumLaws F N} {E : Ext F} {I : IKExt F}.
Add Field AcmField : num_field.
Local Open Scope num_scope.
(** What is used of the Euler parameter functions: zero rotation, its neutrality, and that a parameter with
    a third vector component is not the zero rotation. *)
Record ep_laws : Prop := {
  ep_zero : x_aa2ep v3zero = Q4 1 0 0 0;
  ep_neutral : forall q, x_epcas (Q4 1 0 0 0) q = q;
  ep_turn : forall s, s <> 0 -> x_ep2aa (Q4 1 0 0 s) <> v3zero }.
(** An attitude cell without error whose accumulator had a fourth double: after zeroing, the forced cell still
    asks for a rotation. *)
Theorem C52_attitude_residue_refuted : forall ce : cell F, ep_laws -> ~ position_type (ce_kind ce) -> q3 (ce_ae ce) <> 0 ->
  snd (cell_acm (cell_acm_zero ce) v3zero) <> v3zero.
Proof.
  intros ce [Z U T] K S. assert (G : snd (cell_acm (cell_acm_zero ce) v3zero) = x_ep2aa (Q4 1 0 0 (q3 (ce_ae ce)))).
  { unfold cell_acm. destruct ce as [i k a m p t q v]. destruct k; cbn in *; try (exfalso; tauto); unfold acm_att; rewrite Z, U; unfold quad_add, acm_zero; cbn;
      f_equal; f_equal; ring. }
  rewrite G. apply T. exact S.
Qed.
End Residue.

(** ** Concrete cases *)
Lemma q_ep_laws : @ep_laws Qc Num_Qc IKExt_Qc.
Proof.
  split.
  - reflexivity.
  - intros [a b c d]. cbn. unfold v3dot, v3add, v3scale, v3cross. cbn. f_equal; ring.
  - intros s S H. cbn in H. apply S. pose proof (f_equal (fun v => vz v) H) as K. cbn in K. transitivity (s / 1)%Qc; [field; discriminate|exact K].
Qed.
(** All joints are registered.  A forced cell is evaluated once or twice without moving the chain. *)
Definition acm_hist (k : kind) : list (op Qc) :=
  [JRegAll (qz 1); MoveTo mdis; CReg 10 k (at_ 4 0) full; CSetRefForce 10 (V3 (qz 1) (qz 0) (qz 2)); Rate].
Definition rates_of (o : option (chain Qc * solver Qc)) : list Qc := match o with Some r => s_vel (snd r) | None => [] end.
(** Position cell: the step after zeroing is the same whether the error was accumulated once or twice; without zeroing it is not. *)
Example C52_ex : qlbs [rates_of (run mech (ik_create mech) (acm_hist WldPos ++ [AcmZero; Rate]))] [rates_of (run mech (ik_create mech) (acm_hist WldPos ++ [Rate; AcmZero; Rate]))] = true /\
  length (rates_of (run mech (ik_create mech) (acm_hist WldPos ++ [AcmZero; Rate]))) = 12%nat /\
  qlbs [rates_of (run mech (ik_create mech) (acm_hist WldPos ++ [Rate]))] [rates_of (run mech (ik_create mech) (acm_hist WldPos ++ [Rate; Rate]))] = false.
Proof. vm_compute. repeat split. Qed.
Example C52_ex_hypotheses : match run mech (ik_create mech) (acm_hist WldPos) with Some r => map (fun x => ce_kind (snd x)) (s_cells (snd r)) | None => [] end = [WldPos].
Proof. vm_compute. reflexivity. Qed.

(** The theorem for that history: zeroing gives the next steps of a solver that has accumulated nothing. *)
Example C52_ex_theorem c' c'' s s' : run mech (ik_create mech) (acm_hist WldPos) = Some (c', s) -> run c' (ik_acm_zero s) [Rate; MoveTo mdis; Rate] = Some (c'', s') ->
  exists s2', run c' (ik_acm_zero (no_acm s)) [Rate; MoveTo mdis; Rate] = Some (c'', s2') /\ s_vel s' = s_vel s2'.
Proof.
  intros R R'. assert (K : forall o : option (chain Qc * solver Qc), o = Some (c', s) -> match o with Some r => map (fun x => ce_kind (snd x)) (s_cells (snd r)) | None => [] end = [WldPos] ->
    forall x, In x (s_cells s) -> position_type (ce_kind (snd x))).
  { intros o -> Q x X. cbn [snd] in Q. apply (in_map (fun x => ce_kind (snd x))) in X. rewrite Q in X. destruct X as [<-|[]]. exact Logic.I. }
  destruct (C52_position_cells_partial c' c'' s (no_acm s) s' [Rate; MoveTo mdis; Rate]) as (s2' & A & B & _); [|exact (K _ R C52_ex_hypotheses)|exact R'|].
  - unfold no_acm, s_set_cells. cbn [s_sw s_weight s_vel s_eval s_cells s_jidx s_jofs s_jvel s_wn s_cmat s_csrv s_cwe s_rows]. rewrite map_map. reflexivity.
  - exists s2'. split; [exact A|]. exact (f_equal s_vel B).
Qed.
Example C52_ex_residue : snd (cell_acm (cell_acm_zero (ce_set_ae (Q4 (qz 1) (qz 0) (qz 0) (qz 2)) (cell_init WldAtt (at_ 4 0) full))) v3zero) <> v3zero.
Proof. apply (@C52_attitude_residue_refuted Qc Num_Qc NumLaws_Qc IKExt_Qc _ q_ep_laws); [intros K; exact K|]. intros K. revert K. vm_compute. discriminate. Qed.

(** Attitude cell.  Two histories end with the same pose, registered joints, weights and cells, except for the
    accumulated and reported errors; every movable joint is registered, so the velocities of the past do not matter. *)
Definition bare (ce : cell Qc) : cell Qc := ce_set_eval (qz 0) (ce_set_ae (Q4 (qz 0) (qz 0) (qz 0) (qz 0)) ce).
Definition zeroing_forgets : Prop := forall (c c' : chain Qc) (s1 s2 : solver Qc) ops1 ops2,
  run c (ik_create c) ops1 = Some (c', s1) -> run c (ik_create c) ops2 = Some (c', s2) ->
  s_sw s1 = s_sw s2 -> s_weight s1 = s_weight s2 -> map (fun x => (fst x, bare (snd x))) (s_cells s1) = map (fun x => (fst x, bare (snd x))) (s_cells s2) ->
  (forall i, movable c i = true -> asked_all (length (c_links c)) (movable c) ops1 i <> None) ->
  option_map s_vel (ik_solve_rate c' (ik_acm_zero s1)) = option_map s_vel (ik_solve_rate c' (ik_acm_zero s2)).
Lemma eq_cell_bare c s ce q ev r : eq_cell c s ce q ev = Some r -> bare (fst (fst r)) = bare ce.
Proof.
  unfold eq_cell. destruct (mode_off _); [intros H; injection H as <-; reflexivity|].
  destruct (cell_cmat _ _ _) as [jm|]; [|discriminate]. cbn [obind]. destruct (cell_err c ce) as [srv|]; [|discriminate]. cbn [obind].
  repeat (destruct (cell_eq _ _ _ _ _ _ _); [|discriminate]; cbn [obind]). intros H. injection H as <-. cbn [fst snd].
  destruct (m_force _); reflexivity.
Qed.
Lemma eq_cells_bare c s l : forall q ev r, eq_cells c s l q ev = Some r -> map (fun x => (fst x, bare (snd x))) (fst (fst r)) = map (fun x => (fst x, bare (snd x))) l.
Proof.
  induction l as [|x t IH]; intros q ev r H; [injection H as <-; reflexivity|]. cbn [eq_cells] in H.
  destruct (eq_cell c s (snd x) q ev) as [r1|] eqn:A; [|discriminate]. cbn [obind] in H.
  destruct (eq_cells c s t _ _) as [r2|] eqn:B; [|discriminate]. cbn [obind] in H. injection H as <-. cbn [fst snd map].
  rewrite (eq_cell_bare _ _ _ _ _ _ A), (IH _ _ _ B). reflexivity.
Qed.
Lemma rate_bare c (s s' : solver Qc) : ik_solve_rate c s = Some s' ->
  s_sw s' = s_sw s /\ s_weight s' = s_weight s /\ map (fun x => (fst x, bare (snd x))) (s_cells s') = map (fun x => (fst x, bare (snd x))) (s_cells s).
Proof.
  unfold ik_solve_rate, ik_eq. destruct (eq_cells _ _ _ _ _) as [r|] eqn:A; [|discriminate]. cbn [option_map obind]. apply eq_cells_bare in A.
  unfold joint_vel_ad. match goal with |- context [x_le ?a ?b] => destruct (x_le a b) end; cbn [s_set_jvel s_jidx]; (destruct (s_jidx s) as [idx|]; [|discriminate]);
    cbn [obind]; (match goal with |- context [scatter ?a ?b ?c ?d] => destruct (scatter a b c d) end; [|discriminate]); intros H; injection H as <-; cbn; auto.
Qed.
Definition after (ops : list (op Qc)) (o : option (chain Qc * solver Qc)) : option (chain Qc * solver Qc) := obind o (fun r => run (fst r) (snd r) ops).
Lemma run_app (c : chain Qc) : forall ops s ops', run c s (ops ++ ops') = after ops' (run c s ops).
Proof.
  intros ops. revert c. induction ops as [|o t IH]; intros c s ops'; [reflexivity|]. cbn [app run]. destruct (run_op c s o) as [[c' s']|]; [|reflexivity]. apply IH.
Qed.
Lemma forgets_rates ops : zeroing_forgets -> forallb (fun i => match asked_all (length (c_links mech)) (movable mech) ops i with Some _ => true | None => negb (movable mech i) end) (seq 0 (length (c_links mech))) = true ->
  (forall i, movable mech i = true -> (i < length (c_links mech))%nat) ->
  rates_of (after [Rate] (run mech (ik_create mech) ops)) <> [] ->
  rates_of (after [AcmZero; Rate] (run mech (ik_create mech) ops)) = rates_of (after [Rate; AcmZero; Rate] (run mech (ik_create mech) ops)).
Proof.
  intros H W M D. destruct (run mech (ik_create mech) ops) as [[c' s]|] eqn:R; [|reflexivity]. cbn [after obind fst snd run run_op] in *.
  destruct (ik_solve_rate c' s) as [s2|] eqn:Rt; [|destruct (D eq_refl)]. cbn [option_map obind fst snd].
  assert (R2 : run mech (ik_create mech) (ops ++ [Rate]) = Some (c', s2)) by (rewrite run_app, R; cbn; rewrite Rt; reflexivity).
  destruct (rate_bare _ _ _ Rt) as (A & B & C).
  pose proof (H mech c' s s2 ops (ops ++ [Rate]) R R2 (eq_sym A) (eq_sym B) (eq_sym C)) as K.
  assert (K' : forall i, movable mech i = true -> asked_all (length (c_links mech)) (movable mech) ops i <> None).
  { intros i Hi. rewrite forallb_forall in W. specialize (W i). rewrite in_seq in W. pose proof (M i Hi). specialize (W ltac:(lia)).
    destruct (asked_all _ _ _ _); [discriminate|]. rewrite Hi in W. discriminate. }
  specialize (K K'). destruct (ik_solve_rate c' (ik_acm_zero s)), (ik_solve_rate c' (ik_acm_zero s2)); cbn in *; congruence.
Qed.
Theorem C52_attitude_cells_refuted : ~ zeroing_forgets.
Proof.
  intros H. pose proof (forgets_rates (acm_hist WldAtt) H) as K.
  assert (M : forall i, movable mech i = true -> (i < length (c_links mech))%nat).
  { intros i. unfold movable. destruct (nth_error (c_links mech) i) eqn:Q; [|discriminate]. intros _. apply nth_error_Some. congruence. }
  specialize (K ltac:(vm_compute; reflexivity) M ltac:(vm_compute; discriminate)). apply (f_equal (fun v => match nth_error v 3 with Some x => qlb [x] [qz 0] | None => false end)) in K.
  revert K. vm_compute. discriminate.
Qed.

Print Assumptions C52_position_cells_partial.
Print Assumptions C52_solve_partial.
Print Assumptions C52_attitude_residue_refuted.
Print Assumptions C52_attitude_cells_refuted.
