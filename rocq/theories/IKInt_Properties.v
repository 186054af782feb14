(** * IKInt_Properties: what forced position cells of the inverse kinematics solver ask for (C104). *)
From Coq Require Import List Arith Lia Bool ZArith QArith Qcanon.
From Verif Require Import Num NumFacts Vec VecFacts Motor_Model Joint_Model Body_Model Tree Link_Model Jacobi_Model Chain_Proofs Chain_Properties Kin_Spec Kin_Properties ExtQ
  IK_Model IK_Spec IK_Laws IK_Gauss IK_Cells IK_Index IK_Dims IK_Rows IK_Usable IK_Erase IKCell_Properties IKRow_Properties IKAcm_Properties.
Import ListNotations.

Section Int.
Context {F : Type} {N : Num F} {L : NumLaws F N} {E : Ext F} {I : IKExt F}.
Add Field FFieldInt : num_field.
Local Open Scope nat_scope.

(** ** Specification *)
(** Calls that compute joint velocities once. *)
Definition steps (o : op F) : bool := match o with Rate | One _ _ => true | _ => false end.
(** Calls that neither clear what cell [a] has accumulated nor remove it; rkIKSolve clears. *)
Definition quiet (a : nat) (o : op F) : Prop := match o with AcmZero | Solve _ _ _ => False | CUnreg b => b <> a | _ => True end.
(** The cell is forced and some axis of it is enabled. *)
Definition pressing (ce : cell F) : bool := m_force (ce_mode ce) && (m_x (ce_mode ce) || m_y (ce_mode ce) || m_z (ce_mode ce)).
(** The errors of cell [a] at the steps among [ops] at which it is pressing, in order. *)
Inductive errors (a : nat) : chain F -> solver F -> list (op F) -> list (vec3 F) -> Prop :=
| er_nil c s : errors a c s [] []
| er_press c s o ops c' s' ce e es : steps o = true -> In (a, ce) (s_cells s) -> pressing ce = true -> cell_err c ce = Some e ->
    run_op c s o = Some (c', s') -> errors a c' s' ops es -> errors a c s (o :: ops) (e :: es)
| er_idle c s o ops c' s' ce es : steps o = true -> In (a, ce) (s_cells s) -> pressing ce = false ->
    run_op c s o = Some (c', s') -> errors a c' s' ops es -> errors a c s (o :: ops) es
| er_other c s o ops c' s' es : steps o = false -> run_op c s o = Some (c', s') -> errors a c' s' ops es -> errors a c s (o :: ops) es.
(** A call after which cell [a] has accumulated nothing. *)
Definition clears (a : nat) (o : op F) : Prop := match o with AcmZero => True | CReg b _ _ _ => b = a | _ => False end.

(** ** Proofs *)
Definition ae3 (ce : cell F) : vec3 F := V3 (q0 (ce_ae ce)) (q1 (ce_ae ce)) (q2 (ce_ae ce)).
Definition kept (x y : cell F) : Prop := ce_kind y = ce_kind x /\ ae3 y = ae3 x.
Lemma kept_refl x : kept x x. Proof. now split. Qed.
Lemma v3add_zero_r (v : vec3 F) : v3add v v3zero = v. Proof. destruct v; unfold v3add, v3zero; cbn; f_equal; ring. Qed.
Lemma v3add_zero_l (v : vec3 F) : v3add v3zero v = v. Proof. destruct v; unfold v3add, v3zero; cbn; f_equal; ring. Qed.
Lemma v3add_ass (u v w : vec3 F) : v3add (v3add u v) w = v3add u (v3add v w). Proof. destruct u, v, w; unfold v3add; cbn; f_equal; ring. Qed.

Lemma cell_acm_ae (ce : cell F) e : position_type (ce_kind ce) -> ce_kind (fst (cell_acm ce e)) = ce_kind ce /\ ae3 (fst (cell_acm ce e)) = v3add (ae3 ce) e /\
  snd (cell_acm ce e) = v3add e (v3add (ae3 ce) e).
Proof. unfold cell_acm, ae3. destruct ce as [i k at_ m p t q v]. destruct k; cbn; try contradiction; intros _; repeat split; destruct e; reflexivity. Qed.
Lemma off_pressing (ce : cell F) : m_force (ce_mode ce) = true -> mode_off (ce_mode ce) = negb (pressing ce).
Proof. intros H. unfold mode_off, pressing. rewrite H. reflexivity. Qed.
Lemma eq_cell_ae c s (ce : cell F) q ev r : position_type (ce_kind ce) -> eq_cell c s ce q ev = Some r ->
  if pressing ce then exists e, cell_err c ce = Some e /\ ce_kind (fst (fst r)) = ce_kind ce /\ ae3 (fst (fst r)) = v3add (ae3 ce) e else kept ce (fst (fst r)).
Proof.
  intros P H. unfold eq_cell in H. destruct (mode_off (ce_mode ce)) eqn:O.
  - injection H as <-. destruct (pressing ce) eqn:Q; [|apply kept_refl]. exfalso. unfold pressing in Q. apply andb_prop in Q as [Q1 Q2]. rewrite (off_pressing _ Q1) in O. unfold pressing in O. now rewrite Q1, Q2 in O.
  - unfold obind in H. destruct (cell_cmat c ce _) as [jm|]; [|discriminate]. destruct (cell_err c ce) as [e|]; [|discriminate].
    cbv zeta in H. set (ce1 := ce_set_eval _ ce) in H. set (r1 := if m_force (ce_mode ce1) then _ else _) in H.
    destruct (cell_eq c s _ _ _ _ q) as [q1|]; [|discriminate]. destruct (cell_eq c s _ _ _ _ q1) as [q2|]; [|discriminate]. destruct (cell_eq c s _ _ _ _ q2) as [q3|]; [|discriminate].
    injection H as <-. cbn [fst snd]. subst r1. change (ce_mode ce1) with (ce_mode ce). destruct (m_force (ce_mode ce)) eqn:Fo.
    + rewrite (off_pressing _ Fo) in O. apply negb_false_iff in O. rewrite O. exists e. split; [reflexivity|]. destruct (cell_acm_ae ce1 e P) as (A & B & _). auto.
    + unfold pressing. rewrite Fo. cbn [andb]. split; reflexivity.
Qed.
(** One step of the solver. *)
Definition stepped (c : chain F) (ce ce' : cell F) : Prop :=
  if pressing ce then exists e, cell_err c ce = Some e /\ ce_kind ce' = ce_kind ce /\ ae3 ce' = v3add (ae3 ce) e else kept ce ce'.
Lemma eq_cells_ae c s a (ce : cell F) : position_type (ce_kind ce) -> forall l q ev r, In (a, ce) l -> eq_cells c s l q ev = Some r ->
  exists ce', In (a, ce') (fst (fst r)) /\ stepped c ce ce'.
Proof.
  intros P. induction l as [|x l IH]; intros q ev r Hin H; cbn [eq_cells] in H; unfold obind in H; [destruct Hin|]; 
    (destruct (eq_cell c s (snd x) q ev) as [r1|] eqn:A; [|discriminate]); (destruct (eq_cells c s l _ _) as [r2|] eqn:B; [|discriminate]); injection H as <-; cbn [fst snd]. destruct Hin as [Hin|Hin].
  - subst x. cbn [fst snd] in *. apply eq_cell_ae in A; [|exact P]. exists (fst (fst r1)). split; [now left|exact A].
  - destruct (IH _ _ _ Hin B) as (ce' & C & D). exists ce'. split; [now right|exact D].
Qed.
Lemma vel_ad_cells (s : solver F) : s_cells (joint_vel_ad s) = s_cells s.
Proof. unfold joint_vel_ad. cbv zeta. destruct (x_le _ _); reflexivity. Qed.
Lemma rate_ae c s s' a (ce : cell F) : position_type (ce_kind ce) -> In (a, ce) (s_cells s) -> ik_solve_rate c s = Some s' -> exists ce', In (a, ce') (s_cells s') /\ stepped c ce ce'.
Proof.
  intros P K H. unfold ik_solve_rate, ik_eq, obind in H. destruct (eq_cells c s _ _ _) as [r|] eqn:A; [|discriminate]. cbn [option_map] in H.
  set (s1 := IK _ _ _ _ _ _ _ _ _ _ _ _ _) in H. destruct (s_jidx (joint_vel_ad s1)); [|discriminate]. destruct (scatter _ _ _ _); [|discriminate]. cbn [option_map] in H. injection H as <-.
  cbn [s_cells s_set_vel]. rewrite vel_ad_cells. exact (eq_cells_ae c s a ce P _ _ _ _ K A).
Qed.
Lemma step_ae c s o c' s' a (ce : cell F) : steps o = true -> position_type (ce_kind ce) -> In (a, ce) (s_cells s) -> run_op c s o = Some (c', s') ->
  exists ce', In (a, ce') (s_cells s') /\ stepped c ce ce'.
Proof.
  intros S P K H. destruct o; try discriminate S; cbn [run_op] in H.
  - destruct (ik_solve_rate c s) as [s1|] eqn:A; [|discriminate]. injection H as <- <-. exact (rate_ae c s s1 a ce P K A).
  - destruct (ik_solve_one c s dis dt) as [r|] eqn:A; [|discriminate]. injection H as H. unfold ik_solve_one, obind in A. destruct (ik_solve_rate c s) as [s1|] eqn:B; [|discriminate].
    assert (Hs : s' = s1).
    { repeat (match goal with A : match ?x with Some _ => _ | None => _ end = Some r |- _ => destruct x; [|discriminate A] end). injection A as <-. cbn [fst] in H. congruence. }
    subst s1. exact (rate_ae c s s' a ce P K B).
Qed.
(** The other calls. *)
Lemma map_kept (f : nat -> cell F -> cell F) (l : list (nat * cell F)) a ce : (forall x, kept x (f a x)) -> In (a, ce) l ->
  exists ce', In (a, ce') (map (fun x => (fst x, f (fst x) (snd x))) l) /\ kept ce ce'.
Proof. intros H K. exists (f a ce). split; [|apply H]. apply (in_map (fun x => (fst x, f (fst x) (snd x)))) in K. exact K. Qed.
Lemma on_cell_kept f (s : solver F) b a ce : (forall x, kept x (f x)) -> In (a, ce) (s_cells s) -> exists ce', In (a, ce') (s_cells (on_cell f s b)) /\ kept ce ce'.
Proof.
  intros H K. exists (if Nat.eqb a b then f ce else ce). split; [|destruct (Nat.eqb a b); [apply H|apply kept_refl]]. unfold on_cell. cbn [s_cells s_set_cells].
  apply (in_map (fun x => if Nat.eqb (fst x) b then (fst x, f (snd x)) else x)) in K. cbn [fst snd] in K. destruct (Nat.eqb a b); exact K.
Qed.
Lemma kept_trans x y z : kept x y -> kept y z -> kept x z. Proof. unfold kept. intuition congruence. Qed.
Lemma seq_kept q : forall (s : solver F) a ce, In (a, ce) (s_cells s) -> exists ce', In (a, ce') (s_cells (fold_left seq_entry q s)) /\ kept ce ce'.
Proof.
  induction q as [|e q IH]; intros s a ce K; cbn [fold_left]; [exists ce; split; [exact K|apply kept_refl]|].
  assert (S : exists ce1, In (a, ce1) (s_cells (seq_entry s e)) /\ kept ce ce1).
  { unfold seq_entry. destruct (find_cell _ _) as [b|]; [|exists ce; split; [exact K|apply kept_refl]]. apply on_cell_kept; [|exact K].
    intros x. destruct x as [i k at_ m p t u v]. destruct k; cbn; split; reflexivity. }
  destruct S as (ce1 & A & B). destruct (IH _ _ _ A) as (ce2 & C & D). exists ce2. split; [exact C|exact (kept_trans _ _ _ B D)].
Qed.
Lemma bind_kept c a ce : forall l m, bind_cells c l = Some m -> In (a, ce) l -> exists ce', In (a, ce') m /\ kept ce ce'.
Proof.
  induction l as [|x l IH]; intros m H Hin; [destruct Hin|]; cbn [bind_cells] in H; unfold obind in H; (destruct (cell_bind c (snd x)) as [y|] eqn:A; [|discriminate]);
    (destruct (bind_cells c l) as [m1|] eqn:B; [|discriminate]); injection H as <-. destruct Hin as [Hin|Hin].
  - subst x. exists y. split; [now left|]. cbn [snd] in A. unfold cell_bind, cell_bound in A. destruct ce as [i k at_ m0 p t u v]. destruct k; cbn in A; unfold obind, option_map in A;
      repeat (match type of A with context [match ?o with Some _ => _ | None => _ end] => destruct o; [|discriminate A] end); injection A as <-; split; reflexivity.
  - destruct (IH _ eq_refl Hin) as (ce' & C & D). exists ce'. split; [now right|exact D].
Qed.
Lemma purge_kept b a (ce : cell F) : b <> a -> forall l m, purge l b = Some m -> In (a, ce) l -> In (a, ce) m.
Proof.
  intros Ne. induction l as [|x l IH]; intros m H K; [discriminate|]. cbn [purge] in H. destruct (Nat.eqb (fst x) b) eqn:B.
  - injection H as <-. destruct K as [->|K]; [cbn in B; apply Nat.eqb_eq in B; congruence|exact K].
  - destruct (purge l b) as [m1|]; [|discriminate]. injection H as <-. destruct K as [K|K]; [now left|right; now apply IH].
Qed.
Lemma insert_kept (l : list (nat * cell F)) b cb x : In x l -> In x (insert_cell l b cb).
Proof.
  assert (G : In x l -> In x (insert_from l b cb)).
  { induction l as [|y l IH]; [easy|]. cbn [insert_from]. destruct l as [|z l]; [intros [K|[]]; now left|]. destruct (Nat.eqb _ _).
    - intros [K|K]; [now left|right; now apply IH].
    - intros [K|K]; [now left|right; right; exact K]. }
  destruct l as [|y l]; [easy|]. unfold insert_cell. intros K. destruct (Nat.eqb _ 0); [exact (G K)|now right].
Qed.
Lemma other_ae c s o c' s' a (ce : cell F) : steps o = false -> quiet a o -> In (a, ce) (s_cells s) -> run_op c s o = Some (c', s') -> exists ce', In (a, ce') (s_cells s') /\ kept ce ce'.
Proof.
  assert (Same : forall s0 : solver F, s_cells s0 = s_cells s -> In (a, ce) (s_cells s) -> exists ce', In (a, ce') (s_cells s0) /\ kept ce ce').
  { intros s0 -> K. exists ce. split; [exact K|apply kept_refl]. }
  intros S Q K H. destruct o; try discriminate S; cbn [quiet] in Q; try contradiction; cbn [run_op] in H; unfold option_map in H.
  - destruct (joint_reg c s i w) as [r|] eqn:A; [|discriminate]. injection H as <- <-. apply Same; [|exact K]. exact (joint_reg_sw_cells _ _ _ _ _ _ A).
  - destruct (joint_unreg c s i) as [r|] eqn:A; [|discriminate]. injection H as <- <-. apply Same; [|exact K]. exact (joint_reg_sw_cells _ _ _ _ _ _ A).
  - destruct (joint_reg_all c s w) as [r|] eqn:A; [|discriminate]. injection H as <- <-. apply Same; [|exact K]. exact (reg_all_cells _ _ _ _ _ _ A).
  - destruct (has a0 s); [discriminate|]. destruct (cell_reg s a0 k attr m) as [s1|] eqn:A; [|discriminate]. injection H as <- <-. unfold cell_reg in A. apply alloc_srv_cells in A.
    exists ce. split; [|apply kept_refl]. rewrite A. cbn [s_cells s_set_cells]. now apply insert_kept.
  - destruct (cell_unreg s a0) as [s1|] eqn:A; [|discriminate]. injection H as <- <-. unfold cell_unreg, obind in A. destruct (purge (s_cells s) a0) as [l|] eqn:P; [|discriminate].
    apply alloc_srv_cells in A. exists ce. split; [|apply kept_refl]. rewrite A. exact (purge_kept a0 a ce Q _ _ P K).
  - destruct (has a0 s); [|discriminate]. injection H as <- <-. apply on_cell_kept; [|exact K]. intros x. destruct x as [i k at_ m p t u w]. destruct k; cbn; split; reflexivity.
  - destruct (has a0 s); [|discriminate]. injection H as <- <-. apply on_cell_kept; [|exact K]. intros x. destruct x as [i k at_ m p t u w]. destruct k; cbn; split; reflexivity.
  - destruct (has a0 s); [|discriminate]. injection H as <- <-. apply on_cell_kept; [|exact K]. intros x. split; reflexivity.
  - destruct (has a0 s); [|discriminate]. injection H as <- <-. apply on_cell_kept; [|exact K]. intros x. split; reflexivity.
  - injection H as <- <-. apply (map_kept (fun _ x => cell_disable x)); [|exact K]. intros x. split; reflexivity.
  - destruct (ik_bind c s) as [s1|] eqn:A; [|discriminate]. injection H as <- <-. unfold ik_bind in A. destruct (bind_cells c (s_cells s)) as [l|] eqn:B; [|discriminate]. injection A as <-.
    exact (bind_kept c a ce _ _ B K).
  - injection H as <- <-. apply seq_kept. exact K.
  - destruct (chain_fk c v); [|discriminate]. injection H as <- <-. now apply Same.
Qed.
(** A whole history. *)
Lemma history_ae a : forall ops c s c' s' (ce : cell F), position_type (ce_kind ce) -> In (a, ce) (s_cells s) -> Forall (quiet a) ops -> run c s ops = Some (c', s') ->
  exists ce' es, In (a, ce') (s_cells s') /\ ce_kind ce' = ce_kind ce /\ errors a c s ops es /\ ae3 ce' = v3add (ae3 ce) (v3sum es).
Proof.
  induction ops as [|o ops IH]; intros c s c' s' ce P K Q R; cbn [run] in R.
  - injection R as <- <-. exists ce, []. split; [exact K|]. split; [reflexivity|]. split; [constructor|]. unfold v3sum. cbn. now rewrite v3add_zero_r.
  - unfold obind in R. destruct (run_op c s o) as [[c1 s1]|] eqn:A; [|discriminate]. cbn [fst snd] in R. inversion Q as [|? ? Qo Qs]; subst. destruct (steps o) eqn:S.
    + destruct (step_ae _ _ _ _ _ a ce S P K A) as (ce1 & K1 & St). unfold stepped in St. destruct (pressing ce) eqn:Pr.
      * destruct St as (e & Er & Kd & Ae). assert (P1 : position_type (ce_kind ce1)) by (rewrite Kd; exact P). destruct (IH _ _ _ _ ce1 P1 K1 Qs R) as (ce' & es & B1 & B2 & B3 & B4).
        exists ce', (e :: es). split; [exact B1|]. split; [congruence|]. split; [exact (er_press a c s o ops c1 s1 ce e es S K Pr Er A B3)|]. rewrite B4, Ae, v3add_ass. reflexivity.
      * destruct St as [Kd Ae]. assert (P1 : position_type (ce_kind ce1)) by (rewrite Kd; exact P). destruct (IH _ _ _ _ ce1 P1 K1 Qs R) as (ce' & es & B1 & B2 & B3 & B4).
        exists ce', es. split; [exact B1|]. split; [congruence|]. split; [exact (er_idle a c s o ops c1 s1 ce es S K Pr A B3)|]. congruence.
    + destruct (other_ae _ _ _ _ _ a ce S Qo K A) as (ce1 & K1 & Kd & Ae). assert (P1 : position_type (ce_kind ce1)) by (rewrite Kd; exact P). destruct (IH _ _ _ _ ce1 P1 K1 Qs R) as (ce' & es & B1 & B2 & B3 & B4).
      exists ce', es. split; [exact B1|]. split; [congruence|]. split; [exact (er_other a c s o ops c1 s1 es S A B3)|]. congruence.
Qed.
Lemma run_snoc : forall ops1 ops2 (c : chain F) s c1 s1 r, run c s ops1 = Some (c1, s1) -> run c1 s1 ops2 = r -> run c s (ops1 ++ ops2) = r.
Proof.
  induction ops1 as [|o l IH]; intros ops2 c s c1 s1 r H K; cbn [run app] in *; [congruence|]. destruct (run_op c s o) as [x|]; cbn [obind] in *; [|discriminate H]. exact (IH _ _ _ _ _ _ H K).
Qed.
Lemma address_unique (l : list (nat * cell F)) a x y : NoDup (map fst l) -> In (a, x) l -> In (a, y) l -> x = y.
Proof.
  induction l as [|[b z] l IH]; [easy|]. cbn [map fst]. intros Nd Hx Hy. inversion Nd as [|? ? Ni Nd']; subst. destruct Hx as [Hx|Hx], Hy as [Hy|Hy].
  - congruence.
  - injection Hx as -> ->. exfalso. apply Ni. apply (in_map fst) in Hy. exact Hy.
  - injection Hy as -> ->. exfalso. apply Ni. apply (in_map fst) in Hx. exact Hx.
  - now apply IH.
Qed.
Lemma insert_new (l : list (nat * cell F)) b cb y : In (b, y) (insert_cell l b cb) -> ~ In b (map fst l) -> ae3 y = ae3 cb.
Proof.
  assert (Out : forall l : list (nat * cell F), In (b, y) l -> ~ In b (map fst l) -> False) by (intros m H K; apply K; exact (in_map fst _ _ H)).
  assert (G : forall l : list (nat * cell F), In (b, y) (insert_from l b cb) -> ~ In b (map fst l) -> ae3 y = ae3 cb).
  { induction l0 as [|z l0 IH]; [easy|]. cbn [insert_from]. destruct l0 as [|w l0].
    - intros [K|[K|[]]] Ni; [exfalso; apply Ni; left; now rewrite K|]. now injection K as <-.
    - destruct (Nat.eqb _ _).
      + intros [K|K] Ni; [exfalso; apply Ni; left; now rewrite K|]. apply IH; [exact K|]. intros X. apply Ni. now right.
      + intros [K|[K|K]] Ni; [exfalso; apply Ni; left; now rewrite K|now injection K as <-|exfalso; apply (Out _ K); intros X; apply Ni; now right]. }
  destruct l as [|z l]; cbn [insert_cell]; [intros [K|[]] _; now injection K as <-|]. destruct (Nat.eqb _ 0); [apply G|].
  intros [K|K] Ni; [now injection K as <-|exfalso; exact (Out _ K Ni)].
Qed.
Lemma cleared_zero c s o c' s' a (ce : cell F) : clears a o -> run_op c s o = Some (c', s') -> In (a, ce) (s_cells s') -> ae3 ce = v3zero.
Proof.
  intros Cl H K. destruct o; try contradiction; cbn [run_op] in H.
  - cbn [clears] in Cl. subst a0. destruct (has a s) eqn:Ha; [discriminate|]. destruct (cell_reg s a k attr m) as [s1|] eqn:A; [|discriminate]. injection H as <- <-. unfold cell_reg in A. apply alloc_srv_cells in A.
    rewrite A in K. cbn [s_cells s_set_cells] in K. rewrite (insert_new _ _ _ _ K); [reflexivity|]. intros X. apply has_true in X. congruence.
  - injection H as <- <-. cbn [ik_acm_zero s_cells s_set_cells] in K. apply in_map_iff in K as ([b x] & Eq & _). injection Eq as <- <-. reflexivity.
Qed.

(** ** C104 *)
(** Since the cell was registered or the solver was cleared last, cell [a] asks for its error, and when it is forced
    for the sum of its errors at the steps at which it was forced and enabled and of its present error on top. *)
Theorem C104_reference : forall (c c0 c' : chain F) (s s0 s' : solver F) o ops a (ce : cell F),
  run_op c s o = Some (c0, s0) -> clears a o -> In (a, ce) (s_cells s0) -> position_type (ce_kind ce) ->
  Forall (quiet a) ops -> run c0 s0 ops = Some (c', s') ->
  exists ce' es, In (a, ce') (s_cells s') /\ ce_kind ce' = ce_kind ce /\ errors a c0 s0 ops es /\
    forall r, (reference c' ce' r <-> exists e, cell_err c' ce' = Some e /\ r = if m_force (ce_mode ce') then v3add e (v3sum (es ++ [e])) else e).
Proof.
  intros c c0 c' s s0 s' o ops a ce A Cl K P Q R. destruct (history_ae a ops _ _ _ _ ce P K Q R) as (ce' & es & B1 & B2 & B3 & B4). exists ce', es. split; [exact B1|]. split; [exact B2|]. split; [exact B3|]. intros r.
  rewrite (cleared_zero _ _ _ _ _ _ _ Cl A K), v3add_zero_l in B4. unfold reference.
  assert (P' : position_type (ce_kind ce')) by (rewrite B2; exact P). split; intros (e & Er & H); exists e; (split; [exact Er|]); destruct (m_force (ce_mode ce')); try exact H;
    destruct (cell_acm_ae ce' e P') as (_ & _ & S); rewrite B4 in S; rewrite v3sum_app in *; unfold v3sum in *; cbn [fold_right] in *; rewrite v3add_zero_r in *; congruence.
Qed.
(** So the rows of the constraint equation: with registered joint velocities, a row of the cell is met exactly when the full joint
    velocity moves the cell along the axis by that much. *)
Theorem C104_rows : forall (c c1 c0 c' : chain F) (s1 s0 s' : solver F) pre o ops a (ce0 ce : cell F), le_laws x_le -> chain_set_offset c = c ->
  run c (ik_create c) pre = Some (c1, s1) -> run_op c1 s1 o = Some (c0, s0) -> clears a o -> In (a, ce0) (s_cells s0) -> position_type (ce_kind ce0) ->
  Forall (quiet a) ops -> run c0 s0 ops = Some (c', s') -> wanted c (asked_all (length (c_links c)) (movable c) (pre ++ o :: ops)) <> [] ->
  (forall x, In x (s_cells s') -> cell_ready c' (snd x)) -> In (a, ce) (s_cells s') -> m_force (ce_mode ce) = true ->
  exists es s2, errors a c0 s0 ops es /\ ik_eq c' s' = Some s2 /\
  forall k ax, nth_error (active (s_cells s')) k = Some (ce, ax) ->
  exists e jm row b, cell_err c' ce = Some e /\ cell_cmat c' ce (repeat v3zero (chain_joint_size c')) = Some jm /\ nth_error (s_cmat s2) k = Some row /\ nth_error (s_csrv s2) k = Some b /\
    forall x v, length x = length (s_jvel s') -> merged c' (asked_all (length (c_links c)) (movable c) (pre ++ o :: ops)) x (s_vel s') v ->
      (dot row x = b <-> dot (map (comp ax) jm) v = comp ax e + comp ax (v3sum (es ++ [e])))%num.
Proof.
  intros c c1 c0 c' s1 s0 s' pre o ops a ce0 ce LE O R1 Ro Cl K0 P Q R W Rd K Fo.
  assert (Ra : run c (ik_create c) (pre ++ o :: ops) = Some (c', s')).
  { apply (run_snoc pre (o :: ops) c (ik_create c) c1 s1 _ R1). cbn [run]. rewrite Ro. exact R. }
  destruct (C46_ids_unique _ _ _ _ Ra) as (_ & _ & Nd).
  destruct (C48_rows c c' s' _ LE O Ra W Rd) as (s2 & Eq & _ & Rows).
  destruct (C104_reference c1 c0 c' s1 s0 s' o ops a ce0 Ro Cl K0 P Q R) as (ce' & es & B1 & B2 & B3 & Rf).
  assert (ce' = ce) by exact (address_unique _ _ _ _ Nd B1 K). subst ce'. exists es, s2. split; [exact B3|]. split; [exact Eq|]. intros k ax Hk.
  destruct (Rows k ce ax Hk) as (jm & r & row & b & C1 & C2 & C3 & C4 & _ & _ & C5). apply Rf in C2 as (e & Er & ->). rewrite Fo in C5. exists e, jm, row, b.
  split; [exact Er|]. split; [exact C1|]. split; [exact C3|]. split; [exact C4|]. intros x v Lx M. specialize (C5 x v Lx M).
  assert (Cp : comp ax (v3add e (v3sum (es ++ [e]))) = (comp ax e + comp ax (v3sum (es ++ [e])))%num) by (destruct ax; reflexivity). rewrite Cp in C5.
  set (p := dot row x) in *. set (q := dot (map (comp ax) jm) v) in *. set (u := comp ax e) in *. set (w := comp ax (v3sum (es ++ [e]))) in *. clearbody p q u w. clear -L C5. split; intros H.
  - subst p. transitivity (q - (u + w) + (u + w))%num; [ring|]. rewrite <- C5. ring.
  - subst q. transitivity (p - b + b)%num; [ring|]. rewrite C5. ring.
Qed.
End Int.

(** ** A concrete case: a forced position cell, two steps in different postures *)
Local Open Scope nat_scope.
Definition int_pre : list (op Qc) := [JRegAll (qz 1); MoveTo mdis].
Definition int_reg : op Qc := CReg 10 WldPos (at_ 4 0) full.
Definition idis : list Qc := map qz [3; 2; 1; 1; 0; 0; 1; 3; 1; 0; 2; 1]%Z.
Definition int_ops : list (op Qc) := [CSetRefForce 10 (V3 (qz 1) (qz 0) (qz 2)); Rate; MoveTo idis; Rate; MoveTo mdis].
Definition err_after (ops : list (op Qc)) : list (list Q) :=
  match run mech (ik_create mech) ops with
  | Some (c, s) => map (fun x => match cell_err c (snd x) with Some e => map this [vx e; vy e; vz e] | None => [] end) (s_cells s)
  | None => [] end.
Definition srv_after (ops : list (op Qc)) : list Q :=
  match run mech (ik_create mech) ops with Some (c, s) => match ik_eq c s with Some s' => map this (s_csrv s') | None => [] end | None => [] end.
Definition qsum4 (l : list (list Q)) : list Q :=
  match l with [[a1; a2; a3]; [b1; b2; b3]; [c1; c2; c3]] => map (fun q => this (Q2Qc q)) [c1 + (a1 + b1 + c1); c2 + (a2 + b2 + c2); c3 + (a3 + b3 + c3)]%Q | _ => [] end.
Example C104_ex : srv_after (int_pre ++ int_reg :: int_ops) =
  qsum4 (err_after (int_pre ++ int_reg :: firstn 1 int_ops) ++ err_after (int_pre ++ int_reg :: firstn 3 int_ops) ++ err_after (int_pre ++ int_reg :: int_ops)) /\
  err_after (int_pre ++ int_reg :: firstn 1 int_ops) <> err_after (int_pre ++ int_reg :: firstn 3 int_ops) /\ length (srv_after (int_pre ++ int_reg :: int_ops)) = 3.
Proof. vm_compute. repeat split. discriminate. Qed.
Definition has_pos (r : chain Qc * solver Qc) : bool := existsb (fun x => Nat.eqb (fst x) 10 && match ce_kind (snd x) with WldPos => true | _ => false end) (s_cells (snd r)).
Lemma has_pos_spec r : has_pos r = true -> exists ce, In (10, ce) (s_cells (snd r)) /\ position_type (ce_kind ce).
Proof.
  unfold has_pos. intros H. apply existsb_exists in H as ([a ce] & K & B). cbn [fst snd] in B. apply andb_prop in B as [B1 B2]. apply Nat.eqb_eq in B1. subst a.
  exists ce. split; [exact K|]. destruct (ce_kind ce); try discriminate B2. exact Logic.I.
Qed.
Lemma some_check {A} (o : option A) (f : A -> bool) : match o with Some a => f a | None => false end = true -> exists a, o = Some a /\ f a = true.
Proof. destruct o as [a|]; [eauto|discriminate]. Qed.
Example C104_ex_theorem : exists c0 s0 c' s' ce' es, run mech (ik_create mech) (int_pre ++ [int_reg]) = Some (c0, s0) /\ run c0 s0 int_ops = Some (c', s') /\ In (10, ce') (s_cells s') /\ errors 10 c0 s0 int_ops es /\
  forall r, reference c' ce' r -> m_force (ce_mode ce') = true -> exists e, r = v3add e (v3sum (es ++ [e])).
Proof.
  destruct (some_check (run mech (ik_create mech) int_pre) (fun r => match run_op (fst r) (snd r) int_reg with Some r0 => has_pos r0 && match run (fst r0) (snd r0) int_ops with Some _ => true | None => false end | None => false end)) as ([c1 s1] & R1 & H); [vm_compute; reflexivity|].
  cbn [fst snd] in H. destruct (run_op c1 s1 int_reg) as [[c0 s0]|] eqn:Ro; [|discriminate H]. cbn [fst snd] in H. destruct (run c0 s0 int_ops) as [[c' s']|] eqn:R; [|now rewrite andb_false_r in H].
  rewrite andb_true_r in H. apply has_pos_spec in H as (ce & K & P). cbn [snd] in K.
  assert (Q : Forall (quiet 10) int_ops) by (repeat constructor).
  destruct (C104_reference c1 c0 c' s1 s0 s' int_reg int_ops 10 ce Ro eq_refl K P Q R) as (ce' & es & A & _ & B & C).
  exists c0, s0, c', s', ce', es. split; [apply (run_snoc int_pre [int_reg] mech (ik_create mech) c1 s1 _ R1); cbn [run]; rewrite Ro; reflexivity|]. split; [exact R|]. split; [exact A|]. split; [exact B|].
  intros r Hr Fo. apply C in Hr as (e & _ & Hr). rewrite Fo in Hr. exists e. exact Hr.
Qed.

Print Assumptions C104_reference.
Print Assumptions C104_rows.
