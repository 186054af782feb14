(** * IK_Usable: calls on a solver keep its chain usable. *)
From Coq Require Import List Arith Lia Bool.
From Verif Require Import Num NumFacts Vec VecFacts Motor_Model Joint_Model Joint_Spec Joint_Proofs Body_Model Tree Tree_Proofs Link_Model Link_Spec Link_Properties Chain_Proofs Chain_Properties Jacobi_Model Kin_Spec Kin_Proofs Jacobi_Proofs
  IK_Model IK_Spec.
Import ListNotations.

Section Usable.
Context {F : Type} {N : Num F} {L : NumLaws F N} {E : Ext F} {I : IKExt F}.
Notation lk := (link F).
Lemma set_all_rel set v (h : list lk) : forall h', set_all set h v = Some h' -> Forall2 (set_rel set v) h h'.
Proof.
  induction h as [|l h IH]; cbn [set_all]; intros h' H; [injection H as <-; constructor|].
  destruct (l_offset l) as [o|] eqn:O; unfold obind in H.
  - destruct (set (l_joint l) (skipn o v)) as [j|] eqn:J; [|discriminate]. destruct (set_all set h v) as [t|]; [|discriminate]. injection H as <-.
    constructor; [|auto]. unfold set_rel. rewrite O. eauto.
  - destruct (set_all set h v) as [t|]; [|discriminate]. injection H as <-. constructor; [|auto]. unfold set_rel. now rewrite O.
Qed.
Lemma usable_set (c c' : chain F) v : usable c -> chain_set_joint_dis_all c v = Some c' -> usable c'.
Proof.
  intros (W & O & JM & OR) A. apply offsets_placed in O. unfold chain_set_joint_dis_all in A.
  destruct (set_all joint_set_dis (c_links c) v) as [h|] eqn:A1; [|discriminate]. injection A as <-. apply set_all_rel in A1 as R.
  destruct (set_rel_placed _ v 0 _ _ set_dis_ok R O) as [P T]. split; [|split; [|split]]; cbn [c_links c_set_links].
  - eapply wf_of_refs; [|exact W]. eapply Forall2_impl2; [|exact R]. intros a b. unfold set_rel. destruct (l_offset a); [intros (j & _ & ->)|intros ->]; repeat split.
  - apply placed_offsets. exact P.
  - intros i l Hl. destruct (Forall2_nth_r _ _ _ R i l Hl) as (a & Ha & RR). unfold set_rel in RR. destruct (l_offset a) as [n|]; [|subst; eauto].
    destruct RR as (j & J & ->). eapply (made_step _ _ (OSetDis (skipn n v))); [exact (JM i a Ha)|exact J].
  - intros i l Hl. destruct (Forall2_nth_r _ _ _ R i l Hl) as (a & Ha & RR). unfold set_rel in RR. destruct (l_offset a); [|subst; eauto].
    destruct RR as (j & J & ->). exact (OR i a Ha).
Qed.
Lemma usable_frame (c c1 : chain F) : usable c -> chain_update_frame c = Some c1 -> usable c1.
Proof.
  intros (W & O & JM & OR) A1. destruct (C24_frame_pass c W) as (c1' & A1' & P1 & W1). assert (c1' = c1) by congruence. subst c1'.
  assert (INV : forall k l, nth_error (c_links c1) k = Some l -> exists l0, nth_error (c_links c) k = Some l0 /\ l_joint l = l_joint l0 /\ l_org l = l_org l0).
  { intros k l Hk. destruct (nth_error (c_links c) k) as [l0|] eqn:H0. 2:{ apply nth_error_None in H0. apply nth_lt in Hk. pose proof (proj1 P1). lia. }
    destruct (pass_keeps _ _ P1 k l0 H0) as (l1 & H1 & EJ & EO & _). assert (l1 = l) by congruence. subst l1. exists l0. auto. }
  split; [exact W1|]. split; [|split].
  - apply placed_offsets. apply offsets_placed in O.
    assert (K : Forall2 (fun l l' => l_offset l' = l_offset l /\ lsize l' = lsize l) (c_links c) (c_links c1)).
    { apply forall2_nth_eq; [symmetry; apply P1|]. intros i l Hl. destruct (pass_keeps _ _ P1 i l Hl) as (l' & Hl' & EJ & _ & _ & EO & _).
      exists l'. split; [exact Hl'|]. split; [exact EO|]. unfold lsize. now rewrite EJ. }
    revert O. generalize 0%nat. clear -K. induction K as [|l l' t t' [K1 K2] R IH]; intros s P; [exact P|].
    apply placed_cons in P as [A B]. apply placed_cons. rewrite K1, K2. auto.
  - intros i l Hl. destruct (INV i l Hl) as (l0 & H0 & -> & _). eauto.
  - intros i l Hl. destruct (INV i l Hl) as (l0 & H0 & _ & ->). eauto.
Qed.
(** Forward kinematics has been computed for the present joint displacements. *)
Definition posed (c : chain F) : Prop := exists c0, usable c0 /\ chain_update_fk c0 = Some c.
Lemma usable_fk (c c1 : chain F) : usable c -> chain_update_fk c = Some c1 -> usable c1.
Proof.
  intros U H. unfold chain_update_fk in H. destruct (chain_update_frame c) as [c2|] eqn:A; [|discriminate]. injection H as <-.
  destruct (usable_frame c c2 U A) as (U1 & U2 & U3 & U4). split; [exact U1|]. split; [|split; [exact U3|exact U4]].
  apply placed_offsets. exact (offsets_placed c2 U2).
Qed.
Lemma posed_usable c : posed c -> usable c.
Proof. intros (c0 & U & K). eapply usable_fk; eauto. Qed.
Lemma solve_one_posed (c : chain F) s dis dt c' s' d' : usable c -> ik_solve_one c s dis dt = Some (c', s', d') -> posed c'.
Proof.
  intros U H. unfold ik_solve_one, obind in H. destruct (ik_solve_rate c s); [|discriminate]. destruct (chain_cat_joint_dis_all _ _ _ _); [|discriminate].
  destruct (chain_set_joint_dis_all c _) as [c1|] eqn:A; [|discriminate]. destruct (chain_get_joint_dis_all _ _); [|discriminate].
  destruct (chain_update_fk c1) as [c2|] eqn:B; [|discriminate]. injection H as <- _ _. exists c1. split; [eapply usable_set; eauto|exact B].
Qed.
Lemma solve_loop_posed tol : forall k i rest (c : chain F) s dis c' s' d' r, usable c -> solve_loop tol k i rest c s dis = Some (c', s', d', r) -> posed c' \/ (k = 0%nat /\ c' = c).
Proof.
  induction k as [|k IH]; cbn [solve_loop]; intros i rest c s dis c' s' d' r U H; [injection H as <- _ _ _; auto|]. left.
  unfold obind in H. destruct (ik_solve_one c s dis 1%num) as [[[c1 s1] d1]|] eqn:A; [|discriminate]. pose proof (solve_one_posed _ _ _ _ _ _ _ U A) as P.
  cbn [fst snd] in H. destruct (match rest with Some e => _ | None => _ end); [injection H as <- _ _ _; exact P|].
  destruct (IH _ _ _ _ _ _ _ _ _ (posed_usable _ P) H) as [Q|[_ ->]]; auto.
Qed.
(** Calls that compute forward kinematics. *)
Definition poses (o : op F) : bool := match o with One _ _ | MoveTo _ => true | Solve _ _ n => negb (Nat.eqb n 0) | _ => false end.
Lemma run_op_usable (c : chain F) s o c' s' : usable c -> run_op c s o = Some (c', s') -> usable c' /\ (posed c \/ poses o = true -> posed c').
Proof.
  intros U K.
  assert (Same : c' = c -> poses o = false -> usable c' /\ (posed c \/ poses o = true -> posed c')) by (intros -> ->; split; [exact U|intros [?|?]; [assumption|discriminate]]).
  destruct o; cbn [run_op] in K; unfold option_map in K;
    repeat match type of K with context [match ?x with _ => _ end] => match x with ik_solve_one _ _ _ _ => fail 1 | ik_solve _ _ _ _ _ => fail 1 | chain_fk _ _ => fail 1 | _ => destruct x eqn:? end; try discriminate end;
    try (injection K as <- <-; apply Same; reflexivity).
  - destruct (ik_solve_one c s dis dt) as [[[c1 s1] d1]|] eqn:A; [|discriminate]. injection K as <- <-. pose proof (solve_one_posed _ _ _ _ _ _ _ U A) as P. split; [now apply posed_usable|auto].
  - destruct (ik_solve c s dis tol iter) as [[[[c1 s1] d1] r]|] eqn:A; [|discriminate]. injection K as <- <-. unfold ik_solve, obind in A.
    destruct (chain_get_joint_dis_all c dis); [|discriminate]. destruct (solve_loop_posed _ _ _ _ _ _ _ _ _ _ _ U A) as [P|[Z ->]].
    + split; [now apply posed_usable|auto].
    + split; [exact U|]. intros [Q|Q]; [exact Q|]. cbn in Q. destruct iter; cbn in *; discriminate.
  - destruct (chain_fk c v) as [c1|] eqn:A; [|discriminate]. injection K as <- <-. unfold chain_fk, obind in A.
    destruct (chain_set_joint_dis_all c v) as [c2|] eqn:B; [|discriminate]. assert (P : posed c1) by (exists c2; split; [eapply usable_set; eauto|exact A]).
    split; [now apply posed_usable|auto].
Qed.
Lemma run_usable ops : forall (c : chain F) s c' s', usable c -> run c s ops = Some (c', s') -> usable c' /\ (posed c \/ existsb poses ops = true -> posed c').
Proof.
  induction ops as [|o ops IH]; cbn [run existsb]; intros c s c' s' U H.
  - injection H as <- <-. split; [exact U|]. intros [?|?]; [assumption|discriminate].
  - unfold obind in H. destruct (run_op c s o) as [[c1 s1]|] eqn:A; [|discriminate]. cbn [fst snd] in H.
    destruct (run_op_usable _ _ _ _ _ U A) as [U1 P1]. destruct (IH _ _ _ _ U1 H) as [U2 P2]. split; [exact U2|].
    intros [Q|Q]; [auto|]. apply orb_true_iff in Q as [Q|Q]; auto.
Qed.
End Usable.
