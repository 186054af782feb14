(** * ABI_Properties: theorems C40 (forward dynamics by the articulated body algorithm). *)
From Coq Require Import String ZArith QArith Qcanon List Arith Lia Permutation.
From Verif Require Import Num NumFacts Vec VecFacts Motor_Model Joint_Model Joint_Spec Joint_Proofs Body_Model Body_Proofs
  Tree Tree_Proofs Link_Model Link_Spec Link_Proofs Chain_Proofs Link_Properties Chain_Properties Kin_Spec Kin_Proofs Jacobi_Model Jacobi_Proofs Kin_Properties
  Dyn_Spec Dyn_Proofs Dyn_Properties Walk Walk_Proofs ABI_Model ABI_Spec ABI_Alg ABI_Proofs ABI_State ABI_ID ExtQ ABI_Q.
Import ListNotations.
Local Open Scope nat_scope.

Section Thms.
Context {F : Type} {N : Num F} {L : NumLaws F N} {E : Ext F} {X : ExtLaws F N E} {MI : MInv F}.
Local Open Scope num_scope.
Notation lk := (link F).

(** rkChainABIAlloc prepares the memory of any chain with symmetric inertia tensors. *)
Theorem C40_alloc_ready (br : bool) (c : chain F) : Forall (fun l => sym3 (mp_inertia (b_mp (l_body l)))) (c_links c) -> abi_ready (chain_abi_alloc br c).
Proof. unfold abi_ready, chain_abi_alloc. cbn [ac_c ac_a]. induction 1; cbn [map]; constructor; auto. Qed.

(** The algorithm ends on every tree and leaves configuration, velocities, bodies and contact forces alone,
    whatever the joints are. *)
Theorem C40_update_total (g : F) (c : achain F) : well_formed (c_links (ac_c c)) -> length (ac_a c) = length (c_links (ac_c c)) ->
  chain_joint_size (ac_c c) <> 0%nat ->
  exists c', chain_abi_update_wrench g c = Some c' /\ Forall2 same_state (c_links (ac_c c)) (c_links (ac_c c')) /\ length (ac_a c') = length (ac_a c).
Proof.
  intros W LE NZ. destruct (update_wrench_run g c (conj W LE) NZ) as (c' & k & h1 & h2 & H & RUN). exists c'. split; [exact H|].
  pose proof (run_finished _ _ _ _ _ _ LE RUN) as FI. split.
  - eapply forall2_imp; [|exact FI]. apply finished_same.
  - destruct RUN as (_ & _ & _ & _ & _ & _ & _ & _ & (_ & LA) & _). rewrite LA, LE. symmetry. eapply Forall2_len; exact FI.
Qed.

(** C40, for trees of fixed, revolute, floating and (unbroken) breakable floating joints and a prismatic
    joint at the root, with regular joint-space inertias: after rkChainABIUpdateGetWrench the accelerations and
    wrenches solve the equations of motion.  Missing: prismatic joints elsewhere, cylindrical, universal and
    spherical joints, for which it is false (see below). *)
Theorem C40_update_solves_partial (g : F) (c c' : achain F) : well_formed (c_links (ac_c c)) -> joints_made (c_links (ac_c c)) -> abi_ready c ->
  chain_joint_size (ac_c c) <> 0%nat -> chain_abi_update_wrench g c = Some c' -> ac_br c' = false -> all_regular c' ->
  dynamics_solved g c' /\ map ab_wl (ac_a c') = map ab_wl (ac_a c).
Proof.
  intros W JM RD NZ H BR REG. assert (LE : length (ac_a c) = length (c_links (ac_c c))) by (symmetry; eapply Forall2_len, RD).
  destruct (update_wrench_run g c (conj W LE) NZ) as (c2 & k & h1 & h2 & H2 & RUN). assert (c2 = c') by congruence. subst c2.
  destruct (run_solved g c c' k h1 h2 RD) as (A & _ & B); auto.
  apply Forall_forall. intros l I. apply In_nth_error in I as [i Hi]. eauto.
Qed.

(** The same for rkChainABI: it sets the joints and the links to the given displacements and velocities,
    solves the equations of motion there, and returns the joint accelerations of the solution. *)
Theorem C40_forward_dynamics_partial (g : F) (c : achain F) (dis vel acc : list F) :
  usable (ac_c c) -> abi_ready c -> chain_joint_size (ac_c c) <> 0%nat ->
  length dis = chain_joint_size (ac_c c) -> length vel = chain_joint_size (ac_c c) -> length acc = chain_joint_size (ac_c c) ->
  exists c1 c2 c3 c4 c' qdd,
    chain_set_joint_dis_all (ac_c c) dis = Some c1 /\ chain_set_joint_vel_all c1 vel = Some c2 /\
    chain_update_fk c2 = Some c3 /\ chain_update_vel c3 = Some c4 /\
    chain_abi g c dis vel acc = Some (c', Some qdd) /\ Forall2 same_state (c_links c4) (c_links (ac_c c')) /\
    chain_get_joint_acc_all (ac_c c') acc = Some qdd /\
    (ac_br c' = false -> all_regular c' -> dynamics_solved g c' /\ map ab_wl (ac_a c') = map ab_wl (ac_a c)).
Proof.
  intros U RD NZ LD LV LA. destruct (chain_abi_run g c dis vel acc U RD NZ LD LV LA) as (c4 & c' & qdd & k & h1 & h2 & H & PC & H4 & H5 & R4 & RUN & GA).
  destruct (chain_set_joint_dis_all (ac_c c) dis) as [c1|] eqn:A1; [|discriminate]. cbn [obind] in H4.
  destruct (chain_set_joint_vel_all c1 vel) as [c2|] eqn:A2; [|discriminate]. cbn [obind] in H4.
  destruct (chain_update_fk c2) as [c3|] eqn:A3; [|discriminate]. cbn [obind] in H4.
  assert (LE : length (ac_a c) = length (c_links c4)).
  { rewrite <- (Forall2_len _ _ _ (pc_posed _ _ _ _ PC)). symmetry. eapply Forall2_len, RD. }
  exists c1, c2, c3, c4, c', qdd. do 3 (split; [assumption || reflexivity|]). split; [exact H4|]. split; [exact H|]. split.
  - eapply forall2_imp; [|exact (run_finished g (AC c4 (ac_a c) (ac_br c)) c' k h1 h2 LE RUN)]. apply finished_same.
  - split; [exact GA|]. intros BR REG. destruct (run_solved g (AC c4 (ac_a c) (ac_br c)) c' k h1 h2 R4 (pc_made _ _ _ _ PC) RUN BR REG) as (Q1 & _ & Q2). auto.
Qed.

(** Forward and inverse dynamics agree: rkChainID with the velocities given to rkChainABI and the accelerations
    it returned, on the chain it left and with the contact forces among the external ones, recovers the forces
    that drive the joints and the wrenches between the links, and finds the link accelerations plus gravity. *)
Theorem C40_inverse_dynamics_partial (g : F) (c c' : achain F) (dis vel acc qdd z : list F) :
  usable (ac_c c) -> abi_ready c -> chain_joint_size (ac_c c) <> 0%nat ->
  length dis = chain_joint_size (ac_c c) -> length vel = chain_joint_size (ac_c c) -> length acc = chain_joint_size (ac_c c) -> length z = chain_joint_size (ac_c c) ->
  chain_abi g c dis vel acc = Some (c', Some qdd) -> ac_br c' = false -> all_regular c' ->
  (forall i l, nth_error (c_links (ac_c c')) i = Some l -> no_slide (l_joint l)) ->
  exists c2, chain_id g (with_contacts c') vel qdd = Some c2 /\
    chain_get_joint_trq_all c2 z = Some (flat_map (fun l => drive (l_joint l)) (c_links (ac_c c'))) /\
    Forall2 (fun l l2 => l_wrench l2 = l_wrench l /\ l_vel l2 = l_vel l /\
      l_acc l2 = v6add (l_acc l) (V6 (m3tv (fatt (l_frame l)) (V3 0 0 g)) v3zero)) (c_links (ac_c c')) (c_links c2).
Proof.
  intros U RD NZ LD LV LA LZ H BR REG NS.
  destruct (chain_abi_run g c dis vel acc U RD NZ LD LV LA) as (c4 & c2 & q2 & k & h1 & h2 & H' & PC & H4 & H5 & R4 & RUN & GA).
  rewrite H' in H. assert (c2 = c') by congruence. subst c2. assert (q2 = qdd) by congruence. subst q2.
  assert (LE : length (ac_a c) = length (c_links c4)).
  { rewrite <- (Forall2_len _ _ _ (pc_posed _ _ _ _ PC)). symmetry. eapply Forall2_len, RD. }
  pose proof (run_finished g (AC c4 (ac_a c) (ac_br c)) c' k h1 h2 LE RUN) as FI. cbn [ac_c] in FI.
  assert (PF : Forall2 posed (c_links c4) (c_links (ac_c c'))) by (eapply forall2_imp; [|exact FI]; apply finished_posed).
  assert (P' : placed 0 (c_links (ac_c c'))) by (eapply posed_placed; [exact PF|apply PC]).
  assert (T' : total (c_links (ac_c c')) = chain_joint_size (ac_c c)) by (rewrite (posed_total _ _ PF); apply PC).
  assert (QE : qdd = flat_map (fun l => joint_get_acc (l_joint l)) (c_links (ac_c c'))).
  { unfold chain_get_joint_acc_all in GA. rewrite (get_all_spec joint_get_acc _ get_acc_len 0 acc P') in GA by lia.
    rewrite skipn_all2 in GA by lia. cbn [firstn app] in GA. rewrite app_nil_r in GA. congruence. }
  destruct (abi_then_id g (ac_c c) c4 (AC c4 (ac_a c) (ac_br c)) c' dis vel k h1 h2 eq_refl PC R4 RUN BR REG NS) as (c2 & ID & RC & P2 & T2). cbv zeta in ID. rewrite <- QE in ID.
  exists c2. split; [exact ID|]. split.
  - unfold chain_get_joint_trq_all. rewrite (get_all_spec joint_get_trq _ get_trq_len 0 z P2) by lia. rewrite skipn_all2 by lia.
    cbn [firstn app]. rewrite app_nil_r. f_equal. eapply flat_rel; [|exact RC]. intros l l2 (_ & _ & _ & Q). exact Q.
  - eapply forall2_imp; [|exact RC]. intros l l2 (A & B & C & _). auto.
Qed.
End Thms.

(** ** Examples *)

(** A floating base, a DC motor with friction, a rigid joint, a passive joint and a torque motor, with two
    contact forces on link 2; the base turns about the direction it moves in. *)
Definition dcm : motor Qc := Mot (Some "m"%string) (MDC (DC (qz 0) (qz 0) (qz 1) (qz 2) (qz 24) (qz (-24)) (qz 3) (qz 1) (qz 1) (qz 1) (qz 1))).
Definition tqm : motor Qc := Mot (Some "t"%string) (MTrq (TQ (qz 0) None None)).
Definition jdc : joint Qc := ran TRevol [OSetMotor dcm; OMotorInput [qz 2]; OSetFriction [qz (-1)]].
Definition jtq : joint Qc := ran TRevol [OSetMotor tqm; OMotorInput [qz 5]].
Lemma jdc_made : made jdc. Proof. eapply ran_made. reflexivity. Qed.
Lemma jtq_made : made jtq. Proof. eapply ran_made. reflexivity. Qed.
Definition contact_at (i : nat) (w : wlist Qc) (c : achain Qc) : achain Qc :=
  AC (ac_c c) (map (fun x => if Nat.eqb (fst x) i then ab_set_wl w (snd x) else snd x) (combine (seq 0 (length (ac_a c))) (ac_a c))) (ac_br c).
Lemma contact_ready i w c : abi_ready c -> abi_ready (contact_at i w c).
Proof.
  unfold abi_ready, contact_at. cbn [ac_c ac_a]. generalize 0. generalize (ac_a c). generalize (c_links (ac_c c)).
  intros h m s R. revert s. induction R as [|l a t t' [A B] R IH]; intros s; cbn; constructor; auto.
  cbn [fst snd]. destruct (Nat.eqb s i); auto.
Qed.
Definition amech : achain Qc := contact_at 2 [wa; wb] (chain_abi_alloc false (mech5 [jn TFloat; jdc; jn TFixed; jn TRevol; jtq])).
Definition pmech : achain Qc := chain_abi_alloc false (mech5 [jn TPrism; jtq; jn TFixed; jdc; jn TFixed]).
Lemma sym_links a b c d e : Forall (fun l => sym3 (mp_inertia (b_mp (l_body l)))) (c_links (mech5 [a; b; c; d; e])).
Proof. apply Forall_forall. intros l I. apply In_nth_error in I as [k Hk]. eapply mech5_sym; eauto. Qed.
Lemma amech_ready : abi_ready amech. Proof. apply contact_ready, C40_alloc_ready, sym_links. Qed.
Lemma amech_usable : usable (ac_c amech). Proof. apply mech5_usable. repeat constructor; (apply jdc_made || apply jtq_made || apply jn_made). Qed.
Lemma pmech_usable : usable (ac_c pmech). Proof. apply mech5_usable. repeat constructor; (apply jdc_made || apply jtq_made || apply jn_made). Qed.
Lemma amech_size : chain_joint_size (ac_c amech) = 9. Proof. vm_compute. reflexivity. Qed.
Lemma pmech_size : chain_joint_size (ac_c pmech) = 3. Proof. vm_compute. reflexivity. Qed.
Definition adis : list Qc := map qz [1; 2; 0; 1; 0; 0; 1; 0; 1]%Z.
Definition avel : list Qc := map qz [1; 0; 2; 2; 0; 4; 1; -1; 2]%Z.
Definition z9 : list Qc := repeat (qz 0) 9.
Definition good (x : achain Qc * option (list Qc)) : bool :=
  (negb (ac_br (fst x)) && all_regularb (fst x) && no_slideb (fst x) && forallb (fun i => qlbs (lhs (qz 10) (fst x) i) (rhs (fst x) i)) (seq 0 5))%bool.
Example C40_ex : exists x, (chain_abi (qz 10) amech adis avel z9) = Some x /\ good x = true.
Proof. apply (some_ex (chain_abi (qz 10) amech adis avel z9) good). vm_compute. reflexivity. Qed.
Example C40_ex_acc : exists x, (chain_abi (qz 10) amech adis avel z9) = Some x /\ [match snd x with Some q => q | None => [] end] =
  [map (fun n => Q2Qc (n # 1520527007)) [15517158953; -61453768067; -24597384225; -664662891; -19702817; -1769538240; -110251521; 1159492072; 8402006270]%Z].
Proof. apply (some_exq (chain_abi (qz 10) amech adis avel z9) (fun x => [match snd x with Some q => q | None => [] end])). vm_compute. reflexivity. Qed.
(** The theorems applied to this chain. *)
Lemma apply_C40 (c : achain Qc) dis vel z x n : usable (ac_c c) -> abi_ready c -> chain_joint_size (ac_c c) = n -> n <> 0 -> length dis = n -> length vel = n -> length z = n ->
  chain_abi (qz 10) c dis vel z = Some x -> good x = true ->
  exists c' qdd, chain_abi (qz 10) c dis vel z = Some (c', Some qdd) /\ dynamics_solved (qz 10) c' /\
  exists c2, chain_id (qz 10) (with_contacts c') vel qdd = Some c2 /\
    chain_get_joint_trq_all c2 z = Some (flat_map (fun l => drive (l_joint l)) (c_links (ac_c c'))).
Proof.
  intros U RD SZ NZ LD LV LZ R G.
  destruct (C40_forward_dynamics_partial (qz 10) c dis vel z U RD) as (c1 & c2 & c3 & c4 & c' & q & _ & _ & _ & _ & H & _ & _ & D); try congruence.
  rewrite H in R. assert (x = (c', Some q)) by congruence. subst x. clear R. unfold good in G. cbn [fst] in G. apply andb_prop in G as [G _].
  apply andb_prop in G as [G G3]. apply andb_prop in G as [G1 G2]. apply negb_true_iff in G1. apply all_regularb_sound in G2.
  exists c', q. split; [exact H|]. split; [apply D; auto|].
  destruct (C40_inverse_dynamics_partial (qz 10) c c' dis vel z q z U RD) as (d & D1 & D2 & _); try congruence; auto. exact (no_slideb_sound _ G3).
  exists d. auto.
Qed.
Example C40_ex_solved : exists c' qdd, chain_abi (qz 10) amech adis avel z9 = Some (c', Some qdd) /\ dynamics_solved (qz 10) c' /\
  exists c2, chain_id (qz 10) (with_contacts c') avel qdd = Some c2 /\
    chain_get_joint_trq_all c2 z9 = Some (flat_map (fun l => drive (l_joint l)) (c_links (ac_c c'))).
Proof.
  destruct C40_ex as (x & R & G). 
  apply (apply_C40 amech adis avel z9 x 9 amech_usable amech_ready amech_size); [discriminate|reflexivity..|exact R|exact G].
Qed.
Example C40_ex_prism : exists c', (chain_abi_update_wrench (qz 10) pmech) = Some c' /\ good (c', None) = true.
Proof. apply (some_ex (chain_abi_update_wrench (qz 10) pmech) (fun c => good (c, None))). vm_compute. reflexivity. Qed.
Example C40_ex_prism_solved c' : chain_abi_update_wrench (qz 10) pmech = Some c' -> dynamics_solved (qz 10) c'.
Proof.
  intros H. destruct C40_ex_prism as (x & R & G). assert (x = c') by congruence. subst x.
  unfold good in G. cbn [fst] in G. do 2 apply andb_prop in G as [G _]. apply andb_prop in G as [G1 G2].
  destruct pmech_usable as (W & _ & M & _).
  apply (C40_update_solves_partial (qz 10) pmech c'); auto; [|rewrite pmech_size; discriminate|now apply negb_true_iff|now apply all_regularb_sound].
  apply C40_alloc_ready, sym_links.
Qed.

(** ** Joints for which the property fails *)

(** rk_joint_prism.c 220-231 does not scale the column of the articulated inertia by the inverse of the joint
    inertia, so a prismatic joint below another one passes a wrong bias force on. *)
Theorem C40_prism_refuted : fails [jn TRevol; jn TPrism; jn TFixed; jn TFixed; jn TFixed] [qz 1; qz 1].
Proof. apply (fails_by _ _ _ _ _ _ 0); [repeat constructor; apply jn_made|]. vm_compute. reflexivity. Qed.
(** rk_joint_cylin.c 275-276 adds the bias force where it has to be subtracted: already wrong at the root. *)
Theorem C40_cylin_refuted : fails [jn TCylin; jn TFixed; jn TFixed; jn TFixed; jn TFixed] [qz 0; qz 0].
Proof. apply (fails_by _ _ _ _ _ _ 0); [repeat constructor; apply jn_made|]. vm_compute. reflexivity. Qed.
(** The ABI methods of universal and spherical joints do nothing: no acceleration is computed. *)
Theorem C40_hooke_refuted : fails [jn THooke; jn TFixed; jn TFixed; jn TFixed; jn TFixed] [qz 0; qz 0].
Proof. apply (fails_by _ _ _ _ _ _ 0); [repeat constructor; apply jn_made|]. vm_compute. reflexivity. Qed.
Theorem C40_spher_refuted : fails [jn TSpher; jn TFixed; jn TFixed; jn TFixed; jn TFixed] [qz 0; qz 0; qz 0].
Proof. apply (fails_by _ _ _ _ _ _ 0); [repeat constructor; apply jn_made|]. vm_compute. reflexivity. Qed.
(** A floating base that moves across its axis of rotation: the accelerations solve the equations of motion, but
    rkChainID does not recover the zero force from them (its accelerations are the wrong ones, C37). *)
Definition fmech : achain Qc := chain_abi_alloc false (mech5 [jn TFloat; jn TFixed; jn TFixed; jn TFixed; jn TFixed]).
Definition fvel : list Qc := map qz [1; 0; 0; 0; 1; 0]%Z.
Definition z6 : list Qc := repeat (qz 0) 6.
Definition there_and_back (c : achain Qc) (vel z : list Qc) : option (achain Qc * list Qc) :=
  match chain_abi (qz 10) c z vel z with
  | Some (c', Some q) => obind (chain_id (qz 10) (with_contacts c') vel q) (fun c2 => option_map (pair c') (chain_get_joint_trq_all c2 z))
  | _ => None
  end.
Lemma there_and_back_spec c vel z x : there_and_back c vel z = Some x -> exists q c2, chain_abi (qz 10) c z vel z = Some (fst x, Some q) /\
  chain_id (qz 10) (with_contacts (fst x)) vel q = Some c2 /\ chain_get_joint_trq_all c2 z = Some (snd x).
Proof.
  unfold there_and_back. destruct (chain_abi (qz 10) c z vel z) as [[c' [q|]]|]; try discriminate.
  destruct (chain_id (qz 10) (with_contacts c') vel q) as [c2|] eqn:I2; [|discriminate]. cbn [obind].
  destruct (chain_get_joint_trq_all c2 z) as [t|] eqn:T; [|discriminate]. cbn [option_map]. intros R. assert (x = (c', t)) by congruence. subst x. exists q, c2. auto.
Qed.
Theorem C40_float_inverse_refuted : exists c' q c2 trq, chain_abi (qz 10) fmech z6 fvel z6 = Some (c', Some q) /\ ac_br c' = false /\ all_regular c' /\
  chain_id (qz 10) (with_contacts c') fvel q = Some c2 /\ chain_get_joint_trq_all c2 z6 = Some trq /\
  trq <> flat_map (fun l => drive (l_joint l)) (c_links (ac_c c')).
Proof.
  assert (H : exists x, there_and_back fmech fvel z6 = Some x /\ (negb (ac_br (fst x)) && all_regularb (fst x) &&
    negb (qlb (snd x) (flat_map (fun l => drive (l_joint l)) (c_links (ac_c (fst x))))))%bool = true) by (apply some_ex; vm_compute; reflexivity).
  destruct H as (x & R & G). apply there_and_back_spec in R as (q & c2 & A & B & C). apply andb_prop in G as [G G3]. apply andb_prop in G as [G1 G2].
  exists (fst x), q, c2, (snd x). split; [exact A|]. split; [now apply negb_true_iff|]. split; [now apply all_regularb_sound|]. split; [exact B|]. split; [exact C|].
  apply qlne. now apply negb_true_iff.
Qed.

Print Assumptions C40_alloc_ready.
Print Assumptions C40_update_total.
Print Assumptions C40_update_solves_partial.
Print Assumptions C40_forward_dynamics_partial.
Print Assumptions C40_inverse_dynamics_partial.
Print Assumptions C40_prism_refuted.
Print Assumptions C40_cylin_refuted.
Print Assumptions C40_hooke_refuted.
Print Assumptions C40_spher_refuted.
Print Assumptions C40_float_inverse_refuted.
