(** * Break_Properties: theorems C13 (breakable joints). *)
From Coq Require Import String ZArith QArith Qcanon List Arith Lia.
From Verif Require Import Num NumFacts Vec VecFacts Motor_Model Joint_Model Joint_Spec Joint_Proofs Body_Model Body_Proofs
  Tree Tree_Proofs Link_Model Link_Spec Link_Proofs Chain_Proofs Link_Properties Chain_Properties Kin_Spec Kin_Proofs Jacobi_Model Jacobi_Proofs Kin_Properties
  Dyn_Spec Dyn_Proofs Dyn_Properties Walk Walk_Proofs ABI_Model ABI_Spec ABI_Alg ABI_Proofs ABI_State ABI_ID ExtQ ABI_Q ABI_Properties Break_Spec Break_Proofs.
Import ListNotations.
Local Open Scope nat_scope.

Section Thms.
Context {F : Type} {N : Num F} {L : NumLaws F N} {E : Ext F} {X : ExtLaws F N E} {MI : MInv F}.
Local Open Scope num_scope.

(** C13 fails for every tree: as long as the inertias of the breakable joints can be inverted, no breakable
    joint ever holds anything.  The wrench it transmits is zero, whatever loads act on the links, so that it never
    exceeds the thresholds, and the method table is never exchanged. *)
Theorem C13_holds_refuted (g : F) (c c' : achain F) : well_formed (c_links (ac_c c)) -> length (ac_a c) = length (c_links (ac_c c)) ->
  chain_joint_size (ac_c c) <> 0%nat -> ac_br c = false -> Forall (fun l => limits_ok (l_joint l)) (c_links (ac_c c)) ->
  chain_abi_update_wrench g c = Some c' -> breakables_regular c' ->
  ac_br c' = false /\ forall i l, nth_error (c_links (ac_c c')) i = Some l -> breakable (l_joint l) -> l_wrench l = v6zero.
Proof. intros W LE. exact (free_forever g c c' (conj W LE)). Qed.

(** Once exchanged, the table is never changed back: all breakable joints of the program stay as they are. *)
Theorem C13_never_back_refuted (g : F) (c c' : achain F) : well_formed (c_links (ac_c c)) -> length (ac_a c) = length (c_links (ac_c c)) ->
  chain_joint_size (ac_c c) <> 0%nat -> ac_br c = true -> chain_abi_update_wrench g c = Some c' ->
  ac_br c' = true /\ forall i l a, nth_error (c_links (ac_c c')) i = Some l -> nth_error (ac_a c') i = Some a -> breakable (l_joint l) ->
    match l_parent l with
    | None => rides_along l a v6zero
    | Some q => forall lq, nth_error (c_links (ac_c c')) q = Some lq -> rides_along l a (l_acc lq)
    end.
Proof.
  intros W LE NZ BR H. destruct (update_wrench_run g c (conj W LE) NZ) as (c2 & k & h1 & h2 & H2 & RUN). assert (c2 = c') by congruence. subst c2.
  destruct RUN as (IN & BK & FD & BL & T0 & T1 & T2 & T3 & W' & LL). assert (BR' := BL BR). split; [exact BR'|].
  intros i l a Hl Ha B. assert (H3 := ac_nth_l c' i l a Hl Ha).
  destruct (nth_error h2 i) as [l2|] eqn:Hi.
  2:{ apply nth_error_None in Hi. apply nth_lt in H3. rewrite <- (atree_size _ _ T3), (atree_size _ _ T2) in H3. lia. }
  destruct (fwded_point al_parent al_child al_sibl _ _ _ _ _ _ _ _ i _ _ _ (proj1 T2) FD (atree_in _ _ _ _ T2 Hi)) as (l0 & s & p & P1 & P2 & P3 & P4 & P5).
  assert (l0 = l2) by congruence. subst l0. rewrite BR in P2. assert (s = true) as -> by (now apply P2).
  assert (EQ : AL l a = snd (abi_fwd_wrench true l2 p)) by congruence.
  assert (El : l = al_l (snd (abi_fwd_wrench true l2 p))) by (rewrite <- EQ; reflexivity). assert (Ea : a = al_a (snd (abi_fwd_wrench true l2 p))) by (rewrite <- EQ; reflexivity).
  assert (R : rides_along l a p).
  { unfold rides_along. rewrite El, Ea in *. clear El Ea EQ. revert B. clear.
    change (breakable (fst (joint_qacc true (al_joint l2) (ab_i (al_a l2)) (ab_b (al_a l2)) (v6add (xform6lin (l_adj (al_l l2)) p) (ab_c (al_a l2))) (ab_iaxi (al_a l2)) (al_acc l2))) ->
      snd (joint_qacc true (al_joint l2) (ab_i (al_a l2)) (ab_b (al_a l2)) (v6add (xform6lin (l_adj (al_l l2)) p) (ab_c (al_a l2))) (ab_iaxi (al_a l2)) (al_acc l2)) =
      v6add (xform6lin (l_adj (al_l l2)) p) (ab_c (al_a l2))).
    destruct (al_joint l2); cbn [joint_qacc fst breakable]; try contradiction. reflexivity. }
  assert (PP : l_parent l = al_parent l2) by (rewrite El; reflexivity). rewrite PP.
  destruct P5 as [[-> ->]|(q & lq & -> & Hq & ->)]; [exact R|]. intros lq' Hq'. apply ac_nth_of in Hq as [Hq _].
  assert (lq' = al_l lq) by congruence. subst lq'. exact R.
Qed.
End Thms.

(** ** Witnesses *)

(** A base fixed to the world carries a link on a breakable joint (thresholds 1000), with two more links, and a
    massless frame on another breakable joint (thresholds e) with a contact force on it. *)
Definition brj (e : option Qc) : joint Qc := match jn TBrFloat with JBrFloat f _ _ => JBrFloat f e e | j => j end.
Definition br_links (e : option Qc) : list (link Qc) :=
  [mlink "a" (jn TFixed) 1 3; mlink "b" (brj (Some (qz 1000))) 2 1; mlink "c" (jn TRevol) (-1) 2; mlink "d" (brj e) 1 0; mlink "e" (jn TFixed) 2 1].
Definition br_tree (e : option Qc) : list (link Qc) := match add_children (br_links e) five_ops with Some h => h | None => [] end.
Definition br_chain (e : option Qc) : chain Qc := chain_calc_mass (chain_set_offset (Chain (br_tree e) q0 v3zero v3zero v3zero)).
Definition br_mech (e : option Qc) (w : wlist Qc) : achain Qc := contact_at 3 w (chain_abi_alloc false (br_chain e)).
Definition z13 : list Qc := repeat (qz 0) 13.
Lemma br_well_formed e : well_formed (br_tree e).
Proof.
  apply (C23_complete_tree (br_links e) five_ops); [| exact five_legal | cbn; lia | cbn; lia | | reflexivity].
  - intros i l. do 5 (destruct i as [|i]; [intros H; injection H as <-; repeat split|]). destruct i; discriminate.
  - intros k H. cbn in H. cbn. lia.
Qed.
Lemma br_chain_nth e i l : nth_error (c_links (br_chain e)) i = Some l -> exists l0, nth_error (br_tree e) i = Some l0 /\ l_joint l = l_joint l0 /\ l_body l = l_body l0.
Proof.
  unfold br_chain. cbn [c_links chain_calc_mass chain_set_offset c_set_links]. rewrite set_offsets_nth.
  destruct (nth_error (br_tree e) i) as [l0|]; [|discriminate]. intros H. exists l0. split; [reflexivity|]. cbn in H. injection H as <-. auto.
Qed.
Lemma br_mech_ok e w : match e with Some x => nle 0%num x | None => True end ->
  well_formed (c_links (ac_c (br_mech e w))) /\ abi_ready (br_mech e w) /\ Forall (fun l => limits_ok (l_joint l)) (c_links (ac_c (br_mech e w))).
Proof.
  intros LE. split; [|split].
  - change (well_formed (c_links (br_chain e))). unfold br_chain. cbn [c_links chain_calc_mass chain_set_offset c_set_links].
    eapply wf_of_refs; [|exact (br_well_formed e)]. apply forall2_nth_eq; [now rewrite set_offsets_length|]. intros i l Hl.
    rewrite set_offsets_nth, Hl. eexists. split; [reflexivity|]. destruct (Nat.ltb 0 (lsize l)); repeat split.
  - apply contact_ready, C40_alloc_ready. apply Forall_forall. intros l I. apply In_nth_error in I as [i Hi]. destruct (br_chain_nth e i l Hi) as (l0 & H0 & _ & ->).
    do 5 (destruct i as [|i]; [injection H0 as <-; reflexivity|]). destruct i; discriminate.
  - apply Forall_forall. intros l I. apply In_nth_error in I as [i Hi]. change (nth_error (c_links (br_chain e)) i = Some l) in Hi. destruct (br_chain_nth e i l Hi) as (l0 & H0 & -> & _).
    do 5 (destruct i as [|i]; [injection H0 as <-; cbn; auto; try (split; auto; vm_compute; reflexivity)|]). destruct i; discriminate.
Qed.

(** What a link does after an update. *)
Definition breakableb (j : joint Qc) : bool := match j with JBrFloat _ _ _ => true | _ => false end.
Definition ridesb (l : link Qc) (a : abi Qc) (pa : vec6 Qc) : bool := qlb (l6 (l_acc l)) (l6 (v6add (xform6lin (l_adj l) pa) (ab_c a))).
Definition stillb (l : link Qc) : bool := qlb (l6 (l_wrench l)) (l6 v6zero).
Definition at_link (c : achain Qc) (i : nat) (q : nat) (f : link Qc -> abi Qc -> link Qc -> bool) : bool :=
  match nth_error (c_links (ac_c c)) i, nth_error (ac_a c) i with
  | Some l, Some a => match l_parent l with Some k => match nth_error (c_links (ac_c c)) q with Some lq => Nat.eqb k q && f l a lq | None => false end | None => false end%bool
  | _, _ => false
  end.
Lemma at_link_spec c i q f : at_link c i q f = true -> exists l a lq, nth_error (c_links (ac_c c)) i = Some l /\ nth_error (ac_a c) i = Some a /\
  l_parent l = Some q /\ nth_error (c_links (ac_c c)) q = Some lq /\ f l a lq = true.
Proof.
  unfold at_link. destruct (nth_error (c_links (ac_c c)) i) as [l|]; [|discriminate]. destruct (nth_error (ac_a c) i) as [a|]; [|discriminate].
  destruct (l_parent l) as [k|] eqn:P; [|discriminate]. destruct (nth_error (c_links (ac_c c)) q) as [lq|] eqn:Q; [|discriminate].
  intros H. apply andb_prop in H as [H1 H2]. apply Nat.eqb_eq in H1. subst k. exists l, a, lq. auto.
Qed.
Lemma l6_inj (u v : vec6 Qc) : l6 u = l6 v -> u = v.
Proof. destruct u as [[] []], v as [[] []]. cbn. intros H. injection H as -> -> -> -> -> ->. reflexivity. Qed.
Lemma breakableb_true j : breakableb j = true -> breakable j.
Proof. destruct j; try discriminate. intros; exact I. Qed.
Lemma rides_true l a pa : ridesb l a pa = true -> rides_along l a pa.
Proof. intros H. apply qleq in H. apply l6_inj in H. exact H. Qed.
Lemma rides_false l a pa : ridesb l a pa = false -> ~ rides_along l a pa.
Proof. intros H. apply qlne in H. intros R. apply H. f_equal. exact R. Qed.

(** A breakable joint under a wrench far below its thresholds is not rigid: the link falls. *)
Definition loose (x : achain Qc * option (list Qc)) : bool :=
  at_link (fst x) 1 0 (fun l a lq => breakableb (l_joint l) && negb (joint_breaks (l_joint l) (l_wrench l)) && negb (ridesb l a (l_acc lq)))%bool.
Lemma loose_ex : exists x, chain_abi (qz 10) (br_mech None []) z13 z13 z13 = Some x /\ loose x = true.
Proof. apply some_ex. vm_compute. reflexivity. Qed.
Theorem C13_rigid_refuted : ~ (forall (c c' : achain Qc) dis vel acc q i l a qi lq,
  well_formed (c_links (ac_c c)) -> abi_ready c -> Forall (fun l => limits_ok (l_joint l)) (c_links (ac_c c)) -> ac_br c = false ->
  chain_abi (qz 10) c dis vel acc = Some (c', q) -> nth_error (c_links (ac_c c')) i = Some l -> nth_error (ac_a c') i = Some a ->
  breakable (l_joint l) -> withstands (l_joint l) (l_wrench l) ->
  l_parent l = Some qi -> nth_error (c_links (ac_c c')) qi = Some lq -> rides_along l a (l_acc lq)).
Proof.
  intros H. destruct (br_mech_ok None [] I) as (W & RD & LO). destruct loose_ex as ([c' q] & R & T).
  apply at_link_spec in T as (l & a & lq & H1 & H2 & H3 & H4 & T). apply andb_prop in T as [T T3]. apply andb_prop in T as [T1 T2].
  apply (rides_false l a (l_acc lq)); [now apply negb_true_iff|].
  apply (H (br_mech None []) c' z13 z13 z13 q 1 l a 0 lq); auto.
  - now apply breakableb_true.
  - apply breaks_spec. now apply negb_true_iff.
Qed.

(** Twice the same computation, in the same state. *)
Definition twice (c : achain Qc) : option (achain Qc * achain Qc) :=
  obind (chain_abi (qz 10) c z13 z13 z13) (fun x => option_map (fun y => (fst x, fst y)) (chain_abi (qz 10) (fst x) z13 z13 z13)).
Lemma twice_spec c c1 c2 : twice c = Some (c1, c2) -> exists q1 q2, chain_abi (qz 10) c z13 z13 z13 = Some (c1, q1) /\ chain_abi (qz 10) c1 z13 z13 z13 = Some (c2, q2).
Proof.
  unfold twice. destruct (chain_abi (qz 10) c z13 z13 z13) as [[x q1]|]; [|discriminate]. cbn [obind fst].
  destruct (chain_abi (qz 10) x z13 z13 z13) as [[y q2]|] eqn:Q; [|discriminate]. cbn [option_map fst]. intros H. injection H as -> ->. eauto.
Qed.
(** Joint 1 becomes rigid because of what happens at joint 3. *)
Definition interferes (x : achain Qc * achain Qc) : bool :=
  (at_link (fst x) 1 0 (fun l a lq => breakableb (l_joint l) && negb (joint_breaks (l_joint l) (l_wrench l)) && negb (ridesb l a (l_acc lq)))%bool &&
   at_link (snd x) 1 0 (fun l a lq => ridesb l a (l_acc lq)))%bool.
Lemma interferes_ex : exists x, twice (br_mech (Some (qz 1)) [wa]) = Some x /\ interferes x = true.
Proof. apply some_ex. vm_compute. reflexivity. Qed.
Theorem C13_interference_refuted : ~ (forall (c c1 c2 : achain Qc) dis vel acc q1 q2 i l1 a1 p1 l2 a2 p2 qi,
  well_formed (c_links (ac_c c)) -> abi_ready c -> Forall (fun l => limits_ok (l_joint l)) (c_links (ac_c c)) ->
  chain_abi (qz 10) c dis vel acc = Some (c1, q1) -> chain_abi (qz 10) c1 dis vel acc = Some (c2, q2) ->
  nth_error (c_links (ac_c c1)) i = Some l1 -> nth_error (ac_a c1) i = Some a1 -> l_parent l1 = Some qi -> nth_error (c_links (ac_c c1)) qi = Some p1 ->
  nth_error (c_links (ac_c c2)) i = Some l2 -> nth_error (ac_a c2) i = Some a2 -> l_parent l2 = Some qi -> nth_error (c_links (ac_c c2)) qi = Some p2 ->
  breakable (l_joint l1) -> withstands (l_joint l1) (l_wrench l1) ->
  (rides_along l1 a1 (l_acc p1) <-> rides_along l2 a2 (l_acc p2))).
Proof.
  intros H. assert (P1 : nle 0%num (qz 1)) by (vm_compute; reflexivity). destruct (br_mech_ok (Some (qz 1)) [wa] P1) as (W & RD & LO).
  destruct interferes_ex as ([c1 c2] & R & T). apply twice_spec in R as (q1 & q2 & R1 & R2). unfold interferes in T. cbn [fst snd] in T.
  apply andb_prop in T as [T U]. apply at_link_spec in T as (l1 & a1 & p1 & A1 & A2 & A3 & A4 & T). apply at_link_spec in U as (l2 & a2 & p2 & B1 & B2 & B3 & B4 & U).
  apply andb_prop in T as [T T3]. apply andb_prop in T as [T1 T2].
  apply (rides_false l1 a1 (l_acc p1)); [now apply negb_true_iff|].
  apply (H (br_mech (Some (qz 1)) [wa]) c1 c2 z13 z13 z13 q1 q2 1 l1 a1 p1 l2 a2 p2 0); auto.
  - now apply breakableb_true.
  - apply breaks_spec. now apply negb_true_iff.
  - now apply rides_true.
Qed.

(** An event at a joint does not set it free: from then on it transmits wrenches, and moves with its parent. *)
Definition seizes (x : achain Qc * achain Qc) : bool :=
  (at_link (fst x) 3 0 (fun l a lq => breakableb (l_joint l) && joint_breaks (l_joint l) (l_wrench l))%bool &&
   at_link (snd x) 3 0 (fun l a lq => negb (qlb (l6 (l_wrench l)) (l6 v6zero))))%bool.
Lemma seizes_ex : exists x, twice (br_mech (Some (qz 1)) [wa]) = Some x /\ seizes x = true.
Proof. apply some_ex. vm_compute. reflexivity. Qed.
Theorem C13_free_afterwards_refuted : ~ (forall (c c1 c2 : achain Qc) dis vel acc q1 q2 i l1 l2,
  well_formed (c_links (ac_c c)) -> abi_ready c -> Forall (fun l => limits_ok (l_joint l)) (c_links (ac_c c)) ->
  chain_abi (qz 10) c dis vel acc = Some (c1, q1) -> chain_abi (qz 10) c1 dis vel acc = Some (c2, q2) ->
  nth_error (c_links (ac_c c1)) i = Some l1 -> nth_error (c_links (ac_c c2)) i = Some l2 ->
  breakable (l_joint l1) -> ~ withstands (l_joint l1) (l_wrench l1) -> l_wrench l2 = v6zero).
Proof.
  intros H. assert (P1 : nle 0%num (qz 1)) by (vm_compute; reflexivity). destruct (br_mech_ok (Some (qz 1)) [wa] P1) as (W & RD & LO).
  destruct seizes_ex as ([c1 c2] & R & T). apply twice_spec in R as (q1 & q2 & R1 & R2). unfold seizes in T. cbn [fst snd] in T.
  apply andb_prop in T as [T U]. apply at_link_spec in T as (l1 & a1 & p1 & A1 & A2 & A3 & A4 & T). apply at_link_spec in U as (l2 & a2 & p2 & B1 & B2 & B3 & B4 & U).
  apply andb_prop in T as [T1 T2]. apply negb_true_iff in U. apply qlne in U. apply U. f_equal.
  apply (H (br_mech (Some (qz 1)) [wa]) c1 c2 z13 z13 z13 q1 q2 3 l1 l2); auto.
  - now apply breakableb_true.
  - rewrite <- breaks_spec, T2. discriminate.
Qed.

(** ** Examples *)

(** Two breakable joints with mass behind them and a contact force on the second. *)
Definition held : achain Qc := contact_at 3 [wa] (chain_abi_alloc false (mech5 [jn TFixed; brj (Some (qz 1000)); jn TRevol; brj (Some (qz 5)); jn TFixed])).
Definition regular_br (c : achain Qc) : bool :=
  forallb (fun x => implb (breakableb (l_joint (fst x))) (qlbs (mmat (ab_axi (snd x)) (ab_iaxi (snd x))) unit6)) (combine (c_links (ac_c c)) (ac_a c)).
Lemma implb_then b : implb true b = true -> b = true. Proof. exact (fun h => h). Qed.
Lemma regular_br_sound c : regular_br c = true -> breakables_regular c.
Proof.
  unfold regular_br, breakables_regular. rewrite forallb_forall. intros H i l a Hl Ha B. specialize (H _ (combine_in _ _ _ _ _ Hl Ha)). cbn [fst snd] in H.
  assert (Q : breakableb (l_joint l) = true) by (destruct (l_joint l); try contradiction; reflexivity). rewrite Q in H. apply implb_then in H.
  apply qlbs_eq in H. exact (mat_inverse _ _ H).
Qed.
Lemma held_ex : exists x, chain_abi_update_wrench (qz 10) held = Some x /\ regular_br x = true.
Proof. apply some_ex. vm_compute. reflexivity. Qed.
Lemma held_size : chain_joint_size (ac_c held) = 13. Proof. vm_compute. reflexivity. Qed.
Lemma held_ok : well_formed (c_links (ac_c held)) /\ abi_ready held /\ Forall (fun l => limits_ok (l_joint l)) (c_links (ac_c held)).
Proof.
  split; [|split].
  - change (well_formed (c_links (mech5 [jn TFixed; brj (Some (qz 1000)); jn TRevol; brj (Some (qz 5)); jn TFixed]))). unfold mech5. cbn [c_links chain_calc_mass chain_set_offset c_set_links].
    eapply wf_of_refs; [|apply tree5_well_formed]. apply forall2_nth_eq; [now rewrite set_offsets_length|]. intros i l Hl.
    rewrite set_offsets_nth, Hl. eexists. split; [reflexivity|]. destruct (Nat.ltb 0 (lsize l)); repeat split.
  - apply contact_ready, C40_alloc_ready, sym_links.
  - apply Forall_forall. intros l I. apply In_nth_error in I as [i Hi].
    change (nth_error (c_links (mech5 [jn TFixed; brj (Some (qz 1000)); jn TRevol; brj (Some (qz 5)); jn TFixed])) i = Some l) in Hi.
    unfold mech5 in Hi. cbn [c_links chain_calc_mass chain_set_offset c_set_links] in Hi. rewrite set_offsets_nth in Hi.
    destruct (nth_error (tree5 _) i) as [l0|] eqn:Q; [|discriminate]. assert (J : l_joint l = l_joint l0) by (cbn in Hi; injection Hi as <-; reflexivity). rewrite J.
    do 5 (destruct i as [|i]; [injection Q as <-; cbn; auto; try (split; vm_compute; reflexivity)|]). destruct i; discriminate.
Qed.
Example C13_ex : exists c', chain_abi_update_wrench (qz 10) held = Some c' /\ ac_br c' = false /\
  forall l, nth_error (c_links (ac_c c')) 3 = Some l -> breakable (l_joint l) -> l_wrench l = v6zero.
Proof.
  destruct held_ex as (c' & R & G). destruct held_ok as (W & RD & LO). exists c'. split; [exact R|].
  assert (LE : length (ac_a held) = length (c_links (ac_c held))) by (symmetry; eapply Forall2_len, RD).
  destruct (C13_holds_refuted (qz 10) held c') as [A B]; auto.
  - rewrite held_size. discriminate.
  - now apply regular_br_sound.
  - split; [exact A|]. intros l. apply B.
Qed.
(** The same chain after an event somewhere: now both links are held. *)
Example C13_ex_never_back : exists c', chain_abi_update_wrench (qz 10) (AC (ac_c held) (ac_a held) true) = Some c' /\
  (ac_br c' && at_link c' 1 0 (fun l a lq => breakableb (l_joint l) && ridesb l a (l_acc lq) && negb (qlb (l6 (l_wrench l)) (l6 v6zero))))%bool = true.
Proof. apply some_ex. vm_compute. reflexivity. Qed.

Print Assumptions C13_holds_refuted.
Print Assumptions C13_never_back_refuted.
Print Assumptions C13_rigid_refuted.
Print Assumptions C13_interference_refuted.
Print Assumptions C13_free_afterwards_refuted.
