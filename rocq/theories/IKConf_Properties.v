(** * IKConf_Properties: configuration files (C81) and sequence files (C82) of the inverse kinematics solver. *)
From Coq Require Import String ZArith QArith Qcanon List Arith Lia Bool Field.
From Verif Require Import Num NumFacts Vec Motor_Model Joint_Model Joint_Spec ExtQ Body_Model Tree Link_Model Link_Properties Jacobi_Model Kin_Properties
  IK_Model IK_Laws IK_Gauss IK_Spec IK_Cells IK_Index IK_Dims Ztk_Model Ztk_Spec IKConf_Model IKConf_Spec IKConf_Proofs.
Import ListNotations.

Section Thms.
Context {F : Type} {N : Num F} {L : NumLaws F N} {E : Ext F} {X : ExtLaws F N E} {I : IKExt F} {Z : ZtkLib}.

(** ** C81: configuration files *)

(** rkIKConfReadZTK on a file that is meant to be read gives a solver with
    - a cell for every constraint, in the order of the file and numbered from 0, with what the constraint says,
      whatever was in the memory of the attributes that are not set;
    - the joints asked for, in increasing order, with their weights;
    and moves exactly the joints named with weight zero.  The solver is one that calls of the library make, and
    they ask for the same joints. *)
Theorem C81_configuration (junk : cattr F) (c : chain F) (l : list (ikkey F)) : NoDup (names c) -> readable c l ->
  exists c' s, ik_conf_read junk c l = Some (c', s) /\
    Forall2 (fun n y => described c (fst n) (snd n) y) (combine (seq 0 (length (constraints l))) (constraints l)) (s_cells s) /\
    (wanted c (asked_by c l) <> [] -> s_jidx s = Some (wanted c (asked_by c l)) /\ s_wn s = wanted_weights c (asked_by c l)) /\
    Forall2 (postured l) (c_links c) (c_links c') /\
    exists ops, run c (ik_create c) ops = Some (c, s) /\
      (le_laws x_le -> forall i, movable c i = true -> asked_all (length (c_links c)) (movable c) ops i = asked_by c l i).
Proof.
  intros ND R. destruct (state_keys junk c l ND [] _ (state_create c) R) as ([c' s] & K & S). cbn [app] in S.
  exists c', s. split; [unfold ik_conf_read; now rewrite K|]. destruct S as [(_ & _ & _ & _ & ops & RO) Iv P C]. cbn [fst snd] in *.
  split; [exact C|]. split; [|split; [exact P|]].
  - intros W. destruct (i_idx _ _ _ Iv W) as (A & _ & B). auto.
  - exists ops. split; [exact RO|]. intros LL. destruct (run_inv LL ops _ _ _ _ _ (create_inv c) RO) as [Iv' _]. exact (inv_asked _ _ _ _ Iv' Iv).
Qed.
(** Whatever the file: if reading does not crash, calls of the library make the same solver, cells are numbered in order, and the
    sizes of the joints and the names of the links are as before. *)
Theorem C81_reachable (junk : cattr F) (c c' : chain F) (s : solver F) (l : list (ikkey F)) : ik_conf_read junk c l = Some (c', s) ->
  (exists ops, run c (ik_create c) ops = Some (c, s)) /\ map (fun x => ce_id (snd x)) (s_cells s) = seq 0 (length (s_cells s)) /\
  names c' = names c /\ forall i, size_at c' i = size_at c i.
Proof.
  unfold ik_conf_read. intros H. destruct (ik_keys junk (c, ik_create c) l) as [[y ok]|] eqn:K; [|discriminate]. cbn in H. injection H as ->.
  pose proof (reached_keys junk c l _ _ _ (reached_create c) K) as (A & B & C & D & R). cbn [fst snd] in *. repeat split; auto. intros i. now apply same_joints_size.
Qed.
(** A file with errors is not rejected: a link that does not exist, and a type of constraint that does not exist, give an empty
    solver and success. *)
Theorem C81_rejected_refuted (junk : cattr F) (c : chain F) : forall k,
  match k with IKJoint s _ _ => ~ In s ("all"%string :: names c) | IKConstraint t _ => forall k, t <> type_name k end ->
  ik_conf_read junk c [k] = Some (c, ik_create c).
Proof.
  intros [s w d|t l] H; unfold ik_conf_read; cbn [ik_keys ik_key].
  - unfold ik_joint. destruct (String.eqb_spec s "all") as [->|ne]; [exfalso; apply H; now left|].
    assert (K : find_name (map l_name (c_links c)) s = None).
    { assert (H' : ~ In s (map l_name (c_links c))) by (intros Q; apply H; right; exact Q). clear - H'. induction (map l_name (c_links c)) as [|n t IH]; [reflexivity|]. cbn [find_name].
      destruct (String.eqb_spec n s) as [->|ne]; [exfalso; apply H'; now left|]. rewrite IH; [reflexivity|]. intros Q. apply H'. now right. }
    rewrite K. cbn [obind]. destruct z_stop_key; reflexivity.
  - unfold ik_constraint. assert (K : ik_lookup t ik_table = None).
    { unfold ik_table. cbn [ik_lookup].
      repeat (match goal with |- (if String.eqb t ?n then Some ?k else _) = None => destruct (String.eqb_spec t n) as [e|_]; [exfalso; exact (H k e)|] end). reflexivity. }
    rewrite K. cbn [obind]. destruct z_stop_key; reflexivity.
Qed.
(** A constraint before the first joint crashes. *)
Theorem C81_constraint_first_refuted (junk : cattr F) (c : chain F) t l r : (exists k, type_name k = t) -> incl (link_names l) (names c) -> NoDup (names c) ->
  ik_conf_read junk c (IKConstraint t l :: r) = None.
Proof.
  intros (k & <-) LN ND. unfold ik_conf_read. cbn [ik_keys ik_key]. unfold ik_constraint. rewrite lookup_type. cbn [fst snd].
  destruct (items_scanned (names c) ND l [] 0 junk (Mask false false false false false) LN) as (n' & a & m & E1 & _); [unfold scanned; cbn; auto 10|].
  change (map l_name (c_links c)) with (names c). rewrite E1. reflexivity.
Qed.

(** ** C82: sequence files *)
Lemma rd_v_print (v : vec3 F) l : rd_v (vec_nums v ++ l) = Some (v, l).
Proof. destruct v. reflexivity. Qed.
Lemma entries_round (es : list (entry F)) l : entries_scan (length es) (flat_map entry_print es ++ l) = Some (es, l).
Proof.
  induction es as [|e es IH]; [reflexivity|]. cbn [length entries_scan flat_map]. unfold entry_print at 1. cbn [app rd_i obind]. rewrite <- !app_assoc, rd_v_print. cbn [obind].
  rewrite rd_v_print. cbn [obind]. rewrite IH. cbn [obind]. destruct e. reflexivity.
Qed.
Lemma seq_cons (zalloc0 : bool) fuel (c : seqcell F) q : (sq_entries c <> [] \/ zalloc0 = true) ->
  seq_scan zalloc0 (S fuel) (seq_print (c :: q)) = option_map (cons c) (seq_scan zalloc0 fuel (seq_print q)).
Proof.
  intros H. unfold seq_print at 1. cbn [flat_map]. cbn [app seq_scan rd_f rd_i obind]. fold (seq_print q).
  assert (K : andb (Nat.eqb (length (sq_entries c)) 0) (negb zalloc0) = false).
  { destruct H as [H| ->]; [|apply andb_false_r]. destruct (sq_entries c); [now exfalso|reflexivity]. }
  rewrite K, entries_round. cbn [obind]. destruct c. reflexivity.
Qed.
(** rkIKSeqFPrint followed by rkIKSeqFScan gives the items of the sequence back, in their order.  Missing: the rounding of numbers in
    the file, and items without entries where zAlloc of nothing returns NULL. *)
Theorem C82_round_trip_partial (zalloc0 : bool) (fuel : nat) (q : list (seqcell F)) : (length q <= fuel)%nat ->
  (Forall (fun c => sq_entries c <> []) q \/ zalloc0 = true) -> seq_scan zalloc0 fuel (seq_print q) = Some q.
Proof.
  revert fuel. induction q as [|c q IH]; intros fuel Lf H; [destruct fuel; reflexivity|]. destruct fuel as [|fuel]; [cbn in Lf; lia|].
  rewrite seq_cons by (destruct H as [H|H]; [left; now inversion H|now right]). rewrite IH; [reflexivity|cbn in Lf; lia|]. destruct H as [H|H]; [left; now inversion H|now right].
Qed.
(** Where it does, such an item and all after it are lost. *)
Theorem C82_empty_item_refuted (fuel : nat) (q r : list (seqcell F)) dt : (length q < fuel)%nat -> Forall (fun c => sq_entries c <> []) q ->
  seq_scan false fuel (seq_print (q ++ SeqCell dt [] :: r)) = Some q.
Proof.
  revert fuel. induction q as [|c q IH]; intros fuel Lf H.
  - destruct fuel as [|fuel]; [cbn in Lf; lia|]. reflexivity.
  - destruct fuel as [|fuel]; [cbn in Lf; lia|]. cbn [app]. inversion H as [|? ? H1 H2]; subst. rewrite seq_cons by (now left). rewrite IH; [reflexivity|cbn in Lf; lia|exact H2].
Qed.
End Thms.

(** ** Concrete cases *)
(** The last joint is put at a displacement, two joints are registered, one of them by default; a position relative to a link, forced, and the center of mass. *)
Definition qq (a : Z) (b : positive) : Qc := Q2Qc (a # b).
Definition conf_file : list (ikkey Qc) :=
  [IKJoint "c" (Some (qz 0)) (map qz [2; 180]%Z); IKJoint "r" (Some (qz 3)) []; IKJoint "h" None [];
   IKConstraint "l2l_pos" [CLink "c"; CAt (V3 (qz 1) (qz 0) (qz 2)); CLink "p"; CForce];
   IKJoint "r" (Some (qz 5)) [];
   IKConstraint "com" [CWeight (V3 (qz 1) (qz 1) (qz 0))]]%string.
Definition conf_junk : cattr Qc := Attr 77 78 (V3 (qz 9) (qz 9) (qz 9)) (V3 (qz 9) (qz 9) (qz 9)).
Definition conf_view (r : conf Qc) : list (list Qc) :=
  map (fun x => [qz (Z.of_nat (ce_id (snd x))); qz (Z.of_nat (a_id (ce_attr (snd x)))); qz (Z.of_nat (a_sub (ce_attr (snd x))));
                 vx (a_ap (ce_attr (snd x))); vz (a_ap (ce_attr (snd x))); vx (a_w (ce_attr (snd x))); vz (a_w (ce_attr (snd x)))]) (s_cells (snd r)) ++
  [map (fun i => qz (Z.of_nat i)) (match s_jidx (snd r) with Some i => i | None => [] end); s_wn (snd r)] ++
  map (fun l => joint_get_dis (l_joint l)) (skipn 3 (c_links (fst r))).
(** The cylindrical joint is moved by 2 and by x_pi, which is 22/7 here. *)
Example C81_ex (Z : ZtkLib) : exists r, ik_conf_read conf_junk mech conf_file = Some r /\
  conf_view r = [map qz [0; 4; 2; 1; 2; 1; 1]%Z; map qz [1; 0; 0; 0; 0; 1; 0]%Z; map qz [1; 3]%Z; [qz 5; qq 1 1000; qq 1 1000]; map qz [1; 0]%Z; [qz 2; qq 22 7]].
Proof. apply (some_exq _ conf_view). destruct Z. vm_compute. reflexivity. Qed.
Lemma mech_names : names mech = ["base"; "r"; "p"; "h"; "c"]%string.
Proof. vm_compute. reflexivity. Qed.
Lemma some_l {A} (l : list A) x : l = x :: tl l -> l <> []. Proof. intros -> H. discriminate. Qed.
Definition jsizes : list nat := map (fun l => joint_size (l_joint l)) (c_links mech).
Lemma mech_sizes : jsizes = [6; 1; 1; 2; 2]%nat. Proof. vm_compute. reflexivity. Qed.
Lemma mech_link i n k : nth_error (names mech) i = Some n -> nth_error jsizes i = Some k ->
  exists l, nth_error (c_links mech) i = Some l /\ l_name l = n /\ joint_size (l_joint l) = k.
Proof.
  unfold names, jsizes. rewrite !nth_error_map. destruct (nth_error (c_links mech) i) as [l|]; [|discriminate]. cbn. intros A B. exists l. repeat split; congruence.
Qed.
Lemma conf_nodup : NoDup (names mech).
Proof. rewrite mech_names. repeat (constructor; [cbn; intuition discriminate|]). constructor. Qed.
Lemma conf_readable : readable mech conf_file.
Proof.
  assert (J : forall i n k, nth_error (names mech) i = Some n -> nth_error jsizes i = Some k -> (0 < k)%nat -> forall p w d,
    (zero_b (weight_of w) = true -> k <= length d)%nat -> meant mech p (IKJoint n w d)).
  { intros i n k A B C p w d D. destruct (mech_link i n k A B) as (l & E1 & E2 & E3). right. exists i, l. rewrite E3. auto. }
  assert (W : forall p, wanted mech (asked_by mech p) = 1%nat :: tl (wanted mech (asked_by mech p)) -> wanted mech (asked_by mech p) <> []) by (intros; eapply some_l; eauto).
  intros p k t H. unfold conf_file in H.
  destruct p as [|x1 p]; [injection H as <- _; apply (J 4%nat "c"%string 2%nat); [now rewrite mech_names|now rewrite mech_sizes|lia|cbn; lia]|]. injection H as <- H.
  destruct p as [|x2 p]; [injection H as <- _; apply (J 1%nat "r"%string 1%nat); [now rewrite mech_names|now rewrite mech_sizes|lia|vm_compute; discriminate]|]. injection H as <- H.
  destruct p as [|x3 p]; [injection H as <- _; apply (J 3%nat "h"%string 2%nat); [now rewrite mech_names|now rewrite mech_sizes|lia|vm_compute; discriminate]|]. injection H as <- H.
  destruct p as [|x4 p]; [injection H as <- _; split; [exists L2LPos; reflexivity|split; [rewrite mech_names; intros y; cbn; intuition|apply W; vm_compute; reflexivity]]|]. injection H as <- H.
  destruct p as [|x5 p]; [injection H as <- _; apply (J 1%nat "r"%string 1%nat); [now rewrite mech_names|now rewrite mech_sizes|lia|vm_compute; discriminate]|]. injection H as <- H.
  destruct p as [|x6 p]; [injection H as <- _; split; [exists COM; reflexivity|split; [intros y; cbn; tauto|apply W; vm_compute; reflexivity]]|]. injection H as <- H.
  destruct p; discriminate.
Qed.
Example C81_ex_meant : NoDup (names mech) /\ readable mech conf_file /\ wanted mech (asked_by mech conf_file) = [1; 3]%nat /\ length (constraints conf_file) = 2%nat.
Proof. split; [exact conf_nodup|]. split; [exact conf_readable|]. split; vm_compute; reflexivity. Qed.
(** A misspelt type. *)
Example C81_ex_rejected (Z : ZtkLib) : ik_conf_read conf_junk mech [IKConstraint "world_possition"%string []] = Some (mech, ik_create mech).
Proof. apply C81_rejected_refuted. intros []; discriminate. Qed.

Definition seq_ex : list (seqcell Qc) :=
  [SeqCell (qq 1 2) [Entry 3 (V3 (qz 1) (qz 0) (qz 2)) (V3 (qz 4) (qz 5) (qz 6)); Entry 0 (V3 (qz 1) (qz 1) (qz 1)) (V3 (qz 7) (qz 8) (qz 9))];
   SeqCell (qz 1) [Entry 0 (V3 (qz 1) (qz 1) (qz 1)) (V3 (qz 0) (qz 0) (qz 1))]].
Example C82_ex : seq_scan false 2 (seq_print seq_ex) = Some seq_ex /\ length (seq_print seq_ex) = 25%nat.
Proof. split; [|reflexivity]. apply C82_round_trip_partial; [cbn; lia|]. left. repeat (constructor; [discriminate|]). constructor. Qed.
Example C82_ex_empty : seq_scan false 4 (seq_print (seq_ex ++ SeqCell (qz 1) [] :: seq_ex)) = Some seq_ex.
Proof. apply C82_empty_item_refuted; [cbn; lia|]. repeat (constructor; [discriminate|]). constructor. Qed.

Print Assumptions C81_configuration.
Print Assumptions C81_reachable.
Print Assumptions C81_rejected_refuted.
Print Assumptions C81_constraint_first_refuted.
Print Assumptions C81_ex.
Print Assumptions C81_ex_meant.
Print Assumptions C82_round_trip_partial.
Print Assumptions C82_empty_item_refuted.
