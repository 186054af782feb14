(** * Link_Properties: theorems C23-C25. *)
From Coq Require Import String ZArith QArith Qcanon List Arith Lia Permutation.
From Verif Require Import Num NumFacts Vec VecFacts Motor_Model Joint_Model Joint_Spec Joint_Proofs Body_Model Body_Proofs
  Tree Tree_Proofs Link_Model Link_Spec Link_Proofs Chain_Proofs ExtQ.
Import ListNotations.
Local Open Scope nat_scope.

Section Thms.
Context {F : Type} {N : Num F} {E : Ext F}.

(** C23: any legal sequence of rkLinkAddChild calls on initialised links succeeds, changes nothing
    but references, and afterwards the child list of every link is exactly the list of links
    attached to it, in the order of the calls, and the parent of a link is the link it was attached to. *)
Theorem C23_add_child_forest (h : list (link F)) (ops : list (nat * nat)) :
  (forall i l, nth_error h i = Some l -> unattached l) -> legal (length h) [] ops ->
  exists h', add_children h ops = Some h' /\ length h' = length h
    /\ (forall p, p < length h -> children h' p = Some (attached_to ops p))
    /\ (forall c l, nth_error h' c = Some l -> forall q, l_parent l = Some q <-> In (q, c) ops)
    /\ (forall i l, nth_error h i = Some l -> exists l', nth_error h' i = Some l' /\ same_data l l').
Proof.
  intros U LG. destruct (legal_inv _ _ [] h _ LG (inv_init h U)) as (h' & w & A & IV & D).
  cbn [app] in IV. exists h'. split; [exact A|]. split; [exact (proj1 IV)|]. split; [|split; [|exact D]].
  - intros p Hp. eapply inv_children; eauto.
  - intros c l Hl. eapply inv_parent; eauto.
Qed.
(** When every link but link 0 is attached, the result is one tree rooted at link 0. *)
Theorem C23_complete_tree (h : list (link F)) (ops : list (nat * nat)) h' :
  (forall i l, nth_error h i = Some l -> unattached l) -> legal (length h) [] ops ->
  0 < length h -> ~ In 0 (map snd ops) -> (forall c, 0 < c < length h -> In c (map snd ops)) ->
  add_children h ops = Some h' -> well_formed h'.
Proof.
  intros U LG Hn N0 ALL A. destruct (legal_inv _ _ [] h _ LG (inv_init h U)) as (h1 & w & A1 & IV & _).
  assert (h1 = h') by congruence. subst h1. cbn [app] in IV. eapply inv_well_formed; eauto.
Qed.

(** C24, downward passes: on a tree, the recursion from the root ends without leaving the array or
    meeting a null reference, and every link has been processed exactly once, with parameters
    read from its already processed parent ([p0] for the root). *)
Definition processed_down {P} (upd : link F -> P -> link F) (par : link F -> P) (p0 : P) (h h' : list (link F)) : Prop :=
  length h' = length h /\
  forall i l, nth_error h i = Some l -> exists p, nth_error h' i = Some (upd l p) /\
    match l_parent l with
    | None => i = 0 /\ p = p0
    | Some q => exists lq, nth_error h' q = Some lq /\ p = par lq
    end.
(** Upward: every link has been processed once, after all its children. *)
Definition processed_up (pre : link F -> link F) (upd : link F -> list (link F) -> link F) (h h' : list (link F)) : Prop :=
  length h' = length h /\
  forall i l, nth_error h i = Some l -> exists cs ls,
    children h i = Some cs /\ Forall2 (fun c lc => nth_error h' c = Some lc) cs ls /\
    nth_error h' i = Some (upd (pre l) ls).

Lemma down_lift {P} (upd : link F -> P -> link F) (par : link F -> P) p0 (c : chain F) :
  (forall l p, same_refs l_parent l_child l_sibl l (upd l p)) -> well_formed (c_links c) ->
  exists c', chain_lift (fun n h => walk_down l_parent l_child l_sibl upd par n h 0 p0) c = Some c' /\
    processed_down upd par p0 (c_links c) (c_links c') /\ well_formed (c_links c').
Proof.
  intros R W. destruct (walk_down_wf upd par (c_links c) p0 (c_fuel c) R W) as (h' & A & B & _ & D); [unfold c_fuel; lia|].
  unfold chain_lift. rewrite A. eexists. split; [reflexivity|]. cbn [c_links c_set_links]. split; [split; assumption|].
  destruct W as [k T]. exists k. eapply well_formed_refs; [exact B| |exact T]. intros i l Hl. destruct (D i l Hl) as (p & Hp & _).
  exists (upd l p). auto.
Qed.
Theorem C24_frame_pass (c : chain F) : well_formed (c_links c) ->
  exists c', chain_update_frame c = Some c' /\ processed_down upd_frame l_frame fid (c_links c) (c_links c') /\ well_formed (c_links c').
Proof. apply down_lift. intros l p. repeat split. Qed.
Theorem C24_vel_pass (c : chain F) : well_formed (c_links c) ->
  exists c', chain_update_vel c = Some c' /\ processed_down upd_vel l_vel v6zero (c_links c) (c_links c') /\ well_formed (c_links c').
Proof. apply down_lift. intros l p. repeat split. Qed.
Theorem C24_acc_pass (g : F) (c : chain F) : well_formed (c_links c) ->
  exists c', chain_update_acc g c = Some c' /\
    processed_down (fun l p => upd_acc l (fst p) (snd p)) (fun l => (l_vel l, l_acc l)) (v6zero, grav g) (c_links c) (c_links c') /\ well_formed (c_links c').
Proof. apply (down_lift (fun l p => upd_acc l (fst p) (snd p))). intros l p. repeat split. Qed.
Theorem C24_rate_pass (g : F) (c : chain F) : well_formed (c_links c) ->
  exists c', chain_update_rate g c = Some c' /\
    processed_down upd_rate (fun l => (l_vel l, l_acc l)) (v6zero, grav g) (c_links c) (c_links c') /\ well_formed (c_links c').
Proof. apply (down_lift upd_rate). intros l p. repeat split. Qed.
Theorem C24_wrench_pass (c : chain F) : well_formed (c_links c) ->
  exists c', chain_update_wrench c = Some c' /\ processed_up wr_pre wr_post (c_links c) (c_links c') /\ well_formed (c_links c').
Proof.
  intros W. destruct (walk_up_wf wr_pre wr_post (c_links c) (c_fuel c)) as (h' & A & B & _ & D); auto.
  1,2: intros; repeat split. { unfold c_fuel; lia. }
  unfold chain_update_wrench, chain_lift, update_wrench. rewrite A. eexists. split; [reflexivity|]. cbn [c_links c_set_links].
  split; [split; assumption|].
  destruct W as [k T]. exists k. eapply well_formed_refs; [exact B| |exact T]. intros i l Hl.
  destruct (D i l Hl) as (cs & ls & _ & _ & Hp). eexists. split; [exact Hp|]. repeat split.
Qed.
(** All passes of rkChainUpdateFK and rkChainUpdateID end on a tree, so does any sequence of them. *)
Theorem C24_fk_id_total (g : F) (c : chain F) : well_formed (c_links c) ->
  (exists c', chain_update_fk c = Some c' /\ well_formed (c_links c')) /\
  (exists c', chain_update_id g c = Some c' /\ well_formed (c_links c')).
Proof.
  intros W. split.
  - destruct (C24_frame_pass c W) as (c1 & H1 & _ & W1). unfold chain_update_fk. rewrite H1. cbn. eauto.
  - destruct (C24_rate_pass g c W) as (c1 & H1 & _ & W1).
    unfold chain_update_id, obind. rewrite H1.
    destruct (C24_wrench_pass _ W1) as (c2 & H2 & _ & W2). rewrite H2. eexists. split; [reflexivity|]. exact W2.
Qed.

(** C25 is false: rkLinkAddSibl leaves the parent of the new link NULL. *)
Definition add_sibl_keeps_parent : Prop := forall (h h' : list (link F)) i b li lb' q,
  add_sibl (length h) h i b = Some h' -> nth_error h i = Some li -> l_parent li = Some q ->
  (forall lb, nth_error h b = Some lb -> unattached lb) -> i <> b ->
  nth_error h' b = Some lb' -> l_parent lb' = Some q.
End Thms.

(** ** Concrete cases *)
Definition lk0 (n : string) (j : joint Qc) : link Qc := link_new n j.
Definition jrev : joint Qc := joint_alloc TRevol.
Definition jpri : joint Qc := joint_alloc TPrism.
Definition five : list (link Qc) :=
  [lk0 "base" JFixed; lk0 "l1" jrev; lk0 "l2" jpri; lk0 "l3" jrev; lk0 "l4" jrev].
Definition five_ops : list (nat * nat) := [(0,1); (1,2); (0,3); (1,4)].
Definition five_tree : list (link Qc) := match add_children five five_ops with Some h => h | None => [] end.

Ltac in_cases H := repeat (destruct H as [H|H]; [injection H as <- <- || discriminate H|]); try (destruct H).
Lemma five_unattached i l : nth_error five i = Some l -> unattached l.
Proof. do 5 (destruct i as [|i]; [intros H; injection H as <-; repeat split|]). destruct i; discriminate. Qed.
Lemma below_inv ops p c : below ops p c -> p = c \/ exists q, In (q, p) ops /\ below ops q c.
Proof. intros H. destruct H; eauto. Qed.
Lemma five_legal : legal (length five) [] five_ops.
Proof.
  unfold five_ops. cbn [length five].
  repeat (constructor; [lia | lia | cbn; lia | | ]); cbn [app].
  all: try solve [constructor].
  all: intros H;
    repeat (apply below_inv in H; destruct H as [H | (? & I & H)]; [discriminate H | cbn in I;
      repeat (destruct I as [I|I]; [try discriminate I; try (injection I as <-)|]); try (destruct I; fail)]).
Qed.
Example C23_ex : add_children five five_ops = Some five_tree /\
  map (children five_tree) [0;1;2;3;4] = [Some [1;3]; Some [2;4]; Some []; Some []; Some []].
Proof. split; reflexivity. Qed.
Example C23_ex_children : children five_tree 1 = Some (attached_to five_ops 1).
Proof.
  destruct (C23_add_child_forest five five_ops five_unattached five_legal) as (h' & A & _ & C & _).
  change (Some five_tree = Some h') in A. injection A as A. rewrite A. apply C. cbn. lia.
Qed.
Lemma five_well_formed : well_formed five_tree.
Proof.
  apply (C23_complete_tree five five_ops); [apply five_unattached | apply five_legal | cbn; lia | cbn; lia | | reflexivity].
  intros c H. cbn in H. cbn. lia.
Qed.

(** A chain over this tree: links 1 m apart along x, first joint turned by a quarter, third extended by 2. *)
Definition shift1 (l : link Qc) : link Qc :=
  Link (l_name l) (l_joint l) (l_body l) (l_offset l) (Fr (V3 (qz 1) (qz 0) (qz 0)) m3id) (l_adj l) (l_wrench l) (l_parent l) (l_child l) (l_sibl l).
Definition arm : chain Qc := chain_set_offset (Chain (map shift1 five_tree) (qz 0) v3zero v3zero v3zero).
Lemma arm_well_formed : well_formed (c_links arm).
Proof.
  destruct five_well_formed as [k T]. exists k. eapply well_formed_refs; [| |exact T]; [reflexivity|].
  intros i l. do 5 (destruct i as [|i]; [intros H; injection H as <-; eexists; split; [reflexivity|]; repeat split|]). destruct i; discriminate.
Qed.
Definition arm_set : chain Qc :=
  match chain_set_joint_dis_all arm [qz 1; qz 2; qz 0; qz 1] with Some c => c | None => arm end.
Definition pos_list (c : chain Qc) (i : nat) : list Qc :=
  match nth_error (c_links c) i with Some l => [vx (fpos (l_frame l)); vy (fpos (l_frame l)); vz (fpos (l_frame l))] | None => [] end.
Example C24_ex : exists c, chain_update_frame arm_set = Some c /\
  map (pos_list c) [0; 1; 2; 3; 4] = [[qz 1; qz 0; qz 0]; [qz 2; qz 0; qz 0]; [qz 2; qz 1; qz 2]; [qz 2; qz 0; qz 0]; [qz 2; qz 1; qz 0]].
Proof. apply (some_exq _ (fun c => map (pos_list c) [0; 1; 2; 3; 4])). vm_compute. reflexivity. Qed.
Example C24_ex_rate : exists c, chain_update_id (qz 10) arm_set = Some c /\ well_formed (c_links c).
Proof.
  apply C24_fk_id_total. destruct arm_well_formed as [k T]. exists k. eapply well_formed_refs; [| |exact T]; [reflexivity|].
  intros i l. do 5 (destruct i as [|i]; [intros H; injection H as <-; eexists; split; [reflexivity|]; repeat split|]). destruct i; discriminate.
Qed.

(** C25: after AddChild(0,1), AddSibl(1,2), AddSibl(1,3) link 2 has no parent, and the frame update
    dereferences its null parent on the way to link 3. *)
Definition sib1 : list (link Qc) := match add_child five 0 1 with Some h => h | None => [] end.
Definition sib2 : list (link Qc) := match add_sibl 5 sib1 1 2 with Some h => h | None => [] end.
Definition sib3 : list (link Qc) := match add_sibl 5 sib2 1 3 with Some h => h | None => [] end.
Theorem C25_add_sibl_parent_refuted : ~ add_sibl_keeps_parent (F:=Qc).
Proof.
  intros H. assert (Hb : forall lb, nth_error sib1 2 = Some lb -> unattached lb) by (intros lb X; injection X as <-; repeat split).
  specialize (H sib1 sib2 1 2 _ _ 0 eq_refl eq_refl eq_refl Hb (Nat.neq_succ_diag_r 1) eq_refl). discriminate H.
Qed.
Theorem C25_frame_update_crashes_refuted :
  add_child five 0 1 = Some sib1 /\ add_sibl 5 sib1 1 2 = Some sib2 /\ add_sibl 5 sib2 1 3 = Some sib3 /\
  children sib3 0 = Some [1; 2; 3] /\ forall fuel, update_frame fuel sib3 0 fid = None.
Proof.
  do 4 (split; [reflexivity|]). intros fuel. do 6 (destruct fuel as [|fuel]; [reflexivity|]). reflexivity.
Qed.

Print Assumptions C23_add_child_forest.
Print Assumptions C23_complete_tree.
Print Assumptions C24_frame_pass.
Print Assumptions C24_vel_pass.
Print Assumptions C24_acc_pass.
Print Assumptions C24_rate_pass.
Print Assumptions C24_wrench_pass.
Print Assumptions C24_fk_id_total.
Print Assumptions C25_add_sibl_parent_refuted.
Print Assumptions C25_frame_update_crashes_refuted.
