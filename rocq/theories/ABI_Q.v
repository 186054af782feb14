(** * ABI_Q: a matrix inverse on the rationals and a family of chains, for the examples of ABI_Properties. *)
From Coq Require Import String ZArith QArith Qcanon List Arith Lia.
From Verif Require Import Num NumFacts Vec VecFacts Motor_Model Joint_Model Joint_Spec Joint_Proofs Body_Model Body_Proofs
  Tree Tree_Proofs Link_Model Link_Spec Link_Proofs Chain_Proofs Link_Properties Chain_Properties Kin_Spec Kin_Proofs Jacobi_Model Jacobi_Proofs Kin_Properties
  Walk ABI_Model ABI_Spec ExtQ.
Import ListNotations.
Local Open Scope nat_scope.

(** Gauss-Jordan elimination. *)
Definition q0 : Qc := qz 0.
Definition qnz (x : Qc) : bool := negb (Qeq_bool (this x) 0).
Fixpoint take_pivot (k : nat) (rows seen : list (list Qc)) : option (list Qc * list (list Qc)) :=
  match rows with
  | [] => None
  | r :: t => if qnz (nth k r q0) then Some (r, List.rev_append seen t) else take_pivot k t (r :: seen)
  end.
Definition elim (k : nat) (p r : list Qc) : list Qc := map (fun x => (fst x - nth k r q0 * snd x)%Qc) (combine r p).
Fixpoint gauss (n k : nat) (done todo : list (list Qc)) : option (list (list Qc)) :=
  match n with
  | O => Some done
  | S n' => match take_pivot k todo [] with
            | None => None
            | Some (r, rest) => let p := map (fun x => (x / nth k r q0)%Qc) r in
                                gauss n' (S k) (map (elim k p) done ++ [p]) (map (elim k p) rest)
            end
  end.
Definition qinv (m : list (list Qc)) : list (list Qc) :=
  let n := length m in
  let unit i := map (fun j => if Nat.eqb i j then qz 1 else q0) (seq 0 n) in
  match gauss n 0 [] (map (fun x => snd x ++ unit (fst x)) (combine (seq 0 n) m)) with
  | Some r => map (skipn n) r
  | None => repeat (repeat q0 n) n
  end.
#[export] Instance MInv_Qc : MInv Qc := qinv.

(** A matrix whose product with another is the unit matrix inverts it. *)
Section Inv.
Context {F : Type} {N : Num F} {L : NumLaws F N}.
Add Field FField : num_field.
Local Open Scope num_scope.
Definition mm (h k : list (list F)) (i j : nat) : F :=
  elem h i 0 * elem k 0 j + elem h i 1 * elem k 1 j + elem h i 2 * elem k 2 j + elem h i 3 * elem k 3 j + elem h i 4 * elem k 4 j + elem h i 5 * elem k 5 j.
Definition mmat (h k : list (list F)) : list (list F) := map (fun i => map (mm h k i) (seq 0 6)) (seq 0 6).
Definition unit6 : list (list F) := map (fun i => map (fun j => if Nat.eqb i j then 1 else 0) (seq 0 6)) (seq 0 6).
Lemma mm_row h k v i : v6dot (row6 h i) (mat_v6 k v) = v6dot (V6 (V3 (mm h k i 0) (mm h k i 1) (mm h k i 2)) (V3 (mm h k i 3) (mm h k i 4) (mm h k i 5))) v.
Proof. destruct v as [[] []]. unfold mat_v6, row6, mm, v6dot, v3dot. cbn [Vec.vlin Vec.vang Vec.vx Vec.vy Vec.vz]. ring. Qed.
Lemma mat_inverse h k : mmat h k = unit6 -> forall v, mat_v6 h (mat_v6 k v) = v.
Proof.
  intros H v. unfold mat_v6 at 1. rewrite !mm_row.
  assert (Q : forall i j, (i < 6)%nat -> (j < 6)%nat -> mm h k i j = if Nat.eqb i j then 1 else 0).
  { intros i j I J. assert (A : nth j (nth i (mmat h k) []) 0 = nth j (nth i unit6 []) 0) by now rewrite H.
    revert A. clear H. do 6 (destruct i as [|i]; [do 6 (destruct j as [|j]; [intros A; exact A|]); lia|]). lia. }
  rewrite !Q by lia. cbn [Nat.eqb]. destruct v as [[] []]. unfold v6dot, v3dot. cbn [Vec.vlin Vec.vang Vec.vx Vec.vy Vec.vz]. vsplit; ring.
Qed.
End Inv.

(** Chains of five links, connected as in Kin_Properties (0-1, 1-2, 0-3, 1-4), with given joints. *)
Definition with_joints (js : list (joint Qc)) : list (link Qc) :=
  map (fun x => mlink (snd (fst x)) (snd x) (fst (fst (fst x))) (snd (fst (fst x))))
    (combine [(1, 3, "a"); (2, 1, "b"); (-1, 2, "c"); (1, 1, "d"); (2, 1, "e")]%Z%string js).
Definition tree5 (js : list (joint Qc)) : list (link Qc) := match add_children (with_joints js) five_ops with Some h => h | None => [] end.
Definition mech5 (js : list (joint Qc)) : chain Qc := chain_calc_mass (chain_set_offset (Chain (tree5 js) q0 v3zero v3zero v3zero)).
Definition ran (t : jtype) (ops : list (jop Qc)) : joint Qc :=
  match obind (joint_assign t) (fun j => joint_run j ops) with Some j => j | None => JFixed end.
Lemma ran_made t ops j : obind (joint_assign t) (fun j => joint_run j ops) = Some j -> made (ran t ops).
Proof. unfold ran. intros H. rewrite H. destruct (joint_assign t) as [j0|] eqn:A; [|discriminate]. exists t, j0, ops. split; [exact A|]. exact H. Qed.
Lemma tree5_well_formed a b c d e : well_formed (tree5 [a; b; c; d; e]).
Proof.
  apply (C23_complete_tree (with_joints [a; b; c; d; e]) five_ops); [| exact five_legal | cbn; lia | cbn; lia | | reflexivity].
  - intros i l. do 5 (destruct i as [|i]; [intros H; injection H as <-; repeat split|]). destruct i; discriminate.
  - intros k H. cbn in H. cbn. lia.
Qed.
Lemma mech5_usable a b c d e : Forall made [a; b; c; d; e] -> usable (mech5 [a; b; c; d; e]).
Proof.
  intros M. assert (W := tree5_well_formed a b c d e). unfold mech5. split; [|split; [|split]].
  - cbn [c_links chain_calc_mass chain_set_offset c_set_links]. eapply wf_of_refs; [|exact W]. apply forall2_nth_eq; [now rewrite set_offsets_length|]. intros i l Hl.
    rewrite set_offsets_nth, Hl. eexists. split; [reflexivity|]. destruct (Nat.ltb 0 (lsize l)); repeat split.
  - apply placed_offsets. cbn [c_links chain_calc_mass chain_set_offset c_set_links]. apply set_offsets_placed.
  - intros i l H. cbn [c_links chain_calc_mass chain_set_offset c_set_links] in H. rewrite set_offsets_nth in H.
    destruct (nth_error (tree5 [a; b; c; d; e]) i) as [l0|] eqn:Q; [|discriminate]. assert (J : l_joint l = l_joint l0) by (cbn in H; injection H as <-; reflexivity). rewrite J.
    repeat (inversion M as [|? ? ? M']; subst; clear M; rename M' into M).
    do 5 (destruct i as [|i]; [injection Q as <-; assumption|]). destruct i; discriminate.
  - intros i l H. cbn [c_links chain_calc_mass chain_set_offset c_set_links] in H. rewrite set_offsets_nth in H.
    destruct (nth_error (tree5 [a; b; c; d; e]) i) as [l0|] eqn:Q; [|discriminate]. assert (J : l_org l = l_org l0) by (cbn in H; injection H as <-; reflexivity). rewrite J.
    do 5 (destruct i as [|i]; [injection Q as <-; apply rotation_id|]). destruct i; discriminate.
Qed.
(** The ABI memory of a chain whose inertia tensors are symmetric is ready after allocation. *)
Lemma mech5_sym a b c d e i l : nth_error (c_links (mech5 [a; b; c; d; e])) i = Some l -> sym3 (mp_inertia (b_mp (l_body l))).
Proof.
  intros H. unfold mech5 in H. cbn [c_links chain_calc_mass chain_set_offset c_set_links] in H. rewrite set_offsets_nth in H.
  destruct (nth_error (tree5 [a; b; c; d; e]) i) as [l0|] eqn:Q; [|discriminate]. assert (J : l_body l = l_body l0) by (cbn in H; injection H as <-; reflexivity). rewrite J.
  do 5 (destruct i as [|i]; [injection Q as <-; reflexivity|]). destruct i; discriminate.
Qed.

(** ** Deciding the conditions of the theorems *)
Definition no_parentb (l : link Qc) : bool := match l_parent l with None => true | _ => false end.
Definition handledb (l : link Qc) : bool :=
  match l_joint l with
  | JFixed | JRevol _ | JFloat _ | JBrFloat _ _ _ => true
  | JPrism _ => no_parentb l
  | _ => false
  end.
Definition regularb (j : joint Qc) (axi iaxi : list (list Qc)) : bool :=
  match j with
  | JFixed => true
  | JRevol _ | JPrism _ => negb (ntiny x_tol (elem axi 0 0))
  | JFloat _ | JBrFloat _ _ _ => qlbs (mmat axi iaxi) unit6
  | _ => false
  end.
Definition all_regularb (c : achain Qc) : bool :=
  forallb (fun x => handledb (fst x) && regularb (l_joint (fst x)) (ab_axi (snd x)) (ab_iaxi (snd x))) (combine (c_links (ac_c c)) (ac_a c)).
Lemma combine_in {A B} (l : list A) (m : list B) i a b : nth_error l i = Some a -> nth_error m i = Some b -> In (a, b) (combine l m).
Proof. revert m i. induction l as [|x l IH]; intros [|y m] [|i] H1 H2; try discriminate; cbn in *; [left; congruence|right; eauto]. Qed.
Lemma all_regularb_sound (c : achain Qc) : all_regularb c = true -> all_regular c.
Proof.
  unfold all_regularb, all_regular. rewrite forallb_forall. intros H i l a Hl Ha. specialize (H _ (combine_in _ _ _ _ _ Hl Ha)).
  cbn [fst snd] in H. apply andb_prop in H as [H1 H2]. split.
  - unfold handledb, no_parentb in H1. unfold handled. destruct (l_joint l); try discriminate; auto. destruct (l_parent l); [discriminate|reflexivity].
  - unfold regularb in H2. unfold regular. destruct (l_joint l); try discriminate; try exact I;
      try (now apply negb_true_iff in H2); apply mat_inverse; now apply qlbs_eq.
Qed.
Definition no_slideb (c : achain Qc) : bool :=
  forallb (fun l => qlb (l3 (v3cross (vang (joint_inc_vel (l_joint l) v6zero)) (vlin (joint_inc_vel (l_joint l) v6zero)))) (l3 v3zero)) (c_links (ac_c c)).
Lemma no_slideb_sound (c : achain Qc) : no_slideb c = true -> forall i l, nth_error (c_links (ac_c c)) i = Some l -> no_slide (l_joint l).
Proof.
  unfold no_slideb. rewrite forallb_forall. intros H i l Hl. specialize (H l (nth_error_In _ _ Hl)). apply qleq in H. unfold no_slide.
  destruct (v3cross _ _) as [x y z]. unfold l3 in H. cbn [Vec.vx Vec.vy Vec.vz v3zero] in H. injection H as -> -> ->. reflexivity.
Qed.
(** Both sides of the equations of [dynamics_solved] at link i. *)
Definition at_all (h : list (link Qc)) (cs : list nat) : list (link Qc) := flat_map (fun k => match nth_error h k with Some x => [x] | None => [] end) cs.
Definition lhs (g : Qc) (c : achain Qc) (i : nat) : list (list Qc) :=
  let h := c_links (ac_c c) in
  match nth_error h i, nth_error (ac_a c) i, children h i with
  | Some l, Some a, Some cs =>
      let ew := b_extw (l_body l) ++ ab_wl a in
      [l6 (l_acc l); l3 (link_force g l (l_wrench l) (at_all h cs) ew); l3 (link_moment l (l_wrench l) (at_all h cs) ew); projected (l_joint l) (l_wrench l)]
  | _, _, _ => []
  end.
Definition rhs (c : achain Qc) (i : nat) : list (list Qc) :=
  let h := c_links (ac_c c) in
  match nth_error h i with
  | Some l =>
      match parent_motion h l with
      | Some p =>
          let w := vang (l_vel l) in let J := mp_inertia (b_mp (l_body l)) in
          [l6 (relative_acc l p);
           l3 (v3scale (l_mass l) (v3add (vlin (l_acc l)) (v3add (v3cross (vang (l_acc l)) (l_com l)) (v3cross w (v3cross w (l_com l))))));
           l3 (v3add (m3v J (vang (l_acc l))) (v3cross w (m3v J w))); drive (l_joint l)]
      | None => []
      end
  | None => []
  end.
Lemma at_all_eq h cs ls : Forall2 (fun k x => nth_error h k = Some x) cs ls -> at_all h cs = ls.
Proof. induction 1 as [|k x t t' H R IH]; [reflexivity|]. unfold at_all in *. cbn [flat_map]. rewrite H, IH. reflexivity. Qed.
Lemma solved_sides g c i : dynamics_solved g c -> (i < length (c_links (ac_c c)))%nat -> length (ac_a c) = length (c_links (ac_c c)) -> lhs g c i = rhs c i.
Proof.
  intros S LT LE. unfold lhs, rhs. destruct (nth_error (c_links (ac_c c)) i) as [l|] eqn:Hl; [|apply nth_error_None in Hl; lia].
  destruct (nth_error (ac_a c) i) as [a|] eqn:Ha; [|apply nth_error_None in Ha; lia].
  destruct (S i l a Hl Ha) as (p & cs & ls & A & B & C & D & (E1 & E2) & G). rewrite A, C, (at_all_eq _ _ _ D).
  rewrite E1, E2, G. rewrite <- B. reflexivity.
Qed.
Definition unsolvedb (g : Qc) (c : achain Qc) (i : nat) : bool :=
  Nat.ltb i (length (c_links (ac_c c))) && Nat.eqb (length (ac_a c)) (length (c_links (ac_c c))) && negb (qlbs (lhs g c i) (rhs c i)).
Lemma qlb_refl a : qlb a a = true.
Proof. induction a as [|x a IH]; [reflexivity|]. cbn. rewrite (proj2 (Qeq_bool_iff x x)) by reflexivity. exact IH. Qed.
Lemma qlbs_refl a : qlbs a a = true.
Proof. induction a as [|x a IH]; [reflexivity|]. cbn. rewrite qlb_refl. exact IH. Qed.
Lemma unsolvedb_sound g c i : unsolvedb g c i = true -> ~ dynamics_solved g c.
Proof.
  unfold unsolvedb. intros H S. apply andb_prop in H as [H H3]. apply andb_prop in H as [H1 H2]. apply Nat.ltb_lt in H1. apply Nat.eqb_eq in H2.
  rewrite (solved_sides g c i S H1 H2), qlbs_refl in H3. discriminate.
Qed.

(** Products of matrices given by rows, to say that an inverse the algorithm computed is right. *)
Definition lmul (h k : list (list Qc)) : list (list Qc) :=
  map (fun r => map (fun j => fold_right (fun x s => (fst x * nth j (snd x) q0 + s)%Qc) q0 (combine r k)) (seq 0 (length k))) h.
Definition lunit (n : nat) : list (list Qc) := map (fun i => map (fun j => if Nat.eqb i j then qz 1 else q0) (seq 0 n)) (seq 0 n).
Definition invertedb (c : achain Qc) : bool := forallb (fun a => qlbs (lmul (ab_axi a) (ab_iaxi a)) (lunit (length (ab_axi a)))) (ac_a c).
Lemma invertedb_sound c : invertedb c = true -> Forall (fun a => lmul (ab_axi a) (ab_iaxi a) = lunit (length (ab_axi a))) (ac_a c).
Proof. unfold invertedb. rewrite forallb_forall. intros H. apply Forall_forall. intros a I. apply qlbs_eq. auto. Qed.
(** A state in which rkChainABI, with all joint inertias rightly inverted, does not solve the equations of motion. *)
Definition fails (js : list (joint Qc)) (vel : list Qc) : Prop :=
  let c := chain_abi_alloc false (mech5 js) in
  let n := chain_joint_size (ac_c c) in
  let z := repeat (qz 0) n in
  usable (ac_c c) /\ abi_ready c /\ n <> 0%nat /\ length vel = n /\ exists c' qdd, chain_abi (qz 10) c z vel z = Some (c', Some qdd) /\ ac_br c' = false /\
    Forall (fun a => lmul (ab_axi a) (ab_iaxi a) = lunit (length (ab_axi a))) (ac_a c') /\ ~ dynamics_solved (qz 10) c'.
Definition failsb (js : list (joint Qc)) (vel : list Qc) (i : nat) : bool :=
  let c := chain_abi_alloc false (mech5 js) in
  let n := chain_joint_size (ac_c c) in
  let z := repeat (qz 0) n in
  negb (Nat.eqb n 0) && Nat.eqb (length vel) n &&
  match chain_abi (qz 10) c z vel z with
  | Some (c', Some _) => negb (ac_br c') && invertedb c' && unsolvedb (qz 10) c' i
  | _ => false
  end.
Lemma fails_by a b c d e vel i : Forall made [a; b; c; d; e] -> failsb [a; b; c; d; e] vel i = true -> fails [a; b; c; d; e] vel.
Proof.
  intros M H. unfold failsb in H. unfold fails. apply andb_prop in H as [H H3]. apply andb_prop in H as [H1 H2].
  split; [exact (mech5_usable _ _ _ _ _ M)|]. split; [|split; [|split]].
  - unfold abi_ready, chain_abi_alloc. cbn [ac_c ac_a].
    assert (S : Forall (fun l => sym3 (mp_inertia (b_mp (l_body l)))) (c_links (mech5 [a; b; c; d; e]))).
    { apply Forall_forall. intros l I. apply In_nth_error in I as [k Hk]. eapply mech5_sym; eauto. }
    revert S. generalize (c_links (mech5 [a; b; c; d; e])). clear. intros h S. induction S; cbn [map]; constructor; auto.
  - apply negb_true_iff, Nat.eqb_neq in H1. exact H1.
  - now apply Nat.eqb_eq.
  - clear H1 H2. destruct (chain_abi _ _ _ _ _) as [[c' [q|]]|]; try discriminate. exists c', q.
    apply andb_prop in H3 as [H3 H5]. apply andb_prop in H3 as [H3 H4]. split; [reflexivity|]. split; [now apply negb_true_iff|].
    split; [now apply invertedb_sound|]. eapply unsolvedb_sound; eauto.
Qed.
