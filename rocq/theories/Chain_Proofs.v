(** * Chain_Proofs: recursive updates, offsets, joint vectors and clones of chains. *)
From Coq Require Import List Arith Lia Permutation ZArith Sorted.
From Verif Require Import Num Vec Motor_Model Joint_Model Joint_Spec Joint_Proofs Body_Model Body_Proofs Tree Tree_Proofs Link_Model Link_Spec Link_Proofs.
Import ListNotations.

(** ** Recursive updates on a well-formed link array *)
Section Walk.
Context {F : Type} {P : Type}.
Notation lk := (link F).

Lemma parent_in_cases q0 f i q : parent_in q0 f i q -> (q = q0 /\ In i (roots f)) \/ exists z, q = Some z /\ In z (ids f).
Proof.
  revert q0. induction f as [|j k IHk r IHr]; simpl; intros q0 H; [destruct H|].
  destruct H as [[-> ->]|[H|H]]; auto.
  - destruct (IHk _ H) as [[-> _]|(z & -> & Z)]; right; eauto. exists z; split; auto. right; apply in_or_app; auto.
  - destruct (IHr _ H) as [[-> Z]|(z & -> & Z)]; auto. right. exists z; split; auto. right; apply in_or_app; auto.
Qed.
Lemma tree_in (h : list lk) k i : tree_of h k -> (In i (ids (FCons 0 k FNil)) <-> i < length h).
Proof.
  intros [_ P0]. split; intro H.
  - eapply Permutation_in in H; [|exact P0]. apply in_seq in H. lia.
  - eapply Permutation_in; [symmetry; exact P0|]. apply in_seq. lia.
Qed.
Lemma tree_nodup (h : list lk) k : tree_of h k -> NoDup (ids (FCons 0 k FNil)).
Proof. intros [_ P0]. eapply Permutation_NoDup; [symmetry; exact P0|apply seq_NoDup]. Qed.
Lemma tree_size (h : list lk) k : tree_of h k -> fsize (FCons 0 k FNil) = length h.
Proof. intros [_ P0]. rewrite fsize_ids, (Permutation_length P0), seq_length. auto. Qed.

(** The downward recursion from link 0: it ends, keeps the array length, and every link has been
    updated once with parameters read from its updated parent. *)
Lemma walk_down_wf (upd : lk -> P -> lk) (par : lk -> P) (h : list lk) p0 fuel :
  (forall l p, same_refs l_parent l_child l_sibl l (upd l p)) -> well_formed h -> length h <= fuel ->
  exists h', walk_down l_parent l_child l_sibl upd par fuel h 0 p0 = Some h' /\ length h' = length h
    /\ (forall k, tree_of h k -> solved upd par h h' (FCons 0 k FNil) p0)
    /\ forall i l, nth_error h i = Some l ->
       exists p, nth_error h' i = Some (upd l p) /\
         match l_parent l with
         | None => i = 0 /\ p = p0
         | Some q => exists lq, nth_error h' q = Some lq /\ p = par lq
         end.
Proof.
  intros UR [k T] FU. exists (down upd par (FCons 0 k FNil) h p0).
  assert (ND := tree_nodup _ _ T). pose proof T as [R _].
  split; [|split; [|split]].
  - apply walk_down_spec with (q := None); auto. rewrite (tree_size _ _ T); auto.
    simpl. intros i k0 r E. injection E. auto.
  - apply down_length.
  - intros k' [R' _]. assert (FCons 0 k FNil = FCons 0 k' FNil) as <- by (eapply rep_unique; eauto).
    eapply down_solved; eauto.
  - intros i l Hl. assert (S := down_solved l_parent l_child l_sibl upd par _ h None (Some 0) p0 R ND).
    set (h' := down _ _ _ _ _) in *.
    assert (I : In i (ids (FCons 0 k FNil))) by (apply (tree_in _ _ _ T); eapply nth_lt; eauto).
    destruct (in_parent None _ _ I) as [q Q].
    destruct (rep_parent _ _ _ _ _ _ _ _ _ R Q) as (l' & A & B). assert (l' = l) by congruence; subst l'.
    rewrite B. destruct (parent_in_cases _ _ _ _ Q) as [[-> Z]|(z & -> & Z)].
    + destruct Z as [<-|[]]. exists p0. destruct S as (l0 & S1 & S2 & _). rewrite Hl in S1. injection S1 as <-. auto.
    + destruct (solved_parent upd par h h' _ p0 None i z l ND S Q Z (fun x => x) Hl) as (lq & A1 & A2).
      exists (par lq). split; auto. exists lq; auto.
Qed.
(** The upward recursion from link 0. *)
Lemma tree_children (h : list lk) k i ki : tree_of h k -> find_kids (FCons 0 k FNil) i = Some ki -> children h i = Some (roots ki).
Proof.
  intros T FK. assert (ND := tree_nodup _ _ T). destruct T as [R P0].
  destruct (rep_find _ _ _ _ _ _ R FK) as (l & Hl & Kl). unfold children. rewrite Hl.
  eapply chain_from_rep; [exact Kl|]. eapply rep_size; [exact Kl|]. eapply nodup_find; eauto.
Qed.
Lemma solved_up_find (pre : lk -> lk) upd (h h' : list lk) f i ki : solved_up pre upd h h' f -> find_kids f i = Some ki ->
  exists l, nth_error h i = Some l /\ nth_error h' i = Some (upd (pre l) (pick h' (roots ki))).
Proof.
  induction f as [|j k IHk r IHr]; simpl; intros S FK; [discriminate|].
  destruct S as (l & A & B & C & D). destruct (Nat.eqb_spec i j) as [->|].
  - injection FK as <-. eauto.
  - destruct (find_kids k i); eauto.
Qed.
Lemma pick_forall2 (h : list lk) is : (forall i, In i is -> i < length h) -> Forall2 (fun i l => nth_error h i = Some l) is (pick h is).
Proof.
  induction is as [|a is IH]; simpl; intros H; [constructor|].
  destruct (nth_error h a) eqn:E. constructor; auto. apply nth_error_None in E. specialize (H a (or_introl eq_refl)). lia.
Qed.
Lemma walk_up_wf (pre : lk -> lk) (upd : lk -> list lk -> lk) (h : list lk) fuel :
  (forall l, same_refs l_parent l_child l_sibl l (pre l)) -> (forall l cs, same_refs l_parent l_child l_sibl l (upd l cs)) ->
  well_formed h -> length h <= fuel ->
  exists h', walk_up l_child l_sibl pre upd fuel h 0 = Some h' /\ length h' = length h
    /\ (forall k, tree_of h k -> solved_up pre upd h h' (FCons 0 k FNil))
    /\ forall i l, nth_error h i = Some l ->
       exists cs ls, children h i = Some cs /\ Forall2 (fun c lc => nth_error h' c = Some lc) cs ls
         /\ nth_error h' i = Some (upd (pre l) ls).
Proof.
  intros PR UR [k T] FU. exists (up pre upd (FCons 0 k FNil) h).
  assert (ND := tree_nodup _ _ T). pose proof T as [R _].
  split; [|split; [|split]].
  - apply walk_up_spec with (parent := l_parent) (q := None); auto. rewrite (tree_size _ _ T); auto.
  - apply up_length.
  - intros k' [R' _]. assert (FCons 0 k FNil = FCons 0 k' FNil) as <- by (eapply rep_unique; eauto).
    eapply up_solved; eauto.
  - intros i l Hl. assert (S := up_solved l_parent l_child l_sibl pre upd _ h None (Some 0) R ND).
    assert (LL := up_length pre upd (FCons 0 k FNil) h).
    set (h' := up _ _ _ _) in *.
    assert (I : In i (ids (FCons 0 k FNil))) by (apply (tree_in _ _ _ T); eapply nth_lt; eauto).
    destruct (find_kids_in _ _ I) as [ki FK].
    destruct (solved_up_find _ _ _ _ _ _ _ S FK) as (l' & A & B). assert (l' = l) by congruence; subst l'.
    exists (roots ki), (pick h' (roots ki)). split; [eapply tree_children; eauto|]. split; auto.
    apply pick_forall2. intros c Hc. rewrite LL. apply (tree_in _ _ _ T). apply find_kids_sub in FK as [_ FK].
    apply FK, roots_ids; auto.
Qed.
Lemma well_formed_refs (h h' : list lk) : length h' = length h ->
  (forall i l, nth_error h i = Some l -> exists l', nth_error h' i = Some l' /\ same_refs l_parent l_child l_sibl l l') ->
  forall k, tree_of h k -> tree_of h' k.
Proof.
  intros E H k [R P0]. split; [|rewrite E; auto]. eapply rep_ext; [|exact R]. auto.
Qed.
End Walk.

(** ** Offsets *)
Section Offsets.
Context {F : Type} {N : Num F} {E : Ext F}.
Notation lk := (link F).
Definition lsize (l : lk) : nat := joint_size (l_joint l).
Definition total (h : list lk) : nat := fold_right (fun l s => lsize l + s) 0 h.

Lemma chain_joint_size_total (c : chain F) : chain_joint_size c = total (c_links c).
Proof.
  unfold chain_joint_size. generalize (c_links c). intro h.
  assert (forall s, fold_left (fun s l => s + joint_size (l_joint l)) h s = s + total h) as X.
  { induction h as [|l t IH]; simpl; intros s; [lia|]. rewrite IH. unfold lsize. lia. }
  rewrite X. auto.
Qed.
Lemma set_offsets_nth s (h : list lk) i :
  nth_error (set_offsets s h) i =
  option_map (fun l => l_set_offset (if Nat.ltb 0 (lsize l) then Some (s + total (firstn i h)) else None) l) (nth_error h i).
Proof.
  revert s i. induction h as [|l t IH]; intros s i; [destruct i; reflexivity|].
  cbn [set_offsets]. fold (lsize l). destruct (Nat.ltb_spec 0 (lsize l)) as [G|G].
  - destruct i; cbn [nth_error firstn total fold_right option_map].
    + rewrite Nat.add_0_r. apply Nat.ltb_lt in G. rewrite G. auto.
    + rewrite IH. destruct (nth_error t i); [|reflexivity]. unfold option_map. rewrite <- Nat.add_assoc. reflexivity.
  - destruct i; cbn [nth_error firstn total fold_right option_map].
    + apply Nat.ltb_ge in G. rewrite G. auto.
    + rewrite IH. destruct (nth_error t i); [|reflexivity]. assert (lsize l = 0) as -> by lia. reflexivity.
Qed.
Lemma set_offsets_length s (h : list lk) : length (set_offsets s h) = length h.
Proof. revert s; induction h as [|l t IH]; intros s; cbn [set_offsets length]; auto. destruct (Nat.ltb 0 (joint_size (l_joint l))); cbn [length]; rewrite IH; auto. Qed.
Lemma total_firstn_S (h : list lk) i l : nth_error h i = Some l -> total (firstn (S i) h) = total (firstn i h) + lsize l.
Proof.
  revert i. induction h as [|a t IH]; intros [|i] H; try discriminate.
  - injection H as ->. cbn. lia.
  - cbn in H. specialize (IH _ H). rewrite !firstn_cons. unfold total in *. cbn [fold_right]. lia.
Qed.
Lemma total_firstn_mono (h : list lk) i j : i <= j -> total (firstn i h) <= total (firstn j h).
Proof.
  revert i j. induction h as [|a t IH]; intros [|i] [|j] H; cbn; try lia.
  fold (total (firstn i t)) (total (firstn j t)). assert (total (firstn i t) <= total (firstn j t)) by (apply IH; lia). lia.
Qed.
Lemma total_firstn_le (h : list lk) i : total (firstn i h) <= total h.
Proof. revert i. induction h as [|a t IH]; intros [|i]; cbn; try lia. fold (total (firstn i t)) (total t). specialize (IH i). lia. Qed.
(** Every component position belongs to a link. *)
Lemma total_cover (h : list lk) k : k < total h ->
  exists i l, nth_error h i = Some l /\ total (firstn i h) <= k < total (firstn i h) + lsize l.
Proof.
  revert k. induction h as [|a t IH]; cbn; intros k H; [lia|]. fold (total t) in H.
  destruct (Nat.lt_ge_cases k (lsize a)).
  - exists 0, a. cbn. split; auto; lia.
  - destruct (IH (k - lsize a)) as (i & l & A & B); [lia|]. exists (S i), l. cbn. fold (total (firstn i t)). split; auto; lia.
Qed.
End Offsets.

(** ** Joint vectors *)
Section JointVec.
Context {F : Type} {N : Num F} {E : Ext F}.
Notation lk := (link F).
Definition slice (o n : nat) (v : list F) : list F := firstn n (skipn o v).

Lemma rd1_firstn (l : list F) n : 1 <= n -> rd1 (firstn n l) = rd1 l.
Proof. destruct n as [|n]; [lia|]. intros _. destruct l; reflexivity. Qed.
Lemma lim_dis_firstn (j : joint F) l : joint_lim_dis j (firstn (joint_size j) l) = joint_lim_dis j l.
Proof.
  destruct j; cbn -[clamp]; try reflexivity;
  do 6 (destruct l as [|? l]; [reflexivity|]); reflexivity.
Qed.
Definition set_ok (set : joint F -> list F -> option (joint F)) : Prop :=
  (forall j l, joint_size j <= length l -> exists j', set j l = Some j') /\
  (forall j l j', set j l = Some j' -> jtype_of j' = jtype_of j).
Lemma set_dis_ok : set_ok joint_set_dis.
Proof. split; [apply set_dis_total|apply set_dis_type]. Qed.
Lemma set_gen_ok g gs gf : set_ok (joint_set_gen g gs gf).
Proof.
  split.
  - intros j l H. destruct j; cbn in *; eauto;
    repeat (destruct l as [|? l]; cbn in H; [lia|]); cbn; eauto.
  - intros j l j' H. destruct j; cbn in H; rd_inv H; injection H as <-; reflexivity.
Qed.
Lemma set_vel_ok : set_ok joint_set_vel.
Proof. apply set_gen_ok. Qed.
Lemma set_acc_ok : set_ok joint_set_acc.
Proof. apply set_gen_ok. Qed.
Lemma set_cnt_ok dt : set_ok (fun j l => joint_set_dis_cnt j l dt).
Proof.
  split.
  - intros j l H. destruct j; cbn in *; eauto;
    repeat (destruct l as [|? l]; cbn in H; [lia|]); cbn; eauto.
  - intros j l j' H. destruct j; cbn in H; rd_inv H; injection H as <-; reflexivity.
Qed.
Lemma set_vel_get (j : joint F) l j' : joint_set_vel j l = Some j' -> joint_get_vel j' = firstn (joint_size j) l.
Proof.
  intros H. destruct j; cbn in H; try (injection H as <-; reflexivity);
  repeat (destruct l as [|? l]; [discriminate H|]); cbn in H; injection H as <-; reflexivity.
Qed.
Lemma set_acc_get (j : joint F) l j' : joint_set_acc j l = Some j' -> joint_get_acc j' = firstn (joint_size j) l.
Proof.
  intros H. destruct j; cbn in H; try (injection H as <-; reflexivity);
  repeat (destruct l as [|? l]; [discriminate H|]); cbn in H; injection H as <-; reflexivity.
Qed.
Lemma set_acc_vel (j : joint F) l j' : joint_set_acc j l = Some j' -> joint_get_vel j' = joint_get_vel j.
Proof. intros H. destruct j; cbn in H; rd_inv H; injection H as <-; reflexivity. Qed.

(** Offsets as rkChainSetOffset assigns them, starting from [s]. *)
Definition placed (s : nat) (h : list lk) : Prop := set_offsets s h = h.
Lemma placed_cons s l t : placed s (l :: t) <->
  l_offset l = (if Nat.ltb 0 (lsize l) then Some s else None) /\ placed (s + lsize l) t.
Proof.
  unfold placed. cbn [set_offsets]. fold (lsize l). destruct (Nat.ltb_spec 0 (lsize l)).
  - split.
    + intros H0. injection H0 as A B. rewrite <- A at 1. auto.
    + intros [A B]. rewrite B. f_equal. destruct l; cbn in *; subst; auto.
  - assert (lsize l = 0) as -> by lia. rewrite Nat.add_0_r. split.
    + intros H0. injection H0 as A B. rewrite <- A at 1. auto.
    + intros [A B]. rewrite B. f_equal. destruct l; cbn in *; subst; auto.
Qed.
Lemma set_offsets_placed s (h : list lk) : placed s (set_offsets s h).
Proof.
  revert s. induction h as [|l t IH]; intros s; [reflexivity|]. cbn [set_offsets]. fold (lsize l).
  destruct (Nat.ltb_spec 0 (lsize l)).
  - apply placed_cons. unfold lsize in *. cbn [l_joint l_set_offset l_offset].
    apply Nat.ltb_lt in H. rewrite H. split; auto.
  - apply placed_cons. unfold lsize in *. cbn [l_joint l_set_offset l_offset].
    assert (joint_size (l_joint l) = 0) as -> by lia. rewrite Nat.add_0_r. split; auto.
Qed.
Lemma placed_nth s (h : list lk) i l : placed s h -> nth_error h i = Some l ->
  l_offset l = if Nat.ltb 0 (lsize l) then Some (s + total (firstn i h)) else None.
Proof.
  intros P H. pose proof (set_offsets_nth s h i) as G. rewrite P, H in G. cbn -[Nat.ltb] in G. injection G as G.
  rewrite G at 1. reflexivity.
Qed.

(** Relation between the links before and after setting from a vector. *)
Definition set_rel (set : joint F -> list F -> option (joint F)) (v : list F) (l l' : lk) : Prop :=
  match l_offset l with
  | None => l' = l
  | Some o => exists j, set (l_joint l) (skipn o v) = Some j /\ l' = l_set_joint j l
  end.
Lemma set_all_spec set v (h : list lk) s : set_ok set -> placed s h -> s + total h <= length v ->
  exists h', set_all set h v = Some h' /\ Forall2 (set_rel set v) h h'.
Proof.
  intros [TOT TYP]. revert s. induction h as [|l t IH]; intros s P LE; [exists []; split; auto; constructor|].
  apply placed_cons in P as [A B]. cbn in LE. fold (total t) in LE.
  destruct (IH _ B) as (t' & S & R); [lia|]. cbn [set_all]. rewrite A, S.
  destruct (Nat.ltb_spec 0 (lsize l)).
  - destruct (TOT (l_joint l) (skipn s v)) as [j J]; [rewrite skipn_length; unfold lsize in *; lia|].
    rewrite J. cbn. eexists. split; [reflexivity|]. constructor; auto. unfold set_rel. rewrite A. eauto.
  - cbn. eexists. split; [reflexivity|]. constructor; auto. unfold set_rel. rewrite A. auto.
Qed.
Lemma set_rel_size set v (l l' : lk) : set_ok set -> set_rel set v l l' -> lsize l' = lsize l /\ l_offset l' = l_offset l.
Proof.
  intros [_ TYP]. unfold set_rel. destruct (l_offset l) eqn:O; [|intros ->; auto].
  intros (j & J & ->). cbn. split; auto. unfold lsize, joint_size. cbn. rewrite (TYP _ _ _ J). auto.
Qed.
Lemma set_rel_placed set v s (h h' : list lk) : set_ok set -> Forall2 (set_rel set v) h h' -> placed s h -> placed s h' /\ total h' = total h.
Proof.
  intros OK R. revert s. induction R as [|l l' t t' X R IH]; intros s P; [auto|].
  destruct (set_rel_size _ _ _ _ OK X) as [S O]. apply placed_cons in P as [A B].
  destruct (IH _ B) as [C D]. split.
  - apply placed_cons. rewrite S, O. auto.
  - cbn. fold (total t) (total t'). lia.
Qed.
Lemma skipn_skipn {A} x y (l : list A) : skipn x (skipn y l) = skipn (x + y) l.
Proof. revert x l; induction y; intros x l; [rewrite Nat.add_0_r; auto|]. destruct l; [rewrite !skipn_nil; auto|]. rewrite Nat.add_succ_r. cbn. apply IHy. Qed.
Lemma skipn_app_ge {A} (a b : list A) n : length a <= n -> skipn n (a ++ b) = skipn (n - length a) b.
Proof. intros. rewrite skipn_app. rewrite (skipn_all2 a) by auto. auto. Qed.
Lemma firstn_app_ge {A} (a b : list A) n : length a <= n -> firstn n (a ++ b) = a ++ firstn (n - length a) b.
Proof. intros. rewrite firstn_app. rewrite (firstn_all2 a) by auto. auto. Qed.
(** Reading all joints gives the concatenation of their values. *)
Lemma get_all_spec get (h : list lk) : (forall j, length (get j) = joint_size j) -> forall s v, placed s h -> s + total h <= length v ->
  get_all get h v = Some (firstn s v ++ flat_map (fun l => get (l_joint l)) h ++ skipn (s + total h) v).
Proof.
  intros GL. induction h as [|l t IH]; intros s v P LE.
  - cbn. rewrite Nat.add_0_r, firstn_skipn. auto.
  - apply placed_cons in P as [A B]. cbn in LE. fold (total t) in LE. cbn [get_all]. rewrite A.
    assert (GJ : length (get (l_joint l)) = lsize l) by apply GL.
    assert (TT : total (l :: t) = lsize l + total t) by reflexivity.
    destruct (Nat.ltb_spec 0 (lsize l)).
    + unfold write_at. rewrite GJ. assert (Nat.leb (s + lsize l) (length v) = true) as -> by (apply Nat.leb_le; lia).
      cbn [obind].
      assert (L1 : length (firstn s v) = s) by (rewrite firstn_length; lia).
      rewrite (IH (s + lsize l)); auto.
      2:{ rewrite !app_length, L1, GJ, skipn_length. lia. }
      f_equal. rewrite firstn_app_ge by (rewrite L1; lia). rewrite L1.
      rewrite firstn_app_ge by (rewrite GJ; lia). rewrite GJ.
      replace (s + lsize l - s - lsize l) with 0 by lia. cbn [firstn]. rewrite app_nil_r.
      rewrite skipn_app_ge by (rewrite L1; lia). rewrite L1.
      rewrite skipn_app_ge by (rewrite GJ; lia). rewrite GJ.
      cbn [flat_map]. rewrite TT.
      replace (s + (lsize l + total t)) with (total t + (s + lsize l)) by lia.
      rewrite <- !app_assoc. rewrite !skipn_skipn. do 4 f_equal. lia.
    + assert (lsize l = 0) as Z by lia. rewrite Z, Nat.add_0_r in B.
      rewrite (IH s); auto; [|lia]. cbn [flat_map]. rewrite TT, Z.
      assert (get (l_joint l) = []) as -> by (destruct (get (l_joint l)); auto; cbn in GJ; lia). auto.
Qed.
Lemma flat_map_slice (get : joint F -> list F) (h : list lk) i l : (forall j, length (get j) = joint_size j) -> nth_error h i = Some l ->
  slice (total (firstn i h)) (lsize l) (flat_map (fun l => get (l_joint l)) h) = get (l_joint l).
Proof.
  intros GL. unfold slice. revert i. induction h as [|a t IH]; intros [|i] H; try discriminate.
  - injection H as ->. cbn [firstn total fold_right flat_map skipn]. rewrite firstn_app_ge by (rewrite GL; unfold lsize; lia).
    rewrite GL. unfold lsize. rewrite Nat.sub_diag. cbn. apply app_nil_r.
  - cbn in H. rewrite firstn_cons. cbn [flat_map]. change (total (a :: firstn i t)) with (lsize a + total (firstn i t)).
    rewrite skipn_app_ge by (rewrite GL; unfold lsize; lia). rewrite GL. fold (lsize a).
    replace (lsize a + total (firstn i t) - lsize a) with (total (firstn i t)) by lia. apply IH; auto.
Qed.
Lemma flat_map_length (get : joint F -> list F) (h : list lk) : (forall j, length (get j) = joint_size j) -> length (flat_map (fun l => get (l_joint l)) h) = total h.
Proof. intros GL. induction h; cbn; auto. rewrite app_length, GL, IHh. auto. Qed.
(** Values written component by component are read back. *)
Lemma set_rel_flat set (get : joint F -> list F) v (h h' : list lk) : set_ok set ->
  (forall j l j', set j l = Some j' -> get j' = firstn (joint_size j) l) -> (forall j, length (get j) = joint_size j) ->
  Forall2 (set_rel set v) h h' -> forall s, placed s h ->
  flat_map (fun l => get (l_joint l)) h' = slice s (total h) v.
Proof.
  intros OK SG GL R. induction R as [|l l' t t' X R IH]; intros s P; [reflexivity|].
  apply placed_cons in P as [A B]. cbn [flat_map]. rewrite (IH _ B). unfold slice.
  change (total (l :: t)) with (lsize l + total t).
  unfold set_rel in X. rewrite A in X. destruct (Nat.ltb_spec 0 (lsize l)).
  - destruct X as (j & J & ->). cbn [l_joint l_set_joint]. rewrite (SG _ _ _ J). fold (lsize l).
    replace (s + lsize l) with (lsize l + s) by lia. rewrite <- skipn_skipn.
    rewrite <- (firstn_skipn (lsize l) (skipn s v)) at 3.
    destruct (Nat.le_gt_cases (lsize l) (length (skipn s v))) as [LE|GT].
    + rewrite firstn_app_ge by (rewrite firstn_length; lia). rewrite firstn_length, Nat.min_l by auto.
      replace (lsize l + total t - lsize l) with (total t) by lia. auto.
    + rewrite (skipn_all2 (skipn s v)) by lia. rewrite app_nil_r, firstn_nil, app_nil_r.
      rewrite firstn_firstn. rewrite Nat.min_r by lia. auto.
  - subst l'. assert (lsize l = 0) as Z by lia. rewrite Z, Nat.add_0_r.
    assert (get (l_joint l) = []) as ->; auto.
    destruct (get (l_joint l)) eqn:G; auto. pose proof (GL (l_joint l)) as G2. rewrite G in G2. unfold lsize in Z. cbn in G2. lia.
Qed.
End JointVec.

Section JointVec2.
Context {F : Type} {N : Num F} {E : Ext F}.
Notation lk := (link F).

Lemma set_rate_all_split (h : list lk) v a :
  set_rate_all h v a = obind (set_all joint_set_vel h v) (fun h1 => set_all joint_set_acc h1 a).
Proof.
  induction h as [|l t IH]; [reflexivity|]. cbn [set_rate_all set_all].
  destruct (l_offset l) as [o|] eqn:O.
  - destruct (joint_set_vel (l_joint l) (skipn o v)) as [j|]; [|reflexivity]. cbn [obind].
    rewrite IH. destruct (set_all joint_set_vel t v) as [t1|]; cbn.
    + rewrite O. cbn. destruct (joint_set_acc j (skipn o a)) as [j'|]; cbn; [|reflexivity].
      destruct (set_all joint_set_acc t1 a); reflexivity.
    + destruct (joint_set_acc j (skipn o a)); reflexivity.
  - rewrite IH. destruct (set_all joint_set_vel t v) as [t1|]; cbn; [|reflexivity]. rewrite O. destruct (set_all joint_set_acc t1 a); reflexivity.
Qed.
Lemma set_acc_keeps_vel a (h h' : list lk) : Forall2 (set_rel joint_set_acc a) h h' ->
  flat_map (fun l => joint_get_vel (l_joint l)) h' = flat_map (fun l => joint_get_vel (l_joint l)) h.
Proof.
  induction 1 as [|l l' t t' X R IH]; [reflexivity|]. cbn [flat_map]. rewrite IH. f_equal.
  unfold set_rel in X. destruct (l_offset l); [|subst; auto]. destruct X as (j & J & ->). cbn. eapply set_acc_vel; eauto.
Qed.

(** The default index visits what the All variants visit. *)
Lemma lset_app (pre t : list lk) l l' : lset (length pre) l' (pre ++ l :: t) = (pre ++ [l']) ++ t.
Proof. unfold lset. induction pre; cbn; auto. rewrite IHpre. auto. Qed.
Lemma nth_app_len {A} (pre t : list A) l : nth_error (pre ++ l :: t) (length pre) = Some l.
Proof. induction pre; cbn; auto. Qed.
Lemma set_by_default set (t : list lk) : set_ok set -> forall pre s v, placed s t ->
  set_by_index set (pre ++ t) (default_index (length pre) t) (skipn s v) = option_map (app pre) (set_all set t v).
Proof.
  intros [_ TYP]. induction t as [|l t IH]; intros pre s v P; [reflexivity|].
  apply placed_cons in P as [A B]. cbn [default_index set_all]. fold (lsize l). rewrite A.
  destruct (Nat.ltb_spec 0 (lsize l)) as [G|G].
  - cbn [set_by_index]. rewrite nth_app_len. cbn [obind].
    destruct (set (l_joint l) (skipn s v)) as [j|] eqn:J; [|reflexivity]. cbn [obind].
    rewrite lset_app. rewrite skipn_skipn.
    assert (joint_size j = lsize l) as -> by (unfold lsize, joint_size; rewrite (TYP _ _ _ J); auto).
    rewrite (Nat.add_comm (lsize l) s).
    replace (S (length pre)) with (length (pre ++ [l_set_joint j l])) by (rewrite app_length; cbn; lia).
    rewrite IH; auto. destruct (set_all set t v); cbn; auto. rewrite <- app_assoc. auto.
  - assert (lsize l = 0) as Z by lia. rewrite Z, Nat.add_0_r in B.
    replace (S (length pre)) with (length (pre ++ [l])) by (rewrite app_length; cbn; lia).
    change (pre ++ l :: t) with (pre ++ [l] ++ t). rewrite app_assoc, IH; auto.
    destruct (set_all set t v); cbn; auto. rewrite <- app_assoc. auto.
Qed.
Lemma set_rate_by_default (t : list lk) : forall pre s v a, placed s t ->
  set_rate_by_index (pre ++ t) (default_index (length pre) t) (skipn s v) (skipn s a) = option_map (app pre) (set_rate_all t v a).
Proof.
  induction t as [|l t IH]; intros pre s v a P; [reflexivity|].
  apply placed_cons in P as [A B]. cbn [default_index set_rate_all]. fold (lsize l). rewrite A.
  destruct (Nat.ltb_spec 0 (lsize l)) as [G|G].
  - cbn [set_rate_by_index]. rewrite nth_app_len. cbn [obind].
    destruct (joint_set_vel (l_joint l) (skipn s v)) as [j|] eqn:J; [|reflexivity]. cbn [obind].
    destruct (joint_set_acc j (skipn s a)) as [j2|] eqn:J2; [|reflexivity]. cbn [obind].
    rewrite lset_app. rewrite !skipn_skipn.
    assert (joint_size j2 = lsize l) as ->.
    { unfold lsize, joint_size. rewrite (proj2 set_acc_ok _ _ _ J2), (proj2 set_vel_ok _ _ _ J). auto. }
    rewrite (Nat.add_comm (lsize l) s).
    replace (S (length pre)) with (length (pre ++ [l_set_joint j2 l])) by (rewrite app_length; cbn; lia).
    rewrite IH; auto. destruct (set_rate_all t v a); cbn; auto. rewrite <- app_assoc. auto.
  - assert (lsize l = 0) as Z by lia. rewrite Z, Nat.add_0_r in B.
    replace (S (length pre)) with (length (pre ++ [l])) by (rewrite app_length; cbn; lia).
    change (pre ++ l :: t) with (pre ++ [l] ++ t). rewrite app_assoc, IH; auto.
    destruct (set_rate_all t v a); cbn; auto. rewrite <- app_assoc. auto.
Qed.
Lemma get_by_default get (t : list lk) : forall pre s v, placed s t ->
  get_by_index get (pre ++ t) (default_index (length pre) t) s v = get_all get t v.
Proof.
  induction t as [|l t IH]; intros pre s v P; [reflexivity|].
  apply placed_cons in P as [A B]. cbn [default_index get_all]. fold (lsize l). rewrite A.
  replace (S (length pre)) with (length (pre ++ [l])) by (rewrite app_length; cbn; lia).
  destruct (Nat.ltb_spec 0 (lsize l)) as [G|G].
  - cbn [get_by_index]. rewrite nth_app_len. cbn [obind].
    destruct (write_at s (get (l_joint l)) v) as [v'|]; [|reflexivity]. cbn [obind].
    change (pre ++ l :: t) with (pre ++ [l] ++ t). rewrite app_assoc. apply IH; auto.
  - assert (lsize l = 0) as Z by lia. rewrite Z, Nat.add_0_r in B.
    change (pre ++ l :: t) with (pre ++ [l] ++ t). rewrite app_assoc. apply IH; auto.
Qed.
Lemma default_index_in (h : list lk) : forall b i, In i (default_index b h) <-> exists l, b <= i /\ nth_error h (i - b) = Some l /\ 0 < lsize l.
Proof.
  induction h as [|l t IH]; intros b i.
  - cbn. split; [tauto|]. intros (l & _ & H & _). destruct (i - b); discriminate H.
  - cbn [default_index]. fold (lsize l).
    assert (X : In i (default_index (S b) t) <-> exists l0, b < i /\ nth_error (l :: t) (i - b) = Some l0 /\ 0 < lsize l0).
    { rewrite IH. split; intros (l0 & A & B & C); exists l0; (split; [lia|]); split; auto.
      - replace (i - b) with (S (i - S b)) by lia. auto.
      - replace (i - b) with (S (i - S b)) in B by lia. auto. }
    destruct (Nat.ltb_spec 0 (lsize l)) as [G|G].
    + cbn [In]. rewrite X. split.
      * intros [<-|(l0 & A & B & C)]. exists l. rewrite Nat.sub_diag. auto. exists l0. split; auto. lia.
      * intros (l0 & A & B & C). destruct (Nat.eq_dec b i); auto. right. exists l0. split; auto. lia.
    + rewrite X. split; intros (l0 & A & B & C); exists l0; split; auto; try lia.
      destruct (Nat.eq_dec b i); [|lia]. subst. rewrite Nat.sub_diag in B. injection B as <-. lia.
Qed.
Lemma default_index_sorted (h : list lk) b : Sorted.StronglySorted lt (default_index b h).
Proof.
  revert b. induction h as [|l t IH]; intros b; cbn [default_index]; [constructor|].
  destruct (Nat.ltb 0 (joint_size (l_joint l))); auto. constructor; auto.
  apply Forall_forall. intros x Hx. apply default_index_in in Hx as (l0 & A & _). lia.
Qed.
End JointVec2.

Section IndexVec.
Context {F : Type} {N : Num F} {E : Ext F}.
Notation lk := (link F).

Lemma index_size_pick (h : list lk) idx : (forall i, In i idx -> i < length h) -> chain_index_size h idx = Some (total (pick h idx)).
Proof.
  induction idx as [|i t IH]; intros H; [reflexivity|]. cbn [chain_index_size pick].
  destruct (nth_error h i) as [l|] eqn:E0.
  - cbn [obind]. rewrite IH by (intros; apply H; right; auto). reflexivity.
  - apply nth_error_None in E0. specialize (H i (or_introl eq_refl)). lia.
Qed.
Lemma pick_sizes (h h' : list lk) idx : (forall i l, nth_error h i = Some l -> exists l', nth_error h' i = Some l' /\ lsize l' = lsize l) ->
  (forall i, In i idx -> i < length h) -> total (pick h' idx) = total (pick h idx).
Proof.
  intros H. induction idx as [|i t IH]; intros R; [reflexivity|]. cbn [pick].
  destruct (nth_error h i) as [l|] eqn:E0.
  - destruct (H _ _ E0) as (l' & -> & S). cbn [total fold_right]. fold (total (pick h t)) (total (pick h' t)).
    rewrite IH, S by (intros; apply R; right; auto). auto.
  - apply nth_error_None in E0. specialize (R i (or_introl eq_refl)). lia.
Qed.
Lemma set_by_index_spec set idx : set_ok set -> forall (h : list lk) buf, NoDup idx -> (forall i, In i idx -> i < length h) ->
  total (pick h idx) <= length buf ->
  exists h', set_by_index set h idx buf = Some h' /\ length h' = length h
   /\ (forall i, ~ In i idx -> nth_error h' i = nth_error h i)
   /\ (forall a i b, idx = a ++ i :: b -> exists l j, nth_error h i = Some l /\
        set (l_joint l) (skipn (total (pick h a)) buf) = Some j /\ nth_error h' i = Some (l_set_joint j l)).
Proof.
  intros OK. pose proof OK as [TOT TYP]. induction idx as [|i t IH]; intros h buf ND R LE.
  - exists h. repeat split; auto. intros [|? a] i b X; discriminate X.
  - apply NoDup_cons_iff in ND as [NI ND]. cbn [set_by_index]. cbn [pick] in LE.
    destruct (nth_error h i) as [l|] eqn:E0; [|apply nth_error_None in E0; specialize (R i (or_introl eq_refl)); lia].
    cbn [obind]. cbn [total fold_right] in LE. fold (total (pick h t)) in LE.
    destruct (TOT (l_joint l) buf) as [j J]; [unfold lsize in *; lia|]. rewrite J. cbn [obind].
    assert (SJ : joint_size j = lsize l) by (unfold lsize, joint_size; rewrite (TYP _ _ _ J); auto). rewrite SJ.
    set (h1 := lset i (l_set_joint j l) h).
    assert (E1 : forall m, m <> i -> nth_error h1 m = nth_error h m) by (intros; apply set_nth_other; auto).
    assert (Ei : nth_error h1 i = Some (l_set_joint j l)) by (apply set_nth_same; eapply nth_lt; eauto).
    assert (L1 : length h1 = length h) by apply set_nth_length.
    assert (SZ : forall m lm, nth_error h m = Some lm -> exists l', nth_error h1 m = Some l' /\ lsize l' = lsize lm).
    { intros m lm Hm. destruct (Nat.eq_dec m i) as [->|NE]; [|rewrite E1; eauto]. exists (l_set_joint j l). split; auto.
      assert (lm = l) by congruence; subst. unfold lsize at 1; cbn; auto. }
    assert (PS : forall a, (forall m, In m a -> In m t) -> total (pick h1 a) = total (pick h a)).
    { intros a Ha. apply pick_sizes; auto. intros m Hm. apply R; right; auto. }
    destruct (IH h1 (skipn (lsize l) buf)) as (h' & A & B & C & D); auto.
    { intros m Hm. rewrite L1. apply R; right; auto. }
    { rewrite PS by auto. rewrite skipn_length. lia. }
    exists h'. split; auto. split; [congruence|]. split.
    + intros m Hm. rewrite C by (intro; apply Hm; right; auto). apply E1. intro; subst; apply Hm; left; auto.
    + intros [|z a] m b X; injection X as -> X.
      * subst b. exists l, j. split; auto. cbn [pick]. cbn. split; auto. rewrite C; auto.
      * destruct (D a m b X) as (lm & jm & D1 & D2 & D3). exists lm, jm.
        assert (NE : m <> z) by (intro; subst; apply NI; apply in_or_app; right; left; auto).
        rewrite E1 in D1 by auto. split; auto. split; auto.
        cbn [pick]. rewrite E0. cbn [total fold_right]. fold (total (pick h a)).
        rewrite skipn_skipn in D2. rewrite PS in D2 by (intros; subst t; apply in_or_app; auto).
        rewrite Nat.add_comm. auto.
Qed.
Lemma get_by_index_spec (get : joint F -> list F) (h : list lk) idx : (forall j, length (get j) = joint_size j) ->
  (forall i, In i idx -> i < length h) -> forall k v, k + total (pick h idx) <= length v ->
  get_by_index get h idx k v = Some (firstn k v ++ flat_map (fun l => get (l_joint l)) (pick h idx) ++ skipn (k + total (pick h idx)) v).
Proof.
  intros GL. induction idx as [|i t IH]; intros R k v LE.
  - cbn. rewrite Nat.add_0_r, firstn_skipn. auto.
  - cbn [get_by_index pick] in *.
    destruct (nth_error h i) as [l|] eqn:E0; [|apply nth_error_None in E0; specialize (R i (or_introl eq_refl)); lia].
    cbn [obind]. assert (GJ : length (get (l_joint l)) = lsize l) by apply GL.
    assert (TT : total (l :: pick h t) = lsize l + total (pick h t)) by reflexivity.
    rewrite TT in *. unfold write_at. rewrite GJ.
    assert (Nat.leb (k + lsize l) (length v) = true) as -> by (apply Nat.leb_le; lia). cbn [obind].
    assert (L1 : length (firstn k v) = k) by (rewrite firstn_length; lia).
    fold (lsize l). rewrite (IH (fun m Hm => R m (or_intror Hm)) (k + lsize l)).
    2:{ rewrite !app_length, L1, GJ, skipn_length. lia. }
    f_equal. rewrite firstn_app_ge by (rewrite L1; lia). rewrite L1.
    rewrite firstn_app_ge by (rewrite GJ; lia). rewrite GJ.
    replace (k + lsize l - k - lsize l) with 0 by lia. cbn [firstn]. rewrite app_nil_r.
    rewrite skipn_app_ge by (rewrite L1; lia). rewrite L1.
    rewrite skipn_app_ge by (rewrite GJ; lia). rewrite GJ.
    cbn [flat_map]. rewrite <- !app_assoc. rewrite !skipn_skipn. do 4 f_equal. lia.
Qed.
Lemma pick_app (h : list lk) a b : pick h (a ++ b) = pick h a ++ pick h b.
Proof. induction a; cbn; auto. destruct (nth_error h a); cbn; rewrite IHa; auto. Qed.
(** Velocities written through an index are read back through it. *)
Lemma index_roundtrip set (get : joint F -> list F) idx (h h' : list lk) buf :
  (forall j l j', set j l = Some j' -> get j' = firstn (joint_size j) l) ->
  (forall i, In i idx -> i < length h) -> total (pick h idx) <= length buf ->
  (forall a i b, idx = a ++ i :: b -> exists l j, nth_error h i = Some l /\
        set (l_joint l) (skipn (total (pick h a)) buf) = Some j /\ nth_error h' i = Some (l_set_joint j l)) ->
  flat_map (fun l => get (l_joint l)) (pick h' idx) = firstn (total (pick h idx)) buf.
Proof.
  intros SG R LE H.
  assert (forall b a, idx = a ++ b -> flat_map (fun l => get (l_joint l)) (pick h' b) = slice (total (pick h a)) (total (pick h b)) buf) as X.
  { induction b as [|i b IH]; intros a EQ; [reflexivity|].
    destruct (H a i b EQ) as (l & j & A & B & C). cbn [pick]. rewrite A, C. cbn [flat_map].
    rewrite (IH (a ++ [i])) by (rewrite <- app_assoc; auto). cbn [l_joint l_set_joint]. rewrite (SG _ _ _ B).
    rewrite pick_app. cbn [pick]. rewrite A.
    assert (total (pick h a ++ [l]) = total (pick h a) + lsize l) as ->.
    { clear. induction (pick h a); cbn; unfold total in *; [lia|]. rewrite IHl0. lia. }
    change (total (l :: pick h b)) with (lsize l + total (pick h b)). unfold slice. fold (lsize l).
    rewrite (Nat.add_comm (total (pick h a))). rewrite <- skipn_skipn.
    assert (LEN : lsize l <= length (skipn (total (pick h a)) buf)).
    { rewrite skipn_length. subst idx. rewrite pick_app in LE. cbn [pick] in LE. rewrite A in LE.
      assert (total (pick h a ++ l :: pick h b) = total (pick h a) + (lsize l + total (pick h b))).
      { clear. induction (pick h a); cbn; unfold total in *; [lia|]. rewrite IHl0. lia. }
      lia. }
    set (u := skipn (total (pick h a)) buf) in *.
    rewrite <- (firstn_skipn (lsize l) u) at 3. rewrite firstn_app_ge by (rewrite firstn_length; lia).
    rewrite firstn_length, Nat.min_l by auto. do 2 f_equal. lia. }
  rewrite (X idx [] eq_refl). reflexivity.
Qed.
Lemma set_dis_firstn (j : joint F) l : joint_set_dis j (firstn (joint_size j) l) = joint_set_dis j l.
Proof.
  destruct j; cbn; try reflexivity; do 6 (destruct l as [|? l]; [reflexivity|]); reflexivity.
Qed.
Lemma set_gen_firstn g gs gf (j : joint F) l : joint_set_gen g gs gf j (firstn (joint_size j) l) = joint_set_gen g gs gf j l.
Proof.
  destruct j; cbn; try reflexivity; do 6 (destruct l as [|? l]; [reflexivity|]); reflexivity.
Qed.
Lemma index_size_range (h : list lk) idx n : chain_index_size h idx = Some n -> forall i, In i idx -> i < length h.
Proof.
  revert n. induction idx as [|k t IH]; intros n H i [].
  - subst. cbn [chain_index_size] in H. apply nth_error_Some. destruct (nth_error h i); discriminate.
  - cbn [chain_index_size] in H. destruct (nth_error h k); [|discriminate]. cbn [obind] in H.
    destruct (chain_index_size h t) eqn:T; [|discriminate]. eauto.
Qed.
Lemma pick_length (h : list lk) idx : (forall i, In i idx -> i < length h) -> length (pick h idx) = length idx.
Proof.
  induction idx as [|i t IH]; intros R; [reflexivity|]. cbn [pick].
  destruct (nth_error h i) eqn:E0; [|apply nth_error_None in E0; specialize (R i (or_introl eq_refl)); lia].
  cbn. rewrite IH; auto. intros; apply R; right; auto.
Qed.
Lemma set_by_index_links set idx : forall (h h' : list lk) buf, set_ok set -> set_by_index set h idx buf = Some h' ->
  forall i l, nth_error h i = Some l -> exists l', nth_error h' i = Some l' /\ lsize l' = lsize l.
Proof.
  induction idx as [|k t IH]; intros h h' buf OK H i l Hl; cbn [set_by_index] in H.
  - injection H as <-. eauto.
  - destruct (nth_error h k) as [lk|] eqn:E0; [|discriminate]. cbn [obind] in H.
    destruct (set (l_joint lk) buf) as [j|] eqn:J; [|discriminate]. cbn [obind] in H.
    destruct (Nat.eq_dec i k) as [->|NE].
    + assert (lk = l) by congruence; subst lk.
      destruct (IH _ _ _ OK H k (l_set_joint j l)) as (l' & A & B).
      { apply set_nth_same. eapply nth_lt; eauto. }
      exists l'. split; auto. rewrite B. unfold lsize, joint_size; cbn. now rewrite (proj2 OK _ _ _ J).
    + apply (IH _ _ _ OK H i l). unfold lset. rewrite set_nth_other; auto.
Qed.
(** Reading back through an index: the components of the indexed joint after [a] stand at the total size of [a]. *)
Lemma pick_slice (get : joint F -> list F) (h : list lk) a i b l : (forall j, length (get j) = joint_size j) ->
  (forall m, In m (a ++ i :: b) -> m < length h) -> nth_error h i = Some l ->
  slice (total (pick h a)) (lsize l) (flat_map (fun l => get (l_joint l)) (pick h (a ++ i :: b))) = get (l_joint l).
Proof.
  intros GL R Hl. assert (LA : length (pick h a) = length a) by (apply pick_length; intros; apply R, in_or_app; auto).
  rewrite pick_app. cbn [pick]. rewrite Hl.
  pose proof (flat_map_slice get (pick h a ++ l :: pick h b) (length (pick h a)) l GL) as Q.
  rewrite firstn_app, Nat.sub_diag, firstn_all in Q. cbn [firstn] in Q. rewrite app_nil_r in Q. apply Q.
  rewrite nth_error_app2, Nat.sub_diag by lia. reflexivity.
Qed.
End IndexVec.

(** ** Cloning *)
Section Clone.
Context {F : Type} {N : Num F} {L : NumLaws F N} {E : Ext F} {EL : ExtLaws F N E}.
Notation lk := (link F).

Lemma clone_field_id bo bc n i (p : option nat) : ref_ok n p -> clone_field bo bc n i p = Some p.
Proof.
  unfold clone_field, clone_ref, addr, index_of. destruct p as [q|]; cbn [option_map ref_ok]; [|reflexivity]. intros H.
  replace (bo + Z.of_nat q - (bo + Z.of_nat i) + (bc + Z.of_nat i))%Z with (bc + Z.of_nat q)%Z by lia.
  replace (bc <=? bc + Z.of_nat q)%Z with true by (symmetry; apply Z.leb_le; lia).
  replace (bc + Z.of_nat q <? bc + Z.of_nat n)%Z with true by (symmetry; apply Z.ltb_lt; lia).
  cbn [andb option_map]. do 2 f_equal. lia.
Qed.
Lemma clone_field_inv bo bc n i (p q : option nat) : clone_field bo bc n i p = Some q -> ref_ok n p /\ q = p.
Proof.
  unfold clone_field, clone_ref, addr, index_of. destruct p as [j|]; cbn [option_map ref_ok].
  - replace (bo + Z.of_nat j - (bo + Z.of_nat i) + (bc + Z.of_nat i))%Z with (bc + Z.of_nat j)%Z by lia.
    destruct (andb _ _) eqn:A; [|discriminate]. cbn [option_map]. intros H.
    apply andb_prop in A. destruct A as [A B]. apply Z.leb_le in A. apply Z.ltb_lt in B.
    injection H as <-. split; [lia|f_equal; lia].
  - intros H. injection H as <-. split; [exact I|reflexivity].
Qed.
Lemma joint_clone_total (j : joint F) : exists c, joint_clone j = Some c.
Proof. destruct j; cbn; eexists; reflexivity. Qed.

Lemma link_clone_spec bo bc n i (l : lk) :
  ref_ok n (l_parent l) -> ref_ok n (l_child l) -> ref_ok n (l_sibl l) ->
  exists c d, link_clone bo bc n i l = Some c /\ link_copy_state l c = Some d /\ clone_of l d /\ cache_ok (l_joint d) /\
    (settled (l_joint l) -> (forall x, In x (angles_of (l_joint l)) -> is_norm x) -> same_state (l_joint d) (l_joint l)).
Proof.
  intros P C S. destruct (joint_clone_total (l_joint l)) as [jc J].
  destruct (clone_basic _ _ J) as [T _].
  destruct (copy_state_total (l_joint l) jc (eq_sym T)) as [jd K].
  unfold link_clone, link_copy_state, obind. rewrite J, !clone_field_id by assumption.
  eexists _, _. split; [reflexivity|]. cbn [l_joint]. rewrite K. split; [reflexivity|].
  destruct (clone_copy _ _ _ J K) as (T' & V & A & Q & M & Cc & SS).
  destruct (body_clone_facts (l_body l) body_zeroed) as (B1 & B2 & B3).
  cbn [l_joint]. split; [|split; assumption].
  repeat (split; [first [reflexivity | assumption]|]). assumption.
Qed.
Lemma clone_links_spec bo bc n (h : list lk) : forall i,
  (forall k l, nth_error h k = Some l -> ref_ok n (l_parent l) /\ ref_ok n (l_child l) /\ ref_ok n (l_sibl l)) ->
  exists h1 h2, clone_links bo bc n i h = Some h1 /\ copy_links h h1 = Some h2 /\
    Forall2 (fun l d => clone_of l d /\ cache_ok (l_joint d) /\
      (settled (l_joint l) -> (forall x, In x (angles_of (l_joint l)) -> is_norm x) -> same_state (l_joint d) (l_joint l))) h h2.
Proof.
  induction h as [|l t IH]; intros i H; [exists [], []; repeat split; constructor|].
  destruct (H 0 l eq_refl) as (P & C & S).
  destruct (link_clone_spec bo bc n i l P C S) as (c & d & Hc & Hd & R).
  destruct (IH (Datatypes.S i)) as (h1 & h2 & H1 & H2 & R2); [intros k x Hk; exact (H (Datatypes.S k) x Hk)|].
  exists (c :: h1), (d :: h2). cbn [clone_links copy_links]. unfold obind. rewrite Hc, H1, Hd, H2. repeat split; auto.
Qed.
Lemma Forall2_nth {A B} (R : A -> B -> Prop) l m : Forall2 R l m -> forall i a, nth_error l i = Some a -> exists b, nth_error m i = Some b /\ R a b.
Proof. induction 1; intros [|i] a H1; cbn in *; try discriminate; eauto. injection H1 as <-. eauto. Qed.
Lemma chain_clone_spec bo bc (c : chain F) : c_links c <> [] -> refs_ok (c_links c) ->
  exists c', chain_clone bo bc c = Some c' /\ length (c_links c') = length (c_links c) /\
    c_mass c' = c_mass c /\ c_wcom c' = c_wcom c /\ c_comvel c' = c_comvel c /\ c_comacc c' = c_comacc c /\
    forall i l, nth_error (c_links c) i = Some l -> exists d, nth_error (c_links c') i = Some d /\
      clone_of l d /\ cache_ok (l_joint d) /\
      (settled (l_joint l) -> (forall x, In x (angles_of (l_joint l)) -> is_norm x) -> same_state (l_joint d) (l_joint l)).
Proof.
  intros Ne R. destruct (clone_links_spec bo bc (length (c_links c)) (c_links c) 0 R) as (h1 & h2 & H1 & H2 & Q).
  unfold chain_clone, chain_copy_state, obind. destruct (c_links c) as [|l0 t] eqn:Hl; [congruence|]. rewrite <- Hl in *.
  rewrite H1. cbn [c_links]. rewrite H2. eexists. split; [reflexivity|]. cbn.
  split; [symmetry; clear -Q; induction Q; cbn; congruence|]. repeat (split; [reflexivity|]).
  exact (Forall2_nth _ _ _ Q).
Qed.
(** A stray reference never survives: if the clone succeeds, all references were inside the array. *)
Lemma clone_links_inv bo bc n (h : list lk) : forall i h1, clone_links bo bc n i h = Some h1 ->
  forall k l, nth_error h k = Some l -> ref_ok n (l_parent l) /\ ref_ok n (l_child l) /\ ref_ok n (l_sibl l).
Proof.
  induction h as [|a t IH]; intros i h1 H k l Hk; [destruct k; discriminate|].
  cbn [clone_links] in H. unfold obind in H. destruct (link_clone bo bc n i a) as [c|] eqn:Hc; [|discriminate].
  destruct (clone_links bo bc n (Datatypes.S i) t) as [h2|] eqn:Ht; [|discriminate].
  destruct k as [|k]; [|exact (IH _ _ Ht k l Hk)]. cbn in Hk. injection Hk as <-.
  unfold link_clone, obind in Hc. destruct (joint_clone (l_joint a)); [|discriminate].
  destruct (clone_field bo bc n i (l_parent a)) eqn:P; [|discriminate].
  destruct (clone_field bo bc n i (l_child a)) eqn:C; [|discriminate].
  destruct (clone_field bo bc n i (l_sibl a)) eqn:S; [|discriminate].
  apply clone_field_inv in P, C, S. tauto.
Qed.
Lemma rep_refs_ok (h : list lk) p o f i l : lrep h p o f -> ref_ok (length h) p -> In i (ids f) -> nth_error h i = Some l ->
  ref_ok (length h) (l_parent l) /\ ref_ok (length h) (l_child l) /\ ref_ok (length h) (l_sibl l).
Proof.
  assert (G : forall p o f, lrep h p o f -> ref_ok (length h) o).
  { intros p0 o0 [|j k r]; simpl; [now intros ->|]. intros (-> & x & Hx & _). simpl. apply nth_error_Some. congruence. }
  revert p o. induction f as [|j k IHk r IHr]; simpl; intros p o R Hp I Hl; [tauto|].
  destruct R as (-> & x & Hx & Px & Rk & Rr).
  assert (j < length h) by (apply nth_error_Some; congruence).
  destruct I as [->|I].
  - assert (x = l) by congruence; subst x. rewrite Px. repeat split; auto; eapply G; eauto.
  - apply in_app_or in I as [I|I]; [eapply (IHk (Some j)) | eapply IHr]; eauto.
Qed.
Lemma well_formed_refs_ok (h : list lk) : well_formed h -> refs_ok h /\ h <> [].
Proof.
  intros [k T]. split.
  - intros i l Hl. eapply rep_refs_ok; [exact (proj1 T) | exact I | | exact Hl]. apply (tree_in h k i T).
    apply nth_error_Some. congruence.
  - intros ->. destruct T as [(_ & l & Hl & _) _]. discriminate.
Qed.
Lemma well_formed_clone (h h' : list lk) : length h' = length h ->
  (forall i l, nth_error h i = Some l -> exists d, nth_error h' i = Some d /\ clone_of l d) ->
  well_formed h -> well_formed h'.
Proof.
  intros Hl H [k T]. exists k. eapply well_formed_refs; [exact Hl | | exact T].
  intros i l Hi. destruct (H i l Hi) as (d & Hd & C). exists d. split; [exact Hd|].
  unfold clone_of in C. unfold same_refs. intuition congruence.
Qed.
End Clone.
