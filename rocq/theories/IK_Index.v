(** * IK_Index: the joint index and the dimensions of the working matrices for every history of calls. *)
From Coq Require Import List Arith Lia Bool Sorted.
From Verif Require Import Num NumFacts Vec Motor_Model Joint_Model Joint_Spec Joint_Proofs Body_Model Tree Link_Model Chain_Proofs Jacobi_Model IK_Model IK_Laws IK_Spec IK_Cells.
Import ListNotations.

Section Lists.
Context {A B : Type}.
Lemma set_nth_len i (x : A) l : length (set_nth i x l) = length l.
Proof. revert i. induction l as [|a l IH]; intros [|i]; cbn; auto. Qed.
Lemma set_nth_map i (x : B) (g : nat -> B) n : forall k, i < n ->
  set_nth i x (map g (seq k n)) = map (fun j => if Nat.eqb j (k + i) then x else g j) (seq k n).
Proof.
  revert i. induction n as [|n IH]; intros i k H; [lia|]. cbn [seq map]. destruct i as [|i].
  - cbn [set_nth]. rewrite Nat.add_0_r, Nat.eqb_refl. f_equal. apply map_ext_in. intros j Hj. apply in_seq in Hj. destruct (Nat.eqb_spec j k); [lia|auto].
  - cbn [set_nth]. rewrite IH by lia. destruct (Nat.eqb_spec k (k + S i)); [lia|]. f_equal. apply map_ext. intros j. now rewrite <- plus_n_Sm.
Qed.
Lemma Forall_set_nth (P : A -> Prop) i x l : Forall P l -> P x -> Forall P (set_nth i x l).
Proof. intros H. revert i. induction H; intros [|i] Px; cbn; constructor; auto. Qed.
Lemma repeat_map_seq (x : B) n : forall k, repeat x n = map (fun _ => x) (seq k n).
Proof. induction n as [|n IH]; intros k; cbn; [auto|]. f_equal. apply IH. Qed.
End Lists.

Section Index.
Context {F : Type} {N : Num F} {E : Ext F} {I : IKExt F}.
Notation lk := (link F).
Notation some f i := (match f i with Some _ => true | None => false end).

(** ** The chain keeps its joints *)
Definition lkey (l : lk) : nat * option nat := (joint_size (l_joint l), l_offset l).
Definition same_joints (c c' : chain F) : Prop := map lkey (c_links c') = map lkey (c_links c).
Lemma walk_down_key {P} (upd : lk -> P -> lk) par : (forall l p, lkey (upd l p) = lkey l) ->
  forall fuel h i p h', walk_down l_parent l_child l_sibl upd par fuel h i p = Some h' -> map lkey h' = map lkey h.
Proof.
  intros K. assert (SN : forall h i l x, nth_error h i = Some l -> lkey x = lkey l -> map lkey (set_nth i x h) = map lkey h).
  { induction h as [|a h IH]; intros [|i] l x H Q; cbn in *; try discriminate; [injection H as <-; congruence|f_equal; eauto]. }
  induction fuel as [|k IH]; intros h i p h' H; [discriminate|]. cbn [walk_down] in H.
  destruct (nth_error h i) as [l|] eqn:Hl; [|discriminate]. pose proof (SN h i l (upd l p) Hl (K l p)) as S1.
  destruct (match l_child (upd l p) with Some _ => _ | None => _ end) as [h2|] eqn:H2; [|discriminate].
  assert (S2 : map lkey h2 = map lkey h).
  { destruct (l_child (upd l p)); [apply IH in H2; congruence|congruence]. }
  destruct (nth_error h2 i) as [l2|]; [|discriminate]. destruct (l_sibl l2); [|congruence].
  destruct (l_parent l2); [|discriminate]. destruct (nth_error h2 _); [|discriminate]. apply IH in H. congruence.
Qed.
Lemma upd_frame_key l p : lkey (upd_frame l p) = lkey l. Proof. reflexivity. Qed.
Lemma set_all_key set v h h' : set_ok set -> set_all set h v = Some h' -> map lkey h' = map lkey h.
Proof.
  intros [_ T]. revert h'. induction h as [|l h IH]; cbn [set_all]; intros h' H; [injection H as <-; auto|].
  destruct (l_offset l) as [o|] eqn:O.
  - unfold obind in H. destruct (set (l_joint l) (skipn o v)) as [j|] eqn:J; [|discriminate]. destruct (set_all set h v); [|discriminate].
    injection H as <-. cbn [map]. f_equal; auto. unfold lkey. cbn. rewrite O. f_equal. unfold joint_size. now rewrite (T _ _ _ J).
  - destruct (set_all set h v); [|discriminate]. injection H as <-. cbn. f_equal; auto.
Qed.
Lemma set_dis_joints c v c' : chain_set_joint_dis_all c v = Some c' -> same_joints c c'.
Proof.
  unfold chain_set_joint_dis_all. destruct (set_all _ _ _) as [h|] eqn:H; [|discriminate]. intros X; injection X as <-.
  exact (set_all_key _ _ _ _ set_dis_ok H).
Qed.
Lemma update_fk_joints c c' : chain_update_fk c = Some c' -> same_joints c c'.
Proof.
  unfold chain_update_fk, chain_update_frame, chain_lift, update_frame. destruct (walk_down _ _ _ _ _ _ _ _) as [h|] eqn:H; [|discriminate].
  intros X; injection X as <-. unfold same_joints. cbn. exact (walk_down_key _ _ upd_frame_key _ _ _ _ _ H).
Qed.
Lemma same_joints_refl c : same_joints c c. Proof. reflexivity. Qed.
Lemma same_joints_trans a b c : same_joints a b -> same_joints b c -> same_joints a c.
Proof. unfold same_joints. congruence. Qed.
Lemma same_joints_len a b : same_joints a b -> length (c_links b) = length (c_links a).
Proof. intros H. apply (f_equal (@length _)) in H. now rewrite !map_length in H. Qed.
Lemma same_joints_nth a b i l : same_joints a b -> nth_error (c_links a) i = Some l ->
  exists l', nth_error (c_links b) i = Some l' /\ lkey l' = lkey l.
Proof.
  intros H Hl. assert (X : nth_error (map lkey (c_links b)) i = Some (lkey l)) by (rewrite H, nth_error_map, Hl; auto).
  rewrite nth_error_map in X. destruct (nth_error (c_links b) i) as [l'|]; [|discriminate]. exists l'. split; [auto|]. cbn in X. congruence.
Qed.
Lemma same_joints_size a b i : same_joints a b -> size_at b i = size_at a i.
Proof.
  intros H. unfold size_at. destruct (nth_error (c_links a) i) as [l|] eqn:Hl.
  - destruct (same_joints_nth a b i l H Hl) as (l' & -> & K). unfold lkey in K. congruence.
  - apply nth_error_None in Hl. rewrite <- (same_joints_len a b H) in Hl. apply nth_error_None in Hl. now rewrite Hl.
Qed.
Lemma movable_size (c : chain F) i : movable c i = Nat.ltb 0 (size_at c i).
Proof. unfold movable, size_at. destruct (nth_error (c_links c) i); reflexivity. Qed.
Lemma same_joints_movable a b i : same_joints a b -> movable b i = movable a i.
Proof. intros H. now rewrite !movable_size, (same_joints_size a b i H). Qed.
Lemma map_key_total (h : list lk) : total h = fold_right Nat.add 0 (map fst (map lkey h)).
Proof. induction h as [|l h IH]; [reflexivity|]. change (total (l :: h)) with (lsize l + total h). rewrite IH. reflexivity. Qed.
Lemma same_joints_total a b : same_joints a b -> chain_joint_size b = chain_joint_size a.
Proof. intros H. rewrite !chain_joint_size_total, !map_key_total. now rewrite H. Qed.
Lemma placed_key (h h' : list lk) : map lkey h' = map lkey h -> forall s, placed s h -> placed s h'.
Proof.
  revert h'. induction h as [|l h IH]; intros [|l' h'] H s P; cbn in H; try discriminate; [exact P|].
  injection H as H1 H2 H3. apply placed_cons in P as [A B]. apply placed_cons. unfold lsize in *. rewrite H1, H2. split; auto.
Qed.
Lemma same_joints_wanted a b (f : nat -> option F) : same_joints a b -> wanted b f = wanted a f.
Proof.
  intros H. unfold wanted. rewrite (same_joints_len a b H). apply filter_ext. intros i. now rewrite (same_joints_movable a b i H).
Qed.

(** ** Switches, index, offsets and weights *)
Lemma sw_index_map (g : nat -> bool) n : forall k, sw_index k (map g (seq k n)) = filter g (seq k n).
Proof. induction n as [|n IH]; intros k; cbn; [auto|]. rewrite IH. destruct (g k); auto. Qed.
Lemma fix_sw_map (h : list lk) (mov g : nat -> bool) : forall k,
  (forall i l, nth_error h i = Some l -> mov (k + i) = Nat.ltb 0 (joint_size (l_joint l))) ->
  fix_sw h (map g (seq k (length h))) = map (fun i => mov i && g i) (seq k (length h)).
Proof.
  induction h as [|l h IH]; intros k H; cbn [length seq map fix_sw]; [auto|]. f_equal.
  - specialize (H 0 l eq_refl). rewrite Nat.add_0_r in H. rewrite H. destruct (joint_size (l_joint l)); reflexivity.
  - apply IH. intros i x Hx. specialize (H (S i) x Hx). now rewrite <- plus_n_Sm in H.
Qed.
Definition sum_sizes (sz : nat -> nat) (l : list nat) : nat := fold_right Nat.add 0 (map sz l).
Lemma sw_ofs_map (h : list lk) (sz : nat -> nat) (g : nat -> bool) : forall k o,
  (forall i l, nth_error h i = Some l -> sz (k + i) = joint_size (l_joint l)) ->
  sw_ofs o h (map g (seq k (length h))) =
  map (fun i => if g i then Some (o + sum_sizes sz (filter g (seq k (i - k)))) else None) (seq k (length h)).
Proof.
  induction h as [|l h IH]; intros k o H; cbn [length seq map sw_ofs]; [auto|].
  pose proof (H 0 l eq_refl) as H0. rewrite Nat.add_0_r in H0.
  assert (H1 : forall i x, nth_error h i = Some x -> sz (S k + i) = joint_size (l_joint x)).
  { intros i x Hx. specialize (H (S i) x Hx). now rewrite <- plus_n_Sm in H. }
  rewrite Nat.sub_diag. cbn [seq filter]. destruct (g k) eqn:G; f_equal.
  - unfold sum_sizes. cbn. now rewrite Nat.add_0_r.
  - rewrite IH by exact H1. apply map_ext_in. intros i Hi. apply in_seq in Hi. replace (i - k) with (S (i - S k)) by lia.
    cbn [seq filter]. rewrite G. unfold sum_sizes. cbn. fold (sum_sizes sz (filter g (seq (S k) (i - S k)))). rewrite <- H0. destruct (g i); [f_equal; lia|auto].
  - rewrite IH by exact H1. apply map_ext_in. intros i Hi. apply in_seq in Hi. replace (i - k) with (S (i - S k)) by lia.
    cbn [seq filter]. rewrite G. auto.
Qed.
Lemma index_size_sum (c : chain F) idx : (forall i, In i idx -> i < length (c_links c)) -> chain_index_size (c_links c) idx = Some (sum_sizes (size_at c) idx).
Proof.
  induction idx as [|i idx IH]; intros H; [reflexivity|]. cbn [chain_index_size]. unfold sum_sizes. cbn [map fold_right]. fold (sum_sizes (size_at c) idx).
  unfold size_at at 1. destruct (nth_error (c_links c) i) as [l|] eqn:Hl; [|apply nth_error_None in Hl; specialize (H i); cbn in H; lia].
  cbn. rewrite IH; [reflexivity|]. intros j Hj. apply H. now right.
Qed.
Lemma weights_flat (c : chain F) (w : nat -> F) idx : (forall i, In i idx -> i < length (c_links c)) ->
  weights (c_links c) (map w (seq 0 (length (c_links c)))) idx = Some (flat_map (fun i => repeat (w i) (size_at c i)) idx).
Proof.
  induction idx as [|i idx IH]; intros H; [reflexivity|]. cbn [weights flat_map].
  assert (Hi : i < length (c_links c)) by (apply H; now left).
  unfold size_at at 1. destruct (nth_error (c_links c) i) as [l|] eqn:Hl; [|apply nth_error_None in Hl; lia].
  cbn [obind]. rewrite nth_error_map. replace (nth_error (seq 0 (length (c_links c))) i) with (Some i).
  2:{ symmetry. rewrite nth_error_nth' with (d := 0); [|rewrite seq_length; lia]. rewrite seq_nth by lia. auto. }
  cbn. rewrite IH; [reflexivity|]. intros j Hj. apply H. now right.
Qed.

(** ** Invariant *)
Definition wt (f : nat -> option F) (i : nat) : F := match f i with Some w => w | None => 0%num end.
Definition switches (c : chain F) (f : nat -> option F) : list bool :=
  map (fun i => movable c i && some f i) (seq 0 (length (c_links c))).
Definition columns (c : chain F) (f : nat -> option F) : list (option nat) :=
  map (fun i => if movable c i && some f i then Some (wanted_column c f i) else None) (seq 0 (length (c_links c))).
Definition dims (s : solver F) : Prop :=
  s_cells s <> [] -> length (s_cmat s) = length (s_cells s) * 3 /\ Forall (fun r => length r = length (s_jvel s)) (s_cmat s) /\
    length (s_csrv s) = length (s_cells s) * 3 /\ length (s_cwe s) = length (s_cells s) * 3.
Record inv (c : chain F) (f : nat -> option F) (s : solver F) : Prop := mkInv {
  i_sw : s_sw s = switches c f;
  i_wt : s_weight s = map (wt f) (seq 0 (length (c_links c)));
  i_vel : length (s_vel s) = chain_joint_size c;
  i_idx : wanted c f <> [] -> s_jidx s = Some (wanted c f) /\ s_jofs s = columns c f /\ s_wn s = wanted_weights c f;
  i_null : s_jidx s = None -> s_cells s = [];
  i_stale : forall idx, s_jidx s = Some idx -> idx <> [] /\ (forall i, In i idx -> movable c i = true) /\ NoDup idx /\
    length (s_jvel s) = sum_sizes (size_at c) idx /\ length (s_wn s) = length (s_jvel s);
  i_dims : dims s }.

Lemma inv_same_joints c c' f s : same_joints c c' -> inv c f s -> inv c' f s.
Proof.
  intros H [A B C D G S M]. pose proof (same_joints_len c c' H) as L.
  assert (Z : forall i, size_at c' i = size_at c i) by (intros; now apply same_joints_size).
  assert (V : forall i, movable c' i = movable c i) by (intros; now apply same_joints_movable).
  constructor; auto.
  - rewrite A. unfold switches. rewrite L. apply map_ext. intros i. now rewrite V.
  - now rewrite L.
  - rewrite C. symmetry. now apply same_joints_total.
  - rewrite (same_joints_wanted c c' f H). intros W. destruct (D W) as (D1 & D2 & D3). repeat split; auto.
    + rewrite D2. unfold columns. rewrite L. apply map_ext. intros i. rewrite V. unfold wanted_column. rewrite (same_joints_wanted c c' f H).
      destruct (movable c i && _); [|auto]. do 2 f_equal. apply map_ext. auto.
    + rewrite D3. unfold wanted_weights. rewrite (same_joints_wanted c c' f H). apply flat_map_ext. intros i. now rewrite Z.
  - intros idx Hi. destruct (S idx Hi) as (S1 & S2 & S3 & S4 & S5). split; [exact S1|]. split; [intros i Hin; rewrite V; auto|]. split; [exact S3|]. split; [|exact S5].
    rewrite S4. unfold sum_sizes. f_equal. apply map_ext. auto.
Qed.

Lemma create_inv c : inv c (fun _ => None) (ik_create c).
Proof.
  constructor; cbn -[seq].
  - unfold switches. rewrite (repeat_map_seq false _ 0). apply map_ext. intros i. now rewrite andb_false_r.
  - unfold zeros. rewrite (repeat_map_seq 0%num _ 0). apply map_ext. reflexivity.
  - unfold zeros. now rewrite repeat_length.
  - intros H. exfalso. apply H. unfold wanted. induction (seq 0 (length (c_links c))) as [|i l IH]; [auto|]. cbn. rewrite andb_false_r. auto.
  - auto.
  - discriminate.
  - intros H. now exfalso.
Qed.
Lemma wanted_lt (c : chain F) (f : nat -> option F) i : In i (wanted c f) -> i < length (c_links c) /\ movable c i = true /\ some f i = true.
Proof. unfold wanted. rewrite filter_In, in_seq, andb_true_iff. intros [A [B C]]. repeat split; auto; lia. Qed.
Lemma wanted_column_sum (c : chain F) (f : nat -> option F) i : i <= length (c_links c) -> wanted_column c f i = sum_sizes (size_at c) (filter (fun k => movable c k && some f k) (seq 0 i)).
Proof.
  intros H. unfold wanted_column, wanted, sum_sizes. do 2 f_equal.
  replace (length (c_links c)) with (i + (length (c_links c) - i)) by lia. rewrite seq_app, !filter_app.
  assert (X : forall (g : nat -> bool) l, filter (fun k => Nat.ltb k i) (filter g l) = filter g (filter (fun k => Nat.ltb k i) l)).
  { intros g l. induction l as [|a l IH]; cbn [filter]; [auto|]. destruct (g a) eqn:G; cbn [filter]; destruct (Nat.ltb a i); cbn [filter]; rewrite ?G, ?IH; auto. }
  rewrite !X.
  assert (Y : forall l, (forall a, In a l -> a < i) -> filter (fun k => Nat.ltb k i) l = l).
  { induction l as [|a l IH]; intros K; cbn [filter]; [auto|]. rewrite (proj2 (Nat.ltb_lt a i)) by (apply K; now left). f_equal. apply IH. intros; apply K; now right. }
  assert (Z : forall l, (forall a, In a l -> i <= a) -> filter (fun k => Nat.ltb k i) l = []).
  { induction l as [|a l IH]; intros K; cbn [filter]; [auto|]. rewrite (proj2 (Nat.ltb_ge a i)) by (apply K; now left). apply IH. intros; apply K; now right. }
  rewrite Y by (intros a Ha; apply in_seq in Ha; lia). rewrite (Z (seq (0 + i) _)) by (intros a Ha; apply in_seq in Ha; lia). cbn. now rewrite app_nil_r.
Qed.
Lemma flat_length {A} (g : nat -> list A) sz l : (forall i, In i l -> length (g i) = sz i) -> length (flat_map g l) = sum_sizes sz l.
Proof.
  induction l as [|i l IH]; intros H; [reflexivity|]. cbn. rewrite app_length, IH by (intros; apply H; now right). rewrite (H i) by now left. reflexivity.
Qed.
Lemma wanted_weights_wt (c : chain F) (f : nat -> option F) : wanted_weights c f = flat_map (fun i => repeat (wt f i) (size_at c i)) (wanted c f).
Proof.
  unfold wanted_weights, wt. assert (H : forall i, In i (wanted c f) -> some f i = true) by (intros i Hi; apply wanted_lt in Hi; tauto).
  induction (wanted c f) as [|i l IH]; [reflexivity|]. cbn. rewrite IH by (intros; apply H; now right). specialize (H i (or_introl eq_refl)). destruct (f i); [auto|discriminate].
Qed.


(** Allocation of the constraint matrix. *)
Lemma alloc_cmat_some (s : solver F) : (s_cells s <> [] -> s_jidx s <> None) -> (forall idx, s_jidx s = Some idx -> idx <> []) ->
  alloc_cmat s = Some (if Nat.eqb (length (s_cells s)) 0 then s else s_set_cmat (repeat (zeros (length (s_jvel s))) (length (s_cells s) * 3)) s).
Proof.
  intros A B. unfold alloc_cmat. destruct (s_cells s) as [|x l]; [reflexivity|]. destruct (s_jidx s) as [idx|]; [|exfalso; apply A; [discriminate|auto]].
  cbn [obind]. destruct idx as [|i idx]; [exfalso; eapply B; eauto|]. reflexivity.
Qed.
Lemma Forall_repeat {A} (P : A -> Prop) x n : P x -> Forall P (repeat x n).
Proof. intros H. induction n; cbn; constructor; auto. Qed.

Lemma alloc_index_inv c f (s : solver F) (b : nat -> bool) :
  s_sw s = map b (seq 0 (length (c_links c))) -> (forall i, movable c i && b i = movable c i && some f i) ->
  s_weight s = map (wt f) (seq 0 (length (c_links c))) -> length (s_vel s) = chain_joint_size c -> 
  (s_jidx s = None -> s_cells s = []) ->
  (forall idx, s_jidx s = Some idx -> idx <> [] /\ (forall i, In i idx -> movable c i = true) /\ NoDup idx /\
    length (s_jvel s) = sum_sizes (size_at c) idx /\ length (s_wn s) = length (s_jvel s)) ->
  dims s -> exists s', alloc_index c s = Some s' /\ inv c f s' /\ s_cells s' = s_cells s.
Proof.
  intros Hs Hb Hw Hv Hn Hst Hd. set (n := length (c_links c)) in *.
  assert (Mv : forall i l, nth_error (c_links c) i = Some l -> movable c (0 + i) = Nat.ltb 0 (joint_size (l_joint l))).
  { intros i l Hl. unfold movable. cbn. now rewrite Hl. }
  assert (Sz : forall i l, nth_error (c_links c) i = Some l -> size_at c (0 + i) = joint_size (l_joint l)).
  { intros i l Hl. unfold size_at. cbn. now rewrite Hl. }
  assert (FS : fix_sw (c_links c) (s_sw s) = switches c f).
  { rewrite Hs. unfold n. rewrite (fix_sw_map (c_links c) (movable c) b 0 Mv). apply map_ext. exact Hb. }
  unfold alloc_index. rewrite FS. cbv zeta.
  assert (IX : sw_index 0 (switches c f) = wanted c f) by (apply (sw_index_map (fun i => movable c i && some f i))).
  rewrite IX. destruct (wanted c f) as [|i0 t] eqn:W.
  - eexists. split; [reflexivity|]. split; [|reflexivity]. constructor; cbn; auto. intros K. now rewrite W in K.
  - rewrite <- W in *. assert (R : forall i, In i (wanted c f) -> i < length (c_links c)) by (intros i Hi; apply wanted_lt in Hi; tauto).
    rewrite (index_size_sum c (wanted c f) R). cbn [obind]. rewrite Hw. unfold n. rewrite (weights_flat c (wt f) (wanted c f) R). cbn [obind].
    rewrite <- wanted_weights_wt.
    assert (OF : sw_ofs 0 (c_links c) (switches c f) = columns c f).
    { unfold switches, columns. rewrite (sw_ofs_map (c_links c) (size_at c) (fun i => movable c i && some f i) 0 0 Sz). apply map_ext_in.
      intros i Hi. apply in_seq in Hi. rewrite Nat.sub_0_r. rewrite (wanted_column_sum c f i) by lia. reflexivity. }
    rewrite OF. set (s1 := IK _ _ _ _ _ _ _ _ _ _ _ _ _).
    assert (Wne : wanted c f <> []) by (rewrite W; discriminate).
    rewrite (alloc_cmat_some s1) by (cbn; first [intros _; discriminate | intros idx K; injection K as <-; exact Wne]).
    eexists. split; [reflexivity|].
    assert (Lw : length (wanted_weights c f) = sum_sizes (size_at c) (wanted c f)).
    { rewrite wanted_weights_wt. apply flat_length. intros. apply repeat_length. }
    assert (Lz : forall k, length (zeros k : list F) = k) by (intros; apply repeat_length).
    assert (Nd : NoDup (wanted c f)) by (apply NoDup_filter, seq_NoDup).
    split; [|destruct (Nat.eqb _ 0); reflexivity].
    destruct (Nat.eqb_spec (length (s_cells s1)) 0) as [Z|Z]; constructor; cbn; auto; try discriminate;
      try (rewrite Lz; intros idx K; assert (idx = wanted c f) by congruence; subst idx; split; [exact Wne|]; split; [intros i Hi; apply wanted_lt in Hi; tauto|]; auto).
    + intros K. cbn in Z. destruct (s_cells s); [easy|discriminate].
    + intros K. cbn. destruct (Hd K) as (D1 & D2 & D3 & D4). rewrite repeat_length. repeat split; auto. apply Forall_repeat. apply repeat_length.
Qed.

Lemma inv_jreg c f (s : solver F) i w b (g : nat -> option F) : inv c f s -> i < length (c_links c) ->
  (forall k, k <> i -> g k = f k) -> some g i = b -> wt g i = w ->
  exists s', joint_reg_sw c s i b w = Some (s', true) /\ inv c g s' /\ s_cells s' = s_cells s.
Proof.
  intros [A B C D G S M] Hi Hg Hb Hw. unfold joint_reg_sw. rewrite (proj2 (Nat.ltb_lt _ _) Hi).
  destruct (alloc_index_inv c g (IK (set_nth i b (s_sw s)) (set_nth i w (s_weight s)) (s_vel s) (s_eval s) (s_cells s) (s_jidx s) (s_jofs s) (s_jvel s) (s_wn s) (s_cmat s) (s_csrv s) (s_cwe s) (s_rows s))
    (fun k => if Nat.eqb k i then b else movable c k && some f k)) as (s' & E1 & E2 & E3); cbn; auto.
  - rewrite A. unfold switches. rewrite set_nth_map by exact Hi. reflexivity.
  - intros k. destruct (Nat.eqb_spec k i) as [->|ne]; [now rewrite <- Hb|]. rewrite (Hg k ne). destruct (movable c k); reflexivity.
  - rewrite B, set_nth_map by exact Hi. apply map_ext. intros k. cbn. destruct (Nat.eqb_spec k i) as [->|ne]; [auto|]. unfold wt. now rewrite (Hg k ne).
  - rewrite E1. cbn. eauto.
Qed.
Lemma inv_ext c f g (s : solver F) : (forall i, i < length (c_links c) -> f i = g i) -> inv c f s -> inv c g s.
Proof.
  intros H [A B C D G S M].
  assert (W : wanted c g = wanted c f).
  { unfold wanted. apply filter_ext_in. intros i Hi. apply in_seq in Hi. now rewrite H by lia. }
  assert (Wi : forall i, In i (wanted c f) -> f i = g i) by (intros i Hi; apply wanted_lt in Hi; apply H; tauto).
  constructor; auto.
  - rewrite A. unfold switches. apply map_ext_in. intros i Hi. apply in_seq in Hi. now rewrite H by lia.
  - rewrite B. apply map_ext_in. intros i Hi. apply in_seq in Hi. unfold wt. now rewrite H by lia.
  - rewrite W. intros K. destruct (D K) as (D1 & D2 & D3). repeat split; auto.
    + rewrite D2. unfold columns. apply map_ext_in. intros i Hi. apply in_seq in Hi. rewrite (H i) by lia. unfold wanted_column. rewrite W. reflexivity.
    + rewrite D3. unfold wanted_weights. rewrite W. clear - Wi. induction (wanted c f) as [|i l IH]; [reflexivity|]. cbn. rewrite IH by (intros; apply Wi; now right).
      now rewrite (Wi i) by now left.
Qed.
Lemma inv_reg_all c w : forall h i f (s : solver F), (forall k, nth_error (c_links c) (i + k) = nth_error h k) -> i + length h = length (c_links c) -> inv c f s ->
  exists s', reg_all c w s i h = Some (s', true) /\ s_cells s' = s_cells s /\
    inv c (fun k => if Nat.leb i k && movable c k && Nat.ltb k (length (c_links c)) then Some w else f k) s'.
Proof.
  induction h as [|l h IH]; intros i f s Hh Hn Hi; cbn [reg_all].
  - exists s. split; [auto|]. split; [auto|]. eapply inv_ext; [|exact Hi]. intros k Hk. cbn in Hn. rewrite (proj2 (Nat.leb_gt i k)) by lia. reflexivity.
  - pose proof (Hh 0) as H0. rewrite Nat.add_0_r in H0. cbn in H0.
    assert (Hh' : forall k, nth_error (c_links c) (S i + k) = nth_error h k) by (intros k; specialize (Hh (S k)); rewrite <- plus_n_Sm in Hh; exact Hh).
    assert (Hi' : i < length (c_links c)) by (cbn in Hn; lia).
    assert (Mi : movable c i = Nat.ltb 0 (joint_size (l_joint l))) by (unfold movable; now rewrite H0).
    cbn [length] in Hn. destruct (Nat.ltb 0 (joint_size (l_joint l))) eqn:Q.
    + destruct (inv_jreg c f s i w true (fun k => if Nat.eqb k i then Some w else f k) Hi Hi') as (s1 & E1 & E2 & E3).
      { intros k ne. now rewrite (proj2 (Nat.eqb_neq k i) ne). } { now rewrite Nat.eqb_refl. } { unfold wt. now rewrite Nat.eqb_refl. }
      unfold joint_reg. rewrite E1. cbn [obind fst snd]. destruct (IH (S i) _ s1 Hh' ltac:(lia) E2) as (s2 & F1 & F2 & F3).
      exists s2. split; [exact F1|]. split; [congruence|]. eapply inv_ext; [|exact F3]. intros k Hk. cbn beta.
      rewrite (proj2 (Nat.ltb_lt k _) Hk), !andb_true_r. destruct (Nat.eqb_spec k i) as [->|ne].
      * rewrite Nat.leb_refl, Mi, andb_true_r. destruct (Nat.leb (S i) i); reflexivity.
      * destruct (Nat.leb_spec (S i) k), (Nat.leb_spec i k); try lia; reflexivity.
    + destruct (IH (S i) f s Hh' ltac:(lia) Hi) as (s2 & F1 & F2 & F3). exists s2. split; [exact F1|]. split; [exact F2|].
      eapply inv_ext; [|exact F3]. intros k Hk. cbn beta. destruct (Nat.eq_dec k i) as [->|ne].
      * rewrite Mi, !andb_false_r. reflexivity.
      * destruct (Nat.leb_spec (S i) k), (Nat.leb_spec i k); try lia; reflexivity.
Qed.
End Index.
