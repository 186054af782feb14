(** * Link_Proofs: link trees. *)
From Coq Require Import List Arith Lia Permutation.
From Verif Require Import Num Vec Joint_Model Body_Model Tree Tree_Proofs Link_Model Link_Spec.
Import ListNotations.

(** ** Forest operations *)
Fixpoint fapp (f g : forest) : forest :=
  match f with FNil => g | FCons i k r => FCons i k (fapp r g) end.
Fixpoint find_kids (f : forest) (i : nat) : option forest :=
  match f with
  | FNil => None
  | FCons j k r => if Nat.eqb i j then Some k
                   else match find_kids k i with Some x => Some x | None => find_kids r i end
  end.
Fixpoint graft (i : nat) (t : forest) (f : forest) : forest :=
  match f with
  | FNil => FNil
  | FCons j k r => if Nat.eqb i j then FCons j (fapp k t) r else FCons j (graft i t k) (graft i t r)
  end.
(** Remove the root [c]. *)
Fixpoint prune (c : nat) (f : forest) : forest :=
  match f with
  | FNil => FNil
  | FCons j k r => if Nat.eqb c j then r else FCons j k (prune c r)
  end.
Fixpoint root_kids (f : forest) (c : nat) : option forest :=
  match f with
  | FNil => None
  | FCons j k r => if Nat.eqb c j then Some k else root_kids r c
  end.

Lemma ids_fapp f g : ids (fapp f g) = ids f ++ ids g.
Proof. induction f; simpl; auto. rewrite IHf2, app_assoc. auto. Qed.
Lemma roots_fapp f g : roots (fapp f g) = roots f ++ roots g.
Proof. induction f; simpl; auto. rewrite IHf2. auto. Qed.
Lemma find_kids_in f i : In i (ids f) -> exists k, find_kids f i = Some k.
Proof.
  induction f as [|j k IHk r IHr]; simpl; [tauto|]. intros [->|H].
  - rewrite Nat.eqb_refl. eauto.
  - destruct (Nat.eqb i j); eauto. apply in_app_or in H as [H|H].
    + destruct (IHk H) as [x ->]. eauto.
    + destruct (find_kids k i); eauto.
Qed.
Lemma find_kids_sub f i k : find_kids f i = Some k -> In i (ids f) /\ (forall j, In j (ids k) -> In j (ids f)).
Proof.
  revert k. induction f as [|j k0 IHk r IHr]; simpl; intros k H; [discriminate|].
  destruct (Nat.eqb_spec i j) as [->|NE].
  - injection H as <-. split; auto. intros; right; apply in_or_app; auto.
  - destruct (find_kids k0 i) eqn:G.
    + injection H as <-. destruct (IHk _ eq_refl). split; [|intros]; right; apply in_or_app; auto.
    + destruct (IHr _ H). split; [|intros]; right; apply in_or_app; auto.
Qed.
Lemma find_kids_none f i : ~ In i (ids f) -> find_kids f i = None.
Proof. intro H. destruct (find_kids f i) eqn:G; auto. apply find_kids_sub in G. tauto. Qed.
Lemma graft_notin i t f : ~ In i (ids f) -> graft i t f = f.
Proof.
  induction f as [|j k IHk r IHr]; simpl; intros H; auto.
  destruct (Nat.eqb_spec i j) as [->|NE]; [exfalso; auto|].
  rewrite IHk, IHr; auto; intro; apply H; right; apply in_or_app; auto.
Qed.
Lemma graft_perm i t f : In i (ids f) -> NoDup (ids f) -> Permutation (ids (graft i t f)) (ids f ++ ids t).
Proof.
  induction f as [|j k IHk r IHr]; simpl; intros H ND; [tauto|].
  destruct (nodup_split _ j k r eq_refl ND) as (N1 & N2 & N3 & N4 & N5).
  destruct (Nat.eqb_spec i j) as [->|NE].
  - simpl. constructor. rewrite ids_fapp, <- !app_assoc. apply Permutation_app_head, Permutation_app_comm.
  - simpl. constructor. destruct H as [H|H]; [congruence|]. apply in_app_or in H as [H|H].
    + rewrite (graft_notin i t r) by auto. rewrite (IHk H N3). rewrite <- !app_assoc.
      apply Permutation_app_head, Permutation_app_comm.
    + rewrite (graft_notin i t k) by (intro; eapply N5; eauto). rewrite (IHr H N4). rewrite app_assoc. auto.
Qed.
Lemma roots_graft i t f : roots (graft i t f) = roots f.
Proof. induction f as [|j k IHk r IHr]; simpl; auto. destruct (Nat.eqb i j); simpl; congruence. Qed.
Lemma prune_perm c f k : root_kids f c = Some k -> Permutation (ids f) (ids (FCons c k FNil) ++ ids (prune c f)).
Proof.
  revert k. induction f as [|j k0 IHk r IHr]; simpl; intros k H; [discriminate|].
  destruct (Nat.eqb_spec c j) as [->|NE].
  - injection H as <-. constructor. rewrite app_nil_r. auto.
  - simpl. rewrite (IHr _ H). simpl. rewrite app_nil_r.
    rewrite <- Permutation_middle. rewrite (perm_swap c j). constructor.
    rewrite <- Permutation_middle. constructor.
    rewrite !app_assoc. apply Permutation_app_tail, Permutation_app_comm.
Qed.
Lemma root_kids_in f c : In c (roots f) -> exists k, root_kids f c = Some k.
Proof.
  induction f as [|j k IHk r IHr]; simpl; [tauto|]. intros [->|H]; [rewrite Nat.eqb_refl; eauto|].
  destruct (Nat.eqb c j); eauto.
Qed.
Lemma prune_roots c f : NoDup (roots f) -> forall j, In j (roots (prune c f)) <-> (In j (roots f) /\ j <> c).
Proof.
  induction f as [|i k IHk r IHr]; simpl; intros ND j; [tauto|].
  apply NoDup_cons_iff in ND as [N1 N2]. destruct (Nat.eqb_spec c i) as [->|NE].
  - split. intro; split; auto; intros ->; auto. intros [[H|H] H0]; auto; congruence.
  - simpl. rewrite IHr; auto. split; [intros [->|[]]; auto | intros [[->|H] H0]; auto].
Qed.
Lemma nodup_roots f : NoDup (ids f) -> NoDup (roots f).
Proof.
  induction f as [|j k IHk r IHr]; simpl; intros ND; [constructor|].
  destruct (nodup_split _ j k r eq_refl ND) as (N1 & N2 & N3 & N4 & N5).
  constructor; auto. intro; apply N2. apply roots_ids; auto.
Qed.
(** Children of [p] in [f]. *)
Definition kids_of (f : forest) (p : nat) : list nat := match find_kids f p with Some k => roots k | None => [] end.

Lemma find_kids_fapp f g i : find_kids (fapp f g) i = match find_kids f i with Some k => Some k | None => find_kids g i end.
Proof.
  induction f as [|j k IHk r IHr]; simpl; auto.
  destruct (Nat.eqb i j); auto. rewrite IHr. destruct (find_kids k i); auto.
Qed.
Lemma find_kids_graft i t f p : NoDup (ids f) -> (forall j, In j (ids f) -> ~ In j (ids t)) -> In i (ids f) ->
  p <> i ->
  match find_kids (graft i t f) p with Some k => roots k | None => [] end
  = match find_kids f p with Some k => roots k | None => match find_kids t p with Some k => roots k | None => [] end end.
Proof.
  induction f as [|j k IHk r IHr]; simpl; intros ND DJ I NE; [tauto|].
  destruct (nodup_split _ j k r eq_refl ND) as (N1 & N2 & N3 & N4 & N5).
  destruct (Nat.eqb_spec i j) as [->|NE2].
  - simpl. destruct (Nat.eqb_spec p j); [congruence|]. rewrite find_kids_fapp.
    destruct (find_kids k p); auto. destruct (find_kids t p) eqn:T; auto.
    + rewrite find_kids_none; auto. intro. apply (DJ p); [right; apply in_or_app; auto|].
      apply find_kids_sub in T; tauto.
  - simpl. destruct (Nat.eqb_spec p j).
    + subst. rewrite roots_graft. auto.
    + destruct I as [I|I]; [congruence|]. apply in_app_or in I as [I|I].
      * rewrite (graft_notin i t r) by auto.
        assert (DJ' : forall m, In m (ids k) -> ~ In m (ids t)) by (intros; apply DJ; right; apply in_or_app; auto).
        specialize (IHk N3 DJ' I NE).
        destruct (find_kids k p) eqn:K.
        -- destruct (find_kids (graft i t k) p) eqn:G; [auto|].
           exfalso. apply find_kids_sub in K. destruct K as [K _].
           assert (In p (ids (graft i t k))) by (eapply Permutation_in; [symmetry; apply graft_perm; auto|]; apply in_or_app; auto).
           apply find_kids_in in H as [x Hx]. congruence.
        -- destruct (find_kids r p) eqn:R.
           ++ assert (find_kids t p = None) as T.
              { apply find_kids_none. intro. apply (DJ p); auto. right; apply in_or_app; right. apply find_kids_sub in R; tauto. }
              rewrite find_kids_none; auto. intro H.
              eapply Permutation_in in H; [|apply graft_perm; auto]. apply in_app_or in H as [H|H].
              apply find_kids_in in H as [x Hx]; congruence. apply find_kids_in in H as [x Hx]; congruence.
           ++ destruct (find_kids (graft i t k) p) eqn:G; auto.
      * rewrite (graft_notin i t k) by (intro; eapply N5; eauto).
        destruct (find_kids k p) eqn:K; auto. apply IHr; auto. intros; apply DJ; right; apply in_or_app; auto.
Qed.
Lemma find_kids_graft_same i t f k : NoDup (ids f) -> find_kids f i = Some k -> find_kids (graft i t f) i = Some (fapp k t).
Proof.
  induction f as [|j k0 IHk r IHr]; simpl; intros ND H; [discriminate|].
  destruct (nodup_split _ j k0 r eq_refl ND) as (N1 & N2 & N3 & N4 & N5).
  destruct (Nat.eqb_spec i j) as [->|NE]; simpl.
  - rewrite Nat.eqb_refl. congruence.
  - destruct (Nat.eqb_spec i j); [congruence|].
    destruct (find_kids k0 i) eqn:K.
    + rewrite IHk; auto.
    + rewrite (graft_notin i t k0). rewrite K. auto.
      intro X. apply find_kids_in in X as [x Hx]. congruence.
Qed.
Lemma find_kids_prune c f k p : root_kids f c = Some k -> NoDup (ids f) ->
  find_kids f p = if Nat.eqb p c then Some k else match find_kids k p with Some x => Some x | None => find_kids (prune c f) p end.
Proof.
  revert k. induction f as [|j k0 IHk r IHr]; simpl; intros k H ND; [discriminate|].
  destruct (nodup_split _ j k0 r eq_refl ND) as (N1 & N2 & N3 & N4 & N5).
  destruct (Nat.eqb_spec c j) as [->|NE].
  - injection H as <-. auto.
  - simpl. rewrite (IHr _ H N4).
    assert (PP := prune_perm c r k H).
    assert (SUB : forall m, In m (c :: ids k) -> In m (ids r)).
    { intros m Hm. eapply Permutation_in; [symmetry; exact PP|]. simpl. rewrite app_nil_r. destruct Hm; auto. right; apply in_or_app; auto. }
    destruct (Nat.eqb_spec p j) as [->|NPJ].
    + destruct (Nat.eqb_spec j c); [congruence|].
      rewrite (find_kids_none k j); auto. intro; apply N2, SUB; simpl; auto.
    + destruct (find_kids k0 p) eqn:K0; auto.
      apply find_kids_sub in K0 as [K0 _].
      destruct (Nat.eqb_spec p c) as [->|]. exfalso; eapply N5; eauto; apply SUB; simpl; auto.
      rewrite (find_kids_none k p); auto. intro; eapply N5; eauto; apply SUB; simpl; auto.
Qed.
Lemma kids_parent f q0 p c : NoDup (ids f) -> In c (kids_of f p) -> parent_in q0 f c (Some p).
Proof.
  unfold kids_of. revert q0. induction f as [|j k IHk r IHr]; simpl; intros q0 ND H; [destruct H|].
  destruct (nodup_split _ j k r eq_refl ND) as (N1 & N2 & N3 & N4 & N5).
  destruct (Nat.eqb_spec p j) as [->|NE].
  - right; left. revert H. clear. induction k as [|a k1 I1 k2 I2]; simpl; [tauto|]. intros [->|H]; auto.
  - destruct (find_kids k p); right; [left|right]; auto.
Qed.
Lemma parent_kids f p c : NoDup (ids f) -> parent_in None f c (Some p) -> In c (kids_of f p).
Proof.
  assert (forall f q0, NoDup (ids f) -> (match q0 with Some z => ~ In z (ids f) | None => True end) ->
          parent_in q0 f c (Some p) -> (q0 = Some p /\ In c (roots f)) \/ In c (kids_of f p)) as X.
  { unfold kids_of. induction f0 as [|j k IHk r IHr]; simpl; intros q0 ND Z H; [destruct H|].
    destruct (nodup_split _ j k r eq_refl ND) as (N1 & N2 & N3 & N4 & N5).
    destruct H as [[-> <-]|[H|H]]; auto.
    - right. destruct (IHk (Some j) N3 N1 H) as [[E R]|R].
      + injection E as ->. rewrite Nat.eqb_refl. auto.
      + destruct (find_kids k p) eqn:K; [|destruct R]. apply find_kids_sub in K as [K _].
        destruct (Nat.eqb_spec p j); [subst; tauto|]. auto.
    - assert (match q0 with Some z => ~ In z (ids r) | None => True end) as Z2 by (destruct q0; auto; intro; apply Z; right; apply in_or_app; auto).
      destruct (IHr q0 N4 Z2 H) as [[E R]|R]; auto.
      right. destruct (find_kids r p) eqn:K; [|destruct R]. pose proof (find_kids_sub _ _ _ K) as [K1 _].
      destruct (Nat.eqb_spec p j); [subst; tauto|]. rewrite (find_kids_none k p); auto. intro; eapply N5; eauto. }
  intros ND H. destruct (X f None ND I H) as [[E _]|R]; [discriminate E|auto].
Qed.

Lemma nodup_find f i k : NoDup (ids f) -> find_kids f i = Some k -> NoDup (ids k) /\ ~ In i (ids k).
Proof.
  revert k. induction f as [|j k0 IHk r IHr]; simpl; intros k NN H; [discriminate|].
  destruct (nodup_split _ j k0 r eq_refl NN) as (N1 & N2 & N3 & N4 & N5).
  destruct (Nat.eqb_spec i j).
  - subst. injection H as <-. auto.
  - destruct (find_kids k0 i); try (injection H as <-); auto.
Qed.

Section LinkProofs.
Context {F : Type}.
Notation lk := (link F).

Lemma lset_refs_frame (h : list lk) i l : forall j, j <> i -> nth_error (lset i l h) j = nth_error h j.
Proof. intros; apply set_nth_other; auto. Qed.

(** rkLinkAddSibl appends to the sibling list. *)
Lemma add_sibl_spec fo : forall fuel (h : list lk) p a b kb lb,
  lrep h p (Some a) fo -> NoDup (ids fo) -> ~ In b (ids fo) -> fsize fo <= fuel ->
  nth_error h b = Some lb -> l_parent lb = p -> l_sibl lb = None -> lrep h (Some b) (l_child lb) kb ->
  (forall j, In j (ids kb) -> ~ In j (ids fo)) -> 
  exists h', add_sibl fuel h a b = Some h' /\ length h' = length h
    /\ lrep h' p (Some a) (fapp fo (FCons b kb FNil))
    /\ (forall j, ~ In j (ids fo) -> nth_error h' j = nth_error h j)
    /\ (forall j l, nth_error h j = Some l -> exists l', nth_error h' j = Some l' /\ same_data l l').
Proof.
  induction fo as [|i k IHk r IHr]; intros fuel h p a b kb lb R ND NB FU Hb Pb Sb Rb DJ; [discriminate R|].
  destruct R as (E & l & Hl & Hp & Hk & Hr). injection E as <-.
  destruct (nodup_split _ a k r eq_refl ND) as (N1 & N2 & N3 & N4 & N5).
  destruct fuel; [simpl in FU; lia|]. cbn [fsize] in FU. cbn [add_sibl]. rewrite Hl.
  destruct (l_sibl l) as [s|] eqn:S.
  - destruct (IHr fuel h p s b kb lb) as (h' & A & B & C & D & D2); auto; try lia.
    + intro; apply NB; right; apply in_or_app; auto.
    + intros j Hj Hj2. apply (DJ j); auto. right; apply in_or_app; auto.
    + exists h'. split; [exact A|]. split; [exact B|]. split; [|split; [|exact D2]].
      * cbn [fapp]. split; auto. exists l. rewrite D by auto. rewrite Hl, S. repeat split; auto.
        eapply rep_frame; [|exact Hk]. intros j Hj. apply D. intro; eapply N5; eauto.
      * intros j Hj. apply D. intro; apply Hj; right; apply in_or_app; auto.
  - destruct r; [|destruct Hr as [X _]; discriminate X].
    exists (lset a (l_set_sibl (Some b) l) h). split; auto.
    assert (E2 : forall j, j <> a -> nth_error (lset a (l_set_sibl (Some b) l) h) j = nth_error h j) by (intros; apply set_nth_other; auto).
    assert (a <> b) by (intro; subst; apply NB; simpl; auto).
    split; [apply set_nth_length|]. split; [|split].
    + cbn [fapp]. split; auto. exists (l_set_sibl (Some b) l).
      split; [apply set_nth_same; eapply nth_lt; eauto|]. split; [auto|]. split.
      * simpl. eapply rep_frame; [|exact Hk]. intros j Hj. apply E2. intro; subst; auto.
      * simpl. split; auto. exists lb. rewrite E2 by auto. repeat split; auto.
        eapply rep_frame; [|exact Rb]. intros j Hj. apply E2. intro; subst; eapply DJ; eauto; simpl; auto.
    + intros j Hj. apply E2. intro; subst; apply Hj; simpl; auto.
    + intros j lj Hj. destruct (Nat.eq_dec j a) as [->|NE].
      * exists (l_set_sibl (Some b) l). split; [apply set_nth_same; eapply nth_lt; eauto|].
        assert (lj = l) by congruence; subst. repeat split; auto.
      * exists lj. rewrite E2; auto. repeat split; auto.
Qed.

Lemma rep_find (h : list lk) p o f i k : lrep h p o f -> find_kids f i = Some k ->
  exists l, nth_error h i = Some l /\ lrep h (Some i) (l_child l) k.
Proof.
  revert p o. induction f as [|j k0 IHk r IHr]; simpl; intros p o R H; [discriminate|].
  destruct R as (-> & l & Hl & Hp & Hk & Hr). destruct (Nat.eqb_spec i j) as [->|].
  - injection H as <-. eauto.
  - destruct (find_kids k0 i) eqn:K; [injection H as <-|]; eauto.
Qed.
Lemma rep_graft (h h' : list lk) i k t l l' f p o :
  lrep h p o f -> NoDup (ids f) -> find_kids f i = Some k ->
  nth_error h i = Some l -> nth_error h' i = Some l' -> l_parent l' = l_parent l -> l_sibl l' = l_sibl l ->
  lrep h' (Some i) (l_child l') (fapp k t) ->
  (forall j, In j (ids f) -> j <> i -> ~ In j (ids k) -> nth_error h' j = nth_error h j) ->
  lrep h' p o (graft i t f).
Proof.
  intros R ND FK Hl Hl' E1 E2 RK FR. revert p o R ND FK FR.
  induction f as [|j k0 IHk r IHr]; simpl; intros p o R ND FK FR; [discriminate|].
  destruct (nodup_split _ j k0 r eq_refl ND) as (N1 & N2 & N3 & N4 & N5).
  destruct R as (-> & lj & Hj & Hp & Hk & Hr). destruct (Nat.eqb_spec i j) as [->|NE].
  - injection FK as ->. simpl. split; auto. exists l'. assert (lj = l) by congruence; subst lj.
    repeat split; auto; try congruence. rewrite E2. eapply rep_frame; [|exact Hr].
    intros m Hm. apply FR. right; apply in_or_app; auto. intro; subst; auto. intro; eapply N5; eauto.
  - simpl. split; auto. exists lj.
    assert (NJ : ~ In j (ids k)).
    { destruct (find_kids k0 i) eqn:K; [injection FK as ->|]; intro X.
      - apply N1. eapply find_kids_sub; eauto.
      - apply N2. eapply find_kids_sub; eauto. }
    rewrite FR by auto. repeat split; auto.
    + destruct (find_kids k0 i) eqn:K.
      * injection FK as ->. apply IHk; auto. intros; apply FR; auto. right; apply in_or_app; auto.
      * rewrite graft_notin by (intro X; apply find_kids_in in X as [x Hx]; congruence).
        eapply rep_frame; [|exact Hk]. intros m Hm. apply FR. right; apply in_or_app; auto.
        { intro; subst; apply find_kids_in in Hm as [x Hx]; congruence. }
        { intro X. apply find_kids_sub in FK as [_ FK]. apply (N5 m); auto. }
    + destruct (find_kids k0 i) eqn:K.
      * injection FK as ->. pose proof (find_kids_sub _ _ _ K) as [K1 K2].
        rewrite graft_notin by (intro; eapply N5; eauto).
        eapply rep_frame; [|exact Hr]. intros m Hm. apply FR.
        { right; apply in_or_app; auto. }
        { intro; subst; apply (N5 i); auto. }
        { intro X; apply K2 in X; apply (N5 m); auto. }
      * apply IHr; auto. intros; apply FR; auto. right; apply in_or_app; auto.
Qed.

(** A wood: every root represented as a tree without parent or sibling. *)
Fixpoint reps (h : list lk) (w : forest) : Prop :=
  match w with
  | FNil => True
  | FCons i k r => (exists l, nth_error h i = Some l /\ l_parent l = None /\ l_sibl l = None /\ lrep h (Some i) (l_child l) k)
                   /\ reps h r
  end.
Lemma reps_ext (h h' : list lk) w : (forall i, In i (ids w) -> nth_error h' i = nth_error h i) -> reps h w -> reps h' w.
Proof.
  induction w as [|i k IHk r IHr]; simpl; auto. intros H [(l & A & B & C & D) R].
  split; [|apply IHr; auto; intros; apply H; right; apply in_or_app; auto].
  exists l. rewrite H by auto. repeat split; auto. eapply rep_frame; [|exact D].
  intros; apply H; right; apply in_or_app; auto.
Qed.
Lemma reps_prune h w c : reps h w -> reps h (prune c w).
Proof. induction w as [|i k IHk r IHr]; simpl; auto. destruct (Nat.eqb c i); simpl; tauto. Qed.
Lemma reps_root h w c k : reps h w -> root_kids w c = Some k ->
  exists l, nth_error h c = Some l /\ l_parent l = None /\ l_sibl l = None /\ lrep h (Some c) (l_child l) k.
Proof.
  induction w as [|i k0 IHk r IHr]; simpl; [discriminate|]. intros [A R] H.
  destruct (Nat.eqb_spec c i) as [->|]; auto. injection H as <-. auto.
Qed.
Lemma reps_find h w i k : reps h w -> find_kids w i = Some k ->
  exists l, nth_error h i = Some l /\ lrep h (Some i) (l_child l) k.
Proof.
  induction w as [|j k0 IHk r IHr]; simpl; [discriminate|].
  intros [(l & A & B & C & D) R] H. destruct (Nat.eqb_spec i j) as [->|]; [injection H as <-; eauto|].
  destruct (find_kids k0 i) eqn:K; auto. injection H as <-. eapply rep_find; eauto.
Qed.
Lemma reps_graft (h h' : list lk) i k t l l' w :
  reps h w -> NoDup (ids w) -> find_kids w i = Some k ->
  nth_error h i = Some l -> nth_error h' i = Some l' -> l_parent l' = l_parent l -> l_sibl l' = l_sibl l ->
  lrep h' (Some i) (l_child l') (fapp k t) ->
  (forall j, In j (ids w) -> j <> i -> ~ In j (ids k) -> nth_error h' j = nth_error h j) ->
  reps h' (graft i t w).
Proof.
  intros R ND FK Hl Hl' E1 E2 RK FR. revert R ND FK FR.
  induction w as [|j k0 IHk r IHr]; simpl; intros R ND FK FR; [discriminate|].
  destruct (nodup_split _ j k0 r eq_refl ND) as (N1 & N2 & N3 & N4 & N5).
  destruct R as ((lj & Hj & Hp & Hs & Hk) & Hr). destruct (Nat.eqb_spec i j) as [->|NE].
  - injection FK as ->. simpl. split.
    + exists l'. assert (lj = l) by congruence; subst lj. repeat split; auto; congruence.
    + apply (reps_ext h); auto. intros m Hm. apply FR. right; apply in_or_app; auto. intro; subst; auto. intro; eapply N5; eauto.
  - simpl.
    assert (NJ : ~ In j (ids k)).
    { destruct (find_kids k0 i) eqn:K; [injection FK as ->|]; intro X.
      - apply N1. eapply find_kids_sub; eauto.
      - apply N2. eapply find_kids_sub; eauto. }
    split.
    + exists lj. rewrite FR by auto. repeat split; auto.
      destruct (find_kids k0 i) eqn:K.
      * injection FK as ->. eapply (rep_graft h h'); eauto. intros; apply FR; auto. right; apply in_or_app; auto.
      * rewrite graft_notin by (intro X; apply find_kids_in in X as [x Hx]; congruence).
        eapply rep_frame; [|exact Hk]. intros m Hm. apply FR. right; apply in_or_app; auto.
        { intro; subst; apply find_kids_in in Hm as [x Hx]; congruence. }
        { intro X. apply find_kids_sub in FK as [_ FK]. apply (N5 m); auto. }
    + destruct (find_kids k0 i) eqn:K.
      * injection FK as ->. pose proof (find_kids_sub _ _ _ K) as [K1 K2].
        rewrite graft_notin by (intro; eapply N5; eauto).
        apply (reps_ext h); auto. intros m Hm. apply FR.
        { right; apply in_or_app; auto. }
        { intro; subst; apply (N5 i); auto. }
        { intro X; apply K2 in X; apply (N5 m); auto. }
      * apply IHr; auto. intros; apply FR; auto. right; apply in_or_app; auto.
Qed.

Lemma add_child_spec (h : list lk) w i c kc :
  reps h w -> NoDup (ids w) -> root_kids w c = Some kc -> In i (ids (prune c w)) ->
  exists h', add_child h i c = Some h' /\ length h' = length h
    /\ reps h' (graft i (FCons c kc FNil) (prune c w))
    /\ (forall j l, nth_error h j = Some l -> exists l', nth_error h' j = Some l' /\ same_data l l').
Proof.
  intros R ND RK I.
  assert (PP := prune_perm c w kc RK).
  assert (NDP : NoDup (ids (FCons c kc FNil) ++ ids (prune c w))) by (eapply Permutation_NoDup; eauto).
  destruct (reps_root _ _ _ _ R RK) as (lc & Hc & Pc & Sc & Kc).
  assert (X : NoDup (ids (FCons c kc FNil)) /\ NoDup (ids (prune c w)) /\ (forall j, In j (ids (FCons c kc FNil)) -> ~ In j (ids (prune c w)))).
  { revert NDP. generalize (ids (FCons c kc FNil)) (ids (prune c w)). clear.
    induction l; simpl; intros b H; [repeat split; auto; constructor|].
    apply NoDup_cons_iff in H as [H1 H2]. destruct (IHl b H2) as (A & B & C).
    repeat split; auto. constructor; auto. intro; apply H1; apply in_or_app; auto.
    intros j [->|Hj]; auto. intro; apply H1; apply in_or_app; auto. }
  destruct X as (NDc & NDp & DJ).
  assert (Cn : forall j, In j (ids (prune c w)) -> j <> c) by (intros j Hj ->; apply (DJ c); simpl; auto).
  unfold add_child. rewrite Hc. cbv zeta.
  set (h1 := lset c (l_set_parent (Some i) lc) h).
  assert (E1 : forall j, j <> c -> nth_error h1 j = nth_error h j) by (intros; apply set_nth_other; auto).
  assert (Ec : nth_error h1 c = Some (l_set_parent (Some i) lc)) by (apply set_nth_same; eapply nth_lt; eauto).
  assert (R1 : reps h1 (prune c w)).
  { apply (reps_ext h); auto. apply reps_prune; auto. }
  destruct (find_kids_in _ _ I) as [k FK].
  destruct (reps_find _ _ _ _ R1 FK) as (l & Hl & Kl).
  assert (K1 : lrep h1 (Some c) (l_child lc) kc).
  { eapply rep_frame; [|exact Kc]. intros j Hj. apply E1. intros ->. simpl in NDc. rewrite app_nil_r in NDc. apply NoDup_cons_iff in NDc. tauto. }
  assert (SD : forall j l, nth_error h j = Some l -> exists l', nth_error h1 j = Some l' /\ same_data l l').
  { intros j lj Hj. destruct (Nat.eq_dec j c) as [->|NE].
    - exists (l_set_parent (Some i) lc). split; auto. assert (lj = lc) by congruence; subst; repeat split; auto.
    - exists lj. rewrite E1; auto. repeat split; auto. }
  destruct (find_kids_sub _ _ _ FK) as [FK1 FK2].
  rewrite Hl. destruct (l_child l) as [f0|] eqn:C.
  - destruct (nodup_find _ _ _ NDp FK) as [NDk Ni].
    assert (SZ : fsize k <= length h).
    { assert (length h1 = length h) as <- by apply set_nth_length. eapply rep_size; [exact Kl|auto]. }
    destruct (add_sibl_spec k (length h) h1 (Some i) f0 c kc (l_set_parent (Some i) lc)) as (h' & A1 & A2 & A3 & A4 & A5); auto.
    + intro X. apply FK2 in X. apply Cn in X; auto.
    + intros j Hj Hj2. apply FK2 in Hj2. apply (DJ j); auto. simpl. right; rewrite app_nil_r; auto.
    + exists h'. split; [exact A1|]. split; [rewrite A2; apply set_nth_length|]. split.
      * apply (reps_graft h1 h' i k _ l l (prune c w)); auto.
        { rewrite A4; auto. }
        { rewrite C. exact A3. }
      * intros j lj Hj. destruct (SD _ _ Hj) as (l1 & G1 & G2). destruct (A5 _ _ G1) as (l2 & G3 & G4).
        exists l2. split; auto. unfold same_data in *. intuition congruence.
  - destruct k; [|destruct Kl as [X _]; discriminate X].
    exists (lset i (l_set_child (Some c) l) h1). split; auto.
    assert (E2 : forall j, j <> i -> nth_error (lset i (l_set_child (Some c) l) h1) j = nth_error h1 j) by (intros; apply set_nth_other; auto).
    assert (Ei : nth_error (lset i (l_set_child (Some c) l) h1) i = Some (l_set_child (Some c) l)) by (apply set_nth_same; eapply nth_lt; eauto).
    split; [unfold lset, h1; rewrite set_nth_length; apply set_nth_length|]. split.
    + apply (reps_graft h1 _ i FNil _ l (l_set_child (Some c) l) (prune c w)); auto.
      simpl. split; auto. exists (l_set_parent (Some i) lc). rewrite E2 by (intro; subst; eapply Cn; eauto).
      rewrite Ec. repeat split; auto. simpl. eapply rep_frame; [|exact K1].
      intros j Hj. apply E2. intros ->. apply (DJ i); auto. simpl; right; rewrite app_nil_r; auto.
    + intros j lj Hj. destruct (SD _ _ Hj) as (l1 & G1 & G2).
      destruct (Nat.eq_dec j i) as [->|NE].
      * exists (l_set_child (Some c) l). split; auto. assert (l1 = l) by congruence; subst.
        unfold same_data in *; simpl; intuition congruence.
      * exists l1. rewrite E2; auto.
Qed.

(** Invariant of a legal history. *)
Definition inv (n : nat) (ops : list (nat * nat)) (h : list lk) (w : forest) : Prop :=
  length h = n /\ reps h w /\ Permutation (ids w) (seq 0 n)
  /\ (forall p, kids_of w p = attached_to ops p)
  /\ (forall c, In c (roots w) <-> (c < n /\ ~ In c (map snd ops))).

Lemma inv_nodup n ops h w : inv n ops h w -> NoDup (ids w).
Proof. intros (_ & _ & P & _). eapply Permutation_NoDup; [symmetry; exact P|apply seq_NoDup]. Qed.
Lemma inv_in n ops h w i : inv n ops h w -> (In i (ids w) <-> i < n).
Proof.
  intros (_ & _ & P & _). split; intro H.
  - eapply Permutation_in in H; [|exact P]. apply in_seq in H. lia.
  - eapply Permutation_in; [symmetry; exact P|]. apply in_seq. lia.
Qed.
Lemma tree_below n ops h w c k i : inv n ops h w -> root_kids w c = Some k -> In i (ids (FCons c k FNil)) -> below ops i c.
Proof.
  intros IV RK I. assert (ND := inv_nodup _ _ _ _ IV).
  assert (PA : forall x q, parent_in None w x (Some q) -> In (q, x) ops).
  { intros x q H. apply parent_kids in H; auto. destruct IV as (_ & _ & _ & K & _). rewrite K in H.
    unfold attached_to in H. apply in_map_iff in H as ([a b] & <- & H). apply filter_In in H as [H E].
    apply Nat.eqb_eq in E. simpl in *. subst. auto. }
  assert (PK : forall x q, parent_in (Some c) k x (Some q) -> In (q, x) ops).
  { intros x q H. apply PA. clear -RK H. generalize (None : option nat). induction w as [|j k0 IHk r IHr]; simpl in *; [discriminate|].
    intro z. destruct (Nat.eqb_spec c j); auto. subst. injection RK as ->. auto. }
  destruct I as [<-|I]; [constructor|]. rewrite app_nil_r in I.
  assert (forall f q, (forall x y, parent_in (Some q) f x (Some y) -> In (y, x) ops) -> below ops q c -> forall x, In x (ids f) -> below ops x c) as G.
  { induction f as [|j k1 I1 k2 I2]; simpl; intros q H B x Hx; [tauto|].
    assert (Bj : below ops j c) by (eapply below_step; [apply H; left; eauto|auto]).
    destruct Hx as [<-|Hx]; auto. apply in_app_or in Hx as [Hx|Hx]; [eapply (I1 j)|eapply (I2 q)]; eauto. }
  eapply G; eauto. constructor.
Qed.
Lemma attached_snoc ops p c q : attached_to (ops ++ [(p, c)]) q = if Nat.eqb p q then attached_to ops q ++ [c] else attached_to ops q.
Proof.
  unfold attached_to. rewrite filter_app, map_app. simpl. destruct (Nat.eqb p q); simpl; auto. apply app_nil_r.
Qed.
Lemma add_child_inv n ops h w p c :
  inv n ops h w -> p < n -> c < n -> ~ In c (map snd ops) -> ~ below ops p c ->
  exists h' w', add_child h p c = Some h' /\ inv n (ops ++ [(p, c)]) h' w'
    /\ (forall j l, nth_error h j = Some l -> exists l', nth_error h' j = Some l' /\ same_data l l').
Proof.
  intros IV Hp Hc NA NB. assert (ND := inv_nodup _ _ _ _ IV).
  pose proof IV as (LEN & R & PM & KD & RT).
  assert (In c (roots w)) as Rc by (apply RT; auto).
  destruct (root_kids_in _ _ Rc) as [kc RK].
  assert (PP := prune_perm c w kc RK).
  assert (Ip : In p (ids (prune c w))).
  { assert (In p (ids w)) as I by (eapply inv_in; eauto). eapply Permutation_in in I; [|exact PP].
    apply in_app_or in I as [I|I]; auto. exfalso. apply NB. eapply tree_below; eauto. }
  destruct (add_child_spec h w p c kc R ND RK Ip) as (h' & A1 & A2 & A3 & A4).
  assert (NDP : NoDup (ids (FCons c kc FNil) ++ ids (prune c w))) by (eapply Permutation_NoDup; eauto).
  assert (X : NoDup (ids (prune c w)) /\ (forall j, In j (ids (prune c w)) -> ~ In j (ids (FCons c kc FNil)))).
  { revert NDP. generalize (ids (FCons c kc FNil)) (ids (prune c w)). clear.
    induction l; simpl; intros b H; [split; auto|].
    apply NoDup_cons_iff in H as [H1 H2]. destruct (IHl b H2) as (A & B).
    split; auto. intros j Hj [->|Hj2]. apply H1; apply in_or_app; auto. eapply B; eauto. }
  destruct X as (NDp & DJ).
  exists h', (graft p (FCons c kc FNil) (prune c w)). split; auto. split; auto. split; [congruence|]. split; [auto|]. split; [|split].
  - rewrite graft_perm by auto. rewrite Permutation_app_comm. rewrite <- PP. auto.
  - intro q. rewrite attached_snoc, <- KD. unfold kids_of at 1.
    assert (FP := fun x => find_kids_prune c w kc x RK ND).
    destruct (Nat.eqb_spec p q) as [->|NE].
    + destruct (find_kids_in _ _ Ip) as [k FK]. rewrite (find_kids_graft_same _ _ _ _ NDp FK), roots_fapp. simpl.
      unfold kids_of. rewrite FP. destruct (Nat.eqb_spec q c) as [->|]; [exfalso; apply (DJ c); simpl; auto|].
      rewrite find_kids_none, FK; auto. intro; apply (DJ q); auto. simpl; rewrite app_nil_r; auto.
    + rewrite find_kids_graft; auto. unfold kids_of. rewrite FP. simpl.
      destruct (find_kids (prune c w) q) eqn:Q.
      * apply find_kids_sub in Q as [Q _]. destruct (Nat.eqb_spec q c) as [->|]; [exfalso; apply (DJ c); simpl; auto|].
        rewrite (find_kids_none kc); auto. intro; apply (DJ q); auto. simpl; rewrite app_nil_r; auto.
      * destruct (Nat.eqb q c); auto; destruct (find_kids kc q); auto.
  - intro j. rewrite roots_graft, prune_roots, RT by (apply nodup_roots; auto).
    rewrite map_app, in_app_iff. simpl. intuition.
Qed.
Lemma legal_inv n ops : forall done h w, legal n done ops -> inv n done h w ->
  exists h' w', add_children h ops = Some h' /\ inv n (done ++ ops) h' w'
    /\ (forall j l, nth_error h j = Some l -> exists l', nth_error h' j = Some l' /\ same_data l l').
Proof.
  induction ops as [|[p c] ops IH]; intros done h w LG IV.
  - exists h, w. rewrite app_nil_r. split; auto. split; auto. intros j l Hj. exists l. split; auto. repeat split; auto.
  - inversion LG; subst. destruct (add_child_inv _ _ _ _ p c IV) as (h1 & w1 & A1 & A2 & A3); auto.
    destruct (IH _ h1 w1 H7 A2) as (h2 & w2 & B1 & B2 & B3).
    exists h2, w2. cbn [add_children]. rewrite A1. simpl. split; auto. rewrite <- app_assoc in B2. split; auto.
    intros j l Hj. destruct (A3 _ _ Hj) as (l1 & C1 & C2). destruct (B3 _ _ C1) as (l2 & C3 & C4).
    exists l2; split; auto. unfold same_data in *; intuition congruence.
Qed.
Fixpoint singles (i n : nat) : forest := match n with O => FNil | S m => FCons i FNil (singles (S i) m) end.
Lemma singles_ids i n : ids (singles i n) = seq i n.
Proof. revert i; induction n; simpl; intros; auto. rewrite IHn; auto. Qed.
Lemma singles_roots i n : roots (singles i n) = seq i n.
Proof. revert i; induction n; simpl; intros; auto. rewrite IHn; auto. Qed.
Lemma singles_kids i n p : kids_of (singles i n) p = [].
Proof. unfold kids_of. revert i; induction n; simpl; intros; auto. destruct (Nat.eqb p i); auto; apply IHn. Qed.
Lemma inv_init (h : list lk) : (forall i l, nth_error h i = Some l -> unattached l) -> inv (length h) [] h (singles 0 (length h)).
Proof.
  intro H. split; auto. split; [|split; [|split]].
  - assert (forall n i, i + n = length h -> reps h (singles i n)) as X.
    { induction n; intros i E; simpl; auto. split; [|apply IHn; lia].
      destruct (nth_error h i) as [l|] eqn:Hl. exists l. destruct (H _ _ Hl) as (A & B & C). auto.
      apply nth_error_None in Hl. lia. }
    apply X; auto.
  - rewrite singles_ids. auto.
  - intro p. rewrite singles_kids. reflexivity.
  - intro c. rewrite singles_roots, in_seq. simpl. intuition lia.
Qed.
Lemma chain_from_rep (h : list lk) f : forall fuel p o, lrep h p o f -> fsize f <= fuel -> chain_from fuel h o = Some (roots f).
Proof.
  induction f as [|i k IHk r IHr]; intros fuel p o R FU.
  - simpl in R. subst. destruct fuel; reflexivity.
  - destruct R as (-> & l & Hl & Hp & Hk & Hr). simpl in FU. destruct fuel; [lia|].
    cbn [chain_from roots]. rewrite Hl, (IHr fuel p (l_sibl l)); auto. lia.
Qed.
Lemma inv_children n ops h w p : inv n ops h w -> p < n -> children h p = Some (attached_to ops p).
Proof.
  intros IV Hp. assert (ND := inv_nodup _ _ _ _ IV). assert (I : In p (ids w)) by (eapply inv_in; eauto).
  destruct IV as (LEN & R & PM & KD & RT).
  destruct (find_kids_in _ _ I) as [k FK]. destruct (reps_find _ _ _ _ R FK) as (l & Hl & Kl).
  unfold children. rewrite Hl. rewrite (chain_from_rep h k _ (Some p)); auto.
  - rewrite <- KD. unfold kids_of. rewrite FK. auto.
  - eapply rep_size; eauto. eapply nodup_find; eauto.
Qed.
Lemma reps_parent_root h w c : reps h w -> In c (roots w) -> exists l, nth_error h c = Some l /\ l_parent l = None /\ l_sibl l = None.
Proof. intros R H. apply root_kids_in in H as [k H]. destruct (reps_root _ _ _ _ R H) as (l & A & B & C & _). eauto. Qed.
Lemma reps_parent h w c q : NoDup (ids w) -> reps h w -> In c (kids_of w q) -> exists l, nth_error h c = Some l /\ l_parent l = Some q.
Proof.
  unfold kids_of. intros ND R H. destruct (find_kids w q) eqn:K; [|destruct H].
  destruct (reps_find _ _ _ _ R K) as (l & A & B).
  assert (forall f o, lrep h (Some q) o f -> In c (roots f) -> exists l, nth_error h c = Some l /\ l_parent l = Some q) as X.
  { induction f0 as [|j k IHk r IHr]; simpl; intros o RR; [tauto|]. destruct RR as (_ & lj & Hj & Hp & Hk & Hr).
    intros [->|]; eauto. }
  eapply X; eauto.
Qed.
Lemma inv_parent n ops h w c l : inv n ops h w -> nth_error h c = Some l ->
  forall q, l_parent l = Some q <-> In (q, c) ops.
Proof.
  intros IV Hl q. assert (ND := inv_nodup _ _ _ _ IV). pose proof IV as (LEN & R & PM & KD & RT).
  assert (c < n) as Hc by (apply nth_lt in Hl; lia).
  assert (AT : forall q, In c (kids_of w q) <-> In (q, c) ops).
  { intro x. rewrite KD. unfold attached_to. rewrite in_map_iff. split.
    - intros ([a b] & <- & H). apply filter_In in H as [H E]. apply Nat.eqb_eq in E. simpl in *; subst; auto.
    - intro H. exists (x, c). split; auto. apply filter_In. split; auto. simpl. apply Nat.eqb_refl. }
  split.
  - intro E. destruct (in_dec Nat.eq_dec c (map snd ops)) as [I|I].
    + apply in_map_iff in I as ([a b] & Eb & H). simpl in Eb; subst b.
      apply AT in H as H2. destruct (reps_parent _ _ _ _ ND R H2) as (l' & A & B).
      assert (l' = l) by congruence; subst. congruence.
    + destruct (reps_parent_root h w c R) as (l' & A & B & _). apply RT; auto.
      congruence.
  - intro H. apply AT in H. destruct (reps_parent _ _ _ _ ND R H) as (l' & A & B). congruence.
Qed.
(** When every link but link 0 has been attached, the array is one tree rooted at link 0. *)
Lemma inv_well_formed n ops h w : inv n ops h w -> 0 < n -> ~ In 0 (map snd ops) ->
  (forall c, 0 < c < n -> In c (map snd ops)) -> well_formed h.
Proof.
  intros IV Hn N0 ALL. assert (ND := inv_nodup _ _ _ _ IV). destruct IV as (LEN & R & PM & KD & RT).
  assert (roots w = [0]) as RW.
  { assert (NR := nodup_roots w ND). assert (forall c, In c (roots w) <-> c = 0) as X.
    { intro c. rewrite RT. split. intros [A B]. destruct c; auto. exfalso. apply B, ALL. lia. intros ->. auto. }
    destruct (roots w) as [|a t]. exfalso. apply (X 0); auto.
    assert (a = 0) by (apply X; simpl; auto). subst. destruct t as [|b t]; auto.
    assert (b = 0) by (apply X; simpl; auto). subst. apply NoDup_cons_iff in NR as [NR _]. exfalso; apply NR; simpl; auto. }
  destruct w as [|i k r]; [discriminate RW|]. simpl in RW. injection RW as -> Er. destruct r; [|discriminate Er].
  exists k. split.
  - destruct R as [(l & A & B & C & D) _]. split; auto. exists l. repeat split; auto.
  - rewrite LEN. auto.
Qed.
End LinkProofs.
