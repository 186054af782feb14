(** Facts about link trees and the two recursion schemes.  [forest] is the specification: a list of
    trees, each a node with its children. *)
From Coq Require Import List Arith Lia Permutation.
From Verif Require Import Tree.
Import ListNotations.

Inductive forest := FNil | FCons (i : nat) (kids rest : forest).

Fixpoint ids (f : forest) : list nat :=
  match f with FNil => [] | FCons i k r => i :: ids k ++ ids r end.
Fixpoint roots (f : forest) : list nat :=
  match f with FNil => [] | FCons i k r => i :: roots r end.
Fixpoint fsize (f : forest) : nat :=
  match f with FNil => 0 | FCons i k r => S (fsize k + fsize r) end.
(** [parent_in p f i q]: in forest [f] whose roots have parent [p], node [i] has parent [q]. *)
Fixpoint parent_in (p : option nat) (f : forest) (i : nat) (q : option nat) : Prop :=
  match f with
  | FNil => False
  | FCons j k r => (i = j /\ q = p) \/ parent_in (Some j) k i q \/ parent_in p r i q
  end.
Lemma fsize_ids f : fsize f = length (ids f).
Proof. induction f; simpl; auto. rewrite app_length. lia. Qed.

Lemma set_nth_length {L} i (x : L) h : length (set_nth i x h) = length h.
Proof. revert i; induction h; destruct i; simpl; auto. Qed.
Lemma set_nth_same {L} i (x : L) h : i < length h -> nth_error (set_nth i x h) i = Some x.
Proof. revert i; induction h; destruct i; simpl; intros; try lia; auto. apply IHh; lia. Qed.
Lemma set_nth_other {L} i j (x : L) h : i <> j -> nth_error (set_nth i x h) j = nth_error h j.
Proof. revert i j; induction h; destruct i, j; simpl; intros; auto; try lia. Qed.
Lemma set_nth_some {L} i j (x y : L) h : nth_error (set_nth i x h) j = Some y -> (i = j /\ y = x) \/ (i <> j /\ nth_error h j = Some y).
Proof.
  destruct (Nat.eq_dec i j) as [->|H].
  - intro G. left; split; auto.
    assert (j < length h) by (rewrite <- (set_nth_length j x h); apply nth_error_Some; congruence).
    rewrite set_nth_same in G; congruence.
  - rewrite set_nth_other; auto.
Qed.
Lemma nth_lt {L} (h : list L) i x : nth_error h i = Some x -> i < length h.
Proof. intro H. apply nth_error_Some. congruence. Qed.

Section Rep.
Context {L P : Type} (parent child sibl : L -> option nat).

(** The array [h] holds the forest [f] of trees with parent [p], starting at reference [o]. *)
Fixpoint rep (h : list L) (p o : option nat) (f : forest) : Prop :=
  match f with
  | FNil => o = None
  | FCons i k r => o = Some i /\ exists l, nth_error h i = Some l /\ parent l = p
                   /\ rep h (Some i) (child l) k /\ rep h p (sibl l) r
  end.

Definition same_refs (a b : L) : Prop := parent a = parent b /\ child a = child b /\ sibl a = sibl b.

Lemma rep_ext h h' p o f :
  (forall i l, In i (ids f) -> nth_error h i = Some l -> exists l', nth_error h' i = Some l' /\ same_refs l l') ->
  rep h p o f -> rep h' p o f.
Proof.
  revert p o. induction f as [|i k IHk r IHr]; simpl; intros p o H; auto.
  intros (-> & l & Hl & Hp & Hk & Hr). split; auto.
  destruct (H i l (or_introl eq_refl) Hl) as (l' & Hl' & E1 & E2 & E3).
  exists l'. repeat split; try congruence.
  - rewrite <- E2. apply IHk; auto. intros. apply (H i0 l0); auto. right; apply in_or_app; auto.
  - rewrite <- E3. apply IHr; auto. intros. apply (H i0 l0); auto. right; apply in_or_app; auto.
Qed.
Lemma rep_frame h h' p o f :
  (forall i, In i (ids f) -> nth_error h' i = nth_error h i) -> rep h p o f -> rep h' p o f.
Proof. intros H. apply rep_ext. intros. exists l. rewrite H; auto. repeat split; auto. Qed.
Lemma rep_in h p o f i : rep h p o f -> In i (ids f) -> exists l, nth_error h i = Some l.
Proof.
  revert p o. induction f as [|j k IHk r IHr]; simpl; intros p o; [tauto|].
  intros (_ & l & Hl & _ & Hk & Hr) [->|H]; eauto. apply in_app_or in H as [H|H]; eauto.
Qed.
Lemma rep_parent h p o f i q : rep h p o f -> parent_in p f i q -> exists l, nth_error h i = Some l /\ parent l = q.
Proof.
  revert p o. induction f as [|j k IHk r IHr]; simpl; intros p o; [tauto|].
  intros (_ & l & Hl & Hp & Hk & Hr) [[-> ->]|[H|H]]; eauto.
Qed.
Lemma parent_in_ids p f i q : parent_in p f i q -> In i (ids f).
Proof.
  revert p. induction f; simpl; intros p; [tauto|].
  intros [[-> _]|[H|H]]; auto; right; apply in_or_app; eauto.
Qed.
Lemma in_parent p f i : In i (ids f) -> exists q, parent_in p f i q.
Proof.
  revert p. induction f as [|j k IHk r IHr]; simpl; intros p; [tauto|].
  intros [->|H]; eauto. apply in_app_or in H as [H|H].
  - destruct (IHk (Some j) H) as [q Hq]. eauto.
  - destruct (IHr p H) as [q Hq]. eauto.
Qed.
Lemma nodup_split f i k r : f = FCons i k r -> NoDup (ids f) ->
  ~ In i (ids k) /\ ~ In i (ids r) /\ NoDup (ids k) /\ NoDup (ids r) /\ (forall j, In j (ids k) -> ~ In j (ids r)).
Proof.
  intros -> H. simpl in H. apply NoDup_cons_iff in H as [H1 H2].
  assert (forall (a b : list nat), NoDup (a ++ b) -> NoDup a /\ NoDup b /\ (forall j, In j a -> ~ In j b)) as X.
  { clear. induction a; simpl; intros b H; [repeat split; auto; constructor|].
    apply NoDup_cons_iff in H as [H1 H2]. destruct (IHa b H2) as (A & B & C).
    repeat split; auto. constructor; auto. intro; apply H1; apply in_or_app; auto.
    intros j [->|Hj]; auto. intro; apply H1; apply in_or_app; auto. }
  destruct (X _ _ H2) as (A & B & C). repeat split; auto; intro; apply H1; apply in_or_app; auto.
Qed.
Lemma rep_size h p o f : rep h p o f -> NoDup (ids f) -> fsize f <= length h.
Proof.
  intros R ND. rewrite fsize_ids. rewrite <- (seq_length (length h) 0).
  apply NoDup_incl_length; auto. intros i Hi. apply in_seq.
  destruct (rep_in h p o f i R Hi) as [l Hl]. apply nth_lt in Hl. lia.
Qed.

(** ** Downward recursion *)
Section Down.
Context (upd : L -> P -> L) (par : L -> P).
Hypothesis upd_refs : forall l p, same_refs l (upd l p).

Fixpoint down (f : forest) (h : list L) (p : P) : list L :=
  match f with
  | FNil => h
  | FCons i k r =>
    match nth_error h i with
    | Some l => down r (down k (set_nth i (upd l p) h) (par (upd l p))) p
    | None => h
    end
  end.
Lemma down_length f h p : length (down f h p) = length h.
Proof.
  revert h p. induction f as [|i k IHk r IHr]; simpl; intros; auto.
  destruct (nth_error h i); auto. rewrite IHr, IHk, set_nth_length. auto.
Qed.
Lemma down_other f h p i : ~ In i (ids f) -> nth_error (down f h p) i = nth_error h i.
Proof.
  revert h p. induction f as [|j k IHk r IHr]; simpl; intros; auto.
  destruct (nth_error h j); auto. rewrite IHr, IHk, set_nth_other; auto.
  all: intro; apply H; try (right; apply in_or_app; auto).
Qed.
(** Every link visited once, with the parameters read from its updated parent. *)
Fixpoint solved (h h' : list L) (f : forest) (p : P) : Prop :=
  match f with
  | FNil => True
  | FCons i k r => exists l, nth_error h i = Some l /\ nth_error h' i = Some (upd l p)
                   /\ solved h h' k (par (upd l p)) /\ solved h h' r p
  end.
Lemma solved_ext h1 h1' h2 h2' f p :
  (forall i, In i (ids f) -> nth_error h1 i = nth_error h2 i) ->
  (forall i, In i (ids f) -> nth_error h1' i = nth_error h2' i) ->
  solved h1 h1' f p -> solved h2 h2' f p.
Proof.
  revert p. induction f as [|i k IHk r IHr]; simpl; intros p A B; auto.
  intros (l & H1 & H2 & H3 & H4). exists l. rewrite <- A, <- B by auto.
  repeat split; auto; [apply IHk | apply IHr]; auto; intros; [apply A|apply B|apply A|apply B]; right; apply in_or_app; auto.
Qed.
Lemma down_solved f h q o p : rep h q o f -> NoDup (ids f) -> solved h (down f h p) f p.
Proof.
  revert h q o p. induction f as [|i k IHk r IHr]; intros h q o p R ND; simpl; auto.
  destruct R as (-> & l & Hl & Hp & Hk & Hr). rewrite Hl. exists l.
  destruct (nodup_split _ i k r eq_refl ND) as (N1 & N2 & N3 & N4 & N5).
  set (h1 := set_nth i (upd l p) h). set (h2 := down k h1 (par (upd l p))).
  assert (E1 : nth_error h1 i = Some (upd l p)) by (apply set_nth_same; eapply nth_lt; eauto).
  assert (forall j, j <> i -> nth_error h1 j = nth_error h j) as E2 by (intros; apply set_nth_other; auto).
  assert (Rk : rep h1 (Some i) (child l) k) by (apply (rep_frame h); auto; intros; apply E2; intro; subst; auto).
  assert (Rr : rep h2 q (sibl l) r).
  { apply (rep_frame h); auto. intros j Hj. unfold h2. rewrite down_other by (intro; eapply N5; eauto).
    apply E2; intro; subst; auto. }
  repeat split.
  - rewrite down_other by auto. unfold h2. rewrite down_other by auto. auto.
  - apply (solved_ext h1 h2).
    + intros; apply E2; intro; subst; auto.
    + intros. symmetry. apply down_other. auto.
    + eapply IHk; eauto.
  - apply (solved_ext h2 (down r h2 p)).
    + intros j Hj. unfold h2. rewrite down_other by (intro; eapply N5; eauto). apply E2; intro; subst; auto.
    + auto.
    + eapply IHr; eauto.
Qed.

Definition params_ok (h : list L) (q : option nat) (p : P) (f : forest) : Prop :=
  match q with
  | None => forall i k r, f = FCons i k r -> r = FNil
  | Some qi => ~ In qi (ids f) /\ exists lq, nth_error h qi = Some lq /\ par lq = p
  end.
Lemma walk_down_spec f fuel h q i p :
  rep h q (Some i) f -> NoDup (ids f) -> fsize f <= fuel -> params_ok h q p f ->
  walk_down parent child sibl upd par fuel h i p = Some (down f h p).
Proof.
  revert fuel h q i p. induction f as [|j k IHk r IHr]; intros fuel h q i p R ND FU PO; [discriminate R|].
  destruct R as (E & l & Hl & Hp & Hk & Hr). injection E as <-.
  destruct fuel as [|fuel]; [simpl in FU; lia|].
  cbn [fsize] in FU. apply le_S_n in FU.
  destruct (nodup_split _ i k r eq_refl ND) as (N1 & N2 & N3 & N4 & N5).
  cbn [walk_down down]. rewrite Hl.
  destruct (upd_refs l p) as (U1 & U2 & U3).
  set (l' := upd l p) in *. set (h1 := set_nth i l' h). set (h2 := down k h1 (par l')).
  assert (E1 : nth_error h1 i = Some l') by (apply set_nth_same; eapply nth_lt; eauto).
  assert (forall m, m <> i -> nth_error h1 m = nth_error h m) as E2 by (intros; apply set_nth_other; auto).
  assert (Rk : rep h1 (Some i) (child l) k) by (apply (rep_frame h); auto; intros; apply E2; intro; subst; auto).
  assert (Rr : rep h2 q (sibl l) r).
  { apply (rep_frame h); auto. intros m Hm. unfold h2. rewrite down_other by (intro; eapply N5; eauto).
    apply E2; intro; subst; auto. }
  assert (K : match child l' with None => Some h1 | Some c => walk_down parent child sibl upd par fuel h1 c (par l') end = Some h2).
  { rewrite <- U2. destruct (child l) as [c|] eqn:C.
    - apply (IHk _ _ (Some i)); auto. lia. split; auto. exists l'; auto.
    - destruct k; [|destruct Rk as [X _]; discriminate X]. reflexivity. }
  rewrite K.
  assert (E3 : nth_error h2 i = Some l') by (unfold h2; rewrite down_other; auto).
  rewrite E3, <- U3, <- U1.
  destruct (sibl l) as [s|] eqn:SS.
  - destruct r as [|s' k' r']; [discriminate Rr|].
    destruct q as [qi|].
    + rewrite Hp. destruct PO as (PN & lq & PL & PP).
      assert (qi <> i) by (intro; subst; apply PN; simpl; auto).
      assert (PL2 : nth_error h2 qi = Some lq).
      { unfold h2. rewrite down_other, E2; auto. intro; apply PN; simpl; right; apply in_or_app; auto. }
      rewrite PL2, PP. apply (IHr _ _ (Some qi)); auto. lia.
      split. intro; apply PN. simpl; right; apply in_or_app; auto. exists lq; auto.
    + specialize (PO i k _ eq_refl). discriminate PO.
  - destruct r; [|destruct Rr as [X _]; discriminate X]. reflexivity.
Qed.
(** In the result each link other than a root sees the parameters of its own parent. *)
Lemma solved_parent h h' f p q0 i q l : NoDup (ids f) -> solved h h' f p -> parent_in q0 f i (Some q) -> In q (ids f) ->
  ~ (match q0 with Some z => In z (ids f) | None => False end) ->
  nth_error h i = Some l -> exists lq, nth_error h' q = Some lq /\ nth_error h' i = Some (upd l (par lq)).
Proof.
  revert p q0. induction f as [|j k IHk r IHr]; intros p q0 ND S PI Q Q0 Hl; [destruct PI|].
  destruct (nodup_split _ j k r eq_refl ND) as (N1 & N2 & N3 & N4 & N5).
  destruct S as (lj & S1 & S2 & S3 & S4).
  destruct PI as [[-> <-]|[PI|PI]]; [exfalso; apply Q0; exact Q| |].
  - destruct (Nat.eq_dec q j) as [->|NE].
    + exists (upd lj p). split; auto.
      clear IHk IHr S4 Q Q0. assert (parent_in (Some j) k i (Some j)) by exact PI.
      revert PI S3 N1. generalize (par (upd lj p)). clear -Hl. intros p0 PI S3 N1.
      revert PI S3 N1. induction k as [|a k1 I1 k2 I2]; intros PI S3 N1; [destruct PI|].
      destruct S3 as (la & A1 & A2 & A3 & A4). destruct PI as [[-> _]|[PI|PI]].
      * congruence.
      * exfalso. assert (In j (ids k1) \/ a = j) as [X|X].
        { clear -PI. revert a PI. induction k1 as [|b k3 I3 k4 I4]; intros a PI; [destruct PI|].
          destruct PI as [[-> E]|[PI|PI]].
          - injection E as ->. auto.
          - destruct (I3 _ PI) as [X|X]; [left; simpl; right; apply in_or_app; auto|left; simpl; auto].
          - destruct (I4 _ PI) as [X|X]; [left; simpl; right; apply in_or_app; auto|right; auto]. }
        apply N1; simpl; right; apply in_or_app; auto. apply N1; simpl; auto.
      * apply I2; auto. intro; apply N1; simpl; right; apply in_or_app; auto.
    + assert (In q (ids k)).
      { clear -PI NE. revert j NE PI. induction k as [|b k3 I3 k4 I4]; intros j NE PI; [destruct PI|].
        destruct PI as [[-> E]|[PI|PI]].
        - injection E as ->. congruence.
        - simpl. destruct (Nat.eq_dec q b); auto. right; apply in_or_app; left. eapply I3; eauto.
        - simpl. right; apply in_or_app; right. eapply I4; eauto. }
      eapply IHk; eauto.
  - assert (In q (ids r) \/ Some q = q0) as [X|X].
    { clear -PI. revert q0 PI. induction r as [|b k3 I3 k4 I4]; intros q0 PI; [destruct PI|].
      destruct PI as [[-> E]|[PI|PI]]; auto.
      - destruct (I3 _ PI) as [X|X]; [left; simpl; right; apply in_or_app; auto|]. injection X as ->. simpl; auto.
      - destruct (I4 _ PI) as [X|X]; auto. left; simpl; right; apply in_or_app; auto. }
    + eapply IHr; eauto. intro Z. apply Q0. destruct q0; auto. simpl. right; apply in_or_app; auto.
    + subst q0. exfalso. apply Q0. exact Q.
Qed.
End Down.

(** ** Upward recursion *)
Section Up.
Context (pre : L -> L) (upd : L -> list L -> L).
Hypothesis pre_refs : forall l, same_refs l (pre l).
Hypothesis upd_refs : forall l cs, same_refs l (upd l cs).

Fixpoint pick (h : list L) (is : list nat) : list L :=
  match is with
  | [] => []
  | i :: t => match nth_error h i with Some l => l :: pick h t | None => pick h t end
  end.
Lemma pick_ext h h' is : (forall i, In i is -> nth_error h i = nth_error h' i) -> pick h is = pick h' is.
Proof. induction is; simpl; intros; auto. rewrite H, IHis; auto. Qed.
Lemma roots_ids f i : In i (roots f) -> In i (ids f).
Proof. induction f; simpl; intros; auto. destruct H; auto. right; apply in_or_app; auto. Qed.
Lemma sib_list_spec h p o f fuel : rep h p o f -> fsize f <= fuel -> sib_list sibl fuel h o = Some (pick h (roots f)).
Proof.
  revert fuel o. induction f as [|i k IHk r IHr]; intros fuel o R FU.
  - simpl in R. subst. destruct fuel; reflexivity.
  - destruct R as (-> & l & Hl & Hp & Hk & Hr). simpl in FU. destruct fuel; [lia|].
    cbn [sib_list roots pick]. rewrite Hl. rewrite (IHr fuel (sibl l)); auto. lia.
Qed.
Fixpoint up (f : forest) (h : list L) : list L :=
  match f with
  | FNil => h
  | FCons i k r =>
    match nth_error h i with
    | Some l => let h2 := up k (set_nth i (pre l) h) in
                up r (set_nth i (upd (pre l) (pick h2 (roots k))) h2)
    | None => h
    end
  end.
Lemma up_length f h : length (up f h) = length h.
Proof.
  revert h. induction f as [|i k IHk r IHr]; simpl; intros; auto.
  destruct (nth_error h i); auto. rewrite IHr, set_nth_length, IHk, set_nth_length. auto.
Qed.
Lemma up_other f h i : ~ In i (ids f) -> nth_error (up f h) i = nth_error h i.
Proof.
  revert h. induction f as [|j k IHk r IHr]; simpl; intros; auto.
  destruct (nth_error h j); auto. rewrite IHr, set_nth_other, IHk, set_nth_other; auto.
  all: intro; apply H; try (right; apply in_or_app; auto).
Qed.
(** Every link visited once, from the final values of its children. *)
Fixpoint solved_up (h h' : list L) (f : forest) : Prop :=
  match f with
  | FNil => True
  | FCons i k r => exists l, nth_error h i = Some l
                   /\ nth_error h' i = Some (upd (pre l) (pick h' (roots k)))
                   /\ solved_up h h' k /\ solved_up h h' r
  end.
Lemma solved_up_ext h1 h1' h2 h2' f :
  (forall i, In i (ids f) -> nth_error h1 i = nth_error h2 i) ->
  (forall i, In i (ids f) -> nth_error h1' i = nth_error h2' i) ->
  solved_up h1 h1' f -> solved_up h2 h2' f.
Proof.
  induction f as [|i k IHk r IHr]; simpl; intros A B; auto.
  intros (l & H1 & H2 & H3 & H4). exists l. rewrite <- A, <- B by auto.
  rewrite <- (pick_ext h1' h2').
  2:{ intros. apply B. right. apply in_or_app. left. apply roots_ids; auto. }
  repeat split; auto; [apply IHk | apply IHr]; auto; intros; [apply A|apply B|apply A|apply B]; right; apply in_or_app; auto.
Qed.
Lemma up_refs f h q o : rep h q o f -> NoDup (ids f) -> rep (up f h) q o f.
Proof.
  revert h q o. induction f as [|i k IHk r IHr]; intros h q o R ND; simpl; auto.
  destruct R as (-> & l & Hl & Hp & Hk & Hr). rewrite Hl.
  destruct (nodup_split _ i k r eq_refl ND) as (N1 & N2 & N3 & N4 & N5).
  destruct (pre_refs l) as (A1 & A2 & A3).
  set (h1 := set_nth i (pre l) h). set (h2 := up k h1).
  set (li := upd (pre l) (pick h2 (roots k))).
  destruct (upd_refs (pre l) (pick h2 (roots k))) as (B1 & B2 & B3). fold li in B1, B2, B3.
  split; auto. exists li.
  assert (Ek : forall j, j <> i -> nth_error h1 j = nth_error h j) by (intros; apply set_nth_other; auto).
  assert (i < length h2) by (unfold h2, h1; rewrite up_length, set_nth_length; eapply nth_lt; eauto).
  repeat split.
  - rewrite up_other by auto. apply set_nth_same; auto.
  - congruence.
  - rewrite <- B2, <- A2. apply (rep_frame h2).
    + intros j Hj. rewrite up_other by auto. apply set_nth_other. intro; subst; auto.
    + apply IHk; auto. apply (rep_frame h); auto. intros; apply Ek; intro; subst; auto.
  - rewrite <- B3, <- A3. apply IHr; auto. apply (rep_frame h); auto.
    intros j Hj. rewrite set_nth_other by (intro; subst; auto). unfold h2. rewrite up_other by (intro; eapply N5; eauto).
    apply Ek; intro; subst; auto.
Qed.
Lemma up_solved f h q o : rep h q o f -> NoDup (ids f) -> solved_up h (up f h) f.
Proof.
  revert h q o. induction f as [|i k IHk r IHr]; intros h q o R ND; simpl; auto.
  destruct R as (-> & l & Hl & Hp & Hk & Hr). rewrite Hl. exists l.
  destruct (nodup_split _ i k r eq_refl ND) as (N1 & N2 & N3 & N4 & N5).
  set (h1 := set_nth i (pre l) h). set (h2 := up k h1).
  set (h3 := set_nth i (upd (pre l) (pick h2 (roots k))) h2).
  assert (Ek : forall j, j <> i -> nth_error h1 j = nth_error h j) by (intros; apply set_nth_other; auto).
  assert (LL : i < length h2) by (unfold h2, h1; rewrite up_length, set_nth_length; eapply nth_lt; eauto).
  assert (Rk : rep h1 (Some i) (child l) k) by (apply (rep_frame h); auto; intros; apply Ek; intro; subst; auto).
  assert (E3 : forall j, j <> i -> nth_error h3 j = nth_error h2 j) by (intros; apply set_nth_other; auto).
  assert (Rr : rep h3 q (sibl l) r).
  { apply (rep_frame h); auto. intros m Hm. rewrite E3 by (intro; subst; auto). unfold h2. rewrite up_other by (intro; eapply N5; eauto).
    apply Ek; intro; subst; auto. }
  assert (E4 : forall j, In j (ids k) -> nth_error (up r h3) j = nth_error h2 j).
  { intros j Hj. rewrite up_other by auto. apply E3; intro; subst; auto. }
  repeat split; auto.
  - rewrite up_other by auto. unfold h3. rewrite set_nth_same; auto.
    rewrite (pick_ext (up r h3) h2); auto. intros j Hj; apply E4, roots_ids; auto.
  - apply (solved_up_ext h1 h2).
    + intros; apply Ek; intro; subst; auto.
    + intros. symmetry. auto.
    + eapply IHk; eauto.
  - apply (solved_up_ext h3 (up r h3)); auto.
    + intros j Hj. rewrite E3 by (intro; subst; auto). unfold h2. rewrite up_other by (intro; eapply N5; eauto).
      apply Ek; intro; subst; auto.
    + eapply IHr; eauto.
Qed.
Lemma walk_up_spec f fuel h q i :
  rep h q (Some i) f -> NoDup (ids f) -> fsize f <= fuel ->
  walk_up child sibl pre upd fuel h i = Some (up f h).
Proof.
  revert fuel h q i. induction f as [|j k IHk r IHr]; intros fuel h q i R ND FU; [discriminate R|].
  destruct R as (E & l & Hl & Hp & Hk & Hr). injection E as <-.
  destruct fuel as [|fuel]; [simpl in FU; lia|].
  cbn [fsize] in FU. apply le_S_n in FU.
  destruct (nodup_split _ i k r eq_refl ND) as (N1 & N2 & N3 & N4 & N5).
  cbn [walk_up up]. rewrite Hl.
  destruct (pre_refs l) as (U1 & U2 & U3).
  set (h1 := set_nth i (pre l) h). set (h2 := up k h1).
  assert (E1 : nth_error h1 i = Some (pre l)) by (apply set_nth_same; eapply nth_lt; eauto).
  assert (forall m, m <> i -> nth_error h1 m = nth_error h m) as E2 by (intros; apply set_nth_other; auto).
  assert (Rk : rep h1 (Some i) (child l) k) by (apply (rep_frame h); auto; intros; apply E2; intro; subst; auto).
  assert (K : match child (pre l) with None => Some h1 | Some c => walk_up child sibl pre upd fuel h1 c end = Some h2).
  { rewrite <- U2. destruct (child l) as [c|] eqn:C.
    - apply (IHk _ _ (Some i)); auto. lia.
    - destruct k; [|destruct Rk as [X _]; discriminate X]. reflexivity. }
  rewrite K.
  assert (E3 : nth_error h2 i = Some (pre l)) by (unfold h2; rewrite up_other; auto).
  rewrite E3.
  assert (Rk2 : rep h2 (Some i) (child l) k) by (apply up_refs; auto).
  rewrite <- U2. rewrite (sib_list_spec h2 (Some i) (child l) k fuel Rk2) by lia.
  destruct (upd_refs (pre l) (pick h2 (roots k))) as (B1 & B2 & B3).
  cbv zeta. rewrite <- B3, <- U3.
  set (h3 := set_nth i (upd (pre l) (pick h2 (roots k))) h2).
  assert (Rr : rep h3 q (sibl l) r).
  { apply (rep_frame h); auto. intros m Hm. unfold h3. rewrite set_nth_other by (intro; subst; auto). unfold h2. rewrite up_other by (intro; eapply N5; eauto).
    apply E2; intro; subst; auto. }
  destruct (sibl l) as [s|] eqn:SS.
  - apply (IHr _ _ q); auto. lia.
  - destruct r; [|destruct Rr as [X _]; discriminate X]. reflexivity.
Qed.
End Up.

(** A representation determines the forest. *)
Lemma rep_unique h p o f g : rep h p o f -> rep h p o g -> f = g.
Proof.
  revert p o g. induction f as [|i k IHk r IHr]; intros p o [|i' k' r'] A B; simpl in *; auto.
  - destruct B as [B _]; congruence.
  - destruct A as [A _]; congruence.
  - destruct A as (A0 & l & A1 & A2 & A3 & A4), B as (B0 & l' & B1 & B2 & B3 & B4).
    assert (i = i') by congruence; subst i'. assert (l = l') by congruence; subst l'.
    rewrite (IHk _ _ _ A3 B3), (IHr _ _ _ A4 B4). auto.
Qed.
End Rep.
