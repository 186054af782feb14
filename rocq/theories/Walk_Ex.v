(** Facts about the recursions of rk_abi.c that update the biases for additional forces. *)
From Coq Require Import List Arith Lia Permutation.
From Verif Require Import Num Vec Tree Tree_Proofs Link_Model Link_Spec Link_Proofs Walk Walk_Proofs.
Import ListNotations.

Section Walks.
Context {L : Type} (parent child sibl : L -> option nat).
Notation rep := (@rep L parent child sibl).
Notation same_refs := (@same_refs L parent child sibl).

(** ** Marking *)
Section Mark.
Context (holds path : L -> bool) (mark : L -> L).
Hypothesis mark_refs : forall l, same_refs l (mark l).
Hypothesis mark_idem : forall l, mark (mark l) = mark l.
Hypothesis mark_path : forall l, path (mark l) = true.

Definition markm (l l' : L) : Prop := l' = l \/ l' = mark l.
Lemma markm_refs l l' : markm l l' -> same_refs l l'.
Proof. intros [->| ->]; [apply same_refs_refl|apply mark_refs]. Qed.
Lemma markm_trans a b c : markm a b -> markm b c -> markm a c.
Proof. intros [->| ->] [->| ->]; unfold markm; auto. Qed.
Lemma markm_path a b : markm a b -> path a = true -> path b = true.
Proof. intros [->| ->]; auto. Qed.
Definition marks (h h' : list L) : Prop := length h' = length h /\ forall j l, nth_error h j = Some l -> exists l', nth_error h' j = Some l' /\ markm l l'.
Lemma marks_refl h : marks h h.
Proof. split; auto. intros j l H. exists l. split; auto. left; auto. Qed.
Lemma marks_trans a b c : marks a b -> marks b c -> marks a c.
Proof.
  intros [L1 A] [L2 B]. split; [congruence|]. intros j l H. destruct (A j l H) as (l1 & H1 & M1). destruct (B j l1 H1) as (l2 & H2 & M2).
  exists l2. split; auto. eapply markm_trans; eauto.
Qed.
Lemma marks_set h i l : nth_error h i = Some l -> marks h (set_nth i (mark l) h).
Proof.
  intros H. split; [apply set_nth_length|]. intros j l0 H0. destruct (Nat.eq_dec i j) as [<-|NE].
  - exists (mark l). split; [apply set_nth_same; eapply nth_lt; eauto|]. right. congruence.
  - exists l0. rewrite set_nth_other by auto. split; auto. left; auto.
Qed.
Lemma marks_rep h h' p o f : marks h h' -> rep h p o f -> rep h' p o f.
Proof. intros [_ M]. apply rep_ext. intros i l _ H. destruct (M i l H) as (l' & H' & R). exists l'. split; auto. now apply markm_refs. Qed.
(** The parent of every link of the forest that holds is marked. *)
Definition up_closed (h : list L) (is : list nat) : Prop := forall j l p, In j is -> nth_error h j = Some l -> holds l = true -> parent l = Some p ->
  exists lp, nth_error h p = Some lp /\ path lp = true.
Lemma up_closed_ext h h' is : (forall j, In j is -> nth_error h' j = nth_error h j) -> marks h h' -> up_closed h is -> up_closed h' is.
Proof.
  intros A [_ M] U j l p I Hj HH HP. rewrite A in Hj by auto. destruct (U j l p I Hj HH HP) as (lp & H1 & H2). destruct (M p lp H1) as (lp' & H3 & H4).
  exists lp'. split; auto. eapply markm_path; eauto.
Qed.
Lemma walk_mark_spec f fuel h q i :
  rep h q (Some i) f -> NoDup (ids f) -> fsize f <= fuel ->
  (forall qi, q = Some qi -> ~ In qi (ids f) /\ exists lq, nth_error h qi = Some lq) ->
  exists h', walk_mark parent child sibl holds mark fuel h i = Some h' /\ marks h h'
    /\ (forall j, ~ In j (ids f) -> q <> Some j -> nth_error h' j = nth_error h j)
    /\ up_closed h' (ids f).
Proof.
  revert fuel h q i. induction f as [|j k IHk r IHr]; intros fuel h q i R ND FU PO; [discriminate R|].
  destruct R as (E & l & Hl & Hp & Hk & Hr). injection E as <-.
  destruct fuel as [|fuel]; [simpl in FU; lia|]. cbn [fsize] in FU. apply le_S_n in FU.
  destruct (nodup_split _ i k r eq_refl ND) as (N1 & N2 & N3 & N4 & N5).
  cbn [walk_mark]. unfold on_nth at 1. rewrite Hl.
  assert (QI : forall qi, q = Some qi -> qi <> i /\ ~ In qi (ids k) /\ ~ In qi (ids r)).
  { intros qi EQ. destruct (PO qi EQ) as [A _]. simpl in A.
    repeat split; intro; apply A; subst; auto; right; apply in_or_app; auto. }
  assert (X1 : exists h1, opt_walk (child l) h (fun c => walk_mark parent child sibl holds mark fuel h c) = Some h1 /\ marks h h1
    /\ (forall j, ~ In j (ids k) -> i <> j -> nth_error h1 j = nth_error h j) /\ up_closed h1 (ids k)).
  { destruct (child l) as [s|] eqn:SS; cbn [opt_walk].
    - destruct (IHk fuel h (Some i) s) as (h1 & A & B & C & D); auto. lia.
      { intros qi EQ. injection EQ as <-. split; auto. exists l; auto. }
      exists h1. repeat split; try apply B; auto. intros; apply C; auto. congruence.
    - destruct k; [|destruct Hk as [X _]; discriminate X]. exists h. split; [auto|]. split; [apply marks_refl|]. split; auto. intros ? ? ? []. }
  destruct X1 as (h1 & W1 & M1 & O1 & U1). rewrite W1. cbn [bind].
  destruct (proj2 M1 i l Hl) as (l1 & Hl1 & ML). unfold on_nth at 1. rewrite Hl1.
  destruct (markm_refs _ _ ML) as (R1 & R2 & R3).
  assert (X2 : exists h2, opt_walk (sibl l1) h1 (fun s => walk_mark parent child sibl holds mark fuel h1 s) = Some h2 /\ marks h1 h2
    /\ (forall j, ~ In j (ids r) -> q <> Some j -> nth_error h2 j = nth_error h1 j) /\ up_closed h2 (ids r)).
  { rewrite <- R3. pose proof (marks_rep _ _ _ _ _ M1 Hr) as Rr. destruct (sibl l) as [s|] eqn:SS; cbn [opt_walk].
    - apply (IHr fuel h1 q s); auto. lia. intros qi EQ. split; [apply (QI qi EQ)|]. destruct (PO qi EQ) as (_ & lq & Hq).
      destruct (proj2 M1 qi lq Hq) as (lq' & Hq' & _). eauto.
    - destruct r; [|destruct Rr as [X _]; discriminate X]. exists h1. split; [auto|]. split; [apply marks_refl|]. split; auto. intros ? ? ? []. }
  destruct X2 as (h2 & W2 & M2 & O2 & U2). rewrite W2. cbn [bind].
  assert (Hl2 : nth_error h2 i = Some l1).
  { rewrite O2; auto. intro EQ. destruct (QI i EQ); auto. }
  unfold on_nth at 1. rewrite Hl2, <- R1, Hp.
  assert (NQ : forall j, In j (i :: ids k ++ ids r) -> q <> Some j).
  { intros m Hm EQ. destruct (PO m EQ) as [A _]. apply A. exact Hm. }
  (* closed below i and to the right, whatever happens to the parent of i *)
  assert (CL : forall h3, marks h2 h3 -> (forall j, q <> Some j -> nth_error h3 j = nth_error h2 j) -> up_closed h3 (ids k ++ ids r)).
  { intros h3 M3 O3 m lm p I Hm HH HP. apply in_app_or in I as [I|I].
    - assert (Q : nth_error h2 m = nth_error h1 m) by (apply O2; [intro; eapply N5; eauto|apply NQ; right; apply in_or_app; auto]).
      eapply (up_closed_ext h1 h3 (ids k)); eauto; [|eapply marks_trans; eauto].
      intros m' I'. rewrite O3 by (apply NQ; right; apply in_or_app; auto). apply O2; [intro; eapply N5; eauto|apply NQ; right; apply in_or_app; auto].
    - eapply (up_closed_ext h2 h3 (ids r)); eauto. intros m' I'. apply O3. apply NQ. right; apply in_or_app; auto. }
  assert (OUT : forall h3, (forall j, q <> Some j -> nth_error h3 j = nth_error h2 j) -> forall j, ~ In j (ids (FCons i k r)) -> q <> Some j -> nth_error h3 j = nth_error h j).
  { intros h3 O3 m Hm NE. simpl in Hm. rewrite O3, O2, O1; auto; intro; apply Hm; subst; auto; right; apply in_or_app; auto. }
  destruct q as [qi|]; cbn [opt_walk].
  - destruct (QI qi eq_refl) as (Q1 & Q2 & Q3). destruct (holds l1) eqn:HO.
    + destruct (PO qi eq_refl) as (_ & lq & Hq). destruct (proj2 (marks_trans _ _ _ M1 M2) qi lq Hq) as (lq2 & Hq2 & _).
      unfold on_nth. rewrite Hq2. set (h3 := set_nth qi (mark lq2) h2).
      assert (M3 : marks h2 h3) by (now apply marks_set).
      assert (O3 : forall j, Some qi <> Some j -> nth_error h3 j = nth_error h2 j) by (intros; apply set_nth_other; congruence).
      exists h3. split; [reflexivity|]. split; [eapply marks_trans; [exact M1|eapply marks_trans; eauto]|]. split; [now apply OUT|].
      intros m lm p I Hm HH HP. destruct I as [<-|I]; [|eapply (CL h3 M3 O3); eauto].
      rewrite O3 in Hm by congruence. assert (lm = l1) by congruence. subst lm. rewrite <- R1, Hp in HP. injection HP as <-.
      exists (mark lq2). split; [apply set_nth_same; eapply nth_lt; eauto|apply mark_path].
    + exists h2. split; [reflexivity|]. split; [eapply marks_trans; eauto|]. split; [now apply OUT|].
      intros m lm p I Hm HH HP. destruct I as [<-|I]; [congruence|]. eapply (CL h2 (marks_refl _)); eauto.
  - exists h2. split; [reflexivity|]. split; [eapply marks_trans; eauto|]. split; [now apply OUT|].
    intros m lm p I Hm HH HP. destruct I as [<-|I]; [|eapply (CL h2 (marks_refl _)); eauto].
    assert (lm = l1) by congruence. subst lm. rewrite <- R1, Hp in HP. discriminate.
Qed.

(** [up h o t]: from [o] the parents lead through [t] to the root. *)
Fixpoint up (h : list L) (o : option nat) (t : list nat) : Prop :=
  match t with [] => o = None | i :: t' => o = Some i /\ exists l, nth_error h i = Some l /\ up h (parent l) t' end.
Lemma up_marks h h' o t : marks h h' -> up h o t -> up h' o t.
Proof.
  intros M. revert o. induction t as [|i t IH]; intros o; [auto|]. intros (A & l & Hl & U). split; [exact A|]. destruct (proj2 M i l Hl) as (l' & Hl' & ML).
  exists l'. split; auto. destruct (markm_refs _ _ ML) as (<- & _). auto.
Qed.
Lemma mark_up_spec t fuel h o : up h o t -> length t <= fuel ->
  exists h', mark_up parent mark fuel h o = Some h' /\ length h' = length h /\
    forall j l, nth_error h j = Some l -> nth_error h' j = Some (if existsb (Nat.eqb j) t then mark l else l).
Proof.
  revert fuel h o. induction t as [|i t IH]; intros fuel h o U FU.
  - cbn [up] in U. subst o. exists h. destruct fuel; cbn; auto.
  - destruct U as (-> & l & Hl & U). destruct fuel as [|fuel]; [cbn in FU; lia|]. cbn [mark_up]. unfold on_nth. rewrite Hl.
    pose proof (marks_set h i l Hl) as M. destruct (IH fuel (set_nth i (mark l) h) (parent l)) as (h' & A & B & C).
    { eapply up_marks; eauto. } { cbn in FU; lia. }
    exists h'. split; [exact A|]. split; [rewrite B; apply set_nth_length|]. intros j l0 H0. cbn [existsb]. destruct (Nat.eqb_spec j i) as [->|NE].
    + assert (l0 = l) by congruence. subst l0. rewrite (C i (mark l)) by (apply set_nth_same; eapply nth_lt; eauto). rewrite mark_idem. cbn [orb]. now destruct existsb.
    + rewrite (C j l0) by (rewrite set_nth_other; auto). reflexivity.
Qed.
End Mark.

(** ** Biases *)
Section Ex.
Context (path : L -> bool) (reset corr : L -> L) (give : L -> L -> L).
Hypothesis reset_refs : forall l, same_refs l (reset l).
Hypothesis corr_refs : forall l, same_refs l (corr l).
Hypothesis give_refs : forall l q, same_refs q (give l q).

Definition gives_all (l : L) (cs : list L) : L := fold_left (fun p c => give c p) cs l.
Lemma gives_all_refs cs l : same_refs l (gives_all l cs).
Proof. revert l. induction cs as [|c cs IH]; intros l; cbn; [apply same_refs_refl|]. eapply same_refs_trans; [apply give_refs|apply IH]. Qed.
(** A link on the path is reset, corrected and gets what its children give; another is only corrected and nothing below it changes. *)
Fixpoint exed (h h' : list L) (f : forest) : Prop :=
  match f with
  | FNil => True
  | FCons i k r => exists l, nth_error h i = Some l
      /\ (if path l then nth_error h' i = Some (gives_all (corr (reset l)) (pick h' (roots k))) /\ exed h h' k
          else nth_error h' i = Some (corr l) /\ forall j, In j (ids k) -> nth_error h' j = nth_error h j)
      /\ exed h h' r
  end.
Lemma exed_ext h1 h1' h2 h2' f :
  (forall i, In i (ids f) -> nth_error h1 i = nth_error h2 i) ->
  (forall i, In i (ids f) -> nth_error h1' i = nth_error h2' i) ->
  exed h1 h1' f -> exed h2 h2' f.
Proof.
  induction f as [|i k IHk r IHr]; simpl; intros A B; auto.
  intros (l & H1 & H2 & H3). exists l. rewrite <- A, <- B by auto.
  assert (AK : forall j, In j (ids k) -> nth_error h1 j = nth_error h2 j) by (intros; apply A; right; apply in_or_app; auto).
  assert (BK : forall j, In j (ids k) -> nth_error h1' j = nth_error h2' j) by (intros; apply B; right; apply in_or_app; auto).
  split; auto. split.
  - destruct (path l); destruct H2 as [H2 H4].
    + rewrite <- (pick_ext h1' h2') by (intros; apply BK, roots_ids; auto). auto.
    + split; auto. intros j I. rewrite <- AK, <- BK by auto. auto.
  - apply IHr; auto; intros; [apply A|apply B]; right; apply in_or_app; auto.
Qed.
Lemma walk_ex_spec f fuel h q i :
  rep h q (Some i) f -> NoDup (ids f) -> fsize f <= fuel ->
  (forall qi, q = Some qi -> ~ In qi (ids f) /\ exists lq, nth_error h qi = Some lq) ->
  exists h', walk_ex parent child sibl path reset corr give fuel h i = Some h'
    /\ length h' = length h /\ exed h h' f
    /\ (forall j, ~ In j (ids f) -> q <> Some j -> nth_error h' j = nth_error h j)
    /\ (forall qi lq, q = Some qi -> nth_error h qi = Some lq -> nth_error h' qi = Some (gives_all lq (pick h' (roots f)))).
Proof.
  revert fuel h q i. induction f as [|j k IHk r IHr]; intros fuel h q i R ND FU PO; [discriminate R|].
  destruct R as (E & l & Hl & Hp & Hk & Hr). injection E as <-.
  destruct fuel as [|fuel]; [simpl in FU; lia|]. cbn [fsize] in FU. apply le_S_n in FU.
  destruct (nodup_split _ i k r eq_refl ND) as (N1 & N2 & N3 & N4 & N5).
  cbn [walk_ex]. unfold on_nth at 1. rewrite Hl.
  assert (QI : forall qi, q = Some qi -> qi <> i /\ ~ In qi (ids k) /\ ~ In qi (ids r)).
  { intros qi EQ. destruct (PO qi EQ) as [A _]. simpl in A.
    repeat split; intro; apply A; subst; auto; right; apply in_or_app; auto. }
  assert (NQ : forall j, In j (i :: ids k ++ ids r) -> q <> Some j).
  { intros m Hm EQ. destruct (PO m EQ) as [A _]. apply A. exact Hm. }
  assert (LI : i < length h) by (eapply nth_lt; eauto).
  (* the link and what is below it *)
  assert (X1 : exists h2 l2, (if path l then opt_walk (child (corr (reset l))) (set_nth i (corr (reset l)) h) (fun c => walk_ex parent child sibl path reset corr give fuel (set_nth i (corr (reset l)) h) c)
      else Some (set_nth i (corr l) h)) = Some h2 /\ length h2 = length h /\ nth_error h2 i = Some l2 /\ same_refs l l2 /\
      (if path l then l2 = gives_all (corr (reset l)) (pick h2 (roots k)) /\ exed h h2 k else l2 = corr l /\ forall j, In j (ids k) -> nth_error h2 j = nth_error h j)
      /\ (forall j, ~ In j (ids k) -> i <> j -> nth_error h2 j = nth_error h j)).
  { destruct (path l) eqn:PA.
    - set (h1 := set_nth i (corr (reset l)) h). assert (E1 : nth_error h1 i = Some (corr (reset l))) by (apply set_nth_same; auto).
      assert (O1 : forall m, i <> m -> nth_error h1 m = nth_error h m) by (intros; apply set_nth_other; auto).
      assert (RC : same_refs l (corr (reset l))) by (eapply same_refs_trans; [apply reset_refs|apply corr_refs]).
      destruct RC as (R1 & R2 & R3). rewrite <- R2.
      assert (Rk : rep h1 (Some i) (child l) k).
      { apply (rep_frame parent child sibl h); auto. intros m Hm. apply O1. intro; subst; auto. }
      destruct (child l) as [s|] eqn:SS; cbn [opt_walk].
      + destruct (IHk fuel h1 (Some i) s) as (h2 & A & B & C & D & G); auto. lia.
        { intros qi EQ. injection EQ as <-. split; auto. eexists; exact E1. }
        exists h2, (gives_all (corr (reset l)) (pick h2 (roots k))). split; [exact A|]. split; [rewrite B; unfold h1; apply set_nth_length|].
        split; [apply G; auto|]. split; [eapply same_refs_trans; [|apply gives_all_refs]; repeat split; congruence|]. split.
        * split; auto. apply (exed_ext h1 h2); auto. intros m Hm. apply O1. intro; subst; auto.
        * intros m Hm NE. rewrite D by (auto; congruence). auto.
      + destruct k; [|destruct Rk as [X _]; discriminate X]. exists h1, (corr (reset l)). split; [reflexivity|]. split; [unfold h1; apply set_nth_length|].
        split; [exact E1|]. split; [repeat split; congruence|]. split; [split; [reflexivity|exact I]|]. intros m _ NE. auto.
    - exists (set_nth i (corr l) h), (corr l). split; [reflexivity|]. split; [apply set_nth_length|]. split; [apply set_nth_same; auto|].
      split; [apply corr_refs|]. split; [split; [reflexivity|]|]; intros m Hm; [apply set_nth_other; intro; subst; auto|apply set_nth_other]. }
  destruct X1 as (h2 & l2 & W2 & L2 & E2 & (R1 & R2 & R3) & X2 & O2). rewrite W2. cbn [bind]. unfold give_up, on_nth at 1. rewrite E2, <- R1, Hp.
  (* giving to the parent *)
  assert (X4 : exists h3, opt_walk q h2 (fun q0 => on_nth h2 q0 (fun lq => Some (set_nth q0 (give l2 lq) h2))) = Some h3
     /\ length h3 = length h2 /\ (forall j, q <> Some j -> nth_error h3 j = nth_error h2 j)
     /\ (forall qi lq, q = Some qi -> nth_error h qi = Some lq -> nth_error h3 qi = Some (give l2 lq))).
  { destruct q as [qi|]; cbn [opt_walk].
    - destruct (PO qi eq_refl) as (_ & lq & Hq). destruct (QI qi eq_refl) as (Q1 & Q2 & Q3).
      assert (H2 : nth_error h2 qi = Some lq) by (rewrite O2; auto). unfold on_nth. rewrite H2. eexists; split; [reflexivity|]. rewrite set_nth_length. repeat split; auto.
      + intros. apply set_nth_other. congruence.
      + intros qi0 lq0 EQ HH. injection EQ as <-. rewrite set_nth_same by (eapply nth_lt; eauto). congruence.
    - exists h2. repeat split; auto. intros; discriminate. }
  destruct X4 as (h3 & W3 & L3 & O3 & G3). rewrite W3. cbn [bind].
  assert (E3 : nth_error h3 i = Some l2) by (rewrite O3; auto; apply NQ; simpl; auto).
  unfold on_nth at 1. rewrite E3, <- R3.
  assert (FR : forall m, In m (ids r) -> nth_error h3 m = nth_error h m).
  { intros m Hm. rewrite O3 by (apply NQ; right; apply in_or_app; auto). apply O2; intro; subst; [eapply N5; eauto|auto]. }
  assert (X5 : exists h4, opt_walk (sibl l) h3 (fun s => walk_ex parent child sibl path reset corr give fuel h3 s) = Some h4
    /\ length h4 = length h3 /\ exed h3 h4 r
    /\ (forall j, ~ In j (ids r) -> q <> Some j -> nth_error h4 j = nth_error h3 j)
    /\ (forall qi lq, q = Some qi -> nth_error h3 qi = Some lq -> nth_error h4 qi = Some (gives_all lq (pick h4 (roots r))))).
  { assert (Rr : rep h3 q (sibl l) r) by (apply (rep_frame parent child sibl h); auto).
    destruct (sibl l) as [s|] eqn:SS; cbn [opt_walk].
    - apply (IHr fuel h3 q s); auto. lia. intros qi EQ. split; [apply (QI qi EQ)|]. destruct (PO qi EQ) as (_ & lq & Hq). eexists. apply G3; eauto.
    - destruct r; [|destruct Rr as [X _]; discriminate X]. exists h3. repeat split; auto. }
  destruct X5 as (h4 & W4 & L4 & B4 & O4 & G4). exists h4.
  split; [exact W4|]. split; [lia|].
  assert (K4 : forall m, In m (ids k) -> nth_error h4 m = nth_error h2 m).
  { intros m Hm. rewrite O4 by (try (intro; eapply N5; eauto; fail); apply NQ; right; apply in_or_app; auto). apply O3. apply NQ; right; apply in_or_app; auto. }
  assert (E4 : nth_error h4 i = Some l2) by (rewrite O4; auto; apply NQ; simpl; auto).
  split; [|split].
  - exists l. split; auto. split.
    + rewrite E4. destruct (path l); destruct X2 as [X2 X3].
      * split; [rewrite X2; do 2 f_equal; apply pick_ext; intros; symmetry; apply K4, roots_ids; auto|]. apply (exed_ext h h2); auto. intros; symmetry; auto.
      * split; [congruence|]. intros m Hm. rewrite K4 by auto. auto.
    + apply (exed_ext h3 h4); auto.
  - intros m Hm NE. simpl in Hm. rewrite O4, O3, O2; auto; intro; apply Hm; subst; auto; right; apply in_or_app; auto.
  - intros qi lq EQ Hq. cbn [roots pick]. rewrite E4. cbn [gives_all fold_left]. apply G4; auto.
Qed.
End Ex.

(** ** Two forward passes in step *)
Section Agree.
Context {S P : Type} (upd : S -> L -> P -> S * L) (par : L -> P) (R Q : L -> L -> Prop).
Hypothesis upd_refs : forall s l p, same_refs l (snd (upd s l p)).
Hypothesis R_refs : forall l m, R l m -> same_refs l m.
Hypothesis upd_agree : forall s l m p, R l m -> fst (upd s l p) = fst (upd s m p) /\ Q (snd (upd s l p)) (snd (upd s m p)).
Hypothesis Q_par : forall l m, Q l m -> par l = par m.

Definition both (h g : list L) (T : L -> L -> Prop) (is : list nat) : Prop :=
  forall i, In i is -> exists l m, nth_error h i = Some l /\ nth_error g i = Some m /\ T l m.
Lemma both_frame h g h' g' T is : (forall i, In i is -> nth_error h' i = nth_error h i) -> (forall i, In i is -> nth_error g' i = nth_error g i) -> both h g T is -> both h' g' T is.
Proof. intros A B H i I. destruct (H i I) as (l & m & X). exists l, m. rewrite A, B by auto. exact X. Qed.
Lemma both_rep h g (T : L -> L -> Prop) p o f : (forall l m, T l m -> same_refs l m) -> both h g T (ids f) -> rep h p o f -> rep g p o f.
Proof.
  intros TR B. apply rep_ext. intros i l I H. destruct (B i I) as (l' & m & A1 & A2 & A3). exists m. split; auto. assert (l' = l) by congruence. subst. auto.
Qed.
Lemma walk_fwd_agree f fuel s0 h g q i p :
  rep h q (Some i) f -> NoDup (ids f) -> fsize f <= fuel -> both h g R (ids f) ->
  exists s1 h' g', walk_fwd child sibl upd par fuel s0 h i p = Some (s1, h') /\ walk_fwd child sibl upd par fuel s0 g i p = Some (s1, g')
    /\ length h' = length h /\ length g' = length g /\ both h' g' Q (ids f)
    /\ (forall j, ~ In j (ids f) -> nth_error h' j = nth_error h j) /\ (forall j, ~ In j (ids f) -> nth_error g' j = nth_error g j).
Proof.
  revert fuel s0 h g q i p. induction f as [|j k IHk r IHr]; intros fuel s0 h g q i p RR ND FU BO; [discriminate RR|].
  destruct RR as (E & l & Hl & Hp & Hk & Hr). injection E as <-.
  destruct fuel as [|fuel]; [simpl in FU; lia|]. cbn [fsize] in FU. apply le_S_n in FU.
  destruct (nodup_split _ i k r eq_refl ND) as (N1 & N2 & N3 & N4 & N5).
  destruct (BO i (or_introl eq_refl)) as (l' & m & Hl' & Hm & LM). assert (l' = l) by congruence. subst l'.
  cbn [walk_fwd]. unfold on_nth at 1 3. rewrite Hl, Hm.
  destruct (upd_refs s0 l p) as (U1 & U2 & U3). destruct (upd_refs s0 m p) as (V1 & V2 & V3). destruct (R_refs _ _ LM) as (T1 & T2 & T3).
  destruct (upd_agree s0 l m p LM) as (A1 & A2).
  destruct (upd s0 l p) as [sa la] eqn:UE. destruct (upd s0 m p) as [sm ma] eqn:VE. cbn [fst snd] in *. subst sm.
  set (h1 := set_nth i la h). set (g1 := set_nth i ma g).
  assert (E1 : nth_error h1 i = Some la) by (apply set_nth_same; eapply nth_lt; eauto).
  assert (G1 : nth_error g1 i = Some ma) by (apply set_nth_same; eapply nth_lt; eauto).
  assert (E2 : forall m, m <> i -> nth_error h1 m = nth_error h m) by (intros; apply set_nth_other; auto).
  assert (G2 : forall m, m <> i -> nth_error g1 m = nth_error g m) by (intros; apply set_nth_other; auto).
  assert (BK : both h g R (ids k)) by (intros x I; apply BO; right; apply in_or_app; auto).
  assert (BR : both h g R (ids r)) by (intros x I; apply BO; right; apply in_or_app; auto).
  assert (X1 : exists sb h2 g2, opt_walk (sibl la) (sa, h1) (fun s => walk_fwd child sibl upd par fuel sa h1 s p) = Some (sb, h2)
    /\ opt_walk (sibl ma) (sa, g1) (fun s => walk_fwd child sibl upd par fuel sa g1 s p) = Some (sb, g2)
    /\ length h2 = length h1 /\ length g2 = length g1 /\ both h2 g2 Q (ids r)
    /\ (forall j, ~ In j (ids r) -> nth_error h2 j = nth_error h1 j) /\ (forall j, ~ In j (ids r) -> nth_error g2 j = nth_error g1 j)).
  { rewrite <- U3, <- V3, <- T3. assert (Rr : rep h1 q (sibl l) r).
    { apply (rep_frame parent child sibl h); auto. intros; apply E2; intro; subst; auto. }
    destruct (sibl l) as [s|] eqn:SS; cbn [opt_walk].
    - apply (IHr fuel sa h1 g1 q s p); auto. lia. eapply both_frame; [| |exact BR]; intros x I; [apply E2|apply G2]; intro; subst; auto.
    - destruct r; [|destruct Rr as [X _]; discriminate X]. exists sa, h1, g1. repeat split; auto. intros x []. }
  destruct X1 as (sb & h2 & g2 & W1 & Y1 & L1 & M1 & F1 & O1 & P1). rewrite W1, Y1. cbn [bind].
  assert (E3 : nth_error h2 i = Some la) by (rewrite O1; auto).
  assert (G3 : nth_error g2 i = Some ma) by (rewrite P1; auto).
  unfold on_nth at 1 2. rewrite E3, G3.
  assert (X2 : exists sc h3 g3, opt_walk (child la) (sb, h2) (fun c => walk_fwd child sibl upd par fuel sb h2 c (par la)) = Some (sc, h3)
    /\ opt_walk (child ma) (sb, g2) (fun c => walk_fwd child sibl upd par fuel sb g2 c (par ma)) = Some (sc, g3)
    /\ length h3 = length h2 /\ length g3 = length g2 /\ both h3 g3 Q (ids k)
    /\ (forall j, ~ In j (ids k) -> nth_error h3 j = nth_error h2 j) /\ (forall j, ~ In j (ids k) -> nth_error g3 j = nth_error g2 j)).
  { rewrite <- U2, <- V2, <- T2, <- (Q_par _ _ A2).
    assert (FK : forall m, In m (ids k) -> nth_error h2 m = nth_error h m) by (intros x Hx; rewrite O1 by eauto; apply E2; intro; subst; auto).
    assert (GK : forall m, In m (ids k) -> nth_error g2 m = nth_error g m) by (intros x Hx; rewrite P1 by eauto; apply G2; intro; subst; auto).
    assert (Rk : rep h2 (Some i) (child l) k) by (apply (rep_frame parent child sibl h); auto).
    destruct (child l) as [s|] eqn:SS; cbn [opt_walk].
    - apply (IHk fuel sb h2 g2 (Some i) s); auto. lia. eapply both_frame; eauto.
    - destruct k; [|destruct Rk as [X _]; discriminate X]. exists sb, h2, g2. repeat split; auto. intros x []. }
  destruct X2 as (sc & h3 & g3 & W2 & Y2 & L2 & M2 & F2 & O2 & P2). exists sc, h3, g3.
  split; [exact W2|]. split; [exact Y2|]. split; [rewrite L2, L1; unfold h1; apply set_nth_length|]. split; [rewrite M2, M1; unfold g1; apply set_nth_length|]. split; [|split].
  - intros x [<-|I]; [exists la, ma; rewrite O2, P2 by auto; auto|]. apply in_app_or in I as [I|I]; [apply F2; auto|].
    apply (both_frame h2 g2 h3 g3 Q (ids r)); auto; intros y Iy; [apply O2|apply P2]; intro; eapply N5; eauto.
  - intros x Hx. simpl in Hx. rewrite O2, O1, E2; auto; intro; apply Hx; subst; auto; right; apply in_or_app; auto.
  - intros x Hx. simpl in Hx. rewrite P2, P1, G2; auto; intro; apply Hx; subst; auto; right; apply in_or_app; auto.
Qed.
End Agree.
End Walks.
