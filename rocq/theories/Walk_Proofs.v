(** Facts about the recursion schemes of the articulated body algorithm. *)
From Coq Require Import List Arith Lia Permutation.
From Verif Require Import Num Vec Tree Tree_Proofs Link_Model Link_Spec Link_Proofs Walk.
Import ListNotations.

Section Walks.
Context {L S P : Type} (parent child sibl : L -> option nat).
Notation rep := (@rep L parent child sibl).
Notation same_refs := (@same_refs L parent child sibl).

(** ** Backward, pushing to the parent *)
Section Back.
Context (fin : L -> L) (give : L -> L -> L).
Hypothesis fin_refs : forall l, same_refs l (fin l).
Hypothesis give_refs : forall l q, same_refs q (give l q).

Lemma same_refs_trans a b c : same_refs a b -> same_refs b c -> same_refs a c.
Proof. unfold Tree_Proofs.same_refs. intuition congruence. Qed.
Lemma same_refs_refl a : same_refs a a.
Proof. repeat split. Qed.
Lemma fold_give_refs l cs : same_refs l (fold_right give l cs).
Proof. induction cs; simpl. apply same_refs_refl. eapply same_refs_trans; eauto. Qed.

(** Every link finished once, after everything its children gave it. *)
Fixpoint backed (h h' : list L) (f : forest) : Prop :=
  match f with
  | FNil => True
  | FCons i k r => exists l, nth_error h i = Some l
                   /\ nth_error h' i = Some (fin (fold_right give l (pick h' (roots k))))
                   /\ backed h h' k /\ backed h h' r
  end.
Lemma backed_ext h1 h1' h2 h2' f :
  (forall i, In i (ids f) -> nth_error h1 i = nth_error h2 i) ->
  (forall i, In i (ids f) -> nth_error h1' i = nth_error h2' i) ->
  backed h1 h1' f -> backed h2 h2' f.
Proof.
  induction f as [|i k IHk r IHr]; simpl; intros A B; auto.
  intros (l & H1 & H2 & H3 & H4). exists l. rewrite <- A, <- B by auto.
  rewrite <- (pick_ext h1' h2').
  2:{ intros. apply B. right. apply in_or_app. left. apply roots_ids; auto. }
  repeat split; auto; [apply IHk | apply IHr]; auto; intros; [apply A|apply B|apply A|apply B]; right; apply in_or_app; auto.
Qed.
Lemma walk_back_spec f fuel h q i :
  rep h q (Some i) f -> NoDup (ids f) -> fsize f <= fuel ->
  (forall qi, q = Some qi -> ~ In qi (ids f) /\ exists lq, nth_error h qi = Some lq) ->
  exists h', walk_back parent child sibl fin give fuel h i = Some h'
    /\ length h' = length h /\ backed h h' f
    /\ (forall j, ~ In j (ids f) -> q <> Some j -> nth_error h' j = nth_error h j)
    /\ (forall qi lq, q = Some qi -> nth_error h qi = Some lq ->
          nth_error h' qi = Some (fold_right give lq (pick h' (roots f)))).
Proof.
  revert fuel h q i. induction f as [|j k IHk r IHr]; intros fuel h q i R ND FU PO; [discriminate R|].
  destruct R as (E & l & Hl & Hp & Hk & Hr). injection E as <-.
  destruct fuel as [|fuel]; [simpl in FU; lia|]. cbn [fsize] in FU. apply le_S_n in FU.
  destruct (nodup_split _ i k r eq_refl ND) as (N1 & N2 & N3 & N4 & N5).
  cbn [walk_back]. unfold on_nth at 1. rewrite Hl.
  assert (QI : forall qi, q = Some qi -> qi <> i /\ ~ In qi (ids k) /\ ~ In qi (ids r)).
  { intros qi EQ. destruct (PO qi EQ) as [A _]. simpl in A.
    repeat split; intro; apply A; subst; auto; right; apply in_or_app; auto. }
  assert (X1 : exists h1, opt_walk (sibl l) h (fun s => walk_back parent child sibl fin give fuel h s) = Some h1
     /\ length h1 = length h /\ backed h h1 r
     /\ (forall j, ~ In j (ids r) -> q <> Some j -> nth_error h1 j = nth_error h j)
     /\ (forall qi lq, q = Some qi -> nth_error h qi = Some lq ->
          nth_error h1 qi = Some (fold_right give lq (pick h1 (roots r))))).
  { destruct (sibl l) as [s|] eqn:SS; cbn [opt_walk].
    - apply (IHr fuel h q s); auto. lia. intros qi EQ. split. apply (QI qi EQ). apply (PO qi EQ).
    - destruct r; [|destruct Hr as [X _]; discriminate X]. exists h. repeat split; auto. }
  destruct X1 as (h1 & W1 & L1 & B1 & O1 & G1). rewrite W1. cbn [bind].
  assert (Hl1 : nth_error h1 i = Some l).
  { rewrite O1; auto. intro EQ. destruct (QI i EQ); auto. }
  unfold on_nth at 1. rewrite Hl1.
  assert (Rk : rep h1 (Some i) (child l) k).
  { apply (rep_frame parent child sibl h); auto. intros m Hm. apply O1. intro; eapply N5; eauto.
    intro EQ. destruct (QI m EQ) as (_ & A & _). auto. }
  assert (X2 : exists h2, opt_walk (child l) h1 (fun s => walk_back parent child sibl fin give fuel h1 s) = Some h2
     /\ length h2 = length h1 /\ backed h1 h2 k
     /\ (forall j, ~ In j (ids k) -> i <> j -> nth_error h2 j = nth_error h1 j)
     /\ nth_error h2 i = Some (fold_right give l (pick h2 (roots k)))).
  { destruct (child l) as [s|] eqn:SS; cbn [opt_walk].
    - destruct (IHk fuel h1 (Some i) s) as (h2 & A & B & C & D & G); auto. lia.
      { intros qi EQ. injection EQ as <-. split; auto. exists l; auto. }
      exists h2. repeat split; auto. intros; apply D; auto. congruence.
    - destruct k; [|destruct Rk as [X _]; discriminate X]. exists h1. repeat split; auto. }
  destruct X2 as (h2 & W2 & L2 & B2 & O2 & G2). rewrite W2. cbn [bind].
  unfold back_self, on_nth at 1. rewrite G2.
  set (li := fin (fold_right give l (pick h2 (roots k)))).
  assert (PL : parent li = q).
  { unfold li. destruct (fin_refs (fold_right give l (pick h2 (roots k)))) as (A & _ & _). rewrite <- A.
    destruct (fold_give_refs l (pick h2 (roots k))) as (B & _ & _). rewrite <- B. auto. }
  rewrite PL.
  assert (I2 : i < length h2) by (eapply nth_lt; eauto).
  set (h3 := set_nth i li h2).
  assert (E3 : nth_error h3 i = Some li) by (apply set_nth_same; auto).
  assert (O3 : forall j, j <> i -> nth_error h3 j = nth_error h2 j) by (intros; apply set_nth_other; auto).
  (* the array after the whole call *)
  assert (X4 : exists h4, opt_walk q h3 (fun q0 => on_nth h3 q0 (fun lq => Some (set_nth q0 (give li lq) h3))) = Some h4
     /\ length h4 = length h3 /\ (forall j, q <> Some j -> nth_error h4 j = nth_error h3 j)
     /\ (forall qi lq, q = Some qi -> nth_error h3 qi = Some lq -> nth_error h4 qi = Some (give li lq))).
  { destruct q as [qi|]; cbn [opt_walk].
    - destruct (PO qi eq_refl) as (_ & lq & Hq). destruct (QI qi eq_refl) as (Q1 & Q2 & Q3).
      assert (qi < length h3).
      { unfold h3. rewrite set_nth_length, L2, L1. eapply nth_lt; eauto. }
      destruct (nth_error h3 qi) as [lq3|] eqn:Hq3; [|apply nth_error_None in Hq3; lia].
      unfold on_nth. rewrite Hq3. eexists; split; [reflexivity|]. rewrite set_nth_length. repeat split; auto.
      + intros. apply set_nth_other. congruence.
      + intros qi0 lq0 EQ HH. injection EQ as <-. rewrite set_nth_same by auto. congruence.
    - exists h3. repeat split; auto. intros; discriminate. }
  destruct X4 as (h4 & W4 & L4 & O4 & G4). exists h4.
  split; [exact W4|]. split; [rewrite L4; unfold h3; rewrite set_nth_length; lia|].
  assert (NQ : forall j, In j (i :: ids k ++ ids r) -> q <> Some j).
  { intros m Hm EQ. destruct (PO m EQ) as [A _]. apply A. exact Hm. }
  assert (K4 : forall j, In j (ids k) -> nth_error h4 j = nth_error h2 j).
  { intros m Hm. rewrite O4, O3; auto. intro; subst; auto. apply NQ. right; apply in_or_app; auto. }
  assert (R4 : forall j, In j (ids r) -> nth_error h4 j = nth_error h1 j).
  { intros m Hm. rewrite O4, O3, O2; auto. intro; eapply N5; eauto. intro; subst; auto. intro; subst; auto.
    apply NQ. right; apply in_or_app; auto. }
  split.
  { exists l. repeat split; auto.
    - rewrite O4 by (apply NQ; simpl; auto). rewrite E3. unfold li. do 3 f_equal.
      apply pick_ext. intros. symmetry. apply K4. apply roots_ids; auto.
    - apply (backed_ext h1 h2); auto.
      + intros m Hm. apply O1. intro; eapply N5; eauto. apply NQ. right; apply in_or_app; auto.
      + intros; symmetry; auto.
    - apply (backed_ext h h1); auto. intros; symmetry; auto. }
  split.
  { intros m Hm NE. simpl in Hm. rewrite O4, O3, O2, O1; auto; intro; apply Hm; subst; auto; right; apply in_or_app; auto. }
  intros qi lq EQ Hq. destruct (QI qi EQ) as (Q1 & Q2 & Q3).
  cbn [roots pick]. rewrite (O4 i) by (apply NQ; simpl; auto). rewrite E3.
  rewrite (pick_ext h4 h1) by (intros; apply R4; apply roots_ids; auto).
  cbn [fold_right]. apply G4; auto. rewrite O3, O2; auto.
Qed.
End Back.

(** ** Forward *)
Section Fwd.
Context (upd : S -> L -> P -> S * L) (par : L -> P) (R : S -> S -> Prop).
Hypothesis upd_refs : forall s l p, same_refs l (snd (upd s l p)).
Hypothesis R_refl : forall s, R s s.
Hypothesis R_trans : forall a b c, R a b -> R b c -> R a c.
Hypothesis upd_R : forall s l p, R s (fst (upd s l p)).

(** Every link updated once, with parameters read from its updated parent and a state between [s0] and [s1]. *)
Fixpoint fwded (s0 s1 : S) (h h' : list L) (f : forest) (p : P) : Prop :=
  match f with
  | FNil => True
  | FCons i k r => exists l s, nth_error h i = Some l /\ R s0 s /\ R (fst (upd s l p)) s1
                   /\ nth_error h' i = Some (snd (upd s l p))
                   /\ fwded s0 s1 h h' k (par (snd (upd s l p))) /\ fwded s0 s1 h h' r p
  end.
Lemma fwded_ext s0 s1 h1 h1' h2 h2' f p :
  (forall i, In i (ids f) -> nth_error h1 i = nth_error h2 i) ->
  (forall i, In i (ids f) -> nth_error h1' i = nth_error h2' i) ->
  fwded s0 s1 h1 h1' f p -> fwded s0 s1 h2 h2' f p.
Proof.
  revert p. induction f as [|i k IHk r IHr]; simpl; intros p A B; auto.
  intros (l & s & H1 & H2 & H3 & H4 & H5 & H6). exists l, s. rewrite <- A, <- B by auto.
  repeat split; auto; [apply IHk | apply IHr]; auto; intros; [apply A|apply B|apply A|apply B]; right; apply in_or_app; auto.
Qed.
Lemma fwded_states s0 s1 t0 t1 h h' f p : R t0 s0 -> R s1 t1 -> fwded s0 s1 h h' f p -> fwded t0 t1 h h' f p.
Proof.
  revert p. induction f as [|i k IHk r IHr]; simpl; intros p A B; auto.
  intros (l & s & H1 & H2 & H3 & H4 & H5 & H6). exists l, s. repeat split; eauto.
Qed.
Lemma walk_fwd_spec f fuel s0 h q i p :
  rep h q (Some i) f -> NoDup (ids f) -> fsize f <= fuel ->
  exists s1 h', walk_fwd child sibl upd par fuel s0 h i p = Some (s1, h')
    /\ R s0 s1 /\ length h' = length h /\ fwded s0 s1 h h' f p
    /\ (forall j, ~ In j (ids f) -> nth_error h' j = nth_error h j).
Proof.
  revert fuel s0 h q i p. induction f as [|j k IHk r IHr]; intros fuel s0 h q i p RR ND FU; [discriminate RR|].
  destruct RR as (E & l & Hl & Hp & Hk & Hr). injection E as <-.
  destruct fuel as [|fuel]; [simpl in FU; lia|]. cbn [fsize] in FU. apply le_S_n in FU.
  destruct (nodup_split _ i k r eq_refl ND) as (N1 & N2 & N3 & N4 & N5).
  cbn [walk_fwd]. unfold on_nth at 1. rewrite Hl.
  destruct (upd_refs s0 l p) as (U1 & U2 & U3). pose proof (upd_R s0 l p) as UR.
  destruct (upd s0 l p) as [sa la] eqn:UE. cbn [fst snd] in *.
  set (h1 := set_nth i la h).
  assert (E1 : nth_error h1 i = Some la) by (apply set_nth_same; eapply nth_lt; eauto).
  assert (E2 : forall m, m <> i -> nth_error h1 m = nth_error h m) by (intros; apply set_nth_other; auto).
  assert (X1 : exists sb h2, opt_walk (sibl la) (sa, h1) (fun s => walk_fwd child sibl upd par fuel sa h1 s p) = Some (sb, h2)
    /\ R sa sb /\ length h2 = length h1 /\ fwded sa sb h1 h2 r p
    /\ (forall j, ~ In j (ids r) -> nth_error h2 j = nth_error h1 j)).
  { rewrite <- U3. assert (Rr : rep h1 q (sibl l) r).
    { apply (rep_frame parent child sibl h); auto. intros; apply E2; intro; subst; auto. }
    destruct (sibl l) as [s|] eqn:SS; cbn [opt_walk].
    - apply (IHr fuel sa h1 q s p); auto. lia.
    - destruct r; [|destruct Rr as [X _]; discriminate X]. exists sa, h1. repeat split; auto. }
  destruct X1 as (sb & h2 & W1 & R1 & L1 & F1 & O1). rewrite W1. cbn [bind].
  assert (E3 : nth_error h2 i = Some la) by (rewrite O1; auto).
  unfold on_nth at 1. rewrite E3.
  assert (X2 : exists sc h3, opt_walk (child la) (sb, h2) (fun c => walk_fwd child sibl upd par fuel sb h2 c (par la)) = Some (sc, h3)
    /\ R sb sc /\ length h3 = length h2 /\ fwded sb sc h2 h3 k (par la)
    /\ (forall j, ~ In j (ids k) -> nth_error h3 j = nth_error h2 j)).
  { rewrite <- U2. assert (Rk : rep h2 (Some i) (child l) k).
    { apply (rep_frame parent child sibl h); auto. intros m Hm. rewrite O1 by eauto. apply E2; intro; subst; auto. }
    destruct (child l) as [s|] eqn:SS; cbn [opt_walk].
    - apply (IHk fuel sb h2 (Some i) s); auto. lia.
    - destruct k; [|destruct Rk as [X _]; discriminate X]. exists sb, h2. repeat split; auto. }
  destruct X2 as (sc & h3 & W2 & R2 & L2 & F2 & O2). exists sc, h3.
  split; [exact W2|]. split; [eauto|]. split; [rewrite L2, L1; unfold h1; apply set_nth_length|]. split.
  - exists l, s0. rewrite UE. cbn [fst snd]. repeat split; eauto.
    + rewrite O2; auto.
    + apply (fwded_states sb sc); eauto. apply (fwded_ext sb sc h2 h3); auto.
      intros m Hm. rewrite O1 by eauto. apply E2; intro; subst; auto.
    + apply (fwded_states sa sb); auto. apply (fwded_ext sa sb h1 h2); auto.
      * intros m Hm. apply E2; intro; subst; auto.
      * intros m Hm. symmetry. apply O2. intro; eapply N5; eauto.
  - intros m Hm. simpl in Hm. rewrite O2, O1, E2; auto; intro; apply Hm; subst; auto; right; apply in_or_app; auto.
Qed.
End Fwd.
End Walks.

(** ** The passes link by link *)
Section Point.
Context {L S P : Type} (parent child sibl : L -> option nat).
Lemma backed_find fin give (h h' : list L) f i ki : backed fin give h h' f -> find_kids f i = Some ki ->
  exists l, nth_error h i = Some l /\ nth_error h' i = Some (fin (fold_right give l (pick h' (roots ki)))).
Proof.
  induction f as [|j k IHk r IHr]; cbn [backed find_kids]; [discriminate|].
  intros (l & H1 & H2 & H3 & H4). destruct (Nat.eqb_spec i j) as [->|].
  - intros H. injection H as <-. eauto.
  - destruct (find_kids k i) as [x|]; auto.
Qed.
Lemma fwded_point (upd : S -> L -> P -> S * L) (par : L -> P) R s0 s1 (h h' : list L) f i pa q0 o :
  rep parent child sibl h q0 o f -> fwded upd par R s0 s1 h h' f pa -> In i (ids f) ->
  exists l s p, nth_error h i = Some l /\ R s0 s /\ R (fst (upd s l p)) s1 /\ nth_error h' i = Some (snd (upd s l p)) /\
    ((parent l = q0 /\ p = pa) \/ exists q lq, parent l = Some q /\ nth_error h' q = Some lq /\ p = par lq).
Proof.
  revert q0 o pa. induction f as [|j k IHk r IHr]; cbn [fwded ids]; [contradiction|]. intros q0 o pa RP (l & s & H1 & H2 & H3 & H4 & H5 & H6) I.
  destruct RP as (_ & l0 & Hl & Hp & Hk & Hr). assert (l0 = l) by congruence. subst l0.
  destruct I as [->|I].
  - exists l, s, pa. repeat split; auto.
  - apply in_app_or in I as [I|I].
    + destruct (IHk _ _ _ Hk H5 I) as (l' & s' & p & A & B & C & D & X). exists l', s', p. repeat split; auto.
      destruct X as [[X ->]|X]; [right|right; exact X]. exists j. eexists. eauto.
    + exact (IHr _ _ _ Hr H6 I).
Qed.
End Point.
