(** * ABI_Two: one or two additional forces, and histories of trials. *)
From Coq Require Import List Arith Lia Permutation Field.
From Verif Require Import Num NumFacts Vec VecFacts Motor_Model Joint_Model Joint_Spec Joint_Proofs Body_Model Body_Proofs
  Tree Tree_Proofs Link_Model Link_Spec Link_Proofs Chain_Proofs Link_Properties Chain_Properties Kin_Spec Kin_Proofs
  Dyn_Spec Dyn_Proofs Walk Walk_Proofs Walk_Ex ABI_Model ABI_Spec ABI_Alg ABI_Proofs ABIEx_Spec ABI_Ex ABI_Trial.
Import ListNotations.
Local Open Scope nat_scope.

Section A.
Context {F : Type} {N : Num F} {L : NumLaws F N} {E : Ext F} {MI : MInv F}.
Add Field FField : num_field.
Local Open Scope num_scope.
Notation lk := (link F).
Notation al := (alink F).
Notation arep := (@rep al al_parent al_child al_sibl).
Notation asame := (@same_refs al al_parent al_child al_sibl).
Notation on_path := (fun l : al => ab_path (al_a l)).
Notation whole k := (FCons 0 k FNil).

(** ** Climbing to the root *)
Lemma up_exists (h : list al) p o f tp i : arep h p o f -> up al_parent h p tp -> In i (ids f) ->
  exists t l, nth_error h i = Some l /\ up al_parent h (al_parent l) t /\ (length t <= length tp + fsize f)%nat.
Proof.
  revert p o tp. induction f as [|j k IHk r IHr]; intros p o tp R U; [contradiction|]. destruct R as (_ & l & Hl & Hp & Rk & Rr). intros [->|I].
  - exists tp, l. rewrite Hp. repeat split; auto. lia.
  - cbn [fsize]. apply in_app_or in I as [I|I].
    + destruct (IHk _ _ (j :: tp) Rk) as (t & m & A & B & C); auto. { cbn. split; [reflexivity|]. exists l. rewrite Hp. auto. }
      exists t, m. repeat split; auto. cbn in C. lia.
    + destruct (IHr _ _ tp Rr) as (t & m & A & B & C); auto. exists t, m. repeat split; auto. lia.
Qed.
Lemma up_closes (h : list al) o t : up al_parent h o t ->
  (forall p, o = Some p -> In p t) /\ forall j l p, In j t -> nth_error h j = Some l -> al_parent l = Some p -> In p t.
Proof.
  revert o. induction t as [|i t IH]; intros o; cbn [up]; [intros ->; split; [discriminate|intros ? ? ? []]|]. intros (-> & l & Hl & U). destruct (IH _ U) as [A B]. split.
  - intros p Q. injection Q as ->. left; auto.
  - intros j m p [<-|I] Hj HP; right; [assert (m = l) by congruence; subst; auto|eapply B; eauto].
Qed.
Definition isin (j : nat) (t : list nat) : bool := existsb (Nat.eqb j) t.
Lemma isin_in j t : isin j t = true <-> In j t.
Proof. unfold isin. rewrite existsb_exists. split; [intros (x & I & Q); apply Nat.eqb_eq in Q; subst; auto|intros I; exists j; rewrite Nat.eqb_refl; auto]. Qed.
Definition put_on (x : option (nat * wrench F)) (j : nat) (l : al) : al := match x with Some (i, w) => if Nat.eqb j i then abi_push_w w l else l | None => l end.
Definition mark_in (t : list nat) (j : nat) (l : al) : al := if isin j t then abi_mark l else l.
(** [t] leads from the link of the force to the root. *)
Definition leads (h : list al) (x : option (nat * wrench F)) (t : list nat) : Prop :=
  (forall j l p, In j t -> nth_error h j = Some l -> al_parent l = Some p -> In p t) /\
  (forall i w l p, x = Some (i, w) -> nth_error h i = Some l -> al_parent l = Some p -> In p t).
Lemma leads_ext (h g : list al) x t : length g = length h -> (forall i l, nth_error h i = Some l -> exists m, nth_error g i = Some m /\ asame l m) -> leads h x t -> leads g x t.
Proof.
  intros LE H [A B].
  assert (G : forall j m, nth_error g j = Some m -> exists l, nth_error h j = Some l /\ al_parent l = al_parent m).
  { intros j m Hm. destruct (nth_error h j) as [l|] eqn:Hl.
    - exists l. split; [reflexivity|]. destruct (H j l Hl) as (m' & Hm' & Q & _). congruence.
    - apply nth_error_None in Hl. apply nth_lt in Hm. lia. }
  split.
  - intros j m p I Hm HP. destruct (G j m Hm) as (l & Hl & Q). apply (A j l p I Hl). congruence.
  - intros i w m p X Hm HP. destruct (G i m Hm) as (l & Hl & Q). apply (B i w l p X Hl). congruence.
Qed.
Lemma on_opt_nth (h : list al) i f l0 : nth_error h i = Some l0 -> exists h', on_opt (Some i) f h = Some h' /\ length h' = length h /\
  forall j l, nth_error h j = Some l -> nth_error h' j = Some (if Nat.eqb j i then f l else l).
Proof.
  intros H. unfold on_opt, on_nth. rewrite H. eexists. split; [reflexivity|]. split; [apply set_nth_length|]. intros j l Hj. destruct (Nat.eqb_spec j i) as [->|NE].
  - assert (l0 = l) by congruence. subst. apply set_nth_same. eapply nth_lt; eauto.
  - rewrite set_nth_other; auto.
Qed.
Lemma find_one_spec n x (h : list al) k : atree h k -> (length h <= n)%nat -> match x with Some (i, _) => (i < length h)%nat | None => True end ->
  exists h' t, find_one n x h = Some h' /\ length h' = length h /\ leads h x t /\
    forall j l, nth_error h j = Some l -> nth_error h' j = Some (put_on x j (mark_in t j l)).
Proof.
  intros T FU OK. destruct x as [[i w]|]; cbn [find_one].
  2:{ exists h, []. split; [reflexivity|]. split; [reflexivity|]. split; [split; [intros ? ? ? []|intros; discriminate]|]. intros j l Hl. exact Hl. }
  destruct (up_exists h _ _ _ [] i (proj1 T)) as (t & l & Hl & U & LT); [reflexivity|now apply (whole_in _ _ _ T)|].
  rewrite (atree_size _ _ T) in LT. unfold on_nth at 1. rewrite Hl.
  destruct (mark_up_spec (L := al) al_parent al_child al_sibl abi_mark mark_refs) with (t := t) (fuel := n) (h := h) (o := al_parent l) as (h1 & M1 & M2 & M3); [reflexivity|exact U|cbn in LT; lia|].
  rewrite M1. cbn [bind]. destruct (on_opt_nth h1 i (abi_push_w w) _ (M3 i l Hl)) as (h' & O1 & O2 & O3).
  exists h', t. split; [exact O1|]. split; [congruence|]. split.
  - destruct (up_closes _ _ _ U) as [A B]. split; [exact B|]. intros i' w' l' p Q Hl' HP. injection Q as <- <-. apply A. congruence.
  - intros j m Hm. cbn [put_on]. rewrite (O3 j _ (M3 j m Hm)). reflexivity.
Qed.

(** The heap with the trial forces on it. *)
Lemma two_marked n x x2 (h : list al) k : atree h k -> (length h <= n)%nat ->
  match x with Some (i, _) => (i < length h)%nat | None => True end -> match x2 with Some (i, _) => (i < length h)%nat | None => True end ->
  (forall i l, nth_error h i = Some l -> ab_wl (al_a l) = []) ->
  exists h4, bind (find_one n x (map abi_unmark h)) (find_one n x2) = Some h4 /\ length h4 = length h /\ atree h4 k /\ pclosed h4 (whole k) /\
    forall j l, nth_error h j = Some l -> exists b, nth_error h4 j = Some (al_map_a (fun a => ab_set_path b (ab_set_wl (forces_on x x2 j) a)) l).
Proof.
  intros T FU OK OK2 WN. set (hu := map abi_unmark h).
  assert (LU : length hu = length h) by (unfold hu; now rewrite map_length).
  assert (HU : forall j l, nth_error h j = Some l -> nth_error hu j = Some (abi_unmark l)) by (intros j l Hl; unfold hu; rewrite nth_error_map, Hl; reflexivity).
  assert (TU : atree hu k).
  { eapply atree_ext; [exact LU| |exact T]. intros i l Hl. eexists; split; [apply HU; eauto|]. repeat split. }
  destruct (find_one_spec n x hu k TU) as (h1 & t1 & A1 & A2 & A3 & A4); [lia|rewrite LU; exact OK|]. rewrite A1. cbn [bind].
  assert (SR : forall x t j l, asame l (put_on x j (mark_in t j l))).
  { intros x0 t j l. unfold put_on, mark_in. destruct (isin j t), x0 as [[i w]|]; try destruct (Nat.eqb j i); repeat split. }
  assert (T1 : atree h1 k) by (eapply atree_ext; [exact A2| |exact TU]; intros i l Hl; eexists; split; [apply A4; exact Hl|apply SR]).
  destruct (find_one_spec n x2 h1 k T1) as (h4 & t2 & B1 & B2 & B3 & B4); [lia|rewrite A2, LU; exact OK2|]. exists h4. split; [exact B1|]. split; [congruence|].
  assert (T4 : atree h4 k) by (eapply atree_ext; [exact B2| |exact T1]; intros i l Hl; eexists; split; [apply B4; exact Hl|apply SR]).
  split; [exact T4|].
  assert (H4 : forall j l, nth_error h j = Some l -> nth_error h4 j = Some (al_map_a (fun a => ab_set_path (orb (isin j t2) (isin j t1)) (ab_set_wl (forces_on x x2 j) a)) l)).
  { intros j l Hl. rewrite (B4 j _ (A4 j _ (HU j l Hl))). f_equal. pose proof (WN j l Hl) as W. unfold put_on, mark_in, forces_on, abi_unmark, abi_mark, abi_push_w, wl_push.
    destruct l as [l []]. cbn in W. subst.
    destruct (isin j t1), (isin j t2), x as [[i w]|], x2 as [[i2 w2]|]; try destruct (Nat.eqb j i); try destruct (Nat.eqb j i2); reflexivity. }
  split; [|intros j l Hl; eauto].
  eapply up_pclosed; [apply T4|]. intros j l4 p I Hj HO HP.
  assert (exists l, nth_error h j = Some l) as [l Hl] by (eapply whole_nth; eauto).
  assert (E4 : l4 = al_map_a (fun a => ab_set_path (orb (isin j t2) (isin j t1)) (ab_set_wl (forces_on x x2 j) a)) l) by (rewrite (H4 j l Hl) in Hj; congruence).
  assert (PP : al_parent l = Some p) by (subst l4; exact HP).
  assert (PT : In p t1 \/ In p t2).
  { assert (L1 : leads h x t1).
    { apply (leads_ext hu); [auto| |exact A3]. intros i m Hm. unfold hu in Hm. rewrite nth_error_map in Hm. destruct (nth_error h i) as [m0|]; [|discriminate]. injection Hm as <-.
      eexists. split; [reflexivity|]. repeat split. }
    assert (L2 : leads h x2 t2).
    { apply (leads_ext h1); [congruence| |exact B3]. intros i m Hm. assert (IL : (i < length h)%nat) by (rewrite <- LU, <- A2; eapply nth_lt; eauto).
      destruct (nth_error h i) as [m0|] eqn:Hm0; [|apply nth_error_None in Hm0; lia]. exists m0. split; [reflexivity|].
      rewrite (A4 i _ (HU i m0 Hm0)) in Hm. injection Hm as <-. pose proof (SR x t1 i (abi_unmark m0)) as (Q1 & Q2 & Q3). unfold same_refs. rewrite <- Q1, <- Q2, <- Q3. repeat split. }
    destruct L1 as [C1 C2], L2 as [D1 D2]. unfold abi_holds in HO. subst l4. cbn [al_map_a al_a ab_set_path ab_path ab_set_wl ab_wl] in HO.
    destruct (isin j t2) eqn:I2; [right; apply isin_in in I2; eauto|]. destruct (isin j t1) eqn:I1; [left; apply isin_in in I1; eauto|]. cbn [orb] in HO.
    unfold forces_on in HO. destruct x2 as [[i2 w2]|]; [destruct (Nat.eqb_spec j i2) as [->|]; [right; eauto|]|];
    (destruct x as [[i w]|]; [destruct (Nat.eqb_spec j i) as [->|]; [left; eauto|]|]; discriminate HO). }
  destruct (atree_parent _ _ _ _ _ T Hl PP) as [lp Hp]. eexists. split; [apply H4; exact Hp|]. cbn [al_map_a al_a ab_set_path ab_path].
  destruct PT as [PT|PT]; apply isin_in in PT; rewrite PT; auto using Bool.orb_true_r.
Qed.

(** ** Two forces *)
Lemma bind_assoc {A B C} (x : option A) (f : A -> option B) (g : B -> option C) : bind (bind x f) g = bind x (fun a => bind (f a) g).
Proof. now destruct x. Qed.
Definition purge_at (x : option (nat * wrench F)) (j : nat) (l : al) : al := match x with Some (i, _) => if Nat.eqb j i then abi_purge_w l else l | None => l end.
Lemma purge_spec x (h : list al) : match x with Some (i, _) => (i < length h)%nat | None => True end ->
  exists h', on_opt (option_map fst x) abi_purge_w h = Some h' /\ length h' = length h /\ forall j l, nth_error h j = Some l -> nth_error h' j = Some (purge_at x j l).
Proof.
  destruct x as [[i w]|]; cbn [option_map fst]; intros OK.
  - destruct (nth_error h i) as [l0|] eqn:H0; [|apply nth_error_None in H0; lia]. destruct (on_opt_nth h i abi_purge_w l0 H0) as (h' & A & B & C). exists h'. auto.
  - exists h. auto.
Qed.
Definition aims (x x2 : option (nat * wrench F)) (j : nat) : bool :=
  orb (match x with Some (i, _) => Nat.eqb j i | None => false end) (match x2 with Some (i, _) => Nat.eqb j i | None => false end).
Lemma load_two_nth (x x2 : option (nat * wrench F)) (c : achain F) i : (i < length (ac_a c))%nat -> nth i (map (forces_on x x2) (seq 0 (length (ac_a c)))) [] = forces_on x x2 i.
Proof.
  intros H. apply nth_error_nth. rewrite nth_error_map. rewrite nth_error_nth' with (d := 0%nat) by (rewrite seq_length; exact H). rewrite seq_nth by exact H. reflexivity.
Qed.
Lemma two_back B g (c : achain F) k x x2 h2 h : ready_for B g c k h2 h -> on_chain c x -> on_chain c x2 ->
  exists g2 h5, obind (chain_abi_init g (more_two x x2 c)) chain_abi_backward = Some (ac_put c (ac_br c) g2) /\ length g2 = length (ac_links c) /\ atree g2 k /\
    ac_lift (ac_put c (ac_br c) h) (fun n => back_two (ac_br c) n x x2) = Some (ac_put c (ac_br c) h5) /\ length h5 = length h /\ atree h5 k /\
    both h5 g2 (fore B) (ids (whole k)) /\
    forall j l, nth_error h j = Some l -> exists l5 b, nth_error h5 j = Some l5 /\ rest l5 = rest (al_map_a (ab_set_path b) l) /\
      (b = false -> aims x x2 j = false -> ab_b (al_a l5) = ab_b (al_a l)).
Proof.
  intros (W & T & BA & LE & TH & SE) O1 O2.
  assert (LA : length (ac_a c) = length h) by (destruct W as [W LE']; rewrite LE, LE'; symmetry; now apply ac_links_len).
  assert (WN : forall i l, nth_error h i = Some l -> ab_wl (al_a l) = []).
  { intros i l Hl. assert (I : In i (ids (whole k))) by (eapply atree_in; eauto). destruct (SE i I) as (l2 & l' & _ & A2 & _ & A4 & _). congruence. }
  unfold on_chain in O1, O2. rewrite LA in O1, O2.
  destruct (two_marked (S (length h)) x x2 h k TH) as (h4 & M1 & M2 & M3 & M4 & M5); auto.
  destruct (ex_heap B g c k (map (forces_on x x2) (seq 0 (length (ac_a c)))) h2 h h4) as (g2 & h5 & X1 & X2 & X3 & X4 & X5 & X6 & X7 & X8 & X9); auto.
  { now rewrite map_length, seq_length. }
  { intros i l I Hl. destruct (M5 i l Hl) as [b Hb]. exists b. rewrite load_two_nth by (rewrite LA; eapply nth_lt; eauto). exact Hb. }
  destruct (purge_spec x h5) as (h6 & P1 & P2 & P3); [rewrite X5, M2; exact O1|].
  destruct (purge_spec x2 h6) as (h7 & P4 & P5 & P6); [rewrite P2, X5, M2; exact O2|].
  assert (H7 : forall j l, nth_error h j = Some l -> exists l5 b, nth_error h5 j = Some l5 /\ nth_error h7 j = Some (al_wl [] l5) /\ rest l5 = rest (al_map_a (fun a => ab_set_path b (ab_set_wl (forces_on x x2 j) a)) l)
     /\ (b = false -> aims x x2 j = false -> ab_b (al_a l5) = ab_b (al_a l))).
  { intros j l Hl. destruct (M5 j l Hl) as [b Hb]. destruct (both_nth _ _ _ _ j _ M3 X8 Hb) as (l5 & H5 & R5). exists l5, b. split; [exact H5|]. split; [|split; [exact R5|]].
    - rewrite (P6 j _ (P3 j l5 H5)). f_equal. apply rest_eq in R5 as (_&_&_&_&R5&_). cbn [al_map_a al_a ab_set_path ab_set_wl ab_wl] in R5. revert R5. clear.
      unfold purge_at, al_wl, abi_purge_w, forces_on. destruct l5 as [l5 []]. cbn. intros ->. destruct x as [[i w]|], x2 as [[i2 w2]|]; try destruct (Nat.eqb j i); try destruct (Nat.eqb j i2); reflexivity.
    - intros -> AI. rewrite (exed_off (ac_br c) h4 h5 (whole k) j _ X6 (atree_in _ _ _ _ TH Hl) Hb) in H5; [|reflexivity|].
      + injection H5 as <-. reflexivity.
      + cbn. revert AI. unfold forces_on, aims. clear. destruct x as [[i w]|], x2 as [[i2 w2]|]; try destruct (Nat.eqb j i); try destruct (Nat.eqb j i2); cbn; auto; discriminate. }
  assert (L7 : length h7 = length h) by congruence.
  assert (B57 : both h5 h7 (fun l5 l7 => l7 = al_wl [] l5) (ids (whole k))).
  { apply both_of; [exact X9|]. intros j l5 H5. destruct (whole_nth h k j TH) as [l Hl]; [eapply atree_in; eauto|]. destruct (H7 j l Hl) as (l5' & b & A1 & A2 & _). assert (l5' = l5) by congruence. subst. eauto. }
  exists g2, h7. split; [exact X1|]. split; [exact X2|]. split; [exact X3|]. split.
  { unfold ac_lift, back_two. rewrite ac_links_put, ac_put_fuel. rewrite <- bind_assoc, M1. cbn [bind]. rewrite M2 in X4. rewrite X4. cbn [bind]. rewrite P1. cbn [bind]. rewrite P4. reflexivity. }
  split; [exact L7|]. split; [eapply both_atree; [|exact X9|congruence|exact B57]; intros l m ->; repeat split|]. split.
  - intros j I. destruct (B57 j I) as (l5 & l7 & A1 & A2 & ->). destruct (X7 j I) as (l5' & m & A3 & A4 & A5). assert (l5' = l5) by congruence. subst. exists (al_wl [] l5), m. split; [auto|]. split; auto.
  - intros j l Hl. destruct (H7 j l Hl) as (l5 & b & A1 & A2 & A3 & A4). eexists. exists b. split; [exact A2|]. split; [|exact A4].
    apply rest_eq in A3 as (R1&R2&R3&R4&R5&R6&R7&R8&R9&R10). unfold rest, al_wl. cbn [al_map_a al_l al_a ab_set_wl ab_i ab_f ab_c ab_wl ab_w ab_iaxi ab_path ab_b0 ab_a0].
    rewrite R1,R2,R3,R4,R6,R7,R8,R9,R10. cbn. rewrite (WN j l Hl). reflexivity.
Qed.
Theorem two_same g (c : achain F) k x x2 h2 h : ready_for (eq (ac_br c)) g c k h2 h -> on_chain c x -> on_chain c x2 ->
  exists h6 g3, chain_abi_ex_two (ac_put c (ac_br c) h) x x2 = Some (ac_put c (ac_br c) h6) /\ chain_abi_update g (more_two x x2 c) = Some (ac_put c (ac_br c) g3) /\
    atree h6 k /\ length g3 = length h6 /\ both h6 g3 same_out (ids (whole k)) /\ length h6 = length h /\
    forall j l, nth_error h j = Some l -> exists l5 b p, nth_error h6 j = Some (abi_fwd (ac_br c) l5 p) /\ rest l5 = rest (al_map_a (ab_set_path b) l) /\
      (b = false -> aims x x2 j = false -> ab_b (al_a l5) = ab_b (al_a l)).
Proof.
  intros R O1 O2. destruct (two_back _ g c k x x2 h2 h R O1 O2) as (g2 & h5 & X1 & X2 & X3 & X4 & X5 & X6 & X7 & X8).
  pose proof (ready_size _ g c k h2 h (ac_br c) R) as NZ. destruct R as (W & T & BA & LE & TH & SE).
  destruct (fwd_agree (ac_br c) (S (length h5)) h5 g2 k X6) as (h6 & g3 & A1 & A2 & A3 & A4 & A5); [lia|exact X7|].
  destruct (fwd_spec (ac_br c) (S (length h5)) h5 k X6) as (h6' & A1' & A3' & A6 & T6); [lia|]. assert (h6' = h6) by congruence. subst h6'.
  exists h6, g3. split.
  { unfold chain_abi_ex_two. destruct (Nat.eqb_spec (chain_joint_size (ac_c (ac_put c (ac_br c) h))) 0) as [|_]; [contradiction|].
    change (ac_br (ac_put c (ac_br c) h)) with (ac_br c). rewrite X4. cbn [obind]. rewrite forward_put, A1. reflexivity. }
  split.
  { assert (NZ0 : chain_joint_size (ac_c (more_two x x2 c)) <> 0%nat) by exact (base_nz _ _ _ _ BA). destruct (update_via g (more_two x x2 c) _ NZ0 X1) as [-> _].
    rewrite forward_put. replace (length g2) with (length h5) by congruence. rewrite A2. reflexivity. }
  split; [exact T6|]. split; [congruence|]. split; [exact A5|]. split; [congruence|].
  intros j l Hl. destruct (X8 j l Hl) as (l5 & b & H5 & R5 & C5). destruct (both_nth _ _ _ _ j _ X6 A6 H5) as (l6 & H6 & p & ->). exists l5, b, p. auto.
Qed.

(** ** Taking the state back *)
(** [held br l3 l]: the link is as it was when the state was pushed, except for the acceleration of its joint. *)
Definition held br (l3 l : al) : Prop :=
  after (eq br) l3 l /\ al_acc l = al_acc l3 /\ ab_wl (al_a l) = [] /\ ab_b (al_a l) = ab_b (al_a l3) /\ ab_b0 (al_a l) = ab_b (al_a l3) /\ ab_a0 (al_a l) = al_acc l3.
Lemma held_step br (l3 l l5 l7 : al) b p : held br l3 l -> rest l5 = rest (al_map_a (ab_set_path b) (al_wl (ab_wl (al_a l5)) l)) ->
  al_l l7 = l_set_body (b_set_acc (ab_a0 (al_a l)) (l_body (al_l (abi_fwd br l5 p)))) (al_l (abi_fwd br l5 p)) ->
  ab_b (al_a l7) = ab_b (al_a l) -> ab_wl (al_a l7) = [] ->
  ab_i (al_a l7) = ab_i (al_a l) -> ab_f (al_a l7) = ab_f (al_a l) -> ab_c (al_a l7) = ab_c (al_a l) -> ab_iaxi (al_a l7) = ab_iaxi (al_a l) -> ab_w (al_a l7) = ab_w (al_a l) ->
  ab_b0 (al_a l7) = ab_b0 (al_a l) -> ab_a0 (al_a l7) = ab_a0 (al_a l) -> held br l3 l7.
Proof.
  intros (H1 & H2 & H3 & H4 & H5 & H6) R EL E1 E2 E3 E4 E5 E6 E7 E8 E9. apply rest_eq in R as (R1 & _). cbn [al_map_a al_wl al_l] in R1.
  set (q := joint_qacc br (al_joint l5) (ab_i (al_a l5)) (ab_b (al_a l5)) (v6add (xform6lin (l_adj (al_l l5)) p) (ab_c (al_a l5))) (ab_iaxi (al_a l5)) (al_acc l5)).
  assert (EQ : al_l l7 = dress (fst q) (al_acc l) (al_l l)).
  { rewrite EL, fwd_dress. cbv zeta. fold q. cbn [al_l]. rewrite R1, H6, H2. destruct (al_l l) as [? ? []]. reflexivity. }
  assert (A7 : after (eq br) l l7).
  { unfold after, al_joint. rewrite EQ. split; [apply dress_skel|]. split.
    - unfold q, al_acc, al_joint. rewrite R1. unfold al_acc. rewrite EQ. cbn. apply jlike_back; auto.
    - do 5 (split; [assumption|]). cbn. unfold q, al_joint. rewrite R1. apply jkept_qacc. }
  split; [eapply after_trans; eauto|]. split; [unfold al_acc; rewrite EQ; exact H2|]. split; [exact E2|]. do 2 (split; [congruence|]). congruence.
Qed.
Definition keeps br k (h3 h : list al) : Prop := both h3 h (held br) (ids (whole k)).
Lemma held_settled B br (l2 l3 l : al) : B = eq br -> after B l2 l3 -> ab_b (al_a l3) = ab_b (al_a l2) -> held br l3 l -> after B l2 l /\ ab_wl (al_a l) = [] /\ ab_b (al_a l) = ab_b (al_a l2).
Proof. intros -> A1 A2 (H1 & H2 & H3 & H4 & _). split; [eapply after_trans; eauto|]. split; congruence. Qed.
Lemma keeps_ready g (c : achain F) k h2 h3 h : ready_for (eq (ac_br c)) g c k h2 h3 -> length h = length h3 -> keeps (ac_br c) k h3 h -> ready_for (eq (ac_br c)) g c k h2 h.
Proof.
  intros (W & T & BA & LE & TH & SE) LH K. unfold ready_for. do 3 (split; [assumption|]). split; [congruence|]. split.
  - eapply both_atree; [|exact TH|exact LH|exact K]. intros l m (A & _). eapply after_refs; eauto.
  - intros i I. destruct (SE i I) as (l2 & l3 & A1 & A2 & A3 & A4 & A5). destruct (K i I) as (l3' & l & B1 & B2 & B3). assert (l3' = l3) by congruence. subst.
    exists l2, l. split; [exact A1|]. split; [exact B2|]. eapply held_settled; eauto.
Qed.
Definition pop_at (x : option (nat * wrench F)) (j : nat) (l : al) : al := match x with Some (i, _) => if Nat.eqb j i then abi_pop_b l else l | None => l end.
Lemma pop_two_spec x x2 (h : list al) : match x with Some (i, _) => (i < length h)%nat | None => True end -> match x2 with Some (i, _) => (i < length h)%nat | None => True end ->
  exists h', pop_two (option_map fst x) (option_map fst x2) h = Some h' /\ length h' = length h /\
    forall j l, nth_error h j = Some l -> nth_error h' j = Some (abi_pop_path (pop_at x2 j (pop_at x j l))).
Proof.
  intros O1 O2. unfold pop_two.
  assert (G : forall x (h : list al), match x with Some (i, _) => (i < length h)%nat | None => True end ->
    exists h', on_opt (option_map fst x) abi_pop_b h = Some h' /\ length h' = length h /\ forall j l, nth_error h j = Some l -> nth_error h' j = Some (pop_at x j l)).
  { clear. intros x h OK. destruct x as [[i w]|]; cbn [option_map fst].
    - destruct (nth_error h i) as [l0|] eqn:H0; [|apply nth_error_None in H0; lia]. destruct (on_opt_nth h i abi_pop_b l0 H0) as (h' & A & B & C). exists h'. auto.
    - exists h. auto. }
  destruct (G x h O1) as (h1 & A1 & A2 & A3). rewrite A1. cbn [bind]. destruct (G x2 h1) as (h2 & B1 & B2 & B3); [rewrite A2; exact O2|]. rewrite B1. cbn [bind].
  eexists. split; [reflexivity|]. split; [rewrite map_length; congruence|]. intros j l Hl. rewrite nth_error_map, (B3 j _ (A3 j l Hl)). reflexivity.
Qed.
Lemma pop_link x x2 j (l : al) : let l7 := abi_pop_path (pop_at x2 j (pop_at x j l)) in
  al_l l7 = l_set_body (b_set_acc (ab_a0 (al_a l)) (l_body (al_l l))) (al_l l) /\
  al_a l7 = (if orb (aims x x2 j) (ab_path (al_a l)) then ab_set_b (ab_b0 (al_a l)) (al_a l) else al_a l).
Proof.
  cbv zeta. unfold abi_pop_path, pop_at, aims. destruct l as [l [a1 a2 a3 a4 a5 a6 a7 a8 a9 a10 pa a12 a13]]. destruct x as [[i w]|], x2 as [[i2 w2]|]; try destruct (Nat.eqb j i); try destruct (Nat.eqb j i2); destruct pa; split; reflexivity.
Qed.
Lemma step_two g (c : achain F) k x x2 h2 h3 h : ready_for (eq (ac_br c)) g c k h2 h3 -> length h = length h3 -> keeps (ac_br c) k h3 h -> on_chain c x -> on_chain c x2 ->
  exists c6 h7, chain_abi_ex_two (ac_put c (ac_br c) h) x x2 = Some c6 /\ chain_abi_pop_two c6 (option_map fst x) (option_map fst x2) = Some (ac_put c (ac_br c) h7) /\
    length h7 = length h3 /\ keeps (ac_br c) k h3 h7.
Proof.
  intros R3 LH K O1 O2. pose proof (keeps_ready _ _ _ _ _ _ R3 LH K) as R. destruct (two_same g c k x x2 h2 h R O1 O2) as (h6 & g3 & A1 & _ & A3 & _ & _ & A6 & A7).
  assert (LA : length (ac_a c) = length h).
  { destruct R as (W & T & BA & LE & TH & SE). destruct W as [W LE']. rewrite LE, LE'. symmetry. now apply ac_links_len. }
  unfold on_chain in O1, O2. rewrite LA, <- A6 in O1, O2. destruct (pop_two_spec x x2 h6 O1 O2) as (h7 & P1 & P2 & P3).
  eexists. exists h7. split; [exact A1|]. split; [|split; [congruence|]].
  - unfold chain_abi_pop_two, ac_lift. rewrite ac_links_put, P1. reflexivity.
  - intros i I. destruct (K i I) as (l3 & l & B1 & B2 & B3). destruct (A7 i l B2) as (l5 & b & p & H6 & R5 & C5). exists l3. eexists. split; [exact B1|]. split; [apply P3; exact H6|].
    pose proof B3 as (HA & HB & HC & HD & HE & HF).
    pose proof (pop_link x x2 i (abi_fwd (ac_br c) l5 p)) as PL. cbv zeta in PL. destruct PL as [PL1 PL2]. change (al_a (abi_fwd (ac_br c) l5 p)) with (al_a l5) in PL1, PL2.
    assert (R5' := R5). apply rest_eq in R5' as (R51&R52&R53&R54&R55&R56&R57&R58&R59&R510). cbn [al_map_a al_l al_a ab_set_path ab_i ab_f ab_c ab_wl ab_w ab_iaxi ab_path ab_b0 ab_a0] in *.
    eapply (held_step (ac_br c) l3 l l5 _ b p B3); [|rewrite PL1, R510; reflexivity|..]; try (rewrite PL2; destruct (orb _ _); cbn; congruence).
    + rewrite R5. unfold al_wl. rewrite R55. destruct l as [l []]. reflexivity.
    + rewrite PL2. destruct (aims x x2 i) eqn:AI; [cbn; congruence|]. destruct (ab_path (al_a l5)) eqn:PA; [cbn; congruence|]. cbn [orb]. apply C5; congruence.
Qed.
Lemma pop_put (c : achain F) b h : chain_abi_pop (ac_put c b h) = ac_put c b (map abi_pop h).
Proof. unfold chain_abi_pop. rewrite ac_links_put. reflexivity. Qed.
Lemma load_put ws (c : achain F) b h : length ws = length h -> load ws (ac_put c b h) = ac_put c b (map (fun x => al_wl (snd x) (fst x)) (combine h ws)).
Proof.
  intros LE. unfold load, ac_put. cbn [ac_c ac_a ac_br]. f_equal.
  - f_equal. revert ws LE. induction h as [|l h IH]; intros [|w ws] LE; try discriminate; [reflexivity|]. cbn. f_equal. apply IH. cbn in LE. congruence.
  - revert ws LE. induction h as [|l h IH]; intros [|w ws] LE; try discriminate; [reflexivity|]. cbn. f_equal. apply IH. cbn in LE. congruence.
Qed.
Lemma nth_unload (h : list al) (ws : list (wlist F)) i l : nth_error h i = Some l -> length ws = length h ->
  nth_error (map (fun x => al_wl (snd x) (fst x)) (combine h (map (fun _ => []) ws))) i = Some (al_wl [] l).
Proof. revert i ws. induction h as [|m h IH]; intros [|i] [|w ws]; cbn; intros H LE; try discriminate; [congruence|]. apply IH; auto. Qed.
Lemma step_full g (c : achain F) k ws h2 h3 h : ready_for (eq (ac_br c)) g c k h2 h3 -> length h = length h3 -> keeps (ac_br c) k h3 h -> length ws = length (ac_a c) ->
  exists c6 h7, chain_abi_ex (load ws (ac_put c (ac_br c) h)) = Some c6 /\ load (map (fun _ => []) ws) (chain_abi_pop c6) = ac_put c (ac_br c) h7 /\
    length h7 = length h3 /\ keeps (ac_br c) k h3 h7.
Proof.
  intros R3 LH K LW. pose proof (keeps_ready _ _ _ _ _ _ R3 LH K) as R. destruct (ex_same _ g c k ws h2 h R LW eq_refl) as (h6 & g3 & A1 & _ & A3 & _ & _ & A6 & A7).
  assert (LA : length (ac_a c) = length h).
  { destruct R as (W & T & BA & LE & TH & SE). destruct W as [W LE']. rewrite LE, LE'. symmetry. now apply ac_links_len. }
  eexists. eexists. split; [exact A1|]. split; [rewrite pop_put; apply load_put; rewrite !map_length; congruence|]. split; [rewrite map_length, combine_length, !map_length; lia|].
  intros i I. destruct (K i I) as (l3 & l & B1 & B2 & B3). destruct (A7 i I) as (l' & l6 & H & H6 & l5 & b & p & R5 & ->). assert (l' = l) by congruence. subst l'.
  exists l3. eexists. split; [exact B1|]. split.
  { apply nth_unload; [rewrite nth_error_map, H6; reflexivity|rewrite map_length; congruence]. }
  cbn [fst snd]. pose proof B3 as (HA & HB & HC & HD & HE & HF).
  assert (R5' := R5). apply rest_eq in R5' as (R51&R52&R53&R54&R55&R56&R57&R58&R59&R510). cbn [al_map_a al_wl al_l al_a ab_set_path ab_set_wl ab_i ab_f ab_c ab_wl ab_w ab_iaxi ab_path ab_b0 ab_a0] in *.
  eapply (held_step (ac_br c) l3 l l5 _ b p B3 R5); cbn; congruence.
Qed.
Lemma trials_keep g (c : achain F) k ts h2 h3 h : ready_for (eq (ac_br c)) g c k h2 h3 -> length h = length h3 -> keeps (ac_br c) k h3 h -> Forall (trial_ok c) ts ->
  exists h7, run_trials (ac_put c (ac_br c) h) ts = Some (ac_put c (ac_br c) h7) /\ length h7 = length h3 /\ keeps (ac_br c) k h3 h7.
Proof.
  intros R3. revert h. induction ts as [|t ts IH]; intros h LH K OK; [exists h; auto|]. inversion_clear OK as [|? ? O1 O2]. cbn [run_trials].
  destruct t as [x x2|ws]; cbn [evaluate take_back trial_ok] in *.
  - destruct (step_two g c k x x2 h2 h3 h R3 LH K (proj1 O1) (proj2 O1)) as (c6 & h7 & A1 & A2 & A3 & A4). rewrite A1. cbn [obind]. rewrite A2. cbn [obind]. apply IH; auto.
  - destruct (step_full g c k ws h2 h3 h R3 LH K O1) as (c6 & h7 & A1 & A2 & A3 & A4). rewrite A1. cbn [obind]. rewrite A2. apply IH; auto.
Qed.
End A.
