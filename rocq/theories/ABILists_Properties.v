(** * ABILists_Properties: trial forces leave the contact lists as they were (C42). *)
From Coq Require Import String List Arith Lia Bool.
From Verif Require Import Num NumFacts Vec VecFacts Motor_Model Joint_Model Body_Model Tree Tree_Proofs Link_Model Walk ABI_Model ExtQ Dyn_Properties ABI_Properties ABIEx_Spec ABIEx_Properties.
Import ListNotations.

(** ** Walks whose steps keep a view of the links keep it everywhere *)
Section Keep.
Context {L V : Type} (view : L -> V) (parent child sibl : L -> option nat).
Lemma set_view i l l' (h : list L) : nth_error h i = Some l -> view l' = view l -> map view (set_nth i l' h) = map view h.
Proof.
  revert i. induction h as [|x h IH]; intros [|i] H E; cbn in *; try discriminate.
  - injection H as ->. now rewrite E.
  - now rewrite (IH i).
Qed.
Lemma on_nth_some {B} (h : list L) i (f : L -> option B) r : on_nth h i f = Some r -> exists l, nth_error h i = Some l /\ f l = Some r.
Proof. unfold on_nth. destruct (nth_error h i); [eauto|discriminate]. Qed.
Lemma bind_some {A B} (o : option A) (f : A -> option B) r : bind o f = Some r -> exists a, o = Some a /\ f a = Some r.
Proof. destruct o; [eauto|discriminate]. Qed.
Lemma give_keeps (give : L -> L -> L) (K : forall l q, view (give l q) = view q) h i h' : give_up parent give h i = Some h' -> map view h' = map view h.
Proof.
  unfold give_up. intros H. apply on_nth_some in H as (l & Hl & H). destruct (parent l) as [p|]; [|now injection H as <-].
  apply on_nth_some in H as (q & Hq & H). injection H as <-. eapply set_view; eauto.
Qed.
Lemma ex_keeps path (reset corr : L -> L) give : (forall l, view (reset l) = view l) -> (forall l, view (corr l) = view l) -> (forall l q, view (give l q) = view q) ->
  forall n h i h', walk_ex parent child sibl path reset corr give n h i = Some h' -> map view h' = map view h.
Proof.
  intros R C G. induction n as [|n IH]; intros h i h' H; [discriminate|]. cbn [walk_ex] in H.
  apply on_nth_some in H as (l & Hl & H). apply bind_some in H as (h2 & H2 & H). apply bind_some in H as (h3 & H3 & H). apply on_nth_some in H as (l3 & Hl3 & H).
  assert (E2 : map view h2 = map view h).
  { destruct (path l).
    - assert (S : map view (set_nth i (corr (reset l)) h) = map view h) by (eapply set_view; [eauto|now rewrite C, R]).
      cbn zeta in H2. unfold opt_walk in H2. destruct (child _); [apply IH in H2; congruence|]. now injection H2 as <-.
    - injection H2 as <-. eapply set_view; eauto. }
  apply (give_keeps _ G) in H3. unfold opt_walk in H. destruct (sibl l3); [apply IH in H; congruence|]. injection H as <-. congruence.
Qed.
Lemma up_keeps (mark : L -> L) : (forall l, view (mark l) = view l) -> forall n h o h', mark_up parent mark n h o = Some h' -> map view h' = map view h.
Proof.
  intros M. induction n as [|n IH]; intros h [i|] h' H; cbn [mark_up] in H; try discriminate; try (now injection H as <-).
  apply on_nth_some in H as (l & Hl & H). apply IH in H. rewrite H. eapply set_view; eauto.
Qed.
Lemma fwd_keeps {S P} (upd : S -> L -> P -> S * L) par : (forall s l p, view (snd (upd s l p)) = view l) ->
  forall n s h i p s' h', walk_fwd child sibl upd par n s h i p = Some (s', h') -> map view h' = map view h.
Proof.
  intros U. induction n as [|n IH]; intros s h i p s' h' H; [discriminate|]. cbn [walk_fwd] in H.
  apply on_nth_some in H as (l & Hl & H). destruct (upd s l p) as [s1 l1] eqn:E1. apply bind_some in H as ([s2 h2] & H2 & H). apply on_nth_some in H as (l2 & _ & H).
  assert (S1 : map view (set_nth i l1 h) = map view h) by (eapply set_view; [eauto|]; specialize (U s l p); rewrite E1 in U; exact U).
  assert (E2 : map view h2 = map view h) by (unfold opt_walk in H2; destruct (sibl l1); [apply IH in H2; congruence|]; injection H2 as <- <-; exact S1).
  unfold opt_walk in H. destruct (child l2); [apply IH in H; congruence|]. injection H as <- <-. exact E2.
Qed.
End Keep.

Section Lists.
Context {F : Type} {N : Num F} {L : NumLaws F N} {E : Ext F} {MI : MInv F}.
Notation al := (alink F).
Notation wl := (list (wrench F)).
Definition view (l : al) : wl := ab_wl (al_a l).
Definition edit (o : option nat) (f : wl -> wl) (j : nat) (x : wl) : wl := match o with Some i => if Nat.eqb j i then f x else x | None => x end.
Lemma on_opt_view o (g : al -> al) f h h' : (forall l, view (g l) = f (view l)) -> on_opt o g h = Some h' ->
  forall j, nth_error (map view h') j = option_map (edit o f j) (nth_error (map view h) j).
Proof.
  intros G H j. destruct o as [i|]; cbn [on_opt edit] in *.
  2:{ injection H as <-. now destruct (nth_error _ j). }
  apply on_nth_some in H as (l & Hl & H). injection H as <-. rewrite !nth_error_map. destruct (Nat.eqb_spec j i) as [->|NE].
  - rewrite set_nth_same by (apply nth_error_Some; congruence). rewrite Hl. unfold edit. cbn [option_map]. rewrite Nat.eqb_refl. now rewrite G.
  - rewrite set_nth_other by auto. unfold edit. destruct (nth_error h j); cbn [option_map]; [|reflexivity]. now rewrite (proj2 (Nat.eqb_neq j i) NE).
Qed.
Lemma find_view n x (h h' : list al) : find_one n x h = Some h' ->
  forall j, nth_error (map view h') j = option_map (edit (option_map fst x) (fun q => match x with Some (_, w) => wl_push q w | None => q end) j) (nth_error (map view h) j).
Proof.
  destruct x as [[i w]|]; cbn [find_one option_map fst]; intros H j.
  - apply on_nth_some in H as (l & _ & H). apply bind_some in H as (h1 & M & H).
    apply (up_keeps view) in M; [|reflexivity]. rewrite <- M. apply (on_opt_view (Some i) (abi_push_w w)); [reflexivity|exact H].
  - injection H as <-. now destruct (nth_error _ j).
Qed.
Lemma nth_ext_eq {A} (a b : list A) : (forall j, nth_error a j = nth_error b j) -> a = b.
Proof.
  revert b. induction a as [|x a IH]; intros [|y b] H; [reflexivity|discriminate (H 0)|discriminate (H 0)|].
  specialize (H 0) as H0. cbn in H0. injection H0 as ->. f_equal. apply IH. intros j. exact (H (S j)).
Qed.
Lemma two_view br n x x2 (h h' : list al) : back_two br n x x2 h = Some h' -> map view h' = map view h.
Proof.
  unfold back_two. intros H. apply bind_some in H as (h1 & H1 & H). apply bind_some in H as (h2 & H2 & H). apply bind_some in H as (h3 & H3 & H). apply bind_some in H as (h4 & H4 & H5).
  assert (E0 : map view (map abi_unmark h) = map view h) by (rewrite map_map; reflexivity).
  assert (E3 : map view h3 = map view h2).
  { unfold back_ex in H3. eapply ex_keeps; [| | |exact H3]; [reflexivity| |reflexivity].
    intros l. unfold abi_sub_net. now destruct (ab_wl (al_a l)) eqn:Q; [|unfold view; cbn; rewrite Q]. }
  apply nth_ext_eq. intros j.
  rewrite (on_opt_view _ abi_purge_w (@tl _) _ _ (fun _ => eq_refl) H5), (on_opt_view _ abi_purge_w (@tl _) _ _ (fun _ => eq_refl) H4), E3, (find_view _ _ _ _ H2), (find_view _ _ _ _ H1), E0.
  destruct (nth_error (map view h) j) as [q|]; [|reflexivity]. cbn [option_map]. f_equal.
  destruct x as [[i w]|], x2 as [[i2 w2]|]; cbn [option_map fst edit]; try destruct (Nat.eqb j i); try destruct (Nat.eqb j i2); reflexivity.
Qed.
Definition lists (c : achain F) : list wl := map ab_wl (ac_a c).
Lemma links_put (c : achain F) br h : ac_links (ac_put c br h) = h.
Proof. unfold ac_links, ac_put. cbn. induction h as [|[l a] h IH]; [reflexivity|]. cbn. now rewrite IH. Qed.
Lemma links_view (c : achain F) : length (ac_a c) = length (c_links (ac_c c)) -> map view (ac_links c) = lists c.
Proof.
  unfold ac_links, lists. rewrite map_map. cbn. generalize (c_links (ac_c c)). induction (ac_a c) as [|a t IH]; intros [|l ls] H; try discriminate; [reflexivity|].
  cbn in *. f_equal. apply IH. lia.
Qed.
Lemma put_lists (c : achain F) br h : lists (ac_put c br h) = map view h.
Proof. unfold lists, ac_put. cbn. now rewrite map_map. Qed.

(** Whatever forces are in the lists of whatever links, a trial with up to two further forces, on different links or on the
    same one, leaves all lists as they were; so does taking it back. *)
Theorem C42_lists_kept (c : achain F) x x2 o o2 : length (ac_a c) = length (c_links (ac_c c)) ->
  (forall c', chain_abi_ex_two c x x2 = Some c' -> lists c' = lists c) /\ (forall c', chain_abi_pop_two c o o2 = Some c' -> lists c' = lists c).
Proof.
  intros LE. split; intros c' H.
  - unfold chain_abi_ex_two in H. destruct (Nat.eqb _ 0); [now injection H as <-|].
    unfold ac_lift at 1 in H. destruct (back_two _ _ x x2 _) as [h|] eqn:B; [|discriminate]. cbn [option_map obind] in H.
    unfold chain_abi_forward, ac_lift in H. rewrite links_put in H. unfold fwd_all in H. destruct (walk_fwd _ _ _ _ _ _ _ _ _) as [[u h2]|] eqn:W; [|discriminate].
    cbn [option_map snd] in H. injection H as <-. rewrite put_lists. apply (fwd_keeps view) in W; [|reflexivity]. rewrite W.
    rewrite (two_view _ _ _ _ _ _ B). now apply links_view.
  - unfold chain_abi_pop_two, ac_lift in H. destruct (pop_two o o2 _) as [h|] eqn:B; [|discriminate]. cbn [option_map] in H. injection H as <-. rewrite put_lists, <- links_view by exact LE.
    unfold pop_two in B. apply bind_some in B as (h1 & B1 & B). apply bind_some in B as (h2 & B2 & B). injection B as <-.
    rewrite map_map. transitivity (map view h2); [apply map_ext; intros l; unfold abi_pop_path; cbn zeta; now destruct (ab_path _)|].
    apply nth_ext_eq. intros j. rewrite (on_opt_view _ abi_pop_b (fun q => q) _ _ (fun _ => eq_refl) B2), (on_opt_view _ abi_pop_b (fun q => q) _ _ (fun _ => eq_refl) B1).
    destruct (nth_error (map view (ac_links c)) j) as [q|]; [|reflexivity]. cbn [option_map]. f_equal. unfold edit. destruct o, o2; try destruct (Nat.eqb _ _); try destruct (Nat.eqb _ _); reflexivity.
Qed.
End Lists.

(** A case with two forces in the list of the link that both trial forces act on is C42_ex_lists. *)
Example C42_ex_kept c' : chain_abi_ex_two amech (Some (2, wb)) (Some (2, wa)) = Some c' -> lists c' = lists amech /\ map (@length _) (lists amech) = [0; 0; 2; 0; 0].
Proof. intros H. split; [|reflexivity]. apply (proj1 (C42_lists_kept amech (Some (2, wb)) (Some (2, wa)) None None eq_refl)). exact H. Qed.

Print Assumptions C42_lists_kept.
