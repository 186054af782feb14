(** * CD_Proofs: invariants of the collision detector. *)

From Coq Require Import Bool List Arith Lia.
From Verif Require Import Num Vec CD_Model CD_Spec.
Import ListNotations.

Section Proofs.
Context {F BX AB : Type} {N : Num F} {X : CDExt F BX AB}.
Notation cell := (cell F BX AB).
Notation cd := (cd F BX AB).
Notation pair := (pair F).
Notation op := (op F).
Implicit Types (cs : list cell) (c : cell) (ps : list pair) (p : pair) (s : cd).

(** ** Cells by address *)

Lemma get_cell_in cs a c : get_cell cs a = Some c -> In c cs /\ k_addr c = a.
Proof. intros H. apply find_some in H. destruct H as [H K]. apply Nat.eqb_eq in K. tauto. Qed.

Lemma get_cell_some cs c : NoDup (map k_addr cs) -> In c cs -> get_cell cs (k_addr c) = Some c.
Proof.
  unfold get_cell. induction cs as [|x tl IH]; intros D H; [destruct H|].
  cbn [map] in D. inversion D as [|? ? D1 D2]; subst. cbn [find].
  destruct (k_addr x =? k_addr c) eqn:E.
  - destruct H as [->|H]; [reflexivity|]. apply Nat.eqb_eq in E. exfalso. apply D1. rewrite E.
    now apply in_map.
  - destruct H as [->|H]; [now rewrite Nat.eqb_refl in E|]. now apply IH.
Qed.

Lemma get_cell_none cs a : get_cell cs a = None <-> ~ In a (map k_addr cs).
Proof.
  unfold get_cell. induction cs as [|x tl IH]; [cbn; tauto|]. cbn [find map In].
  destruct (k_addr x =? a) eqn:E.
  - apply Nat.eqb_eq in E. split; [discriminate | intros H; exfalso; apply H; now left].
  - apply Nat.eqb_neq in E. rewrite IH. tauto.
Qed.

Lemma addr_inj cs a b : NoDup (map k_addr cs) -> In a cs -> In b cs -> k_addr a = k_addr b -> a = b.
Proof.
  intros D Ha Hb E. assert (K := get_cell_some _ _ D Ha). rewrite E in K.
  rewrite (get_cell_some _ _ D Hb) in K. congruence.
Qed.

(** ** Registry invariants *)

Lemma get2_of s p a b : get2 (d_cells s) p = Some (a, b) -> of_cells s p a b.
Proof.
  unfold get2. destruct (get_cell _ (p_c0 p)) eqn:E0; [|discriminate].
  destruct (get_cell _ (p_c1 p)) eqn:E1; [|discriminate]. intros H. injection H as -> ->.
  apply get_cell_in in E0. apply get_cell_in in E1. unfold of_cells. tauto.
Qed.

Lemma of_get2 s p a b : NoDup (map k_addr (d_cells s)) -> of_cells s p a b -> get2 (d_cells s) p = Some (a, b).
Proof.
  intros D (Ha & Hb & E0 & E1). unfold get2. rewrite <- E0, <- E1.
  now rewrite (get_cell_some _ _ D Ha), (get_cell_some _ _ D Hb).
Qed.

Lemma pairs_with_spec (q : cell -> cell -> bool) cs ps r :
  pairs_with q cs ps = Some r ->
  r = filter (fun p => match get2 cs p with Some (a, b) => q a b | None => false end) ps /\
  (forall p, In p ps -> get2 cs p <> None).
Proof.
  revert r. induction ps as [|p tl IH]; intros r H; cbn [pairs_with] in H.
  - injection H as <-. split; [reflexivity | intros p []].
  - destruct (get2 cs p) as [[a b]|] eqn:E; [|discriminate].
    destruct (pairs_with q cs tl) as [r1|]; [|discriminate]. injection H as <-.
    destruct (IH _ eq_refl) as [-> K]. cbn [filter]. rewrite E. split; [reflexivity|].
    intros x [<-|Hx]; [now rewrite E | now apply K].
Qed.

Lemma pairs_with_some (q : cell -> cell -> bool) cs ps :
  (forall p, In p ps -> get2 cs p <> None) -> exists r, pairs_with q cs ps = Some r.
Proof.
  induction ps as [|p tl IH]; intros H; cbn [pairs_with]; [eauto|].
  destruct (get2 cs p) as [[a b]|] eqn:E.
  - destruct IH as [r ->]; [intros x Hx; apply H; now right|]. eauto.
  - exfalso. now apply (H p (or_introl eq_refl)).
Qed.

Lemma fop_filter {A} (R : A -> A -> Prop) (f : A -> bool) l :
  ForallOrdPairs R l -> ForallOrdPairs R (filter f l).
Proof.
  induction 1 as [|a l H K IH]; cbn; [constructor|]. destruct (f a); [|assumption].
  constructor; [|assumption]. apply Forall_forall. intros x Hx. apply filter_In in Hx.
  rewrite Forall_forall in H. now apply H.
Qed.

Lemma fop_app {A} (R : A -> A -> Prop) l1 l2 :
  ForallOrdPairs R l1 -> ForallOrdPairs R l2 -> (forall x y, In x l1 -> In y l2 -> R x y) ->
  ForallOrdPairs R (l1 ++ l2).
Proof.
  induction 1 as [|a l H K IH]; intros H2 C; cbn; [assumption|].
  constructor.
  - apply Forall_app. split; [assumption|]. apply Forall_forall. intros y Hy. apply C; [now left | assumption].
  - apply IH; [assumption|]. intros x y Hx Hy. apply C; [now right | assumption].
Qed.

Lemma fop_map {A B} (R : B -> B -> Prop) (Q : A -> A -> Prop) (f : A -> B) l :
  (forall x y, Q x y -> R (f x) (f y)) -> ForallOrdPairs Q l -> ForallOrdPairs R (map f l).
Proof.
  intros M. induction 1 as [|a l H K IH]; cbn; [constructor|]. constructor; [|assumption].
  apply Forall_forall. intros y Hy. apply in_map_iff in Hy. destruct Hy as (z & <- & Hz).
  apply M. rewrite Forall_forall in H. now apply H.
Qed.

(** The invariant of the registry as a property of the address list. *)
Definition pairs_ok (cs : list cell) (ps : list pair) : Prop :=
  NoDup (map k_addr cs) /\
  (forall p, In p ps -> In (p_c0 p) (map k_addr cs) /\ In (p_c1 p) (map k_addr cs) /\ p_c0 p <> p_c1 p) /\
  ForallOrdPairs (fun p q => ~ same_pair p q) ps.

Lemma pairs_ok_consistent s : pairs_ok (d_cells s) (d_pairs s) <-> consistent s.
Proof.
  unfold pairs_ok, consistent. split; intros (D & P & Q); (split; [assumption|split; [|assumption]]).
  - intros p Hp. destruct (P _ Hp) as (H0 & H1 & H2).
    apply in_map_iff in H0. destruct H0 as (a & Ea & Ha). apply in_map_iff in H1. destruct H1 as (b & Eb & Hb).
    exists a, b. unfold of_cells. repeat split; auto. intros ->. congruence.
  - intros p Hp. destruct (P _ Hp) as (a & b & (Ha & Hb & Ea & Eb) & Hab). rewrite <- Ea, <- Eb.
    split; [now apply in_map|]. split; [now apply in_map|]. intros E. apply Hab. eapply addr_inj; eauto.
Qed.

Lemma ok_get2 cs ps p : pairs_ok cs ps -> In p ps -> get2 cs p <> None.
Proof.
  intros (D & P & _) Hp. destruct (P _ Hp) as (H0 & H1 & _). unfold get2.
  destruct (get_cell cs (p_c0 p)) eqn:E0; [|now apply get_cell_none in E0].
  destruct (get_cell cs (p_c1 p)) eqn:E1; [discriminate | now apply get_cell_none in E1].
Qed.

Lemma keep_spec q s s' : keep q s = Some s' ->
  d_cells s' = d_cells s /\ d_num s' = d_num s /\
  d_pairs s' = filter (fun p => match get2 (d_cells s) p with Some (a, b) => negb (q a b) | None => false end) (d_pairs s).
Proof.
  unfold keep. destruct (pairs_with _ _ _) eqn:E; [|discriminate]. intros H. injection H as <-.
  cbn [d_cells d_pairs d_num]. apply pairs_with_spec in E. tauto.
Qed.

Lemma keep_ok q s s' : keep q s = Some s' -> pairs_ok (d_cells s) (d_pairs s) -> pairs_ok (d_cells s') (d_pairs s').
Proof.
  intros H (D & P & Q). destruct (keep_spec _ _ _ H) as (-> & _ & ->). split; [assumption|]. split.
  - intros p Hp. apply filter_In in Hp. apply P. tauto.
  - now apply fop_filter.
Qed.

Lemma new_pairs_in l1 l2 cs p : In p (new_pairs l1 l2 cs) <->
  exists pre a mid b post, cs = pre ++ a :: mid ++ b :: post /\ joins l1 l2 a b = true /\ p = pair_new (k_addr a) (k_addr b).
Proof.
  induction cs as [|x tl IH]; cbn [new_pairs].
  - split; [intros [] | intros (pre & a & mid & b & post & E & _)]. destruct pre; discriminate.
  - rewrite in_app_iff, in_map_iff, IH. split.
    + intros [(b & <- & Hb)|(pre & a & mid & b & post & -> & J & ->)].
      * apply filter_In in Hb. destruct Hb as [Hb J]. apply in_split in Hb. destruct Hb as (mid & post & ->).
        exists [], x, mid, b, post. cbn. auto.
      * exists (x :: pre), a, mid, b, post. cbn. auto.
    + intros (pre & a & mid & b & post & E & J & ->). destruct pre as [|y pre]; cbn in E; injection E as <- ->.
      * left. exists b. split; [reflexivity|]. apply filter_In. split; [apply in_elt | assumption].
      * right. exists pre, a, mid, b, post. auto.
Qed.

Lemma nodup_elt cs (pre : list cell) a mid b post :
  NoDup (map k_addr cs) -> cs = pre ++ a :: mid ++ b :: post -> k_addr a <> k_addr b.
Proof.
  intros D ->. rewrite map_app in D. cbn [map] in D. apply NoDup_remove_2 in D.
  intros E. apply D. rewrite in_app_iff. right. rewrite map_app, in_app_iff. right. cbn. now left.
Qed.

Lemma new_pairs_ok l1 l2 cs : NoDup (map k_addr cs) ->
  ForallOrdPairs (fun p q => ~ same_pair p q) (new_pairs l1 l2 cs).
Proof.
  induction cs as [|x tl IH]; intros D; cbn [new_pairs]; [constructor|].
  cbn [map] in D. inversion D as [|? ? D1 D2]; subst. apply fop_app; [|now apply IH|].
  - assert (D3 : NoDup (map k_addr (filter (joins l1 l2 x) tl))).
    { clear - D2. induction tl as [|y tl IH]; cbn; [constructor|]. cbn in D2. inversion D2; subst.
      destruct (joins l1 l2 x y); cbn; [|auto]. constructor; [|auto].
      intros H. apply H1. apply in_map_iff in H. destruct H as (z & E & Hz). apply filter_In in Hz.
      rewrite <- E. apply in_map. tauto. }
    assert (D4 : forall y, In y (filter (joins l1 l2 x) tl) -> k_addr y <> k_addr x).
    { intros y Hy E. apply filter_In in Hy. apply D1. rewrite <- E. apply in_map. tauto. }
    induction (filter (joins l1 l2 x) tl) as [|y r IHr]; cbn; [constructor|].
    cbn in D3. inversion D3; subst. constructor.
    + apply Forall_forall. intros q Hq. apply in_map_iff in Hq. destruct Hq as (z & <- & Hz).
      intros [[_ K]|[K _]]; cbn in K.
      * apply H1. rewrite K. now apply in_map.
      * apply (D4 z (or_intror Hz)). now symmetry.
    + apply IHr; [assumption|]. intros z Hz. apply D4. now right.
  - intros p q Hp Hq. apply in_map_iff in Hp. destruct Hp as (y & <- & Hy).
    apply new_pairs_in in Hq. destruct Hq as (pre & a & mid & b & post & E & J & ->).
    intros S. apply D1. unfold same_pair in S. cbn in S.
    assert (Ia : In (k_addr a) (map k_addr tl)) by (rewrite E; apply in_map, in_elt).
    assert (Ib : In (k_addr b) (map k_addr tl)).
    { rewrite E. apply in_map. apply in_or_app. right. right. apply in_elt. }
    destruct S as [[-> _]|[-> _]]; assumption.
Qed.

Lemma pair_reg_cases l1 l2 s s' : pair_reg l1 l2 s = Some s' ->
  (s' = s /\ exists p a b, In p (d_pairs s) /\ get2 (d_cells s) p = Some (a, b) /\ joins l1 l2 a b = true) \/
  (s' = CD (d_cells s) (d_pairs s ++ new_pairs l1 l2 (d_cells s)) (d_num s) /\
   forall p a b, In p (d_pairs s) -> get2 (d_cells s) p = Some (a, b) -> joins l1 l2 a b = false).
Proof.
  unfold pair_reg. destruct (pairs_with _ _ _) as [r|] eqn:E; [|discriminate].
  apply pairs_with_spec in E. destruct E as [E _]. destruct r as [|p r]; intros H; injection H as <-.
  - right. split; [reflexivity|]. intros p a b Hp K. destruct (joins l1 l2 a b) eqn:J; [|reflexivity].
    exfalso. assert (Hin : In p []).
    { rewrite E. apply filter_In. rewrite K. auto. }
    destruct Hin.
  - left. split; [reflexivity|]. assert (Hin : In p (p :: r)) by now left. rewrite E in Hin.
    apply filter_In in Hin. destruct Hin as [Hp K]. destruct (get2 (d_cells s) p) as [[a b]|] eqn:G; [|discriminate].
    eauto 6.
Qed.

Lemma pair_reg_ok l1 l2 s s' : pair_reg l1 l2 s = Some s' ->
  pairs_ok (d_cells s) (d_pairs s) -> pairs_ok (d_cells s') (d_pairs s').
Proof.
  intros H (D & P & Q). apply pair_reg_cases in H. destruct H as [[-> _]|[-> H]]; [now split|].
  cbn [d_cells d_pairs]. split; [assumption|]. split.
  - intros p Hp. apply in_app_or in Hp. destruct Hp as [Hp|Hp]; [now apply P|].
    apply new_pairs_in in Hp. destruct Hp as (pre & a & mid & b & post & E & J & ->). cbn.
    split; [rewrite E; apply in_map, in_elt|]. split; [|now apply (nodup_elt _ _ _ _ _ _ D E)].
    rewrite E. apply in_map. apply in_or_app. right. right. apply in_elt.
  - apply fop_app; [assumption | now apply new_pairs_ok|].
    intros p q Hp Hq S. apply new_pairs_in in Hq. destruct Hq as (pre & a & mid & b & post & E & J & ->).
    destruct (get2 (d_cells s) p) as [[x y]|] eqn:G.
    2:{ apply (ok_get2 (d_cells s) (d_pairs s) p); [now split | assumption | assumption]. }
    assert (J' := H _ _ _ Hp G). apply get2_of in G. destruct G as (Hx & Hy & Ex & Ey).
    assert (Ia : In a (d_cells s)) by (rewrite E; apply in_elt).
    assert (Ib : In b (d_cells s)) by (rewrite E; apply in_or_app; right; right; apply in_elt).
    unfold same_pair in S. cbn in S. rewrite <- Ex, <- Ey in S.
    assert (JJ : joins l1 l2 x y = true).
    { destruct S as [[S0 S1]|[S0 S1]].
      - rewrite (addr_inj _ _ _ D Hx Ia S0), (addr_inj _ _ _ D Hy Ib S1). exact J.
      - rewrite (addr_inj _ _ _ D Hx Ib S0), (addr_inj _ _ _ D Hy Ia S1).
        unfold joins in *. apply orb_true_iff in J. apply orb_true_iff.
        rewrite !andb_true_iff in *. tauto. }
    congruence.
Qed.

Lemma pairable_self (c : cell) : pairable c c = false.
Proof. unfold pairable. rewrite Nat.eqb_refl. cbn [negb]. now rewrite andb_false_r. Qed.

(** One cell registered. *)
Lemma cell_reg_ok cs ps c : pairs_ok cs ps -> get_cell cs (k_addr c) = None ->
  pairs_ok (cs ++ [c]) (if (1 <? length (cs ++ [c])) then ps ++ pair_cell_reg (cs ++ [c]) c else ps).
Proof.
  intros (D & P & Q) G. apply get_cell_none in G.
  assert (D' : NoDup (map k_addr (cs ++ [c]))).
  { rewrite map_app. cbn. apply NoDup_rev in D. rewrite <- (rev_involutive (map k_addr cs ++ _)).
    apply NoDup_rev. rewrite rev_app_distr. cbn. constructor; [now rewrite <- in_rev | assumption]. }
  assert (I : forall a, In a (map k_addr cs) -> In a (map k_addr (cs ++ [c]))).
  { intros a Ha. rewrite map_app. apply in_or_app. now left. }
  assert (Ic : In (k_addr c) (map k_addr (cs ++ [c]))).
  { rewrite map_app. apply in_or_app. right. now left. }
  assert (X1 : forall p, In p (pair_cell_reg (cs ++ [c]) c) ->
            exists x, In x cs /\ p = pair_new (k_addr x) (k_addr c)).
  { intros p Hp. unfold pair_cell_reg in Hp. apply in_map_iff in Hp. destruct Hp as (x & <- & Hx).
    apply filter_In in Hx. destruct Hx as [Hx K]. apply in_app_or in Hx. destruct Hx as [Hx|[<-|[]]]; [eauto|].
    now rewrite pairable_self in K. }
  destruct (1 <? length (cs ++ [c])).
  - split; [assumption|]. split.
    + intros p Hp. apply in_app_or in Hp. destruct Hp as [Hp|Hp].
      * destruct (P _ Hp) as (H0 & H1 & H2). auto.
      * destruct (X1 _ Hp) as (x & Hx & ->). cbn. repeat split; auto; [apply I; now apply in_map|].
        intros E. apply G. rewrite <- E. now apply in_map.
    + apply fop_app; [assumption| |].
      * unfold pair_cell_reg. apply fop_map with (Q := fun x y : cell => k_addr x <> k_addr y /\ k_addr x <> k_addr c).
        -- intros x y [K1 K2] [[S _]|[S _]]; cbn in S; congruence.
        -- assert (NoDup (map k_addr cs)) by assumption. rewrite filter_app. cbn. rewrite pairable_self, app_nil_r.
           assert (Gf : ~ In (k_addr c) (map k_addr cs)) by assumption. clear - H Gf.
           induction cs as [|x tl IH]; cbn; [constructor|]. cbn in H, Gf. inversion H; subst.
           destruct (pairable c x); [|apply IH; tauto]. constructor; [|apply IH; tauto].
           apply Forall_forall. intros y Hy. apply filter_In in Hy. split; [|intros E; apply Gf; now left].
           intros E. apply H2. rewrite E. apply in_map. tauto.
      * intros p q Hp Hq S. destruct (X1 _ Hq) as (x & Hx & ->). destruct (P _ Hp) as (H0 & H1 & _).
        unfold same_pair in S. cbn in S. destruct S as [[_ S]|[S _]]; apply G; congruence.
  - split; [assumption|]. split; [|assumption].
    intros p Hp. destruct (P _ Hp) as (H0 & H1 & H2). auto.
Qed.

Lemma chain_reg_ok w chain ty ss s s' : chain_reg w chain ty ss s = Some s' ->
  pairs_ok (d_cells s) (d_pairs s) -> pairs_ok (d_cells s') (d_pairs s').
Proof.
  revert s. induction ss as [|[[l a] sh] tl IH]; intros s H P; cbn [chain_reg] in H.
  - injection H as <-. assumption.
  - destruct (get_cell (d_cells s) a) eqn:G; [discriminate|]. apply IH in H; [assumption|]. cbn [d_cells d_pairs].
    apply (cell_reg_ok _ _ (cell_create w a chain l sh ty)); assumption.
Qed.

(** Deleting the cells of a chain after its pairs. *)
Lemma chain_unreg_spec (c : nat) s s' : chain_unreg c s = Some s' ->
  d_cells s' = filter (fun x => negb (k_chain x =? c)) (d_cells s) /\ d_num s' = d_num s /\
  d_pairs s' = filter (fun p => match get2 (d_cells s) p with
                                | Some (a, b) => negb ((k_chain a =? c) || (k_chain b =? c))
                                | None => false end) (d_pairs s).
Proof.
  unfold chain_unreg. destruct (keep _ s) as [s1|] eqn:E; [|discriminate]. intros H. injection H as <-.
  apply keep_spec in E. destruct E as (E1 & E2 & E3). cbn [d_cells d_pairs d_num].
  rewrite E1, E2, E3. auto.
Qed.

Lemma chain_unreg_ok (c : nat) s s' : chain_unreg c s = Some s' ->
  pairs_ok (d_cells s) (d_pairs s) -> pairs_ok (d_cells s') (d_pairs s').
Proof.
  intros H (D & P & Q). apply chain_unreg_spec in H. destruct H as (-> & _ & ->). split.
  - clear - D. induction (d_cells s) as [|x tl IH]; cbn; [constructor|]. cbn in D. inversion D; subst.
    destruct (negb (k_chain x =? c)); cbn; [|auto]. constructor; [|auto].
    intros K. apply H1. apply in_map_iff in K. destruct K as (z & E & Hz). apply filter_In in Hz.
    rewrite <- E. apply in_map. tauto.
  - split; [|now apply fop_filter]. intros p Hp. apply filter_In in Hp. destruct Hp as [Hp K].
    destruct (get2 (d_cells s) p) as [[a b]|] eqn:G; [|discriminate].
    apply get2_of in G. destruct G as (Ha & Hb & Ea & Eb). apply negb_true_iff, orb_false_iff in K. destruct K as [Ka Kb].
    destruct (P _ Hp) as (_ & _ & H2). rewrite <- Ea, <- Eb in *. repeat split; auto; apply in_map, filter_In; split; auto.
    + now rewrite Ka.
    + now rewrite Kb.
Qed.

(** ** Checks keep the registry *)

Definition ends p := (p_c0 p, p_c1 p).
Definition same_cells cs cs' : Prop :=
  map k_addr cs' = map k_addr cs /\ (NoDup (map k_addr cs) -> map fixed cs' = map fixed cs).

Lemma same_refl cs : same_cells cs cs.
Proof. now split. Qed.
Lemma same_trans cs1 cs2 cs3 : same_cells cs1 cs2 -> same_cells cs2 cs3 -> same_cells cs1 cs3.
Proof.
  intros [A1 A2] [B1 B2]. split; [congruence|]. intros D. rewrite B2; [now apply A2 | now rewrite A1].
Qed.

Lemma ploop_ends (f : list cell -> pair -> option (list cell * pair * nat)) :
  (forall cs p cs' p' n, f cs p = Some (cs', p', n) -> same_cells cs cs' /\ ends p' = ends p) ->
  forall ps cs cs' ps' n, ploop f cs ps = Some (cs', ps', n) ->
  same_cells cs cs' /\ map ends ps' = map ends ps.
Proof.
  intros Hf. induction ps as [|p tl IH]; intros cs cs' ps' n H; cbn [ploop] in H.
  - injection H as <- <- <-. split; [apply same_refl | reflexivity].
  - destruct (f cs p) as [[[cs1 p1] n1]|] eqn:E; [|discriminate].
    destruct (ploop f cs1 tl) as [[[cs2 tl2] n2]|] eqn:E2; [|discriminate]. injection H as <- <- <-.
    apply Hf in E. apply IH in E2. destruct E as [E Ep]. destruct E2 as [E2 Et]. cbn [map].
    split; [eapply same_trans; eassumption | congruence].
Qed.

Lemma put_same cs c a : get_cell cs a = Some c -> forall c', fixed c' = fixed c -> same_cells cs (put_cell cs c').
Proof.
  intros G c' E. assert (Ea : k_addr c' = k_addr c) by (unfold fixed in E; congruence). split.
  - unfold put_cell. rewrite map_map. apply map_ext. intros x.
    destruct (k_addr x =? k_addr c') eqn:K; [|reflexivity]. apply Nat.eqb_eq in K. congruence.
  - intros D. unfold put_cell. rewrite map_map. apply map_ext_in. intros x Hx.
    destruct (k_addr x =? k_addr c') eqn:K; [|reflexivity]. apply Nat.eqb_eq in K.
    apply get_cell_in in G. destruct G as [Hc _]. rewrite (addr_inj _ x c D Hx Hc); [assumption | congruence].
Qed.

Lemma cell_bb_fixed w c : fixed (cell_bb w c) = fixed c.
Proof. unfold cell_bb. destruct (k_type c) eqn:T, (k_bbf c); try reflexivity; unfold fixed; cbn; now rewrite ?T. Qed.
Lemma cell_ph_fixed w c c' : cell_ph w c = Some c' -> fixed c' = fixed c.
Proof.
  unfold cell_ph. destruct (k_type c) eqn:T, (k_phf c); intros H; try (injection H as <-; reflexivity).
  destruct (ph_xform _ _ _); [|discriminate]. injection H as <-. unfold fixed. cbn. now rewrite ?T.
Qed.

Lemma upd_bb_same w cs a cs' : upd_bb w cs a = Some cs' -> same_cells cs cs'.
Proof.
  unfold upd_bb. destruct (get_cell cs a) as [c|] eqn:E; [|discriminate]. intros H. injection H as <-.
  eapply put_same; [exact E | apply cell_bb_fixed].
Qed.
Lemma upd_ph_same w cs a cs' : upd_ph w cs a = Some cs' -> same_cells cs cs'.
Proof.
  unfold upd_ph. destruct (get_cell cs a) as [c|] eqn:E; [|discriminate].
  destruct (cell_ph w c) as [c'|] eqn:K; [|discriminate]. intros H. injection H as <-.
  eapply put_same; [exact E | eapply cell_ph_fixed; eassumption].
Qed.
Lemma upd_box_same cs a cs' : upd_box cs a = Some cs' -> same_cells cs cs'.
Proof.
  unfold upd_box. destruct (get_cell cs a) as [c|] eqn:E; [|discriminate]. intros H. injection H as <-.
  eapply put_same; [exact E | reflexivity].
Qed.
Lemma upd2_same u cs p cs' :
  (forall cs a cs', u cs a = Some cs' -> same_cells cs cs') ->
  upd2 u cs p = Some cs' -> same_cells cs cs'.
Proof.
  intros Hu. unfold upd2. destruct (u cs (p_c0 p)) as [c1|] eqn:E; [|discriminate]. intros H.
  apply Hu in E. apply Hu in H. eapply same_trans; eassumption.
Qed.

Lemma step_ends k w f cs p cs' p' n :
  match k with
  | CkAABB => f = step_aabb w | CkOBB => f = step_obb | CkGJK => f = step_gjk w | CkGJKOnly => f = step_gjko w
  | CkVert => f = step_vert w | CkOBBVert => f = step_obbvert w | CkVol v => f = step_vol v w
  end -> f cs p = Some (cs', p', n) -> same_cells cs cs' /\ ends p' = ends p.
Proof.
  assert (B := upd_bb_same w). assert (P := upd_ph_same w). assert (Q := upd_box_same).
  destruct k; intros ->; cbv delta [step_aabb step_obb step_gjk step_gjko step_vert step_obbvert step_vol] beta; intros H;
  repeat match goal with
  | H : (if ?b then _ else _) = Some _ |- _ => destruct b
  | H : match ?o with Some _ => _ | None => _ end = Some _ |- _ => destruct o as [|] eqn:?; [|discriminate]
  | H : (let '(_, _) := ?o in _) = Some _ |- _ => destruct o
  | H : Some (if ?b then _ else _) = Some _ |- _ => destruct b
  end; injection H as <- <- <-;
  (split; [first [apply same_refl | eapply upd2_same; [|eassumption]; assumption] |
    repeat match goal with |- context [if ?b then _ else _] => destruct b end; reflexivity]).
Qed.

Definition kept s s' : Prop :=
  same_cells (d_cells s) (d_cells s') /\ map ends (d_pairs s') = map ends (d_pairs s).
Lemma kept_trans s1 s2 s3 : kept s1 s2 -> kept s2 s3 -> kept s1 s3.
Proof. intros [A1 A2] [B1 B2]. split; [eapply same_trans; eassumption | congruence]. Qed.

Lemma run_loop_ends b (f : list cell -> pair -> option (list cell * pair * nat)) s s' :
  (forall cs p cs' p' n, f cs p = Some (cs', p', n) -> same_cells cs cs' /\ ends p' = ends p) ->
  run_loop b f s = Some s' -> kept s s'.
Proof.
  intros Hf. unfold run_loop. destruct (ploop f _ _) as [[[cs ps] n]|] eqn:E; [|discriminate].
  intros H. injection H as <-. unfold kept. cbn [d_cells d_pairs]. eapply ploop_ends; eassumption.
Qed.

Lemma reset_ends s : kept s (cd_reset s).
Proof. unfold kept, cd_reset, same_cells. cbn [d_cells d_pairs]. now rewrite !map_map. Qed.

Lemma chk_aabb_ends w s s' : chk_aabb w s = Some s' -> kept s s'.
Proof.
  unfold chk_aabb. destruct (d_pairs s) eqn:E.
  - intros H. injection H as <-. split; [apply same_refl | reflexivity].
  - intros H. eapply kept_trans; [apply reset_ends|].
    eapply run_loop_ends; [|eassumption]. intros. eapply (step_ends CkAABB); [reflexivity | eassumption].
Qed.
Lemma chk_obb_ends w s s' : chk_obb w s = Some s' -> kept s s'.
Proof.
  unfold chk_obb, obind. destruct (chk_aabb w s) as [s1|] eqn:E; [|discriminate]. intros H.
  apply chk_aabb_ends in E. eapply kept_trans; [eassumption|].
  eapply run_loop_ends; [|eassumption]. intros. eapply (step_ends CkOBB w); [reflexivity | eassumption].
Qed.
Lemma check_ends w k s s' : do_check w k s = Some s' -> kept s s'.
Proof.
  assert (T : forall b f s1, (forall cs p cs' p' n, f cs p = Some (cs', p', n) -> same_cells cs cs' /\ ends p' = ends p) ->
              chk_obb w s = Some s1 -> run_loop b f s1 = Some s' -> kept s s').
  { intros b f s1 Hf H1 H2. eapply kept_trans; [eapply chk_obb_ends; eassumption|]. eapply run_loop_ends; eassumption. }
  destruct k; cbn [do_check]; try (unfold obind; destruct (chk_obb w s) as [s1|] eqn:E; [|discriminate]; intros H;
    refine (T _ _ s1 _ eq_refl H); intros).
  - apply chk_aabb_ends.
  - apply chk_obb_ends.
  - eapply (step_ends CkGJK w); [reflexivity | eassumption].
  - destruct (d_pairs s) eqn:E.
    + intros H. injection H as <-. split; [apply same_refl | reflexivity].
    + intros H. eapply kept_trans; [apply reset_ends|].
      eapply run_loop_ends; [|eassumption]. intros. eapply (step_ends CkGJKOnly w); [reflexivity | eassumption].
  - eapply (step_ends CkVert w); [reflexivity | eassumption].
  - eapply (step_ends CkOBBVert w); [reflexivity | eassumption].
  - eapply (step_ends (CkVol k) w); [reflexivity | eassumption].
Qed.

Lemma fop_ends (ps ps' : list pair) : map ends ps' = map ends ps ->
  ForallOrdPairs (fun p q => ~ same_pair p q) ps -> ForallOrdPairs (fun p q => ~ same_pair p q) ps'.
Proof.
  revert ps'. induction ps as [|p tl IH]; intros [|p' tl'] E H; try discriminate; [constructor|].
  injection E as E1 E2 E3. inversion H; subst. constructor; [|now apply IH].
  rewrite Forall_forall in *. intros q' Hq' S.
  assert (In (ends q') (map ends tl)) by (rewrite <- E3; now apply in_map).
  apply in_map_iff in H0. destruct H0 as (q & Eq & Hq). apply (H2 q Hq). unfold same_pair in *.
  injection Eq as Eq0 Eq1. rewrite Eq0, Eq1, <- E1, <- E2. exact S.
Qed.

Lemma kept_ok s s' : kept s s' -> pairs_ok (d_cells s) (d_pairs s) -> pairs_ok (d_cells s') (d_pairs s').
Proof.
  intros [[K1 _] K2] (D & P & Q). split; [now rewrite K1|]. split; [|eapply fop_ends; eassumption].
  intros p Hp. assert (In (ends p) (map ends (d_pairs s))) by (rewrite <- K2; now apply in_map).
  apply in_map_iff in H. destruct H as (q & E & Hq). injection E as E0 E1. rewrite K1, <- E0, <- E1. now apply P.
Qed.

Lemma op_ok w o s s' : run_op w o s = Some s' ->
  pairs_ok (d_cells s) (d_pairs s) -> pairs_ok (d_cells s') (d_pairs s').
Proof.
  destruct o; cbn [run_op].
  - apply chain_reg_ok.
  - apply chain_unreg_ok.
  - apply pair_reg_ok.
  - apply keep_ok.
  - apply keep_ok.
  - intros H. apply kept_ok. eapply check_ends. eassumption.
Qed.

Lemma run_ok h s s' : run h s = Some s' ->
  pairs_ok (d_cells s) (d_pairs s) -> pairs_ok (d_cells s') (d_pairs s').
Proof.
  revert s. induction h as [|[w o] tl IH]; intros s H P; cbn [run] in H.
  - injection H as <-. assumption.
  - unfold obind in H. destruct (run_op w o s) as [s1|] eqn:E; [|discriminate].
    eapply IH; [eassumption|]. eapply op_ok; eassumption.
Qed.

Lemma create_ok : pairs_ok (d_cells (cd_create : cd)) (d_pairs (cd_create : cd)).
Proof. split; [constructor|]. split; [intros p []|constructor]. Qed.
End Proofs.
