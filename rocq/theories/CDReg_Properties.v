(** * CDReg_Properties: the registry of collision pairs (C53, C54). *)

From Coq Require Import Bool List Arith Lia ZArith QArith Qcanon.
From Verif Require Import Num NumFacts Vec CD_Model CD_Spec CD_Proofs CD_Geo.
Import ListNotations.

Section Reg.
Context {F BX AB : Type} {N : Num F} {X : CDExt F BX AB}.
Notation cell := (cell F BX AB).
Notation cd := (cd F BX AB).
Notation pair := (pair F).
Notation op := (op F).

(** ** Relations between the two cells of a pair *)

Section Rel.
Variables (R : cell -> cell -> Prop) (Q : cell -> Prop).
Hypothesis R_fixed : forall a a' b b', fixed a' = fixed a -> fixed b' = fixed b -> R a b -> R a' b'.
Hypothesis Q_fixed : forall a a', fixed a' = fixed a -> Q a -> Q a'.

Definition rel_ok (s : cd) : Prop :=
  (forall c, In c (d_cells s) -> Q c) /\ forall p a b, In p (d_pairs s) -> of_cells s p a b -> R a b.

Lemma rel_kept s s' : kept s s' -> NoDup (map k_addr (d_cells s)) -> rel_ok s -> rel_ok s'.
Proof.
  intros [[K1 K2] K3] D [C H]. specialize (K2 D).
  assert (L : forall c, In c (d_cells s') -> exists d, In d (d_cells s) /\ fixed c = fixed d).
  { intros c Hc. assert (I : In (fixed c) (map fixed (d_cells s))) by (rewrite <- K2; now apply in_map).
    apply in_map_iff in I. destruct I as (d & E & Hd). eauto. }
  split.
  - intros c Hc. destruct (L _ Hc) as (d & Hd & E). eapply Q_fixed; [exact E | now apply C].
  - intros p a b Hp (Ha & Hb & Ea & Eb). destruct (L _ Ha) as (a' & Ha' & E0). destruct (L _ Hb) as (b' & Hb' & E1).
    assert (I : In (ends p) (map ends (d_pairs s))) by (rewrite <- K3; now apply in_map).
    apply in_map_iff in I. destruct I as (q & E & Hq). injection E as Eq0 Eq1.
    eapply R_fixed; [exact E0 | exact E1 |]. apply (H q); [assumption|]. unfold of_cells.
    unfold fixed in E0, E1. repeat split; auto; congruence.
Qed.

Lemma rel_sub s s' : (forall p, In p (d_pairs s') -> In p (d_pairs s)) -> (forall c, In c (d_cells s') -> In c (d_cells s)) ->
  rel_ok s -> rel_ok s'.
Proof.
  intros P C [H1 H2]. split; [intros c Hc; auto|]. intros p a b Hp (Ha & Hb & Ea & Eb).
  apply (H2 p); [now apply P|]. repeat split; auto.
Qed.

Lemma rel_keep q s s' : keep q s = Some s' -> rel_ok s -> rel_ok s'.
Proof.
  intros H. apply keep_spec in H. destruct H as (E1 & _ & E2). apply rel_sub; [|now rewrite E1].
  intros p Hp. rewrite E2 in Hp. apply filter_In in Hp. tauto.
Qed.

Lemma rel_chain_unreg c s s' : chain_unreg c s = Some s' -> rel_ok s -> rel_ok s'.
Proof.
  intros H. apply chain_unreg_spec in H. destruct H as (E1 & _ & E2). apply rel_sub.
  - intros p Hp. rewrite E2 in Hp. apply filter_In in Hp. tauto.
  - intros x Hx. rewrite E1 in Hx. apply filter_In in Hx. tauto.
Qed.

Lemma rel_pair_reg l1 l2 s s' : (forall a b, Q a -> Q b -> joins l1 l2 a b = true -> R a b) ->
  pair_reg l1 l2 s = Some s' -> pairs_ok (d_cells s) (d_pairs s) -> rel_ok s -> rel_ok s'.
Proof.
  intros J H (D & P & _) [C S]. apply pair_reg_cases in H. destruct H as [[-> _]|[-> _]]; [now split|].
  split; [assumption|]. cbn [d_cells d_pairs]. intros p a b Hp (Ha & Hb & Ea & Eb). cbn [d_cells] in Ha, Hb.
  apply in_app_or in Hp. destruct Hp as [Hp|Hp]; [apply (S p); unfold of_cells; auto|].
  apply new_pairs_in in Hp. destruct Hp as (pre & x & mid & y & post & E & K & ->). cbn in Ea, Eb.
  assert (Ix : In x (d_cells s)) by (rewrite E; apply in_elt).
  assert (Iy : In y (d_cells s)) by (rewrite E; apply in_or_app; right; right; apply in_elt).
  rewrite (addr_inj _ _ _ D Ha Ix Ea), (addr_inj _ _ _ D Hb Iy Eb). auto.
Qed.

Lemma rel_chain_reg w chain ty ss s s' :
  (forall c x, pairable c x = true -> R x c) ->
  (forall l a sh, In (l, a, sh) ss -> Q (cell_create w a chain l sh ty)) ->
  chain_reg w chain ty ss s = Some s' -> pairs_ok (d_cells s) (d_pairs s) -> rel_ok s -> rel_ok s'.
Proof.
  intros J. revert s. induction ss as [|[[l a] sh] tl IH]; intros s Cq H O S; cbn [chain_reg] in H.
  - injection H as <-. assumption.
  - destruct (get_cell (d_cells s) a) eqn:G; [discriminate|].
    set (c := cell_create w a chain l sh ty) in *.
    set (s1 := CD (d_cells s ++ [c])
      (if 1 <? length (d_cells s ++ [c]) then d_pairs s ++ pair_cell_reg (d_cells s ++ [c]) c else d_pairs s)
      (d_num s)) in *.
    assert (O1 : pairs_ok (d_cells s1) (d_pairs s1)) by (apply (cell_reg_ok _ _ c); assumption).
    assert (S1 : rel_ok s1).
    { destruct S as [C S]. split.
      - intros x Hx. apply in_app_or in Hx. destruct Hx as [Hx|[<-|[]]]; [auto|]. apply Cq. now left.
      - intros p x y Hp Hxy.
        assert (Hp' : In p (d_pairs s) \/ In p (pair_cell_reg (d_cells s1) c)).
        { unfold s1 in Hp. cbn [d_pairs] in Hp. destruct (1 <? _); [|now left]. now apply in_app_or in Hp. }
        destruct Hp' as [Hp'|Hp'].
        + destruct O as (D & P & _). destruct (P _ Hp') as (I0 & I1 & _). apply get_cell_none in G.
          destruct Hxy as (Hx & Hy & Ex & Ey). apply (S p); [assumption|].
          unfold s1 in Hx, Hy. cbn [d_cells] in Hx, Hy. apply in_app_or in Hx. apply in_app_or in Hy.
          destruct Hx as [Hx|[<-|[]]]; [|exfalso; apply G; rewrite <- Ex in I0; exact I0].
          destruct Hy as [Hy|[<-|[]]]; [|exfalso; apply G; rewrite <- Ey in I1; exact I1].
          repeat split; auto.
        + unfold pair_cell_reg in Hp'. apply in_map_iff in Hp'. destruct Hp' as (z & <- & Hz).
          apply filter_In in Hz. destruct Hz as [Hz K]. destruct O1 as (D1 & _).
          destruct Hxy as (Hx & Hy & Ex & Ey). cbn in Ex, Ey.
          assert (Ic : In c (d_cells s1)) by (apply in_or_app; right; now left).
          rewrite (addr_inj _ _ _ D1 Hx Hz Ex), (addr_inj _ _ _ D1 Hy Ic Ey). now apply J. }
    apply (IH s1); auto. intros l' a' sh' Hi. apply Cq. now right.
Qed.

(** What the calls of a history have to respect. *)
Definition op_rel (o : op) : Prop :=
  match o with
  | ChainReg chain ty ss => forall w l a sh, In (l, a, sh) ss -> Q (cell_create w a chain l sh ty)
  | PairReg l1 l2 => forall a b, Q a -> Q b -> joins l1 l2 a b = true -> R a b
  | _ => True
  end.

Lemma rel_run h s s' : (forall c x, pairable c x = true -> R x c) -> Forall (fun e => op_rel (snd e)) h ->
  run h s = Some s' -> pairs_ok (d_cells s) (d_pairs s) -> rel_ok s -> rel_ok s'.
Proof.
  intros J. revert s. induction h as [|[w o] tl IH]; intros s Hh H O S; cbn [run] in H.
  - injection H as <-. assumption.
  - unfold obind in H. destruct (run_op w o s) as [s1|] eqn:E; [|discriminate].
    inversion Hh as [|? ? H1 H2]; subst. cbn [snd] in H1. apply (IH s1); auto; [eapply op_ok; eassumption|].
    destruct o; cbn [run_op] in E; cbn [op_rel] in H1.
    + eapply rel_chain_reg; eauto.
    + eapply rel_chain_unreg; eauto.
    + eapply rel_pair_reg; eauto.
    + eapply rel_keep; eauto.
    + eapply rel_keep; eauto.
    + apply (rel_kept s); auto; [eapply check_ends; eassumption | apply O].
Qed.
End Rel.

(** ** C53 *)

(** After any history of calls, registrations, unregistrations and checks of any kind, cells have distinct
    addresses, every pair refers to two different registered cells, and no two pairs are the same in
    either order. *)
Theorem C53_registry h (s : cd) : run h cd_create = Some s -> consistent s.
Proof. intros H. apply pairs_ok_consistent. eapply run_ok; [eassumption | apply create_ok]. Qed.

(** The two cells of a pair belong to different links, if rkCDPairReg is never asked to pair a link with itself. *)
Theorem C53_links_partial h (s : cd) :
  Forall (fun e => match snd e with PairReg l1 l2 => l1 <> l2 | _ => True end) h ->
  run h cd_create = Some s -> links_differ s.
Proof.
  intros Hh H.
  refine (proj2 (rel_run (fun a b => k_link a <> k_link b) (fun _ => True) _ _ h cd_create s _ _ H create_ok _)).
  - unfold fixed. intros. congruence.
  - auto.
  - intros c x. unfold pairable. rewrite !andb_true_iff, !negb_true_iff, Nat.eqb_neq. tauto.
  - eapply Forall_impl; [|exact Hh]. intros [w o]. cbn [snd]. destruct o; cbn [op_rel]; auto.
    intros Hl a b _ _. unfold joins. rewrite orb_true_iff, !andb_true_iff, !Nat.eqb_eq.
    intros [[-> ->]|[-> ->]]; auto.
  - split; [auto | intros p a b []].
Qed.

(** Two stationary cells are never paired, if rkCDPairReg is only asked for pairs with one link of
    [mov], a set of links never registered as stationary. *)
Theorem C53_stationary_partial (mov : nat -> bool) h (s : cd) :
  Forall (fun e => match snd e with
                   | ChainReg _ Stat ss => forall l a sh, In (l, a, sh) ss -> mov l = false
                   | PairReg l1 l2 => mov l1 = true \/ mov l2 = true
                   | _ => True end) h ->
  run h cd_create = Some s -> one_moves s.
Proof.
  intros Hh H.
  refine (proj2 (rel_run (fun a b => k_type a = Move \/ k_type b = Move)
                         (fun a => mov (k_link a) = true -> k_type a = Move) _ _ h cd_create s _ _ H create_ok _)).
  - unfold fixed. intros a a' b b' E1 E2 K. injection E1 as _ _ _ -> _ _. injection E2 as _ _ _ -> _ _. exact K.
  - unfold fixed. intros a a' E. injection E as _ _ -> -> _ _. auto.
  - intros c x. unfold pairable, is_stat. destruct (k_type x), (k_type c); auto. discriminate.
  - eapply Forall_impl; [|exact Hh]. intros [w o]. cbn [snd]. destruct o as [chain ty ss| |l1 l2| | |]; cbn [op_rel]; auto.
    + destruct ty; intros K w' l a sh Hi; cbn; [|auto]. rewrite (K _ _ _ Hi). discriminate.
    + intros Hl a b Qa Qb. unfold joins. rewrite orb_true_iff, !andb_true_iff, !Nat.eqb_eq.
      intros [[E0 E1]|[E0 E1]]; rewrite E0 in Qa; rewrite E1 in Qb; tauto.
  - split; [intros c [] | intros p a b []].
Qed.

(** Unregistering a chain always succeeds, removes exactly the cells of the chain and exactly the pairs
    one of whose cells belonged to it. *)
Theorem C53_unregister h (s : cd) w c : run h cd_create = Some s ->
  exists s', run_op w (ChainUnreg c) s = Some s' /\
    (forall x, In x (d_cells s') <-> In x (d_cells s) /\ k_chain x <> c) /\
    (forall p, In p (d_pairs s') <->
       exists a b, In p (d_pairs s) /\ of_cells s p a b /\ k_chain a <> c /\ k_chain b <> c).
Proof.
  intros H. assert (O : pairs_ok (d_cells s) (d_pairs s)) by (eapply run_ok; [eassumption | apply create_ok]).
  cbn [run_op]. destruct (chain_unreg c s) as [s'|] eqn:E.
  2:{ exfalso. unfold chain_unreg, keep in E.
      destruct (pairs_with_some (fun a b => negb ((k_chain a =? c) || (k_chain b =? c))) (d_cells s) (d_pairs s)) as [r K].
      { intros p Hp. eapply ok_get2; eassumption. }
      rewrite K in E. discriminate. }
  exists s'. split; [reflexivity|]. apply chain_unreg_spec in E. destruct E as (E1 & _ & E2). rewrite E1, E2. split.
  - intros x. rewrite filter_In, negb_true_iff, Nat.eqb_neq. reflexivity.
  - intros p. rewrite filter_In. split.
    + intros [Hp K]. destruct (get2 (d_cells s) p) as [[a b]|] eqn:G; [|discriminate].
      apply negb_true_iff, orb_false_iff in K. rewrite !Nat.eqb_neq in K. apply get2_of in G. exists a, b. tauto.
    + intros (a & b & Hp & Hab & Ka & Kb). split; [assumption|]. rewrite (of_get2 s p a b (proj1 O) Hab).
      apply Nat.eqb_neq in Ka. apply Nat.eqb_neq in Kb. now rewrite Ka, Kb.
Qed.

(** ** C54 *)

(** If no pair of the two links was registered before, rkCDPairReg registers all of them, and nothing else. *)
Theorem C54_pair_reg_partial h (s s' : cd) w l1 l2 :
  run h cd_create = Some s -> run_op w (PairReg l1 l2) s = Some s' ->
  (forall p a b, In p (d_pairs s) -> of_cells s p a b -> joins l1 l2 a b = false) ->
  (forall a b, In a (d_cells s) -> In b (d_cells s) -> a <> b -> k_link a = l1 -> k_link b = l2 -> registered s' a b) /\
  (forall p, In p (d_pairs s') -> In p (d_pairs s) \/ exists a b, of_cells s' p a b /\ joins l1 l2 a b = true).
Proof.
  intros H E NJ. assert (O : pairs_ok (d_cells s) (d_pairs s)) by (eapply run_ok; [eassumption | apply create_ok]).
  cbn [run_op] in E. apply pair_reg_cases in E. destruct E as [[-> (p & a & b & Hp & G & J)]|[-> _]].
  - exfalso. rewrite (NJ p a b Hp (get2_of _ _ _ _ G)) in J. discriminate.
  - split.
    + intros a b Ha Hb Hab La Lb. apply in_split in Ha. destruct Ha as (pre & post & Ea).
      assert (J1 : joins l1 l2 a b = true) by (unfold joins; now rewrite La, Lb, !Nat.eqb_refl).
      assert (J2 : joins l1 l2 b a = true).
      { unfold joins. rewrite La, Lb, !Nat.eqb_refl. now rewrite orb_true_r. }
      unfold registered. cbn [d_pairs]. rewrite Ea in Hb. apply in_app_or in Hb.
      destruct Hb as [Hb|[Hb|Hb]]; [| now elim Hab |].
      * apply in_split in Hb. destruct Hb as (pre1 & mid & ->).
        exists (pair_new (k_addr b) (k_addr a)). split; [|right; auto].
        apply in_or_app. right. apply new_pairs_in. exists pre1, b, mid, a, post.
        rewrite Ea, <- app_assoc. auto.
      * apply in_split in Hb. destruct Hb as (mid & post1 & ->).
        exists (pair_new (k_addr a) (k_addr b)). split; [|left; auto].
        apply in_or_app. right. apply new_pairs_in. exists pre, a, mid, b, post1. auto.
    + cbn [d_pairs]. intros p Hp. apply in_app_or in Hp. destruct Hp as [Hp|Hp]; [now left|]. right.
      apply new_pairs_in in Hp. destruct Hp as (pre & a & mid & b & post & Ec & J & ->).
      exists a, b. split; [|assumption]. unfold of_cells. cbn [d_cells p_c0 p_c1 pair_new]. rewrite Ec.
      repeat split; auto; [apply in_elt|]. apply in_or_app. right. right. apply in_elt.
Qed.

(** After unregistering the two links from each other the call registers all their pairs. *)
Corollary C54_after_unreg h (s : cd) w w' l1 l2 : run h cd_create = Some s ->
  exists s', run [(w, PairUnreg l1 l2); (w', PairReg l1 l2)] s = Some s' /\
  forall a b, In a (d_cells s) -> In b (d_cells s) -> a <> b -> k_link a = l1 -> k_link b = l2 -> registered s' a b.
Proof.
  intros H. assert (O : pairs_ok (d_cells s) (d_pairs s)) by (eapply run_ok; [eassumption | apply create_ok]).
  cbn [run run_op obind]. unfold pair_unreg. destruct (keep (joins l1 l2) s) as [s1|] eqn:E1.
  2:{ exfalso. unfold keep in E1.
      destruct (pairs_with_some (fun a b => negb (joins l1 l2 a b)) (d_cells s) (d_pairs s)) as [r K].
      { intros p Hp. eapply ok_get2; eassumption. }
      rewrite K in E1. discriminate. }
  assert (O1 := keep_ok _ _ _ E1 O).
  assert (H1 : run (h ++ [(w, PairUnreg l1 l2)]) cd_create = Some s1).
  { clear - H E1. revert H. generalize (cd_create : cd). induction h as [|[v o] tl IH]; intros s0 H; cbn [run app] in *.
    - injection H as ->. cbn [run_op obind]. unfold pair_unreg. rewrite E1. reflexivity.
    - unfold obind in *. destruct (run_op v o s0); [now apply IH | discriminate]. }
  cbn [obind]. destruct (pair_reg l1 l2 s1) as [s2|] eqn:E2.
  2:{ exfalso. unfold pair_reg in E2.
      destruct (pairs_with_some (joins l1 l2) (d_cells s1) (d_pairs s1)) as [r K].
      { intros p Hp. eapply ok_get2; eassumption. }
      rewrite K in E2. destruct r; discriminate. }
  exists s2. cbn [obind run]. split; [reflexivity|].
  destruct (C54_pair_reg_partial (h ++ [(w, PairUnreg l1 l2)]) s1 s2 w' l1 l2 H1 E2) as [A _].
  - apply keep_spec in E1. destruct E1 as (Ec & _ & Ep). intros p a b Hp Hab. rewrite Ep in Hp.
    apply filter_In in Hp. destruct Hp as [_ K]. apply (of_get2 _ _ _ _ (proj1 O1)) in Hab. rewrite Ec in Hab.
    rewrite Hab in K. now apply negb_true_iff in K.
  - apply keep_spec in E1. destruct E1 as (Ec & _). intros a b. rewrite <- Ec. apply A.
Qed.
End Reg.

(** ** Concrete cases *)

Local Open Scope nat_scope.

Definition vcells {F BX AB} (s : cd F BX AB) : list (nat * nat * nat * ctype) :=
  map (fun c => (k_addr c, k_chain c, k_link c, k_type c)) (d_cells s).
Definition vpairs {F BX AB} (s : cd F BX AB) : list (nat * nat * bool) :=
  map (fun p => (p_c0 p, p_c1 p, p_col p)) (d_pairs s).

Lemma view_some {A B C} (o : option A) (f : A -> B) (g : A -> C) (b : B) (c : C) :
  option_map (fun a => (f a, g a)) o = Some (b, c) -> exists a, o = Some a /\ f a = b /\ g a = c.
Proof. destruct o as [a|]; [|discriminate]. intros H. injection H as <- <-. eauto. Qed.

Ltac view o f g s R E1 E2 :=
  let e := eval vm_compute in (option_map (fun a => (f a, g a)) o) in
  match e with
  | Some (?b, ?c) =>
    let V := fresh in
    assert (V : option_map (fun a => (f a, g a)) o = Some (b, c)) by (vm_compute; reflexivity);
    destruct (view_some o f g b c V) as (s & R & E1 & E2); clear V
  end.

Notation qcd := (cd Qc (gbox Qc) (gaab Qc)).
Definition q (a b : Z) : Qc := Q2Qc (Qmake a (Z.to_pos b)).
Definition at3 (x y z : Z) : frame Qc := Fr (V3 (q x 1) (q y 1) (q z 1)) m3id.
Definition bl (x y z : Z) : ph Qc := block (V3 (q x 1) (q y 1) (q z 1)) (V3 (q (x + 1) 1) (q (y + 1) 1) (q (z + 1) 1)).

(** Links 10 and 11 of the moving chain 1, links 20 and 21 of the stationary chain 2. *)
Definition w0 (l : nat) : frame Qc :=
  match l with 11 => at3 5 0 0 | 20 => at3 0 0 (-9) | 21 => at3 0 0 (-9) | _ => at3 0 0 0 end.
Definition w1 (l : nat) : frame Qc :=
  match l with 11 => at3 0 0 0 | 20 => at3 0 0 (-9) | 21 => at3 0 0 (-9) | _ => at3 0 0 0 end.
Definition robot : op Qc := ChainReg 1 Move [(10, 101, bl 0 0 0); (10, 102, bl 3 0 0); (11, 103, bl 0 0 0)].
Definition ground : op Qc := ChainReg 2 Stat [(20, 201, bl 0 0 0); (21, 202, bl 0 0 0)].

Example C53_registry_ex : exists s : qcd,
  run [(w0, robot); (w0, ground); (w0, PairUnreg 11 20); (w1, Check CkGJK); (w1, PairReg 20 11)] cd_create = Some s /\
  vcells s = [(101, 1, 10, Move); (102, 1, 10, Move); (103, 1, 11, Move); (201, 2, 20, Stat); (202, 2, 21, Stat)] /\
  vpairs s = [(101, 103, true); (102, 103, false); (101, 201, false); (102, 201, false); (101, 202, false);
              (102, 202, false); (103, 202, false); (103, 201, false)] /\
  consistent s /\ links_differ s /\ one_moves s.
Proof.
  view (run [(w0, robot); (w0, ground); (w0, PairUnreg 11 20); (w1, Check CkGJK); (w1, PairReg 20 11)]
    (cd_create : qcd)) (@vcells Qc (gbox Qc) (gaab Qc)) (@vpairs Qc (gbox Qc) (gaab Qc)) s R E1 E2.
  exists s. split; [exact R|]. split; [exact E1|]. split; [exact E2|]. split; [eapply C53_registry; exact R|]. split.
  - eapply C53_links_partial; [|exact R]. repeat constructor; cbn; discriminate.
  - eapply (C53_stationary_partial (fun l => l <? 20)); [|exact R].
    repeat (apply Forall_cons || apply Forall_nil); cbn [snd ground robot]; try exact I.
    + intros l a sh [E|[E|[]]]; injection E as <- _ _; reflexivity.
    + now right.
Qed.

Example C53_unregister_ex : exists s : qcd,
  run [(w0, robot); (w0, ground); (w0, ChainUnreg 2)] cd_create = Some s /\
  vcells s = [(101, 1, 10, Move); (102, 1, 10, Move); (103, 1, 11, Move)] /\
  vpairs s = [(101, 103, false); (102, 103, false)].
Proof.
  view (run [(w0, robot); (w0, ground); (w0, ChainUnreg 2)] (cd_create : qcd)) (@vcells Qc (gbox Qc) (gaab Qc)) (@vpairs Qc (gbox Qc) (gaab Qc)) s R E1 E2. eauto.
Qed.

(** From the views back to the cells of a pair. *)
Lemma view_pair {F BX AB} (s : cd F BX AB) x c0 l0 t0 y c1 l1 t1 b :
  In (x, c0, l0, t0) (vcells s) -> In (y, c1, l1, t1) (vcells s) -> In (x, y, b) (vpairs s) ->
  exists p a d, In p (d_pairs s) /\ of_cells s p a d /\ k_link a = l0 /\ k_link d = l1 /\ k_type a = t0 /\ k_type d = t1.
Proof.
  unfold vcells, vpairs. intros H0 H1 H2. apply in_map_iff in H0, H1, H2.
  destruct H0 as (a & Ea & Ha), H1 as (d & Ed & Hd), H2 as (p & Ep & Hp).
  injection Ea as <- <- <- <-. injection Ed as <- <- <- <-. injection Ep as E0 E1 E2.
  exists p, a, d. unfold of_cells. auto 10.
Qed.

(** rkCDPairReg called for a link and itself pairs two shapes of the same link. *)
Theorem C53_links_refuted : exists h (s : qcd), run h cd_create = Some s /\ ~ links_differ s.
Proof.
  exists [(w0, robot); (w0, PairReg 10 10)].
  view (run [(w0, robot); (w0, PairReg 10 10)] (cd_create : qcd)) (@vcells Qc (gbox Qc) (gaab Qc)) (@vpairs Qc (gbox Qc) (gaab Qc)) s R E1 E2.
  exists s. split; [exact R|]. intros H.
  destruct (view_pair s 101 1 10 Move 102 1 10 Move false) as (p & a & d & Hp & O & La & Ld & _);
    [rewrite E1; cbn; tauto | rewrite E1; cbn; tauto | rewrite E2; cbn; tauto|].
  apply (H p a d Hp O). congruence.
Qed.

(** rkCDPairReg pairs two stationary shapes. *)
Theorem C53_stationary_refuted : exists h (s : qcd),
  Forall (fun e => match snd e with PairReg l1 l2 => l1 <> l2 | _ => True end) h /\
  run h cd_create = Some s /\ ~ one_moves s.
Proof.
  exists [(w0, ground); (w0, PairReg 20 21)].
  view (run [(w0, ground); (w0, PairReg 20 21)] (cd_create : qcd)) (@vcells Qc (gbox Qc) (gaab Qc)) (@vpairs Qc (gbox Qc) (gaab Qc)) s R E1 E2.
  exists s. split; [repeat constructor; cbn; discriminate|]. split; [exact R|]. intros H.
  destruct (view_pair s 201 2 20 Stat 202 2 21 Stat false) as (p & a & d & Hp & O & _ & _ & Ta & Td);
    [rewrite E1; cbn; tauto | rewrite E1; cbn; tauto | rewrite E2; cbn; tauto|].
  destruct (H p a d Hp O); congruence.
Qed.

Example C54_pair_reg_ex : exists s s' : qcd,
  run [(w0, robot); (w0, PairUnreg 11 10)] cd_create = Some s /\ vpairs s = [] /\
  run_op w0 (PairReg 10 11) s = Some s' /\ vpairs s' = [(101, 103, false); (102, 103, false)].
Proof.
  view (run [(w0, robot); (w0, PairUnreg 11 10)] (cd_create : qcd)) (@vpairs Qc (gbox Qc) (gaab Qc)) (fun s : qcd => option_map vpairs (run_op w0 (PairReg 10 11) s)) s R E1 E2.
  destruct (run_op w0 (PairReg 10 11) s) as [s'|] eqn:E; [|discriminate]. injection E2 as E2. exists s, s'. auto.
Qed.

(** With a pair already registered, rkCDPairReg leaves the others out: in this history the shapes 101 and 103
    were left unpaired because they overlapped when the chain was registered. *)
Theorem C54_refuted : exists h (s s' : qcd) a b, run h cd_create = Some s /\
  run_op w0 (PairReg 10 11) s = Some s' /\
  In a (d_cells s) /\ In b (d_cells s) /\ a <> b /\ k_link a = 10 /\ k_link b = 11 /\ ~ registered s' a b.
Proof.
  exists [(w1, robot)].
  view (run [(w1, robot)] (cd_create : qcd)) (@vcells Qc (gbox Qc) (gaab Qc)) (fun s : qcd => option_map vpairs (run_op w0 (PairReg 10 11) s)) s R E1 E2.
  destruct (run_op w0 (PairReg 10 11) s) as [s'|] eqn:E; [|discriminate]. injection E2 as E2.
  assert (Ha : In (101, 1, 10, Move) (vcells s)) by (rewrite E1; cbn; tauto).
  assert (Hb : In (103, 1, 11, Move) (vcells s)) by (rewrite E1; cbn; tauto).
  unfold vcells in Ha, Hb. apply in_map_iff in Ha, Hb.
  destruct Ha as (a & Ea & Ha), Hb as (b & Eb & Hb). injection Ea as Ea _ La _. injection Eb as Eb _ Lb _.
  exists s, s', a, b. repeat split; auto.
  - intros ->. congruence.
  - intros (p & Hp & K). rewrite Ea, Eb in K.
    assert (I : In (p_c0 p, p_c1 p, p_col p) (vpairs s')).
    { unfold vpairs. apply in_map_iff. exists p. auto. }
    rewrite E2 in I. cbn in I. destruct K as [[K0 K1]|[K0 K1]]; rewrite K0, K1 in I;
      repeat (destruct I as [I|I]; [congruence|]); exact I.
Qed.

Print Assumptions C53_registry.
Print Assumptions C53_links_partial.
Print Assumptions C53_stationary_partial.
Print Assumptions C53_unregister.
Print Assumptions C54_pair_reg_partial.
Print Assumptions C54_after_unreg.
Print Assumptions C53_links_refuted.
Print Assumptions C53_stationary_refuted.
Print Assumptions C54_refuted.
