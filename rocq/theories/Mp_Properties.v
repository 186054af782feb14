(** * Mp_Properties: theorems C87, the mass property printed by rk_mp. *)
From Coq Require Import String ZArith QArith Qcanon List Arith Lia Permutation.
From Verif Require Import Num NumFacts Vec VecFacts Motor_Model Joint_Model Joint_Spec Joint_Proofs Body_Model Body_Proofs
  Tree Tree_Proofs Link_Model Link_Spec Link_Proofs Chain_Proofs Link_Properties Chain_Properties
  Kin_Spec Kin_Proofs Jacobi_Model Jacobi_Proofs Kin_Properties Urdf_Pose Mp_Model Mp_Spec Mp_Proofs ExtQ.
Import ListNotations.
Local Open Scope nat_scope.

Section Thms.
Context {F : Type} {N : Num F} {L : NumLaws F N} {E : Ext F} {X : ExtLaws F N E}.

Lemma posed_after_fk (c0 c : chain F) q : well_formed (c_links c0) -> joints_made (c_links c0) -> chain_fk c0 q = Some c -> frames_ok (c_links c).
Proof. intros W J FK. destruct (fk_keeps c0 c q W) as (_ & FO & _); auto. intros i k Hk. apply made_cache. eauto. Qed.

(** C87: after forward kinematics, a printed mass property moves like the chosen links together:
    the same mass, and in every rigid motion the same momentum, angular momentum and energy. *)
Theorem C87_moves_like_the_links (c0 c : chain F) q inp r : well_formed (c_links c0) -> joints_made (c_links c0) ->
  chain_fk c0 q = Some c -> rkmp_main c inp = Some (Some r) -> ntiny x_tol (mp_mass r) = false ->
  exists ls, chosen (c_links c) inp ls /\ ls <> [] /\ moves_like r (map link_wmp ls).
Proof.
  intros W J FK H T. destruct (rkmp_moments (c_links c) inp c r eq_refl (posed_after_fk _ _ _ W J FK) H T) as (ls & A & B & C).
  exists ls. repeat split; auto; now apply moves_of_moments.
Qed.
(** C87: this leaves no freedom: it is the only mass property that does. *)
Theorem C87_no_other (c0 c : chain F) q inp r r' ls : well_formed (c_links c0) -> joints_made (c_links c0) ->
  chain_fk c0 q = Some c -> rkmp_main c inp = Some (Some r) -> ntiny x_tol (mp_mass r) = false ->
  chosen (c_links c) inp ls -> moves_like r' (map link_wmp ls) -> r' = r.
Proof.
  intros W J FK H T CH M. destruct (C87_moves_like_the_links c0 c q inp r W J FK H T) as (ls' & CH' & _ & M').
  assert (ls' = ls) as ->.
  { destruct CH as (p1 & s1 & E1 & P1 & S1 & D1), CH' as (p2 & s2 & E2 & P2 & S2 & D2). assert (p1 = p2) as ->.
    { clear D1 D2 H. subst inp. revert p2 E2 P2. induction p1 as [|z t IH]; intros [|z2 t2] E2 P2; auto; cbn in E2.
      - destruct S1 as [->|(y & u & -> & Y)]; [discriminate|]. injection E2 as -> ->. specialize (P2 z2 (or_introl eq_refl)). lia.
      - destruct S2 as [->|(y & u & -> & Y)]; [discriminate|]. injection E2 as -> <-. specialize (P1 y (or_introl eq_refl)). lia.
      - injection E2 as -> E2. f_equal. apply IH; [intros y I; apply P1; now right|exact E2|intros y I; apply P2; now right]. }
    rewrite D1 in D2. clear -D2. revert ls' D2. induction ls as [|a t IH]; intros [|b u] D; try discriminate; auto. cbn in D. injection D as <- D. f_equal. auto. }
  apply (moves_like_unique r r' (map link_wmp ls)); auto. exact (nontiny_neq_0 _ T).
Qed.
(** C87: links given in another order give the same mass property. *)
Theorem C87_order_irrelevant (c0 c : chain F) q inp inp' r r' : well_formed (c_links c0) -> joints_made (c_links c0) ->
  chain_fk c0 q = Some c -> (forall z, In z inp -> (0 <= z)%Z) -> Permutation inp inp' ->
  rkmp_main c inp = Some (Some r) -> rkmp_main c inp' = Some (Some r') -> ntiny x_tol (mp_mass r) = false -> r' = r.
Proof.
  intros W J FK P PE H H' T. pose proof (posed_after_fk _ _ _ W J FK) as FO.
  destruct (rkmp_perm c inp inp' r r' P PE H H') as (ls & ls' & A & B & PL & MA & MB).
  assert (PO : forall l, In l ls -> posed l) by (intros l I; destruct (A l I) as (k & Hk); apply (FO k l Hk)).
  subst r r'. set (a := fold_left rkmp_acc ls (MP 0%num v3zero m3zero)) in *. set (b := fold_left rkmp_acc ls' (MP 0%num v3zero m3zero)) in *.
  assert (PO' : forall l, In l ls' -> posed l) by (intros l I; apply PO; eapply Permutation_in; [apply Permutation_sym; exact PL|exact I]).
  assert (MM : mp_mass b = mp_mass a).
  { destruct (fold_moments ls (MP 0%num v3zero m3zero) PO) as (Qa & _). destruct (fold_moments ls' (MP 0%num v3zero m3zero) PO') as (Qb & _).
    unfold a, b. rewrite Qa, Qb. rewrite (moments_perm _ _ (Permutation_map link_wmp PL)). reflexivity. }
  change (mp_mass (rkmp_close a)) with (mp_mass a) in T. assert (T' : ntiny x_tol (mp_mass b) = false) by now rewrite MM.
  pose proof (calc_moments ls a PO eq_refl T) as Ma. pose proof (calc_moments ls' b PO' eq_refl T') as Mb.
  rewrite <- (moments_perm _ _ (Permutation_map link_wmp PL)), <- Ma in Mb.
  pose proof (f_equal (fun t => fst (fst t)) Mb) as Q1. pose proof (f_equal (fun t => snd (fst t)) Mb) as Q2. pose proof (f_equal snd Mb) as Q3. cbn [fst snd] in Q1, Q2, Q3.
  exact (mp_ext (rkmp_close b) (rkmp_close a) (nontiny_neq_0 _ T) Q1 Q2 Q3).
Qed.
(** C87: any way of combining the chosen links two at a time with rkMPCombine gives it too. *)
Theorem C87_same_as_combining (c0 c : chain F) q inp r g ls : well_formed (c_links c0) -> joints_made (c_links c0) ->
  chain_fk c0 q = Some c -> rkmp_main c inp = Some (Some r) -> ntiny x_tol (mp_mass r) = false ->
  chosen (c_links c) inp ls -> (forall l, In l ls -> nlt 0%num (l_mass l)) -> Permutation (g_leaves g) (map link_wmp ls) -> g_eval g = r.
Proof.
  intros W J FK H T CH P PE. apply (C87_no_other c0 c q inp r (g_eval g) ls W J FK H T CH).
  apply moves_of_moments. rewrite <- (moments_perm _ _ PE). symmetry. apply g_moments. intros m I. eapply Permutation_in in I; [|exact PE].
  apply in_map_iff in I as (l & <- & I). exact (P l I).
Qed.
(** C87: every non-empty choice of existing links is answered; without a choice nothing is printed. *)
Theorem C87_answers (c : chain F) inp ls : chosen (c_links c) inp ls ->
  (ls <> [] -> exists r, rkmp_main c inp = Some (Some r)) /\ (ls = [] -> rkmp_main c inp = Some None).
Proof.
  intros CH. split; [intros NE; exact (rkmp_defined c inp ls CH NE)|]. intros ->. destruct CH as (pre & post & -> & P & S & D).
  destruct pre; [|discriminate]. destruct S as [->|(z & t & -> & Z)]; [reflexivity|]. unfold rkmp_main. cbn. now apply Z.ltb_lt in Z as ->.
Qed.
End Thms.

(** ** Concrete cases *)
Definition lmp (m : mp Qc) : list Qc := [mp_mass m] ++ l3 (mp_com m) ++ l3 (mc0 (mp_inertia m)) ++ l3 (mc1 (mp_inertia m)) ++ l3 (mc2 (mp_inertia m)).
Definition mprun (c0 : chain Qc) (q : list Qc) (inp : list Z) : list (list Qc) :=
  match chain_fk c0 q with
  | Some c => match rkmp_main c inp with Some (Some r) => [lmp r] | Some None => [] | None => [[]] end
  | None => [[]; []] end.
(** Links 1, 2 and 4 of the example mechanism (masses 1, 2, 1), in two orders, the second followed
    by a negative number; a choice of nothing; a link that is not there. *)
Definition mpres : list Qc := [qz 4; Q2Qc (13 # 4); Q2Qc (-9 # 4); Q2Qc (3 # 4);
  Q2Qc (31 # 2); Q2Qc (7 # 4); Q2Qc (-9 # 4); Q2Qc (7 # 4); Q2Qc (31 # 2); Q2Qc (9 # 4); Q2Qc (-9 # 4); Q2Qc (9 # 4); Q2Qc (25 # 2)].
Example C87_ex : mprun mech0 mdis [1; 2; 4]%Z ++ mprun mech0 mdis [4; 1; 2; -1; 3]%Z = [mpres; mpres] /\
  mprun mech0 mdis [-1]%Z = [] /\ mprun mech0 mdis [7]%Z = [[]].
Proof. split; [apply qlbs_eq; vm_compute; reflexivity|]. split; [reflexivity|]. apply qlbs_eq; vm_compute; reflexivity. Qed.
Definition mpst (x : chain Qc) : list (list Qc) := match rkmp_main x [1; 2; 4]%Z with Some (Some r) => [[mp_mass r]] | _ => [] end.
Example C87_ex_moves : exists c r ls, chain_fk mech0 mdis = Some c /\ rkmp_main c [1; 2; 4]%Z = Some (Some r) /\ mp_mass r = qz 4 /\
  chosen (c_links c) [1; 2; 4]%Z ls /\ ls <> [] /\ moves_like r (map link_wmp ls).
Proof.
  destruct (some_exq (chain_fk mech0 mdis) mpst [[qz 4]]) as (c & FK & S); [vm_compute; reflexivity|]. unfold mpst in S.
  destruct (rkmp_main c [1; 2; 4]%Z) as [[r|]|] eqn:H; try discriminate. assert (M : mp_mass r = qz 4) by exact (f_equal (fun t => hd (qz 0) (hd [] t)) S).
  destruct mech0_usable as (W & _ & J & _).
  destruct (C87_moves_like_the_links mech0 c mdis _ r W J FK H) as (ls & A & B & C); [rewrite M; vm_compute; reflexivity|].
  exists c, r, ls. repeat (split; [assumption|]). exact C.
Qed.

(** C87: of a body lighter than the tolerance the centre of mass is not divided by the mass, and
    the printed mass property is not that of the body. *)
Definition feather : chain Qc :=
  let l := link_new "feather" (jn TFixed) in
  Chain [Link "feather" (jn TFixed) (body_set_mp (l_body l) (MP (Q2Qc (1 # 10000000)) (V3 (qz 1) (qz 0) (qz 0)) m3zero)) None fid fid v6zero None None None]
    (Q2Qc (1 # 10000000)) v3zero v3zero v3zero.
Lemma feather_ok : well_formed (c_links feather) /\ joints_made (c_links feather).
Proof.
  split.
  - apply (C23_complete_tree (c_links feather) []); [|constructor|cbn; lia|cbn; tauto| |reflexivity].
    + intros i l. destruct i as [|[|i]]; intros H; try discriminate. injection H as <-. repeat split.
    + intros c H. cbn in H. lia.
  - intros i l H. destruct i as [|[|i]]; try discriminate. injection H as <-. apply jn_made.
Qed.
Theorem C87_light_refuted : exists (c0 c : chain Qc) q inp r ls, well_formed (c_links c0) /\ joints_made (c_links c0) /\
  chain_fk c0 q = Some c /\ rkmp_main c inp = Some (Some r) /\ chosen (c_links c) inp ls /\ mp_mass r <> qz 0 /\ ~ moves_like r (map link_wmp ls).
Proof.
  destruct feather_ok as (W & J).
  destruct (some_exq (chain_fk feather []) (fun c => match c_links c, rkmp_main c [0%Z] with [l], Some (Some r) => [[mp_mass r]; l3 (mot_p r v3zero (V3 (qz 0) (qz 0) (qz 1))); l3 (mot_p (link_wmp l) v3zero (V3 (qz 0) (qz 0) (qz 1)))] | _, _ => [] end)
    [[Q2Qc (1 # 10000000)]; [qz 0; Q2Qc (1 # 100000000000000); qz 0]; [qz 0; Q2Qc (1 # 10000000); qz 0]]) as (c & FK & S); [vm_compute; reflexivity|].
  destruct (c_links c) as [|l [|]] eqn:Hc; try discriminate. destruct (rkmp_main c [0%Z]) as [[r|]|] eqn:H; try discriminate.
  assert (M : mp_mass r = Q2Qc (1 # 10000000)) by exact (f_equal (fun t => hd (qz 0) (hd [] t)) S).
  pose proof (f_equal (fun t => hd (qz 0) (tl (hd [] (tl t)))) S) as A. pose proof (f_equal (fun t => hd (qz 0) (tl (hd [] (tl (tl t))))) S) as B. cbn [hd tl l3] in A, B. clear S.
  exists feather, c, [], [0%Z], r, [l]. repeat (split; [assumption|]). split.
  { rewrite Hc. exists [0%Z], []. repeat split; auto. intros z [<-|[]]. discriminate. }
  split; [rewrite M; discriminate|]. intros (_ & K). destruct (K v3zero (V3 (qz 0) (qz 0) (qz 1))) as (P & _). apply (f_equal (fun v : vec3 Qc => vy v)) in P.
  cbn [map] in P. unfold v3sum in P. cbn [fold_right] in P. rewrite A in P. unfold v3add in P. cbn [vy] in P. rewrite B in P. revert P. vm_compute. discriminate.
Qed.

Print Assumptions C87_moves_like_the_links.
Print Assumptions C87_no_other.
Print Assumptions C87_order_irrelevant.
Print Assumptions C87_same_as_combining.
Print Assumptions C87_answers.
Print Assumptions C87_light_refuted.
