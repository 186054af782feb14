(** * MoveABI_Properties: forward dynamics of a chain whose base is placed elsewhere (C108). *)
From Coq Require Import String ZArith QArith Qcanon List Arith Lia Bool Field Permutation.
From Verif Require Import Conf_Q Num NumFacts Vec VecFacts Motor_Model Joint_Model Joint_Spec Joint_Proofs Body_Model Body_Proofs Tree Tree_Proofs Link_Model Link_Spec Link_Proofs Chain_Proofs Link_Properties Chain_Properties Kin_Spec Kin_Proofs Jacobi_Model Jacobi_Proofs Conf_Proofs Kin_Properties ExtQ.
From Verif Require Import Walk ABI_Model ABI_Spec ABI_State ABI_Q Dyn_Properties ABI_Properties Move_Properties.
Import ListNotations.

(** ** Walks over a mapped array *)
Section Walks.
Context {A P S : Type} (parent child sibl : A -> option nat) (f : A -> A).
Notation refs := (Tree_Proofs.same_refs parent child sibl).
Context (FR : forall l, refs l (f l)).
Lemma set_nth_mapped i l (h : list A) : set_nth i (f l) (map f h) = map f (set_nth i l h).
Proof. revert i. induction h as [|a h IH]; intros [|i]; [reflexivity..|]. cbn [map set_nth]. now rewrite IH. Qed.
Lemma nth_mapped (h : list A) i : nth_error (map f h) i = option_map f (nth_error h i).
Proof. revert i. induction h as [|a h IH]; intros [|i]; [reflexivity..|]. apply IH. Qed.
Lemma walk_back_mapped (fin : A -> A) (give : A -> A -> A) : (forall l, fin (f l) = f (fin l)) -> (forall l q, parent l <> None -> give (f l) (f q) = f (give l q)) ->
  forall fuel h i, walk_back parent child sibl fin give fuel (map f h) i = option_map (map f) (walk_back parent child sibl fin give fuel h i).
Proof.
  intros FI GI.
  assert (BS : forall h i, back_self parent fin give (map f h) i = option_map (map f) (back_self parent fin give h i)).
  { intros h i. unfold back_self, on_nth. rewrite nth_mapped. destruct (nth_error h i) as [l|]; [|reflexivity]. cbn [option_map]. rewrite FI, <- (proj1 (FR (fin l))), set_nth_mapped.
    destruct (parent (fin l)) as [q|] eqn:Q; [|reflexivity]. cbn [opt_walk]. rewrite nth_mapped. destruct (nth_error (set_nth i (fin l) h) q) as [lq|]; [|reflexivity]. cbn [option_map].
    rewrite GI by (rewrite Q; discriminate). now rewrite set_nth_mapped. }
  induction fuel as [|n IH]; intros h i; [reflexivity|]. cbn [walk_back]. unfold on_nth. rewrite nth_mapped. destruct (nth_error h i) as [l|]; [|reflexivity]. cbn [option_map].
  rewrite <- (proj2 (proj2 (FR l))).
  replace (opt_walk (sibl l) (map f h) (fun s => walk_back parent child sibl fin give n (map f h) s)) with (option_map (map f) (opt_walk (sibl l) h (fun s => walk_back parent child sibl fin give n h s)))
    by (destruct (sibl l); [symmetry; apply IH|reflexivity]).
  destruct (opt_walk (sibl l) h _) as [h1|]; [|reflexivity]. cbn [option_map bind]. rewrite nth_mapped. destruct (nth_error h1 i) as [l1|]; [|reflexivity]. cbn [option_map]. rewrite <- (proj1 (proj2 (FR l1))).
  replace (opt_walk (child l1) (map f h1) (fun s => walk_back parent child sibl fin give n (map f h1) s)) with (option_map (map f) (opt_walk (child l1) h1 (fun s => walk_back parent child sibl fin give n h1 s)))
    by (destruct (child l1); [symmetry; apply IH|reflexivity]).
  destruct (opt_walk (child l1) h1 _) as [h2|]; [|reflexivity]. apply BS.
Qed.
(** Children have a parent, and so have the siblings of a link that has one. *)
Definition linked (h : list A) : Prop := forall i j l m, nth_error h i = Some l -> nth_error h j = Some m -> (child l = Some j -> parent m <> None) /\ (sibl l = Some j -> parent l <> None -> parent m <> None).
Lemma linked_refs h h' : Forall2 refs h h' -> linked h -> linked h'.
Proof.
  intros R H i j l m Hl Hm. destruct (Forall2_nth_r _ _ _ R i l Hl) as (l0 & Hl0 & A1 & A2 & A3). destruct (Forall2_nth_r _ _ _ R j m Hm) as (m0 & Hm0 & B1 & _). rewrite <- A1, <- A2, <- A3, <- B1. eauto.
Qed.
Lemma set_refs i l l' h : nth_error h i = Some l -> refs l l' -> Forall2 refs h (set_nth i l' h).
Proof.
  revert i. induction h as [|a h IH]; intros [|i] H R; try discriminate H; cbn [set_nth].
  - injection H as ->. constructor; [exact R|]. clear. induction h; constructor; [repeat split|assumption].
  - constructor; [repeat split|]. now apply IH.
Qed.
Lemma refs_all_trans h1 h2 h3 : Forall2 refs h1 h2 -> Forall2 refs h2 h3 -> Forall2 refs h1 h3.
Proof. intros R. revert h3. induction R as [|a b h1 h2 (? & ? & ?) _ IH]; intros h3 R2; inversion R2 as [|x c ? h3' (? & ? & ?) ?]; subst; constructor; [repeat split; congruence|auto]. Qed.
Lemma refs_all_refl h : Forall2 refs h h.
Proof. induction h; constructor; [repeat split|assumption]. Qed.
Lemma walk_back_refs (fin : A -> A) (give : A -> A -> A) : (forall l, refs l (fin l)) -> (forall l q, refs q (give l q)) ->
  forall fuel h i h', walk_back parent child sibl fin give fuel h i = Some h' -> Forall2 refs h h'.
Proof.
  intros FN GV. induction fuel as [|n IH]; intros h i h' W; [discriminate|]. cbn [walk_back] in W. unfold on_nth in W. destruct (nth_error h i) as [l|]; [|discriminate].
  destruct (opt_walk (sibl l) h _) as [h1|] eqn:Q1; [|discriminate]. cbn [bind] in W. destruct (nth_error h1 i) as [l1|]; [|discriminate]. destruct (opt_walk (child l1) h1 _) as [h2|] eqn:Q2; [|discriminate]. cbn [bind] in W.
  apply (refs_all_trans h h1); [destruct (sibl l); cbn [opt_walk] in Q1; [eauto|injection Q1 as <-; apply refs_all_refl]|].
  apply (refs_all_trans h1 h2); [destruct (child l1); cbn [opt_walk] in Q2; [eauto|injection Q2 as <-; apply refs_all_refl]|].
  unfold back_self, on_nth in W. destruct (nth_error h2 i) as [l2|] eqn:H2; [|discriminate]. pose proof (set_refs i l2 (fin l2) h2 H2 (FN l2)) as R.
  destruct (parent (fin l2)) as [q|]; cbn [opt_walk] in W; [|injection W as <-; exact R]. destruct (nth_error (set_nth i (fin l2) h2) q) as [lq|] eqn:Hq; [|discriminate]. injection W as <-.
  eapply refs_all_trans; [exact R|]. eapply set_refs; [exact Hq|apply GV].
Qed.
Definition both {X} (x : S * X) (g : X -> X) : S * X := (fst x, g (snd x)).
Lemma walk_fwd_mapped (upd : S -> A -> P -> S * A) (par : A -> P) (p0 : P) : (forall s l p, refs l (snd (upd s l p))) -> (forall l, par (f l) = par l) ->
  (forall s l p, parent l <> None \/ p = p0 -> upd s (f l) p = both (upd s l p) f) ->
  forall fuel s h i p, linked h -> (forall l, nth_error h i = Some l -> parent l <> None \/ p = p0) ->
  walk_fwd child sibl upd par fuel s (map f h) i p = option_map (fun x => both x (map f)) (walk_fwd child sibl upd par fuel s h i p) /\
  (forall x, walk_fwd child sibl upd par fuel s h i p = Some x -> Forall2 refs h (snd x)).
Proof.
  intros UR PF UF. induction fuel as [|n IH]; intros s h i p LK PO; [split; [reflexivity|discriminate]|]. cbn [walk_fwd]. unfold on_nth. rewrite nth_mapped. destruct (nth_error h i) as [l|] eqn:Hl; [|split; [reflexivity|discriminate]].
  cbn [option_map]. rewrite (UF s l p (PO l eq_refl)). pose proof (UR s l p) as RU. destruct (upd s l p) as [s1 l1]. unfold both at 1. cbn [fst snd] in *.
  assert (R1 : Forall2 refs h (set_nth i l1 h)) by (eapply set_refs; eassumption). rewrite set_nth_mapped, <- (proj2 (proj2 (FR l1))).
  assert (ST : opt_walk (sibl l1) (s1, map f (set_nth i l1 h)) (fun x => walk_fwd child sibl upd par n s1 (map f (set_nth i l1 h)) x p) =
      option_map (fun x => both x (map f)) (opt_walk (sibl l1) (s1, set_nth i l1 h) (fun x => walk_fwd child sibl upd par n s1 (set_nth i l1 h) x p)) /\
      (forall x, opt_walk (sibl l1) (s1, set_nth i l1 h) (fun x => walk_fwd child sibl upd par n s1 (set_nth i l1 h) x p) = Some x -> Forall2 refs h (snd x))).
  { destruct (sibl l1) as [b|] eqn:Q; cbn [opt_walk].
    - destruct (IH s1 (set_nth i l1 h) b p) as [I1 I2].
      + eapply linked_refs; eassumption.
      + intros m Hm. destruct (PO l eq_refl) as [NP|]; [left|now right]. destruct (Forall2_nth_r _ _ _ R1 b m Hm) as (m0 & Hm0 & B1 & _). rewrite <- B1. destruct (LK i b l m0 Hl Hm0) as [_ LS]. apply LS; [|exact NP]. destruct RU as (_ & _ & ->). exact Q.
      + split; [exact I1|]. intros x Hx. eapply refs_all_trans; [exact R1|auto].
    - split; [reflexivity|]. intros x Hx. injection Hx as <-. exact R1. }
  destruct ST as [-> ST]. destruct (opt_walk (sibl l1) _ _) as [[s2 h2]|]; [|split; [reflexivity|discriminate]]. cbn [option_map bind]. unfold both at 1. cbn [fst snd]. specialize (ST _ eq_refl). cbn [snd] in ST.
  rewrite nth_mapped. destruct (nth_error h2 i) as [l2|] eqn:H2; [|split; [reflexivity|discriminate]]. cbn [option_map]. rewrite <- (proj1 (proj2 (FR l2))), PF.
  destruct (child l2) as [b|] eqn:Q; cbn [opt_walk]; [|split; [reflexivity|]; intros x Hx; injection Hx as <-; exact ST].
  destruct (IH s2 h2 b (par l2)) as [I1 I2]; [eapply linked_refs; eassumption| |].
  - intros m Hm. left. assert (LK2 : linked h2) by (eapply linked_refs; eassumption). destruct (LK2 i b l2 m H2 Hm) as [LC _]. now apply LC.
  - split; [exact I1|]. intros x Hx. eapply refs_all_trans; [exact ST|auto].
Qed.
Lemma rep_linked h : forall w q o, rep parent child sibl h q o w -> (forall i l, In i (ids w) -> nth_error h i = Some l -> (forall j m, child l = Some j -> nth_error h j = Some m -> parent m <> None) /\
  (forall j m, sibl l = Some j -> nth_error h j = Some m -> parent l <> None -> parent m <> None)) /\ (forall i m, o = Some i -> nth_error h i = Some m -> parent m = q).
Proof.
  induction w as [|i k IHk r IHr]; intros q o R; cbn [rep] in R.
  - subst o. split; [intros ? ? []|discriminate].
  - destruct R as (-> & l & Hl & HP & Rk & Rr). destruct (IHk _ _ Rk) as [K1 K2]. destruct (IHr _ _ Rr) as [S1 S2]. split.
    + intros j m Hj Hm. cbn [ids] in Hj. destruct Hj as [<-|Hj].
      * replace m with l in * by congruence. split; [intros b x Q Hx; rewrite (K2 b x Q Hx); discriminate|]. intros b x Q Hx NP. rewrite (S2 b x Q Hx). now rewrite <- HP.
      * apply in_app_or in Hj. destruct Hj; [eapply K1|eapply S1]; eassumption.
    + intros j m Q Hm. injection Q as <-. congruence.
Qed.
End Walks.

Section MoveABI.
Context {F : Type} {N : Num F} {L : NumLaws F N} {E : Ext F} {X : ExtLaws F N E} {MI : MInv F}.
Local Open Scope num_scope.
Local Ltac vring := intros; vdestruct; vunfold; vsplit; ring.
Add Field FFieldMa : num_field.
Notation arefs := (Tree_Proofs.same_refs al_parent al_child al_sibl).
Definition a_move (T : frame F) (l : alink F) : alink F := AL (l_move T (al_l l)) (al_a l).
Lemma a_move_refs T l : arefs l (a_move T l).
Proof. repeat split. Qed.
Lemma adj_moved T l : l_parent l <> None -> l_adj (l_move T l) = l_adj l.
Proof. unfold l_move. cbn. destruct (l_parent l); [reflexivity|]. now intros []. Qed.
Lemma init_moved T g v l : keeps_vertical T -> al_parent l <> None \/ v = v6zero -> abi_init g v (a_move T l) = a_move T (abi_init g v l).
Proof.
  intros K PO. unfold abi_init, a_move. cbn [al_l al_a]. f_equal.
  change (l_frame (l_move T (al_l l))) with (fcascade T (l_frame (al_l l))). change (fatt (fcascade T (l_frame (al_l l)))) with (m3mul (fatt T) (fatt (l_frame (al_l l)))).
  rewrite (turned_up _ _ _ K). destruct PO as [NP| ->].
  - rewrite (adj_moved T _ NP). reflexivity.
  - assert (Q : forall f : frame F, m3tv (fatt f) (vang v6zero) = v3zero) by vring. assert (Q2 : forall f : frame F, m3tv (fatt f) (v3triple (vang v6zero) (vang v6zero) (fpos f)) = v3zero) by vring.
    rewrite !Q, !Q2. reflexivity.
Qed.
Lemma back_moved T br l : abi_back br (a_move T l) = a_move T (abi_back br l). Proof. reflexivity. Qed.
Lemma give_moved T br l q : al_parent l <> None -> abi_give br (a_move T l) (a_move T q) = a_move T (abi_give br l q).
Proof. intros NP. unfold abi_give, abi_add_bias, a_move. cbn [al_l al_a al_map_a]. rewrite (adj_moved T _ NP). reflexivity. Qed.
Lemma fwd_moved T br l p : al_parent l <> None \/ p = v6zero -> abi_fwd br (a_move T l) p = a_move T (abi_fwd br l p).
Proof.
  intros PO. unfold abi_fwd. cbn [a_move al_l al_a]. replace (xform6lin (l_adj (l_move T (al_l l))) p) with (xform6lin (l_adj (al_l l)) p); [reflexivity|].
  destruct PO as [NP| ->]; [now rewrite (adj_moved T _ NP)|now rewrite !base_vel].
Qed.
Lemma fwd_wrench_moved T br l p : al_parent l <> None \/ p = v6zero -> abi_fwd_wrench br (a_move T l) p = both (abi_fwd_wrench br l p) (a_move T).
Proof. intros PO. unfold abi_fwd_wrench. rewrite (fwd_moved T br l p PO). reflexivity. Qed.
Lemma map_opt_mapped (f : alink F -> alink F) (u v : alink F -> option (alink F)) h : (forall l, In l h -> u (f l) = option_map f (v l)) -> map_opt u (map f h) = option_map (map f) (map_opt v h).
Proof.
  induction h as [|l h IH]; intros H; [reflexivity|]. cbn [map map_opt]. rewrite (H l (or_introl eq_refl)), IH by (intros; apply H; now right). destruct (v l); [|reflexivity]. cbn. destruct (map_opt v h); reflexivity.
Qed.
Lemma init_all_moved T g h : keeps_vertical T -> init_all g (map (a_move T) h) = option_map (map (a_move T)) (init_all g h).
Proof.
  intros K. unfold init_all. apply map_opt_mapped. intros l _. unfold parent_vel. change (al_parent (a_move T l)) with (al_parent l). destruct (al_parent l) as [q|] eqn:HP.
  - rewrite nth_mapped. destruct (nth_error h q) as [lq|]; [|reflexivity]. cbn [option_map]. f_equal. apply (init_moved T g (l_vel (al_l lq)) l K). left. rewrite HP. discriminate.
  - cbn [option_map]. f_equal. apply (init_moved T g v6zero l K). now right.
Qed.
Lemma back_all_moved T br n h : back_all br n (map (a_move T) h) = option_map (map (a_move T)) (back_all br n h).
Proof. apply (walk_back_mapped al_parent al_child al_sibl (a_move T) (a_move_refs T)); [apply back_moved|intros; now apply give_moved]. Qed.
Definition alinked (h : list (alink F)) := linked al_parent al_child al_sibl h.
Lemma fwd_all_moved T br n h : alinked h -> (forall l, nth_error h 0 = Some l -> al_parent l = None) ->
  fwd_wrench_all br n (map (a_move T) h) = option_map (fun x => both x (map (a_move T))) (fwd_wrench_all br n h).
Proof.
  intros LK R0. apply (walk_fwd_mapped al_parent al_child al_sibl (a_move T) (a_move_refs T) abi_fwd_wrench al_acc v6zero); [|reflexivity|intros; now apply fwd_wrench_moved|exact LK|now right].
  intros s l p. unfold abi_fwd_wrench, abi_fwd. repeat split.
Qed.

Lemma init_all_refs g h h' : init_all g h = Some h' -> Forall2 arefs h h'.
Proof.
  unfold init_all. generalize (parent_vel h). intros pv. revert h'. induction h as [|l h IH]; intros h' A; cbn [map_opt] in A; [injection A as <-; constructor|].
  destruct (pv l) as [v|]; [|discriminate]. cbn [option_map obind] in A. destruct (map_opt _ h) as [t|]; [|discriminate]. injection A as <-. constructor; [repeat split|auto].
Qed.
Lemma put_links (c : achain F) br h : ac_links (ac_put c br h) = h.
Proof. unfold ac_links, ac_put. cbn [ac_c ac_a c_links c_set_links]. induction h as [|[l a] h IH]; [reflexivity|]. cbn [map combine al_l al_a fst snd]. now rewrite IH. Qed.
(** The same working memory on the moved links. *)
Definition ac_move (T : frame F) (c : achain F) (d : chain F) : achain F := AC (c_set_links (map (l_move T) (c_links (ac_c c))) d) (ac_a c) (ac_br c).
Lemma links_moved T c d : ac_links (ac_move T c d) = map (a_move T) (ac_links c).
Proof.
  unfold ac_links, ac_move. cbn [ac_c ac_a c_links c_set_links]. generalize (c_links (ac_c c)) (ac_a c). induction l as [|x l IH]; intros [|a t]; [reflexivity..|]. cbn [map combine fst snd]. f_equal. apply IH.
Qed.
Lemma put_moved T c d br h : ac_put (ac_move T c d) br (map (a_move T) h) = ac_move T (ac_put c br h) d.
Proof. unfold ac_put, ac_move, c_set_links. cbn. rewrite !map_map. reflexivity. Qed.
Lemma size_moved T c d : chain_joint_size (ac_c (ac_move T c d)) = chain_joint_size (ac_c c).
Proof.
  rewrite !chain_joint_size_total. unfold ac_move. cbn [ac_c c_links c_set_links]. generalize (c_links (ac_c c)). induction l as [|x l IH]; [reflexivity|]. cbn [map]. unfold total in *. cbn [fold_right]. rewrite IH. reflexivity.
Qed.
Lemma fuel_moved T c d : c_fuel (ac_c (ac_move T c d)) = c_fuel (ac_c c).
Proof. unfold c_fuel, ac_move. cbn [ac_c c_links c_set_links]. now rewrite map_length. Qed.
Lemma update_moved T g c c' d : keeps_vertical T -> alinked (ac_links c) -> (forall l, nth_error (ac_links c) 0 = Some l -> al_parent l = None) -> chain_joint_size (ac_c c) <> 0%nat ->
  chain_abi_update_wrench g c = Some c' -> chain_abi_update_wrench g (ac_move T c d) = Some (ac_move T c' d).
Proof.
  intros K LK R0 NZ. unfold chain_abi_update_wrench. rewrite size_moved. destruct (Nat.eqb_spec (chain_joint_size (ac_c c)) 0); [contradiction|].
  unfold chain_abi_init, ac_lift. rewrite links_moved, (init_all_moved T g _ K). destruct (init_all g (ac_links c)) as [h1|] eqn:Q1; [|discriminate]. cbn [option_map obind].
  change (ac_br (ac_move T c d)) with (ac_br c). rewrite put_moved. unfold chain_abi_backward, ac_lift. rewrite fuel_moved, links_moved, put_links.
  change (ac_br (ac_move T (ac_put c (ac_br c) h1) d)) with (ac_br c). change (ac_br (ac_put c (ac_br c) h1)) with (ac_br c).
  rewrite back_all_moved. set (n2 := c_fuel _). destruct (back_all (ac_br c) n2 h1) as [h2|] eqn:Q2; [|discriminate]. cbn [option_map obind].
  rewrite put_moved. unfold chain_abi_forward_wrench. rewrite fuel_moved, links_moved, put_links. set (c2 := ac_put (ac_put c (ac_br c) h1) (ac_br c) h2).
  change (ac_br (ac_move T c2 d)) with (ac_br c). change (ac_br c2) with (ac_br c).
  pose proof (init_all_refs g _ _ Q1) as R1. assert (R2 : Forall2 arefs h1 h2) by (eapply walk_back_refs; [| |exact Q2]; intros; repeat split).
  pose proof (refs_all_trans _ _ _ _ _ _ R1 R2) as R. rewrite fwd_all_moved.
  - destruct (fwd_wrench_all _ _ h2) as [[br h3]|]; [|discriminate]. cbn [option_map]. intros H. injection H as <-. f_equal. unfold both. cbn [fst snd]. apply put_moved.
  - exact (linked_refs _ _ _ _ _ R LK).
  - intros l Hl. destruct (Forall2_nth_r _ _ _ R 0%nat l Hl) as (l0 & Hl0 & <- & _). now apply R0.
Qed.
Lemma vel_moved T l q p : l_parent l = Some q -> upd_vel (l_move T l) p = l_move T (upd_vel l p).
Proof. intros HP. unfold l_move at 1. rewrite HP. unfold l_move, upd_vel. cbn. rewrite HP. reflexivity. Qed.
Lemma vel_moved_root T l : l_parent l = None -> upd_vel (l_move T l) v6zero = l_move T (upd_vel l v6zero).
Proof. intros HP. unfold l_move at 1. rewrite HP. unfold upd_vel. cbn [l_adj l_body l_joint l_set_body]. rewrite !base_vel. unfold l_move. cbn. rewrite HP. reflexivity. Qed.
Definition pose (c : chain F) dis vel : option (chain F) :=
  obind (chain_set_joint_dis_all c dis) (fun x => obind (chain_set_joint_vel_all x vel) (fun x => obind (chain_update_fk x) chain_update_vel)).
Lemma pose_moved T (c c4 : chain F) dis vel : usable c -> length dis = chain_joint_size c -> length vel = chain_joint_size c -> pose c dis vel = Some c4 ->
  exists d, pose (base_at T c) dis vel = Some (c_set_links (map (l_move T) (c_links c4)) d).
Proof.
  intros (W & O & JM & OR) LD LV. apply offsets_placed in O. rewrite chain_joint_size_total in *.
  destruct (set_all_spec joint_set_dis dis (c_links c) 0 set_dis_ok O) as (h1 & A1 & R1); [lia|].
  assert (P1 := set_posed _ _ _ _ set_dis_ok R1).
  destruct (set_all_spec joint_set_vel vel h1 0 set_vel_ok (posed_placed _ _ P1 _ O)) as (h2 & A2 & R2); [rewrite (posed_total _ _ P1); lia|].
  assert (P2 := set_posed _ _ _ _ set_vel_ok R2).
  assert (M0 : all_made (c_links c)) by (apply Forall_forall; intros l I; apply In_nth_error in I as [i Hi]; eauto).
  assert (M2 : all_made h2) by (eapply set_rel_made; [apply made_set_vel|exact R2|]; eapply set_rel_made; [apply made_set_dis|exact R1|exact M0]).
  assert (W2 : well_formed h2) by (eapply posed_wf; [exact P2|]; eapply posed_wf; [exact P1|exact W]).
  unfold pose, chain_set_joint_dis_all. cbn [base_at c_links c_set_links]. rewrite (set_all_mapped (l_mount T)) by (intros; unfold l_mount; destruct l as [? ? ? ? ? ? ? [?|] ? ?]; reflexivity).
  rewrite A1. cbn [option_map obind]. unfold chain_set_joint_vel_all. cbn [c_links c_set_links]. rewrite (set_all_mapped (l_mount T)) by (intros; unfold l_mount; destruct l as [? ? ? ? ? ? ? [?|] ? ?]; reflexivity).
  rewrite A2. cbn [option_map obind]. unfold chain_update_fk, chain_update_frame, chain_update_vel, chain_lift, update_frame, update_vel, c_fuel. cbn [c_links c_set_links]. rewrite map_length.
  destruct (walk_down_mapped (l_mount T) (l_move T) upd_frame l_frame (fcascade T) h2 fid (S (length h2))) as (h3 & B1 & B2).
  - repeat split.
  - apply mount_refs.
  - intros l q p _ HP. now apply (frame_moved T l q).
  - intros l Hl HP. apply frame_moved_root; [|exact HP]. apply made_cache. exact (proj1 (Forall_forall _ _) M2 l Hl).
  - reflexivity.
  - exact W2.
  - lia.
  - rewrite B1, B2. cbn [option_map obind c_links chain_calc_com c_set_links].
    assert (W3 : well_formed h3).
    { destruct (C24_fk_id_total 0 (c_set_links h2 c) W2) as [(c' & D & W') _]. unfold chain_update_fk, chain_update_frame, chain_lift, update_frame, c_fuel in D. cbn [c_links c_set_links] in D. rewrite B1 in D. cbn [option_map] in D. injection D as <-. exact W'. }
    rewrite map_length. destruct (walk_down_mapped (l_move T) (l_move T) upd_vel l_vel (fun p => p) h3 v6zero (S (length h3))) as (h4 & C1 & C2).
    + repeat split.
    + apply move_refs.
    + intros l q p _ HP. now apply (vel_moved T l q).
    + intros l _ HP. now apply vel_moved_root.
    + reflexivity.
    + exact W3.
    + lia.
    + rewrite C1, C2. cbn [option_map]. intros H. injection H as <-. eexists. reflexivity.
Qed.
Lemma wf_linked (c : achain F) : well_formed (c_links (ac_c c)) -> length (ac_a c) = length (c_links (ac_c c)) -> alinked (ac_links c) /\ (forall l, nth_error (ac_links c) 0 = Some l -> al_parent l = None).
Proof.
  intros [k [R PM]] LN. assert (NL : forall i l, nth_error (ac_links c) i = Some l -> nth_error (c_links (ac_c c)) i = Some (al_l l)).
  { unfold ac_links. clear - LN. revert LN. generalize (c_links (ac_c c)) (ac_a c). induction l as [|x l IH]; intros [|a t] LN i y H; try discriminate LN; [destruct i; discriminate H|]. destruct i; [cbn in H; injection H as <-; reflexivity|].
    cbn in H. injection LN as LN. exact (IH t LN i y H). }
  destruct (rep_linked _ _ _ _ _ _ _ R) as [H1 H2]. split.
  - intros i j l m Hl Hm. apply NL in Hl. apply NL in Hm. assert (I : In i (ids (FCons 0 k FNil))).
    { eapply Permutation_in; [symmetry; exact PM|]. apply in_seq. split; [lia|]. apply nth_error_Some. congruence. }
    destruct (H1 i _ I Hl) as [K1 K2]. split; [intros Q; exact (K1 j _ Q Hm)|intros Q; exact (K2 j _ Q Hm)].
  - intros l Hl. apply NL in Hl. exact (H2 0%nat _ eq_refl Hl).
Qed.

(** The chain mounted elsewhere, with the same working memory and the same forces on its links. *)
Definition abase_at (T : frame F) (c : achain F) : achain F := AC (base_at T (ac_c c)) (ac_a c) (ac_br c).
Theorem C108_forward : forall (T : frame F) g (c c' : achain F) dis vel acc qdd, keeps_vertical T -> usable (ac_c c) -> length (ac_a c) = length (c_links (ac_c c)) ->
  length dis = chain_joint_size (ac_c c) -> length vel = chain_joint_size (ac_c c) -> chain_abi g c dis vel acc = Some (c', Some qdd) ->
  exists d', chain_abi g (abase_at T c) dis vel acc = Some (d', Some qdd) /\ Forall2 (carried T) (c_links (ac_c c')) (c_links (ac_c d')) /\ ac_a d' = ac_a c' /\ ac_br d' = ac_br c'.
Proof.
  intros T g c c' dis vel acc qdd K US LA LD LV. unfold chain_abi. destruct (Nat.eqb_spec (chain_joint_size (ac_c c)) 0) as [|NZ]; [discriminate|].
  assert (SZ : chain_joint_size (ac_c (abase_at T c)) = chain_joint_size (ac_c c)).
  { rewrite !chain_joint_size_total. cbn [abase_at ac_c base_at c_links c_set_links]. generalize (c_links (ac_c c)). induction l as [|x l IH]; [reflexivity|]. cbn [map]. unfold total in *. cbn [fold_right]. rewrite IH. f_equal. unfold l_mount. destruct (l_parent x); reflexivity. }
  rewrite SZ. destruct (Nat.eqb_spec (chain_joint_size (ac_c c)) 0); [contradiction|]. unfold ac_on_chain. fold (pose (ac_c c) dis vel) (pose (ac_c (abase_at T c)) dis vel). cbn [abase_at ac_c ac_a ac_br].
  destruct (pose_chain (ac_c c) dis vel US LD LV) as (c4 & A4 & PC). fold (pose (ac_c c) dis vel) in A4. rewrite A4. destruct (pose_moved T _ _ _ _ US LD LV A4) as [d ->]. cbn [option_map obind].
  assert (L4 : length (ac_a c) = length (c_links c4)) by (rewrite LA; exact (Forall2_len _ _ _ (pc_posed _ _ _ _ PC))).
  destruct (wf_linked (AC c4 (ac_a c) (ac_br c))) as [LK R0]; [apply PC|exact L4|].
  assert (N4 : chain_joint_size c4 <> 0%nat) by (rewrite chain_joint_size_total, (pc_total _ _ _ _ PC); exact NZ).
  destruct (chain_abi_update_wrench g (AC c4 (ac_a c) (ac_br c))) as [c5|] eqn:Q; [|discriminate]. pose proof (update_moved T g _ _ d K LK R0 N4 Q) as Q'. unfold ac_move in Q' at 1. cbn [ac_c ac_a ac_br] in Q'. rewrite Q'. cbn [obind].
  destruct (chain_get_joint_acc_all (ac_c c5) acc) as [v|] eqn:GA; [|discriminate]. cbn [option_map]. intros H. injection H as <- <-. eexists. split; [|split; [|split]].
  - replace (chain_get_joint_acc_all (ac_c (ac_move T c5 d)) acc) with (Some v); [reflexivity|]. rewrite <- GA. unfold chain_get_joint_acc_all, ac_move. cbn [ac_c c_links c_set_links]. clear. generalize (c_links (ac_c c5)) acc. induction l as [|x l IH]; intros w; [reflexivity|].
    cbn [map get_all l_offset l_move l_joint]. destruct (l_offset x); [|apply IH]. cbn. destruct (write_at _ _ _); [apply IH|reflexivity].
  - apply move_carried.
  - reflexivity.
  - reflexivity.
Qed.
End MoveABI.

(** ** Concrete cases *)
Definition rmech : achain Qc := contact_at 2 [wa] (chain_abi_alloc false (mech5 [jn TRevol; jtq; jn TFixed; jdc; jn TFixed])).
Definition rdis : list Qc := map qz [1; 0; 1]%Z.
Definition rvel : list Qc := map qz [1; -1; 2]%Z.
Definition z3 : list Qc := repeat (qz 0) 3.
Definition acc_of (k : Z) (x : achain Qc * option (list Qc)) : list (list Qc) := [match snd x with Some q => map (Qcmult (qz k)) q | None => [] end].
Example C108_ex : exists x, chain_abi (qz 10) rmech rdis rvel z3 = Some x /\ acc_of 55 x = zq [[7; -22; -61]]%Z.
Proof. apply (some_exq _ (acc_of 55)). vm_compute. reflexivity. Qed.
Example C108_ex_moved : exists x, chain_abi (qz 10) (abase_at quarter rmech) rdis rvel z3 = Some x /\ acc_of 55 x = zq [[7; -22; -61]]%Z.
Proof. apply (some_exq _ (acc_of 55)). vm_compute. reflexivity. Qed.
(** A tilted chain accelerates in another way. *)
Example C108_ex_tilted : exists x, chain_abi (qz 10) (abase_at tilted rmech) rdis rvel z3 = Some x /\ acc_of 605 x = zq [[767; 168; -791]]%Z.
Proof. apply (some_exq _ (acc_of 605)). vm_compute. reflexivity. Qed.
(** The chain and the quarter turn meet the hypotheses. *)
Lemma rmech_usable : usable (ac_c rmech).
Proof. apply mech5_usable. repeat constructor; (apply jdc_made || apply jtq_made || apply jn_made). Qed.
Lemma rmech_size : chain_joint_size (ac_c rmech) = 3%nat. Proof. vm_compute. reflexivity. Qed.
Example C108_ex_theorem c' qdd : chain_abi (qz 10) rmech rdis rvel z3 = Some (c', Some qdd) -> exists d', chain_abi (qz 10) (abase_at quarter rmech) rdis rvel z3 = Some (d', Some qdd) /\
  Forall2 (carried quarter) (c_links (ac_c c')) (c_links (ac_c d')).
Proof.
  intros A. destruct (C108_forward quarter (qz 10) rmech c' rdis rvel z3 qdd (proj2 quarter_turn) rmech_usable) as (d' & B & C & _); [reflexivity|rewrite rmech_size; reflexivity..|exact A|]. exists d'. split; [exact B|exact C].
Qed.

Print Assumptions C108_forward.
