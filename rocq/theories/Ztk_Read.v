(** * Ztk_Read: what holds of a chain read from any file. *)
From Coq Require Import String List ZArith Arith Lia Permutation Field.
From Verif Require Import Num NumFacts Vec VecFacts Motor_Model Joint_Model Joint_Spec Joint_Proofs Body_Model Tree Tree_Proofs Link_Model Link_Spec Link_Proofs Chain_Proofs Chain_Properties Link_Properties Ztk_Model Ztk_Spec Ztk_Proofs Ztk_Chain.
Import ListNotations.

Section ZR.
Context {F : Type} {N : Num F} {L : NumLaws F N} {E : Ext F} {X : ExtLaws F N E} {Z : ZtkLib}.

Lemma eval_keys_inv {A} (P : A -> Prop) (h : A -> key F -> option (A * bool)) : (forall s k s' ok, P s -> h s k = Some (s', ok) -> P s') ->
  forall l s s' ok, P s -> eval_keys h s l = Some (s', ok) -> P s'.
Proof.
  intros H. induction l as [|k l IH]; intros s s' ok PS EV; cbn [eval_keys] in EV; [injection EV as <- _; exact PS|].
  destruct (h s k) as [[s1 ok1]|] eqn:HK; cbn [obind] in EV; [|discriminate]. pose proof (H _ _ _ _ PS HK) as P1. destruct ok1; [eauto|].
  destruct z_stop_key; [injection EV as <- _; exact P1|]. destruct (eval_keys h s1 l) as [[s2 ok2]|] eqn:E2; [|discriminate].
  cbn [option_map] in EV. injection EV as <- _. eauto.
Qed.
Lemma eval_tag_inv {A} (P : A -> Prop) (h : nat -> A -> list (key F) -> option (A * bool)) : (forall i s k s' ok, P s -> h i s k = Some (s', ok) -> P s') ->
  forall l i s s', P s -> eval_tag h i s l = Some s' -> P s'.
Proof.
  intros H. induction l as [|k l IH]; intros i s s' PS EV; cbn [eval_tag] in EV; [injection EV as <-; exact PS|].
  destruct (h i s k) as [[s1 ok1]|] eqn:HK; cbn [obind] in EV; [|discriminate]. pose proof (H _ _ _ _ _ PS HK) as P1.
  destruct (andb (negb ok1) z_stop_tag); [injection EV as <-; exact P1|eauto].
Qed.

(** The passes only write to existing links. *)
Definition kept (a b : link F) : Prop :=
  same_refs l_parent l_child l_sibl a b /\ l_offset b = l_offset a /\ joint_size (l_joint b) = joint_size (l_joint a) /\ l_name b = l_name a.
Lemma kept_refl a : kept a a. Proof. repeat split. Qed.
Lemma kept_trans a b c : kept a b -> kept b c -> kept a c.
Proof. unfold kept, same_refs. intuition congruence. Qed.
Lemma kept_set (h h' : list (link F)) i l l' : Forall2 kept h h' -> nth_error h' i = Some l -> kept l l' -> Forall2 kept h (set_nth i l' h').
Proof.
  intros H. revert i. induction H as [|x y h h' K H IH]; intros [|i] HI KL; cbn [nth_error set_nth] in *; try discriminate.
  - injection HI as ->. constructor; [eapply kept_trans; eauto|exact H].
  - constructor; [exact K|eauto].
Qed.
Lemma kept_all h : Forall2 kept h h. Proof. induction h; constructor; auto using kept_refl. Qed.
Lemma kept_all_trans (a b c : list (link F)) : Forall2 kept a b -> Forall2 kept b c -> Forall2 kept a c.
Proof. intros H. revert c. induction H; intros c K; inversion K; subst; constructor; eauto using kept_trans. Qed.
Lemma down_kept {P} (upd : link F -> P -> link F) par : (forall l p, kept l (upd l p)) ->
  forall fuel h i p h', walk_down l_parent l_child l_sibl upd par fuel h i p = Some h' -> Forall2 kept h h'.
Proof.
  intros K. induction fuel as [|k IH]; intros h i p h' H; cbn [walk_down] in H; [discriminate|].
  destruct (nth_error h i) as [l|] eqn:Hl; [|discriminate].
  assert (K1 : Forall2 kept h (set_nth i (upd l p) h)) by (eapply kept_set; eauto using kept_all).
  set (h1 := set_nth i (upd l p) h) in *.
  destruct (match l_child (upd l p) with None => Some h1 | Some c => walk_down l_parent l_child l_sibl upd par k h1 c (par (upd l p)) end) as [h2|] eqn:E2; [|discriminate].
  assert (K2 : Forall2 kept h h2). { destruct (l_child (upd l p)); [eapply kept_all_trans; [exact K1|eauto]|injection E2 as <-; exact K1]. }
  destruct (nth_error h2 i) as [l2|]; [|discriminate]. destruct (l_sibl l2) as [s|]; [|injection H as <-; exact K2].
  destruct (l_parent l2) as [q|]; [|discriminate]. destruct (nth_error h2 q) as [lq|]; [|discriminate]. eapply kept_all_trans; [exact K2|eauto].
Qed.
Lemma up_kept pre upd : (forall l, kept l (pre l)) -> (forall l cs, kept l (upd l cs)) ->
  forall fuel h i h', walk_up l_child l_sibl pre upd fuel h i = Some h' -> Forall2 kept h h'.
Proof.
  intros KP KU. induction fuel as [|k IH]; intros h i h' H; cbn [walk_up] in H; [discriminate|].
  destruct (nth_error h i) as [l|] eqn:Hl; [|discriminate].
  assert (K1 : Forall2 kept h (set_nth i (pre l) h)) by (eapply kept_set; eauto using kept_all).
  set (h1 := set_nth i (pre l) h) in *.
  destruct (match l_child (pre l) with None => Some h1 | Some c => walk_up l_child l_sibl pre upd k h1 c end) as [h2|] eqn:E2; [|discriminate].
  assert (K2 : Forall2 kept h h2). { destruct (l_child (pre l)); [eapply kept_all_trans; [exact K1|eauto]|injection E2 as <-; exact K1]. }
  destruct (nth_error h2 i) as [l2|] eqn:Hl2; [|discriminate]. destruct (sib_list l_sibl k h2 (l_child l2)) as [cs|]; [|discriminate].
  assert (K3 : Forall2 kept h (set_nth i (upd l2 cs) h2)) by (eapply kept_set; eauto).
  destruct (l_sibl (upd l2 cs)) as [s|]; [|injection H as <-; exact K3]. eapply kept_all_trans; [exact K3|eauto].
Qed.
Lemma trq_size (j : joint F) w : joint_size (joint_calc_trq j w) = joint_size j. Proof. destruct j; reflexivity. Qed.
Lemma lift_mass f (c c' : chain F) : chain_lift f c = Some c' -> c_mass c' = c_mass c.
Proof. unfold chain_lift. destruct (f _ _); intros H; [injection H as <-; reflexivity|discriminate]. Qed.
Lemma fk_id_kept g (c c1 c2 : chain F) : chain_update_fk c = Some c1 -> chain_update_id g c1 = Some c2 ->
  Forall2 kept (c_links c) (c_links c2) /\ c_mass c2 = c_mass c.
Proof.
  unfold chain_update_fk, chain_update_id. destruct (chain_update_frame c) as [d|] eqn:H1; [|discriminate]. intros Q. injection Q as <-.
  destruct (chain_update_rate g (chain_calc_com d)) as [d2|] eqn:H2; [|discriminate]. cbn [obind].
  destruct (chain_update_wrench d2) as [d3|] eqn:H3; [|discriminate]. intros Q. injection Q as <-.
  cbn [chain_calc_comacc chain_calc_comvel c_mass c_links].
  unfold chain_update_wrench, chain_update_rate, chain_update_frame in *. split.
  - unfold chain_lift in *. destruct (update_frame _ _ _ _) as [h1|] eqn:U1; [|discriminate]. injection H1 as <-. cbn [chain_calc_com c_links c_set_links] in H2.
    destruct (update_rate _ _ _ _) as [h2|] eqn:U2; [|discriminate]. injection H2 as <-. cbn [c_links c_set_links] in H3.
    destruct (update_wrench _ _ _) as [h3|] eqn:U3; [|discriminate]. injection H3 as <-. cbn [c_links c_set_links].
    unfold update_frame, update_rate, update_wrench in *.
    eapply kept_all_trans; [eapply down_kept; [|exact U1]; intros; unfold kept; repeat split|].
    eapply kept_all_trans; [eapply down_kept; [|exact U2]; intros; unfold kept; repeat split|].
    eapply up_kept; [| |exact U3]; intros; unfold kept; repeat split. apply trq_size.
  - rewrite (lift_mass _ _ _ H3), (lift_mass _ _ _ H2). exact (lift_mass _ _ _ H1).
Qed.
Lemma placed_kept (h h' : list (link F)) s : Forall2 kept h h' -> placed s h -> placed s h'.
Proof.
  intros H. revert s. induction H as [|a b h h' K _ IH]; intros s P; [reflexivity|].
  apply placed_cons in P as [PA PT]. apply placed_cons. destruct K as (_ & KO & KS & _). unfold lsize in *. rewrite KS, KO. split; [exact PA|auto].
Qed.
Lemma refs_kept (h h' : list (link F)) : Forall2 kept h h' -> refs_ok h -> refs_ok h'.
Proof.
  intros K R i l' Hl'. pose proof (forall2_len _ _ _ K) as LE. destruct (nth_error h i) as [l|] eqn:Hl.
  - destruct (forall2_nth_inv _ _ _ K i l l' Hl Hl') as ((A & B & C) & _). rewrite <- A, <- B, <- C, LE. apply (R i l Hl).
  - apply nth_error_None in Hl. apply nth_lt in Hl'. lia.
Qed.

(** Connection keeps references inside the array. *)
Lemma refs_set (h : list (link F)) i l l' : refs_ok h -> nth_error h i = Some l ->
  ref_ok (length h) (l_parent l') -> ref_ok (length h) (l_child l') -> ref_ok (length h) (l_sibl l') -> refs_ok (set_nth i l' h).
Proof.
  intros R Hl A B C k x Hx. rewrite set_nth_length. apply set_nth_some in Hx as [[_ ->]|[_ Hx]]; [auto|apply (R k x Hx)].
Qed.
Lemma add_sibl_refs b : forall fuel (h h' : list (link F)) i, refs_ok h -> b < length h -> add_sibl fuel h i b = Some h' -> refs_ok h' /\ length h' = length h.
Proof.
  induction fuel as [|fuel IH]; intros h h' i R Hb H; cbn [add_sibl] in H; [discriminate|].
  destruct (nth_error h i) as [l|] eqn:Hl; [|discriminate]. destruct (l_sibl l) eqn:SB; [eauto|]. injection H as <-.
  split; [|apply set_nth_length]. destruct (R i l Hl) as (A & B & C). eapply refs_set; eauto.
Qed.
Lemma add_child_refs (h h' : list (link F)) i c : refs_ok h -> add_child h i c = Some h' -> refs_ok h' /\ length h' = length h.
Proof.
  intros R. unfold add_child. destruct (nth_error h c) as [lc|] eqn:Hc; [|discriminate].
  set (h1 := lset c (l_set_parent (Some i) lc) h). assert (L1 : length h1 = length h) by apply set_nth_length.
  destruct (nth_error h1 i) as [l|] eqn:Hl; [|discriminate].
  assert (R1 : refs_ok h1). { destruct (R c lc Hc) as (A & B & C). eapply refs_set; eauto. cbn. rewrite <- L1. eapply nth_lt; eauto. }
  destruct (R1 i l Hl) as (A & B & C). destruct (l_child l) eqn:CH; intros H.
  - rewrite <- L1. eapply add_sibl_refs; [exact R1| |exact H]. rewrite L1. eapply nth_lt; eauto.
  - injection H as <-. split; [|unfold lset; rewrite set_nth_length; exact L1]. eapply refs_set; eauto. cbn. rewrite L1. eapply nth_lt; eauto.
Qed.
Lemma connect_refs i (h h' : list (link F)) k ok n : refs_ok h /\ length h = n -> connect_key i h k = Some (h', ok) -> refs_ok h' /\ length h' = n.
Proof.
  intros [R LN]. destruct k; cbn [connect_key]; intros H; try (injection H as <- _; auto).
  destruct (find_name (map l_name h) s) as [p|]; [|injection H as <- _; auto]. unfold okay in H.
  destruct (add_child h p i) as [h1|] eqn:AC; [|discriminate]. injection H as <- _. destruct (add_child_refs _ _ _ _ R AC) as [A B]. split; [exact A|congruence].
Qed.
Lemma init_refs (h h' : list (link F)) k ok n : refs_ok h /\ length h = n -> init_key h k = Some (h', ok) -> refs_ok h' /\ length h' = n.
Proof.
  intros [R LN].
  assert (ST : forall i l l', nth_error h i = Some l -> same_refs l_parent l_child l_sibl l l' -> refs_ok (lset i l' h) /\ length (lset i l' h) = n).
  { intros i l l' Hl (A & B & C). split; [|unfold lset; now rewrite set_nth_length]. destruct (R i l Hl) as (RA & RB & RC). eapply refs_set; eauto; congruence. }
  destruct k; cbn [init_key]; intros H; try (injection H as <- _; auto; fail).
  - destruct (nth_error h 0) as [l|] eqn:Hl; [|discriminate]. cbn [option_map] in H.
    match type of H with Some (?x, _) = _ => assert (EQ : x = h') by congruence; rewrite <- EQ end. eapply ST; [exact Hl|repeat split].
  - destruct (nth_error h 0) as [l|] eqn:Hl; [|discriminate]. cbn [option_map] in H.
    match type of H with Some (?x, _) = _ => assert (EQ : x = h') by congruence; rewrite <- EQ end. eapply ST; [exact Hl|repeat split].
  - destruct (nth_error h 0) as [l|] eqn:Hl; [|discriminate]. cbn [option_map] in H.
    match type of H with Some (?x, _) = _ => assert (EQ : x = h') by congruence; rewrite <- EQ end. eapply ST; [exact Hl|repeat split].
  - destruct (find_name (map l_name h) s) as [i|]; [|injection H as <- _; auto]. destruct (nth_error h i) as [x|] eqn:Hx; [|discriminate]. cbn [obind] in H.
    assert (G : forall j, option_map (fun '(j', _) => (lset i (l_set_joint j' x) h, true)) (joint_key None j (KDis l)) = Some (h', ok) -> refs_ok h' /\ length h' = n).
    { intros j Q. destruct (joint_key None j (KDis l)) as [[j' ok']|]; [|discriminate]. cbn [option_map] in Q. injection Q as <- _. eapply ST; [exact Hx|repeat split]. }
    destruct (l_joint x); try discriminate; eapply G; exact H.
Qed.
Lemma read_facts (g : F) (z : ztk F) rb : robot_read g z = Some (Some rb) ->
  let h := c_links (rb_chain rb) in
  length h = length (z_links z) /\ 0 < length h /\ refs_ok h /\ placed 0 h /\ c_mass (rb_chain rb) <> 0%num /\ rb_shapes rb = z_shapes z /\
  match rb_motors rb with Some a => length a = length (z_motors z) | None => z_motors z = [] end.
Proof.
  unfold robot_read. destruct (z_links z) as [|s0 secs0] eqn:EZ; [discriminate|]. rewrite <- EZ. assert (NZ : 0 < length (z_links z)) by (rewrite EZ; cbn [length]; lia). clear EZ.
  destruct (match z_motors z with [] => Some None | m :: t => option_map Some (eval_tag motor_tag 0 (repeat (Slot None None) (length (m :: t))) (m :: t)) end) as [arr|] eqn:EM; [|discriminate].
  cbn [obind]. destruct (eval_tag (link_tag (z_shapes z) arr) 0 _ (z_links z)) as [a|] eqn:EL; [|discriminate]. cbn [obind].
  destruct (omap link_done a) as [h0|] eqn:ED; [|discriminate]. cbn [obind].
  destruct (eval_tag connect_tag 0 h0 (z_links z)) as [h1|] eqn:EC; [|discriminate]. cbn [obind].
  destruct (eval_keys chain_key None (z_chain z)) as [[nm ok]|]; [|discriminate]. cbn [obind].
  destruct (eval_keys init_key h1 (z_init z)) as [[h2 ok2]|] eqn:EI; [|discriminate]. cbn [obind].
  set (c0 := chain_calc_mass (Chain h2 0%num v3zero v3zero v3zero)). set (c := if andb _ _ then _ else _).
  destruct (chain_update_fk (chain_set_offset c)) as [c1|] eqn:U1; [|discriminate]. cbn [obind].
  destruct (chain_update_id g c1) as [c2|] eqn:U2; [|discriminate]. cbn [option_map]. intros Q. injection Q as <-. cbn [rb_chain rb_shapes rb_motors].
  assert (LA : length a = length (z_links z)).
  { eapply (eval_tag_inv (fun a => length a = length (z_links z))); [| |exact EL]; [|apply repeat_length].
    intros i s k s' ok' LS H. unfold link_tag in H. destruct (link_read _ _ _ _) as [[r o]|]; [|discriminate]. cbn [option_map] in H. injection H as <- _. now rewrite set_nth_length. }
  apply omap_forall2 in ED. assert (L0 : length h0 = length (z_links z)) by (rewrite (forall2_len _ _ _ ED); exact LA).
  assert (R0 : refs_ok h0).
  { intros i l Hl. destruct (nth_error a i) as [r|] eqn:Hr.
    - pose proof (forall2_nth_inv _ _ _ ED i r l Hr Hl) as Q. unfold link_done in Q. destruct (rl_joint r); [|discriminate]. injection Q as <-. repeat split.
    - apply nth_error_None in Hr. apply nth_lt in Hl. lia. }
  assert (R1 : refs_ok h1 /\ length h1 = length (z_links z)).
  { eapply (eval_tag_inv (fun h => refs_ok h /\ length h = length (z_links z))); [| |exact EC]; [|auto].
    intros i s k s' ok' PS H. unfold connect_tag in H. eapply (eval_keys_inv (fun h => refs_ok h /\ length h = length (z_links z))); [|exact PS|exact H].
    intros s1 k1 s1' ok1 P1 H1. eapply connect_refs; eauto. }
  assert (R2 : refs_ok h2 /\ length h2 = length (z_links z)).
  { eapply (eval_keys_inv (fun h => refs_ok h /\ length h = length (z_links z))); [|exact R1|exact EI]. intros s1 k1 s1' ok1 P1 H1. eapply init_refs; eauto. }
  destruct R2 as [R2 L2]. destruct (fk_id_kept g _ _ _ U1 U2) as [K MA].
  assert (CL : c_links (chain_set_offset c) = set_offsets 0 h2) by (unfold c; destruct (andb _ _); reflexivity).
  rewrite CL in K. assert (K2 : refs_ok (set_offsets 0 h2)).
  { intros i l Hl. rewrite set_offsets_length. rewrite set_offsets_nth in Hl. destruct (nth_error h2 i) as [x|] eqn:Hx; [|discriminate]. cbn [option_map] in Hl. injection Hl as <-. apply (R2 i x Hx). }
  split; [rewrite (forall2_len _ _ _ K), set_offsets_length; exact L2|].
  split; [rewrite (forall2_len _ _ _ K), set_offsets_length, L2; exact NZ|].
  split; [eapply refs_kept; eauto|]. split; [eapply placed_kept; [exact K|apply set_offsets_placed]|]. split; [|split; [reflexivity|]].
  - rewrite MA. assert (MC : c_mass (chain_set_offset c) = c_mass c) by reflexivity. rewrite MC. unfold c. destruct (andb _ _) eqn:EB.
    + cbn [c_mass]. apply n1_neq_0.
    + intros Q. rewrite Q in EB. assert (T : nleb (0 : F)%num 0%num = true) by apply nle_refl. rewrite T in EB. discriminate.
  - destruct (z_motors z) as [|m t] eqn:EZM; [injection EM as <-; reflexivity|].
    destruct (eval_tag motor_tag 0 _ _) as [ar|] eqn:ER; [|discriminate]. cbn [option_map] in EM. injection EM as <-.
    eapply (eval_tag_inv (fun a => length a = length (m :: t))); [| |exact ER]; [|apply repeat_length].
    intros i s k s' ok' LS H. unfold motor_tag in H. destruct (motor_read _) as [[r o]|]; [|discriminate]. cbn [option_map] in H. injection H as <- _. now rewrite set_nth_length.
Qed.
End ZR.
