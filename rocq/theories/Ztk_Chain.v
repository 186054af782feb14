(** * Ztk_Chain: saving and loading whole chains. *)
From Coq Require Import String List ZArith Arith Lia Permutation Field.
From Verif Require Import Num NumFacts Vec VecFacts Motor_Model Joint_Model Joint_Spec Joint_Proofs Body_Model Tree Tree_Proofs Link_Model Link_Spec Link_Proofs Chain_Proofs Link_Properties Kin_Spec Kin_Proofs Jacobi_Proofs Dyn_Proofs Ztk_Model Ztk_Spec Ztk_Proofs.
Import ListNotations.

Section ZC.
Context {F : Type} {N : Num F} {L : NumLaws F N} {E : Ext F} {X : ExtLaws F N E} {Z : ZtkLib}.
Add Field FFieldZC : num_field.

(** ** Sections filled one after the other *)
Lemma eval_fill {A B} (R : B -> list (key F) -> Prop) (h : nat -> list A -> list (key F) -> option (list A * bool)) (zero : A) (out : B -> A) ls2 secs :
  Forall2 R ls2 secs -> forall ls1,
  (forall l1 x l2 sec k, ls1 ++ ls2 = l1 ++ x :: l2 -> R x sec ->
     h (length l1) (map out l1 ++ zero :: repeat zero k) sec = Some (map out l1 ++ out x :: repeat zero k, true)) ->
  eval_tag h (length ls1) (map out ls1 ++ repeat zero (length secs)) secs = Some (map out (ls1 ++ ls2)).
Proof.
  induction 1 as [|x sec ls2 secs H _ IH]; intros ls1 HH; cbn [eval_tag length repeat].
  - now rewrite !app_nil_r.
  - rewrite (HH ls1 x ls2 sec (length secs) eq_refl H). cbn [obind negb andb].
    specialize (IH (ls1 ++ [x])). rewrite app_length in IH. cbn [length] in IH. rewrite Nat.add_1_r in IH.
    rewrite (map_app out ls1 [x]), <- (app_assoc (map out ls1)) in IH. cbn [map app] in IH. rewrite IH.
    + rewrite <- app_assoc. reflexivity.
    + intros l1 y l2 sec' k EQ. apply (HH l1 y l2). rewrite <- EQ, <- app_assoc. reflexivity.
Qed.
Lemma motors_load (a : list (mslot F)) : slots_complete a -> exists ms, omap motor_print a = Some ms /\ length ms = length a /\
  eval_tag motor_tag 0 (repeat (Slot None None) (length ms)) ms = Some (map rest_slot a).
Proof.
  intros SC. destruct (omap_some motor_print a) as (ms & EM).
  { intros s Hs. destruct (SC s Hs) as (n & k & ->). destruct (motor_load n k) as (ks & P & _). eauto. }
  exists ms. split; [exact EM|]. apply omap_forall2 in EM. split; [clear - EM; induction EM; cbn [length]; congruence|].
  apply (eval_fill (fun s ks => In s a /\ motor_print s = Some ks) motor_tag (Slot None None) rest_slot a ms) with (ls1 := []).
  - assert (G : forall b, incl b a -> forall m, Forall2 (fun s ks => motor_print s = Some ks) b m -> Forall2 (fun s ks => In s a /\ motor_print s = Some ks) b m).
    { intros b I m H. induction H; constructor; [split; auto; apply I; left; reflexivity|]. apply IHForall2. intros z Hz. apply I. right. exact Hz. }
    apply (G a (incl_refl a) ms EM).
  - intros l1 s l2 sec k _ [HI HP]. destruct (SC s HI) as (n & kd & ->). destruct (motor_load n kd) as (ks & P & Rd).
    assert (sec = ks) by congruence. subst sec. unfold motor_tag. rewrite Rd. cbn [option_map].
    rewrite <- (map_length rest_slot l1), set_nth_mid. reflexivity.
Qed.
Lemma named_load (l1 : list (link F)) k : named (map load_link l1 ++ repeat (RL None None body_zeroed (Fr v3zero m3zero)) k) = map l_name l1.
Proof.
  unfold named. rewrite flat_map_app. replace (flat_map _ (repeat _ k)) with (@nil string) by (induction k; [reflexivity|exact IHk]).
  rewrite app_nil_r. induction l1 as [|l l1 IH]; [reflexivity|]. cbn. now rewrite IH.
Qed.
(** What one link section says about the connection. *)
Definition link_par (names : list string) (l : link F) : list (key F) :=
  match l_parent l with None => [] | Some q => match nth_error names q with Some n => [KParent n] | None => [] end end.
Lemma links_load (names shapes : list string) arr (h : list (link F)) :
  NoDup (map l_name h) -> NoDup shapes -> length names = length h -> refs_ok h ->
  (forall l, In l h -> b_stuff (l_body l) <> None /\ (forall i, In i (b_shapes (l_body l)) -> i < length shapes) /\ motor_saved arr (l_joint l)) ->
  exists secs, omap (link_print names shapes) h = Some secs /\ length secs = length h /\
    eval_tag (link_tag shapes (option_map (map rest_slot) arr)) 0 (repeat (RL None None body_zeroed (Fr v3zero m3zero)) (length secs)) secs = Some (map load_link h) /\
    Forall2 (fun l ks => forall (g : list (link F)) i, eval_keys (connect_key i) g ks = eval_keys (connect_key i) g (link_par names l)) h secs.
Proof.
  intros ND NS LN RO H.
  assert (LL : forall l names', In l h -> ~ In (l_name l) names' -> exists ks, link_print names shapes l = Some ks /\
    link_read names' shapes (option_map (map rest_slot) arr) ks = Some (load_link l, true) /\
    (forall g i, eval_keys (connect_key i) g ks = eval_keys (connect_key i) g (link_par names l))).
  { intros l names' Hl NI. destruct (H l Hl) as (A & B & C). apply link_load; auto.
    intros q Hq. apply In_nth_error in Hl as (i & Hi). destruct (RO i l Hi) as (P & _). rewrite Hq in P. rewrite LN. exact P. }
  destruct (omap_some (link_print names shapes) h) as (secs & ES).
  { intros l Hl. destruct (LL l [] Hl (fun f => f)) as (ks & P & _). eauto. }
  exists secs. split; [exact ES|]. apply omap_forall2 in ES.
  assert (G : forall b, incl b h -> forall m, Forall2 (fun s ks => link_print names shapes s = Some ks) b m -> Forall2 (fun s ks => In s h /\ link_print names shapes s = Some ks) b m).
  { intros b I m Q. induction Q; constructor; [split; auto; apply I; left; reflexivity|]. apply IHQ. intros z Hz. apply I. right. exact Hz. }
  specialize (G h (incl_refl h) secs ES). split; [|split].
  - clear - ES. induction ES; cbn [length]; congruence.
  - apply (eval_fill _ (link_tag shapes (option_map (map rest_slot) arr)) (RL None None body_zeroed (Fr v3zero m3zero)) load_link h secs G []).
    intros l1 l l2 sec k EQ [HI HP]. cbn [app] in EQ. unfold link_tag.
    change (RL None None body_zeroed (Fr v3zero m3zero) :: repeat (RL None None body_zeroed (Fr v3zero m3zero)) k) with (repeat (RL None None body_zeroed (Fr (F:=F) v3zero m3zero)) (S k)).
    rewrite named_load. assert (NI : ~ In (l_name l) (map l_name l1)).
    { rewrite EQ, map_app in ND. cbn [map] in ND. apply NoDup_remove_2 in ND. intros Q. apply ND. apply in_or_app. auto. }
    destruct (LL l _ HI NI) as (ks & P & Rd & _). assert (sec = ks) by congruence. subst sec. rewrite Rd. cbn [option_map repeat].
    rewrite <- (map_length load_link l1), set_nth_mid. reflexivity.
  - clear - G LL. induction G as [|l ks h0 secs [HI HP] _ IH]; constructor; auto.
    destruct (LL l [] HI (fun f => f)) as (ks' & P & _ & C). assert (ks' = ks) by congruence. subst ks'. exact C.
Qed.

(** ** Connection *)
Fixpoint ops_from (k : nat) (h : list (link F)) : list (nat * nat) :=
  match h with
  | [] => []
  | l :: t => match l_parent l with Some q => [(q, k)] | None => [] end ++ ops_from (S k) t
  end.
Lemma map_set_nth {A B} (f : A -> B) i x y (h : list A) : nth_error h i = Some x -> f y = f x -> map f (set_nth i y h) = map f h.
Proof.
  revert i. induction h as [|a h IH]; intros [|i] H Q; cbn [nth_error set_nth map] in *; try discriminate.
  - injection H as ->. now rewrite Q.
  - now rewrite (IH i H Q).
Qed.
Lemma add_sibl_names fuel : forall (h h' : list (link F)) i b, add_sibl fuel h i b = Some h' -> map l_name h' = map l_name h.
Proof.
  induction fuel as [|fuel IH]; intros h h' i b H; cbn [add_sibl] in H; [discriminate|].
  destruct (nth_error h i) as [l|] eqn:Hl; [|discriminate]. destruct (l_sibl l); [eauto|]. injection H as <-.
  apply (map_set_nth l_name i l); auto.
Qed.
Lemma add_child_names (h h' : list (link F)) i c : add_child h i c = Some h' -> map l_name h' = map l_name h.
Proof.
  unfold add_child. destruct (nth_error h c) as [lc|] eqn:Hc; [|discriminate]. set (h1 := lset c (l_set_parent (Some i) lc) h).
  assert (G : map l_name h1 = map l_name h) by (apply (map_set_nth l_name c lc); auto).
  destruct (nth_error h1 i) as [l|] eqn:Hl; [|discriminate]. rewrite <- G. destruct (l_child l).
  - intros H. eapply add_sibl_names; eauto.
  - intros H. injection H as <-. apply (map_set_nth l_name i l); auto.
Qed.
Lemma add_children_app (h : list (link F)) o1 o2 : add_children h (o1 ++ o2) = obind (add_children h o1) (fun h' => add_children h' o2).
Proof.
  revert h. induction o1 as [|[i c] o1 IH]; intros h; [reflexivity|]. cbn [app add_children]. destruct (add_child h i c); cbn [obind]; auto.
Qed.
Lemma connect_load (names : list string) ls secs : NoDup names ->
  Forall2 (fun l ks => forall (g : list (link F)) i, eval_keys (connect_key i) g ks = eval_keys (connect_key i) g (link_par names l)) ls secs ->
  (forall l q, In l ls -> l_parent l = Some q -> q < length names) ->
  forall k h h', map l_name h = names -> add_children h (ops_from k ls) = Some h' -> eval_tag connect_tag k h secs = Some h'.
Proof.
  intros ND. induction 1 as [|l ks ls secs H _ IH]; intros PA k h h' NM A; cbn [ops_from eval_tag] in *; [exact A|].
  unfold connect_tag at 1. rewrite H. unfold link_par. destruct (l_parent l) as [q|] eqn:Hp.
  - assert (Hq : q < length names) by (eapply PA; eauto using in_eq). destruct (nth_error names q) as [n|] eqn:Hn; [|apply nth_error_None in Hn; lia].
    rewrite add_children_app in A. cbn [add_children] in A. cbn [eval_keys connect_key]. rewrite NM, (find_name_nth _ _ _ ND Hn).
    destruct (add_child h q k) as [h1|] eqn:AC; cbn [obind] in A; [|discriminate]. cbn [okay option_map obind negb andb].
    apply IH; [intros; eauto using in_cons| |exact A]. rewrite (add_child_names _ _ _ _ AC). exact NM.
  - cbn [eval_keys obind negb andb app] in *. apply IH; [intros; eauto using in_cons|exact NM|exact A].
Qed.
Lemma ops_from_in k (ls : list (link F)) q c : In (q, c) (ops_from k ls) <-> exists i l, nth_error ls i = Some l /\ c = k + i /\ l_parent l = Some q.
Proof.
  revert k. induction ls as [|l ls IH]; intros k; cbn [ops_from].
  - split; [intros []|]. intros (i & l & H & _). destruct i; discriminate.
  - rewrite in_app_iff, IH. split.
    + intros [H|(i & l0 & H & -> & P)].
      * destruct (l_parent l) as [q0|] eqn:P; [|destruct H]. destruct H as [H|[]]. injection H as -> <-. exists 0, l. rewrite Nat.add_0_r. auto.
      * exists (S i), l0. split; [exact H|]. split; [lia|exact P].
    + intros (i & l0 & H & -> & P). destruct i as [|i]; cbn [nth_error] in H.
      * injection H as ->. left. rewrite P. left. rewrite Nat.add_0_r. reflexivity.
      * right. exists i, l0. split; [exact H|]. split; [lia|exact P].
Qed.

Lemma below_depth (h : list (link F)) ops p c : (forall q x, In (q, x) ops -> exists l, nth_error h x = Some l /\ l_parent l = Some q) ->
  below ops p c -> forall t t', lineage h p t -> lineage h c t' -> length t' <= length t.
Proof.
  intros PA. induction 1 as [p|p q c I _ IH]; intros t t' A B.
  - rewrite (lineage_unique h p t A t' B). lia.
  - destruct (PA q p I) as (l & Hl & Hp). inversion A as [i l' Hl' Hp' EQ|i l' q' u Hl' Hp' HL EQ]; subst; [congruence|].
    assert (q' = q) by congruence. subst q'. specialize (IH u t' HL B). cbn [length]. lia.
Qed.
Lemma not_below (h : list (link F)) ops q c l : well_formed h -> (forall q x, In (q, x) ops -> exists l, nth_error h x = Some l /\ l_parent l = Some q) ->
  nth_error h c = Some l -> l_parent l = Some q -> ~ below ops q c.
Proof.
  intros W PA Hl Hp B. destruct (wf_lineage h c W (nth_lt _ _ _ Hl)) as (t & HT & _).
  inversion HT as [i l' Hl' Hp' EQ|i l' q' u Hl' Hp' HL EQ]; subst; [congruence|].
  assert (q' = q) by congruence. subst q'. pose proof (below_depth h ops q c PA B u _ HL HT) as G. cbn [length] in G. lia.
Qed.
Lemma ops_legal (h : list (link F)) : well_formed h -> forall ls2 ls1, ls1 ++ ls2 = h -> legal (length h) (ops_from 0 ls1) (ops_from (length ls1) ls2).
Proof.
  intros W. induction ls2 as [|l ls2 IH]; intros ls1 EQ; cbn [ops_from]; [constructor|].
  assert (Hl : nth_error h (length ls1) = Some l) by (rewrite <- EQ, nth_error_app2 by lia; now rewrite Nat.sub_diag).
  assert (OA : forall k (a b : list (link F)), ops_from k (a ++ b) = ops_from k a ++ ops_from (k + length a) b).
  { intros k a. revert k. induction a as [|x a IHa]; intros k b; cbn [ops_from app length]; [now rewrite Nat.add_0_r|].
    rewrite IHa, <- app_assoc. do 2 f_equal. now rewrite Nat.add_succ_r. }
  assert (PA : forall q x, In (q, x) (ops_from 0 ls1) -> exists l, nth_error h x = Some l /\ l_parent l = Some q).
  { intros q x I. apply ops_from_in in I as (i & l0 & Hi & -> & P). exists l0. split; [|exact P]. cbn [Nat.add]. rewrite <- EQ, nth_error_app1; [exact Hi|]. eapply nth_lt; eauto. }
  specialize (IH (ls1 ++ [l])). rewrite <- app_assoc in IH. specialize (IH EQ). rewrite OA, app_length in IH. cbn [ops_from app length Nat.add] in IH. rewrite app_nil_r, Nat.add_1_r in IH.
  destruct (l_parent l) as [q|] eqn:Hp; cbn [app] in *; [|now rewrite app_nil_r in IH].
  assert (Hi : length ls1 < length h) by (eapply nth_lt; eauto).
  constructor.
  - destruct (well_formed_refs_ok h W) as [RO _]. destruct (RO _ _ Hl) as (R & _). rewrite Hp in R. exact R.
  - exact Hi.
  - intros I. apply in_map_iff in I as ([q' x] & EX & I). cbn [snd] in EX. subst x. apply ops_from_in in I as (i & l0 & Hi0 & E0 & _). apply nth_lt in Hi0. lia.
  - eapply not_below; eauto.
  - exact IH.
Qed.

(** A link after the link sections have been read, before connection. *)
Definition base (l : link F) : link F :=
  Link (l_name l) (rest_joint x_phnorm (l_joint l)) (load_body (l_body l)) None (l_org l) fid v6zero None None None.
Lemma links_done (h : list (link F)) : omap link_done (map load_link h) = Some (map base h).
Proof. induction h as [|l h IH]; [reflexivity|]. cbn [map omap]. rewrite IH. reflexivity. Qed.
Definition loaded (f : F -> F) (l l1 : link F) : Prop :=
  l_name l1 = l_name l /\ l_joint l1 = rest_joint f (l_joint l) /\ l_body l1 = load_body (l_body l) /\ l_org l1 = l_org l /\ l_parent l1 = l_parent l.
Lemma tree_load (h : list (link F)) : well_formed h ->
  exists h1, add_children (map base h) (ops_from 0 h) = Some h1 /\ well_formed h1 /\ Forall2 (loaded x_phnorm) h h1.
Proof.
  intros W. destruct (well_formed_refs_ok h W) as [RO NE].
  assert (U : forall i l, nth_error (map base h) i = Some l -> unattached l).
  { intros i l Hl. rewrite nth_error_map in Hl. destruct (nth_error h i); [|discriminate]. cbn in Hl. injection Hl as <-. repeat split. }
  pose proof (ops_legal h W h [] eq_refl) as LG. cbn [ops_from length] in LG.
  assert (LG' : legal (length (map base h)) [] (ops_from 0 h)) by (rewrite map_length; exact LG).
  destruct (C23_add_child_forest _ _ U LG') as (h1 & A & LE & _ & PA & D). exists h1. split; [exact A|]. split.
  - eapply C23_complete_tree; eauto.
    + rewrite map_length. destruct h; [congruence|cbn [length]; lia].
    + intros I. apply in_map_iff in I as ([q x] & EX & I). cbn [snd] in EX. subst x. apply ops_from_in in I as (i & l & Hl & EI & Hp).
      destruct i as [|i]; [|discriminate]. pose proof (proj2 (wf_root h 0 l W Hl) eq_refl). congruence.
    + intros c [C0 C1]. rewrite map_length in C1. destruct (nth_error h c) as [l|] eqn:Hl; [|apply nth_error_None in Hl; lia].
      destruct (l_parent l) as [q|] eqn:Hp.
      * apply in_map_iff. exists (q, c). split; [reflexivity|]. apply ops_from_in. exists c, l. auto.
      * apply (wf_root h c l W Hl) in Hp. lia.
  - apply forall2_nth_eq; [rewrite LE, map_length; reflexivity|]. intros i l Hl.
    destruct (D i (base l)) as (l1 & Hl1 & (S1 & S2 & S3 & S4 & S5 & _)); [rewrite nth_error_map, Hl; reflexivity|].
    exists l1. split; [exact Hl1|]. unfold loaded. rewrite <- S1, <- S2, <- S3, <- S5. do 4 (split; [reflexivity|]).
    destruct (l_parent l) as [q|] eqn:Hp.
    + apply (PA i l1 Hl1). apply ops_from_in. exists i, l. auto.
    + destruct (l_parent l1) as [q|] eqn:Hp1; [|reflexivity]. apply (PA i l1 Hl1) in Hp1.
      apply ops_from_in in Hp1 as (i' & l' & Hl' & -> & Hp'). cbn [Nat.add] in *. congruence.
Qed.

(** ** Initial posture *)
Lemma set_nth_id {A} (h : list A) i x : nth_error h i = Some x -> set_nth i x h = h.
Proof.
  revert i. induction h as [|a h IH]; intros [|i] H; cbn [nth_error set_nth] in *; try discriminate; [injection H as ->; reflexivity|now rewrite (IH i H)].
Qed.
Definition posed (l l1 : link F) : link F := l_set_joint (rest_joint (fun q => q) (l_joint l)) l1.
Definition pose_all (h h1 : list (link F)) : list (link F) := map (fun p => posed (fst p) (snd p)) (combine h h1).
Lemma names_loaded f (h h1 : list (link F)) : Forall2 (loaded f) h h1 -> map l_name h1 = map l_name h.
Proof. induction 1 as [|l l1 h h1 (H & _) _ IH]; [reflexivity|]. cbn [map]. now rewrite H, IH. Qed.
Lemma names_posed (h h1 : list (link F)) : length h1 = length h -> map l_name (pose_all h h1) = map l_name h1.
Proof.
  revert h1. induction h as [|l h IH]; intros [|l1 h1] EQ; try discriminate; [reflexivity|]. unfold pose_all in *. cbn [combine map]. now rewrite IH by (injection EQ as EQ; exact EQ).
Qed.
Lemma posed_same (l l1 : link F) : loaded x_phnorm l l1 -> rest_joint x_phnorm (l_joint l) = rest_joint (fun q => q) (l_joint l) -> posed l l1 = l1.
Proof. intros (_ & J & _) H. unfold posed. rewrite <- H, <- J. destruct l1; reflexivity. Qed.
Lemma forall2_len {A B} (R : A -> B -> Prop) l m : Forall2 R l m -> length m = length l.
Proof. induction 1; cbn [length]; congruence. Qed.
Lemma forall2_nth_inv {A B} (R : A -> B -> Prop) l m : Forall2 R l m -> forall i a b, nth_error l i = Some a -> nth_error m i = Some b -> R a b.
Proof.
  induction 1 as [|x y l m H _ IH]; intros i a b HA HB; destruct i as [|i]; cbn [nth_error] in *; try discriminate; [|eauto].
  injection HA as <-. injection HB as <-. exact H.
Qed.
Lemma joints_load ls2 g2 : (x_tol <= x_pi)%num -> Forall2 (loaded x_phnorm) ls2 g2 -> (forall l, In l ls2 -> at_own_dis (l_joint l)) ->
  forall g1, NoDup (map l_name (g1 ++ g2)) ->
  eval_keys init_key (g1 ++ g2) (flat_map init_joint_print ls2) = Some (g1 ++ pose_all ls2 g2, true).
Proof.
  intros TP. induction 1 as [|l l1 ls2 g2 H _ IH]; intros O g1 ND; [reflexivity|]. cbn [flat_map].
  assert (G : eval_keys init_key (g1 ++ l1 :: g2) (init_joint_print l) = Some (g1 ++ posed l l1 :: g2, true)).
  { assert (K : rest_joint x_phnorm (l_joint l) = rest_joint (fun q => q) (l_joint l) ->
       Some (g1 ++ l1 :: g2, true) = Some (g1 ++ posed l l1 :: g2, true)) by (intros K; rewrite (posed_same l l1 H K); reflexivity).
    unfold init_joint_print. destruct (Nat.eqb (joint_size (l_joint l)) 0) eqn:SZ; cbn [orb].
    - cbn [eval_keys]. apply K. destruct (l_joint l); try discriminate. reflexivity.
    - destruct (joint_is_neutral (l_joint l)) eqn:NE.
      + cbn [eval_keys]. apply K. apply joint_load_neutral; auto.
      + cbn [eval_keys init_key]. destruct H as (HN & HJ & _).
        rewrite (find_name_nth _ (length g1)); [|exact ND|].
        2:{ rewrite map_app, nth_error_app2; rewrite map_length; [|lia]. rewrite Nat.sub_diag. cbn [map nth_error]. now rewrite HN. }
        rewrite nth_error_app2, Nat.sub_diag by lia. cbn [nth_error obind].
        pose proof (joint_load_init (l_joint l) (O l (or_introl eq_refl))) as JL. rewrite <- HJ in JL.
        assert (NF : l_joint l1 <> JFixed). { rewrite HJ. destruct (l_joint l); discriminate. }
        destruct (l_joint l1) as [|r|p|c|k|s|f|f ef et] eqn:EJ; [congruence|..]; rewrite JL; cbn [option_map obind]; unfold lset; rewrite set_nth_mid; reflexivity. }
  rewrite (eval_app _ _ _ _ _ G). specialize (IH (fun l H => O l (or_intror H)) (g1 ++ [posed l l1])).
  rewrite <- !app_assoc in IH. cbn [app] in IH. rewrite IH; [reflexivity|].
  rewrite map_app in ND |- *. exact ND.
Qed.
Lemma init_load (h h1 : list (link F)) ks : (x_tol <= x_pi)%num -> Forall2 (loaded x_phnorm) h h1 -> (forall l, In l h -> at_own_dis (l_joint l)) ->
  NoDup (map l_name h) -> init_print h = Some ks -> eval_keys init_key h1 ks = Some (pose_all h h1, true).
Proof.
  intros TP FL O ND. unfold init_print. destruct h as [|r h]; [discriminate|]. intros HK. cbn [nth_error option_map] in HK. injection HK as <-.
  inversion FL as [|? r1 ? h' HR FT EQ1 EQ2]; subst. destruct HR as (_ & _ & _ & HO & _).
  assert (RT : forall f, f (l_org r1) = l_org r1 ->
    lset 0 (Link (l_name r1) (l_joint r1) (l_body r1) (l_offset r1) (f (l_org r1)) (l_adj r1) (l_wrench r1) (l_parent r1) (l_child r1) (l_sibl r1)) (r1 :: h') = r1 :: h').
  { intros f Hf. rewrite Hf. unfold lset. cbn [set_nth]. destruct r1; reflexivity. }
  cbn [app eval_keys init_key nth_error option_map obind]. rewrite (RT (fun o => Fr (fpos (l_org r)) (fatt o))) by (rewrite HO; destruct (l_org r); reflexivity).
  cbn [nth_error option_map obind]. rewrite (RT (fun o => Fr (fpos o) (fatt (l_org r)))) by (rewrite HO; destruct (l_org r); reflexivity).
  pose proof (joints_load (r :: h) (r1 :: h') TP FL O []) as G. cbn [app] in G. apply G. rewrite (names_loaded _ _ _ FL). exact ND.
Qed.
Lemma pose_loaded (h h1 : list (link F)) : Forall2 (loaded x_phnorm) h h1 -> Forall2 (loaded (fun q => q)) h (pose_all h h1).
Proof. induction 1 as [|l l1 h h1 (A & B & C & D & P) _ IH]; constructor; auto. repeat split; assumption. Qed.
Lemma pose_refs (h h1 : list (link F)) : length h1 = length h -> forall i l1, nth_error h1 i = Some l1 ->
  exists l2, nth_error (pose_all h h1) i = Some l2 /\ same_refs l_parent l_child l_sibl l1 l2.
Proof.
  revert h1. induction h as [|l h IH]; intros [|l1 h1] EQ i x Hx; try discriminate; [destruct i; discriminate|].
  injection EQ as EQ. destruct i as [|i]; cbn [nth_error] in Hx; unfold pose_all; cbn [combine map nth_error].
  - injection Hx as ->. exists (posed l x). split; [reflexivity|]. repeat split.
  - apply (IH h1 EQ i x Hx).
Qed.
Lemma pose_tree (h h1 : list (link F)) : length h1 = length h -> well_formed h1 -> well_formed (pose_all h h1).
Proof.
  intros EQ [k T]. exists k. eapply well_formed_refs; [| |exact T].
  - unfold pose_all. rewrite map_length, combine_length. lia.
  - intros i l Hl. apply (pose_refs h h1 EQ i l Hl).
Qed.

(** ** Updating a chain *)
Lemma update_keeps g (c : chain F) : well_formed (c_links c) -> (forall i l, nth_error (c_links c) i = Some l -> cache_ok (l_joint l)) ->
  exists c1 c2, chain_update_fk c = Some c1 /\ chain_update_id g c1 = Some c2 /\ well_formed (c_links c2) /\ c_mass c2 = c_mass c /\
    length (c_links c2) = length (c_links c) /\
    forall i l, nth_error (c_links c) i = Some l -> exists l2 w, nth_error (c_links c2) i = Some l2 /\
      l_name l2 = l_name l /\ l_org l2 = l_org l /\ l_parent l2 = l_parent l /\ l_offset l2 = l_offset l /\ l_joint l2 = joint_calc_trq (l_joint l) w /\
      b_mp (l_body l2) = b_mp (l_body l) /\ b_stuff (l_body l2) = b_stuff (l_body l) /\ b_shapes (l_body l2) = b_shapes (l_body l) /\
      forall t, lineage (c_links c) i t -> doc_pose (c_links c) t = Some (l_frame l2).
Proof.
  intros W CK. destruct (C24_frame_pass c W) as (c1 & H1 & D1 & W1).
  destruct (C24_rate_pass g (chain_calc_com c1) W1) as (c2 & H2 & D2 & W2).
  destruct (C24_wrench_pass c2 W2) as (c3 & H3 & D3 & W3).
  exists (chain_calc_com c1), (chain_calc_comacc (chain_calc_comvel c3)).
  split; [unfold chain_update_fk; rewrite H1; reflexivity|]. split; [unfold chain_update_id, obind; rewrite H2, H3; reflexivity|].
  split; [exact W3|]. split.
  { assert (ML : forall (f : nat -> list (link F) -> option (list (link F))) d d', chain_lift f d = Some d' -> c_mass d' = c_mass d).
    { intros f d d'. unfold chain_lift. destruct (f _ _); intros HH; [injection HH as <-; reflexivity|discriminate]. }
    cbn [chain_calc_comacc chain_calc_comvel c_mass].
    unfold chain_update_wrench, chain_update_rate, chain_update_frame in *. rewrite (ML _ _ _ H3), (ML _ _ _ H2). cbn [chain_calc_com c_mass]. exact (ML _ _ _ H1). }
  split; [cbn [chain_calc_comacc chain_calc_comvel c_links]; rewrite (proj1 D3), (proj1 D2); exact (proj1 D1)|].
  intros i l Hl. destruct (proj2 D1 i l Hl) as (p1 & Hp1 & _). destruct (proj2 D2 i _ Hp1) as (p2 & Hp2 & _).
  destruct (proj2 D3 i _ Hp2) as (cs & ls & _ & _ & Hp3). eexists. eexists. split; [exact Hp3|].
  do 8 (split; [reflexivity|]). intros t HT.
  assert (FO : frames_ok (c_links c1)) by (eapply frames_of_pass; exact D1).
  assert (CK1 : forall i l, nth_error (c_links c1) i = Some l -> cache_ok (l_joint l)).
  { intros k x Hx. pose proof (nth_lt _ _ _ Hx) as Hk. rewrite (proj1 D1) in Hk. destruct (nth_error (c_links c) k) as [y|] eqn:Hy; [|apply nth_error_None in Hy; lia].
    destruct (proj2 D1 k y Hy) as (p & Hp & _). assert (x = upd_frame y p) by congruence. subst x. exact (CK k y Hy). }
  assert (HT1 : lineage (c_links c1) i t).
  { eapply lineage_ext; [|exact HT]. intros k x Hx. destruct (proj2 D1 k x Hx) as (p & Hp & _). eexists. split; [exact Hp|]. reflexivity. }
  destruct (doc_pose_frames (c_links c1) CK1 FO i t HT1) as (y & Hy & DP).
  assert (y = upd_frame l p1) by congruence. subst y.
  rewrite <- (doc_pose_ext (c_links c) (c_links c1) t); [exact DP| |apply (lineage_lt _ _ _ HT)].
  intros k _ x Hx. destruct (proj2 D1 k x Hx) as (p & Hp & _). eexists. split; [exact Hp|]. repeat split.
Qed.
Lemma same_trq (a b : joint F) w : same_joint a b -> same_joint a (joint_calc_trq b w).
Proof.
  intros (A1 & A2 & A3 & A4 & A5 & A6 & A7 & A8 & A9). unfold same_joint.
  assert (G : jtype_of (joint_calc_trq b w) = jtype_of b /\ joint_get_dis (joint_calc_trq b w) = joint_get_dis b /\
    joint_get_min (joint_calc_trq b w) = joint_get_min b /\ joint_get_max (joint_calc_trq b w) = joint_get_max b /\
    map axis_params (axes_of (joint_calc_trq b w)) = map axis_params (axes_of b) /\ thresholds (joint_calc_trq b w) = thresholds b /\
    joint_motor (joint_calc_trq b w) = joint_motor b /\ (forall fo, joint_xform (joint_calc_trq b w) fo = joint_xform b fo) /\
    joint_get_vel (joint_calc_trq b w) = joint_get_vel b /\ joint_get_acc (joint_calc_trq b w) = joint_get_acc b) by (destruct b; repeat split).
  destruct G as (B1 & B2 & B3 & B3' & B4 & B5 & B6 & B7 & B8 & B9). rewrite B1, B2, B4, B5, B6, B8, B9. unfold same_limits in *. rewrite B3, B3'.
  repeat (split; [assumption|]). split; [intros fo; rewrite B7; auto|]. auto.
Qed.
Lemma mass_loaded f (h h1 : list (link F)) : Forall2 (loaded f) h h1 -> forall m, fold_left (fun m l => m + l_mass l)%num h1 m = (m + total_mass h)%num.
Proof.
  induction 1 as [|l l1 h h1 (_ & _ & B & _) _ IH]; intros m; unfold total_mass in *; cbn [fold_left fold_right].
  - ring.
  - rewrite IH. unfold l_mass. rewrite B. cbn [load_body b_mp]. ring.
Qed.
Lemma offsets_keep s (h : list (link F)) i l : nth_error h i = Some l -> exists o, nth_error (set_offsets s h) i = Some (l_set_offset o l).
Proof. intros H. rewrite set_offsets_nth, H. cbn [option_map]. eexists. reflexivity. Qed.

Lemma save_load (g : F) (rb : robot F) : (x_tol <= x_pi)%num -> savable rb ->
  exists z rb', robot_print rb = Some z /\ robot_read g z = Some (Some rb') /\
    rb_name rb' = rb_name rb /\ rb_shapes rb' = rb_shapes rb /\
    rb_motors rb' = match rb_motors rb with Some (s :: a) => Some (map rest_slot (s :: a)) | _ => None end /\
    well_formed (c_links (rb_chain rb')) /\ Forall2 same_link (c_links (rb_chain rb)) (c_links (rb_chain rb')) /\
    (total_mass (c_links (rb_chain rb)) = 0%num -> c_mass (rb_chain rb') = 1%num) /\
    (total_mass (c_links (rb_chain rb)) <> 0%num -> c_mass (rb_chain rb') = total_mass (c_links (rb_chain rb))) /\
    (forall i t, lineage (c_links (rb_chain rb)) i t -> exists l', nth_error (c_links (rb_chain rb')) i = Some l' /\
       doc_pose (c_links (rb_chain rb)) t = Some (l_frame l')).
Proof.
  intros TP [SW SN SNM SST SSH SSI SSL SD SM]. destruct rb as [nm sh mo c]. cbn [rb_name rb_shapes rb_motors rb_chain] in *.
  set (h := c_links c) in *. destruct nm as [nm|]; [|congruence]. destruct (well_formed_refs_ok h SW) as [RO NE].
  set (arr := match mo with Some (s :: a) => Some (s :: a) | _ => None end).
  assert (MP : exists ms, match mo with None => Some [] | Some a => omap motor_print a end = Some ms /\
     match ms with [] => Some None | m :: t => option_map Some (eval_tag motor_tag 0 (repeat (Slot None None) (length (m :: t))) (m :: t)) end = Some (option_map (map rest_slot) arr)).
  { destruct mo as [a|]; [|exists []; auto]. destruct (motors_load a (SSL a eq_refl)) as (ms & P & LM & R). exists ms. split; [exact P|].
    destruct a as [|s a]; destruct ms as [|m ms]; try discriminate; [reflexivity|]. rewrite R. reflexivity. }
  destruct MP as (ms & MP & MR).
  destruct (links_load (map l_name h) sh arr h SNM SSH (map_length _ _) RO) as (secs & LP & LL & LR & LC).
  { intros l Hl. split; [auto|]. split; [intros i Hi; eauto|]. specialize (SM l Hl). unfold motor_saved in *.
    destruct (joint_motor (l_joint l)) as [m|]; [|exact I]. destruct SM as (a & -> & NA & ML). exists a. destruct a; [congruence|]. auto. }
  destruct (tree_load h SW) as (h1 & AC & W1 & F1).
  assert (IP : exists ks, init_print h = Some ks).
  { unfold init_print. destruct h; [congruence|]. cbn [nth_error option_map]. eauto. }
  destruct IP as (ks & IP). pose proof (init_load h h1 ks TP F1 SD SNM IP) as IL.
  set (h2 := pose_all h h1) in *. assert (L1 : length h1 = length h) by (eapply forall2_len; eauto).
  assert (W2 : well_formed h2) by (apply pose_tree; auto). pose proof (pose_loaded h h1 F1) as F2. fold h2 in F2.
  exists (Ztk [KName nm] sh ms secs ks).
  set (mass := if andb (nleb (total_mass h) 0%num) (nleb 0%num (total_mass h)) then 1%num else total_mass h).
  set (c2 := Chain (set_offsets 0 h2) mass v3zero v3zero v3zero).
  assert (W3 : well_formed (c_links c2)).
  { destruct W2 as [k T]. exists k. eapply well_formed_refs; [| |exact T]; [apply set_offsets_length|].
    intros i l Hl. destruct (offsets_keep 0 h2 i l Hl) as (o & Ho). exists (l_set_offset o l). split; [exact Ho|]. repeat split. }
  assert (ON : forall i l, nth_error h i = Some l -> exists l2, nth_error (c_links c2) i = Some l2 /\ loaded (fun q => q) l l2).
  { intros i l Hl. destruct (nth_error h2 i) as [l2|] eqn:H2.
    - destruct (offsets_keep 0 h2 i l2 H2) as (o & Ho). exists (l_set_offset o l2). split; [exact Ho|].
      pose proof (forall2_nth_inv _ _ _ F2 i l l2 Hl H2) as (A & B & C & D & P). repeat split; assumption.
    - apply nth_error_None in H2. apply forall2_len in F2. apply nth_lt in Hl. lia. }
  assert (LN3 : length (c_links c2) = length h). { cbn [c_links c2]. rewrite set_offsets_length. eapply forall2_len; eauto. }
  assert (CK : forall i l, nth_error (c_links c2) i = Some l -> cache_ok (l_joint l)).
  { intros i l2 Hl2. pose proof (nth_lt _ _ _ Hl2) as Hi. rewrite LN3 in Hi. destruct (nth_error h i) as [l|] eqn:Hl; [|apply nth_error_None in Hl; lia].
    destruct (ON i l Hl) as (l2' & Hl2' & (_ & J & _)). assert (l2' = l2) by congruence. subst l2'. rewrite J. apply rest_cache. }
  destruct (update_keeps g c2 W3 CK) as (c3 & c4 & U1 & U2 & W4 & MA & LE & KP).
  exists (Robot (Some nm) sh (option_map (map rest_slot) arr) c4).
  split; [unfold robot_print; cbn [rb_motors rb_chain rb_shapes rb_name]; fold h; rewrite MP; cbn [obind]; rewrite LP; cbn [obind]; rewrite IP; reflexivity|].
  split.
  { unfold robot_read. cbn [z_links z_motors z_shapes z_chain z_init]. destruct secs as [|s0 secs0]; [destruct h; [congruence|discriminate]|].
    rewrite MR.
    cbn [obind]. rewrite LR. cbn [obind]. rewrite links_done. cbn [obind].
    rewrite (connect_load (map l_name h) h (s0 :: secs0) SNM LC) with (h' := h1); [| |rewrite map_map; reflexivity|exact AC].
    2:{ intros l q Hl Hq. rewrite map_length. apply In_nth_error in Hl as (i & Hi). destruct (RO i l Hi) as (P & _). rewrite Hq in P. exact P. }
    cbn [obind eval_keys chain_key]. rewrite IL. cbn [obind]. unfold chain_calc_mass. cbn [c_links c_mass c_wcom c_comvel c_comacc].
    rewrite (mass_loaded _ _ _ F2). replace (0 + total_mass h)%num with (total_mass h) by ring.
    assert (EC : chain_set_offset (if andb (nleb (total_mass h) 0%num) (nleb 0%num (total_mass h)) then Chain h2 1%num v3zero v3zero v3zero else Chain h2 (total_mass h) v3zero v3zero v3zero) = c2).
    { unfold c2, mass. destruct (andb _ _); reflexivity. }
    rewrite EC, U1. cbn [obind]. rewrite U2. reflexivity. }
  cbn [rb_name rb_shapes rb_motors rb_chain]. split; [reflexivity|]. split; [reflexivity|].
  split; [unfold arr; destruct mo as [[|]|]; reflexivity|]. split; [exact W4|]. split; [|split; [|split]].
  - apply forall2_nth_eq; [lia|]. intros i l Hl. destruct (ON i l Hl) as (l2 & Hl2 & (A & B & C & D & P)).
    destruct (KP i l2 Hl2) as (l4 & w & Hl4 & K1 & K2 & K3 & _ & K4 & K5 & K6 & K7 & _). exists l4. split; [exact Hl4|].
    unfold same_link. rewrite K1, K2, K3, K5, K6, K7, K4, A, B, C, D, P. cbn [load_body b_mp b_stuff b_shapes].
    do 5 (split; [reflexivity|]). split; [symmetry; apply Permutation_rev|]. apply same_trq, rest_same, SD. eapply nth_error_In; eauto.
  - intros Z0. rewrite MA. cbn [c_mass c2]. unfold mass. rewrite Z0. replace (nleb 0%num 0%num) with true; [reflexivity|]. symmetry. apply nle_refl.
  - intros NZ. rewrite MA. cbn [c_mass c2]. unfold mass. destruct (andb _ _) eqn:EB; [|reflexivity]. exfalso. apply NZ.
    apply andb_prop in EB as [B1 B2]. apply nle_antisym; assumption.
  - intros i t HT. destruct (nth_error h i) as [l|] eqn:Hl; [|inversion HT; congruence].
    destruct (ON i l Hl) as (l2 & Hl2 & _). destruct (KP i l2 Hl2) as (l4 & w & Hl4 & KK). exists l4. split; [exact Hl4|].
    assert (HT2 : lineage (c_links c2) i t).
    { eapply lineage_ext; [|exact HT]. intros k x Hx. destruct (ON k x Hx) as (y & Hy & (_ & _ & _ & _ & P)). eauto. }
    destruct KK as (_ & _ & _ & _ & _ & _ & _ & _ & DP). rewrite <- (DP t HT2). symmetry. apply doc_pose_ext; [|apply (lineage_lt _ _ _ HT)].
    intros k _ x Hx. destruct (ON k x Hx) as (y & Hy & (_ & J & _ & D & _)). exists y. split; [exact Hy|]. rewrite J, rest_type. split; [reflexivity|].
    split; [|exact D]. apply (rest_same (l_joint x)). apply SD. eapply nth_error_In; eauto.
Qed.
End ZC.
