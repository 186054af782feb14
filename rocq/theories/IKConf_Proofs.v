(** * IKConf_Proofs: lemmas on the configuration files of the inverse kinematics solver. *)
From Coq Require Import String List Arith Lia Bool ZArith Field Sorted.
From Verif Require Import Num NumFacts Vec Motor_Model Joint_Model Joint_Spec Joint_Proofs Body_Model Tree Tree_Proofs Link_Model Chain_Proofs Jacobi_Model
  IK_Model IK_Laws IK_Spec IK_Cells IK_Index IK_Dims Ztk_Model Ztk_Spec Ztk_Proofs IKConf_Model IKConf_Spec.
Import ListNotations.

Section Congruence.
Context {F : Type} {N : Num F} {E : Ext F} {I : IKExt F} {Z : ZtkLib}.
Notation lk := (link F).
Notation sizes h := (map (fun l : lk => joint_size (l_joint l)) h).

(** Registration looks at the chain for the sizes of the joints only. *)
Lemma sizes_of (c c' : chain F) : same_joints c c' -> sizes (c_links c') = sizes (c_links c).
Proof. unfold same_joints. intros H. apply (f_equal (map fst)) in H. rewrite !map_map in H. exact H. Qed.
Lemma sizes_fix (h h' : list lk) : sizes h' = sizes h -> forall sw, fix_sw h' sw = fix_sw h sw.
Proof.
  revert h'. induction h as [|l h IH]; intros [|l' h'] H sw; try discriminate; [reflexivity|]. injection H as H1 H2.
  destruct sw as [|b sw]; [reflexivity|]. cbn [fix_sw]. rewrite H1. f_equal. auto.
Qed.
Lemma sizes_ofs (h h' : list lk) : sizes h' = sizes h -> forall o sw, sw_ofs o h' sw = sw_ofs o h sw.
Proof.
  revert h'. induction h as [|l h IH]; intros [|l' h'] H o sw; try discriminate; [reflexivity|]. injection H as H1 H2.
  destruct sw as [|b sw]; [reflexivity|]. cbn [sw_ofs]. rewrite H1. destruct b; f_equal; auto.
Qed.
Lemma sizes_nth (h h' : list lk) i : sizes h' = sizes h -> option_map (fun l : lk => joint_size (l_joint l)) (nth_error h' i) = option_map (fun l : lk => joint_size (l_joint l)) (nth_error h i).
Proof. intros H. rewrite <- !nth_error_map. now rewrite H. Qed.
Lemma sizes_index (h h' : list lk) idx : sizes h' = sizes h -> chain_index_size h' idx = chain_index_size h idx.
Proof.
  intros H. induction idx as [|i idx IH]; [reflexivity|]. cbn [chain_index_size]. rewrite IH. pose proof (sizes_nth h h' i H) as K.
  destruct (nth_error h' i), (nth_error h i); try discriminate; [|reflexivity]. injection K as K. cbn. now rewrite K.
Qed.
Lemma sizes_weights (h h' : list lk) w idx : sizes h' = sizes h -> weights h' w idx = weights h w idx.
Proof.
  intros H. induction idx as [|i idx IH]; [reflexivity|]. cbn [weights]. rewrite IH. pose proof (sizes_nth h h' i H) as K.
  destruct (nth_error h' i), (nth_error h i); try discriminate; [|reflexivity]. injection K as K. cbn. now rewrite K.
Qed.
Lemma sizes_len (h h' : list lk) : sizes h' = sizes h -> length h' = length h.
Proof. intros H. apply (f_equal (@length nat)) in H. now rewrite !map_length in H. Qed.
Lemma joint_reg_same (c c' : chain F) (s : solver F) i w : same_joints c c' -> joint_reg c' s i w = joint_reg c s i w.
Proof.
  intros J. apply sizes_of in J. unfold joint_reg, joint_reg_sw. rewrite (sizes_len _ _ J). destruct (Nat.ltb i _); [|reflexivity]. f_equal.
  unfold alloc_index. cbv zeta. rewrite (sizes_fix _ _ J). destruct (sw_index 0 _); [reflexivity|].
  rewrite (sizes_index _ _ _ J), (sizes_weights _ _ _ _ J), (sizes_ofs _ _ J). reflexivity.
Qed.
Lemma reg_all_same (c c' : chain F) w (J : same_joints c c') : forall (h h' : list lk) (s : solver F) i, sizes h' = sizes h -> reg_all c' w s i h' = reg_all c w s i h.
Proof.
  induction h as [|l h IH]; intros [|l' h'] s i H; try discriminate; [reflexivity|]. injection H as H1 H2. cbn [reg_all]. rewrite H1, (joint_reg_same c c' s i w J).
  destruct (Nat.ltb 0 _); [|auto]. destruct (joint_reg c s i w) as [r|]; [|reflexivity]. cbn [obind]. destruct (snd r); [auto|reflexivity].
Qed.
Lemma joint_reg_all_same (c c' : chain F) (s : solver F) w : same_joints c c' -> joint_reg_all c' s w = joint_reg_all c s w.
Proof. intros J. apply reg_all_same; [exact J|]. now apply sizes_of. Qed.
Lemma run_app (a : list (op F)) : forall b (c : chain F) s, run c s (a ++ b) = obind (run c s a) (fun r => run (fst r) (snd r) b).
Proof.
  induction a as [|o a IH]; intros b c s; [reflexivity|]. cbn [app run]. destruct (run_op c s o) as [r|]; [|reflexivity]. cbn [obind]. apply IH.
Qed.
Lemma set_joint_lkey (a : lk) j : joint_size j = joint_size (l_joint a) -> lkey (l_set_joint j a) = lkey a.
Proof. intros H. unfold lkey. cbn. now rewrite H. Qed.
Lemma map_set_nth {A B} (f : A -> B) (h : list A) i a b : nth_error h i = Some a -> f b = f a -> map f (set_nth i b h) = map f h.
Proof. revert i. induction h as [|x h IH]; intros [|i] H Q; cbn in *; try discriminate; [injection H as <-; congruence|f_equal; eauto]. Qed.
Lemma has_new (s : solver F) : cadr (s_cells s) = seq 0 (length (s_cells s)) -> has (length (s_cells s)) s = false.
Proof.
  intros H. destruct (has _ s) eqn:K; [|reflexivity]. apply has_true in K. rewrite H in K. apply in_seq in K. lia.
Qed.
Lemma insert_at_end (l : list (nat * cell F)) a ce : cids l = seq 0 (length l) -> insert_cell l a ce = l ++ [(a, ce_set_id (length l) ce)].
Proof.
  intros H. assert (S : StronglySorted lt (cids l)).
  { rewrite H. clear. generalize 0 at 1. induction (length l) as [|n IH]; intros k; cbn; constructor; [apply IH|]. apply Forall_forall. intros x Hx. apply in_seq in Hx. lia. }
  destruct (insert_cell_spec l a ce S) as (pre & post & A & B & C & D). destruct post as [|x post].
  - rewrite app_nil_r in A. subst pre. exact B.
  - exfalso. rewrite A, cids_app, app_length, seq_app, C in H. apply app_inv_head in H. cbn in H. injection H as H1 H2.
    inversion D as [|? ? D1 D2]; subst. lia.
Qed.
End Congruence.

(** ** Any file: what is read is what some calls make *)
Section Reach.
Context {F : Type} {N : Num F} {E : Ext F} {I : IKExt F} {Z : ZtkLib}.

Definition reached (c : chain F) (x : conf F) : Prop :=
  same_joints c (fst x) /\ names (fst x) = names c /\ cadr (s_cells (snd x)) = seq 0 (length (s_cells (snd x))) /\
  cids (s_cells (snd x)) = seq 0 (length (s_cells (snd x))) /\
  exists ops, run c (ik_create c) ops = Some (c, snd x).

Lemma reg_sw_cells (c : chain F) (s : solver F) i b w r : joint_reg_sw c s i b w = Some r -> s_cells (fst r) = s_cells s.
Proof.
  unfold joint_reg_sw. destruct (Nat.ltb _ _); [|intros K; injection K as <-; reflexivity]. unfold alloc_index. cbv zeta. destruct (sw_index 0 _).
  - cbn. intros K; injection K as <-. reflexivity.
  - destruct (chain_index_size _ _); [|discriminate]. cbn [obind]. destruct (weights _ _ _); [|discriminate]. cbn [obind].
    destruct (alloc_cmat _) as [s1|] eqn:A; [|discriminate]. intros K; injection K as <-. apply alloc_cmat_cells in A. exact A.
Qed.
Lemma reg_all_cells (c : chain F) w : forall h (s : solver F) i r, reg_all c w s i h = Some r -> s_cells (fst r) = s_cells s.
Proof.
  induction h as [|l h IH]; cbn [reg_all]; intros s i r H; [injection H as <-; reflexivity|]. destruct (Nat.ltb 0 _); [|eauto].
  unfold obind in H. destruct (joint_reg c s i w) as [r1|] eqn:A; [|discriminate]. apply reg_sw_cells in A. destruct (snd r1); [apply IH in H; congruence|injection H as <-; exact A].
Qed.
Lemma reached_op c c1 s o s' : reached c (c1, s) -> run_op c s o = Some (c, s') -> s_cells s' = s_cells s -> reached c (c1, s').
Proof.
  intros (A & B & C & D & ops & R) H K. cbn [fst snd] in *. unfold reached. cbn [fst snd]. rewrite K. repeat split; auto. exists (ops ++ [o]). rewrite run_app, R. cbn. rewrite H. reflexivity.
Qed.
Lemma cell_reg_cells (s s' : solver F) a k attr m : cell_reg s a k attr m = Some s' -> cids (s_cells s) = seq 0 (length (s_cells s)) ->
  s_cells s' = s_cells s ++ [(a, ce_set_id (length (s_cells s)) (cell_init k attr m))].
Proof. intros H K. unfold cell_reg in H. apply alloc_srv_cells in H. rewrite H. cbn [s_cells s_set_cells]. now apply insert_at_end. Qed.
Lemma seq_snoc n : seq 0 (n + 1) = seq 0 n ++ [n].
Proof. now rewrite seq_app. Qed.
Lemma reached_cell c c1 s k attr m s' : reached c (c1, s) -> cell_reg s (length (s_cells s)) k attr m = Some s' -> reached c (c1, s').
Proof.
  intros (A & B & C & D & ops & R) H. cbn [fst snd] in *. pose proof (cell_reg_cells _ _ _ _ _ _ H D) as K. unfold reached. cbn [fst snd]. rewrite K.
  split; [exact A|]. split; [exact B|]. rewrite cadr_app, cids_app, app_length, C, D. cbn [length]. rewrite seq_snoc. split; [reflexivity|]. split; [reflexivity|].
  exists (ops ++ [CReg (length (s_cells s)) k attr m]). rewrite run_app, R. cbn. rewrite (has_new s C), H. reflexivity.
Qed.
Lemma okay_some {A} (o : option A) r : okay o = Some r -> o = Some (fst r) /\ snd r = true.
Proof. unfold okay. destruct o; cbn; [|discriminate]. intros K; injection K as <-. auto. Qed.
Lemma reached_set c c1 s i l j : reached c (c1, s) -> nth_error (c_links c1) i = Some l -> joint_size j = joint_size (l_joint l) ->
  reached c (c_set_links (lset i (l_set_joint j l) (c_links c1)) c1, s).
Proof.
  intros (A & B & C & D & R) Hl Hj. cbn [fst snd] in *. unfold reached. cbn [fst snd]. split.
  - eapply same_joints_trans; [exact A|]. unfold same_joints. cbn. apply (map_set_nth lkey _ i l _ Hl). now apply set_joint_lkey.
  - split; [|auto]. rewrite <- B. unfold names. cbn. apply (map_set_nth l_name _ i l _ Hl). reflexivity.
Qed.
Lemma key_dis (j : joint F) d r : joint_key None j (KDis d) = Some r -> joint_set_dis j (conv to_rad (units (jtype_of j)) d) = Some (fst r) /\ snd r = true.
Proof. unfold joint_key. cbv zeta. apply okay_some. Qed.
Lemma reached_key junk c x k y ok : reached c x -> ik_key junk x k = Some (y, ok) -> reached c y.
Proof.
  destruct x as [c1 s]. intros H K. destruct k as [n w d|t l]; cbn [ik_key] in K.
  - unfold ik_joint in K. set (w' := match w with Some w => w | None => weight_default end) in *. pose proof H as (J & B & _). cbn [fst snd] in J, B. destruct (String.eqb n "all").
    + rewrite (joint_reg_all_same c c1 s w' J) in K. destruct (joint_reg_all c s w') as [[v' b]|] eqn:G; [|discriminate]. injection K as <- <-.
      apply (reached_op c c1 s (JRegAll w')); auto; [cbn; now rewrite G|]. change v' with (fst (v', b)). eapply reg_all_cells. exact G.
    + destruct (find_name _ n) as [i|]; [|injection K as <- <-; exact H]. destruct (nth_error (c_links c1) i) as [l|] eqn:Hl; [|discriminate]. cbn [obind] in K.
      destruct (is0 w').
      * assert (K' : exists r, joint_key None (l_joint l) (KDis d) = Some r /\ y = (c_set_links (lset i (l_set_joint (fst r) l) (c_links c1)) c1, s)).
        { destruct (l_joint l); try discriminate; destruct (joint_key None _ _) as [[j' b]|]; try discriminate; cbn in K; injection K as <- <-; eexists; (split; [reflexivity|reflexivity]). }
        destruct K' as (r & K1 & ->). apply key_dis in K1 as [K1 _]. apply reached_set; auto. unfold joint_size. now rewrite (set_dis_type _ _ _ K1).
      * destruct (Nat.eqb (joint_size (l_joint l)) 0); [injection K as <- <-; exact H|].
        rewrite (joint_reg_same c c1 s i w' J) in K. destruct (joint_reg c s i w') as [[v' b]|] eqn:G; [|discriminate]. injection K as <- <-.
        apply (reached_op c c1 s (JReg i w')); auto; [cbn; now rewrite G|]. change v' with (fst (v', b)). eapply reg_sw_cells. exact G.
  - unfold ik_constraint in K. cbn [fst snd] in K. destruct (ik_lookup t ik_table) as [kd|]; [|injection K as <- <-; exact H].
    destruct (ik_items _ _ _ _ _) as [[a m]|]; [|injection K as <- <-; exact H].
    destruct (cell_reg s _ kd (Some a) m) as [v|] eqn:G; [|discriminate]. injection K as <- <-. eapply reached_cell; eauto.
Qed.
Lemma reached_keys junk c l : forall x y ok, reached c x -> ik_keys junk x l = Some (y, ok) -> reached c y.
Proof.
  induction l as [|k l IH]; intros x y ok H K; cbn [ik_keys] in K; [injection K as <- <-; exact H|].
  unfold obind in K. destruct (ik_key junk x k) as [[x1 b]|] eqn:G; [|discriminate]. pose proof (reached_key _ _ _ _ _ _ H G) as H1. destruct b; [eauto|].
  destruct z_stop_key; [injection K as <- <-; exact H1|]. destruct (ik_keys junk x1 l) as [[z b]|] eqn:Q; [|discriminate]. injection K as <- <-. eauto.
Qed.
Lemma reached_create c : reached c (c, ik_create c).
Proof. unfold reached. cbn. repeat split; auto. exists []. reflexivity. Qed.
End Reach.

(** ** Files that are meant to be read *)
Section Meant.
Context {F : Type} {N : Num F} {L : NumLaws F N} {E : Ext F} {X : ExtLaws F N E} {I : IKExt F} {Z : ZtkLib}.
Add Field FFieldIKConf : num_field.
Notation lk := (link F).

Lemma is0_zero (x : F) : is0 x = zero_b x. Proof. reflexivity. Qed.
Lemma set_dis_over (j j0 : joint F) d0 d : joint_set_dis j d0 = Some j0 -> joint_set_dis j0 d = joint_set_dis j d.
Proof.
  destruct j; cbn [joint_set_dis]; intros H; try (injection H as <-; reflexivity);
    match type of H with option_map _ ?r = _ => destruct r as [v|]; [|discriminate] end; cbn [option_map] in H;
    try (destruct v as [v v2]); injection H as <-; cbn [joint_set_dis].
  - destruct (rd1 d); reflexivity.
  - destruct (rd1 d); reflexivity.
  - destruct (rd2 d) as [[? ?]|]; reflexivity.
  - destruct (rd2 d) as [[? ?]|]; reflexivity.
  - destruct (rd3 d); reflexivity.
  - destruct (rd6 d); reflexivity.
  - destruct (rd6 d); reflexivity.
Qed.
Lemma to_rad_units (x : F) : (x * x_pi = to_rad x * nrat 180%Z 1)%num.
Proof. unfold to_rad, nrat, nZ. pose proof (npos_nz 180). pose proof (npos_nz 1). field. auto. Qed.
Lemma conv_units (j : joint F) d i x : i < joint_size j -> nth_error d i = Some x ->
  exists y, nth_error (conv to_rad (units (jtype_of j)) d) i = Some y /\ in_units (jtype_of j) i x y.
Proof.
  destruct j; cbn [joint_size jtype_of]; intros Hi Hd; try (cbn in Hi; lia);
  (destruct i as [|[|[|[|[|[|i]]]]]]; cbn in Hi; try lia);
  repeat (destruct d as [|? d]; [discriminate Hd|]; cbn [nth_error] in Hd); injection Hd as ->;
  (eexists; split; [reflexivity|]); unfold in_units; cbn [angular]; try reflexivity; apply to_rad_units.
Qed.
Lemma find_in (l : list string) s : NoDup l -> In s l -> exists i, find_name l s = Some i /\ nth_error l i = Some s.
Proof. intros ND H. apply In_nth_error in H as [i H]. exists i. split; [now apply find_name_nth|exact H]. Qed.

(** The attributes of a constraint. *)
Definition scanned (ns : list string) (pre : list (citem F)) (n : nat) (a : cattr F) (m : mask) : Prop :=
  n = length (link_names pre) /\
  match link_names pre with [] => k_id m = false | s :: _ => k_id m = true /\ nth_error ns (a_id a) = Some s end /\
  match rev (tl (link_names pre)) with [] => k_sub m = false | s :: _ => k_sub m = true /\ nth_error ns (a_sub a) = Some s end /\
  (if k_ap m then a_ap a else v3zero) = last (points pre) v3zero /\
  (if k_weight m then a_w a else V3 1 1 1)%num = last (cweights pre) (V3 1 1 1)%num /\
  k_force m = forced pre.
Lemma items_scanned (ns : list string) (ND : NoDup ns) l : forall pre n a m, incl (link_names l) ns -> scanned ns pre n a m ->
  exists n' a' m', ik_items ns n a m l = Some (a', m') /\ scanned ns (pre ++ l) n' a' m'.
Proof.
  induction l as [|x l IH]; intros pre n a m H S.
  - exists n, a, m. rewrite app_nil_r. auto.
  - replace (pre ++ x :: l) with ((pre ++ [x]) ++ l) by (now rewrite <- app_assoc).
    destruct S as (S1 & S2 & S3 & S4 & S5 & S6).
    assert (LN : link_names (pre ++ [x]) = link_names pre ++ match x with CLink s => [s] | _ => [] end) by (unfold link_names; rewrite flat_map_app; cbn; now rewrite app_nil_r).
    assert (PT : points (pre ++ [x]) = points pre ++ match x with CAt s => [s] | _ => [] end) by (unfold points; rewrite flat_map_app; cbn; now rewrite app_nil_r).
    assert (CW : cweights (pre ++ [x]) = cweights pre ++ match x with CWeight s => [s] | _ => [] end) by (unfold cweights; rewrite flat_map_app; cbn; now rewrite app_nil_r).
    assert (FO : forced (pre ++ [x]) = forced pre || match x with CForce => true | _ => false end) by (unfold forced; rewrite existsb_app; cbn; now rewrite orb_false_r).
    destruct x as [v|v| |s]; cbn [ik_items]; rewrite ?app_nil_r, ?orb_false_r in *.
    + apply IH; [exact H|]. unfold scanned. rewrite LN, PT, CW, FO, last_last. cbn. repeat split; auto.
    + apply IH; [exact H|]. unfold scanned. rewrite LN, PT, CW, FO, last_last. cbn. repeat split; auto.
    + apply IH; [exact H|]. unfold scanned. rewrite LN, PT, CW, FO, orb_true_r. cbn. repeat split; auto.
    + destruct (find_in ns s ND) as (i & Hf & Hn); [apply H; now left|]. rewrite Hf.
      assert (H' : incl (link_names l) ns) by (intros y Hy; apply H; right; exact Hy).
      destruct n as [|n]; apply IH; auto; unfold scanned; rewrite LN, PT, CW, FO; rewrite app_length; cbn [length];
        destruct (link_names pre) as [|s0 t0]; try discriminate S1; cbn [a_id a_sub a_ap a_w k_id k_sub k_ap k_force k_weight app tl length] in *.
      * repeat split; auto.
      * rewrite rev_app_distr. cbn [rev app]. repeat split; auto; try tauto. lia.
Qed.
Lemma lookup_type k : ik_lookup (type_name k) ik_table = Some k. Proof. destruct k; reflexivity. Qed.
Lemma cell_described c t l (k : kind) n0 a m addr id : scanned (names c) l n0 a m -> type_name k = t ->
  described c id (t, l) (addr, ce_set_id id (cell_init k (Some a) m)).
Proof.
  intros (S1 & S2 & S3 & S4 & S5 & S6) T. unfold described. cbn [fst snd ce_set_id ce_id ce_kind ce_attr ce_mode cell_init cell_disable cell_acm_zero ce_set_ae ce_set_mode a_id a_sub a_ap a_w].
  split; [reflexivity|]. split; [exact T|]. split; [|split; [|split; [exact S4|split; [exact S5|]]]].
  - destruct (link_names l); [now rewrite S2|]. destruct S2 as [-> S2]. exact S2.
  - destruct (rev _); [now rewrite S3|]. destruct S3 as [-> S3]. exact S3.
  - cbn. now rewrite S6.
Qed.

(** The state after the keys [p]. *)
Record state (c : chain F) (p : list (ikkey F)) (x : conf F) : Prop := mkState {
  st_reach : reached c x;
  st_inv : inv c (asked_by c p) (snd x);
  st_post : Forall2 (postured p) (c_links c) (c_links (fst x));
  st_cells : Forall2 (fun n y => described c (fst n) (snd n) y) (combine (seq 0 (length (constraints p))) (constraints p)) (s_cells (snd x)) }.

Lemma asked_snoc c p k i : asked_by c (p ++ [k]) i = asks c k (asked_by c p) i.
Proof. unfold asked_by. now rewrite fold_left_app. Qed.
Lemma fixed_snoc n p (k : ikkey F) : fixed_at n (p ++ [k]) = fixes n k (fixed_at n p).
Proof. unfold fixed_at. now rewrite fold_left_app. Qed.
Lemma post_same c p k c1 : (forall a, In a (c_links c) -> forall o, fixes (l_name a) k o = o) ->
  Forall2 (postured p) (c_links c) (c_links c1) -> Forall2 (postured (p ++ [k])) (c_links c) (c_links c1).
Proof.
  intros K H. induction H as [|a b h h' P H IH]; constructor; [|apply IH; intros; apply K; now right].
  unfold postured. rewrite fixed_snoc, K by now left. exact P.
Qed.
Lemma constraints_snoc p (k : ikkey F) : constraints (p ++ [k]) = constraints p ++ match k with IKConstraint t l => [(t, l)] | _ => [] end.
Proof. unfold constraints. rewrite flat_map_app. cbn. now rewrite app_nil_r. Qed.
Lemma combine_snoc {A} (l : list A) x : combine (seq 0 (length (l ++ [x]))) (l ++ [x]) = combine (seq 0 (length l)) l ++ [(length l, x)].
Proof.
  rewrite app_length. cbn [length]. rewrite seq_snoc.
  assert (K : forall (m : list A) (s : list nat) n y, length s = length m -> combine (s ++ [n]) (m ++ [y]) = combine s m ++ [(n, y)]).
  { induction m as [|y m IH]; intros [|a s] n z H; try discriminate; [reflexivity|]. cbn. f_equal. apply IH. now injection H. }
  apply K. apply seq_length.
Qed.
Lemma forall2_nth_l {A B} (R : A -> B -> Prop) l m i a : Forall2 R l m -> nth_error l i = Some a -> exists b, nth_error m i = Some b /\ R a b.
Proof. intros H. revert i. induction H as [|x y l m P H IH]; intros [|i] K; cbn in *; try discriminate; [injection K as <-; eauto|eauto]. Qed.
Lemma forall2_length {A B} (R : A -> B -> Prop) l m : Forall2 R l m -> length l = length m.
Proof. intros H. induction H; cbn; congruence. Qed.
Lemma name_at (c : chain F) i a : nth_error (c_links c) i = Some a -> nth_error (names c) i = Some (l_name a).
Proof. intros H. unfold names. now rewrite nth_error_map, H. Qed.
Lemma weight_same (w : option F) : match w with Some w => w | None => weight_default end = weight_of w.
Proof. destruct w; reflexivity. Qed.

Lemma forall2_set {A B} (R R' : A -> B -> Prop) l m i b' : Forall2 R l m -> (forall k a b, nth_error l k = Some a -> k <> i -> R a b -> R' a b) ->
  (forall a, nth_error l i = Some a -> R' a b') -> Forall2 R' l (set_nth i b' m).
Proof.
  intros H. revert i. induction H as [|x y l m P H IH]; intros i K1 K2; [destruct i; constructor|]. destruct i as [|i]; cbn [set_nth]; constructor.
  - apply K2. reflexivity.
  - clear - H K1. assert (K : forall k a b, nth_error l k = Some a -> R a b -> R' a b) by (intros k a b Q; apply (K1 (S k)); [exact Q|discriminate]).
    clear K1. induction H as [|x' y' l m P H IH]; constructor; [apply (K 0); auto|apply IH; intros k a b Q; apply (K (S k)); exact Q].
  - apply (K1 0); auto.
  - apply IH; [intros k a b Q ne; apply (K1 (S k)); auto|intros a Q; apply K2; exact Q].
Qed.

Lemma state_key junk c p x k : NoDup (names c) -> state c p x -> meant c p k ->
  exists y, ik_key junk x k = Some (y, true) /\ state c (p ++ [k]) y.
Proof.
  intros ND [Rx Ix Px Cx] M. destruct x as [c1 s]. cbn [fst snd] in *. pose proof Rx as (J & B & A1 & A2 & ops & R). cbn [fst snd] in *.
  assert (G : exists y, ik_key junk (c1, s) k = Some (y, true) /\ inv c (asked_by c (p ++ [k])) (snd y) /\ Forall2 (postured (p ++ [k])) (c_links c) (c_links (fst y)) /\
    Forall2 (fun n z => described c (fst n) (snd n) z) (combine (seq 0 (length (constraints (p ++ [k])))) (constraints (p ++ [k]))) (s_cells (snd y))).
  2:{ destruct G as (y & G1 & G2 & G3 & G4). exists y. split; [exact G1|]. constructor; auto. eapply reached_key; eauto. }
  rewrite constraints_snoc. destruct k as [n w d|t l]; cbn [ik_key]; rewrite ?app_nil_r.
  - unfold ik_joint. rewrite weight_same. set (w' := weight_of w). destruct (String.eqb_spec n "all") as [->|NA].
    + rewrite (joint_reg_all_same c c1 s w' J).
      destruct (inv_reg_all c w' (c_links c) 0 (asked_by c p) s) as (s' & E1 & E2 & E3); [reflexivity|reflexivity|exact Ix|].
      unfold joint_reg_all. rewrite E1. cbn [option_map]. eexists. split; [reflexivity|]. cbn [fst snd]. split; [|split].
      * eapply inv_ext; [|exact E3]. intros i Hi. rewrite asked_snoc. cbn [asks String.eqb]. rewrite (proj2 (Nat.ltb_lt i _) Hi), andb_true_r. reflexivity.
      * apply post_same; [|exact Px]. intros a _ o. cbn [fixes]. rewrite String.eqb_refl. cbn [negb]. now rewrite andb_false_r.
      * rewrite E2. exact Cx.
    + destruct M as [M|(i & l & Hl & Hn & Hs & Hd)]; [easy|]. fold w' in Hd.
      pose proof (name_at c i l Hl) as Hi. rewrite Hn in Hi. change (map l_name (c_links c1)) with (names c1). rewrite B, (find_name_nth _ _ _ ND Hi).
      destruct (forall2_nth_l _ _ _ _ _ Px Hl) as (l1 & Hl1 & P1). rewrite Hl1. cbn [obind].
      destruct (same_joints_nth c c1 i l J Hl) as (l1' & Q1 & Q2). rewrite Hl1 in Q1. injection Q1 as <-.
      assert (Sz : joint_size (l_joint l1) = joint_size (l_joint l)) by (unfold lkey in Q2; congruence).
      assert (Oth : forall k a, nth_error (c_links c) k = Some a -> k <> i -> String.eqb (l_name a) n = false).
      { intros k a Ha ne. apply String.eqb_neq. intros e. apply ne. pose proof (name_at c k a Ha) as Hk. rewrite e in Hk.
        apply (proj1 (NoDup_nth_error (names c)) ND); [apply nth_error_Some; congruence|congruence]. }
      change (is0 w') with (zero_b w'). destruct (zero_b w') eqn:Zw.
      * (* a displacement *)
        assert (O : forall d', joint_set_dis (l_joint l1) d' = joint_set_dis (l_joint l) d').
        { intros d'. unfold postured in P1. destruct (fixed_at _ p); [|now subst l1]. destruct P1 as (j0 & d0 & -> & S0 & _). cbn. eapply set_dis_over. exact S0. }
        assert (T : jtype_of (l_joint l1) = jtype_of (l_joint l)).
        { unfold postured in P1. destruct (fixed_at _ p); [|now subst l1]. destruct P1 as (j0 & d0 & -> & S0 & _). cbn. eapply set_dis_type. exact S0. }
        assert (LC : joint_size (l_joint l) <= length (conv to_rad (units (jtype_of (l_joint l))) d)).
        { specialize (Hd eq_refl). destruct (Nat.le_gt_cases (joint_size (l_joint l)) (length (conv to_rad (units (jtype_of (l_joint l))) d))) as [|C]; [assumption|].
          exfalso. set (q := length (conv to_rad (units (jtype_of (l_joint l))) d)) in *.
          destruct (nth_error d q) as [x|] eqn:Ex; [|apply nth_error_None in Ex; lia]. destruct (conv_units (l_joint l) d q x C Ex) as (y & Y & _).
          assert (nth_error (conv to_rad (units (jtype_of (l_joint l))) d) q <> None) as Y' by congruence. apply nth_error_Some in Y'. unfold q in Y'. lia. }
        destruct (set_dis_total (l_joint l) _ LC) as [j' Hj].
        assert (KD : joint_key None (l_joint l1) (KDis d) = Some (j', true)).
        { unfold joint_key. cbv zeta. rewrite T, O, Hj. reflexivity. }
        exists (c_set_links (lset i (l_set_joint j' l1) (c_links c1)) c1, s). cbn [fst snd]. split; [|split; [|split]].
        -- destruct (l_joint l1) eqn:E1; try (rewrite KD; reflexivity). exfalso. cbn in Sz. lia.
        -- eapply inv_ext; [|exact Ix]. intros q Hq. rewrite asked_snoc. cbn [asks]. fold w'. rewrite (proj2 (String.eqb_neq n "all") NA), Zw. reflexivity.
        -- cbn [c_links c_set_links]. unfold lset. eapply forall2_set; [exact Px| |].
           ++ intros q a b Ha ne P. unfold postured in *. rewrite fixed_snoc. cbn [fixes]. rewrite (Oth q a Ha ne). cbn [andb]. exact P.
           ++ intros a Ha. rewrite Hl in Ha. injection Ha as <-. unfold postured. rewrite fixed_snoc. cbn [fixes]. fold w'. rewrite Hn, String.eqb_refl, (proj2 (String.eqb_neq n "all") NA), Zw. cbn [negb andb].
              exists j', (conv to_rad (units (jtype_of (l_joint l))) d). split; [|split; [exact Hj|]].
              ** unfold postured in P1. destruct (fixed_at _ p); [|now subst l1]. destruct P1 as (j0 & d0 & -> & _). reflexivity.
              ** intros q x Hq Hx. now apply conv_units.
        -- exact Cx.
      * rewrite Sz. destruct (Nat.eqb_spec (joint_size (l_joint l)) 0) as [e|_]; [lia|]. rewrite (joint_reg_same c c1 s i w' J).
        assert (Li : i < length (c_links c)) by (apply nth_error_Some; congruence).
        destruct (inv_jreg c (asked_by c p) s i w' true (asked_by c (p ++ [IKJoint n w d])) Ix Li) as (s' & E1 & E2 & E3).
        -- intros q ne. rewrite asked_snoc. cbn [asks]. fold w'. rewrite (proj2 (String.eqb_neq n "all") NA), Zw. destruct (nth_error (c_links c) q) as [a|] eqn:Ha.
           ++ rewrite (name_at c q a Ha), (Oth q a Ha ne). reflexivity.
           ++ unfold names. rewrite nth_error_map, Ha. reflexivity.
        -- rewrite asked_snoc. cbn [asks]. fold w'. rewrite (proj2 (String.eqb_neq n "all") NA), Zw, Hi, String.eqb_refl. reflexivity.
        -- unfold wt. rewrite asked_snoc. cbn [asks]. fold w'. rewrite (proj2 (String.eqb_neq n "all") NA), Zw, Hi, String.eqb_refl. reflexivity.
        -- unfold joint_reg. rewrite E1. cbn [option_map]. eexists. split; [reflexivity|]. cbn [fst snd]. split; [exact E2|]. split.
           ++ apply post_same; [|exact Px]. intros a _ o. cbn [fixes]. fold w'. rewrite Zw. now rewrite andb_false_r.
           ++ rewrite E3. exact Cx.
  - destruct M as ((kd & T) & LN & W). unfold ik_constraint. cbn [fst snd]. rewrite <- T, lookup_type. change (map l_name (c_links c1)) with (names c1). rewrite B.
    destruct (items_scanned (names c) ND l [] 0 junk (Mask false false false false false) LN) as (n' & a & m & E1 & E2); [unfold scanned; cbn; auto 10|]. cbn [app] in E2. rewrite E1.
    destruct (i_idx _ _ _ Ix W) as (D1 & _).
    assert (E3 : exists s', cell_reg s (length (s_cells s)) kd (Some a) m = Some s').
    { unfold cell_reg, alloc_srv. cbn [s_cells s_set_cells]. rewrite (insert_at_end _ _ _ A2). destruct (s_cells s ++ _) eqn:Q; [eauto|]. unfold alloc_cmat. cbn [s_cells s_jidx s_set_cells].
      rewrite D1. cbn [obind]. destruct (wanted c (asked_by c p)); eauto. }
    destruct E3 as [s' E3]. rewrite E3. cbn [option_map]. eexists. split; [reflexivity|]. cbn [fst snd]. split; [|split].
    + eapply inv_ext; [|]. 2:{ unfold cell_reg in E3. eapply alloc_srv_inv; [exact Ix| |exact E3]. intros _. congruence. }
      intros i _. rewrite asked_snoc. reflexivity.
    + apply post_same; [|exact Px]. reflexivity.
    + rewrite (cell_reg_cells _ _ _ _ _ _ E3 A2), combine_snoc. apply Forall2_app; [exact Cx|]. constructor; [|constructor]. cbn [fst snd].
      replace (length (s_cells s)) with (length (constraints p)).
      * eapply cell_described; [exact E2|reflexivity].
      * apply forall2_length in Cx. rewrite combine_length, seq_length, Nat.min_id in Cx. exact Cx.
Qed.
Lemma state_keys junk c l : NoDup (names c) -> forall p x, state c p x -> readable c (p ++ l) ->
  exists y, ik_keys junk x l = Some (y, true) /\ state c (p ++ l) y.
Proof.
  intros ND. induction l as [|k l IH]; intros p x S R; cbn [ik_keys].
  - exists x. rewrite app_nil_r. auto.
  - destruct (state_key junk c p x k ND S) as (y & E1 & E2); [now apply (R p k l)|]. rewrite E1. cbn [obind].
    destruct (IH (p ++ [k]) y E2) as (z & F1 & F2); [rewrite <- app_assoc; exact R|]. rewrite <- app_assoc in F2. exists z. auto.
Qed.
Lemma state_create c : state c [] (c, ik_create c).
Proof.
  constructor; cbn [fst snd].
  - apply reached_create.
  - apply create_inv.
  - induction (c_links c); constructor; auto. reflexivity.
  - constructor.
Qed.
(** The switches and weights of a solver say which joints were asked for. *)
Lemma inv_asked c f g (s : solver F) : inv c f s -> inv c g s -> forall i, movable c i = true -> f i = g i.
Proof.
  intros Hf Hg i Mi. assert (Hi : i < length (c_links c)) by (unfold movable in Mi; destruct (nth_error _ i) eqn:K; [|discriminate]; apply nth_error_Some; congruence).
  pose proof (i_sw _ _ _ Hf) as A. rewrite (i_sw _ _ _ Hg) in A. pose proof (i_wt _ _ _ Hf) as B. rewrite (i_wt _ _ _ Hg) in B.
  unfold switches in A. apply (f_equal (fun l => nth_error l i)) in A. apply (f_equal (fun l => nth_error l i)) in B. rewrite !nth_error_map in A, B.
  replace (nth_error (seq 0 (length (c_links c))) i) with (Some i) in A, B.
  2:{ symmetry. rewrite nth_error_nth' with (d := 0); [|rewrite seq_length; lia]. rewrite seq_nth by lia. auto. }
  cbn in A, B. rewrite Mi in A. unfold wt in B. destruct (f i), (g i); try discriminate; [injection B as B; congruence|reflexivity].
Qed.
End Meant.
