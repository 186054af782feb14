(** * Tempo_Properties: the same motion run faster or slower (C110). *)
From Coq Require Import String ZArith QArith Qcanon List Arith Lia Bool Field Permutation.
From Verif Require Import Conf_Q Num NumFacts Vec VecFacts Motor_Model Joint_Model Joint_Spec Joint_Proofs Body_Model Body_Proofs Body_Properties Tree Tree_Proofs Link_Model Link_Spec Link_Proofs Chain_Proofs Link_Properties Chain_Properties Kin_Spec Kin_Proofs Jacobi_Model Jacobi_Proofs Conf_Proofs Kin_Properties ExtQ.
From Verif Require Import Dyn_Spec Dyn_Proofs Move_Properties Payload_Properties IK_Usable.
Import ListNotations.

Section Tempo.
Context {F : Type} {N : Num F} {L : NumLaws F N} {E : Ext F} {X : ExtLaws F N E}.
Local Open Scope num_scope.
Local Ltac vring := intros; vdestruct; vunfold; vsplit; ring.
Add Field FFieldTm : num_field.
Notation lk := (link F).

(** Joints with velocity and acceleration mapped and without torque. *)
Definition v3m (f : F -> F) (v : vec3 F) : vec3 F := V3 (f (vx v)) (f (vy v)) (f (vz v)).
Definition v6m (f : F -> F) (v : vec6 F) : vec6 F := V6 (v3m f (vlin v)) (v3m f (vang v)).
Definition axm (f g : F -> F) (a : ax1 F) : ax1 F := ax_vel (f (a_vel a)) (ax_acc (g (a_acc a)) (ax_trq 0 a)).
Definition spm (f g : F -> F) (s : spher F) : spher F := SP (sp_aa s) (v3m f (sp_vel s)) (v3m g (sp_acc s)) v3zero (sp_att s) (sp_m s).
Definition flm (f g : F -> F) (s : floatj F) : floatj F := FL (fl_dis s) (v6m f (fl_vel s)) (v6m g (fl_acc s)) v6zero (fl_att s).
Definition jmap (f g : F -> F) (j : joint F) : joint F :=
  match j with
  | JFixed => JFixed
  | JRevol r => JRevol (RV (axm f g (rv_a r)) (rv_s r) (rv_c r) (rv_m r))
  | JPrism p => JPrism (PR (axm f g (pr_a p)) (pr_m p))
  | JCylin c => JCylin (CY (axm f g (cy_0 c)) (axm f g (cy_1 c)) (cy_s c) (cy_c c) (cy_m c))
  | JHooke h => JHooke (HK (axm f g (hk_0 h)) (axm f g (hk_1 h)) (hk_s0 h) (hk_c0 h) (hk_s1 h) (hk_c1 h) (hk_m h))
  | JSpher s => JSpher (spm f g s)
  | JFloat s => JFloat (flm f g s)
  | JBrFloat s a b => JBrFloat (flm f g s) a b
  end.
Definition nil0 : F -> F := fun _ => 0.
(** Everything of a link but rates, wrench and external forces. *)
Definition posture (l : lk) : lk :=
  let b := l_body l in Link (l_name l) (jmap nil0 nil0 (l_joint l)) (Body (b_mp b) (b_frame b) v6zero v6zero (b_wcom b) v3zero v3zero [] (b_shapes b) (b_stuff b)) (l_offset l) (l_org l) (l_adj l) v6zero (l_parent l) (l_child l) (l_sibl l).
Definition pushed (q : F) (l l' : lk) : Prop := wl_net (b_extw (l_body l')) = v6scale q (wl_net (b_extw (l_body l))).
Definition same_posture (q : F) (l l' : lk) : Prop := posture l = posture l' /\ pushed q l l'.
Definition jtempo (k : F) (j j' : joint F) : Prop := jmap (nmul k) (nmul (k * k)) j = jmap id id j'.
Definition tempo (k : F) (l l' : lk) : Prop := same_posture (k * k) l l' /\ jtempo k (l_joint l) (l_joint l').

(** ** Setting the rates *)
Lemma set_tempo k (j j' j1 j2 : joint F) v a : jmap nil0 nil0 j = jmap nil0 nil0 j' -> joint_set_vel j v = Some j1 -> joint_set_acc j1 a = Some j2 ->
  exists j1' j2', joint_set_vel j' (map (nmul k) v) = Some j1' /\ joint_set_acc j1' (map (nmul (k * k)) a) = Some j2' /\ jtempo k j2 j2' /\ jmap nil0 nil0 j2 = jmap nil0 nil0 j2'.
Proof.
  unfold jtempo, joint_set_vel, joint_set_acc. intros Q A B.
  destruct j, j'; try discriminate Q; cbn [joint_set_gen] in A.
  all: repeat match goal with s : spher F |- _ => destruct s | s : floatj F |- _ => destruct s | r : revol F |- _ => destruct r | p : prism F |- _ => destruct p | c : cylin F |- _ => destruct c | h : hooke F |- _ => destruct h end.
  all: repeat match goal with x : ax1 F |- _ => destruct x end.
  all: do 6 (try (destruct v as [|? v])); try discriminate A; cbn in A; injection A as <-.
  all: cbn [joint_set_gen] in B; do 6 (try (destruct a as [|? a])); try discriminate B; cbn in B; injection B as <-.
  all: do 2 eexists; (split; [cbn; reflexivity|]); (split; [cbn; reflexivity|]); cbn in Q |- *; unfold axm, spm, flm, v3m, v6m, id, nil0 in *; cbn in Q |- *.
  all: split; try (injection Q; intros; subst); reflexivity.
Qed.
Lemma posture_refs l l' : posture l = posture l' -> l_parent l = l_parent l' /\ l_child l = l_child l' /\ l_sibl l = l_sibl l'.
Proof. intros S. repeat split; [exact (f_equal l_parent S)|exact (f_equal l_child S)|exact (f_equal l_sibl S)]. Qed.
Lemma posture_joint l l' : posture l = posture l' -> jmap nil0 nil0 (l_joint l) = jmap nil0 nil0 (l_joint l').
Proof. intros S. exact (f_equal l_joint S). Qed.
Lemma posture_set j j' l l' : posture l = posture l' -> jmap nil0 nil0 j = jmap nil0 nil0 j' -> posture (l_set_joint j l) = posture (l_set_joint j' l').
Proof. intros S Q. transitivity (l_set_joint (jmap nil0 nil0 j) (posture l)); [reflexivity|]. rewrite S, Q. reflexivity. Qed.
Definition unplaced (l : lk) : Prop := l_offset l = None -> l_joint l = JFixed.
Lemma placed_unplaced s (h : list lk) : set_offsets s h = h -> Forall unplaced h.
Proof.
  revert s. induction h as [|l t IH]; intros s Q; [constructor|]. cbn [set_offsets] in Q. destruct (Nat.ltb_spec 0 (joint_size (l_joint l))) as [B|B]; injection Q as Q1 Q2; constructor.
  - intros O. rewrite <- Q1 in O. discriminate O.
  - eauto.
  - intros _. destruct (l_joint l); cbn in B; try lia. reflexivity.
  - eauto.
Qed.
Lemma set_rate_tempo k (h h' : list lk) v a h1 : Forall unplaced h -> Forall2 (same_posture (k * k)) h h' -> set_rate_all h v a = Some h1 ->
  exists k1, set_rate_all h' (map (nmul k) v) (map (nmul (k * k)) a) = Some k1 /\ Forall2 (tempo k) h1 k1.
Proof.
  intros U R. revert U h1. induction R as [|l l' t t' [S P] R IH]; intros U h1 A; cbn [set_rate_all] in *; [injection A as <-; eexists; split; [reflexivity|constructor]|].
  inversion U as [|? ? U1 U2]; subst. rewrite <- (f_equal l_offset S : l_offset l = l_offset l'). destruct (l_offset l) as [o|] eqn:O.
  - destruct (joint_set_vel (l_joint l) (skipn o v)) as [j1|] eqn:V1; [|discriminate]. cbn [obind] in A. destruct (joint_set_acc j1 (skipn o a)) as [j2|] eqn:V2; [|discriminate]. cbn [obind] in A. destruct (set_rate_all t v a) as [t1|]; [|discriminate]. injection A as <-.
    destruct (set_tempo k _ _ _ _ _ _ (posture_joint _ _ S) V1 V2) as (j1' & j2' & W1 & W2 & T & J). rewrite !skipn_map, W1. cbn [obind]. rewrite W2. cbn [obind]. destruct (IH U2 t1 eq_refl) as (k1 & -> & R1). eexists. split; [reflexivity|]. constructor; [|exact R1].
    split; [|exact T]. split; [|exact P]. now apply posture_set.
  - destruct (set_rate_all t v a) as [t1|]; [|discriminate]. injection A as <-. destruct (IH U2 t1 eq_refl) as (k1 & -> & R1). eexists. split; [reflexivity|]. constructor; [|exact R1]. split; [split; assumption|].
    pose proof (posture_joint _ _ S) as J. rewrite (U1 O) in *. destruct (l_joint l'); try discriminate J. reflexivity.
Qed.

(** ** The rate pass *)
Definition run_at (k : F) (l l' : lk) : Prop := tempo k l l' /\ l_vel l' = v6scale k (l_vel l) /\ l_acc l' = v6scale (k * k) (l_acc l) /\
  b_comvel (l_body l') = v3scale k (b_comvel (l_body l)) /\ b_comacc (l_body l') = v3scale (k * k) (b_comacc (l_body l)).
Lemma inc_vel_tempo k j j' v : jtempo k j j' -> joint_inc_vel j' (v6scale k v) = v6scale k (joint_inc_vel j v).
Proof.
  intros T. transitivity (joint_inc_vel (jmap id id j') (v6scale k v)); [destruct j'; try reflexivity; destruct f as [? [[] []] ? ? ?] || destruct s as [? [] ? ? ? ?]; reflexivity|]. rewrite <- T. clear T j'.
  destruct j; cbn [jmap joint_inc_vel].
  all: repeat match goal with s : spher F |- _ => destruct s | s : floatj F |- _ => destruct s | r : revol F |- _ => destruct r | p : prism F |- _ => destruct p | c : cylin F |- _ => destruct c | h : hooke F |- _ => destruct h end.
  all: repeat match goal with x : ax1 F |- _ => destruct x end.
  all: unfold add_ang, hooke_vec, axm, spm, flm, v6m, v3m; cbn -[nmul nadd nopp nsub m3tv m3tv6 v6add v6scale]; clear - L; vring.
Qed.
Lemma inc_acc_tempo k j j' w a : jtempo k j j' -> joint_inc_acc j' (joint_inc_acc_on_vel j' (v3scale k w) (v6scale (k * k) a)) = v6scale (k * k) (joint_inc_acc j (joint_inc_acc_on_vel j w a)).
Proof.
  intros T. transitivity (joint_inc_acc (jmap id id j') (joint_inc_acc_on_vel (jmap id id j') (v3scale k w) (v6scale (k * k) a))); [destruct j'; try reflexivity; destruct f as [? [[] []] [[] []] ? ?] || destruct s as [? [] [] ? ? ?]; reflexivity|]. rewrite <- T. clear T j'.
  destruct j; cbn [jmap joint_inc_acc joint_inc_acc_on_vel].
  all: repeat match goal with s : spher F |- _ => destruct s | s : floatj F |- _ => destruct s | r : revol F |- _ => destruct r | p : prism F |- _ => destruct p | c : cylin F |- _ => destruct c | h : hooke F |- _ => destruct h end.
  all: repeat match goal with x : ax1 F |- _ => destruct x end.
  all: unfold add_ang, hooke_vec, axm, spm, flm, v6m, v3m; cbn -[nmul nadd nopp nsub m3tv m3tv6 v6add v6scale v3cross]; clear - L; vring.
Qed.
Lemma rate_tempo k l l' (p q p' q' : vec6 F) : tempo k l l' -> p' = v6scale k p -> q' = v6scale (k * k) q -> run_at k (upd_rate l (p, q)) (upd_rate l' (p', q')).
Proof.
  intros [[S P] T] -> ->. unfold run_at.
  assert (AD : l_adj l' = l_adj l) by exact (eq_sym (f_equal l_adj S)). assert (CM : mp_com (b_mp (l_body l')) = mp_com (b_mp (l_body l))) by exact (eq_sym (f_equal (fun l => mp_com (b_mp (l_body l))) S)).
  assert (V : l_vel (upd_rate l' (v6scale k p, v6scale (k * k) q)) = v6scale k (l_vel (upd_rate l (p, q)))).
  { change (joint_inc_vel (l_joint l') (xform6lin (l_adj l') (v6scale k p)) = v6scale k (joint_inc_vel (l_joint l) (xform6lin (l_adj l) p))). rewrite AD, <- (inc_vel_tempo k _ _ _ T). f_equal. generalize (l_adj l) p. clear - L. vring. }
  assert (A : l_acc (upd_rate l' (v6scale k p, v6scale (k * k) q)) = v6scale (k * k) (l_acc (upd_rate l (p, q)))).
  { pose (sh := fun (a : frame F) (p q : vec6 F) => m3tv6 (fatt a) (V6 (v3add (vlin (v6linshift q (fpos a))) (v3cross (vang p) (v3cross (vang p) (fpos a)))) (vang (v6linshift q (fpos a))))).
    change (joint_inc_acc (l_joint l') (joint_inc_acc_on_vel (l_joint l') (vang (l_vel (upd_rate l' (v6scale k p, v6scale (k * k) q)))) (sh (l_adj l') (v6scale k p) (v6scale (k * k) q))) =
      v6scale (k * k) (joint_inc_acc (l_joint l) (joint_inc_acc_on_vel (l_joint l) (vang (l_vel (upd_rate l (p, q)))) (sh (l_adj l) p q)))).
    rewrite V, AD, <- (inc_acc_tempo k _ _ _ _ T). do 2 f_equal. unfold sh. generalize (l_adj l) p q. clear - L. vring. }
  split; [split; [split|]|].
  - transitivity (posture l); [reflexivity|]. rewrite S. reflexivity.
  - exact P.
  - exact T.
  - split; [exact V|]. split; [exact A|]. split.
    + change (v3add (vlin (l_vel (upd_rate l' (v6scale k p, v6scale (k * k) q)))) (v3cross (vang (l_vel (upd_rate l' (v6scale k p, v6scale (k * k) q)))) (mp_com (b_mp (l_body l')))) =
        v3scale k (v3add (vlin (l_vel (upd_rate l (p, q)))) (v3cross (vang (l_vel (upd_rate l (p, q)))) (mp_com (b_mp (l_body l)))))).
      rewrite V, CM. generalize (l_vel (upd_rate l (p, q))) (mp_com (b_mp (l_body l))). clear - L. vring.
    + pose (ca := fun (v a : vec6 F) (c : vec3 F) => v3add (v3add (v3triple (vang v) (vang v) c) (v3cross (vang a) c)) (vlin a)).
      change (ca (l_vel (upd_rate l' (v6scale k p, v6scale (k * k) q))) (l_acc (upd_rate l' (v6scale k p, v6scale (k * k) q))) (mp_com (b_mp (l_body l'))) =
        v3scale (k * k) (ca (l_vel (upd_rate l (p, q))) (l_acc (upd_rate l (p, q))) (mp_com (b_mp (l_body l))))).
      rewrite V, A, CM. unfold ca. generalize (l_vel (upd_rate l (p, q))) (l_acc (upd_rate l (p, q))) (mp_com (b_mp (l_body l))). clear - L. unfold v3triple. vring.
Qed.
Definition at2 (R : lk -> lk -> Prop) (h h' : list lk) (i : nat) : Prop := exists l l', nth_error h i = Some l /\ nth_error h' i = Some l' /\ R l l'.
Lemma F2_at2 (R : lk -> lk -> Prop) h h' : Forall2 R h h' -> forall i, (i < length h)%nat -> at2 R h h' i.
Proof. induction 1 as [|a b h h' Q R2 IH]; intros i Hi; cbn in Hi; [lia|]. destruct i as [|i]; [exists a, b; repeat split; assumption|]. apply IH. lia. Qed.
Lemma at2_F2 (R : lk -> lk -> Prop) h h' : length h' = length h -> (forall i, (i < length h)%nat -> at2 R h h' i) -> Forall2 R h h'.
Proof.
  revert h'. induction h as [|a h IH]; intros [|b h'] Q H; try discriminate Q; constructor.
  - destruct (H 0%nat) as (x & y & A & B & C); [cbn; lia|]. cbn in A, B. congruence.
  - apply IH; [now injection Q|]. intros i Hi. apply (H (S i)). cbn; lia.
Qed.
Notation par := (fun l : lk => (l_vel l, l_acc l)).
Lemma solved_tempo k (h h' hh hh' : list lk) f : (forall i, In i (ids f) -> at2 (tempo k) h h' i) ->
  forall p q p' q', p' = v6scale k p -> q' = v6scale (k * k) q -> solved upd_rate par h hh f (p, q) -> solved upd_rate par h' hh' f (p', q') -> forall i, In i (ids f) -> at2 (run_at k) hh hh' i.
Proof.
  induction f as [|j c IHc r IHr]; intros T p q p' q' PP QQ S S'; [intros i []|]. cbn [solved] in S, S'. destruct S as (l & A1 & A2 & A3 & A4), S' as (l' & B1 & B2 & B3 & B4).
  destruct (T j (or_introl eq_refl)) as (x & y & Q1 & Q2 & TE). replace x with l in * by congruence. replace y with l' in * by congruence. pose proof (rate_tempo k l l' p q p' q' TE PP QQ) as R.
  intros i [<-|Hi]; [exists (upd_rate l (p, q)), (upd_rate l' (p', q')); repeat split; try assumption; apply R|]. apply in_app_or in Hi. destruct Hi as [Hi|Hi].
  - refine (IHc _ _ _ _ _ _ _ A3 B3 i Hi); [|apply R..]. intros m Hm. apply T. right. apply in_or_app. now left.
  - refine (IHr _ _ _ _ _ PP QQ A4 B4 i Hi). intros m Hm. apply T. right. apply in_or_app. now right.
Qed.
Lemma tempo_refs k l l' : tempo k l l' -> same_refs l_parent l_child l_sibl l l'.
Proof. intros [[S _] _]. exact (posture_refs _ _ S). Qed.
Lemma rates_tempo k g (h h' : list lk) : well_formed h -> Forall2 (tempo k) h h' ->
  exists hh hh', update_rate (S (length h)) h 0 (v6zero, grav g) = Some hh /\ update_rate (S (length h')) h' 0 (v6zero, grav (k * k * g)) = Some hh' /\ Forall2 (run_at k) hh hh' /\ well_formed hh.
Proof.
  intros W R. assert (W' : well_formed h') by (eapply wf_of_refs; [|exact W]; clear W; induction R; constructor; [now apply (tempo_refs k)|assumption]). pose proof (Forall2_len _ _ _ R) as LN.
  destruct (walk_down_wf upd_rate par h (v6zero, grav g) (S (length h))) as (hh & A & LA & SA & DA); [repeat split|exact W|lia|]. destruct (walk_down_wf upd_rate par h' (v6zero, grav (k * k * g)) (S (length h'))) as (hh' & B & LB & SB & _); [repeat split|exact W'|lia|].
  exists hh, hh'. split; [exact A|]. split; [exact B|]. destruct W as [t T]. split.
  - assert (T' : tree_of h' t) by (apply (well_formed_refs h h' (eq_sym LN)); [|exact T]; intros i l Hl; destruct (F2_at2 _ _ _ R i) as (x & y & Q1 & Q2 & TE); [apply nth_error_Some; congruence|]; replace x with l in * by congruence; exists y; split; [exact Q2|exact (tempo_refs k _ _ TE)]).
    apply at2_F2; [congruence|]. intros i Hi. rewrite LA in Hi. refine (solved_tempo k h h' hh hh' (FCons 0 t FNil) _ _ _ _ _ _ _ (SA t T) (SB t T') i _).
    + intros j Hj. apply (F2_at2 _ _ _ R). apply (tree_in _ _ _ T). exact Hj.
    + clear - L. vring.
    + unfold grav. clear - L. vring.
    + apply (tree_in _ _ _ T). exact Hi.
  - exists t. apply (well_formed_refs h hh LA); [|exact T]. intros i l Hl. destruct (DA i l Hl) as (p & Hp & _). eexists. split; [exact Hp|repeat split].
Qed.

(** ** The wrench pass *)
Definition driven (k : F) (l l' : lk) : Prop := l_name l' = l_name l /\ l_frame l' = l_frame l /\ l_adj l' = l_adj l /\ l_offset l' = l_offset l /\ b_mp (l_body l') = b_mp (l_body l) /\
  l_vel l' = v6scale k (l_vel l) /\ l_acc l' = v6scale (k * k) (l_acc l) /\ b_comvel (l_body l') = v3scale k (b_comvel (l_body l)) /\ b_comacc (l_body l') = v3scale (k * k) (b_comacc (l_body l)) /\
  l_wrench l' = v6scale (k * k) (l_wrench l) /\ joint_get_trq (l_joint l') = map (nmul (k * k)) (joint_get_trq (l_joint l)).
Lemma trq_tempo k j j' w : jtempo k j j' -> joint_get_trq (joint_calc_trq j' (v6scale (k * k) w)) = map (nmul (k * k)) (joint_get_trq (joint_calc_trq j w)).
Proof.
  intros T. transitivity (joint_get_trq (joint_calc_trq (jmap id id j') (v6scale (k * k) w))); [destruct j'; reflexivity|]. rewrite <- T. clear T j'.
  destruct j; cbn [jmap joint_calc_trq].
  all: repeat match goal with s : spher F |- _ => destruct s | s : floatj F |- _ => destruct s | r : revol F |- _ => destruct r | p : prism F |- _ => destruct p | c : cylin F |- _ => destruct c | h : hooke F |- _ => destruct h end.
  all: unfold joint_get_trq; cbn -[nmul nadd nopp nsub m3v m3v6]; unfold l6, l3; try match goal with m : mat3 F |- _ => destruct m as [[? ? ?] [? ? ?] [? ? ?]] end; destruct w as [[? ? ?] [? ? ?]]; vunfold; cbn -[nmul nadd nopp nsub]; clear - L; repeat (apply cons2; [ring|]); reflexivity.
Qed.
Lemma fold_driven k hh hh' is : (forall i, In i is -> at2 (driven k) hh hh' i) -> forall w w', w' = v6scale (k * k) w ->
  fold_left (fun w c => v6add w (xform6ang (l_adj c) (l_wrench c))) (pick hh' is) w' = v6scale (k * k) (fold_left (fun w c => v6add w (xform6ang (l_adj c) (l_wrench c))) (pick hh is) w).
Proof.
  induction is as [|i t IH]; intros H w w' Q; [exact Q|]. cbn [pick]. destruct (H i (or_introl eq_refl)) as (a & d & -> & -> & D). cbn [fold_left]. apply IH; [intros; apply H; now right|].
  destruct D as (_ & _ & -> & _ & _ & _ & _ & _ & _ & -> & _). rewrite Q. generalize (l_adj a) (l_wrench a) w. clear - L. vring.
Qed.
Lemma post_driven k a d ca cd hh hh' is : run_at k a d -> ca = pick hh is -> cd = pick hh' is -> (forall i, In i is -> at2 (driven k) hh hh' i) -> driven k (wr_post (wr_pre a) ca) (wr_post (wr_pre d) cd).
Proof.
  intros (([S P] & T) & V & A & CV & CA) -> -> H.
  assert (M : b_mp (l_body d) = b_mp (l_body a)) by exact (eq_sym (f_equal (fun l => b_mp (l_body l)) S)).
  assert (W : l_wrench (wr_post (wr_pre d) (pick hh' is)) = v6scale (k * k) (l_wrench (wr_post (wr_pre a) (pick hh is)))).
  { unfold wr_post. cbn [l_wrench l_set_joint l_set_wrench]. rewrite (fold_driven k hh hh' is H (l_wrench (wr_pre a))).
    - change (body_ext_wrench (l_body (wr_pre d))) with (wl_net (b_extw (l_body d))). change (body_ext_wrench (l_body (wr_pre a))) with (wl_net (b_extw (l_body a))). rewrite P.
      generalize (wl_net (b_extw (l_body a))). set (fa := fold_left _ _ (l_wrench (wr_pre a))). generalize fa. clear - L. vring.
    - unfold wr_pre. cbn [l_wrench l_set_wrench]. unfold body_net_wrench. change (b_vel (l_body d)) with (l_vel d). change (b_acc (l_body d)) with (l_acc d). change (b_vel (l_body a)) with (l_vel a). change (b_acc (l_body a)) with (l_acc a).
      unfold l_com. rewrite V, A, CA, M. generalize (l_vel a) (l_acc a) (b_comacc (l_body a)) (b_mp (l_body a)). clear - L. intros v0 a0 c0 [m c J]. cbn [mp_mass mp_com mp_inertia]. vring. }
  split; [exact (eq_sym (f_equal l_name S))|]. split; [exact (eq_sym (f_equal l_frame S))|]. split; [exact (eq_sym (f_equal l_adj S))|]. split; [exact (eq_sym (f_equal l_offset S))|]. split; [exact M|].
  split; [exact V|]. split; [exact A|]. split; [exact CV|]. split; [exact CA|]. split; [exact W|].
  change (l_joint (wr_post (wr_pre d) (pick hh' is))) with (joint_calc_trq (l_joint d) (l_wrench (wr_post (wr_pre d) (pick hh' is)))).
  change (l_joint (wr_post (wr_pre a) (pick hh is))) with (joint_calc_trq (l_joint a) (l_wrench (wr_post (wr_pre a) (pick hh is)))).
  rewrite W. now apply trq_tempo.
Qed.
Lemma solved_driven k h h' hh hh' f : (forall i, In i (ids f) -> at2 (run_at k) h h' i) -> solved_up wr_pre wr_post h hh f -> solved_up wr_pre wr_post h' hh' f -> forall i, In i (ids f) -> at2 (driven k) hh hh' i.
Proof.
  induction f as [|j c IHc r IHr]; intros T S S'; [intros i []|]. cbn [solved_up] in S, S'. destruct S as (a & A1 & A2 & A3 & A4), S' as (d & D1 & D2 & D3 & D4).
  assert (K : forall i, In i (ids c) -> at2 (driven k) hh hh' i) by (apply IHc; try assumption; intros; apply T; right; apply in_or_app; now left).
  intros i [<-|Hi].
  - destruct (T j (or_introl eq_refl)) as (x & y & Q1 & Q2 & R). replace x with a in * by congruence. replace y with d in * by congruence. do 2 eexists. split; [exact A2|]. split; [exact D2|]. eapply post_driven; [exact R|reflexivity..|]. intros i Hi. apply K. now apply roots_ids.
  - apply in_app_or in Hi. destruct Hi as [Hi|Hi]; [now apply K|]. apply IHr; try assumption. intros; apply T; right; apply in_or_app; now right.
Qed.
Lemma wrench_driven k (h h' : list lk) : well_formed h -> Forall2 (run_at k) h h' ->
  exists hh hh', update_wrench (S (length h)) h 0 = Some hh /\ update_wrench (S (length h')) h' 0 = Some hh' /\ Forall2 (driven k) hh hh'.
Proof.
  intros [t T] R. pose proof (Forall2_len _ _ _ R) as LN.
  assert (T' : tree_of h' t) by (apply (well_formed_refs h h' (eq_sym LN)); [|exact T]; intros i l Hl; destruct (F2_at2 _ _ _ R i) as (x & y & Q1 & Q2 & TE & _); [apply nth_error_Some; congruence|]; replace x with l in * by congruence; exists y; split; [exact Q2|exact (tempo_refs k _ _ TE)]).
  destruct (walk_up_wf wr_pre wr_post h (S (length h))) as (hh & A1 & A2 & A3 & _); [repeat split|repeat split|now exists t|lia|].
  destruct (walk_up_wf wr_pre wr_post h' (S (length h'))) as (hh' & B1 & B2 & B3 & _); [repeat split|repeat split|now exists t|lia|].
  exists hh, hh'. split; [exact A1|]. split; [exact B1|]. apply at2_F2; [congruence|]. intros i Hi. rewrite A2 in Hi.
  apply (solved_driven k h h' hh hh' (FCons 0 t FNil)); [|now apply A3|now apply B3|apply (tree_in _ _ _ T); exact Hi]. intros j Hj. apply (F2_at2 _ _ _ R). apply (tree_in _ _ _ T). exact Hj.
Qed.

(** ** Theorem *)
Lemma write_map (f : F -> F) (o : nat) (t v : list F) : write_at o (map f t) (map f v) = option_map (map f) (write_at o t v).
Proof. unfold write_at. rewrite !map_length. destruct (Nat.leb (o + length t) (length v)); [|reflexivity]. cbn [option_map]. now rewrite !map_app, firstn_map, skipn_map. Qed.
Lemma get_driven k (h h' : list lk) : Forall2 (driven k) h h' -> forall v, get_all joint_get_trq h' (map (nmul (k * k)) v) = option_map (map (nmul (k * k))) (get_all joint_get_trq h v).
Proof.
  induction 1 as [|a d h h' D R IH]; intros v; [reflexivity|]. cbn [get_all]. destruct D as (_ & _ & _ & -> & _ & _ & _ & _ & _ & _ & ->). destruct (l_offset a) as [o|]; [|apply IH]. rewrite write_map. destruct (write_at o (joint_get_trq (l_joint a)) v); [|reflexivity]. cbn [obind option_map]. apply IH.
Qed.
Lemma zmp_alg (k : F) (w : vec6 F) (d : vec3 F) (s : F) : k <> 0 -> v3dot d (vlin w) <> 0 ->
  v3div (v3cat (v3cross d (vang (v6scale (k * k) w))) s (vlin (v6scale (k * k) w))) (v3dot d (vlin (v6scale (k * k) w))) = v3div (v3cat (v3cross d (vang w)) s (vlin w)) (v3dot d (vlin w)).
Proof.
  intros KN FN. replace (v3dot d (vlin (v6scale (k * k) w))) with (k * k * v3dot d (vlin w)) by (generalize d w; clear - L; vring).
  replace (v3cat (v3cross d (vang (v6scale (k * k) w))) s (vlin (v6scale (k * k) w))) with (v3scale (k * k) (v3cat (v3cross d (vang w)) s (vlin w))) by (generalize d w; clear - L; vring).
  generalize (v3cat (v3cross d (vang w)) s (vlin w)). revert FN. generalize (v3dot d (vlin w)). clear - L KN. intros f FN [x y z]. unfold v3div, v3scale. cbn [vx vy vz]. f_equal; field; auto.
Qed.
Theorem C110_tempo : forall (k g : F) (c c2 d : chain F) vel acc, well_formed (c_links c) -> offsets_set c -> Forall2 (same_posture (k * k)) (c_links c) (c_links d) -> c_mass d = c_mass c ->
  chain_id g c vel acc = Some c2 ->
  exists d2, chain_id (k * k * g) d (map (nmul k) vel) (map (nmul (k * k)) acc) = Some d2 /\ Forall2 (driven k) (c_links c2) (c_links d2) /\
    (forall v, chain_get_joint_trq_all d2 (map (nmul (k * k)) v) = option_map (map (nmul (k * k))) (chain_get_joint_trq_all c2 v)) /\
    c_comvel d2 = v3scale k (c_comvel c2) /\ c_comacc d2 = v3scale (k * k) (c_comacc c2) /\ (forall p, chain_am d2 p = v3scale k (chain_am c2 p)) /\ chain_ke d2 = k * k * chain_ke c2 /\
    (forall z p q, k <> 0 -> chain_zmp c2 z = Some (Some p) -> chain_zmp d2 z = Some (Some q) -> q = p).
Proof.
  intros k g c c2 d vel acc W O R M A. rewrite id_split in *. unfold rates, chain_set_joint_rate_all in *.
  destruct (set_rate_all (c_links c) vel acc) as [h1|] eqn:Q; [|discriminate]. destruct (set_rate_tempo k _ _ _ _ _ (placed_unplaced 0 _ (offsets_placed _ O)) R Q) as (k1 & -> & R1). cbn [option_map obind] in *.
  pose proof (set_rate_wf _ _ _ _ Q W) as W1. unfold chain_update_rate, chain_update_wrench, chain_lift, c_fuel in *. cbn [c_links c_set_links] in *.
  destruct (rates_tempo k g h1 k1 W1 R1) as (h2 & k2 & A2 & B2 & R2 & W2). rewrite A2 in A. rewrite B2. cbn [option_map obind c_links c_set_links] in *.
  destruct (wrench_driven k h2 k2 W2 R2) as (h3 & k3 & A3 & B3 & R3). rewrite A3 in A. rewrite B3. cbn [option_map] in *. injection A as <-. eexists. split; [reflexivity|].
  unfold chain_get_joint_trq_all, chain_am, chain_ke, chain_zmp, c_root. cbn [c_links c_mass c_set_links chain_calc_comacc chain_calc_comvel c_comvel c_comacc c_wcom]. rewrite M. clear - R3 L X.
  split; [exact R3|]. split; [apply get_driven; exact R3|]. split; [|split; [|split; [|split]]].
  - assert (Z : v3zero = v3scale k v3zero :> vec3 F) by (clear - L; vring). rewrite Z at 1. clear Z. generalize (v3zero : vec3 F). induction R3 as [|a b h h' D R IH]; intros z; [reflexivity|]. cbn [fold_left]. rewrite <- IH. f_equal.
    destruct D as (_ & FR & _ & _ & MP & _ & _ & CV & _). unfold l_mass. rewrite FR, MP, CV. generalize (mp_mass (b_mp (l_body a)) / c_mass c) (fatt (l_frame a)) (b_comvel (l_body a)) z. clear - L. vring.
  - assert (Z : v3zero = v3scale (k * k) v3zero :> vec3 F) by (clear - L; vring). rewrite Z at 1. clear Z. generalize (v3zero : vec3 F). induction R3 as [|a b h h' D R IH]; intros z; [reflexivity|]. cbn [fold_left]. rewrite <- IH. f_equal.
    destruct D as (_ & FR & _ & _ & MP & _ & _ & _ & CV & _). unfold l_mass. rewrite FR, MP, CV. generalize (mp_mass (b_mp (l_body a)) / c_mass c) (fatt (l_frame a)) (b_comacc (l_body a)) z. clear - L. vring.
  - intros p. assert (Z : v3zero = v3scale k v3zero :> vec3 F) by (clear - L; vring). rewrite Z at 1. clear Z. generalize (v3zero : vec3 F). induction R3 as [|a b h h' D R IH]; intros z; [reflexivity|]. cbn [fold_left]. rewrite <- IH. f_equal.
    destruct D as (_ & FR & _ & _ & MP & VE & _ & CV & _). unfold body_am. change (b_vel (l_body b)) with (l_vel b). change (b_vel (l_body a)) with (l_vel a). rewrite FR, MP, CV, VE. generalize (xforminv (l_frame a) p) (fatt (l_frame a)) (b_comvel (l_body a)) z (b_mp (l_body a)) (l_vel a). clear - L. intros p0 R0 v0 z0 [m c0 J] w0. cbn [mp_mass mp_com mp_inertia]. vring.
  - assert (Z : 0 = k * k * 0) by (clear - L; ring). rewrite Z at 1. clear Z. generalize (0 : F). induction R3 as [|a b h h' D R IH]; intros z; [reflexivity|]. cbn [fold_left]. rewrite <- IH. f_equal.
    destruct D as (_ & _ & _ & _ & MP & VE & _ & CV & _). unfold body_ke. change (b_vel (l_body b)) with (l_vel b). change (b_vel (l_body a)) with (l_vel a). rewrite MP, CV, VE. generalize (b_comvel (l_body a)) z (b_mp (l_body a)) (l_vel a) (1 / n2 : F). clear - L. intros v0 z0 [m c0 J] w0 n. cbn [mp_mass mp_com mp_inertia]. vring.
  - intros z p q KN P1 P2. destruct R3 as [|a b h h' D R]; [discriminate|]. cbn [nth_error option_map] in *. destruct D as (_ & FR & _ & _ & _ & _ & _ & _ & _ & WR & _). unfold gravity_dir in *. rewrite FR, WR in P2. injection P1 as P1. injection P2 as P2.
    set (f := v3dot (m3row2 (fatt (l_frame a))) (vlin (l_wrench a))) in *.
    destruct (ntiny x_tol f) eqn:TF; [discriminate|]. injection P1 as <-. destruct (ntiny x_tol _) in P2; [discriminate|]. injection P2 as <-. f_equal.
    assert (FN : f <> 0) by (intros Z; rewrite Z, ntiny_0 in TF; discriminate).
    apply zmp_alg; assumption.
Qed.
(** After forward kinematics, without external forces. *)
Theorem C110_motion : forall (k g : F) (c c1 c2 : chain F) dis vel acc, usable c -> Forall (fun l => b_extw (l_body l) = []) (c_links c) -> chain_fk c dis = Some c1 -> chain_id g c1 vel acc = Some c2 ->
  exists d2, chain_id (k * k * g) c1 (map (nmul k) vel) (map (nmul (k * k)) acc) = Some d2 /\ Forall2 (driven k) (c_links c2) (c_links d2) /\
    (forall v, chain_get_joint_trq_all d2 (map (nmul (k * k)) v) = option_map (map (nmul (k * k))) (chain_get_joint_trq_all c2 v)) /\ chain_ke d2 = k * k * chain_ke c2.
Proof.
  intros k g c c1 c2 dis vel acc U NE A B. destruct (fk_peq c c1 c dis (proj1 U) (peq_refl_all _) A) as (c1' & A' & _ & OW & _). rewrite A in A'. injection A' as <-.
  assert (NE1 : Forall (fun l => b_extw (l_body l) = []) (c_links c1)).
  { apply Forall_forall. intros l Hl. apply (in_map own) in Hl. rewrite OW in Hl. apply in_map_iff in Hl. destruct Hl as (l0 & Q & H0). apply (f_equal snd) in Q. cbn [own snd] in Q. rewrite <- Q. exact (proj1 (Forall_forall _ _) NE l0 H0). }
  unfold chain_fk in A. destruct (chain_set_joint_dis_all c dis) as [c0|] eqn:Q; [|discriminate]. cbn [obind] in A. pose proof (usable_fk c0 c1 (usable_set c c0 dis U Q) A) as (W & O & _).
  destruct (C110_tempo k g c1 c2 c1 vel acc W O) as (d2 & D1 & D2 & D3 & _ & _ & _ & D4 & _); [|reflexivity|exact B|now exists d2].
  clear - NE1 L. induction NE1 as [|l h Hl R IH]; constructor; [|exact IH]. split; [reflexivity|]. unfold pushed. rewrite Hl. change (wl_net []) with (v6zero : vec6 F). clear - L. vring.
Qed.
End Tempo.

(** ** Concrete cases *)
Definition twice (c : chain Qc) : option (chain Qc) := obind (chain_fk c mdis) (fun c1 => chain_id (qz 40) c1 (map (nmul (qz 2)) mvel) (map (nmul (qz 4)) macc)).
Definition weightless (k : Z) (c : chain Qc) : option (chain Qc) := obind (chain_fk c mdis) (fun c1 => chain_id (qz 0) c1 (map (nmul (qz k)) mvel) (map (nmul (qz (k * k))) macc)).
(** Torques of [mech] at the first tempo are in [C105_ex]. *)
Example C110_ex_twice : exists c, twice mech = Some c /\ [trq_of c] = zq [[60; 80; 20; 352; -20; 128; 108; -88; 0; 0; -12; 40]]%Z.
Proof. apply (some_exq _ (fun c => [trq_of c])). vm_compute. reflexivity. Qed.
(** Without gravity; backwards at three times the speed. *)
Example C110_ex_weightless : exists c, weightless 1 mech = Some c /\ [trq_of c] = zq [[15; 20; -65; 288; 45; 32; 57; -22; 0; 0; -3; 10]]%Z.
Proof. apply (some_exq _ (fun c => [trq_of c])). vm_compute. reflexivity. Qed.
Example C110_ex_backwards : exists c, weightless (-3) mech = Some c /\ [trq_of c] = zq [[135; 180; -585; 2592; 405; 288; 513; -198; 0; 0; -27; 90]]%Z.
Proof. apply (some_exq _ (fun c => [trq_of c])). vm_compute. reflexivity. Qed.
(** The chain meets the hypotheses. *)
Example C110_ex_theorem c1 c2 : chain_fk mech mdis = Some c1 -> chain_id (qz 10) c1 mvel macc = Some c2 -> exists d2, chain_id (nmul (nmul (qz 2) (qz 2)) (qz 10)) c1 (map (nmul (qz 2)) mvel) (map (nmul (nmul (qz 2) (qz 2))) macc) = Some d2 /\ chain_ke d2 = nmul (nmul (qz 2) (qz 2)) (chain_ke c2).
Proof.
  intros A B. destruct mech_boxes as (_ & _ & _ & NE). destruct (C110_motion (qz 2) (qz 10) mech c1 c2 mdis mvel macc (proj1 mech_usable) NE A B) as (d2 & D1 & _ & _ & D4). exists d2. exact (conj D1 D4).
Qed.

Print Assumptions C110_tempo.
Print Assumptions C110_motion.
