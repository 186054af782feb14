(** * Kin_Proofs: forward kinematics and velocities along the lineage of a link. *)
From Coq Require Import List Arith Lia Permutation.
From Verif Require Import Num NumFacts Vec VecFacts Motor_Model Joint_Model Joint_Spec Joint_Proofs Body_Model
  Tree Tree_Proofs Link_Model Link_Spec Link_Proofs Chain_Proofs Link_Properties Kin_Spec.
Import ListNotations.
Local Open Scope nat_scope.

Section Lineage.
Context {F : Type} {N : Num F} {E : Ext F}.
Notation lk := (link F).

Lemma lineage_head (h : list lk) i t : lineage h i t -> exists t', t = i :: t'.
Proof. intros H; destruct H; eauto. Qed.
Lemma lineage_unique (h : list lk) i t : lineage h i t -> forall t', lineage h i t' -> t = t'.
Proof.
  induction 1 as [i l Hl Hp|i l q t Hl Hp _ IH]; intros t' H'; destruct H' as [i l' Hl' Hp'|i l' q' t' Hl' Hp' H']; try congruence.
  assert (q' = q) by congruence. subst. f_equal. auto.
Qed.
Lemma lineage_lt (h : list lk) i t : lineage h i t -> forall k, In k t -> k < length h.
Proof. induction 1 as [i l Hl Hp|i l q t Hl Hp _ IH]; intros k [<-|H]; eauto using nth_lt. destruct H. Qed.
Lemma lineage_suffix (h : list lk) i t : lineage h i t -> forall pre k post, t = pre ++ k :: post -> lineage h k (k :: post).
Proof.
  induction 1 as [i l Hl Hp|i l q t Hl Hp H IH]; intros pre k post EQ.
  - destruct pre as [|x pre]; cbn in EQ; [injection EQ as <- <-; econstructor; eauto|]. destruct pre; discriminate.
  - destruct pre as [|x pre]; cbn in EQ; [injection EQ as <- <-; eapply lineage_step; eauto|]. injection EQ as <- EQ. eauto.
Qed.
Lemma rep_lineage (h : list lk) f : forall p o t, lrep h p o f -> NoDup (ids f) ->
  match p with None => t = [] | Some q => lineage h q t end -> NoDup t -> (forall x, In x t -> ~ In x (ids f)) ->
  forall i, In i (ids f) -> exists t', lineage h i (t' ++ t) /\ NoDup (t' ++ t).
Proof.
  induction f as [|j k IHk r IHr]; intros p o t R ND LP NT DJ i Hi; [destruct Hi|].
  destruct R as (-> & l & Hl & Hp & Rk & Rr). destruct (nodup_split _ _ _ _ eq_refl ND) as (NI1 & NI2 & N1 & N2 & N3). clear ND. cbn [ids] in *.
  assert (LJ : lineage h j (j :: t)).
  { destruct p as [q|]; [eapply lineage_step; eauto|]. subst t. econstructor; eauto. }
  assert (NJ : NoDup (j :: t)) by (constructor; auto; intro; eapply DJ; eauto; now left).
  destruct Hi as [<-|Hi]; [exists [j]; auto|]. apply in_app_or in Hi. destruct Hi as [Hi|Hi].
  - destruct (IHk (Some j) (l_child l) (j :: t) Rk N1 LJ NJ) with (i := i) as (t' & A & B); auto.
    + intros x [<-|Hx] G; [auto|]. apply (DJ x Hx). right. apply in_or_app. auto.
    + exists (t' ++ [j]). rewrite <- app_assoc. auto.
  - apply (IHr p (l_sibl l) t); auto. intros x Hx G. apply (DJ x Hx). right. apply in_or_app. auto.
Qed.
Lemma wf_lineage (h : list lk) i : well_formed h -> i < length h -> exists t, lineage h i t /\ NoDup t /\ length t <= length h.
Proof.
  intros [k T] Hi. pose proof T as [R _]. apply (tree_in h k i T) in Hi. pose proof (tree_nodup h k T) as ND.
  destruct (rep_lineage h _ None (Some 0) [] R ND eq_refl (NoDup_nil _) (fun x H => match H with end) i Hi) as (t & A & B).
  rewrite app_nil_r in *. exists t. split; [exact A|]. split; [exact B|].
  rewrite <- (seq_length (length h) 0). apply NoDup_incl_length; [exact B|]. intros x Hx. apply in_seq. pose proof (lineage_lt _ _ _ A x Hx). lia.
Qed.
Lemma rep_roots (h : list lk) f : forall p o, lrep h p o f -> forall i l, In i (ids f) -> nth_error h i = Some l -> l_parent l = None -> p = None.
Proof.
  induction f as [|j k IHk r IHr]; intros p o R i l Hi Hl HP; [destruct Hi|].
  destruct R as (_ & l' & Hl' & Hp & Rk & Rr). cbn [ids] in Hi. destruct Hi as [<-|Hi]; [congruence|].
  apply in_app_or in Hi. destruct Hi as [Hi|Hi]; [|eauto]. pose proof (IHk _ _ Rk i l Hi Hl HP). discriminate.
Qed.
Lemma wf_root (h : list lk) i l : well_formed h -> nth_error h i = Some l -> (l_parent l = None <-> i = 0).
Proof.
  intros [k T] Hl. pose proof T as [(_ & l0 & H0 & P0 & Rk & _) _]. split.
  - intros HP. pose proof (nth_lt _ _ _ Hl) as Hi. apply (tree_in h k i T) in Hi. cbn [ids] in Hi.
    destruct Hi as [<-|Hi]; auto. rewrite app_nil_r in Hi. pose proof (rep_roots h _ _ _ Rk i l Hi Hl HP). discriminate.
  - intros ->. congruence.
Qed.
(** In a lineage of a tree, only the last link is link 0. *)
Lemma lineage_root_last (h : list lk) i t : well_formed h -> lineage h i t -> exists t', t = t' ++ [0] /\ ~ In 0 t' \/ t = [0].
Proof.
  intros W. induction 1 as [i l Hl Hp|i l q t Hl Hp H IH].
  - apply (wf_root h i l W Hl) in Hp. subst. exists []. auto.
  - assert (i <> 0) by (intros ->; pose proof (proj2 (wf_root h 0 l W Hl) eq_refl); congruence).
    destruct IH as (t' & [[-> NI] | ->]).
    + exists (i :: t'). left. split; [reflexivity|]. intros [G|G]; auto.
    + exists [i]. left. split; [reflexivity|]. intros [G|[]]; auto.
Qed.
Lemma lineage_zero (h : list lk) i t : well_formed h -> lineage h i t -> exists t', t = t' ++ [0] /\ ~ In 0 t'.
Proof.
  intros W H. destruct (lineage_root_last h i t W H) as (t' & [G| ->]); [eauto|]. exists []. auto.
Qed.
Lemma lineage_ext (h h' : list lk) : (forall i l, nth_error h i = Some l -> exists l', nth_error h' i = Some l' /\ l_parent l' = l_parent l) ->
  forall i t, lineage h i t -> lineage h' i t.
Proof.
  intros EX. induction 1 as [i l Hl Hp|i l q t Hl Hp H IH]; destruct (EX i l Hl) as (l' & Hl' & EP).
  - econstructor; eauto; congruence.
  - eapply lineage_step; eauto; congruence.
Qed.
End Lineage.

Section Frames.
Context {F : Type} {N : Num F} {L : NumLaws F N} {E : Ext F} {X : ExtLaws F N E}.
Add Field FField : num_field.
Local Open Scope num_scope.
Notation lk := (link F).

Lemma made_cache (j : joint F) : made j -> cache_ok j.
Proof. intros (t & j0 & ops & A & R). eapply run_cache; [|exact R]. eapply assign_cache; exact A. Qed.
Lemma cache_xform_rigid (j : joint F) fo : cache_ok j -> rigid fo -> rigid (joint_xform j fo).
Proof.
  intros C R. destruct (cache_doc j fo C) as (f & D & H). rewrite H. apply rigid_cascade; auto. eapply doc_frame_rigid; exact D.
Qed.

(** The frames of an array are those of its joints. *)
Definition frames_ok (h : list lk) : Prop := forall i l, nth_error h i = Some l ->
  l_adj l = joint_xform (l_joint l) (l_org l) /\ b_wcom (l_body l) = xform (l_frame l) (l_com l) /\
  match l_parent l with
  | None => l_frame l = fcascade fid (l_adj l)
  | Some q => exists lq, nth_error h q = Some lq /\ l_frame l = fcascade (l_frame lq) (l_adj l)
  end.
Lemma frames_of_pass (h h' : list lk) : processed_down upd_frame l_frame fid h h' -> frames_ok h'.
Proof.
  intros [LE D] i l' Hl'. assert (Hi : (i < length h)%nat) by (rewrite <- LE; eapply nth_lt; eauto).
  destruct (nth_error h i) as [l|] eqn:Hl; [|apply nth_error_None in Hl; lia].
  destruct (D i l Hl) as (p & Hp & C). assert (l' = upd_frame l p) by congruence. subst l'.
  split; [reflexivity|]. split; [reflexivity|]. cbn [l_parent upd_frame l_set_body l_set_adj].
  destruct (l_parent l) as [q|]; [|destruct C as [_ ->]; reflexivity].
  destruct C as (lq & Hq & ->). exists lq. split; [exact Hq|reflexivity].
Qed.
(** What a frame update leaves alone. *)
Lemma pass_keeps (h h' : list lk) : processed_down upd_frame l_frame fid h h' -> forall i l, nth_error h i = Some l ->
  exists l', nth_error h' i = Some l' /\ l_joint l' = l_joint l /\ l_org l' = l_org l /\ l_parent l' = l_parent l /\ l_offset l' = l_offset l
    /\ b_mp (l_body l') = b_mp (l_body l).
Proof. intros [_ D] i l Hl. destruct (D i l Hl) as (p & Hp & _). exists (upd_frame l p). split; [exact Hp|]. repeat split. Qed.

Lemma doc_pose_frames (h : list lk) : (forall i l, nth_error h i = Some l -> cache_ok (l_joint l)) -> frames_ok h ->
  forall i t, lineage h i t -> exists l, nth_error h i = Some l /\ doc_pose h t = Some (l_frame l).
Proof.
  intros CK FR. induction 1 as [i l Hl Hp|i l q t Hl Hp H IH]; exists l; (split; [exact Hl|]).
  - destruct (FR i l Hl) as (A & _ & B). rewrite Hp in B. cbn [doc_pose obind]. unfold obind. rewrite Hl.
    destruct (cache_doc (l_joint l) (l_org l) (CK i l Hl)) as (f & D & J). rewrite D, B, A, J. reflexivity.
  - destruct (FR i l Hl) as (A & _ & B). rewrite Hp in B. destruct B as (lq & Hq & B).
    destruct IH as (lq' & Hq' & IH). assert (lq' = lq) by congruence. subst lq'.
    cbn [doc_pose]. unfold obind. rewrite IH, Hl.
    destruct (cache_doc (l_joint l) (l_org l) (CK i l Hl)) as (f & D & J). rewrite D, B, A, J. reflexivity.
Qed.
Lemma doc_pose_ext (h h' : list lk) t :
  (forall i, In i t -> forall l, nth_error h i = Some l -> exists l', nth_error h' i = Some l' /\ jtype_of (l_joint l') = jtype_of (l_joint l)
    /\ joint_get_dis (l_joint l') = joint_get_dis (l_joint l) /\ l_org l' = l_org l) ->
  (forall i, In i t -> i < length h)%nat -> doc_pose h' t = doc_pose h t.
Proof.
  induction t as [|i t IH]; intros EX LT; [reflexivity|]. cbn [doc_pose]. rewrite IH by (intros; eauto using in_cons). unfold obind.
  destruct (doc_pose h t); [|reflexivity]. destruct (nth_error h i) as [l|] eqn:Hl.
  - destruct (EX i (or_introl eq_refl) l Hl) as (l' & Hl' & A & B & C). rewrite Hl', A, B, C. reflexivity.
  - apply nth_error_None in Hl. pose proof (LT i (or_introl eq_refl)). lia.
Qed.
Lemma frames_rigid (h : list lk) : (forall i l, nth_error h i = Some l -> cache_ok (l_joint l)) -> orgs_rigid h -> frames_ok h ->
  forall i t, lineage h i t -> exists l, nth_error h i = Some l /\ rigid (l_adj l) /\ rigid (l_frame l).
Proof.
  intros CK OR FR. induction 1 as [i l Hl Hp|i l q t Hl Hp H IH]; exists l; (split; [exact Hl|]).
  - destruct (FR i l Hl) as (A & _ & B). rewrite Hp in B. assert (G : rigid (l_adj l)) by (rewrite A; apply cache_xform_rigid; eauto).
    split; [exact G|]. rewrite B. apply rigid_cascade; [apply rigid_id|exact G].
  - destruct (FR i l Hl) as (A & _ & B). rewrite Hp in B. destruct B as (lq & Hq & B).
    destruct IH as (lq' & Hq' & _ & IH). assert (lq' = lq) by congruence. subst lq'.
    assert (G : rigid (l_adj l)) by (rewrite A; apply cache_xform_rigid; eauto).
    split; [exact G|]. rewrite B. apply rigid_cascade; auto.
Qed.
End Frames.
