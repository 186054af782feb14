(** * Conf_Chain: configurations of chains over the real numbers, without conditions on zMat3DToAA. *)
From Coq Require Import Bool List ZArith Reals Lra Lia.
From Verif Require Import Num NumFacts Vec VecFacts Motor_Model Joint_Model Joint_Spec Joint_Proofs Deriv ExtR Body_Model Tree Tree_Proofs Link_Model
  Link_Spec Link_Proofs Chain_Proofs Link_Properties Kin_Spec Kin_Proofs Jacobi_Proofs Conf_Model Conf_Spec Conf_Proofs Conf_R Conf_Dev.
Import ListNotations.
Local Open Scope R_scope.

(** Angle-axis vectors among the displacement are shorter than a half turn. *)
Definition short_aa (t : jtype) (ds : list R) : Prop :=
  match t, ds with
  | TSpher, [a; b; c] | TFloat, [_; _; _; a; b; c] | TBrFloat, [_; _; _; a; b; c] => a * a + b * b + c * c < PI * PI
  | _, _ => True
  end.
Lemma short_reads_back t ds : short_aa t ds -> reads_back t ds.
Proof.
  destruct t; cbn; auto; repeat (destruct ds as [|? ds]; cbn; auto); intros H; apply (raa_back (V3 _ _ _)); unfold v3sqr; rcomp; exact H.
Qed.
Lemma doc_frame_rotation t ds (f : frame R) : doc_frame t ds = Some f -> rotation (fatt f).
Proof.
  destruct t; cbn; repeat (destruct ds as [|? ds]; try discriminate); intros H; injection H as <-; cbn [fatt fcascade fid trans_z].
  - apply rotation_id.
  - apply (rot_z_rotation (N:=Num_R)).
  - apply rotation_id.
  - apply rotation_mul; [apply (rot_z_rotation (N:=Num_R))|apply rotation_id].
  - apply rotation_mul; [apply (rot_z_rotation (N:=Num_R))|apply (rot_y_rotation (N:=Num_R))].
  - apply raa_rot.
  - apply raa_rot.
  - apply raa_rot.
Qed.
Definition joints_ready (h : list (link R)) : Prop := forall i l, nth_error h i = Some l -> settled (l_joint l) /\ upright (l_joint l).
Lemma ready_R (c c1 : chain R) : well_formed (c_links c) -> orgs_rigid (c_links c) -> chain_update_frame c = Some c1 -> joints_ready (c_links c) -> conf_ready c1.
Proof.
  intros W OR UF JR. destruct (C24_frame_pass c W) as (c1' & A1 & P1 & W1). assert (c1' = c1) by congruence. subst c1'. clear A1.
  pose proof (pass_keeps _ _ P1) as K. pose proof (frames_of_pass _ _ P1) as FO.
  assert (LC : List.length (c_links c1) = List.length (c_links c)) by apply P1.
  assert (KI : forall i l1, nth_error (c_links c1) i = Some l1 -> exists l, nth_error (c_links c) i = Some l /\ l_joint l1 = l_joint l /\ l_org l1 = l_org l).
  { intros i l1 H1. destruct (nth_error (c_links c) i) as [l|] eqn:Hl; [|apply nth_error_None in Hl; pose proof (nth_lt _ _ _ H1); lia].
    destruct (K i l Hl) as (l' & Hl' & EJ & EO & _). assert (l' = l1) by congruence. subst l'. eauto. }
  intros i l1 H1. destruct (KI i l1 H1) as (l & Hl & EJ & EO). destruct (JR i l Hl) as [S U]. rewrite EJ. split; [exact S|]. split; [exact U|].
  split; [|intros _ f DF; apply raa_log; eapply doc_frame_rotation; eauto].
  apply raa_log. destruct (wf_lineage _ i W1 (nth_lt _ _ _ H1)) as (t & LT & _).
  destruct (frames_rigid (c_links c1)) with (i := i) (t := t) as (l' & Hl' & R1 & R2); auto.
  - intros k lx Hx. destruct (KI k lx Hx) as (y & Hy & EY & _). rewrite EY. apply settled_stable. apply (JR k y Hy).
  - intros k lx Hx. destruct (KI k lx Hx) as (y & Hy & _ & EY). rewrite EY. eapply OR; eauto.
  - assert (l' = l1) by congruence. now subst.
Qed.
