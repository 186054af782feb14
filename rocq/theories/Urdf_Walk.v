(** * Urdf_Walk: what the correction of frames computes on an evaluated document. *)
From Coq Require Import Bool String List Arith Lia Permutation.
From Verif Require Import Num NumFacts Vec VecFacts Motor_Model Joint_Model Body_Model Tree Tree_Proofs Link_Model Link_Spec Link_Proofs Link_Properties Jacobi_Proofs IK_Model Conf_Model Ztk_Model Ztk_Proofs Ztk_Chain Urdf_Model Urdf_Spec Urdf_Tree Urdf_Doc.
Import ListNotations.

Lemma upd_same {A} (f : nat -> A) i a : upd f i a i = a.
Proof. unfold upd. now rewrite Nat.eqb_refl. Qed.
Lemma upd_other {A} (f : nat -> A) i a j : i <> j -> upd f i a j = f j.
Proof. unfold upd. intros H. destruct (Nat.eqb_spec i j); [contradiction|reflexivity]. Qed.
Lemma upds_other {A} l (g : nat -> A) j : ~ In j l -> forall f, upds f l g j = f j.
Proof.
  unfold upds. induction l as [|a l IH]; intros NI f; [reflexivity|]. cbn [fold_left]. rewrite IH by (intro; apply NI; now right).
  apply upd_other. intro; apply NI; now left.
Qed.
Lemma upds_in {A} l (g : nat -> A) j : In j l -> forall f, upds f l g j = g j.
Proof.
  unfold upds. induction l as [|a l IH]; intros I f; [contradiction|]. cbn [fold_left]. destruct (in_dec Nat.eq_dec j l) as [J|J]; [apply IH, J|].
  destruct I as [->|I]; [|contradiction]. fold (upds (upd f j (g j)) l g). rewrite upds_other by exact J. apply upd_same.
Qed.

(** Parents come first in the order of a forest. *)
Section Pre.
Context {T : Type} (parent child sibl : T -> option nat).
Lemma app_mid {A} (a b : list A) : forall p c q, a ++ b = p ++ c :: q -> (exists q', a = p ++ c :: q' /\ q = q' ++ b) \/ (exists p', b = p' ++ c :: q /\ p = a ++ p').
Proof.
  induction a as [|x a IH]; intros p c q H; [right; exists p; auto|]. destruct p as [|y p]; cbn [app] in H; injection H as -> H.
  - left. exists a. auto.
  - destruct (IH _ _ _ H) as [(q' & -> & ->)|(p' & -> & ->)]; [left; exists q'; auto|right; exists p'; auto].
Qed.
Lemma parent_first f : forall (h : list T) p0 o, rep parent child sibl h p0 o f -> forall a c b l q, ids f = a ++ c :: b -> nth_error h c = Some l -> parent l = Some q -> In q a \/ p0 = Some q.
Proof.
  induction f as [|i k IHk r IHr]; intros h p0 o R a c b l q EQ Hl Hp; cbn [ids] in EQ; [destruct a; discriminate|].
  cbn [rep] in R. destruct R as (_ & li & Hli & Pli & Rk & Rr). destruct a as [|x a]; cbn [app] in EQ; injection EQ as -> EQ.
  - right. congruence.
  - apply app_mid in EQ as [(q' & EQ & _)|(p' & EQ & ->)].
    + destruct (IHk _ _ _ Rk _ _ _ _ _ EQ Hl Hp) as [I|I]; [left; now right|left; left; congruence].
    + destruct (IHr _ _ _ Rr _ _ _ _ _ EQ Hl Hp) as [I|I]; [left; right; apply in_or_app; auto|auto].
Qed.
End Pre.

Section UW.
Context {F : Type} {N : Num F} {E : Ext F} {U : UrdfExt F} {L : NumLaws F N}.

(** ** Shapes *)
Lemma links_from_nth (ls : list (dlink F)) : forall k c u, nth_error (links_from k ls) c = Some u ->
  exists l, nth_error ls c = Some l /\ u = lkept (k + length (shapes_of (firstn c ls))) l.
Proof.
  induction ls as [|l ls IH]; intros k c u H; [destruct c; discriminate|]. destruct c as [|c]; cbn [links_from nth_error] in H.
  - injection H as <-. exists l. cbn. rewrite Nat.add_0_r. auto.
  - destruct (IH _ _ _ H) as (l' & Hl' & ->). exists l'. split; [exact Hl'|]. cbn [firstn]. unfold shapes_of. cbn [flat_map]. rewrite app_length, vshapes_length, Nat.add_assoc. reflexivity.
Qed.
Lemma links_from_some (ls : list (dlink F)) : forall k c l, nth_error ls c = Some l -> nth_error (links_from k ls) c = Some (lkept (k + length (shapes_of (firstn c ls))) l).
Proof.
  induction ls as [|m ls IH]; intros k c l H; [destruct c; discriminate|]. destruct c as [|c]; cbn [links_from nth_error] in *.
  - injection H as <-. cbn. now rewrite Nat.add_0_r.
  - rewrite (IH _ _ _ H). cbn [firstn]. unfold shapes_of. cbn [flat_map]. rewrite app_length, vshapes_length, Nat.add_assoc. reflexivity.
Qed.
Lemma shapes_before (ls : list (dlink F)) : forall c c' l, c < c' -> nth_error ls c = Some l -> length (shapes_of (firstn c ls)) + length (dl_visuals l) <= length (shapes_of (firstn c' ls)).
Proof.
  induction ls as [|m ls IH]; intros c c' l LT H; [destruct c; discriminate|]. destruct c' as [|c']; [lia|]. destruct c as [|c]; cbn [nth_error firstn] in *.
  - injection H as ->. unfold shapes_of. cbn [flat_map length]. rewrite app_length, vshapes_length. lia.
  - specialize (IH c c' l ltac:(lia) H). unfold shapes_of in *. cbn [flat_map]. rewrite !app_length. lia.
Qed.
Lemma vshapes_nth lname vs : forall k n v, nth_error vs n = Some v -> nth_error (vshapes lname k vs) n = Some (vshape lname (k + n) v).
Proof.
  induction vs as [|x vs IH]; intros k n v H; [destruct n; discriminate|]. destruct n as [|n]; cbn [vshapes nth_error] in *.
  - injection H as ->. now rewrite Nat.add_0_r.
  - rewrite (IH _ _ _ H). f_equal. f_equal. lia.
Qed.
Lemma shapes_nth (ls : list (dlink F)) : forall c l n v, nth_error ls c = Some l -> nth_error (dl_visuals l) n = Some v ->
  nth_error (shapes_of ls) (length (shapes_of (firstn c ls)) + n) = Some (vshape (dl_name l) n v).
Proof.
  induction ls as [|m ls IH]; intros c l n v H Hv; [destruct c; discriminate|]. destruct c as [|c]; cbn [nth_error firstn] in *.
  - injection H as ->. unfold shapes_of. cbn [flat_map length Nat.add]. apply nth_app_l. apply (vshapes_nth (dl_name l) _ 0 n v Hv).
  - unfold shapes_of. cbn [flat_map]. rewrite app_length, <- Nat.add_assoc, nth_error_app2, Nat.add_comm, Nat.add_sub by lia. apply (IH c l n v H Hv).
Qed.

Section Walk.
Context (d : udoc F) (V : valid_doc d) (i : uinfo F) (h0 h : list (link F)) (ST : jstate d (info0 d) h0 (d_joints d) i h) (tr : forest) (TR : tree_of h tr)
  (LH : length h = length (d_links d)) (PA : forall c l, nth_error h c = Some l -> forall q, l_parent l = Some q <-> In (q, c) (jops d (d_joints d))).
Notation names := (map dl_name (d_links d)).
Definition shp (c : nat) : list nat := match nth_error (ui_links i) c with Some u => ul_shapes u | None => [] end.
Definition ljt (c : nat) : option nat := match nth_error (ui_links i) c with Some u => ul_joint u | None => None end.
Definition pjt (j : nat) : option nat := match nth_error (d_joints d) j with Some x => ljt (idx d (dj_parent x)) | None => None end.
Definition step (act : nat -> option nat -> nat -> list nat -> wstate F -> wstate F) (w : wstate F) (j : nat) : wstate F := act j (pjt j) (cj d j) (shp (cj d j)) w.

Lemma link_at c l : nth_error (d_links d) c = Some l -> exists u, nth_error (ui_links i) c = Some u /\ lcore u = lcore (lkept (length (shapes_of (firstn c (d_links d)))) l).
Proof.
  intros H. pose proof (js_links _ _ _ _ _ _ ST) as Q. cbn [info0 ui_links] in Q. apply (links_from_some _ 0) in H. cbn [Nat.add] in H.
  apply (map_nth_error lcore) in H. rewrite <- Q, nth_error_map in H. destruct (nth_error (ui_links i) c) as [u|]; [|discriminate]. exists u. split; [reflexivity|]. cbn [option_map] in H. congruence.
Qed.
Lemma ui_links_length : length (ui_links i) = length (d_links d).
Proof. rewrite <- LH. symmetry. apply (sm_len _ _ _ (js_sim _ _ _ _ _ _ ST)). Qed.
Lemma link_of c u : nth_error (ui_links i) c = Some u -> exists l, nth_error (d_links d) c = Some l /\ lcore u = lcore (lkept (length (shapes_of (firstn c (d_links d)))) l).
Proof.
  intros H. destruct (nth_error (d_links d) c) as [l|] eqn:Q; [|apply nth_error_None in Q; apply nth_lt in H; rewrite ui_links_length in H; lia].
  destruct (link_at c l Q) as (u' & H' & C). exists l. split; [reflexivity|]. congruence.
Qed.
Lemma shp_eq c l : nth_error (d_links d) c = Some l -> shp c = seq (length (shapes_of (firstn c (d_links d)))) (length (dl_visuals l)).
Proof. intros H. destruct (link_at c l H) as (u & Hu & C). unfold shp. rewrite Hu. unfold lcore in C. cbn [lkept ul_name ul_mp ul_shapes] in C. congruence. Qed.
Lemma shp_disjoint c c' s : c <> c' -> In s (shp c) -> ~ In s (shp c').
Proof.
  intros NE I I'. destruct (nth_error (d_links d) c) as [l|] eqn:Q; [|unfold shp in I; apply nth_error_None in Q; rewrite <- ui_links_length in Q; apply nth_error_None in Q; rewrite Q in I; destruct I].
  destruct (nth_error (d_links d) c') as [l'|] eqn:Q'; [|unfold shp in I'; apply nth_error_None in Q'; rewrite <- ui_links_length in Q'; apply nth_error_None in Q'; rewrite Q' in I'; destruct I'].
  rewrite (shp_eq _ _ Q) in I. rewrite (shp_eq _ _ Q') in I'. apply in_seq in I, I'.
  destruct (Nat.lt_ge_cases c c') as [C|C]; [pose proof (shapes_before _ _ _ _ C Q)|assert (C' : c' < c) by lia; pose proof (shapes_before _ _ _ _ C' Q')]; lia.
Qed.
Lemma joint_at j x : nth_error (d_joints d) j = Some x -> exists o, nth_error (ui_joints i) j = Some o /\ jcore o = jkept x (idx d (dj_parent x)) (idx d (dj_child x)).
Proof. apply (js_joint _ _ _ _ _ _ ST). Qed.
Lemma ljt_iff c j : ljt c = Some j <-> exists x, nth_error (d_joints d) j = Some x /\ idx d (dj_child x) = c.
Proof.
  unfold ljt. destruct (nth_error (ui_links i) c) as [u|] eqn:Q; [apply (js_ljoint _ _ _ _ _ _ ST c u j Q)|]. split; [discriminate|]. intros (x & Hx & <-).
  apply nth_error_None in Q. rewrite ui_links_length in Q. destruct (joint_names d V x (nth_error_In _ _ Hx)) as [_ N2]. apply (idx_lt d V) in N2. rewrite map_length in N2. lia.
Qed.
Lemma cj_some j : j < length (d_joints d) -> exists x, nth_error (d_joints d) j = Some x /\ cj d j = idx d (dj_child x) /\ cj d j < length (d_links d).
Proof.
  intros H. destruct (nth_error (d_joints d) j) as [x|] eqn:Q; [|apply nth_error_None in Q; lia]. exists x. split; [reflexivity|]. rewrite (cj_nth d _ _ Q). split; [reflexivity|].
  destruct (joint_names d V x (nth_error_In _ _ Q)) as [_ N2]. apply (idx_lt d V) in N2. now rewrite map_length in N2.
Qed.
Lemma cj_inj j k : j < length (d_joints d) -> k < length (d_joints d) -> cj d j = cj d k -> j = k.
Proof.
  intros A B Q. destruct (cj_some j A) as (x & Hx & Qx & _). destruct (cj_some k B) as (y & Hy & Qy & _). rewrite Qx, Qy in Q.
  apply (idx_inj d V) in Q; [|apply (joint_names d V); eapply nth_error_In; eauto..]. eapply child_unique; eauto.
Qed.
Lemma ljt_cj j : j < length (d_joints d) -> ljt (cj d j) = Some j.
Proof. intros H. destruct (cj_some j H) as (x & Hx & -> & _). apply ljt_iff. eauto. Qed.

(** ** The recursion visits a forest in its order *)
Lemma walk_forest f : forall p j, lrep h (Some p) (Some (cj d j)) f -> j < length (d_joints d) -> forall fuel, fsize f <= fuel ->
  exists js, map (cj d) js = ids f /\ (forall a, In a js -> a < length (d_joints d)) /\
    forall act w, walk_joints act i fuel w j = Some (fold_left (step act) js w, true).
Proof.
  induction f as [|c k IHk r IHr]; intros p j R LJ fuel FU; [discriminate R|].
  destruct R as (EC & l & Hl & PL & Rk & Rr). injection EC as EC. subst c. cbn [fsize] in FU. destruct fuel as [|fuel]; [lia|].
  destruct (cj_some j LJ) as (x & Hx & CX & LC). destruct (joint_at j x Hx) as (o & Ho & JO).
  assert (OP : uj_parent o = Some (idx d (dj_parent x))) by (change (uj_parent o) with (uj_parent (jcore o)); rewrite JO; reflexivity).
  assert (OC : uj_child o = Some (cj d j)) by (change (uj_child o) with (uj_child (jcore o)); rewrite JO, CX; reflexivity).
  destruct (joint_names d V x (nth_error_In _ _ Hx)) as [N1 _]. apply (idx_lt d V) in N1. rewrite map_length in N1.
  destruct (nth_error (ui_links i) (idx d (dj_parent x))) as [lp|] eqn:HP; [|apply nth_error_None in HP; rewrite ui_links_length in HP; lia].
  destruct (nth_error (ui_links i) (cj d j)) as [lc|] eqn:HC; [|apply nth_error_None in HC; rewrite ui_links_length in HC; lia].
  destruct (sm_child _ _ _ (js_sim _ _ _ _ _ _ ST) _ _ _ HC Hl) as (CL & CB). destruct (sm_sibl _ _ _ (js_sim _ _ _ _ _ _ ST) _ _ Ho) as (l' & Hl' & SL & SB).
  rewrite (js_len _ _ _ _ _ _ ST) in CB, SB. assert (l' = l) by congruence. subst l'. change (lrep h (Some (cj d j)) (l_child l) k) in Rk. change (lrep h (Some p) (l_sibl l) r) in Rr.
  rewrite CL in Rk. rewrite SL in Rr.
  assert (PK : exists js, map (cj d) js = ids k /\ (forall a, In a js -> a < length (d_joints d)) /\ forall act w,
     (match ul_child lc with None => Some (w, true) | Some c => walk_joints act i fuel w c end) = Some (fold_left (step act) js w, true)).
  { destruct (ul_child lc) as [c|]; cbn [option_map] in Rk.
    - apply (IHk _ _ Rk (CB c eq_refl)). lia.
    - destruct k as [|? ? ?]; [|destruct Rk as [Rk _]; discriminate]. exists []. split; [reflexivity|]. split; [intros a []|reflexivity]. }
  assert (PR : exists js, map (cj d) js = ids r /\ (forall a, In a js -> a < length (d_joints d)) /\ forall act w,
     (match uj_sibl o with None => Some (w, true) | Some c => walk_joints act i fuel w c end) = Some (fold_left (step act) js w, true)).
  { destruct (uj_sibl o) as [c|]; cbn [option_map] in Rr.
    - apply (IHr _ _ Rr (SB c eq_refl)). lia.
    - destruct r as [|? ? ?]; [|destruct Rr as [Rr _]; discriminate]. exists []. split; [reflexivity|]. split; [intros a []|reflexivity]. }
  destruct PK as (jk & Mk & Bk & Wk). destruct PR as (jr & Mr & Br & Wr). exists (j :: jk ++ jr). split; [cbn [map ids]; now rewrite map_app, Mk, Mr|]. split.
  { intros a [<-|I]; [exact LJ|]. apply in_app_or in I as [I|I]; auto. }
  intros act w. assert (SE : step act w j = act j (ul_joint lp) (cj d j) (ul_shapes lc) w) by (unfold step, pjt, ljt, shp; rewrite Hx, HP, HC; reflexivity).
  cbn [walk_joints]. rewrite Ho. cbn [obind]. rewrite OP, OC, HP. cbn [obind]. rewrite HC. cbn [obind]. rewrite Wk. cbn [obind]. rewrite Wr.
  cbn [fold_left]. rewrite fold_left_app, SE. reflexivity.
Qed.

Lemma walk_all : exists r js, find_root i = Some r /\ nth_error (ui_links i) 0 = Some r /\ NoDup js /\ (forall j, In j js <-> j < length (d_joints d)) /\
  (forall a j b q, js = a ++ j :: b -> pjt j = Some q -> In q a) /\
  (forall act w, walk_from act i r w = Some (fold_left (step act) js w)).
Proof.
  destruct TR as [RP PM]. cbn [rep lrep] in RP. destruct RP as (_ & l & Hl & PL & RK & SB).
  destruct (nth_error (ui_links i) 0) as [r|] eqn:HR; [|apply nth_error_None in HR; rewrite ui_links_length, <- LH in HR; apply nth_lt in Hl; lia].
  assert (C0 : forall j, j < length (d_joints d) -> cj d j <> 0).
  { intros j Hj Q. destruct (cj_some j Hj) as (x & Hx & CX & _). assert (In (idx d (dj_parent x), 0) (jops d (d_joints d))).
    { unfold jops. apply in_map_iff. exists x. split; [congruence|]. eapply nth_error_In; eauto. }
    apply (PA 0 l Hl) in H. congruence. }
  assert (FR : find_root i = Some r).
  { assert (UJ0 : ul_joint r = None).
    { destruct (ul_joint r) as [j|] eqn:Q; [|reflexivity]. exfalso. assert (LJ : ljt 0 = Some j) by (unfold ljt; rewrite HR; exact Q).
      apply ljt_iff in LJ as (x & Hx & Q0). apply (C0 j); [eapply nth_lt; eauto|]. now rewrite (cj_nth d _ _ Hx). }
    unfold find_root. destruct (ui_links i) as [|r' t]; [discriminate|]. cbn [nth_error] in HR. injection HR as ->. cbn [find]. rewrite UJ0. reflexivity. }
  exists r. destruct (sm_child _ _ _ (js_sim _ _ _ _ _ _ ST) _ _ _ HR Hl) as (CL & CB). rewrite (js_len _ _ _ _ _ _ ST) in CB.
  assert (ND : NoDup (ids tr)). { cbn [ids] in PM. rewrite app_nil_r in PM. apply Permutation_sym in PM. assert (NN := Permutation_NoDup PM (seq_NoDup _ _)). now apply NoDup_cons_iff in NN. }
  assert (JS : exists js, map (cj d) js = ids tr /\ (forall a, In a js -> a < length (d_joints d)) /\ forall act w, walk_from act i r w = Some (fold_left (step act) js w)).
  { change (lrep h (Some 0) (l_child l) tr) in RK. rewrite CL in RK. destruct (ul_child r) as [j|] eqn:UC; cbn [option_map] in RK.
    - destruct (walk_forest tr 0 j RK (CB j eq_refl) (S (length (ui_links i) + length (ui_joints i)))) as (js & M & B & W).
      + pose proof (rep_size _ _ _ _ _ _ _ RK ND) as RS. rewrite ui_links_length, <- LH. lia.
      + exists js. split; [exact M|]. split; [exact B|]. intros act w. unfold walk_from. rewrite UC, W. reflexivity.
    - destruct tr as [|? ? ?]; [|destruct RK as [RK _]; discriminate]. exists []. split; [reflexivity|]. split; [intros a []|]. intros act w. unfold walk_from. now rewrite UC. }
  destruct JS as (js & M & B & W). exists js. split; [exact FR|]. split; [reflexivity|]. split; [|split; [|split; [|exact W]]].
  - apply (NoDup_map_inv (cj d)). now rewrite M.
  - intros j. split; [apply B|]. intros Hj. destruct (cj_some j Hj) as (x & Hx & CX & LC).
    assert (I : In (cj d j) (ids tr)).
    { assert (I : In (cj d j) (ids (FCons 0 tr FNil))) by (eapply Permutation_in; [apply Permutation_sym, PM|]; apply in_seq; lia).
      cbn [ids] in I. rewrite app_nil_r in I. destruct I as [I|I]; [|exact I]. exfalso. apply (C0 j Hj). auto. }
    rewrite <- M in I. apply in_map_iff in I as (j' & Q & I). apply cj_inj in Q; auto. congruence.
  - intros a j b q EQ PJ. assert (Hj : j < length (d_joints d)) by (apply B; rewrite EQ; apply in_or_app; right; left; reflexivity).
    destruct (cj_some j Hj) as (x & Hx & CX & LC). unfold pjt in PJ. rewrite Hx in PJ. apply ljt_iff in PJ as (y & Hy & QY).
    rewrite EQ, map_app in M. cbn [map] in M. symmetry in M.
    destruct (nth_error h (cj d j)) as [lc|] eqn:HC; [|apply nth_error_None in HC; lia].
    assert (HP : l_parent lc = Some (idx d (dj_parent x))). { apply (PA _ _ HC). unfold jops. apply in_map_iff. exists x. split; [congruence|]. eapply nth_error_In; eauto. }
    destruct (parent_first _ _ _ _ _ _ _ RK _ _ _ _ _ M HC HP) as [I|I].
    + apply in_map_iff in I as (q' & Q & I). assert (Hq' : q' < length (d_joints d)) by (apply B; rewrite EQ; apply in_or_app; auto).
      assert (q' = q); [|congruence]. apply cj_inj; [exact Hq'|eapply nth_lt; eauto|]. rewrite (cj_nth d _ _ Hy). congruence.
    + exfalso. apply (C0 q); [eapply nth_lt; eauto|]. rewrite (cj_nth d _ _ Hy). congruence.
Qed.

(** ** The frames *)
Definition parent_home (j : nat) (a : frame F) : Prop := exists x, nth_error (d_joints d) j = Some x /\ home d (dj_parent x) a.
Lemma root_name q : ljt (idx d q) = None -> In q names -> exists l rest, d_links d = l :: rest /\ dl_name l = q.
Proof.
  intros LJ I. apply in_map_iff in I as (l & <- & I). destruct V as (_ & _ & _ & _ & RE & _). specialize (RE l I). inversion RE as [l0 rest HL EQ|j IJ _ EQ].
  - exists l0, rest. auto.
  - exfalso. apply In_nth_error in IJ as (n & Hn). assert (ljt (idx d (dl_name l)) = Some n); [|congruence]. apply ljt_iff. exists j. split; [exact Hn|congruence].
Qed.
Lemma joint_fl j x : nth_error (d_joints d) j = Some x -> w_fl (wstart i) j = origin_frame (dj_origin x).
Proof.
  intros Hx. destruct (joint_at j x Hx) as (o & Ho & JO). cbn [wstart w_fl]. rewrite Ho. change (uj_fl o) with (uj_fl (jcore o)). now rewrite JO.
Qed.
Record xdone (js : list nat) (w : wstate F) : Prop := XDone {
  xd_fl : w_fl w = w_fl (wstart i); xd_in : w_in w = w_in (wstart i); xd_sl : w_sl w = w_sl (wstart i);
  xd_home : forall j x, In j js -> nth_error (d_joints d) j = Some x -> home d (dj_child x) (w_fw w j);
  xd_iw : forall j, In j js -> w_iw w (cj d j) = m3rot (fatt (w_fw w j)) (w_in (wstart i) (cj d j));
  xd_sw : forall j s, In j js -> In s (shp (cj d j)) -> w_sw w s = fcascade (w_fw w j) (w_sl (wstart i) s) }.
Lemma xform_fold js : (forall j, In j js -> j < length (d_joints d)) -> NoDup js -> (forall a j b q, js = a ++ j :: b -> pjt j = Some q -> In q a) ->
  forall b a w, js = a ++ b -> xdone a w -> xdone js (fold_left (step xform_at) b w).
Proof.
  intros BJ ND PF. induction b as [|j b IH]; intros a w EQ X; [rewrite app_nil_r in EQ; now subst a|].
  cbn [fold_left]. apply (IH (a ++ [j])); [now rewrite <- app_assoc|]. destruct X as [X1 X2 X3 X4 X5 X6].
  assert (Hj : j < length (d_joints d)) by (apply BJ; rewrite EQ; apply in_or_app; right; left; reflexivity).
  assert (NJ : ~ In j a). { rewrite EQ in ND. apply NoDup_remove_2 in ND. intro I. apply ND. apply in_or_app; auto. }
  assert (DJ : forall k, In k a -> k <> j /\ cj d k <> cj d j).
  { intros k I. assert (k <> j) by congruence. split; [assumption|]. intro Q. apply cj_inj in Q; auto. apply BJ. rewrite EQ. apply in_or_app; auto. }
  destruct (cj_some j Hj) as (x & Hx & CX & LC). unfold step, xform_at.
  set (fw := match pjt j with Some q => fcascade (w_fw w q) (w_fl w j) | None => w_fl w j end).
  assert (HF : home d (dj_child x) fw).
  { assert (FL : w_fl w j = origin_frame (dj_origin x)) by (rewrite X1; apply joint_fl, Hx).
    destruct (joint_names d V x (nth_error_In _ _ Hx)) as [N1 _]. unfold fw. rewrite FL. destruct (pjt j) as [q|] eqn:PJ.
    - pose proof (PF a j b q EQ PJ) as IQ. unfold pjt in PJ. rewrite Hx in PJ. apply ljt_iff in PJ as (y & Hy & QY).
      apply (idx_inj d V) in QY; [|apply (joint_names d V); eapply nth_error_In; eauto|exact N1]. constructor; [eapply nth_error_In; eauto|]. rewrite <- QY. apply (X4 q y IQ Hy).
    - unfold pjt in PJ. rewrite Hx in PJ. destruct (root_name _ PJ N1) as (l & rest & HL & QN). rewrite <- (fcascade_id_l (origin_frame (dj_origin x))).
      constructor; [eapply nth_error_In; eauto|]. rewrite <- QN. econstructor. exact HL. }
  constructor; cbn [w_fl w_in w_sl w_fw w_iw w_sw]; try assumption.
  - intros k y I Hy. apply in_app_or in I as [I|[<-|[]]].
    + rewrite upd_other by (destruct (DJ k I); congruence). auto.
    + rewrite upd_same. congruence.
  - intros k I. apply in_app_or in I as [I|[<-|[]]].
    + rewrite !upd_other by (destruct (DJ k I); congruence). auto.
    + rewrite !upd_same. now rewrite X2.
  - intros k s I IS. apply in_app_or in I as [I|[<-|[]]].
    + rewrite upd_other by (destruct (DJ k I); congruence). rewrite upds_other; [auto|]. apply (shp_disjoint (cj d k)); [apply (DJ k I)|exact IS].
    + rewrite upd_same, upds_in by exact IS. now rewrite X3.
Qed.

Lemma types_axis t : (is_revol (utype_name t) || is_prism (utype_name t)) = has_axis t.
Proof. destruct t; reflexivity. Qed.
Lemma turn_all (m : mat3 F) : forall js k w, (forall n o, nth_error js n = Some o -> exists x, nth_error (d_joints d) (k + n) = Some x /\ jcore o = jkept x (idx d (dj_parent x)) (idx d (dj_child x))) ->
  exists w', turn_joints js k w = Some w' /\ w_fl w' = w_fl w /\ w_in w' = w_in w /\ w_sl w' = w_sl w /\ w_iw w' = w_iw w /\ w_sw w' = w_sw w /\
    (forall j, j < k -> w_fw w' j = w_fw w j) /\
    (forall j x, k <= j < k + length js -> nth_error (d_joints d) j = Some x -> w_fw w' j = Fr (fpos (w_fw w j)) (m3mul (align x) (fatt (w_fw w j)))).
Proof.
  induction js as [|o js IH]; intros k w H.
  - exists w. cbn [length]. repeat split. intros j x [A B]. lia.
  - destruct (H 0 o eq_refl) as (x & Hx & JO). rewrite Nat.add_0_r in Hx. cbn [turn_joints].
    assert (TY : uj_type o = Some (utype_name (dj_type x))) by (change (uj_type o) with (uj_type (jcore o)); rewrite JO; reflexivity).
    assert (AX : uj_axis o = axis_of x) by (change (uj_axis o) with (uj_axis (jcore o)); rewrite JO; reflexivity).
    rewrite TY. cbn [obind]. rewrite types_axis, AX.
    match goal with |- context [turn_joints js (S k) ?w0] => set (w1 := w0) end.
    destruct (IH (S k) w1) as (w' & EV & B1 & B2 & B3 & B4 & B5 & B6 & B7).
    { intros n p Hn. destruct (H (S n) p Hn) as (y & Hy). exists y. now rewrite Nat.add_succ_r in Hy. }
    exists w'. rewrite EV. split; [reflexivity|].
    assert (W1 : w_fl w1 = w_fl w /\ w_in w1 = w_in w /\ w_sl w1 = w_sl w /\ w_iw w1 = w_iw w /\ w_sw w1 = w_sw w /\ (forall j, j <> k -> w_fw w1 j = w_fw w j) /\
                 w_fw w1 k = Fr (fpos (w_fw w k)) (m3mul (align x) (fatt (w_fw w k)))).
    { unfold w1, align. destruct (has_axis (dj_type x)); cbn [w_fl w_in w_sl w_iw w_sw w_fw]; repeat split.
      - intros j NE. apply upd_other. auto.
      - apply upd_same.
      - rewrite m3mul_id_l. now destruct (w_fw w k). }
    destruct W1 as (W1 & W2 & W3 & W4 & W5 & W6 & W7). repeat split; try congruence.
    + intros j Hj. rewrite B6 by lia. apply W6. lia.
    + intros j y HB Hy. cbn [length] in HB. destruct (Nat.eq_dec j k) as [->|NE].
      * rewrite B6 by lia. assert (x = y) by congruence. subst y. exact W7.
      * rewrite (B7 j y) by (auto; lia). rewrite W6 by exact NE. reflexivity.
Qed.

Lemma inv_fold : forall js w, NoDup js -> (forall j, In j js -> j < length (d_joints d)) ->
  let w' := fold_left (step xform_inv_at) js w in
  w_fw w' = w_fw w /\ w_iw w' = w_iw w /\ w_sw w' = w_sw w /\
  (forall j, In j js -> w_fl w' j = match pjt j with Some q => frel (w_fw w q) (w_fw w j) | None => w_fw w j end) /\
  (forall j, In j js -> w_in w' (cj d j) = m3rotinv (fatt (w_fl w' j)) (w_iw w (cj d j))) /\
  (forall j s, In j js -> In s (shp (cj d j)) -> w_sl w' s = frel (w_fw w j) (w_sw w s)) /\
  (forall j, ~ In j js -> w_fl w' j = w_fl w j) /\
  (forall c, (forall j, In j js -> cj d j <> c) -> w_in w' c = w_in w c /\ forall s, In s (shp c) -> w_sl w' s = w_sl w s).
Proof.
  induction js as [|j js IH]; intros w ND BJ; [cbn; repeat split; intros; contradiction|].
  cbn [fold_left]. apply NoDup_cons_iff in ND as [NJ ND]. assert (BJ' : forall k, In k js -> k < length (d_joints d)) by (intros; apply BJ; now right).
  assert (Hj : j < length (d_joints d)) by (apply BJ; now left).
  assert (DJ : forall k, In k js -> cj d k <> cj d j). { intros k I Q. apply cj_inj in Q; auto. congruence. }
  specialize (IH (step xform_inv_at w j) ND BJ'). cbv zeta in *. destruct IH as (I1 & I2 & I3 & I4 & I5 & I6 & I7 & I8).
  set (w' := fold_left (step xform_inv_at) js (step xform_inv_at w j)) in *.
  destruct (I8 (cj d j) DJ) as (K1 & K2). unfold step in K1, K2, I1, I2, I3, I4, I5, I6, I7, I8. cbn [xform_inv_at w_fw w_iw w_sw w_fl w_in w_sl] in K1, K2, I1, I2, I3, I4, I5, I6, I7, I8.
  assert (FJ : w_fl w' j = match pjt j with Some q => frel (w_fw w q) (w_fw w j) | None => w_fw w j end) by (rewrite (I7 j NJ); apply upd_same).
  split; [exact I1|]. split; [exact I2|]. split; [exact I3|]. split; [|split; [|split; [|split]]].
  - intros k [<-|I]; [exact FJ|apply I4, I].
  - intros k [<-|I]; [|apply I5, I]. rewrite K1, upd_same, FJ. reflexivity.
  - intros k s [<-|I] IS; [|apply I6; assumption]. rewrite (K2 s IS). rewrite upds_in by exact IS. reflexivity.
  - intros k NI. rewrite I7 by (intro; apply NI; now right). apply upd_other. intro; apply NI; now left.
  - intros c NC. destruct (I8 c) as (A1 & A2); [intros; apply NC; now right|]. split.
    + rewrite A1. apply upd_other. apply NC. now left.
    + intros s IS. rewrite (A2 s IS). apply upds_other. apply (shp_disjoint c); [|exact IS]. apply not_eq_sym, NC. now left.
Qed.

Lemma correct_ok : exists w, correct_frame i = Some w /\
  (forall j x, nth_error (d_joints d) j = Some x -> exists a b e, turned d (dj_parent x) a /\ home d (dj_child x) e /\ turned d (dj_child x) b /\ b = Fr (fpos e) (m3mul (align x) (fatt e)) /\
    w_fl w j = frel a b /\
    w_in w (cj d j) = m3rotinv (fatt (frel a b)) (m3rot (fatt e) (w_in (wstart i) (cj d j))) /\
    (forall s, In s (shp (cj d j)) -> w_sl w s = frel b (fcascade e (w_sl (wstart i) s)))) /\
  w_in w 0 = w_in (wstart i) 0 /\ (forall s, In s (shp 0) -> w_sl w s = w_sl (wstart i) s).
Proof.
  destruct walk_all as (r & js & FR & HR & ND & BJ & PF & W). unfold correct_frame. rewrite FR, W. cbn [obind].
  assert (X : xdone js (fold_left (step xform_at) js (wstart i))).
  { apply (xform_fold js (fun j => proj1 (BJ j)) ND PF js [] _ eq_refl). constructor; try reflexivity; intros; contradiction. }
  set (w1 := fold_left (step xform_at) js (wstart i)) in *. destruct X as [X1 X2 X3 X4 X5 X6].
  destruct (turn_all m3id (ui_joints i) 0 w1) as (w2 & EV & B1 & B2 & B3 & B4 & B5 & _ & B7).
  { intros n o Hn. cbn [Nat.add]. assert (LN := js_len _ _ _ _ _ _ ST). pose proof (nth_lt _ _ _ Hn) as LT. rewrite LN in LT.
    destruct (cj_some n LT) as (x & Hx & _). exists x. split; [exact Hx|]. destruct (joint_at n x Hx) as (o' & Ho' & JO). congruence. }
  rewrite EV. cbn [obind]. rewrite W. eexists. split; [reflexivity|].
  destruct (inv_fold js w2 ND (fun j => proj1 (BJ j))) as (I1 & I2 & I3 & I4 & I5 & I6 & I7 & I8).
  set (w3 := fold_left (step xform_inv_at) js w2) in *.
  assert (FW2 : forall j x, nth_error (d_joints d) j = Some x -> w_fw w2 j = Fr (fpos (w_fw w1 j)) (m3mul (align x) (fatt (w_fw w1 j)))).
  { intros j x Hx. apply B7; [|exact Hx]. cbn [Nat.add]. rewrite (js_len _ _ _ _ _ _ ST). split; [lia|eapply nth_lt; eauto]. }
  split.
  - intros j x Hx. assert (IJ : In j js) by (apply BJ; eapply nth_lt; eauto). pose proof (X4 j x IJ Hx) as HH.
    assert (TB : turned d (dj_child x) (w_fw w2 j)) by (rewrite (FW2 j x Hx); constructor; [eapply nth_error_In; eauto|exact HH]).
    destruct (joint_names d V x (nth_error_In _ _ Hx)) as [N1 _].
    assert (TA : exists a, turned d (dj_parent x) a /\ w_fl w3 j = frel a (w_fw w2 j)).
    { rewrite (I4 j IJ). destruct (pjt j) as [q|] eqn:PJ.
      - exists (w_fw w2 q). split; [|reflexivity]. unfold pjt in PJ. rewrite Hx in PJ. apply ljt_iff in PJ as (y & Hy & QY).
        apply (idx_inj d V) in QY; [|apply (joint_names d V); eapply nth_error_In; eauto|exact N1]. rewrite <- QY, (FW2 q y Hy). constructor; [eapply nth_error_In; eauto|].
        apply (X4 q y); [apply BJ; eapply nth_lt; eauto|exact Hy].
      - exists fid. unfold pjt in PJ. rewrite Hx in PJ. destruct (root_name _ PJ N1) as (l & rest & HL & QN). split; [rewrite <- QN; econstructor; exact HL|].
        symmetry. rewrite <- (fcascade_id_l (w_fw w2 j)) at 1. apply frel_cascade, rigid_id. }
    destruct TA as (a & TA & FL). exists a, (w_fw w2 j), (w_fw w1 j). split; [exact TA|]. split; [exact HH|]. split; [exact TB|]. split; [apply FW2, Hx|]. split; [exact FL|]. split.
    + rewrite (I5 j IJ), FL, B4, (X5 j IJ). reflexivity.
    + intros s IS. rewrite (I6 j s IJ IS), B5, (X6 j s IJ IS). reflexivity.
  - assert (C0 : forall j, In j js -> cj d j <> 0).
    { intros j IJ Q. destruct (cj_some j (proj1 (BJ j) IJ)) as (x & Hx & CX & _). destruct V as (NE & _ & _ & JN & _ & RT & _). destruct (d_links d) as [|l rest] eqn:HL; [congruence|].
      destruct (joint_names d V x (nth_error_In _ _ Hx)) as [_ N2]. destruct (idx_nth d V _ N2) as [H2 _]. rewrite <- CX, Q, HL in H2. cbn in H2. injection H2 as H2.
      apply (RT x l rest (nth_error_In _ _ Hx) eq_refl). auto. }
    destruct (I8 0 C0) as (A1 & A2). split; [congruence|]. intros s IS. rewrite (A2 s IS). congruence.
Qed.
End Walk.
End UW.
