(** * CDVert_Properties: contact vertices from one vertex check to the next (C58, C68). *)

From Coq Require Import Bool List Arith Lia ZArith QArith Qcanon Field.
From Verif Require Import Num NumFacts Vec VecFacts CD_Model CD_Spec CD_Proofs CD_Inv CD_Geo CDReg_Properties CDChk_Properties.
Import ListNotations.
Local Open Scope nat_scope.

Section Vert.
Context {F BX AB : Type} {N : Num F} {L : NumLaws F N} {X : CDExt F BX AB}.
Add Field CDVField : num_field.
Local Ltac vring := intros; vdestruct; vunfold; vsplit; ring.
Notation cell := (cell F BX AB).
Notation cd := (cd F BX AB).
Notation pair := (pair F).
Notation op := (op F).
Notation vert := (vert F).
Notation hist := (list ((nat -> frame F) * op)).

Lemma scan_in (f1 : frame F) old (a b : cell) i xs v : In v (vert_scan f1 old a b i xs) ->
  exists j x, nth_error xs j = Some x /\ t_idx v = i + j /\ t_cell v = k_addr a /\ t_buf v = k_buf a /\
    vert_reg f1 old a b (i + j) x = Some v.
Proof.
  assert (T : forall i x v, vert_reg f1 old a b i x = Some v -> t_idx v = i /\ t_cell v = k_addr a /\ t_buf v = k_buf a).
  { intros i0 x v0. unfold vert_reg, vert_new, vert_again. destruct (find _ _) as [u|].
    - intros E. injection E as <-. auto.
    - destruct (x_vtiny _); [discriminate|]. intros E. injection E as <-. auto. }
  revert i. induction xs as [|x tl IH]; intros i; cbn [vert_scan]; [intros []|].
  assert (K : In v (vert_scan f1 old a b (S i) tl) ->
    exists j y, nth_error (x :: tl) j = Some y /\ t_idx v = i + j /\ t_cell v = k_addr a /\ t_buf v = k_buf a /\
    vert_reg f1 old a b (i + j) y = Some v).
  { intros H. destruct (IH _ H) as (j & y & H1 & H2 & H3). exists (S j), y. rewrite <- plus_n_Sm. auto. }
  destruct (x_inside (k_ph b) x); [|exact K]. destruct (vert_reg f1 old a b i x) as [u|] eqn:E; [|exact K].
  intros [<-|H]; [|now apply K]. exists 0, x. destruct (T _ _ _ E) as (T1 & T2 & T3). rewrite Nat.add_0_r. cbn. auto 10.
Qed.

Lemma scan_uniq (f1 : frame F) old (a b : cell) xs u v : In u (vert_scan f1 old a b 0 xs) -> In v (vert_scan f1 old a b 0 xs) ->
  t_idx u = t_idx v -> u = v.
Proof.
  intros Hu Hv E. apply scan_in in Hu, Hv. destruct Hu as (j & x & H1 & H2 & _ & _ & H3), Hv as (j' & x' & K1 & K2 & _ & _ & K3).
  cbn [Nat.add] in *. assert (Ej : j' = j) by congruence. rewrite Ej in *. assert (Ex : x' = x) by congruence. rewrite Ex in *. congruence.
Qed.

(** The stored data are those in the frame of the other link. *)
Definition stored (f : frame F) (v : vert) : Prop :=
  t_lnorm v = m3tv (fatt f) (t_norm v) /\ t_laxis v = map3 (xforminv f) (t_axis v) /\
  t_lpro v = xforminv f (t_pro v) /\ t_lref v = xforminv f (t_ref v).

Lemma reg_stored (f1 : frame F) old (a b : cell) i x v : rigid f1 -> vert_reg f1 old a b i x = Some v -> stored f1 v.
Proof.
  intros R. unfold vert_reg, vert_new, vert_again, stored. destruct (find _ _) as [u|].
  - intros E. injection E as <-. cbn. rewrite rot_tv_v by exact R. rewrite !xforminv_xform by exact R.
    repeat split. destruct (t_laxis u) as [[x0 x1] x2]. cbn. now rewrite !xforminv_xform by exact R.
  - destruct (x_vtiny _); [discriminate|]. intros E. injection E as <-. cbn. auto.
Qed.

(** The other link of a contact of a pair of cells. *)
Definition other_link (a b : cell) (v : vert) : nat := if t_cell v =? k_addr a then k_link b else k_link a.

Lemma verts_in w (a b : cell) old v : In v (pair_verts w a b old) ->
  (In v (vert_scan (w (k_link b)) old a b 0 (vts (k_ph a))) /\ t_cell v = k_addr a) \/
  (In v (vert_scan (w (k_link a)) old b a 0 (vts (k_ph b))) /\ t_cell v = k_addr b).
Proof.
  unfold pair_verts. intros H. apply in_app_or in H. destruct H as [H|H]; [left|right]; (split; [exact H|]);
    apply scan_in in H; destruct H as (j & x & H); tauto.
Qed.
Lemma verts_uniq w (a b : cell) old u v : k_addr a <> k_addr b ->
  In u (pair_verts w a b old) -> In v (pair_verts w a b old) ->
  t_cell u = t_cell v -> t_idx u = t_idx v -> u = v.
Proof.
  intros D Hu Hv E1 E2. apply verts_in in Hu, Hv. destruct Hu as [[Hu Cu]|[Hu Cu]], Hv as [[Hv Cv]|[Hv Cv]]; try congruence;
    eapply scan_uniq; eassumption.
Qed.

Lemma fixedb_link (c c' : cell) : fixedb c' = fixedb c -> k_link c' = k_link c /\ k_addr c' = k_addr c /\ k_buf c' = k_buf c.
Proof. unfold fixedb, fixed. intros E. split; [congruence|]. split; congruence. Qed.

(** What two vertex checks in succession do to a pair. *)
Lemma two_checks (h : hist) (s s1 s2 : cd) w w' i p1 p2 a b :
  Forall (fun e => no_obbvert (snd e)) h -> run h cd_create = Some s ->
  run_op w (Check CkVert) s = Some s1 -> run_op w' (Check CkVert) s1 = Some s2 ->
  nth_error (d_pairs s1) i = Some p1 -> nth_error (d_pairs s2) i = Some p2 -> of_cells s2 p2 a b ->
  k_addr a <> k_addr b /\
  (p_vl p1 <> [] -> exists old, p_vl p1 = pair_verts w (wcell w a) (wcell w b) old) /\
  (p_vl p2 <> [] -> p_vl p2 = pair_verts w' (wcell w' a) (wcell w' b) (p_vl p1)).
Proof.
  intros Hh H E1 E2 H1 H2 Hab. assert (Gd := good_run h cd_create s Hh H good_create).
  cbn [run_op] in E1, E2.
  destruct (check_is w CkVert s Gd) as (s1' & K1 & Gd1 & Ef1 & Ep1 & _); [discriminate|].
  rewrite E1 in K1. injection K1 as <-.
  destruct (check_is w' CkVert s1 Gd1) as (s2' & K2 & Gd2 & Ef2 & Ep2 & _); [discriminate|].
  rewrite E2 in K2. injection K2 as <-. cbn [check_pair] in Ep1, Ep2.
  assert (G2 := of_get2 _ _ _ _ (proj1 (proj1 Gd2)) Hab).
  rewrite Ep2, nth_error_map, H1 in H2. cbn in H2. injection H2 as H2.
  assert (En2 : ends p2 = ends p1) by (rewrite <- H2; apply (check_pair_ends w' CkVert)).
  rewrite (get2_ends _ _ _ En2) in G2.
  rewrite Ep1, nth_error_map in H1. destruct (nth_error (d_pairs s) i) as [p0|] eqn:N0; [|discriminate].
  cbn in H1. injection H1 as H1. assert (En1 : ends p1 = ends p0) by (rewrite <- H1; apply (check_pair_ends w CkVert)).
  rewrite (get2_ends _ _ _ En1) in G2.
  assert (V1 := cells_of_fixedb (fun a b => pair_verts w (wcell w a) (wcell w b) (p_vl p0)) [] (d_cells s) (d_cells s2) p0
                 (resp_verts w (p_vl p0)) (eq_trans Ef2 Ef1)).
  assert (V2 := cells_of_fixedb (fun a b => pair_verts w' (wcell w' a) (wcell w' b) (p_vl p1)) [] (d_cells s1) (d_cells s2) p1
                 (resp_verts w' (p_vl p1)) Ef2).
  unfold cells_of in V1 at 1. rewrite G2 in V1.
  unfold cells_of in V2 at 1. rewrite (get2_ends _ _ _ En1), G2 in V2.
  split; [|split].
  - assert (I2 : In p2 (d_pairs s2)).
    { rewrite Ep2, <- H2. apply in_map. rewrite Ep1, <- H1. apply in_map. eapply nth_error_In. exact N0. }
    destruct Hab as (Ha & Hb & Ea & Eb). destruct (proj1 (proj2 (proj1 Gd2)) p2 I2) as (_ & _ & D). congruence.
  - rewrite <- H1. unfold vchk. rewrite <- V1. destruct (cells_of (outcome CkVert w) false (d_cells s) p0); [|now intros []].
    intros _. exists (p_vl p0). reflexivity.
  - rewrite <- H2. unfold vchk. rewrite <- V2. destruct (cells_of (outcome CkVert w') false (d_cells s1) p1); [|now intros []].
    reflexivity.
Qed.

(** Moved with the body whose frame goes from f to f'. *)
Definition moved (f f' : frame F) (x : vec3 F) : vec3 F := xform f' (xforminv f x).
Definition turned (f f' : frame F) (x : vec3 F) : vec3 F := m3v (fatt f') (m3tv (fatt f) x).

Lemma moved_turned (f f' : frame F) y : moved f f' y = v3add (turned f f' y) (moved f f' v3zero).
Proof. unfold moved, turned. vring. Qed.
Lemma add_sub_l (y d : vec3 F) : d = v3sub (v3add y d) y.
Proof. vring. Qed.
Lemma xform_add (f : frame F) u v : xform f (v3add u v) = v3add (xform f u) (m3v (fatt f) v).
Proof. vring. Qed.
Lemma xform_sub (f : frame F) u v : v3sub (xform f u) (xform f v) = m3v (fatt f) (v3sub u v).
Proof. vring. Qed.
Lemma proj_dot (u z n : vec3 F) : v3sqr n <> n0 -> v3dot n (v3sub (v3add z (v3proj (v3sub u z) n)) u) = n0.
Proof.
  intros Hn. unfold v3proj. set (k := (v3dot (v3sub u z) n / v3sqr n)%num).
  assert (E : v3dot n (v3sub (v3add z (v3scale k n)) u) = (k * v3sqr n - v3dot (v3sub u z) n)%num) by (clearbody k; clear Hn; vring).
  rewrite E. unfold k. field. exact Hn.
Qed.

Lemma carried (h : hist) (s s1 s2 : cd) w w' i p1 p2 a b v1 v2 :
  Forall (fun e => no_obbvert (snd e)) h -> run h cd_create = Some s ->
  run_op w (Check CkVert) s = Some s1 -> run_op w' (Check CkVert) s1 = Some s2 ->
  nth_error (d_pairs s1) i = Some p1 -> nth_error (d_pairs s2) i = Some p2 -> of_cells s2 p2 a b ->
  In v1 (p_vl p1) -> In v2 (p_vl p2) -> t_cell v1 = t_cell v2 -> t_idx v1 = t_idx v2 ->
  rigid (w (other_link a b v2)) ->
  stored (w (other_link a b v2)) v1 /\
  exists c x, (c = a \/ c = b) /\ t_cell v2 = k_addr c /\ nth_error (vts (wph w' c)) (t_idx v2) = Some x /\
    v2 = vert_again (w' (other_link a b v2)) (wcell w' c) (t_idx v2) x v1.
Proof.
  intros Hh H E1 E2 H1 H2 Hab I1 I2 Ec Ei R.
  destruct (two_checks h s s1 s2 w w' i p1 p2 a b Hh H E1 E2 H1 H2 Hab) as (D & T1 & T2).
  destruct T1 as (old & T1); [intros K; rewrite K in I1; destruct I1|].
  rewrite T2 in I2 by (intros K; rewrite K in I2; destruct I2). clear T2.
  assert (U : forall u, In u (p_vl p1) -> t_cell u = t_cell v1 -> t_idx u = t_idx v1 -> u = v1).
  { intros u Hu Eu Eu'. rewrite T1 in *. apply (verts_uniq w (wcell w a) (wcell w b) old); auto. }
  assert (Fi : forall c, t_cell v2 = k_addr c -> t_buf v1 = k_buf c -> find (same_vert (wcell w' c) (t_idx v2)) (rev (p_vl p1)) = Some v1).
  { intros c Hc Hb. destruct (find (same_vert (wcell w' c) (t_idx v2)) (rev (p_vl p1))) as [u|] eqn:E.
    - apply find_some in E. destruct E as [Iu Su]. apply in_rev in Iu. unfold same_vert in Su.
      rewrite !andb_true_iff, !Nat.eqb_eq in Su. destruct Su as [[S1 S2] S3]. cbn in S1. f_equal. apply U; congruence.
    - exfalso. assert (K := find_none _ _ E v1 (proj1 (in_rev _ _) I1)). revert K. unfold same_vert. cbn.
      rewrite Ec, Ei, Hc, Hb, !Nat.eqb_refl. discriminate. }
  rewrite T1 in I1. apply verts_in in I1. apply verts_in in I2. cbn [wcell k_addr k_link k_ph] in I1, I2. unfold other_link in *.
  destruct I1 as [[I1 C1]|[I1 C1]], I2 as [[I2 C2]|[I2 C2]]; try congruence.
  - rewrite C2, Nat.eqb_refl in *. apply scan_in in I1. destruct I1 as (j & y & _ & _ & _ & Bf & Rg).
    split; [eapply reg_stored; eassumption|].
    apply scan_in in I2. destruct I2 as (j' & x & Nx & Ij & _ & _ & Rg2). cbn [Nat.add] in *. rewrite <- Ij in *.
    exists a, x. split; [now left|]. split; [reflexivity|]. split; [exact Nx|].
    unfold vert_reg in Rg2. rewrite Fi in Rg2; [congruence | reflexivity | exact Bf].
  - assert (Z : (k_addr b =? k_addr a) = false) by (apply Nat.eqb_neq; congruence).
    rewrite C2, Z in *. apply scan_in in I1. destruct I1 as (j & y & _ & _ & _ & Bf & Rg).
    split; [eapply reg_stored; eassumption|].
    apply scan_in in I2. destruct I2 as (j' & x & Nx & Ij & _ & _ & Rg2). cbn [Nat.add] in *. rewrite <- Ij in *.
    exists b, x. split; [now right|]. split; [reflexivity|]. split; [exact Nx|].
    unfold vert_reg in Rg2. rewrite Fi in Rg2; [congruence | reflexivity | exact Bf].
Qed.

(** ** C58 *)

(** A vertex in contact at two successive vertex checks: its normal turns with the other body. *)
Theorem C58_norm_partial (h : hist) (s s1 s2 : cd) w w' i p1 p2 a b v1 v2 :
  Forall (fun e => no_obbvert (snd e)) h -> run h cd_create = Some s ->
  run_op w (Check CkVert) s = Some s1 -> run_op w' (Check CkVert) s1 = Some s2 ->
  nth_error (d_pairs s1) i = Some p1 -> nth_error (d_pairs s2) i = Some p2 -> of_cells s2 p2 a b ->
  In v1 (p_vl p1) -> In v2 (p_vl p2) -> t_cell v1 = t_cell v2 -> t_idx v1 = t_idx v2 ->
  rigid (w (other_link a b v2)) ->
  t_norm v2 = turned (w (other_link a b v2)) (w' (other_link a b v2)) (t_norm v1).
Proof.
  intros Hh H E1 E2 H1 H2 Hab I1 I2 Ec Ei R.
  destruct (carried h s s1 s2 w w' i p1 p2 a b v1 v2) as (St & c & x & _ & _ & _ & E); auto.
  rewrite E at 1. cbn. destruct St as (St & _). now rewrite St.
Qed.

(** In particular it is unchanged by translations. *)
Corollary C58_norm_translated_partial (h : hist) (s s1 s2 : cd) w w' i p1 p2 a b v1 v2 :
  Forall (fun e => no_obbvert (snd e)) h -> run h cd_create = Some s ->
  run_op w (Check CkVert) s = Some s1 -> run_op w' (Check CkVert) s1 = Some s2 ->
  nth_error (d_pairs s1) i = Some p1 -> nth_error (d_pairs s2) i = Some p2 -> of_cells s2 p2 a b ->
  In v1 (p_vl p1) -> In v2 (p_vl p2) -> t_cell v1 = t_cell v2 -> t_idx v1 = t_idx v2 ->
  rigid (w (other_link a b v2)) -> fatt (w' (other_link a b v2)) = fatt (w (other_link a b v2)) ->
  t_norm v2 = t_norm v1.
Proof.
  intros Hh H E1 E2 H1 H2 Hab I1 I2 Ec Ei R Et.
  rewrite (C58_norm_partial h s s1 s2 w w' i p1 p2 a b v1 v2); auto. unfold turned. rewrite Et. now apply rot_v_tv.
Qed.

(** The axes of such a vertex move like points of the other body: a translation of it is added to each of them.
    They are kept if the other body does not move, or in general turn like directions exactly when the
    displacement of the other body leaves the origin of the world frame where it is. *)
Theorem C58_axis_defect_partial (h : hist) (s s1 s2 : cd) w w' i p1 p2 a b v1 v2 :
  Forall (fun e => no_obbvert (snd e)) h -> run h cd_create = Some s ->
  run_op w (Check CkVert) s = Some s1 -> run_op w' (Check CkVert) s1 = Some s2 ->
  nth_error (d_pairs s1) i = Some p1 -> nth_error (d_pairs s2) i = Some p2 -> of_cells s2 p2 a b ->
  In v1 (p_vl p1) -> In v2 (p_vl p2) -> t_cell v1 = t_cell v2 -> t_idx v1 = t_idx v2 ->
  rigid (w (other_link a b v2)) ->
  let f := w (other_link a b v2) in let f' := w' (other_link a b v2) in
  t_axis v2 = map3 (fun x => v3add (turned f f' x) (moved f f' v3zero)) (t_axis v1) /\
  (t_axis v2 = map3 (turned f f') (t_axis v1) <-> moved f f' v3zero = v3zero).
Proof.
  intros Hh H E1 E2 H1 H2 Hab I1 I2 Ec Ei R. cbv zeta.
  destruct (carried h s s1 s2 w w' i p1 p2 a b v1 v2) as (St & c & x & _ & _ & _ & E); auto.
  assert (A : t_axis v2 = map3 (moved (w (other_link a b v2)) (w' (other_link a b v2))) (t_axis v1)).
  { rewrite E at 1. cbn. destruct St as (_ & St & _). rewrite St. destruct (t_axis v1) as [[x0 x1] x2]. reflexivity. }
  rewrite A. destruct (t_axis v1) as [[x0 x1] x2]. cbn [map3]. rewrite (moved_turned _ _ x0), (moved_turned _ _ x1), (moved_turned _ _ x2).
  split; [reflexivity|]. generalize (moved (w (other_link a b v2)) (w' (other_link a b v2)) v3zero). intros d.
  split.
  - intros K. apply (f_equal (fun t => fst (fst t))) in K. cbn [fst] in K. revert K. generalize (turned (w (other_link a b v2)) (w' (other_link a b v2)) x0).
    intros y K. now rewrite (add_sub_l y d), K, v3sub_diag.
  - intros ->. now rewrite !v3add_0_r.
Qed.

(** The contacts of a pair that had none before have the same normals and axes when both bodies are
    translated, if the functions for the inside and the closest point commute with translations. *)
Definition shifted (t : vec3 F) (P : ph F) : ph F := PH (map (v3add t) (vts P)) (fcs P).
Definition shift_frame (t : vec3 F) (f : frame F) : frame F := Fr (v3add t (fpos f)) (fatt f).
Definition dirs (v : vert) := (t_cell v, t_idx v, t_norm v, t_axis v).

Lemma shift_xform t (f : frame F) x : xform (shift_frame t f) x = v3add t (xform f x).
Proof. unfold shift_frame. vring. Qed.
Lemma shift_sub (t u v : vec3 F) : v3sub (v3add t u) (v3add t v) = v3sub u v.
Proof. vring. Qed.

Lemma scan_shift t (f1 f1' : frame F) (a a' b b' : cell) i xs :
  (forall P x, x_closest (shifted t P) (v3add t x) = v3add t (x_closest P x)) ->
  (forall P x, x_inside (shifted t P) (v3add t x) = x_inside P x) ->
  k_ph b' = shifted t (k_ph b) -> k_addr a' = k_addr a ->
  map dirs (vert_scan f1' [] a' b' i (map (v3add t) xs)) = map dirs (vert_scan f1 [] a b i xs).
Proof.
  intros Hc Hi Hb Ha. revert i. induction xs as [|x tl IH]; intros i; [reflexivity|]. cbn [map vert_scan].
  rewrite Hb, Hi. destruct (x_inside (k_ph b) x); [|apply IH]. unfold vert_reg. cbn [rev find]. unfold vert_new.
  rewrite Hb, Hc, shift_sub. destruct (x_vtiny _); [apply IH|]. cbn [map]. rewrite IH. unfold dirs. cbn. now rewrite Ha.
Qed.

Theorem C58_fresh_partial (h : hist) (s s1 s2 : cd) w w' t i p p1 p2 a b :
  (forall P x, x_closest (shifted t P) (v3add t x) = v3add t (x_closest P x)) ->
  (forall P x, x_inside (shifted t P) (v3add t x) = x_inside P x) ->
  Forall (fun e => no_obbvert (snd e)) h -> run h cd_create = Some s ->
  nth_error (d_pairs s) i = Some p -> of_cells s p a b -> p_vl p = [] -> k_type a = Move -> k_type b = Move ->
  w' (k_link a) = shift_frame t (w (k_link a)) -> w' (k_link b) = shift_frame t (w (k_link b)) ->
  run_op w (Check CkVert) s = Some s1 -> run_op w' (Check CkVert) s = Some s2 ->
  nth_error (d_pairs s1) i = Some p1 -> nth_error (d_pairs s2) i = Some p2 -> p_col p1 = true -> p_col p2 = true ->
  map dirs (p_vl p1) = map dirs (p_vl p2).
Proof.
  intros Hc Hi Hh H Hp Hab Hv Ma Mb Wa Wb E1 E2 H1 H2 C1 C2. assert (Gd := good_run h cd_create s Hh H good_create).
  cbn [run_op] in E1, E2. assert (G := of_get2 _ _ _ _ (proj1 (proj1 Gd)) Hab).
  assert (T : forall w s1 p1, do_check w CkVert s = Some s1 -> nth_error (d_pairs s1) i = Some p1 -> p_col p1 = true ->
    p_vl p1 = pair_verts w (wcell w a) (wcell w b) []).
  { clear - Gd G Hp Hv. intros w s1 p1 E1 H1 C1. destruct (check_is w CkVert s Gd) as (s1' & K1 & _ & _ & Ep1 & _); [discriminate|].
    rewrite E1 in K1. injection K1 as <-. cbn [check_pair] in Ep1. rewrite Ep1, nth_error_map, Hp in H1. cbn in H1. injection H1 as <-.
    unfold vchk in *. unfold cells_of at 2. unfold cells_of at 2 in C1. rewrite G, Hv in *.
    destruct (cells_of (outcome CkVert w) false (d_cells s) p); [reflexivity | discriminate C1]. }
  rewrite (T w s1 p1 E1 H1 C1), (T w' s2 p2 E2 H2 C2). clear T. unfold pair_verts. rewrite !map_app. cbn [wcell k_link k_ph].
  assert (S : forall c, (c = a \/ c = b) -> wph w' c = shifted t (wph w c)).
  { intros c K. assert (Mc : k_type c = Move) by (destruct K; congruence).
    assert (Wc : w' (k_link c) = shift_frame t (w (k_link c))) by (destruct K; congruence).
    unfold wph, place, shifted, pose. rewrite Mc, Wc. cbn. rewrite map_map. f_equal. apply map_ext. intros x. apply shift_xform. }
  rewrite !S by auto. cbn [shifted vts]. symmetry. f_equal; (apply scan_shift; auto; cbn; rewrite S by auto; reflexivity).
Qed.

(** ** C68 *)

(** Such a vertex keeps its reference point on the other body, its new projection lies on the normal through the
    vertex, and in the contact plane the other body carries along. *)
Theorem C68_contact_plane (h : hist) (s s1 s2 : cd) w w' i p1 p2 a b v1 v2 :
  Forall (fun e => no_obbvert (snd e)) h -> run h cd_create = Some s ->
  run_op w (Check CkVert) s = Some s1 -> run_op w' (Check CkVert) s1 = Some s2 ->
  nth_error (d_pairs s1) i = Some p1 -> nth_error (d_pairs s2) i = Some p2 -> of_cells s2 p2 a b ->
  In v1 (p_vl p1) -> In v2 (p_vl p2) -> t_cell v1 = t_cell v2 -> t_idx v1 = t_idx v2 ->
  let f := w (other_link a b v2) in let f' := w' (other_link a b v2) in
  rigid f -> rigid f' ->
  t_ref v2 = moved f f' (t_ref v1) /\
  (exists c x, (c = a \/ c = b) /\ t_cell v2 = k_addr c /\ nth_error (vts (wph w' c)) (t_idx v2) = Some x /\
     exists k, t_pro v2 = v3add x (v3scale k (t_norm v2))) /\
  (v3sqr (t_norm v1) <> n0 -> v3dot (t_norm v2) (v3sub (t_pro v2) (moved f f' (t_pro v1))) = n0).
Proof.
  cbv zeta. intros Hh H E1 E2 H1 H2 Hab I1 I2 Ec Ei R R'.
  destruct (carried h s s1 s2 w w' i p1 p2 a b v1 v2) as (St & c & x & Hc & Hc' & Nx & E); auto.
  destruct St as (S1 & _ & S3 & S4).
  assert (Er : t_ref v2 = moved (w (other_link a b v2)) (w' (other_link a b v2)) (t_ref v1)).
  { rewrite E at 1. cbn. now rewrite S4. }
  assert (Ep : t_pro v2 = xform (w' (other_link a b v2)) (v3add (xforminv (w' (other_link a b v2)) x)
     (v3proj (v3sub (t_lpro v1) (xforminv (w' (other_link a b v2)) x)) (t_lnorm v1)))) by (rewrite E at 1; reflexivity).
  assert (En : t_norm v2 = m3v (fatt (w' (other_link a b v2))) (t_lnorm v1)) by (rewrite E at 1; reflexivity).
  unfold moved in *. rewrite <- S3.
  assert (Q : v3sqr (t_norm v1) = v3sqr (t_lnorm v1)).
  { rewrite S1. unfold v3sqr. rewrite v3dot_m3tv, rot_v_tv by exact R. reflexivity. }
  clear E S1 S3 S4. revert R R' Er Ep En. generalize (w (other_link a b v2)) (w' (other_link a b v2)). intros f f' R R' Er Ep En.
  split; [exact Er|]. split.
  - exists c, x. split; [exact Hc|]. split; [exact Hc'|]. split; [exact Nx|].
    eexists. rewrite Ep, En. unfold v3proj.
    set (k := (_ / _)%num). rewrite <- m3v_scale_r.
    rewrite xform_add, xform_xforminv by exact R'. reflexivity.
  - rewrite Q. intros Hn. rewrite Ep, En, xform_sub, rot_dot by exact R'. now apply proj_dot.
Qed.
End Vert.

(** ** Concrete cases *)

(** The unit block on link 10 dips into the slab on link 20; both are moving chains. *)
Definition slab2 : op Qc := ChainReg 2 Move [(20, 201, slab)].
Definition both (x y : Z) (l : nat) : frame Qc :=
  match l with
  | 10 => Fr (V3 (q x 1) (q 0 1) (q (-1) 2)) m3id
  | _ => Fr (V3 (q y 1) (q 0 1) (q 0 1)) m3id
  end.
Definition pre2 : list ((nat -> frame Qc) * op Qc) := [(both 9 0, box1); (both 9 0, slab2)].

(** A vector as three fractions. *)
Definition q3 (v : vec3 Qc) : Q * Q * Q := (this (vx v), this (vy v), this (vz v)).
Definition vcon (s : qcd) :=
  map (fun p => map (fun v => (t_cell v, t_idx v, q3 (t_norm v), q3 (fst (fst (t_axis v))))) (p_vl p)) (d_pairs s).

(** Both bodies are translated by 5 along x between two checks: the normals of the contacts stay (0,0,1), the
    first axes become (5,0,1). *)
Theorem C58_axis_refuted : exists s1 s2 : qcd,
  qrun (pre2 ++ [(both 0 0, Check CkVert)]) cd_create = Some s1 /\
  qrun (pre2 ++ [(both 0 0, Check CkVert); (both 5 5, Check CkVert)]) cd_create = Some s2 /\
  vcon s1 = [map (fun i => (101, i, (0, 0, 1)%Q, (0, 0, 1)%Q)) [0; 1; 2; 3]] /\
  vcon s2 = [map (fun i => (101, i, (0, 0, 1)%Q, (5, 0, 1)%Q)) [0; 1; 2; 3]].
Proof.
  view (qrun (pre2 ++ [(both 0 0, Check CkVert)]) cd_create) (@vflags Qc (gbox Qc) (gaab Qc)) vcon s1 R1 E1 N1.
  view (qrun (pre2 ++ [(both 0 0, Check CkVert); (both 5 5, Check CkVert)]) cd_create) (@vflags Qc (gbox Qc) (gaab Qc)) vcon s2 R2 E2 N2.
  exists s1, s2. split; [exact R1|]. split; [exact R2|]. rewrite N1, N2. split; reflexivity.
Qed.

(** A slab turned by a quarter turn about z and moved, with its contacts. *)
Definition quarter (l : nat) : frame Qc :=
  match l with
  | 10 => Fr (V3 (q 0 1) (q 0 1) (q (-1) 4)) m3id
  | _ => Fr (V3 (q 0 1) (q 1 1) (q 0 1)) (M3 (V3 (q 0 1) (q (-1) 1) (q 0 1)) (V3 (q 1 1) (q 0 1) (q 0 1)) (V3 (q 0 1) (q 0 1) (q 1 1)))
  end.
Definition vpro (s : qcd) := map (fun p => map (fun v => (q3 (t_pro v), q3 (t_ref v))) (p_vl p)) (d_pairs s).

Example C58_ex : exists s2 : qcd,
  qrun (pre2 ++ [(both 0 0, Check CkVert); (quarter, Check CkVert)]) cd_create = Some s2 /\
  map (firstn 2) (vcon s2) = [map (fun i => (101, i, (0, 0, 1)%Q, (0, 1, 1)%Q)) [0; 1]].
Proof.
  view (qrun (pre2 ++ [(both 0 0, Check CkVert); (quarter, Check CkVert)]) cd_create) (@vflags Qc (gbox Qc) (gaab Qc)) vcon s2 R2 E2 N2.
  exists s2. split; [exact R2|]. rewrite N2. reflexivity.
Qed.

(** The vertex 1 of the block stays at (1,0), its reference point turns with the slab to (0,0). *)
Example C68_ex : exists s2 : qcd,
  qrun (pre2 ++ [(both 0 0, Check CkVert); (quarter, Check CkVert)]) cd_create = Some s2 /\
  map (fun l => nth 1 l ((0, 0, 0)%Q, (0, 0, 0)%Q)) (vpro s2) = [((1, 0, 0)%Q, (0, 0, 0)%Q)].
Proof.
  view (qrun (pre2 ++ [(both 0 0, Check CkVert); (quarter, Check CkVert)]) cd_create) (@vflags Qc (gbox Qc) (gaab Qc)) vpro s2 R2 E2 N2.
  exists s2. split; [exact R2|]. rewrite N2. reflexivity.
Qed.

Print Assumptions C58_norm_partial.
Print Assumptions C58_norm_translated_partial.
Print Assumptions C58_axis_defect_partial.
Print Assumptions C58_fresh_partial.
Print Assumptions C58_axis_refuted.
Print Assumptions C68_contact_plane.
