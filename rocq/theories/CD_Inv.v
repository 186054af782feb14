(** * CD_Inv: the cached geometry of the cells during and between checks. *)

From Coq Require Import Bool List Arith Lia.
From Verif Require Import Num Vec CD_Model CD_Spec CD_Proofs.
Import ListNotations.

Section Inv.
Context {F BX AB : Type} {N : Num F} {X : CDExt F BX AB}.
Notation cell := (cell F BX AB).
Notation cd := (cd F BX AB).
Notation pair := (pair F).
Notation op := (op F).
Implicit Types (cs : list cell) (c : cell) (ps : list pair) (p : pair) (s : cd) (w : nat -> frame F).

(** Between checks. *)
Definition base_ok c : Prop :=
  k_bb c = x_obb (vts (k_shape c)) /\
  match k_type c with
  | Stat => k_obb c = x_bxf (k_bb c) (k_reg c) /\ k_aabb c = x_aab (k_obb c) /\ k_ph c = place (k_shape c) (k_reg c)
  | Move => length (vts (k_ph c)) = length (vts (k_shape c)) /\ fcs (k_ph c) = fcs (k_shape c)
  end.

Definition boxed w c : Prop := k_obb c = wbox w c /\ k_aabb c = x_aab (wbox w c).
Definition phd w c : Prop := k_ph c = wph w c.

(** During a check with link frames w: what is marked as updated is up to date. *)
Definition cell_ok w c : Prop :=
  base_ok c /\ (k_type c = Move -> k_bbf c = true -> boxed w c) /\ (k_type c = Move -> k_phf c = true -> phd w c).

(** Data unchanged by the updates of a check (other than rkCDColChkOBBVert). *)
Definition fixedb c := (fixed c, k_bb c, k_buf c).

Definition le_cell w c c' : Prop := fixedb c' = fixedb c /\ (boxed w c -> boxed w c') /\ (phd w c -> phd w c').
Definition le_cells w cs cs' : Prop := Forall2 (le_cell w) cs cs'.

Lemma le_cell_refl w c : le_cell w c c.
Proof. unfold le_cell. auto. Qed.
Lemma le_cell_trans w a b c : le_cell w a b -> le_cell w b c -> le_cell w a c.
Proof. intros (A1 & A2 & A3) (B1 & B2 & B3). split; [congruence|]. auto. Qed.
Lemma le_refl w cs : le_cells w cs cs.
Proof. induction cs; constructor; [apply le_cell_refl | assumption]. Qed.
Lemma le_trans w cs1 cs2 cs3 : le_cells w cs1 cs2 -> le_cells w cs2 cs3 -> le_cells w cs1 cs3.
Proof.
  intros H. revert cs3. induction H as [|a b l l' H1 H2 IH]; intros cs3 K; inversion K; subst; constructor.
  - eapply le_cell_trans; eassumption.
  - now apply IH.
Qed.

Lemma le_addr w cs cs' : le_cells w cs cs' -> map k_addr cs' = map k_addr cs.
Proof.
  induction 1 as [|a b l l' H1 H2 IH]; cbn; [reflexivity|]. f_equal; [|assumption].
  destruct H1 as (E & _). unfold fixedb, fixed in E. congruence.
Qed.
Lemma le_fixed w cs cs' : le_cells w cs cs' -> map fixedb cs' = map fixedb cs.
Proof.
  induction 1 as [|a b l l' H1 H2 IH]; cbn; [reflexivity|]. f_equal; [|assumption]. apply H1.
Qed.

Lemma le_get w cs cs' a c : le_cells w cs cs' -> get_cell cs a = Some c ->
  exists c', get_cell cs' a = Some c' /\ le_cell w c c'.
Proof.
  unfold get_cell. induction 1 as [|x y l l' H1 H2 IH]; cbn [find]; [discriminate|].
  assert (E : k_addr y = k_addr x) by (destruct H1 as (E & _); unfold fixedb, fixed in E; congruence).
  rewrite E. destruct (k_addr x =? a).
  - intros H. injection H as <-. eauto.
  - exact IH.
Qed.

(** Writing an updated cell back. *)
Lemma put_le w cs a c c' : NoDup (map k_addr cs) -> get_cell cs a = Some c -> le_cell w c c' ->
  le_cells w cs (put_cell cs c') /\ get_cell (put_cell cs c') a = Some c'.
Proof.
  intros D G Lc. assert (E : k_addr c' = k_addr c) by (destruct Lc as (E & _); unfold fixedb, fixed in E; congruence).
  destruct (get_cell_in _ _ _ G) as [Hc Ea]. split.
  - assert (T : forall l, (forall x, In x l -> In x cs) -> le_cells w l (put_cell l c')).
    { induction l as [|x tl IH]; intros I; cbn; constructor.
      - destruct (k_addr x =? k_addr c') eqn:K; [|apply le_cell_refl]. apply Nat.eqb_eq in K.
        rewrite (addr_inj cs x c D); [assumption | apply I; now left | assumption | congruence].
      - apply IH. intros y Hy. apply I. now right. }
    apply T. auto.
  - unfold get_cell, put_cell in *. clear D Hc. induction cs as [|x tl IH]; [discriminate|]. cbn [map find] in *.
    destruct (k_addr x =? a) eqn:K.
    + injection G as <-. rewrite E, Nat.eqb_refl. rewrite E. now rewrite K.
    + destruct (k_addr x =? k_addr c') eqn:K'; [apply Nat.eqb_eq in K'; apply Nat.eqb_neq in K; congruence|].
      rewrite K. now apply IH.
Qed.

Lemma put_forall (P : cell -> Prop) cs c : Forall P cs -> P c -> Forall P (put_cell cs c).
Proof.
  intros H Hc. unfold put_cell. induction H; cbn; constructor; [|assumption]. now destruct (k_addr x =? k_addr c).
Qed.

Lemma stat_boxed w c : base_ok c -> k_type c = Stat -> boxed w c /\ phd w c.
Proof.
  unfold base_ok, boxed, phd, wbox, wph, pose. intros [B K] T. rewrite T in *. destruct K as (K1 & K2 & K3).
  rewrite <- B, K2, K1. auto.
Qed.

Lemma cell_bb_ok w c : cell_ok w c -> le_cell w c (cell_bb w c) /\ cell_ok w (cell_bb w c) /\ boxed w (cell_bb w c).
Proof.
  intros OK. destruct (OK) as (B & O1 & O2). unfold cell_bb. destruct (k_type c) eqn:T.
  - split; [apply le_cell_refl|]. split; [exact OK|]. now apply stat_boxed.
  - destruct (k_bbf c) eqn:E.
    + split; [apply le_cell_refl|]. split; [exact OK | auto].
    + assert (Bx : boxed w (Cell (k_addr c) (k_chain c) (k_link c) Move (k_shape c) (k_bb c)
          (x_aab (x_bxf (k_bb c) (w (k_link c)))) (x_bxf (k_bb c) (w (k_link c))) (k_ph c) (k_buf c) true (k_phf c) (k_reg c))).
      { unfold boxed, wbox, pose. cbn. rewrite <- (proj1 B). auto. }
      assert (Ph : forall obb aabb f, phd w c <-> phd w (Cell (k_addr c) (k_chain c) (k_link c) Move (k_shape c) (k_bb c)
          aabb obb (k_ph c) (k_buf c) f (k_phf c) (k_reg c))).
      { intros. unfold phd, wph, pose. cbn. now rewrite T. }
      split; [|split; [|exact Bx]].
      * split; [unfold fixedb, fixed; cbn; now rewrite T|]. split; [auto | apply Ph].
      * split.
        -- destruct B as [B1 B2]. rewrite T in B2. split; cbn; auto.
        -- split; [auto|]. cbn. intros _ Hf. apply Ph. auto.
Qed.

Lemma cell_ph_ok w c : cell_ok w c ->
  exists c', cell_ph w c = Some c' /\ le_cell w c c' /\ cell_ok w c' /\ phd w c'.
Proof.
  intros OK. destruct (OK) as (B & O1 & O2). unfold cell_ph. destruct (k_type c) eqn:T.
  - exists c. split; [reflexivity|]. split; [apply le_cell_refl|]. split; [exact OK|].
    now apply stat_boxed.
  - destruct (k_phf c) eqn:E.
    + exists c. split; [reflexivity|]. split; [apply le_cell_refl|]. split; [exact OK | auto].
    + assert (B' := B). destruct B' as [B1 B2]. rewrite T in B2. destruct B2 as [B2 B3].
      unfold ph_xform. rewrite B2, B3, !Nat.leb_refl. cbn [andb].
      rewrite skipn_all2 by (rewrite B2; auto). rewrite app_nil_r.
      eexists. split; [reflexivity|].
      set (c' := Cell (k_addr c) _ _ _ _ _ _ _ _ _ _ _ _).
      assert (Ph : phd w c') by (unfold phd, wph, place, pose; cbn; now rewrite ?T).
      assert (Bx : boxed w c <-> boxed w c') by (unfold boxed, wbox, pose; cbn; now rewrite ?T).
      split; [|split; [|exact Ph]].
      * split; [unfold fixedb, fixed; cbn; now rewrite ?T|]. split; [apply Bx | auto].
      * split; [|split; [|auto]].
        -- split; [exact B1|]. cbn. rewrite ?T. split; [now rewrite map_length | reflexivity].
        -- cbn [c' k_bbf k_type]. intros _ Hf. apply Bx. auto.
Qed.

Definition inv w cs : Prop := NoDup (map k_addr cs) /\ Forall (cell_ok w) cs.

Lemma inv_get w cs a c : inv w cs -> get_cell cs a = Some c -> cell_ok w c.
Proof. intros [_ H] G. apply get_cell_in in G. rewrite Forall_forall in H. now apply H. Qed.

Lemma upd_bb_ok w cs a c : inv w cs -> get_cell cs a = Some c ->
  exists cs' c', upd_bb w cs a = Some cs' /\ inv w cs' /\ le_cells w cs cs' /\ get_cell cs' a = Some c' /\ boxed w c'.
Proof.
  intros I G. unfold upd_bb. rewrite G. destruct (cell_bb_ok w c (inv_get _ _ _ _ I G)) as (H1 & H2 & H3).
  destruct I as [D A]. destruct (put_le w cs a c _ D G H1) as [P1 P2].
  exists (put_cell cs (cell_bb w c)), (cell_bb w c). split; [reflexivity|]. split; [|auto].
  split; [now rewrite (le_addr _ _ _ P1) | now apply put_forall].
Qed.

Lemma upd_ph_ok w cs a c : inv w cs -> get_cell cs a = Some c ->
  exists cs' c', upd_ph w cs a = Some cs' /\ inv w cs' /\ le_cells w cs cs' /\ get_cell cs' a = Some c' /\ phd w c'.
Proof.
  intros I G. unfold upd_ph. rewrite G. destruct (cell_ph_ok w c (inv_get _ _ _ _ I G)) as (c' & -> & H1 & H2 & H3).
  destruct I as [D A]. destruct (put_le w cs a c _ D G H1) as [P1 P2].
  exists (put_cell cs c'), c'. split; [reflexivity|]. split; [|auto].
  split; [now rewrite (le_addr _ _ _ P1) | now apply put_forall].
Qed.

Definition boxed2 w cs p : Prop := forall a b, get2 cs p = Some (a, b) -> boxed w a /\ boxed w b.

Lemma get2_le w cs cs' p a b : le_cells w cs cs' -> get2 cs p = Some (a, b) ->
  exists a' b', get2 cs' p = Some (a', b') /\ le_cell w a a' /\ le_cell w b b'.
Proof.
  unfold get2. intros Hl. destruct (get_cell cs (p_c0 p)) as [x|] eqn:E0; [|discriminate].
  destruct (get_cell cs (p_c1 p)) as [y|] eqn:E1; [|discriminate]. intros H. injection H as <- <-.
  destruct (le_get _ _ _ _ _ Hl E0) as (a' & -> & A). destruct (le_get _ _ _ _ _ Hl E1) as (b' & -> & B). eauto.
Qed.

Lemma upd2_bb_ok w cs p a b : inv w cs -> get2 cs p = Some (a, b) ->
  exists cs' a' b', upd2 (upd_bb w) cs p = Some cs' /\ inv w cs' /\ le_cells w cs cs' /\
    get2 cs' p = Some (a', b') /\ le_cell w a a' /\ le_cell w b b' /\ boxed w a' /\ boxed w b'.
Proof.
  intros I G. assert (G0 : get_cell cs (p_c0 p) = Some a /\ get_cell cs (p_c1 p) = Some b).
  { unfold get2 in G. destruct (get_cell cs (p_c0 p)); [|discriminate]. destruct (get_cell cs (p_c1 p)); [|discriminate].
    injection G as -> ->. auto. }
  destruct G0 as [G0 G1]. unfold upd2.
  destruct (upd_bb_ok w cs _ _ I G0) as (cs1 & a1 & -> & I1 & L1 & A1 & B1).
  destruct (le_get _ _ _ _ _ L1 G1) as (b1 & Gb & Lb).
  destruct (upd_bb_ok w cs1 _ _ I1 Gb) as (cs2 & b2 & -> & I2 & L2 & A2 & B2).
  destruct (le_get _ _ _ _ _ L2 A1) as (a2 & Ga & La).
  assert (L : le_cells w cs cs2) by (eapply le_trans; eassumption).
  destruct (get2_le _ _ _ _ _ _ L G) as (a' & b' & G2 & La' & Lb').
  exists cs2, a', b'. repeat (split; [assumption || reflexivity|]).
  unfold get2 in G2. rewrite Ga, A2 in G2. injection G2 as <- <-. split; [now apply La | assumption].
Qed.

Lemma upd2_ph_ok w cs p a b : inv w cs -> get2 cs p = Some (a, b) ->
  exists cs' a' b', upd2 (upd_ph w) cs p = Some cs' /\ inv w cs' /\ le_cells w cs cs' /\
    get2 cs' p = Some (a', b') /\ le_cell w a a' /\ le_cell w b b' /\ phd w a' /\ phd w b'.
Proof.
  intros I G. assert (G0 : get_cell cs (p_c0 p) = Some a /\ get_cell cs (p_c1 p) = Some b).
  { unfold get2 in G. destruct (get_cell cs (p_c0 p)); [|discriminate]. destruct (get_cell cs (p_c1 p)); [|discriminate].
    injection G as -> ->. auto. }
  destruct G0 as [G0 G1]. unfold upd2.
  destruct (upd_ph_ok w cs _ _ I G0) as (cs1 & a1 & -> & I1 & L1 & A1 & B1).
  destruct (le_get _ _ _ _ _ L1 G1) as (b1 & Gb & Lb).
  destruct (upd_ph_ok w cs1 _ _ I1 Gb) as (cs2 & b2 & -> & I2 & L2 & A2 & B2).
  destruct (le_get _ _ _ _ _ L2 A1) as (a2 & Ga & La).
  assert (L : le_cells w cs cs2) by (eapply le_trans; eassumption).
  destruct (get2_le _ _ _ _ _ _ L G) as (a' & b' & G2 & La' & Lb').
  exists cs2, a', b'. repeat (split; [assumption || reflexivity|]).
  unfold get2 in G2. rewrite Ga, A2 in G2. injection G2 as <- <-. split; [now apply La | assumption].
Qed.

(** ** Loops *)

(** What a step does to a pair and to the count, as a function of fixed data of its two cells. *)
Definition respects {A} (G : cell -> cell -> pair -> A) : Prop :=
  forall a a' b b' p, fixedb a' = fixedb a -> fixedb b' = fixedb b -> G a' b' p = G a b p.

Definition step_is w (pre : list cell -> pair -> Prop) (f : list cell -> pair -> option (list cell * pair * nat))
  (G : cell -> cell -> pair -> pair) (M : cell -> cell -> pair -> nat) (post : list cell -> pair -> Prop) : Prop :=
  forall cs p a b, inv w cs -> get2 cs p = Some (a, b) -> pre cs p ->
  exists cs', f cs p = Some (cs', G a b p, M a b p) /\ inv w cs' /\ le_cells w cs cs' /\ post cs' p.

Definition on_pair {A} (G : cell -> cell -> pair -> A) (d : pair -> A) cs p : A :=
  match get2 cs p with Some (a, b) => G a b p | None => d p end.

Lemma on_pair_le {A} w (G : cell -> cell -> pair -> A) d cs cs' p :
  respects G -> le_cells w cs cs' -> get2 cs p <> None -> on_pair G d cs' p = on_pair G d cs p.
Proof.
  intros R Hl H. unfold on_pair. destruct (get2 cs p) as [[a b]|] eqn:E; [|easy].
  destruct (get2_le _ _ _ _ _ _ Hl E) as (a' & b' & -> & (Ka & _) & (Kb & _)). now apply R.
Qed.

Lemma ploop_is w pre f G M post :
  step_is w pre f G M post -> respects G -> respects M ->
  (forall cs cs' p, le_cells w cs cs' -> pre cs p -> get2 cs p <> None -> pre cs' p) ->
  (forall cs cs' p, le_cells w cs cs' -> post cs p -> get2 cs p <> None -> post cs' p) ->
  forall ps cs, inv w cs -> (forall p, In p ps -> get2 cs p <> None /\ pre cs p) ->
  exists cs', ploop f cs ps = Some (cs', map (on_pair G (fun p => p) cs) ps, list_sum (map (on_pair M (fun _ => 0) cs) ps)) /\
    inv w cs' /\ le_cells w cs cs' /\ forall p, In p ps -> post cs' p.
Proof.
  intros S RG RM Pm Qm. induction ps as [|p tl IH]; intros cs I H; cbn [ploop].
  - exists cs. split; [reflexivity|]. split; [assumption|]. split; [apply le_refl | intros p []].
  - destruct (H p (or_introl eq_refl)) as [Hp Hpre]. destruct (get2 cs p) as [[a b]|] eqn:E; [|easy].
    destruct (S cs p a b I E Hpre) as (cs1 & Ef & I1 & L1 & P1). rewrite Ef.
    assert (Tg : forall x, In x tl -> get2 cs1 x <> None).
    { intros x Hx. destruct (H x (or_intror Hx)) as [K _]. destruct (get2 cs x) as [[u v]|] eqn:Eu; [|easy].
      destruct (get2_le _ _ _ _ _ _ L1 Eu) as (u' & v' & -> & _). discriminate. }
    destruct (IH cs1 I1) as (cs2 & E2 & I2 & L2 & P2).
    { intros x Hx. split; [now apply Tg|]. destruct (H x (or_intror Hx)). now apply (Pm cs). }
    rewrite E2. exists cs2. split.
    { cbn [map].
      assert (A : map (on_pair G (fun p => p) cs1) tl = map (on_pair G (fun p => p) cs) tl).
      { apply map_ext_in. intros x Hx. apply (on_pair_le w); auto. now apply H; right. }
      assert (B : map (on_pair M (fun _ => 0) cs1) tl = map (on_pair M (fun _ => 0) cs) tl).
      { apply map_ext_in. intros x Hx. apply (on_pair_le w); auto. now apply H; right. }
      assert (Eg : on_pair G (fun p => p) cs p = G a b p) by (unfold on_pair; now rewrite E).
      assert (Em : on_pair M (fun _ => 0) cs p = M a b p) by (unfold on_pair; now rewrite E).
      rewrite A, B, Eg, Em. reflexivity. }
    split; [assumption|]. split; [eapply le_trans; eassumption|].
    intros x [<-|Hx]; [|now apply P2]. apply (Qm cs1); auto.
    destruct (get2_le _ _ _ _ _ _ L1 E) as (u' & v' & -> & _). discriminate.
Qed.

(** ** The steps of the checks *)

Lemma wph_fixed w a a' : fixedb a' = fixedb a -> wph w a' = wph w a.
Proof.
  intros K. unfold fixedb, fixed in K. injection K as _ _ E1 E2 E3 E4 _ _. unfold wph, pose.
  now rewrite E1, E2, E3, E4.
Qed.
Lemma wbox_fixed w a a' : fixedb a' = fixedb a -> wbox w a' = wbox w a.
Proof.
  intros K. unfold fixedb, fixed in K. injection K as _ _ E1 E2 E3 E4 _ _. unfold wbox, pose.
  now rewrite E1, E2, E3, E4.
Qed.


Definition nopre cs p : Prop := True.
Definition bpost w cs p : Prop := boxed2 w cs p.

Lemma bpost_le w cs cs' p : le_cells w cs cs' -> boxed2 w cs p -> get2 cs p <> None -> boxed2 w cs' p.
Proof.
  intros Hl B H a b G. destruct (get2 cs p) as [[u v]|] eqn:E; [|easy]. destruct (B _ _ E) as [B1 B2].
  destruct (get2_le _ _ _ _ _ _ Hl E) as (u' & v' & E' & Lu & Lv). rewrite E' in G. injection G as <- <-.
  split; [now apply Lu | now apply Lv].
Qed.

Definition aabb2 w a b := x_caab (x_aab (wbox w a)) (x_aab (wbox w b)).
Definition obb2 w a b := x_cbox (wbox w a) (wbox w b).
Definition zcount (a b : cell) (p : pair) : nat := 0.

Lemma step_aabb_is w : step_is w nopre (step_aabb w) (fun a b p => if aabb2 w a b then set_col true p else p) zcount (bpost w).
Proof.
  intros cs p a b I G _. destruct (upd2_bb_ok w cs p a b I G) as (cs' & a' & b' & E & I' & Hl & G' & La & Lb & Ba & Bb).
  exists cs'. unfold step_aabb. rewrite E, G'. split.
  - unfold aabb2. rewrite (proj2 Ba), (proj2 Bb).
    rewrite (wbox_fixed w a a'), (wbox_fixed w b b') by (apply La || apply Lb). reflexivity.
  - split; [assumption|]. split; [assumption|]. intros x y Gx. rewrite G' in Gx. injection Gx as <- <-. auto.
Qed.

Lemma step_obb_is w : step_is w (boxed2 w) step_obb
  (fun a b p => if p_col p && negb (obb2 w a b) then set_col false p else p) zcount (bpost w).
Proof.
  intros cs p a b I G B. destruct (B _ _ G) as [Ba Bb]. exists cs. unfold step_obb. rewrite G. unfold obb2.
  rewrite (proj1 Ba), (proj1 Bb). split; [reflexivity|]. split; [assumption|]. split; [apply le_refl | exact B].
Qed.

Lemma step_gjk_is w : step_is w nopre (step_gjk w)
  (fun a b p => if p_col p && negb (x_cph (wph w a) (wph w b)) then set_col false p else p) zcount nopre.
Proof.
  intros cs p a b I G _. unfold step_gjk. destruct (p_col p).
  - destruct (upd2_ph_ok w cs p a b I G) as (cs' & a' & b' & E & I' & Hl & G' & La & Lb & Pa & Pb).
    exists cs'. rewrite E, G', Pa, Pb, (wph_fixed w a a'), (wph_fixed w b b') by (apply La || apply Lb).
    cbn [andb]. split; [|now split]. now destruct (x_cph (wph w a) (wph w b)).
  - exists cs. split; [reflexivity|]. split; [assumption|]. split; [apply le_refl | exact Logic.I].
Qed.

Lemma step_gjko_is w : step_is w nopre (step_gjko w)
  (fun a b p => if x_cph (wph w a) (wph w b) then set_col true p else p) zcount nopre.
Proof.
  intros cs p a b I G _. unfold step_gjko.
  destruct (upd2_ph_ok w cs p a b I G) as (cs' & a' & b' & E & I' & Hl & G' & La & Lb & Pa & Pb).
  exists cs'. rewrite E, G', Pa, Pb, (wph_fixed w a a'), (wph_fixed w b b') by (apply La || apply Lb).
  split; [reflexivity | now split].
Qed.

Lemma step_vol_is k w : step_is w nopre (step_vol k w)
  (fun a b p => if p_col p && negb (x_vol k (wph w a) (wph w b)) then set_col false p else p)
  (fun a b p => if p_col p && x_vol k (wph w a) (wph w b) then 1 else 0) nopre.
Proof.
  intros cs p a b I G _. unfold step_vol. destruct (p_col p).
  - destruct (upd2_ph_ok w cs p a b I G) as (cs' & a' & b' & E & I' & Hl & G' & La & Lb & Pa & Pb).
    exists cs'. rewrite E, G', Pa, Pb, (wph_fixed w a a'), (wph_fixed w b b') by (apply La || apply Lb).
    cbn [andb]. split; [|now split]. now destruct (x_vol k (wph w a) (wph w b)).
  - exists cs. split; [reflexivity|]. split; [assumption|]. split; [apply le_refl | exact Logic.I].
Qed.

(** The cell as the vertex check sees it. *)
Definition wcell w c : cell :=
  Cell (k_addr c) (k_chain c) (k_link c) (k_type c) (k_shape c) (k_bb c) (x_aab (wbox w c)) (wbox w c)
       (wph w c) (k_buf c) true true (k_reg c).

Lemma vert_scan_ext (f1 : frame F) old a a' b b' i xs :
  k_addr a' = k_addr a -> k_buf a' = k_buf a -> k_ph b' = k_ph b ->
  vert_scan f1 old a' b' i xs = vert_scan f1 old a b i xs.
Proof.
  intros E1 E2 E3. revert i. induction xs as [|x tl IH]; intros i; [reflexivity|]. cbn [vert_scan]. rewrite E3, IH.
  replace (vert_reg f1 old a' b' i x) with (vert_reg f1 old a b i x); [reflexivity|].
  unfold vert_reg. replace (find (same_vert a' i) (rev old)) with (find (same_vert a i) (rev old)).
  - unfold vert_again, vert_new. now rewrite E1, E2, E3.
  - apply f_equal2; [|reflexivity]. unfold same_vert. now rewrite E1, E2.
Qed.

Lemma pair_verts_ext w a a' b b' old :
  k_addr a' = k_addr a -> k_buf a' = k_buf a -> k_ph a' = k_ph a -> k_link a' = k_link a ->
  k_addr b' = k_addr b -> k_buf b' = k_buf b -> k_ph b' = k_ph b -> k_link b' = k_link b ->
  pair_verts w a' b' old = pair_verts w a b old.
Proof.
  intros A1 A2 A3 A4 B1 B2 B3 B4. unfold pair_verts. rewrite A4, B4, A3, B3.
  f_equal; apply vert_scan_ext; assumption.
Qed.

Definition verts2 w a b p := pair_verts w (wcell w a) (wcell w b) (p_vl p).

Lemma step_vert_is w : step_is w nopre (step_vert w)
  (fun a b p => if p_col p then set_verts (verts2 w a b p) p else set_vl [] p)
  (fun a b p => if p_col p then length (verts2 w a b p) else 0) nopre.
Proof.
  intros cs p a b I G _. unfold step_vert. destruct (p_col p).
  - destruct (upd2_ph_ok w cs p a b I G) as (cs' & a' & b' & E & I' & Hl & G' & La & Lb & Pa & Pb).
    exists cs'. rewrite E, G'. split; [|now split].
    replace (pair_verts w a' b' (p_vl p)) with (verts2 w a b p); [reflexivity|].
    unfold verts2. destruct La as (La & _), Lb as (Lb & _).
    unfold phd in Pa, Pb. rewrite (wph_fixed w a a' La) in Pa. rewrite (wph_fixed w b b' Lb) in Pb.
    unfold fixedb, fixed in La, Lb. injection La as A1 _ A2 _ _ _ _ A3. injection Lb as B1 _ B2 _ _ _ _ B3.
    apply pair_verts_ext; cbn; congruence.
  - exists cs. split; [reflexivity|]. split; [assumption|]. split; [apply le_refl | exact Logic.I].
Qed.

(** ** Checks *)

(** The state before a check: everything registered consistently and the cached data as they should be. *)
Definition good s : Prop := pairs_ok (d_cells s) (d_pairs s) /\ Forall base_ok (d_cells s).

Lemma base_reset c : base_ok c -> base_ok (cell_reset c).
Proof. unfold base_ok, cell_reset. cbn. auto. Qed.

Lemma reset_inv w s : good s -> inv w (d_cells (cd_reset s)).
Proof.
  intros [(D & _) B]. split.
  - cbn. rewrite map_map. exact D.
  - cbn. apply Forall_map. eapply Forall_impl; [|exact B]. intros c Hc.
    split; [now apply base_reset|]. cbn. split; discriminate.
Qed.

Lemma good_get s p : good s -> In p (d_pairs s) -> get2 (d_cells s) p <> None.
Proof. intros [H _]. now apply ok_get2. Qed.

Lemma inv_base w cs : inv w cs -> Forall base_ok cs.
Proof. intros [_ H]. eapply Forall_impl; [|exact H]. intros c Hc. apply Hc. Qed.

(** A loop run on a state. *)
Lemma run_loop_is w b pre f G M post s :
  step_is w pre f G M post -> respects G -> respects M ->
  (forall cs cs' p, le_cells w cs cs' -> pre cs p -> get2 cs p <> None -> pre cs' p) ->
  (forall cs cs' p, le_cells w cs cs' -> post cs p -> get2 cs p <> None -> post cs' p) ->
  inv w (d_cells s) -> (forall p, In p (d_pairs s) -> get2 (d_cells s) p <> None /\ pre (d_cells s) p) ->
  exists s', run_loop b f s = Some s' /\ inv w (d_cells s') /\ le_cells w (d_cells s) (d_cells s') /\
    d_pairs s' = map (on_pair G (fun p => p) (d_cells s)) (d_pairs s) /\
    d_num s' = (if b then list_sum (map (on_pair M (fun _ => 0) (d_cells s)) (d_pairs s)) else d_num s) /\
    forall p, In p (d_pairs s) -> post (d_cells s') p.
Proof.
  intros S RG RM Pm Qm I H. destruct (ploop_is w pre f G M post S RG RM Pm Qm (d_pairs s) (d_cells s) I H) as (cs' & E & I' & Hl & P).
  unfold run_loop. rewrite E. eexists. split; [reflexivity|]. cbn [d_cells d_pairs d_num]. auto 10.
Qed.

(** Lookups in the cells whose marks have been reset. *)
Lemma get_reset cs a : get_cell (map cell_reset cs) a = option_map cell_reset (get_cell cs a).
Proof.
  unfold get_cell. induction cs as [|x tl IH]; [reflexivity|]. cbn [map find]. cbn [cell_reset k_addr].
  destruct (k_addr x =? a); [reflexivity | exact IH].
Qed.
Lemma get2_reset cs p : get2 (map cell_reset cs) p =
  match get2 cs p with Some (a, b) => Some (cell_reset a, cell_reset b) | None => None end.
Proof.
  unfold get2. rewrite !get_reset. destruct (get_cell cs (p_c0 p)); [|reflexivity]. cbn.
  now destruct (get_cell cs (p_c1 p)).
Qed.
Lemma on_pair_reset {A} (G : cell -> cell -> pair -> A) d cs p :
  respects G -> on_pair G d (map cell_reset cs) p = on_pair G d cs p.
Proof.
  intros R. unfold on_pair. rewrite get2_reset. destruct (get2 cs p) as [[a b]|]; [|reflexivity]. now apply R.
Qed.
Lemma get2_ends cs p p' : ends p' = ends p -> get2 cs p' = get2 cs p.
Proof. unfold ends, get2. intros E. injection E as -> ->. reflexivity. Qed.

(** The two cells of a registered pair, by their fixed data. *)
Definition cells_of {A} (T : cell -> cell -> A) (d : A) cs p : A :=
  match get2 cs p with Some (a, b) => T a b | None => d end.
Definition resp2 {A} (T : cell -> cell -> A) : Prop :=
  forall a a' b b', fixedb a' = fixedb a -> fixedb b' = fixedb b -> T a' b' = T a b.

Lemma cells_of_le {A} w (T : cell -> cell -> A) d cs cs' p :
  resp2 T -> le_cells w cs cs' -> get2 cs p <> None -> cells_of T d cs' p = cells_of T d cs p.
Proof.
  intros R Hl H. apply (on_pair_le w (fun a b _ => T a b) (fun _ => d)); auto. intros a a' b b' q. apply R.
Qed.
Lemma cells_of_reset {A} (T : cell -> cell -> A) d cs p :
  resp2 T -> cells_of T d (map cell_reset cs) p = cells_of T d cs p.
Proof. intros R. apply (on_pair_reset (fun a b _ => T a b) (fun _ => d)). intros a a' b b' q. apply R. Qed.

Lemma resp_aabb w : resp2 (aabb2 w).
Proof. intros a a' b b' Ea Eb. unfold aabb2. now rewrite (wbox_fixed w a a' Ea), (wbox_fixed w b b' Eb). Qed.
Lemma resp_obb w : resp2 (obb2 w).
Proof. intros a a' b b' Ea Eb. unfold obb2. now rewrite (wbox_fixed w a a' Ea), (wbox_fixed w b b' Eb). Qed.
Lemma resp_cph w : resp2 (fun a b => x_cph (wph w a) (wph w b)).
Proof. intros a a' b b' Ea Eb. now rewrite (wph_fixed w a a' Ea), (wph_fixed w b b' Eb). Qed.
Lemma resp_vol k w : resp2 (fun a b => x_vol k (wph w a) (wph w b)).
Proof. intros a a' b b' Ea Eb. now rewrite (wph_fixed w a a' Ea), (wph_fixed w b b' Eb). Qed.
Lemma resp_outcome k w : resp2 (outcome k w).
Proof.
  intros a a' b b' Ea Eb. unfold outcome.
  now rewrite (wph_fixed w a a' Ea), (wph_fixed w b b' Eb), (wbox_fixed w a a' Ea), (wbox_fixed w b b' Eb).
Qed.
Lemma resp_verts w old : resp2 (fun a b => pair_verts w (wcell w a) (wcell w b) old).
Proof.
  intros a a' b b' Ea Eb. assert (Wa := wph_fixed w a a' Ea). assert (Wb := wph_fixed w b b' Eb).
  unfold fixedb, fixed in Ea, Eb. injection Ea as A1 _ A2 _ _ _ _ A3. injection Eb as B1 _ B2 _ _ _ _ B3.
  apply pair_verts_ext; cbn; assumption.
Qed.

Definition colls w k cs p : pair := set_col (cells_of (outcome k w) false cs p) p.

Lemma set_col_ends b p : ends (set_col b p) = ends p.
Proof. reflexivity. Qed.
Lemma set_col_set b b' p : set_col b (set_col b' p) = set_col b p.
Proof. reflexivity. Qed.
Lemma set_col_same p : set_col (p_col p) p = p.
Proof. now destruct p. Qed.

(** The two box stages together. *)
Lemma chk_obb_is w s : good s -> d_pairs s <> [] ->
  exists s1, chk_obb w s = Some s1 /\ inv w (d_cells s1) /\ le_cells w (map cell_reset (d_cells s)) (d_cells s1) /\
    d_pairs s1 = map (colls w CkOBB (d_cells s)) (d_pairs s) /\ d_num s1 = d_num s /\
    (forall p, In p (d_pairs s1) -> get2 (d_cells s1) p <> None) /\
    exists s0, chk_aabb w s = Some s0 /\ inv w (d_cells s0) /\ le_cells w (map cell_reset (d_cells s)) (d_cells s0) /\
      d_pairs s0 = map (colls w CkAABB (d_cells s)) (d_pairs s) /\ d_num s0 = d_num s.
Proof.
  intros Gd Ne. assert (I0 := reset_inv w s Gd).
  assert (G0 : forall p, In p (d_pairs (cd_reset s)) -> get2 (d_cells (cd_reset s)) p <> None).
  { cbn. intros p Hp. apply in_map_iff in Hp. destruct Hp as (q & <- & Hq).
    rewrite get2_reset, (get2_ends _ q) by reflexivity.
    destruct (get2 (d_cells s) q) as [[a b]|] eqn:E; [discriminate|]. now apply good_get in E. }
  assert (RA : respects (fun a b p => if aabb2 w a b then set_col true p else p)).
  { intros a a' b b' p Ea Eb. now rewrite (resp_aabb w a a' b b' Ea Eb). }
  assert (RO : respects (fun a b p => if p_col p && negb (obb2 w a b) then set_col false p else p)).
  { intros a a' b b' p Ea Eb. now rewrite (resp_obb w a a' b b' Ea Eb). }
  assert (RZ : respects zcount) by (intros a a' b b' p Ea Eb; reflexivity).
  destruct (run_loop_is w false nopre (step_aabb w) _ zcount (bpost w) (cd_reset s) (step_aabb_is w) RA RZ
    ltac:(intros; exact Logic.I) ltac:(intros; eapply bpost_le; eassumption) I0
    ltac:(intros p Hp; split; [now apply G0 | exact Logic.I]))
    as (s0 & E0 & I1 & L1 & P1 & N1 & B1).
  assert (C0 : chk_aabb w s = Some s0) by (unfold chk_aabb; destruct (d_pairs s); [easy | exact E0]).
  assert (PA : d_pairs s0 = map (colls w CkAABB (d_cells s)) (d_pairs s)).
  { rewrite P1. cbn [cd_reset d_pairs d_cells]. rewrite map_map. apply map_ext_in. intros p Hp.
    rewrite on_pair_reset by exact RA. unfold on_pair, colls, cells_of. rewrite (get2_ends _ p) by reflexivity.
    destruct (get2 (d_cells s) p) as [[a b]|] eqn:E; [|reflexivity]. unfold outcome, aabb2. now destruct (x_caab _ _). }
  assert (G1 : forall p, In p (d_pairs s0) -> get2 (d_cells s0) p <> None /\ boxed2 w (d_cells s0) p).
  { rewrite P1. intros p Hp. apply in_map_iff in Hp. destruct Hp as (q & <- & Hq).
    assert (Gq := G0 q Hq). assert (Bq := B1 q Hq). unfold bpost, boxed2 in *.
    assert (Ee : ends (on_pair (fun a b p => if aabb2 w a b then set_col true p else p) (fun p => p) (d_cells (cd_reset s)) q) = ends q).
    { unfold on_pair. destruct (get2 _ q) as [[a b]|]; [|reflexivity]. now destruct (aabb2 w a b). }
    rewrite (get2_ends _ q _ Ee). split; [|exact Bq].
    destruct (get2 (d_cells (cd_reset s)) q) as [[a b]|] eqn:E; [|easy].
    destruct (get2_le _ _ _ _ _ _ L1 E) as (a' & b' & -> & _). discriminate. }
  destruct (run_loop_is w false (boxed2 w) step_obb _ zcount (bpost w) s0 (step_obb_is w) RO RZ
    ltac:(intros; eapply bpost_le; eassumption) ltac:(intros; eapply bpost_le; eassumption) I1 G1)
    as (s1 & E1 & I2 & L2 & P2 & N2 & B2).
  assert (L12 : le_cells w (map cell_reset (d_cells s)) (d_cells s1)) by (eapply le_trans; eassumption).
  exists s1. split; [unfold chk_obb; rewrite C0; exact E1|]. split; [assumption|]. split; [assumption|].
  assert (PO : d_pairs s1 = map (colls w CkOBB (d_cells s)) (d_pairs s)).
  { rewrite P2, PA, map_map. apply map_ext_in. intros p Hp.
    rewrite (on_pair_le w _ _ (map cell_reset (d_cells s)) (d_cells s0)); [|exact RO|exact L1|].
    - rewrite on_pair_reset by exact RO. unfold on_pair, colls, cells_of. rewrite (get2_ends _ p) by reflexivity.
      destruct (get2 (d_cells s) p) as [[a b]|] eqn:E; [|now apply good_get in E].
      cbn [set_col p_col p_c0 p_c1 p_vl]. unfold outcome, obb2. destruct (x_caab _ _); cbn [andb]; [|reflexivity].
      destruct (x_cbox _ _); reflexivity.
    - rewrite get2_reset, (get2_ends _ p) by reflexivity.
      destruct (get2 (d_cells s) p) as [[a b]|] eqn:E; [discriminate|]. now apply good_get in E. }
  split; [exact PO|]. split; [now rewrite N2, N1|]. split.
  - rewrite P2. intros p Hp. apply in_map_iff in Hp. destruct Hp as (q & <- & Hq). destruct (G1 q Hq) as [Gq _].
    destruct (get2 (d_cells s0) q) as [[a b]|] eqn:E; [|easy].
    destruct (get2_le _ _ _ _ _ _ L2 E) as (a' & b' & E' & _).
    rewrite (get2_ends _ q); [rewrite E'; discriminate|].
    unfold on_pair. rewrite E. now destruct (p_col q && negb (obb2 w a b)).
  - exists s0. auto.
Qed.

(** The vertices found by a vertex check of a pair, and the resulting pair. *)
Definition vchk w cs p : pair :=
  if cells_of (outcome CkVert w) false cs p
  then set_verts (cells_of (fun a b => pair_verts w (wcell w a) (wcell w b) (p_vl p)) [] cs p) (set_col true p)
  else set_vl [] (set_col false p).

(** What a check does to the pairs and the count. *)
Definition check_pair w k cs p : pair := match k with CkVert => vchk w cs p | _ => colls w k cs p end.
Definition check_num w k cs ps n : nat :=
  match k with
  | CkVert => list_sum (map (fun p => if cells_of (outcome CkVert w) false cs p
                                      then length (cells_of (fun a b => pair_verts w (wcell w a) (wcell w b) (p_vl p)) [] cs p)
                                      else 0) ps)
  | CkVol v => list_sum (map (fun p => if cells_of (outcome k w) false cs p then 1 else 0) ps)
  | _ => n
  end.

Lemma good_after w s s1 : good s -> inv w (d_cells s1) -> le_cells w (map cell_reset (d_cells s)) (d_cells s1) ->
  map ends (d_pairs s1) = map ends (d_pairs s) ->
  good s1 /\ map fixedb (d_cells s1) = map fixedb (d_cells s).
Proof.
  intros [P B] I Hl E. assert (A : map k_addr (d_cells s1) = map k_addr (d_cells s)).
  { rewrite (le_addr _ _ _ Hl), map_map. reflexivity. }
  split; [split|].
  - apply (kept_ok s); [|assumption]. split; [|assumption]. split; [assumption|]. intros _.
    assert (Hf := le_fixed _ _ _ Hl). rewrite map_map in Hf.
    replace (map fixed (d_cells s1)) with (map (fun x => fst (fst x)) (map fixedb (d_cells s1))) by (rewrite map_map; reflexivity).
    rewrite Hf, map_map. reflexivity.
  - eapply inv_base; eassumption.
  - rewrite (le_fixed _ _ _ Hl), map_map. reflexivity.
Qed.

Lemma check_is w k s : good s -> k <> CkOBBVert ->
  exists s', do_check w k s = Some s' /\ good s' /\ map fixedb (d_cells s') = map fixedb (d_cells s) /\
    d_pairs s' = map (check_pair w k (d_cells s)) (d_pairs s) /\
    d_num s' = check_num w k (d_cells s) (d_pairs s) (d_num s).
Proof.
  intros Gd Hk. destruct (d_pairs s) as [|p0 tl0] eqn:Ps.
  - assert (Ca : chk_aabb w s = Some s) by (unfold chk_aabb; now rewrite Ps).
    assert (Co : chk_obb w s = Some s).
    { unfold chk_obb. rewrite Ca. cbn [obind]. unfold run_loop. rewrite Ps. cbn [ploop]. rewrite <- Ps. now destruct s. }
    assert (T : forall b f, exists s', run_loop b f s = Some s' /\ good s' /\
      map fixedb (d_cells s') = map fixedb (d_cells s) /\ d_pairs s' = [] /\ d_num s' = if b then 0 else d_num s).
    { intros b f. unfold run_loop. rewrite Ps. cbn [ploop]. eexists. split; [reflexivity|]. cbn [d_cells d_pairs d_num].
      split; [|auto]. unfold good in *. cbn [d_cells d_pairs]. rewrite Ps in Gd. exact Gd. }
    destruct k; cbn [do_check]; rewrite ?Ps, ?Ca, ?Co; cbn [obind]; try easy; try (now apply (T false));
      try (now apply (T true)); exists s; rewrite ?Ps; auto.
  - assert (Ne : d_pairs s <> []) by (rewrite Ps; discriminate). rewrite <- Ps. clear p0 tl0 Ps.
    destruct (chk_obb_is w s Gd Ne) as (s1 & C1 & I1 & L1 & P1 & N1 & G1 & s0 & C0 & I0 & L0 & P0 & N0).
    assert (En : forall k', map ends (map (colls w k' (d_cells s)) (d_pairs s)) = map ends (d_pairs s)).
    { intros k'. rewrite map_map. reflexivity. }
    assert (RZ : respects zcount) by (intros a a' b b' p Ea Eb; reflexivity).
    assert (Gp : forall p, In p (d_pairs s) -> get2 (map cell_reset (d_cells s)) p <> None).
    { intros p Hp. rewrite get2_reset. destruct (get2 (d_cells s) p) as [[a b]|] eqn:E; [discriminate|]. now apply good_get in E. }
    destruct k; cbn [do_check]; try easy.
    + exists s0. split; [assumption|]. destruct (good_after w s s0 Gd I0 L0 ltac:(rewrite P0; apply En)) as [A B].
      split; [assumption|]. split; [assumption|]. split; [exact P0 | exact N0].
    + exists s1. split; [assumption|]. destruct (good_after w s s1 Gd I1 L1 ltac:(rewrite P1; apply En)) as [A B].
      split; [assumption|]. split; [assumption|]. split; [exact P1 | exact N1].
    + rewrite C1. cbn [obind].
      assert (RG : respects (fun a b p => if p_col p && negb (x_cph (wph w a) (wph w b)) then set_col false p else p)).
      { intros a a' b b' p Ea Eb. now rewrite (wph_fixed w a a' Ea), (wph_fixed w b b' Eb). }
      destruct (run_loop_is w false nopre (step_gjk w) _ zcount nopre s1 (step_gjk_is w) RG RZ
        ltac:(intros; exact Logic.I) ltac:(intros; exact Logic.I) I1 ltac:(intros p Hp; split; [now apply G1 | exact Logic.I]))
        as (s2 & E2 & I2 & L2 & P2 & N2 & _).
      assert (PP : d_pairs s2 = map (colls w CkGJK (d_cells s)) (d_pairs s)).
      { rewrite P2, P1, map_map. apply map_ext_in. intros p Hp.
        rewrite (on_pair_le w _ _ (map cell_reset (d_cells s)) (d_cells s1)); [|exact RG|exact L1|exact (Gp p Hp)].
        rewrite on_pair_reset by exact RG. unfold on_pair, colls, cells_of. rewrite (get2_ends _ p) by reflexivity.
        destruct (get2 (d_cells s) p) as [[a b]|] eqn:E; [|now apply good_get in E].
        cbn [set_col p_col p_c0 p_c1 p_vl]. unfold outcome. cbv zeta.
        destruct (x_caab _ _ && x_cbox _ _); cbn [andb]; [|reflexivity]. now destruct (x_cph _ _). }
      exists s2. split; [exact E2|]. destruct (good_after w s s2 Gd I2 (le_trans _ _ _ _ L1 L2) ltac:(rewrite PP; apply En)) as [A B].
      split; [assumption|]. split; [assumption|]. split; [exact PP | cbn; now rewrite N2].
    + assert (RG : respects (fun a b p => if x_cph (wph w a) (wph w b) then set_col true p else p)).
      { intros a a' b b' p Ea Eb. now rewrite (wph_fixed w a a' Ea), (wph_fixed w b b' Eb). }
      destruct (run_loop_is w false nopre (step_gjko w) _ zcount nopre (cd_reset s) (step_gjko_is w) RG RZ
        ltac:(intros; exact Logic.I) ltac:(intros; exact Logic.I) (reset_inv w s Gd)) as (s2 & E2 & I2 & L2 & P2 & N2 & _).
      { cbn. intros p Hp. split; [|exact Logic.I]. apply in_map_iff in Hp. destruct Hp as (q & <- & Hq).
        rewrite (get2_ends _ q) by reflexivity. now apply Gp. }
      assert (PP : d_pairs s2 = map (colls w CkGJKOnly (d_cells s)) (d_pairs s)).
      { rewrite P2. cbn [cd_reset d_cells d_pairs]. rewrite map_map. apply map_ext_in. intros p Hp.
        rewrite on_pair_reset by exact RG. unfold on_pair, colls, cells_of. rewrite (get2_ends _ p) by reflexivity.
        destruct (get2 (d_cells s) p) as [[a b]|] eqn:E; [|now apply good_get in E].
        unfold outcome. now destruct (x_cph _ _). }
      exists s2. split; [destruct (d_pairs s); [easy | exact E2]|].
      destruct (good_after w s s2 Gd I2 L2 ltac:(rewrite PP; apply En)) as [A B].
      split; [assumption|]. split; [assumption|]. split; [exact PP | exact N2].
    + rewrite C1. cbn [obind].
      assert (RG : respects (fun a b p => if p_col p then set_verts (verts2 w a b p) p else set_vl [] p)).
      { intros a a' b b' p Ea Eb. unfold verts2. now rewrite (resp_verts w (p_vl p) a a' b b' Ea Eb). }
      assert (RM : respects (fun a b p => if p_col p then length (verts2 w a b p) else 0)).
      { intros a a' b b' p Ea Eb. unfold verts2. now rewrite (resp_verts w (p_vl p) a a' b b' Ea Eb). }
      destruct (run_loop_is w true nopre (step_vert w) _ _ nopre s1 (step_vert_is w) RG RM
        ltac:(intros; exact Logic.I) ltac:(intros; exact Logic.I) I1 ltac:(intros p Hp; split; [now apply G1 | exact Logic.I]))
        as (s2 & E2 & I2 & L2 & P2 & N2 & _).
      assert (PP : d_pairs s2 = map (vchk w (d_cells s)) (d_pairs s)).
      { rewrite P2, P1, map_map. apply map_ext_in. intros p Hp.
        rewrite (on_pair_le w _ _ (map cell_reset (d_cells s)) (d_cells s1)); [|exact RG|exact L1|exact (Gp p Hp)].
        rewrite on_pair_reset by exact RG. unfold vchk, on_pair, colls, cells_of. rewrite (get2_ends _ p) by reflexivity.
        destruct (get2 (d_cells s) p) as [[a b]|] eqn:E; [|now apply good_get in E].
        cbn [set_col p_col p_c0 p_c1 p_vl]. unfold outcome. cbv zeta.
        now destruct (x_caab _ _ && x_cbox _ _). }
      exists s2. split; [exact E2|]. destruct (good_after w s s2 Gd I2 (le_trans _ _ _ _ L1 L2)) as [A B].
      { rewrite PP, map_map. apply map_ext. intros p. unfold vchk. now destruct (cells_of _ _ _ _). }
      split; [assumption|]. split; [assumption|]. split; [exact PP|].
      rewrite N2, P1, map_map. cbn [check_num]. f_equal. apply map_ext_in. intros p Hp.
      rewrite (on_pair_le w _ _ (map cell_reset (d_cells s)) (d_cells s1)); [|exact RM|exact L1|exact (Gp p Hp)].
      rewrite on_pair_reset by exact RM. unfold on_pair, colls, cells_of. rewrite (get2_ends _ p) by reflexivity.
      destruct (get2 (d_cells s) p) as [[a b]|] eqn:E; [|now apply good_get in E]. reflexivity.
    + rewrite C1. cbn [obind].
      assert (RG : respects (fun a b p => if p_col p && negb (x_vol k (wph w a) (wph w b)) then set_col false p else p)).
      { intros a a' b b' p Ea Eb. now rewrite (wph_fixed w a a' Ea), (wph_fixed w b b' Eb). }
      assert (RM : respects (fun a b p => if p_col p && x_vol k (wph w a) (wph w b) then 1 else 0)).
      { intros a a' b b' p Ea Eb. now rewrite (wph_fixed w a a' Ea), (wph_fixed w b b' Eb). }
      destruct (run_loop_is w true nopre (step_vol k w) _ _ nopre s1 (step_vol_is k w) RG RM
        ltac:(intros; exact Logic.I) ltac:(intros; exact Logic.I) I1 ltac:(intros p Hp; split; [now apply G1 | exact Logic.I]))
        as (s2 & E2 & I2 & L2 & P2 & N2 & _).
      assert (PP : d_pairs s2 = map (colls w (CkVol k) (d_cells s)) (d_pairs s)).
      { rewrite P2, P1, map_map. apply map_ext_in. intros p Hp.
        rewrite (on_pair_le w _ _ (map cell_reset (d_cells s)) (d_cells s1)); [|exact RG|exact L1|exact (Gp p Hp)].
        rewrite on_pair_reset by exact RG. unfold on_pair, colls, cells_of. rewrite (get2_ends _ p) by reflexivity.
        destruct (get2 (d_cells s) p) as [[a b]|] eqn:E; [|now apply good_get in E].
        cbn [set_col p_col p_c0 p_c1 p_vl]. unfold outcome. cbv zeta.
        destruct (x_caab _ _ && x_cbox _ _); cbn [andb]; [|reflexivity]. now destruct (x_vol k _ _). }
      exists s2. split; [exact E2|]. destruct (good_after w s s2 Gd I2 (le_trans _ _ _ _ L1 L2) ltac:(rewrite PP; apply En)) as [A B].
      split; [assumption|]. split; [assumption|]. split; [exact PP|].
      rewrite N2, P1, map_map. cbn [check_num]. f_equal. apply map_ext_in. intros p Hp.
      rewrite (on_pair_le w _ _ (map cell_reset (d_cells s)) (d_cells s1)); [|exact RM|exact L1|exact (Gp p Hp)].
      rewrite on_pair_reset by exact RM. unfold on_pair, colls, cells_of. rewrite (get2_ends _ p) by reflexivity.
      destruct (get2 (d_cells s) p) as [[a b]|] eqn:E; [|now apply good_get in E]. reflexivity.
Qed.

(** ** Histories *)

Lemma create_base w a chain l sh ty : base_ok (cell_create w a chain l sh ty : cell).
Proof.
  unfold base_ok, cell_create. cbn. split; [reflexivity|]. destruct ty; [auto|].
  split; [now rewrite map_length | reflexivity].
Qed.

Lemma chain_reg_base w chain ty ss s s' : chain_reg w chain ty ss s = Some s' ->
  Forall base_ok (d_cells s) -> Forall base_ok (d_cells s').
Proof.
  revert s. induction ss as [|[[l a] sh] tl IH]; intros s H B; cbn [chain_reg] in H.
  - injection H as <-. assumption.
  - destruct (get_cell (d_cells s) a); [discriminate|]. apply IH in H; [assumption|]. cbn [d_cells].
    apply Forall_app. split; [assumption|]. constructor; [apply create_base | constructor].
Qed.

Lemma good_op w o s s' : no_obbvert o -> run_op w o s = Some s' -> good s -> good s'.
Proof.
  intros Ho H Gd. split; [eapply op_ok; [eassumption | apply Gd]|]. destruct Gd as [P B].
  destruct o; cbn [run_op] in H.
  - eapply chain_reg_base; eassumption.
  - apply chain_unreg_spec in H. destruct H as (-> & _). apply Forall_forall. intros c Hc. apply filter_In in Hc.
    rewrite Forall_forall in B. now apply B.
  - apply pair_reg_cases in H. destruct H as [[-> _]|[-> _]]; assumption.
  - apply keep_spec in H. destruct H as (-> & _). assumption.
  - apply keep_spec in H. destruct H as (-> & _). assumption.
  - destruct (check_is w k s (conj P B)) as (s1 & E & [_ G1] & _).
    + intros ->. exact Ho.
    + rewrite E in H. injection H as <-. exact G1.
Qed.

Lemma good_run h s s' : Forall (fun e => no_obbvert (snd e)) h -> run h s = Some s' -> good s -> good s'.
Proof.
  revert s. induction h as [|[w o] tl IH]; intros s Hh H Gd; cbn [run] in H.
  - injection H as <-. assumption.
  - unfold obind in H. destruct (run_op w o s) as [s1|] eqn:E; [|discriminate].
    inversion Hh; subst. eapply IH; [assumption | eassumption|]. eapply good_op; eassumption.
Qed.
Lemma good_create : good (cd_create : cd).
Proof. split; [apply create_ok | constructor]. Qed.
End Inv.
