(** * Vol_Properties: what a volume computation gives to a colliding pair (C106, C107). *)

From Coq Require Import Bool List Arith Lia Permutation Field ZArith QArith Qcanon.
From Verif Require Import Num NumFacts Vec VecFacts CD_Model CD_Spec CD_Proofs CD_Inv CD_Geo CDReg_Properties CDChk_Properties Vol_Model.
Import ListNotations.
Local Open Scope nat_scope.

(** ** What is expected *)

Section Spec.
Context {F BX AB : Type} {N : Num F} {X : CDExt F BX AB} {V : VolExt F}.

(** The directed edges of a set of faces, and twice the area vector, as a sum over the edges. *)
Definition edges (fs : list (tri F)) : list (vec3 F * vec3 F) := flat_map (fun '(a, b, c) => [(a, b); (b, c); (c, a)]) fs.
Definition area (fs : list (tri F)) : vec3 F := fold_right (fun e s => v3add (v3cross (fst e) (snd e)) s) v3zero (edges fs).
(** The faces bound a solid: every edge is passed as often in one direction as in the other. *)
Definition closed (fs : list (tri F)) : Prop := Permutation (edges fs) (map (fun e => (snd e, fst e)) (edges fs)).

(** The direction of a vector; upward when it is tiny. *)
Definition direction (v : vec3 F) : vec3 F := if x_vtiny v then ez else x_unit v.

(** The polyhedra [a] and [b] have the points [vs] in common, bounded by the parts [f1] and [f2] of their surfaces.  The plain B-Rep
    computation also wants the hull of the points to be a solid. *)
Definition solid (h : ph F) : Prop :=
  4 <= length (vts h) /\ 4 <= length (fcs h) /\ forall i j k, In (i, j, k) (fcs h) -> Nat.max i (Nat.max j k) <= length (vts h).
Definition common (k : volkind) (a b : ph F) (vs : list (vec3 F)) (f1 f2 : list (tri F)) : Prop :=
  exists v1 v2, x_cut k a b = Some (v1, f1) /\ x_cut k b a = Some (v2, f2) /\ vs = v1 ++ v2 /\ vs <> [] /\
    (k = VolBREP -> solid (x_hull vs)).
(** The data of a contact. *)
Definition contact (vs : list (vec3 F)) (f1 f2 : list (tri F)) : vdat F :=
  let n := direction (v3sub (area f2) (area f1)) in
  VDat n (n, fst (x_ortho n), snd (x_ortho n)) (x_bary (x_hull vs)) (x_hull vs).
End Spec.

(** ** Proofs *)

Section Proofs.
Context {F BX AB : Type} {N : Num F} {L : NumLaws F N} {X : CDExt F BX AB} {V : VolExt F}.
Add Field VolField : num_field.
Local Ltac vring := intros; vdestruct; vunfold; vsplit; ring.
Notation cell := (cell F BX AB).
Notation cd := (cd F BX AB).
Notation pair := (pair F).
Notation vdat := (vdat F).
Notation hist := (list ((nat -> frame F) * op F)).

Lemma area_cons t fs : area (t :: fs) = v3add (face_prod t) (area fs).
Proof.
  destruct t as [[a b] c]. unfold area, edges. cbn [flat_map app fold_right fst snd face_prod].
  generalize (fold_right (fun (e : vec3 F * vec3 F) s => v3add (v3cross (fst e) (snd e)) s) v3zero
    (flat_map (fun '(a, b, c) => [(a, b); (b, c); (c, a)]) fs)). vring.
Qed.
Lemma area_app f1 f2 : area (f1 ++ f2) = v3add (area f1) (area f2).
Proof.
  induction f1 as [|t tl IH]; cbn [app].
  - change (area []) with (v3zero (F := F)). generalize (area f2). vring.
  - rewrite !area_cons, IH. generalize (face_prod t) (area tl) (area f2). vring.
Qed.
Lemma area_fold_add fs n : fold_left (fun n t => v3add n (face_prod t)) fs n = v3add n (area fs).
Proof.
  revert n. induction fs as [|t tl IH]; intros n; cbn [fold_left].
  - change (area []) with (v3zero (F := F)). vring.
  - rewrite IH, area_cons. generalize (face_prod t) (area tl). vring.
Qed.
Lemma area_fold_sub fs n : fold_left (fun n t => v3sub n (face_prod t)) fs n = v3sub n (area fs).
Proof.
  revert n. induction fs as [|t tl IH]; intros n; cbn [fold_left].
  - change (area []) with (v3zero (F := F)). vring.
  - rewrite IH, area_cons. generalize (face_prod t) (area tl). vring.
Qed.
Lemma int_norm_is f1 f2 : int_norm f1 f2 = direction (v3sub (area f2) (area f1)).
Proof.
  unfold int_norm, direction. rewrite area_fold_add, area_fold_sub.
  replace (v3add (v3sub v3zero (area f1)) (area f2)) with (v3sub (area f2) (area f1)); [reflexivity|].
  generalize (area f1) (area f2). vring.
Qed.

Lemma vol_error_false (h : ph F) : vol_error h = false <-> forall i j k, In (i, j, k) (fcs h) -> Nat.max i (Nat.max j k) <= length (vts h).
Proof.
  unfold vol_error. rewrite <- not_true_iff_false, existsb_exists. split.
  - intros H i j k Hin. destruct (le_lt_dec (Nat.max i (Nat.max j k)) (length (vts h))) as [K|K]; [assumption|].
    exfalso. apply H. exists (i, j, k). split; [assumption|]. rewrite !orb_true_iff, !Nat.ltb_lt. lia.
  - intros H ([[i j] k] & Hin & E). apply H in Hin. rewrite !orb_true_iff, !Nat.ltb_lt in E. lia.
Qed.

(** One pair. *)
Definition boxes (k : volkind) (a b : ph F) : Prop := k = VolBREPFast -> x_isbox a b = true.
Lemma pair_vol_is k a b d : k <> VolMP -> boxes k a b -> exists r d', pair_vol k a b d = Some (r, d') /\
  (r = true <-> exists vs f1 f2, common k a b vs f1 f2) /\
  (r = true -> forall vs f1 f2, common k a b vs f1 f2 -> d' = contact vs f1 f2).
Proof.
  intros Hk Hb. destruct k; [easy| |]; cbn [pair_vol].
  - unfold pair_brep, common.
    destruct (x_cut VolBREP a b) as [[v1 f1]|] eqn:E1.
    2: { do 2 eexists. split; [reflexivity|]. split; [|discriminate]. split; [discriminate|].
         intros (vs & g1 & g2 & u1 & u2 & K & _). discriminate K. }
    destruct (x_cut VolBREP b a) as [[v2 f2]|] eqn:E2.
    2: { do 2 eexists. split; [reflexivity|]. split; [|discriminate]. split; [discriminate|].
         intros (vs & g1 & g2 & u1 & u2 & _ & K & _). discriminate K. }
    destruct (v1 ++ v2) as [|v0 tl] eqn:Ev.
    { do 2 eexists. split; [reflexivity|]. split; [|discriminate]. split; [discriminate|].
      intros (vs & g1 & g2 & u1 & u2 & K1 & K2 & -> & K3 & _). injection K1 as <- <-. injection K2 as <- <-. now rewrite Ev in K3. }
    destruct (_ || vol_error _) eqn:Eb.
    + do 2 eexists. split; [reflexivity|]. split; [|discriminate]. split; [discriminate|].
      intros (vs & g1 & g2 & u1 & u2 & K1 & K2 & -> & _ & K4). injection K1 as <- <-. injection K2 as <- <-.
      destruct (K4 eq_refl) as (S1 & S2 & S3). rewrite Ev in *. apply vol_error_false in S3. rewrite S3 in Eb.
      rewrite !orb_true_iff, !Nat.ltb_lt in Eb. destruct Eb as [[Eb|Eb]|Eb]; [lia | lia | discriminate].
    + do 2 eexists. split; [reflexivity|]. split.
      * split; [intros _|reflexivity]. exists (v0 :: tl), f1, f2, v1, v2. split; [reflexivity|]. split; [reflexivity|].
        split; [now symmetry|]. split; [discriminate|]. intros _. rewrite !orb_false_iff, !Nat.ltb_ge, vol_error_false in Eb.
        unfold solid. tauto.
      * intros _ vs g1 g2 (u1 & u2 & K1 & K2 & -> & _). injection K1 as <- <-. injection K2 as <- <-. rewrite Ev.
        unfold contact. rewrite <- int_norm_is. reflexivity.
  - unfold pair_fast, common. rewrite (Hb eq_refl). cbn [negb].
    destruct (x_cut VolBREPFast a b) as [[v1 f1]|] eqn:E1.
    2: { do 2 eexists. split; [reflexivity|]. split; [|discriminate]. split; [discriminate|].
         intros (vs & g1 & g2 & u1 & u2 & K & _). discriminate K. }
    destruct (x_cut VolBREPFast b a) as [[v2 f2]|] eqn:E2.
    2: { do 2 eexists. split; [reflexivity|]. split; [|discriminate]. split; [discriminate|].
         intros (vs & g1 & g2 & u1 & u2 & _ & K & _). discriminate K. }
    destruct (v1 ++ v2) as [|v0 tl] eqn:Ev.
    { do 2 eexists. split; [reflexivity|]. split; [|discriminate]. split; [discriminate|].
      intros (vs & g1 & g2 & u1 & u2 & K1 & K2 & -> & K3 & _). injection K1 as <- <-. injection K2 as <- <-. now rewrite Ev in K3. }
    do 2 eexists. split; [reflexivity|]. split.
    + split; [intros _|reflexivity]. exists (v0 :: tl), f1, f2, v1, v2. split; [reflexivity|]. split; [reflexivity|].
      split; [now symmetry|]. split; [discriminate | discriminate].
    + intros _ vs g1 g2 (u1 & u2 & K1 & K2 & -> & _). injection K1 as <- <-. injection K2 as <- <-. rewrite Ev.
      unfold contact. rewrite <- int_norm_is. reflexivity.
Qed.

(** The loop over the pairs; [R] describes what becomes of a pair, in terms of the cells before all updates. *)
Lemma vloop_is w f (R : cell -> cell -> pair -> vdat -> pair -> vdat -> nat -> Prop) (cs0 : list cell) ps : forall ds cs,
  length ds = length ps -> inv w cs -> le_cells w cs0 cs ->
  (forall cs1 p a b d, inv w cs1 -> le_cells w cs0 cs1 -> In p ps -> get2 cs0 p = Some (a, b) ->
     exists cs2 p' d' n, f cs1 p d = Some (cs2, p', d', n) /\ inv w cs2 /\ le_cells w cs1 cs2 /\ ends p' = ends p /\ R a b p d p' d' n) ->
  (forall p, In p ps -> get2 cs0 p <> None) ->
  exists cs' ps' ds' ns, vloop f cs ps ds = Some (cs', ps', ds', list_sum ns) /\ length ds' = length ps /\ length ns = length ps /\
    map ends ps' = map ends ps /\
    forall i p a b, nth_error ps i = Some p -> get2 cs0 p = Some (a, b) -> exists p' d d' n,
      nth_error ps' i = Some p' /\ nth_error ds i = Some d /\ nth_error ds' i = Some d' /\ nth_error ns i = Some n /\ R a b p d p' d' n.
Proof.
  induction ps as [|p tl IH]; intros ds cs Hl I Le H G.
  - destruct ds; [|discriminate]. exists cs, [], [], []. split; [reflexivity|]. split; [reflexivity|]. split; [reflexivity|].
    split; [reflexivity|]. intros i p a b K. destruct i; discriminate K.
  - destruct ds as [|d ds]; [discriminate|]. injection Hl as Hl. cbn [vloop].
    assert (Gp := G p (or_introl eq_refl)). destruct (get2 cs0 p) as [[a b]|] eqn:E; [|easy].
    destruct (H cs p a b d I Le (or_introl eq_refl) E) as (cs1 & p1 & d1 & n1 & Es & I1 & L1 & En & Hd). rewrite Es.
    destruct (IH ds cs1 Hl I1) as (cs2 & ps2 & ds2 & ns & Ev & Hl2 & Hn2 & En2 & Hr).
    { eapply le_trans; eassumption. }
    { intros c x u v e Ic Lc Hx. apply H; auto. now right. }
    { intros x Hx. apply G. now right. }
    rewrite Ev. exists cs2, (p1 :: ps2), (d1 :: ds2), (n1 :: ns). split; [reflexivity|].
    split; [cbn; now rewrite Hl2|]. split; [cbn; now rewrite Hn2|]. split; [cbn [map]; now rewrite En, En2|].
    intros i x u v Hi Gx. destruct i as [|i]; cbn [nth_error] in *; [|now apply Hr].
    injection Hi as <-. rewrite E in Gx. injection Gx as <- <-. exists p1, d, d1, n1. auto.
Qed.

(** After the box checks, whose outcome is in the flags; [R] is in terms of the cells in [s]. *)
Lemma vrun_is w f (R : cell -> cell -> pair -> vdat -> pair -> vdat -> nat -> Prop) s ds : good s -> length ds = length (d_pairs s) ->
  (forall cs1 p a b a1 b1 d, inv w cs1 -> get2 cs1 p = Some (a1, b1) -> fixedb a1 = fixedb a -> fixedb b1 = fixedb b ->
     (exists p0, In p0 (d_pairs s) /\ ends p0 = ends p /\ p_vl p0 = p_vl p) -> of_cells s p a b -> p_col p = outcome CkOBB w a b ->
     exists cs2 p' d' n, f cs1 p d = Some (cs2, p', d', n) /\ inv w cs2 /\ le_cells w cs1 cs2 /\ ends p' = ends p /\ R a b p d p' d' n) ->
  exists s' ds' ns, obind (chk_obb w s) (fun s1 => vrun f s1 ds) = Some (s', ds') /\ length ds' = length ds /\ length ns = length ds /\
    map ends (d_pairs s') = map ends (d_pairs s) /\ d_num s' = list_sum ns /\
    forall i p a b, nth_error (d_pairs s) i = Some p -> of_cells s p a b -> exists p' d d' n,
      nth_error (d_pairs s') i = Some p' /\ nth_error ds i = Some d /\ nth_error ds' i = Some d' /\ nth_error ns i = Some n /\
      R a b (set_col (outcome CkOBB w a b) p) d p' d' n.
Proof.
  intros Gd Hl H. destruct (d_pairs s) as [|p0 tl0] eqn:Ps.
  - assert (Co : chk_obb w s = Some s).
    { unfold chk_obb, chk_aabb. rewrite Ps. cbn [obind]. unfold run_loop. rewrite Ps. cbn [ploop]. rewrite <- Ps. now destruct s. }
    rewrite Co. cbn [obind]. unfold vrun. rewrite Ps. destruct ds; [|discriminate]. cbn [vloop]. do 2 eexists. exists []. split; [reflexivity|].
    split; [reflexivity|]. split; [reflexivity|]. split; [reflexivity|]. split; [reflexivity|].
    intros i p a b K. destruct i; discriminate K.
  - assert (Ne : d_pairs s <> []) by (rewrite Ps; discriminate). rewrite <- Ps in *. clear p0 tl0 Ps.
    destruct (chk_obb_is w s Gd Ne) as (s1 & C1 & I1 & L1 & P1 & _ & G1 & _). rewrite C1. cbn [obind]. unfold vrun.
    assert (Nd : NoDup (map k_addr (d_cells s))) by apply Gd.
    assert (Gr : forall p a b, get2 (map cell_reset (d_cells s)) p = Some (a, b) ->
      exists a0 b0, get2 (d_cells s) p = Some (a0, b0) /\ a = cell_reset a0 /\ b = cell_reset b0).
    { intros p a b E. rewrite get2_reset in E. destruct (get2 (d_cells s) p) as [[a0 b0]|]; [|discriminate].
      injection E as <- <-. eauto. }
    destruct (vloop_is w f (fun a b p d p' d' n => forall a0 b0, get2 (d_cells s) p = Some (a0, b0) -> R a0 b0 p d p' d' n)
      (map cell_reset (d_cells s)) (d_pairs s1) ds (d_cells s1)) as (cs' & ps' & ds' & ns & Ev & Hl' & Hn' & En & Hr).
    + now rewrite P1, map_length.
    + assumption.
    + assumption.
    + intros cs1 x a b d Ic Lc Hx Gx. rewrite P1 in Hx. apply in_map_iff in Hx. destruct Hx as (p & <- & Hp).
      destruct (get2_le _ _ _ _ _ _ Lc Gx) as (a1 & b1 & E1 & (Ka & _) & (Kb & _)).
      destruct (Gr _ _ _ Gx) as (a0 & b0 & E0 & -> & ->).
      destruct (H cs1 (colls w CkOBB (d_cells s) p) a0 b0 a1 b1 d Ic E1 Ka Kb) as (cs2 & p' & d' & n & Q1 & Q2 & Q3 & Q4 & Q5).
      { exists p. auto. }
      { now apply get2_of. }
      { unfold colls, cells_of. rewrite (get2_ends _ p) in E0 by reflexivity. now rewrite E0. }
      exists cs2, p', d', n. split; [assumption|]. split; [assumption|]. split; [assumption|]. split; [assumption|].
      intros a2 b2 E2. rewrite E0 in E2. injection E2 as <- <-. assumption.
    + rewrite P1. intros x Hx. apply in_map_iff in Hx. destruct Hx as (p & <- & Hp). rewrite get2_reset, (get2_ends _ p) by reflexivity.
      assert (Gp := good_get s p Gd Hp). destruct (get2 (d_cells s) p) as [[a b]|]; [discriminate | easy].
    + rewrite Ev. do 2 eexists. exists ns. split; [reflexivity|]. cbn [d_pairs d_num].
      split; [rewrite Hl', P1, map_length; now symmetry|]. split; [rewrite Hn', P1, map_length; now symmetry|].
      split; [rewrite En, P1, map_map; reflexivity|]. split; [reflexivity|].
      intros i p a b Hi Hof. apply (of_get2 s p a b Nd) in Hof.
      destruct (Hr i (colls w CkOBB (d_cells s) p) (cell_reset a) (cell_reset b)) as (p' & d & d' & n & R1 & R2 & R3 & R4 & R5).
      { rewrite P1, nth_error_map, Hi. reflexivity. }
      { rewrite get2_reset, (get2_ends _ p) by reflexivity. now rewrite Hof. }
      exists p', d, d', n. split; [assumption|]. split; [assumption|]. split; [assumption|]. split; [assumption|].
      specialize (R5 a b). unfold colls, cells_of in R5. rewrite (get2_ends _ p) in R5 by reflexivity. rewrite Hof in R5. now apply R5.
Qed.

(** One pair in a volume computation. *)
Lemma step_data_is k w cs1 p (a b a1 b1 : cell) d (Q : bool -> vdat -> Prop) : inv w cs1 -> get2 cs1 p = Some (a1, b1) ->
  fixedb a1 = fixedb a -> fixedb b1 = fixedb b -> p_col p = true ->
  (exists r d', pair_vol k (wph w a) (wph w b) d = Some (r, d') /\ Q r d') ->
  exists cs2 p' d' n, step_data k w cs1 p d = Some (cs2, p', d', n) /\ inv w cs2 /\ le_cells w cs1 cs2 /\ ends p' = ends p /\
    Q (p_col p') d' /\ p' = set_col (p_col p') p /\ n = if p_col p' then 1 else 0.
Proof.
  intros I E Fa Fb Ec (r & d' & Ev & Hq). unfold step_data. rewrite Ec.
  destruct (upd2_ph_ok w cs1 p a1 b1 I E) as (cs' & a' & b' & Eu & I' & Le & G' & La & Lb & Pa & Pb).
  rewrite Eu, G', Pa, Pb, (wph_fixed w a1 a'), (wph_fixed w b1 b'), (wph_fixed w a a1), (wph_fixed w b b1) by (assumption || apply La || apply Lb).
  rewrite Ev. destruct r.
  - exists cs', p, d', 1. rewrite Ec. split; [reflexivity|]. repeat (split; [assumption || reflexivity|]).
    split; [|reflexivity]. destruct p. cbn in *. now rewrite Ec.
  - exists cs', (set_col false p), d', 0. cbn [set_col p_col]. repeat (split; [assumption || reflexivity|]). reflexivity.
Qed.

Lemma nth_error_same {A} (l : list A) : forall l', (forall i, nth_error l i = nth_error l' i) -> l = l'.
Proof.
  induction l as [|x l IH]; intros [|y l'] H; [reflexivity | discriminate (H 0) | discriminate (H 0) |].
  assert (E := H 0). injection E as ->. f_equal. apply IH. intros i. exact (H (S i)).
Qed.
(** A list given entry by entry over the pairs. *)
Lemma same_over {A} (g : pair -> A) (l : list A) (ps ps' : list pair) : length l = length ps -> map ends ps' = map ends ps ->
  (forall i p, nth_error ps i = Some p -> exists p', nth_error ps' i = Some p' /\ nth_error l i = Some (g p')) -> l = map g ps'.
Proof.
  intros Hl He H. assert (Hl' : length ps' = length ps) by (rewrite <- (map_length ends ps'), He; apply map_length).
  apply nth_error_same. intros i. rewrite nth_error_map. destruct (nth_error ps i) as [p|] eqn:E.
  - destruct (H i p E) as (p' & -> & ->). reflexivity.
  - apply nth_error_None in E. assert (A1 : nth_error l i = None) by (apply nth_error_None; lia).
    assert (A2 : nth_error ps' i = None) by (apply nth_error_None; lia). now rewrite A1, A2.
Qed.
Lemma sum_flags (ps : list pair) : list_sum (map (fun p => if p_col p then 1 else 0) ps) = length (filter p_col ps).
Proof. induction ps as [|p ps IH]; [reflexivity|]. cbn [map filter]. change (list_sum (?x :: ?l)) with (x + list_sum l). cbn. destruct (p_col p); cbn; now rewrite <- IH. Qed.

(** A volume computation, each pair with an arbitrary description [Q] of what becomes of it. *)
Lemma col_vol_is k w (Q : ph F -> ph F -> vdat -> bool -> vdat -> Prop) s ds : good s -> length ds = length (d_pairs s) ->
  (forall p a b d, In p (d_pairs s) -> of_cells s p a b -> outcome CkOBB w a b = true ->
     exists r d', pair_vol k (wph w a) (wph w b) d = Some (r, d') /\ Q (wph w a) (wph w b) d r d') ->
  exists s' ds', col_vol k w s ds = Some (s', ds') /\ length ds' = length ds /\ map ends (d_pairs s') = map ends (d_pairs s) /\
    d_num s' = length (filter p_col (d_pairs s')) /\
    forall i p a b, nth_error (d_pairs s) i = Some p -> of_cells s p a b -> exists p' d d',
      nth_error (d_pairs s') i = Some p' /\ nth_error ds i = Some d /\ nth_error ds' i = Some d' /\
      ((outcome CkOBB w a b = false /\ p_col p' = false /\ d' = d) \/
       (outcome CkOBB w a b = true /\ Q (wph w a) (wph w b) d (p_col p') d')).
Proof.
  intros Gd Hl H.
  destruct (vrun_is w (step_data k w) (fun a b p d p' d' n => n = (if p_col p' then 1 else 0) /\
    ((p_col p = false /\ p_col p' = false /\ d' = d) \/ (p_col p = true /\ Q (wph w a) (wph w b) d (p_col p') d'))) s ds Gd Hl)
    as (s' & ds' & ns & E & Hl' & Hn' & En & Hn & Hr).
  { intros cs1 p a b a1 b1 d I G Fa Fb (p0 & Hp0 & Ee & _) Hof Ec. destruct (p_col p) eqn:Ep.
    - destruct (step_data_is k w cs1 p a b a1 b1 d (Q (wph w a) (wph w b) d) I G Fa Fb Ep) as (cs2 & p' & d' & n & Q1 & Q2 & Q3 & Q4 & Q5 & Q6 & Q7).
      { apply (H p0); [assumption | | now symmetry]. unfold of_cells in *. unfold ends in Ee. injection Ee as -> ->. assumption. }
      exists cs2, p', d', n. auto 10.
    - unfold step_data. rewrite Ep. exists cs1, p, d, 0. rewrite Ep. split; [reflexivity|]. split; [assumption|]. split; [apply le_refl|]. auto 6. }
  exists s', ds'. split; [exact E|]. split; [assumption|]. split; [assumption|]. split.
  - rewrite Hn, <- sum_flags. f_equal. apply (same_over _ ns (d_pairs s) (d_pairs s')); [congruence | assumption|].
    intros i p Hi. assert (Gp := good_get s p Gd (nth_error_In _ _ Hi)). destruct (get2 (d_cells s) p) as [[a b]|] eqn:Eg; [|easy].
    destruct (Hr i p a b Hi (get2_of _ _ _ _ Eg)) as (p' & d & d' & n & R1 & _ & _ & R4 & -> & _). eauto.
  - intros i p a b Hi Hof. destruct (Hr i p a b Hi Hof) as (p' & d & d' & n & R1 & R2 & R3 & _ & _ & R5). exists p', d, d'.
    auto.
Qed.

(** *** The B-Rep computations *)

(** After any calls other than rkCDColChkOBBVert, with arbitrary data in the pairs: the B-Rep computations report the pairs whose boxes
    meet and whose polyhedra, where the links are now, have something in common, and give each of these pairs the data of the contact,
    which depend on those two polyhedra only. *)
Theorem C106_data (h : hist) (s : cd) (ds : list vdat) k w :
  Forall (fun e => no_obbvert (snd e)) h -> run h cd_create = Some s -> length ds = length (d_pairs s) ->
  k <> VolMP ->
  (k = VolBREPFast -> forall p a b, In p (d_pairs s) -> of_cells s p a b -> outcome CkOBB w a b = true -> x_isbox (wph w a) (wph w b) = true) ->
  exists s' ds', col_vol k w s ds = Some (s', ds') /\ length ds' = length ds /\
    map (fun p => (p_c0 p, p_c1 p)) (d_pairs s') = map (fun p => (p_c0 p, p_c1 p)) (d_pairs s) /\
    d_num s' = length (filter p_col (d_pairs s')) /\
    forall i p a b, nth_error (d_pairs s) i = Some p -> of_cells s p a b -> exists p' d',
      nth_error (d_pairs s') i = Some p' /\ nth_error ds' i = Some d' /\
      (p_col p' = true <-> outcome CkOBB w a b = true /\ exists vs f1 f2, common k (wph w a) (wph w b) vs f1 f2) /\
      (p_col p' = true -> forall vs f1 f2, common k (wph w a) (wph w b) vs f1 f2 -> d' = contact vs f1 f2).
Proof.
  intros Hh Hr Hl Hk Hb. assert (Gd := good_run _ _ _ Hh Hr good_create).
  destruct (col_vol_is k w (fun a b d r d' => (r = true <-> exists vs f1 f2, common k a b vs f1 f2) /\
    (r = true -> forall vs f1 f2, common k a b vs f1 f2 -> d' = contact vs f1 f2)) s ds Gd Hl) as (s' & ds' & E & Hl' & En & Hn & H).
  { intros p a b d Hp Hof Ho. destruct (pair_vol_is k (wph w a) (wph w b) d Hk) as (r & d' & Ev & R).
    - intros Ek. now apply (Hb Ek p).
    - exists r, d'. auto. }
  exists s', ds'. split; [assumption|]. split; [assumption|]. split; [exact En|]. split; [assumption|].
  intros i p a b Hi Hof. destruct (H i p a b Hi Hof) as (p' & d & d' & R1 & R2 & R3 & R4). exists p', d'.
  split; [assumption|]. split; [assumption|]. destruct R4 as [(Ho & Hc & _)|(Ho & Hq & Hd)].
  - rewrite Ho, Hc. split; [|discriminate]. split; [discriminate | intros [K _]; discriminate K].
  - rewrite Ho. split; [tauto | exact Hd].
Qed.

(** *** The normal *)

Lemma perm_sum (g : vec3 F * vec3 F -> vec3 F) l l' : Permutation l l' ->
  fold_right (fun e s => v3add (g e) s) v3zero l = fold_right (fun e s => v3add (g e) s) v3zero l'.
Proof.
  induction 1 as [|x l l' _ IH|x y l|l l1 l2 _ IH1 _ IH2]; cbn [fold_right].
  - reflexivity.
  - now rewrite IH.
  - generalize (g x) (g y) (fold_right (fun e s => v3add (g e) s) v3zero l). vring.
  - now rewrite IH1.
Qed.
Lemma double_zero (v : vec3 F) : v = v3opp v -> v = v3zero.
Proof.
  assert (A : forall x : F, x = (- x)%num -> x = 0%num).
  { intros x H. destruct (nle_or_lt 0%num x) as [K|K].
    - apply nle_antisym; [|assumption]. apply nle_opp0. now rewrite <- H.
    - apply nlt_le in K. apply nle_antisym; [assumption|]. rewrite H. now apply nle_opp0. }
  destruct v as [x y z]. vunfold. intros H. injection H as Hx Hy Hz. unfold v3zero. f_equal; now apply A.
Qed.
Lemma area_closed fs : closed fs -> area fs = v3zero.
Proof.
  intros H. apply double_zero. unfold area at 1. rewrite (perm_sum (fun e => v3cross (fst e) (snd e)) _ _ H).
  unfold area. generalize (edges fs). induction l as [|[a b] l IH]; cbn [map fold_right fst snd].
  - vring.
  - rewrite IH. generalize (fold_right (fun (e : vec3 F * vec3 F) s => v3add (v3cross (fst e) (snd e)) s) v3zero l). vring.
Qed.

(** When the two parts of the surfaces bound a solid, the normal of the contact is against the outward area of the first body's part,
    which is along that of the second. *)
Theorem C106_normal vs (f1 f2 : list (tri F)) : closed (f1 ++ f2) ->
  n_norm (contact vs f1 f2) = direction (v3opp (v3add (area f1) (area f1))) /\
  n_norm (contact vs f1 f2) = direction (v3add (area f2) (area f2)).
Proof.
  intros H. apply area_closed in H. rewrite area_app in H. unfold contact. cbn [n_norm]. revert H.
  generalize (area f1) (area f2). intros u v H.
  assert (E : v = v3opp u).
  { transitivity (v3sub (v3add u v) u); [vring|]. rewrite H. vring. }
  rewrite E. split; f_equal; vring.
Qed.

(** The other order of the bodies gives the opposite normal, unless the sum of the areas is tiny. *)
Theorem C106_swap vs vs' (f1 f2 : list (tri F)) :
  (forall v, x_vtiny (v3opp v) = x_vtiny v) -> (forall v, x_unit (v3opp v) = v3opp (x_unit v)) ->
  x_vtiny (v3sub (area f2) (area f1)) = false ->
  n_norm (contact vs f2 f1) = v3opp (n_norm (contact vs' f1 f2)).
Proof.
  intros Ht Hu Hn. unfold contact, direction. cbn [n_norm].
  replace (v3sub (area f1) (area f2)) with (v3opp (v3sub (area f2) (area f1))) by (generalize (area f1) (area f2); vring).
  now rewrite Ht, Hn, Hu.
Qed.

(** *** The intersection computation *)

(** rkCDColVol never writes the normal: the axes of a colliding pair are made from whatever normal the pair had before. *)
Theorem C106_intersection (h : hist) (s : cd) (ds : list vdat) w :
  Forall (fun e => no_obbvert (snd e)) h -> run h cd_create = Some s -> length ds = length (d_pairs s) ->
  exists s' ds', col_vol VolMP w s ds = Some (s', ds') /\ map n_norm ds' = map n_norm ds /\
    forall i p a b, nth_error (d_pairs s) i = Some p -> of_cells s p a b -> exists p' d d',
      nth_error (d_pairs s') i = Some p' /\ nth_error ds i = Some d /\ nth_error ds' i = Some d' /\
      (p_col p' = true <-> outcome CkOBB w a b = true /\ x_isect (wph w a) (wph w b) <> None) /\
      (p_col p' = true -> forall v, x_isect (wph w a) (wph w b) = Some v ->
         d' = VDat (n_norm d) (n_norm d, fst (x_ortho (n_norm d)), snd (x_ortho (n_norm d))) (x_bary v) v) /\
      (p_col p' = false -> d' = d).
Proof.
  intros Hh Hr Hl. assert (Gd := good_run _ _ _ Hh Hr good_create).
  destruct (col_vol_is VolMP w (fun a b d r d' => pair_isect a b d = (r, d')) s ds Gd Hl) as (s' & ds' & E & Hl' & _ & _ & H).
  { intros p a b d _ _ _. cbn [pair_vol]. destruct (pair_isect (wph w a) (wph w b) d) as [r d']. eauto. }
  assert (H' : forall i p a b, nth_error (d_pairs s) i = Some p -> of_cells s p a b -> exists p' d d',
      nth_error (d_pairs s') i = Some p' /\ nth_error ds i = Some d /\ nth_error ds' i = Some d' /\ n_norm d' = n_norm d /\
      (p_col p' = true <-> outcome CkOBB w a b = true /\ x_isect (wph w a) (wph w b) <> None) /\
      (p_col p' = true -> forall v, x_isect (wph w a) (wph w b) = Some v ->
         d' = VDat (n_norm d) (n_norm d, fst (x_ortho (n_norm d)), snd (x_ortho (n_norm d))) (x_bary v) v) /\
      (p_col p' = false -> d' = d)).
  { intros i p a b Hi Hof. destruct (H i p a b Hi Hof) as (p' & d & d' & R1 & R2 & R3 & R4). exists p', d, d'.
    split; [assumption|]. split; [assumption|]. split; [assumption|]. destruct R4 as [(Ho & Hc & ->)|(Ho & Hq)].
    - rewrite Ho, Hc. split; [reflexivity|]. split; [|split; [discriminate | reflexivity]].
      split; [discriminate | intros [K _]; discriminate K].
    - rewrite Ho. unfold pair_isect in Hq. destruct (x_isect (wph w a) (wph w b)) as [v|]; injection Hq as <- <-.
      + split; [reflexivity|]. split; [split; [intros _; split; [reflexivity | discriminate] | reflexivity]|].
        split; [|discriminate]. intros _ u Eu. injection Eu as <-. reflexivity.
      + split; [reflexivity|]. split; [|split; [discriminate | reflexivity]]. split; [discriminate | intros [_ K]; now elim K]. }
  exists s', ds'. split; [assumption|]. split.
  - apply nth_error_same. intros i. rewrite !nth_error_map.
    destruct (nth_error (d_pairs s) i) as [p|] eqn:Hi.
    + assert (Gp := good_get s p Gd (nth_error_In _ _ Hi)). destruct (get2 (d_cells s) p) as [[a b]|] eqn:Eg; [|easy].
      destruct (H' i p a b Hi (get2_of _ _ _ _ Eg)) as (p' & d & d' & _ & -> & -> & Ed & _). cbn. now rewrite Ed.
    + apply nth_error_None in Hi. assert (A : nth_error ds i = None) by (apply nth_error_None; lia).
      assert (B : nth_error ds' i = None) by (apply nth_error_None; lia). now rewrite A, B.
  - intros i p a b Hi Hof. destruct (H' i p a b Hi Hof) as (p' & d & d' & R). exists p', d, d'. tauto.
Qed.

(** ** C107: rkCDColVolBREPVert *)

(** It gives a rigid pair the flag and the data rkCDColVolBREP gives it, any other pair what rkCDColChkVert gives it, and counts rigid
    colliding pairs and contact vertices of the others.  The vertices of a rigid pair are left as they were if its boxes meet. *)
Theorem C107_both (rigid : nat -> nat -> bool) (h : hist) (s : cd) (ds : list vdat) w :
  Forall (fun e => no_obbvert (snd e)) h -> run h cd_create = Some s -> length ds = length (d_pairs s) ->
  exists sb db sv sm dm, col_vol VolBREP w s ds = Some (sb, db) /\ run_op w (Check CkVert) s = Some sv /\
    col_both rigid w s ds = Some (sm, dm) /\ length dm = length ds /\
    map (fun p => (p_c0 p, p_c1 p)) (d_pairs sm) = map (fun p => (p_c0 p, p_c1 p)) (d_pairs s) /\
    d_num sm = list_sum (map (fun p => if rigid (p_c0 p) (p_c1 p) then (if p_col p then 1 else 0) else length (p_vl p)) (d_pairs sm)) /\
    forall i p a b, nth_error (d_pairs s) i = Some p -> of_cells s p a b -> exists pb pv pm,
      nth_error (d_pairs sb) i = Some pb /\ nth_error (d_pairs sv) i = Some pv /\ nth_error (d_pairs sm) i = Some pm /\
      if rigid (p_c0 p) (p_c1 p)
      then p_col pm = p_col pb /\ nth_error dm i = nth_error db i /\ p_vl pm = (if outcome CkOBB w a b then p_vl p else [])
      else pm = pv /\ nth_error dm i = nth_error ds i.
Proof.
  intros Hh Hr Hl. assert (Gd := good_run _ _ _ Hh Hr good_create).
  destruct (col_vol_is VolBREP w (fun a b d r d' => pair_brep a b d = (r, d')) s ds Gd Hl) as (sb & db & Eb & Hlb & _ & _ & Hb).
  { intros p a b d _ _ _. cbn [pair_vol]. destruct (pair_brep (wph w a) (wph w b) d) as [r d']. eauto. }
  destruct (check_is w CkVert s Gd) as (sv & Ev & _ & _ & Pv & _); [discriminate|].
  destruct (vrun_is w (step_both rigid w) (fun a b p d p' d' n => ends p' = ends p /\
    if rigid (p_c0 p) (p_c1 p)
    then n = (if p_col p' then 1 else 0) /\
         ((p_col p = false /\ p_col p' = false /\ d' = d /\ p_vl p' = []) \/
          (p_col p = true /\ pair_brep (wph w a) (wph w b) d = (p_col p', d') /\ p_vl p' = p_vl p))
    else n = length (p_vl p') /\ d' = d /\
         p' = (if p_col p then set_verts (pair_verts w (wcell w a) (wcell w b) (p_vl p)) p else set_vl [] p)) s ds Gd Hl)
    as (sm & dm & ns & Em & Hlm & Hnm & En & Hn & Hm).
  { intros cs1 p a b a1 b1 d I G Fa Fb _ Hof Ec. unfold step_both. destruct (p_col p && rigid (p_c0 p) (p_c1 p)) eqn:Er.
    - apply andb_true_iff in Er. destruct Er as [Ep Er].
      destruct (step_data_is VolBREP w cs1 p a b a1 b1 d (fun r d' => pair_brep (wph w a) (wph w b) d = (r, d')) I G Fa Fb Ep)
        as (cs2 & p' & d' & n & Q1 & Q2 & Q3 & Q4 & Q5 & Q6 & Q7).
      { cbn [pair_vol]. destruct (pair_brep (wph w a) (wph w b) d) as [r d']. eauto. }
      exists cs2, p', d', n. repeat (split; [assumption|]). rewrite Er. split; [assumption|]. right.
      split; [assumption|]. split; [assumption|]. now rewrite Q6.
    - destruct (step_vert_is w cs1 p a1 b1 I G Logic.I) as (cs2 & Es & I2 & L2 & _). rewrite Es.
      do 4 eexists. split; [reflexivity|]. split; [assumption|]. split; [assumption|]. unfold verts2.
      rewrite (resp_verts w (p_vl p) a a1 b b1 Fa Fb).
      split; [now destruct (p_col p)|]. split; [now destruct (p_col p)|].
      destruct (rigid (p_c0 p) (p_c1 p)).
      + rewrite andb_true_r in Er. rewrite Er. cbn [set_vl p_col p_vl]. rewrite Er. split; [reflexivity|]. left. auto.
      + split; [|auto]. now destruct (p_col p). }
  exists sb, db, sv, sm, dm. split; [exact Eb|]. split; [exact Ev|]. split; [exact Em|]. split; [assumption|]. split; [exact En|]. split.
  - rewrite Hn. f_equal. apply (same_over _ ns (d_pairs s) (d_pairs sm)); [congruence | assumption|].
    intros i p Hi. assert (Gp := good_get s p Gd (nth_error_In _ _ Hi)). destruct (get2 (d_cells s) p) as [[a b]|] eqn:Eg; [|easy].
    destruct (Hm i p a b Hi (get2_of _ _ _ _ Eg)) as (p' & d & d' & n & R1 & _ & _ & R4 & Re & R5).
    exists p'. split; [assumption|]. rewrite R4. unfold ends in Re. cbn [set_col p_c0 p_c1] in R5, Re. injection Re as -> ->.
    destruct (rigid (p_c0 p) (p_c1 p)); destruct R5 as [-> _]; reflexivity.
  - intros i p a b Hi Hof. destruct (Hm i p a b Hi Hof) as (pm & d & d' & n & R1 & R2 & R3 & R4 & _ & R5).
    destruct (Hb i p a b Hi Hof) as (pb & e & e' & S1 & S2 & S3 & S4). rewrite R2 in S2. injection S2 as <-.
    exists pb, (vchk w (d_cells s) p), pm. split; [assumption|]. split; [rewrite Pv, nth_error_map, Hi; reflexivity|]. split; [assumption|].
    cbn [set_col p_c0 p_c1 p_vl p_col] in R5. rewrite R3, S3, R2. destruct (rigid (p_c0 p) (p_c1 p)).
    + destruct R5 as [_ [(Ho & Hc & -> & Hv)|(Ho & Hq & Hv)]], S4 as [(Ho' & Hc' & ->)|(Ho' & Hq')]; rewrite Ho in *; try discriminate.
      * rewrite Hc, Hc'. auto.
      * rewrite Hq in Hq'. injection Hq' as -> ->. auto.
    + destruct R5 as (_ & -> & ->). split; [|reflexivity]. apply (of_get2 s p a b (proj1 (proj1 Gd))) in Hof.
      unfold vchk, cells_of. rewrite Hof. change (outcome CkVert w a b) with (outcome CkOBB w a b).
      now destruct (outcome CkOBB w a b).
Qed.
End Proofs.

(** ** Concrete cases *)

(** A reading of the ZEO functions good enough for blocks: what is left of the first block after truncation are its vertices and faces
    that lie in the second one; the hull of points is the block around them. *)
Definition left_of (a b : ph Qc) : list (vec3 Qc) * list (tri Qc) :=
  (filter (g_in b) (vts a),
   flat_map (fun '(i, j, k) => match nth_error (vts a) i, nth_error (vts a) j, nth_error (vts a) k with
                               | Some x, Some y, Some z => if g_in b x && g_in b y && g_in b z then [(x, y, z)] else []
                               | _, _, _ => []
                               end) (fcs a)).
Definition around (l : list (vec3 Qc)) : ph Qc := block (bound v3min l) (bound v3max l).
Definition mid (a : ph Qc) : vec3 Qc := v3scale (q 1 2) (v3add (bound v3min (vts a)) (bound v3max (vts a))).
Definition spans (a b : ph Qc) : bool := overlap (bound v3min (vts a), bound v3max (vts a)) (bound v3min (vts b), bound v3max (vts b)).
Definition shared (a b : ph Qc) : option (ph Qc) :=
  if g_cph a b then Some (around (fst (left_of a b) ++ fst (left_of b a))) else None.
#[local] Instance blocks_ext : VolExt Qc := mkVolExt Qc (fun _ a b => Some (left_of a b)) spans around mid shared.

Lemma some_view {A B} (f : A -> B) (o : option A) v : option_map f o = Some v -> exists x, o = Some x /\ f x = v.
Proof. destruct o as [x|]; [|discriminate]. intros H. injection H as <-. eauto. Qed.
Lemma some_view2 {A B C} (f : A -> B) (g : A -> C) (o : option A) u v :
  option_map (fun x => (f x, g x)) o = Some (u, v) -> exists x, o = Some x /\ f x = u /\ g x = v.
Proof. destruct o as [x|]; [|discriminate]. intros H. injection H as <- <-. eauto. Qed.
Definition v3q (v : vec3 Qc) : list Q := [this (vx v); this (vy v); this (vz v)].
Definition seen (r : qcd * list (vdat Qc)) := (vflags (fst r), d_num (fst r), map (fun d => (v3q (n_norm d), v3q (n_center d))) (snd r)).
Definition vcalc (k : volkind) (w : nat -> frame Qc) (d : vdat Qc) : option (qcd * list (vdat Qc)) :=
  obind (qrun [(up 1, box1); (up 1, slab1); (up (-1), Check CkGJK)] cd_create) (fun s => col_vol k w s [d]).
(** The unit block stands on its side of the slab: its lower corner is at (3/2, 0, -1), so that it sticks out of the slab, to the right. *)
Definition beside (l : nat) : frame Qc := match l with 10 => Fr (V3 (q 3 2) (q 0 1) (q (-1) 1)) m3id | _ => Fr v3zero m3id end.
Definition dat0 (x y z : Z) : vdat Qc := let n := V3 (q x 1) (q y 1) (q z 1) in VDat n (n, n, n) n (PH [] []).

(** The block sinks into the slab from above, then stands in its right side: it is to be pushed up, and to the right, whatever was in
    the pair before.  Far away there is no contact. *)
Example C106_ex_above : exists r, vcalc VolBREP (up (-1000)) (dat0 7 8 9) = Some r /\
  seen r = ([true], 1%nat, [([0; 0; 1], [1#2; 1#2; -1#2])])%Q.
Proof. apply some_view. vm_compute. reflexivity. Qed.
Example C106_ex_beside : exists r, vcalc VolBREP beside (dat0 7 8 9) = Some r /\
  seen r = ([true], 1%nat, [([1; 0; 0], [3#2; 1#2; -1#2])])%Q.
Proof. apply some_view. vm_compute. reflexivity. Qed.
Example C106_ex_fast : exists r, vcalc VolBREPFast beside (dat0 0 0 0) = Some r /\
  seen r = ([true], 1%nat, [([1; 0; 0], [3#2; 1#2; -1#2])])%Q.
Proof. apply some_view. vm_compute. reflexivity. Qed.
Example C106_ex_far : exists r, vcalc VolBREP (up 500) (dat0 7 8 9) = Some r /\ seen r = ([false], 0%nat, [([7; 8; 9], [7; 8; 9])])%Q.
Proof. apply some_view. vm_compute. reflexivity. Qed.

Local Ltac pick := match goal with
  | |- Permutation [] [] => constructor
  | |- Permutation (?x :: ?l) ?r =>
    let rec go pre r := lazymatch r with
      | x :: ?tl => apply (Permutation_cons_app pre tl x)
      | ?y :: ?tl => let pre' := eval cbn [app] in (pre ++ [y]) in go pre' tl
      end in
    let T := type of x in go (@nil T) r; cbn [app]
  end.
(** The four faces of a tetrahedron, two from each body. *)
Example C106_normal_ex :
  let o := V3 (q 0 1) (q 0 1) (q 0 1) in let a := V3 (q 2 1) (q 0 1) (q 0 1) in
  let b := V3 (q 0 1) (q 2 1) (q 0 1) in let c := V3 (q 0 1) (q 0 1) (q 2 1) in
  let f1 := [(o, b, a); (o, a, c)] in let f2 := [(a, b, c); (o, c, b)] in
  closed (f1 ++ f2) /\ v3q (area f2) = [0; 4; 4]%Q /\ v3q (n_norm (contact [o; a; b; c] f1 f2)) = [0; 1; 1]%Q /\
  v3q (n_norm (contact [o; a; b; c] f2 f1)) = [0; -1; -1]%Q.
Proof.
  intros o a b c f1 f2. split; [|vm_compute; auto]. unfold closed, edges, f1, f2. clearbody o a b c. cbn [app flat_map map fst snd].
  repeat pick.
Qed.

(** rkCDColVol on the same two bodies gives different normals: the one the pair happened to have, none at all in a new pair. *)
Theorem C106_stale_refuted : exists r r', vcalc VolMP beside (dat0 0 0 0) = Some r /\ vcalc VolMP beside (dat0 0 0 (-1)) = Some r' /\
  seen r = ([true], 1%nat, [([0; 0; 0], [3#2; 1#2; -1#2])])%Q /\ seen r' = ([true], 1%nat, [([0; 0; -1], [3#2; 1#2; -1#2])])%Q.
Proof.
  destruct (some_view seen (vcalc VolMP beside (dat0 0 0 0)) ([true], 1%nat, [([0; 0; 0], [3#2; 1#2; -1#2])])%Q) as (r & E & S).
  { vm_compute. reflexivity. }
  destruct (some_view seen (vcalc VolMP beside (dat0 0 0 (-1))) ([true], 1%nat, [([0; 0; -1], [3#2; 1#2; -1#2])])%Q) as (r' & E' & S').
  { vm_compute. reflexivity. }
  exists r, r'. auto.
Qed.

(** The same functions, but boxes that only touch have no box in common.  The block rests on the slab: rkCDColVolBREP copes,
    rkCDColVolBREPFast destroys B-Reps it has not made. *)
Definition strictly (a b : ph Qc) : bool :=
  let lt u v := negb (nleb v u) in
  let '(l1, h1, l2, h2) := (bound v3min (vts a), bound v3max (vts a), bound v3min (vts b), bound v3max (vts b)) in
  lt (vx l1) (vx h2) && lt (vx l2) (vx h1) && lt (vy l1) (vy h2) && lt (vy l2) (vy h1) && lt (vz l1) (vz h2) && lt (vz l2) (vz h1).
Definition strict_ext : VolExt Qc := mkVolExt Qc (fun _ a b => Some (left_of a b)) strictly around mid shared.
Theorem C106_fast_refuted : exists s : qcd,
  qrun [(up 1, box1); (up 1, slab1)] cd_create = Some s /\ length (d_pairs s) = 1%nat /\
  col_vol (V := strict_ext) VolBREP (up 0) s [dat0 0 0 0] <> None /\ col_vol (V := strict_ext) VolBREPFast (up 0) s [dat0 0 0 0] = None.
Proof.
  destruct (some_view (fun s : qcd => (length (d_pairs s),
      match col_vol (V := strict_ext) VolBREP (up 0) s [dat0 0 0 0] with None => false | _ => true end,
      match col_vol (V := strict_ext) VolBREPFast (up 0) s [dat0 0 0 0] with None => false | _ => true end))
    (qrun [(up 1, box1); (up 1, slab1)] cd_create) (1%nat, true, false)) as (s & E & S).
  { vm_compute. reflexivity. }
  exists s. split; [exact E|]. injection S as S1 S2 S3. split; [exact S1|].
  split; [now destruct (col_vol (V := strict_ext) VolBREP (up 0) s [dat0 0 0 0])|].
  now destruct (col_vol (V := strict_ext) VolBREPFast (up 0) s [dat0 0 0 0]).
Qed.

(** The theorem applied to the block and the slab: every computation runs through. *)
Example C106_data_ex (d : vdat Qc) : exists r, vcalc VolBREP beside d = Some r.
Proof.
  unfold vcalc. destruct (qrun [(up 1, box1); (up 1, slab1); (up (-1), Check CkGJK)] cd_create) as [s|] eqn:E.
  - cbn [obind]. destruct (C106_data (X := geo) [(up 1, box1); (up 1, slab1); (up (-1), Check CkGJK)] s [d] VolBREP beside) as (s' & ds' & Ev & _).
    + repeat constructor.
    + exact E.
    + destruct (some_view (fun s : qcd => length (d_pairs s)) (qrun [(up 1, box1); (up 1, slab1); (up (-1), Check CkGJK)] cd_create) 1%nat) as (s0 & E0 & S).
      { vm_compute. reflexivity. }
      rewrite E in E0. injection E0 as ->. now symmetry.
    + discriminate.
    + discriminate.
    + eauto.
  - exfalso. revert E. generalize (some_view (fun s : qcd => length (d_pairs s)) (qrun [(up 1, box1); (up 1, slab1); (up (-1), Check CkGJK)] cd_create) 1%nat).
    intros H. destruct H as (s & -> & _); [vm_compute; reflexivity | discriminate].
Qed.

(** The block stood above the slab when its vertices were checked; now it is beside it.  As a rigid pair it gets the data of the
    contact, and keeps the four vertices of the earlier contact; none of its vertices is inside the slab now. *)
Definition bcalc (rigid : bool) : option (qcd * list (vdat Qc)) :=
  obind (qrun [(up 1, box1); (up 1, slab1); (up (-1000), Check CkVert)] cd_create) (fun s => col_both (fun _ _ => rigid) beside s [dat0 7 8 9]).
Example C107_ex : exists r, bcalc false = Some r /\
  seen r = ([false], 0%nat, [([7; 8; 9], [7; 8; 9])])%Q /\ vverts (fst r) = [[]].
Proof. apply some_view2. vm_compute. reflexivity. Qed.
Theorem C107_vertices_refuted : exists r, bcalc true = Some r /\
  seen r = ([true], 1%nat, [([1; 0; 0], [3#2; 1#2; -1#2])])%Q /\ map (@length nat) (vverts (fst r)) = [4].
Proof. apply some_view2. vm_compute. reflexivity. Qed.

Print Assumptions C106_data.
Print Assumptions C106_normal.
Print Assumptions C106_swap.
Print Assumptions C106_intersection.
Print Assumptions C106_stale_refuted.
Print Assumptions C106_fast_refuted.
Print Assumptions C107_both.
Print Assumptions C107_vertices_refuted.
