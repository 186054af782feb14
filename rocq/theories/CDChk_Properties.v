(** * CDChk_Properties: what the collision checks report (C55, C56, C57). *)

From Coq Require Import Bool List Arith Lia ZArith QArith Qcanon.
From Verif Require Import Num NumFacts Vec VecFacts CD_Model CD_Spec CD_Proofs CD_Inv CD_Geo CDReg_Properties.
Import ListNotations.
Local Open Scope nat_scope.

Section Chk.
Context {F BX AB : Type} {N : Num F} {X : CDExt F BX AB}.
Notation cell := (cell F BX AB).
Notation cd := (cd F BX AB).
Notation pair := (pair F).
Notation op := (op F).
Notation hist := (list ((nat -> frame F) * op)).

Definition flag_view (p : pair) := (p_c0 p, p_c1 p, p_col p).

Lemma get2_fixedb (cs cs' : list cell) (p : pair) : map fixedb cs' = map fixedb cs ->
  match get2 cs p, get2 cs' p with
  | Some (a, b), Some (a', b') => fixedb a' = fixedb a /\ fixedb b' = fixedb b
  | None, None => True
  | _, _ => False
  end.
Proof.
  intros H.
  assert (G : forall x, match get_cell cs x, get_cell cs' x with
                        | Some a, Some a' => fixedb a' = fixedb a | None, None => True | _, _ => False end).
  { intros x. revert cs' H. unfold get_cell. induction cs as [|c tl IH]; intros [|c' tl'] H; try discriminate; [exact Logic.I|].
    cbn [map] in H. assert (E1 : fixedb c' = fixedb c) by congruence. assert (E2 : map fixedb tl' = map fixedb tl) by congruence.
    cbn [find].
    assert (Ea : k_addr c' = k_addr c) by (unfold fixedb, fixed in E1; congruence). rewrite Ea.
    destruct (k_addr c =? x); [|now apply IH]. exact E1. }
  assert (G0 := G (p_c0 p)). assert (G1 := G (p_c1 p)). unfold get2.
  destruct (get_cell cs (p_c0 p)), (get_cell cs' (p_c0 p)); try easy;
    destruct (get_cell cs (p_c1 p)), (get_cell cs' (p_c1 p)); easy.
Qed.
Lemma cells_of_fixedb {A} (T : cell -> cell -> A) d (cs cs' : list cell) p :
  resp2 T -> map fixedb cs' = map fixedb cs -> cells_of T d cs' p = cells_of T d cs p.
Proof.
  intros R H. apply get2_fixedb with (p := p) in H. unfold cells_of.
  destruct (get2 cs p) as [[a b]|], (get2 cs' p) as [[a' b']|]; try easy. now apply R.
Qed.

Lemma fixedb_fixed (cs cs' : list cell) : map fixedb cs' = map fixedb cs -> map fixed cs' = map fixed cs.
Proof.
  intros H. replace (map fixed cs') with (map (fun x => fst (fst x)) (map fixedb cs')) by (rewrite map_map; reflexivity).
  rewrite H, map_map. reflexivity.
Qed.

Lemma check_pair_ends w k (cs : list cell) (p : pair) : ends (check_pair w k cs p) = ends p.
Proof. unfold check_pair, vchk. destruct k; try reflexivity. now destruct (cells_of _ _ _ _). Qed.

(** ** C55 *)

(** Every check other than rkCDColChkOBBVert, after any history without that function, succeeds, keeps the
    registered cells and pairs, and sets the flag of every pair as the geometric tests say for the current
    link frames.  (rkCDColChkVert is treated separately below.) *)
Theorem C55_flags_partial (h : hist) (s : cd) w k :
  Forall (fun e => no_obbvert (snd e)) h -> run h cd_create = Some s -> k <> CkOBBVert ->
  exists s', run_op w (Check k) s = Some s' /\
    map fixed (d_cells s') = map fixed (d_cells s) /\ map ends (d_pairs s') = map ends (d_pairs s) /\
    (k <> CkVert -> forall p a b, In p (d_pairs s') -> of_cells s' p a b -> p_col p = outcome k w a b).
Proof.
  intros Hh H Hk. assert (Gd := good_run h cd_create s Hh H good_create).
  destruct (check_is w k s Gd Hk) as (s' & E & Gd' & Ef & Ep & _). exists s'. split; [exact E|].
  split; [now apply fixedb_fixed|]. split.
  - rewrite Ep, map_map. apply map_ext. intros p. apply check_pair_ends.
  - intros Hv p a b Hp Hab. apply (of_get2 _ _ _ _ (proj1 (proj1 Gd'))) in Hab.
    rewrite Ep in Hp. apply in_map_iff in Hp. destruct Hp as (q & <- & Hq).
    rewrite (get2_ends _ q _ (check_pair_ends w k (d_cells s) q)) in Hab.
    assert (C := cells_of_fixedb (outcome k w) false (d_cells s) (d_cells s') q (resp_outcome k w) Ef).
    unfold cells_of in C at 1. rewrite Hab in C. rewrite C. unfold check_pair. destruct k; easy.
Qed.

(** With an allocator that does not return live blocks, no history without rkCDColChkOBBVert has undefined
    behaviour. *)
Lemma chain_reg_some w chain ty (ss : list (nat * nat * ph F)) (s : cd) :
  NoDup (map (fun x => snd (fst x)) ss) ->
  (forall x, In x (map (fun x => snd (fst x)) ss) -> ~ In x (map k_addr (d_cells s))) ->
  exists s', chain_reg w chain ty ss s = Some s' /\
    forall x, In x (map k_addr (d_cells s')) -> In x (map k_addr (d_cells s)) \/ In x (map (fun x => snd (fst x)) ss).
Proof.
  revert s. induction ss as [|[[l a] sh] tl IH]; intros s D H; cbn [chain_reg map].
  - exists s. split; [reflexivity | auto].
  - assert (G : get_cell (d_cells s) a = None) by (apply get_cell_none, H; now left). rewrite G.
    cbn [map fst snd] in D, H. inversion D as [|? ? D1 D2]; subst.
    match goal with |- context [chain_reg w chain ty tl ?s1] => destruct (IH s1 D2) as (s' & E & K) end.
    + intros x Hx. cbn [d_cells]. rewrite map_app, in_app_iff. intros [K|[K|[]]].
      * apply (H x); [now right | assumption].
      * cbn in K. subst. contradiction.
    + exists s'. split; [exact E|]. intros x Hx. apply K in Hx. cbn [d_cells] in Hx. rewrite map_app, in_app_iff in Hx.
      cbn in Hx. cbn. tauto.
Qed.

Theorem C55_defined (h : hist) : Forall (fun e => no_obbvert (snd e)) h -> NoDup (flat_map (fun e => blocks (snd e)) h) ->
  exists s : cd, run h cd_create = Some s.
Proof.
  intros Hh D.
  assert (T : forall s : cd, good s -> (forall x, In x (map k_addr (d_cells s)) -> ~ In x (flat_map (fun e => blocks (snd e)) h)) ->
    exists s', run h s = Some s').
  { revert D. induction Hh as [|[w o] tl Ho Htl IH]; intros D s Gd H; [exists s; reflexivity|].
    cbn [flat_map snd] in D, H. cbn [snd] in Ho.
    assert (D1 : NoDup (blocks o)) by (clear - D; induction (blocks o) as [|x l IH]; [constructor|];
      cbn [app] in D; inversion D; subst; constructor; [rewrite in_app_iff in *; tauto | auto]).
    assert (D2 : NoDup (flat_map (fun e => blocks (snd e)) tl)) by (clear - D; induction (blocks o) as [|x l IH]; [exact D|];
      cbn [app] in D; inversion D; subst; auto).
    assert (D3 : forall x, In x (blocks o) -> ~ In x (flat_map (fun e => blocks (snd e)) tl)).
    { clear - D. induction (blocks o) as [|x l IH]; [easy|]. cbn [app] in D. inversion D; subst.
      intros y [<-|Hy]; [rewrite in_app_iff in *; tauto | auto]. }
    assert (S1 : exists s1, run_op w o s = Some s1 /\
      forall x, In x (map k_addr (d_cells s1)) -> In x (map k_addr (d_cells s)) \/ In x (blocks o)).
    { assert (K : forall q s1, keep q s = Some s1 -> d_cells s1 = d_cells s) by (intros q s1 E; apply keep_spec in E; tauto).
      assert (KS : forall q, exists s1, keep q s = Some s1).
      { intros q. unfold keep. destruct (pairs_with_some (fun a b => negb (q a b)) (d_cells s) (d_pairs s)) as [r ->]; eauto.
        intros p Hp. now apply good_get. }
      destruct o; cbn [run_op blocks].
      - apply chain_reg_some; [assumption|]. intros x Hx Hc. apply (H x Hc). apply in_or_app. now left.
      - unfold chain_unreg. destruct (KS (fun a b => (k_chain a =? chain) || (k_chain b =? chain))) as [s1 E]. rewrite E.
        eexists. split; [reflexivity|]. cbn [d_cells]. rewrite (K _ _ E). intros x Hx. left.
        apply in_map_iff in Hx. destruct Hx as (c & <- & Hc). apply filter_In in Hc. apply in_map. tauto.
      - unfold pair_reg. destruct (pairs_with_some (joins l1 l2) (d_cells s) (d_pairs s)) as [r ->].
        + intros p Hp. now apply good_get.
        + destruct r; eexists; (split; [reflexivity | cbn; auto]).
      - destruct (KS (joins l1 l2)) as [s1 E]. exists s1. split; [exact E|]. rewrite (K _ _ E). auto.
      - destruct (KS (fun a b => (k_chain a =? chain) && (k_chain b =? chain))) as [s1 E].
        exists s1. split; [exact E|]. rewrite (K _ _ E). auto.
      - destruct (check_is w k s Gd) as (s1 & E & _ & Ef & _); [intros ->; exact Ho|].
        exists s1. split; [exact E|]. apply fixedb_fixed in Ef.
        replace (map k_addr (d_cells s1)) with (map (fun x => fst (fst (fst (fst (fst x))))) (map fixed (d_cells s1)))
          by (rewrite map_map; reflexivity).
        rewrite Ef, map_map. cbn. auto. }
    destruct S1 as (s1 & E & Hs1). cbn [run]. rewrite E. cbn [obind].
    apply IH; [assumption | eapply good_op; eassumption|].
    intros x Hx. destruct (Hs1 x Hx) as [K|K]; [|now apply D3].
    intros Hc. apply (H x K). apply in_or_app. now right. }
  apply T; [apply good_create | intros x []].
Qed.

(** *** The vertex check *)

Lemma vert_scan_in (f1 : frame F) old (a b : cell) i xs v : In v (vert_scan f1 old a b i xs) ->
  exists x, In x xs /\ x_inside (k_ph b) x = true.
Proof.
  revert i. induction xs as [|x tl IH]; intros i; cbn [vert_scan]; [intros []|].
  destruct (x_inside (k_ph b) x) eqn:E.
  - intros _. exists x. split; [now left | assumption].
  - intros H. destruct (IH _ H) as (y & Hy & K). exists y. split; [now right | assumption].
Qed.
Lemma vert_scan_some (f1 : frame F) old (a b : cell) i xs x : In x xs -> x_inside (k_ph b) x = true ->
  x_vtiny (v3sub (x_closest (k_ph b) x) x) = false -> vert_scan f1 old a b i xs <> [].
Proof.
  intros H K T. revert i. induction xs as [|y tl IH]; intros i; [destruct H|]. cbn [vert_scan].
  destruct H as [->|H].
  - rewrite K. unfold vert_reg. destruct (find _ _); [discriminate|]. unfold vert_new. rewrite T. discriminate.
  - destruct (if x_inside (k_ph b) y then _ else _); [discriminate | now apply IH].
Qed.
Lemma vert_scan_len (f1 : frame F) old (a b : cell) i xs :
  length (vert_scan f1 old a b i xs) <= length (filter (x_inside (k_ph b)) xs).
Proof.
  revert i. induction xs as [|x tl IH]; intros i; cbn [vert_scan filter]; [auto|].
  destruct (x_inside (k_ph b) x).
  - destruct (vert_reg _ _ _ _ _ _); cbn [length]; [apply le_n_S, IH | apply le_S, IH].
  - apply IH.
Qed.

(** A vertex of one shape inside the other, at a depth that is not negligible if [deep]. *)
Definition reaches (deep : bool) (P Q : ph F) : Prop :=
  exists x, In x (vts P) /\ x_inside Q x = true /\ (deep = true -> x_vtiny (v3sub (x_closest Q x) x) = false).
Definition touches (deep : bool) (w : nat -> frame F) (a b : cell) : Prop :=
  reaches deep (wph w a) (wph w b) \/ reaches deep (wph w b) (wph w a).

(** rkCDColChkVert flags a pair only if the boxes overlap and a vertex of one shape is inside the other, and
    does so whenever there is such a vertex that is not within the tolerance of the surface. *)
Theorem C55_vert_partial (h : hist) (s s' : cd) w :
  Forall (fun e => no_obbvert (snd e)) h -> run h cd_create = Some s -> run_op w (Check CkVert) s = Some s' ->
  forall p a b, In p (d_pairs s') -> of_cells s' p a b ->
    (p_col p = true -> outcome CkOBB w a b = true /\ touches false w a b) /\
    (outcome CkOBB w a b = true -> touches true w a b -> p_col p = true) /\
    (p_vl p <> [] <-> p_col p = true).
Proof.
  intros Hh H E p a b Hp Hab. assert (Gd := good_run h cd_create s Hh H good_create).
  destruct (check_is w CkVert s Gd) as (s1 & E1 & Gd' & Ef & Ep & _); [discriminate|].
  cbn [run_op] in E. rewrite E1 in E. injection E as <-.
  apply (of_get2 _ _ _ _ (proj1 (proj1 Gd'))) in Hab.
  rewrite Ep in Hp. apply in_map_iff in Hp. destruct Hp as (q & <- & Hq).
  rewrite (get2_ends _ q _ (check_pair_ends w CkVert (d_cells s) q)) in Hab. cbn [check_pair]. unfold vchk.
  assert (C := cells_of_fixedb (outcome CkVert w) false (d_cells s) (d_cells s1) q (resp_outcome CkVert w) Ef).
  assert (V := cells_of_fixedb (fun a b => pair_verts w (wcell w a) (wcell w b) (p_vl q)) [] (d_cells s) (d_cells s1) q
                 (resp_verts w (p_vl q)) Ef).
  unfold cells_of in C at 1. unfold cells_of in V at 1. rewrite Hab in C, V. rewrite <- C, <- V. clear C V.
  assert (Eo : outcome CkVert w a b = outcome CkOBB w a b) by reflexivity. rewrite Eo. clear Eo.
  destruct (outcome CkOBB w a b) eqn:O; [|cbn; repeat split; try discriminate; easy].
  set (l := pair_verts w (wcell w a) (wcell w b) (p_vl q)).
  assert (L1 : l <> [] -> touches false w a b).
  { unfold l, pair_verts. intros K. destruct (vert_scan _ _ (wcell w a) _ _ _) as [|v tl] eqn:Ea.
    - destruct (vert_scan _ _ (wcell w b) _ _ _) as [|v tl] eqn:Eb; [easy|].
      destruct (vert_scan_in _ _ _ _ _ _ v ltac:(rewrite Eb; now left)) as (x & Hx & K').
      right. exists x. split; [exact Hx|]. split; [exact K' | discriminate].
    - destruct (vert_scan_in _ _ _ _ _ _ v ltac:(rewrite Ea; now left)) as (x & Hx & K').
      left. exists x. split; [exact Hx|]. split; [exact K' | discriminate]. }
  assert (L2 : touches true w a b -> l <> []).
  { intros [T|T]; destruct T as (x & Hx & K & D); specialize (D eq_refl); unfold l, pair_verts; intros Z;
      apply app_eq_nil in Z; destruct Z as [Z1 Z2].
    - revert Z1. eapply vert_scan_some; [exact Hx | exact K | exact D].
    - revert Z2. eapply vert_scan_some; [exact Hx | exact K | exact D]. }
  destruct l as [|v tl]; cbn.
  - split; [discriminate|]. split; [intros _ T; now apply L2 in T | easy].
  - split; [|split; [reflexivity | easy]]. intros _. split; [reflexivity | apply L1; discriminate].
Qed.

(** *** The count *)

(** After a volume computation the number of colliding pairs is the number of pairs flagged. *)
Theorem C55_count_partial (h : hist) (s s' : cd) w v :
  Forall (fun e => no_obbvert (snd e)) h -> run h cd_create = Some s -> run_op w (Check (CkVol v)) s = Some s' ->
  d_num s' = length (filter p_col (d_pairs s')).
Proof.
  intros Hh H E. assert (Gd := good_run h cd_create s Hh H good_create).
  destruct (check_is w (CkVol v) s Gd) as (s1 & E1 & _ & _ & Ep & En); [discriminate|].
  cbn [run_op] in E. rewrite E1 in E. injection E as <-. rewrite Ep, En. cbn [check_num]. clear Ep En.
  induction (d_pairs s) as [|p tl IH]; [reflexivity|]. cbn [map filter].
  change (p_col (check_pair w (CkVol v) (d_cells s) p)) with (cells_of (outcome (CkVol v) w) false (d_cells s) p).
  match goal with |- list_sum (?x :: ?l) = _ => change (list_sum (x :: l)) with (x + list_sum l) end. rewrite IH.
  now destruct (cells_of (outcome (CkVol v) w) false (d_cells s) p).
Qed.

(** After rkCDColChkVert it is the number of contact vertices. *)
Theorem C55_vert_count (h : hist) (s s' : cd) w :
  Forall (fun e => no_obbvert (snd e)) h -> run h cd_create = Some s -> run_op w (Check CkVert) s = Some s' ->
  d_num s' = list_sum (map (fun p => length (p_vl p)) (d_pairs s')).
Proof.
  intros Hh H E. assert (Gd := good_run h cd_create s Hh H good_create).
  destruct (check_is w CkVert s Gd) as (s1 & E1 & _ & _ & Ep & En); [discriminate|].
  cbn [run_op] in E. rewrite E1 in E. injection E as <-. rewrite Ep, En. cbn [check_num check_pair]. rewrite map_map.
  f_equal. apply map_ext. intros p. cbn [check_pair]. unfold vchk. now destruct (cells_of (outcome CkVert w) false (d_cells s) p).
Qed.

(** ** C56 *)

(** If the exact test only reports shapes with a common point, the box tests report all boxes with a common
    point, an axis-aligned box encloses its box, and the boxes of the cells enclose their shapes, then the
    staged check flags exactly the pairs the exact-only check flags. *)
Theorem C56_broad_phase (inph : ph F -> vec3 F -> Prop) (inbox : BX -> vec3 F -> Prop) (inaab : AB -> vec3 F -> Prop)
  (h : hist) (s : cd) w :
  (forall P Q, x_cph P Q = true -> exists x, inph P x /\ inph Q x) ->
  (forall A B x, inbox A x -> inbox B x -> x_cbox A B = true) ->
  (forall A B x, inaab A x -> inaab B x -> x_caab A B = true) ->
  (forall A x, inbox A x -> inaab (x_aab A) x) ->
  Forall (fun e => no_obbvert (snd e)) h -> run h cd_create = Some s ->
  (forall c x, In c (d_cells s) -> inph (wph w c) x -> inbox (wbox w c) x) ->
  exists s1 s2, run_op w (Check CkGJK) s = Some s1 /\ run_op w (Check CkGJKOnly) s = Some s2 /\
    map flag_view (d_pairs s1) = map flag_view (d_pairs s2).
Proof.
  intros Hg Hb Ha He Hh H Hc. assert (Gd := good_run h cd_create s Hh H good_create).
  destruct (check_is w CkGJK s Gd) as (s1 & E1 & _ & _ & Ep1 & _); [discriminate|].
  destruct (check_is w CkGJKOnly s Gd) as (s2 & E2 & _ & _ & Ep2 & _); [discriminate|].
  exists s1, s2. split; [exact E1|]. split; [exact E2|]. rewrite Ep1, Ep2, !map_map. apply map_ext_in. intros p Hp.
  unfold flag_view. cbn [check_pair colls set_col p_c0 p_c1 p_col]. f_equal. unfold cells_of.
  destruct (get2 (d_cells s) p) as [[a b]|] eqn:G; [|reflexivity]. apply get2_of in G. destruct G as (Ia & Ib & _).
  unfold outcome. cbv zeta. destruct (x_cph (wph w a) (wph w b)) eqn:E; [|apply andb_false_r].
  destruct (Hg _ _ E) as (x & Xa & Xb). apply Hc in Xa; [|assumption]. apply Hc in Xb; [|assumption].
  rewrite (Ha _ _ x), (Hb _ _ x); auto.
Qed.

(** ** C57 *)

(** A check other than rkCDColChkOBBVert has no influence on the flags of a later check of any kind but the
    vertex check, and no influence at all on a later check of any kind if it is not a vertex check itself. *)
Theorem C57_checks_partial (h : hist) (s s1 : cd) w k :
  Forall (fun e => no_obbvert (snd e)) h -> run h cd_create = Some s -> k <> CkOBBVert ->
  run_op w (Check k) s = Some s1 -> forall w2 k2, k2 <> CkOBBVert ->
  exists s2 s3, run_op w2 (Check k2) s = Some s2 /\ run_op w2 (Check k2) s1 = Some s3 /\
    (k2 <> CkVert -> map flag_view (d_pairs s3) = map flag_view (d_pairs s2)) /\
    (k <> CkVert -> d_pairs s3 = d_pairs s2).
Proof.
  intros Hh H Hk E w2 k2 Hk2. assert (Gd := good_run h cd_create s Hh H good_create).
  destruct (check_is w k s Gd Hk) as (s1' & E1 & Gd1 & Ef & Ep1 & _). cbn [run_op] in E. rewrite E1 in E. injection E as ->.
  destruct (check_is w2 k2 s Gd Hk2) as (s2 & E2 & _ & _ & Ep2 & _).
  destruct (check_is w2 k2 s1 Gd1 Hk2) as (s3 & E3 & _ & _ & Ep3 & _).
  exists s2, s3. split; [exact E2|]. split; [exact E3|].
  assert (Cs : forall {A} (T : cell -> cell -> A) d p, resp2 T ->
    cells_of T d (d_cells s1) (check_pair w k (d_cells s) p) = cells_of T d (d_cells s) p).
  { intros A T d p R. rewrite <- (cells_of_fixedb T d (d_cells s) (d_cells s1) p R Ef). unfold cells_of.
    now rewrite (get2_ends _ p _ (check_pair_ends w k (d_cells s) p)). }
  split.
  - intros Hv. rewrite Ep3, Ep2, Ep1, !map_map. apply map_ext. intros p.
    assert (Ee := check_pair_ends w k (d_cells s) p). unfold ends in Ee. injection Ee as Ee0 Ee1.
    assert (C := Cs _ (outcome k2 w2) false p (resp_outcome k2 w2)). unfold flag_view.
    destruct k2; cbn [check_pair]; try easy; unfold colls; cbn [set_col p_c0 p_c1 p_col]; now rewrite Ee0, Ee1, C.
  - intros Hv. rewrite Ep3, Ep2, Ep1, map_map. apply map_ext. intros p.
    assert (C := Cs _ (outcome k2 w2) false p (resp_outcome k2 w2)).
    assert (V := Cs _ (fun a b => pair_verts w2 (wcell w2 a) (wcell w2 b) (p_vl p)) [] p (resp_verts w2 (p_vl p))).
    assert (Q : exists b, check_pair w k (d_cells s) p = set_col b p) by (destruct k; cbn [check_pair]; try easy; eexists; reflexivity).
    destruct Q as [b Q]. rewrite Q in C, V |- *.
    destruct k2; cbn [check_pair]; try easy; unfold colls, vchk; rewrite C; try reflexivity.
    cbn [set_col p_vl]. rewrite V. now destruct (cells_of (outcome CkVert w2) false (d_cells s) p).
Qed.
End Chk.

(** ** Concrete cases *)

Notation qrun := (run (F := Qc) (BX := gbox Qc) (AB := gaab Qc)).
Definition vnum {F BX AB} (s : cd F BX AB) : nat := d_num s.
Definition vverts {F BX AB} (s : cd F BX AB) : list (list nat) := map (fun p => map (@t_idx F) (p_vl p)) (d_pairs s).
Definition vflags {F BX AB} (s : cd F BX AB) : list bool := map p_col (d_pairs s).

(** A unit block on link 10 of the moving chain 1 and a 3x3x1 block, of the stationary chain 2, link 20.
    The pose of link 10 is its height over the top of the stationary block, in units of 1/2000. *)
Definition slab : ph Qc := block (V3 (q (-1) 1) (q (-1) 1) (q (-1) 1)) (V3 (q 2 1) (q 2 1) (q 0 1)).
Definition box1 : op Qc := ChainReg 1 Move [(10, 101, bl 0 0 0)].
Definition slab1 : op Qc := ChainReg 2 Stat [(20, 201, slab)].
Definition up (z : Z) (l : nat) : frame Qc :=
  match l with 10 => Fr (V3 (q 0 1) (q 0 1) (q z 2000)) m3id | _ => Fr v3zero m3id end.

Lemma one_flag {F BX AB} (s : cd F BX AB) : vflags s = [true] -> length (filter p_col (d_pairs s)) = 1.
Proof.
  unfold vflags. destruct (d_pairs s) as [|p [|p' tl]]; try discriminate. cbn. intros E. injection E as ->. reflexivity.
Qed.

(** The box goes up and down: flags follow. *)
Example C55_flags_ex : exists s : qcd,
  qrun [(up 1, box1); (up 1, slab1); (up (-1), Check CkGJK); (up 500, Check CkOBB)] cd_create = Some s /\
  vflags s = [false] /\
  exists s', run_op (up (-1000)) (Check CkGJK) s = Some s' /\ vflags s' = [true].
Proof.
  view (qrun [(up 1, box1); (up 1, slab1); (up (-1), Check CkGJK); (up 500, Check CkOBB)] cd_create)
    (@vflags Qc (gbox Qc) (gaab Qc)) (fun s : qcd => option_map vflags (run_op (up (-1000)) (Check CkGJK) s)) s R E1 E2.
  exists s. split; [exact R|]. split; [exact E1|].
  destruct (run_op (up (-1000)) (Check CkGJK) s) as [s'|] eqn:E; [|discriminate E2]. injection E2 as E2. eauto.
Qed.

(** The number of collision pairs is not set by the box and polyhedron checks: here a pair is flagged and the
    number is 0; and after rkCDColChkVert one pair is flagged and the number is 4. *)
Theorem C55_count_refuted : exists (s1 s2 : qcd),
  qrun [(up 1, box1); (up 1, slab1); (up (-1000), Check CkGJK)] cd_create = Some s1 /\
  d_num s1 <> length (filter p_col (d_pairs s1)) /\
  qrun [(up 1, box1); (up 1, slab1); (up (-1000), Check CkVert)] cd_create = Some s2 /\
  d_num s2 <> length (filter p_col (d_pairs s2)) /\ d_num s2 = 4.
Proof.
  view (qrun [(up 1, box1); (up 1, slab1); (up (-1000), Check CkGJK)] cd_create)
    (@vflags Qc (gbox Qc) (gaab Qc)) (@vnum Qc (gbox Qc) (gaab Qc)) s1 R1 E1 N1.
  view (qrun [(up 1, box1); (up 1, slab1); (up (-1000), Check CkVert)] cd_create)
    (@vflags Qc (gbox Qc) (gaab Qc)) (@vnum Qc (gbox Qc) (gaab Qc)) s2 R2 E2 N2.
  exists s1, s2. unfold vnum in *. rewrite (one_flag _ E1), (one_flag _ E2), N1, N2.
  split; [exact R1|]. split; [now clear|]. split; [exact R2|]. split; [now clear | reflexivity].
Qed.

(** Three volume computations: flagged pairs are counted. *)
Example C55_count_ex : exists s : qcd,
  qrun [(up 1, box1); (up 1, slab1); (up (-1000), Check (CkVol VolMP))] cd_create = Some s /\
  vflags s = [true] /\ vnum s = 1.
Proof.
  view (qrun [(up 1, box1); (up 1, slab1); (up (-1000), Check (CkVol VolMP))] cd_create)
    (@vflags Qc (gbox Qc) (gaab Qc)) (@vnum Qc (gbox Qc) (gaab Qc)) s R E1 E2. eauto.
Qed.

(** Four vertices of the box are inside the slab. *)
Example C55_vert_ex : exists s : qcd,
  qrun [(up 1, box1); (up 1, slab1); (up (-1000), Check CkVert)] cd_create = Some s /\
  vflags s = [true] /\ vverts s = [[0; 1; 2; 3]].
Proof.
  view (qrun [(up 1, box1); (up 1, slab1); (up (-1000), Check CkVert)] cd_create)
    (@vflags Qc (gbox Qc) (gaab Qc)) (@vverts Qc (gbox Qc) (gaab Qc)) s R E1 E2. eauto.
Qed.

(** The vertex check does depend on the checks made before: a vertex within the tolerance under the surface is
    a contact if it was one before, and is not otherwise. *)
Theorem C55_vert_refuted : exists (s1 s2 : qcd),
  qrun [(up 1, box1); (up 1, slab1); (up (-1000), Check CkVert); (up (-1), Check CkVert)] cd_create = Some s1 /\
  qrun [(up 1, box1); (up 1, slab1); (up (-1), Check CkVert)] cd_create = Some s2 /\
  vflags s1 = [true] /\ vflags s2 = [false].
Proof.
  view (qrun [(up 1, box1); (up 1, slab1); (up (-1000), Check CkVert); (up (-1), Check CkVert)] cd_create)
    (@vflags Qc (gbox Qc) (gaab Qc)) (@vnum Qc (gbox Qc) (gaab Qc)) s1 R1 E1 N1.
  view (qrun [(up 1, box1); (up 1, slab1); (up (-1), Check CkVert)] cd_create)
    (@vflags Qc (gbox Qc) (gaab Qc)) (@vnum Qc (gbox Qc) (gaab Qc)) s2 R2 E2 N2.
  exists s1, s2. auto.
Qed.

(** ** C56: cubes on rigidly moving links *)

Section C56Ex.
Context {F : Type} {N : Num F} {L : NumLaws F N}.

(** All shapes of a history are unit cubes, and all frames are rigid. *)
Definition cubes (o : op F) : Prop :=
  match o with ChainReg _ _ ss => forall l a sh, In (l, a, sh) ss -> sh = cube | _ => True end.

Lemma cubes_run (h : list ((nat -> frame F) * op F)) (s s' : cd F (gbox F) (gaab F)) :
  Forall (fun e => cubes (snd e)) h -> (forall e l, In e h -> rigid (fst e l)) ->
  run h s = Some s' -> pairs_ok (d_cells s) (d_pairs s) ->
  (forall c, In c (d_cells s) -> k_shape c = cube /\ rigid (k_reg c)) ->
  forall c, In c (d_cells s') -> k_shape c = cube /\ rigid (k_reg c).
Proof.
  revert s. induction h as [|[w o] tl IH]; intros s Hc Hr H P Hs; cbn [run] in H.
  - injection H as <-. exact Hs.
  - unfold obind in H. destruct (run_op w o s) as [s1|] eqn:E; [|discriminate].
    inversion Hc as [|? ? C1 C2]; subst. cbn [snd] in C1.
    apply (IH s1); auto; [intros e l He; apply Hr; now right | eapply op_ok; eassumption|].
    assert (Rw : forall l, rigid (w l)) by (intros l; apply (Hr (w, o) l); now left).
    clear IH H Hc C2 Hr. destruct o; cbn [run_op] in E.
    + cbn [cubes] in C1. clear P. revert s Hs E. induction ss as [|[[l a] sh] ss IH]; intros s Hs E; cbn [chain_reg] in E.
      * injection E as <-. exact Hs.
      * destruct (get_cell (d_cells s) a); [discriminate|]. eapply IH; [| |exact E].
        -- intros l' a' sh' Hi. apply (C1 l' a'). now right.
        -- cbn [d_cells]. intros c Hcc. apply in_app_or in Hcc. destruct Hcc as [Hcc|[<-|[]]]; [auto|]. cbn.
           split; [apply (C1 l a); now left | apply Rw].
    + apply chain_unreg_spec in E. destruct E as (-> & _). intros c Hcc. apply filter_In in Hcc. apply Hs. tauto.
    + apply pair_reg_cases in E. destruct E as [[-> _]|[-> _]]; exact Hs.
    + apply keep_spec in E. destruct E as (-> & _). exact Hs.
    + apply keep_spec in E. destruct E as (-> & _). exact Hs.
    + apply check_ends in E. destruct E as [[_ E] _]. specialize (E (proj1 P)). intros c Hcc.
      assert (Hf : In (fixed c) (map fixed (d_cells s))) by (rewrite <- E; now apply in_map).
      apply in_map_iff in Hf. destruct Hf as (c' & Ef & Hc'). destruct (Hs _ Hc') as [K1 K2].
      unfold fixed in Ef. assert (k_shape c = k_shape c') by congruence. assert (k_reg c = k_reg c') by congruence.
      split; congruence.
Qed.

(** For the concrete geometry of CD_Geo all premises of [C56_broad_phase] hold. *)
Corollary C56_cubes (h : list ((nat -> frame F) * op F)) (s : cd F (gbox F) (gaab F)) w :
  Forall (fun e => no_obbvert (snd e)) h -> Forall (fun e => cubes (snd e)) h ->
  (forall e l, In e h -> rigid (fst e l)) -> (forall l, rigid (w l)) -> run h cd_create = Some s ->
  exists s1 s2, run_op w (Check CkGJK) s = Some s1 /\ run_op w (Check CkGJKOnly) s = Some s2 /\
    map flag_view (d_pairs s1) = map flag_view (d_pairs s2).
Proof.
  intros Hh Hc Hr Hw H. eapply (C56_broad_phase in_ph in_box in_aab); eauto.
  - intros P Q. apply cph_sound.
  - intros A B x. apply cbox_complete.
  - intros A B x. apply overlap_complete.
  - intros A x. apply aab_encloses.
  - intros c x Hcc. destruct (cubes_run h cd_create s Hc Hr H create_ok ltac:(intros ? []) c Hcc) as [K1 K2].
    unfold wph, wbox. rewrite K1. apply cube_encloses. unfold pose. destruct (k_type c); [exact K2 | apply Hw].
Qed.
End C56Ex.

(** A cube that rotates and slides against a stationary one. *)
Definition tilt (x : Z) (l : nat) : frame Qc :=
  match l with
  | 10 => Fr (V3 (q x 10) (q 0 1) (q 1 2)) (M3 (V3 (q 3 5) (q 4 5) (q 0 1)) (V3 (q (-4) 5) (q 3 5) (q 0 1)) (V3 (q 0 1) (q 0 1) (q 1 1)))
  | _ => fid
  end.
Definition cubes1 : list ((nat -> frame Qc) * op Qc) :=
  [(tilt 30, ChainReg 1 Move [(10, 101, cube)]); (tilt 30, ChainReg 2 Stat [(20, 201, cube)])].

Lemma tilt_rigid x l : (x = 30 \/ x = 14 \/ x = 17)%Z -> rigid (tilt x l).
Proof.
  intros H. destruct (Nat.eq_dec l 10) as [->|E].
  - destruct H as [-> | [-> | ->]]; split; vm_compute; reflexivity.
  - replace (tilt x l) with (fid : frame Qc); [apply rigid_id|]. unfold tilt. do 10 (destruct l as [|l]; [reflexivity|]). destruct l; [now elim E | reflexivity].
Qed.

Example C56_ex : exists s s1 s2 : qcd, qrun cubes1 cd_create = Some s /\
  run_op (tilt 14) (Check CkGJK) s = Some s1 /\ run_op (tilt 14) (Check CkGJKOnly) s = Some s2 /\
  vflags s1 = [true] /\ vflags s2 = [true] /\
  map flag_view (d_pairs s1) = map flag_view (d_pairs s2).
Proof.
  view (qrun cubes1 cd_create) (fun s : qcd => option_map vflags (run_op (tilt 14) (Check CkGJK) s))
    (fun s : qcd => option_map vflags (run_op (tilt 14) (Check CkGJKOnly) s)) s R E1 E2.
  destruct (C56_cubes cubes1 s (tilt 14)) as (s1 & s2 & K1 & K2 & K3); auto.
  - repeat constructor.
  - repeat constructor; cbn; intros l a sh [K|[]]; congruence.
  - intros e l [<-|[<-|[]]]; apply tilt_rigid; auto.
  - intros l. apply tilt_rigid. auto.
  - exists s, s1, s2. rewrite K1 in E1. rewrite K2 in E2. injection E1 as E1. injection E2 as E2. auto 10.
Qed.

(** ** C57: rkCDColChkOBBVert replaces the polyhedra by those of the bounding boxes *)

(** A stationary tetrahedron, and a small block near the opposite corner of its bounding box. *)
Definition tetra : ph Qc :=
  PH [V3 (q 0 1) (q 0 1) (q 0 1); V3 (q 1 1) (q 0 1) (q 0 1); V3 (q 0 1) (q 1 1) (q 0 1); V3 (q 0 1) (q 0 1) (q 1 1)]
     [(0, 2, 1); (0, 1, 3); (0, 3, 2); (1, 2, 3)].
Definition small : ph Qc := block (V3 (q 7 10) (q 7 10) (q 7 10)) (V3 (q 8 10) (q 8 10) (q 8 10)).
Definition scene : list ((nat -> frame Qc) * op Qc) :=
  [(up 0, ChainReg 1 Move [(10, 101, small)]); (up 0, ChainReg 2 Stat [(20, 201, tetra)])].

(** The same check at the same frames, with and without rkCDColChkOBBVert in between. *)
Theorem C57_refuted : exists s1 s2 : qcd,
  qrun (scene ++ [(up 0, Check CkGJKOnly)]) cd_create = Some s1 /\
  qrun (scene ++ [(up 0, Check CkOBBVert); (up 0, Check CkGJKOnly)]) cd_create = Some s2 /\
  vflags s1 = [false] /\ vflags s2 = [true].
Proof.
  view (qrun (scene ++ [(up 0, Check CkGJKOnly)]) cd_create) (@vflags Qc (gbox Qc) (gaab Qc)) (@vnum Qc (gbox Qc) (gaab Qc)) s1 R1 E1 N1.
  view (qrun (scene ++ [(up 0, Check CkOBBVert); (up 0, Check CkGJKOnly)]) cd_create) (@vflags Qc (gbox Qc) (gaab Qc)) (@vnum Qc (gbox Qc) (gaab Qc)) s2 R2 E2 N2.
  exists s1, s2. auto.
Qed.

(** A moving shape with more than eight vertices: after rkCDColChkOBBVert the next check that needs the
    polyhedra writes beyond the end of the vertex array. *)
Definition house : ph Qc :=
  PH (vts (bl 0 0 0) ++ [V3 (q 1 2) (q 1 2) (q 3 2)])
     [(1, 3, 5); (7, 5, 3); (0, 4, 2); (6, 2, 4); (2, 6, 3); (7, 3, 6); (0, 1, 4); (5, 4, 1);
      (4, 5, 8); (5, 7, 8); (7, 6, 8); (6, 4, 8); (0, 2, 1); (3, 1, 2)].
Definition scene2 : list ((nat -> frame Qc) * op Qc) :=
  [(up 1, ChainReg 1 Move [(10, 101, house)]); (up 1, slab1)].

Theorem C57_overrun_refuted :
  (exists s : qcd, qrun (scene2 ++ [(up (-1), Check CkGJK); (up (-1), Check CkGJK)]) cd_create = Some s /\ vflags s = [true]) /\
  (exists s : qcd, qrun (scene2 ++ [(up (-1), Check CkOBBVert)]) cd_create = Some s /\ vnum s = 4) /\
  qrun (scene2 ++ [(up (-1), Check CkOBBVert); (up (-1), Check CkGJK)]) cd_create = None.
Proof.
  split; [|split].
  - view (qrun (scene2 ++ [(up (-1), Check CkGJK); (up (-1), Check CkGJK)]) cd_create) (@vflags Qc (gbox Qc) (gaab Qc)) (@vnum Qc (gbox Qc) (gaab Qc)) s R E1 E2.
    eauto.
  - view (qrun (scene2 ++ [(up (-1), Check CkOBBVert)]) cd_create) (@vflags Qc (gbox Qc) (gaab Qc)) (@vnum Qc (gbox Qc) (gaab Qc)) s R E1 E2.
    eauto.
  - assert (T : forall o : option qcd, option_map (@vnum Qc (gbox Qc) (gaab Qc)) o = None -> o = None) by (now intros []).
    apply T. vm_compute. reflexivity.
Qed.

(** A box check in between changes nothing. *)
Example C57_checks_ex : exists s1 s2 : qcd,
  qrun (scene ++ [(up 0, Check CkGJKOnly)]) cd_create = Some s1 /\
  qrun (scene ++ [(up 700, Check CkGJK); (up 0, Check CkGJKOnly)]) cd_create = Some s2 /\
  vflags s1 = [false] /\ vflags s2 = [false].
Proof.
  view (qrun (scene ++ [(up 0, Check CkGJKOnly)]) cd_create) (@vflags Qc (gbox Qc) (gaab Qc)) (@vnum Qc (gbox Qc) (gaab Qc)) s1 R1 E1 N1.
  view (qrun (scene ++ [(up 700, Check CkGJK); (up 0, Check CkGJKOnly)]) cd_create) (@vflags Qc (gbox Qc) (gaab Qc)) (@vnum Qc (gbox Qc) (gaab Qc)) s2 R2 E2 N2.
  exists s1, s2. auto.
Qed.

Print Assumptions C55_flags_partial.
Print Assumptions C55_defined.
Print Assumptions C55_vert_partial.
Print Assumptions C55_count_partial.
Print Assumptions C55_vert_count.
Print Assumptions C55_count_refuted.
Print Assumptions C55_vert_refuted.
Print Assumptions C56_broad_phase.
Print Assumptions C56_cubes.
Print Assumptions C57_checks_partial.
Print Assumptions C57_refuted.
Print Assumptions C57_overrun_refuted.
