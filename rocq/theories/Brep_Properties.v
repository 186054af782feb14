(** * Brep_Properties: conversion, truncation and reset of boundary representations (C59, C69-C72). *)

From Coq Require Import Bool List Arith Lia ZArith QArith Qcanon.
From Verif Require Import Num NumFacts Vec VecFacts Brep_Model Brep_Spec Brep_Geo Brep_Proofs Brep_Trunc Brep_Conv.
Import ListNotations.
Local Open Scope nat_scope.

Section BrepProps.
Context {F : Type} {N : Num F} {L : NumLaws F N}.
Notation triangle := (t3 (vec3 F) * vec3 F)%type.

(** C59: truncation by any planes succeeds, keeps the correspondence, and leaves no face a vertex beyond. *)
Theorem C59_beneath (tol : F) (b : brep F) (pls : list (plane F)) : nlt 0%num tol -> well_formed b ->
  exists b', truncs tol b pls = Some b' /\ well_formed b' /\
    forall f i x, face_in b' f -> i < 3 -> vert_at b' (t3get (h_v f) i) x -> forall pl, In pl pls -> nle (side pl x) tol.
Proof.
  intros T W. destruct (truncs_ok tol T pls b W) as (b' & E & W' & S & _). exists b'. split; [easy|]. split; [easy|].
  intros f i x Hf Hi V pl I. apply (S x); [|easy]. apply on_surf. destruct Hf as [If Df]. exists f. split; [easy|]. split; [easy|].
  apply wf_wfl in W'. destruct W' as [A _]. rewrite Forall_forall in A. destruct (A f If Df) as [[C K] _].
  exists C. split; [easy|]. destruct V as (v & V1 & V2 & <-). rewrite (lv_fun _ _ _ _ (conj V1 V2) (K i Hi)).
  destruct (lt3 i Hi) as [-> |[-> | ->]]; [apply tri_c0|apply tri_c1|apply tri_c2].
Qed.

(** C69: the surface after truncation is the part of the surface beneath all planes, up to the tolerance. *)
Theorem C69_surface (tol : F) (b b' : brep F) (pls : list (plane F)) : nlt 0%num tol -> well_formed b -> truncs tol b pls = Some b' ->
  (forall x, on_surface b' x -> on_surface b x /\ forall pl, In pl pls -> nle (side pl x) tol) /\
  (forall x, on_surface b x -> (forall pl, In pl pls -> nle (side pl x) (nopp tol)) -> on_surface b' x).
Proof. intros T W E. destruct (truncs_ok tol T pls b W) as (b2 & E2 & _ & S & C & _). rewrite E in E2. now injection E2 as <-. Qed.

(** C76: truncation keeps the faces that have no corner beyond, and the way the faces face.  What holds: a face
    that is left, whole or part of one, faces the way it did.  Missing: its normal, which may be lost. *)
Theorem C76_kept (tol : F) (b b' : brep F) (pls : list (plane F)) : nlt 0%num tol -> well_formed b -> truncs tol b pls = Some b' ->
  forall f p q r, face_in b f -> corners b f p q r ->
    (forall pl, In pl pls -> nlt (side pl p) tol /\ nlt (side pl q) tol /\ nlt (side pl r) tol) -> face_in b' f /\ corners b' f p q r.
Proof. intros T W E. destruct (truncs_ok tol T pls b W) as (b2 & E2 & _ & _ & _ & _ & K). rewrite E in E2. now injection E2 as <-. Qed.

Theorem C76_facing_partial (tol : F) (b b' : brep F) (pls : list (plane F)) : nlt 0%num tol -> well_formed b -> truncs tol b pls = Some b' ->
  forall f' p q r, face_in b' f' -> corners b' f' p q r -> exists f p0 q0 r0, face_in b f /\ corners b f p0 q0 r0 /\
    toward (facing p q r) (facing p0 q0 r0) /\ (h_norm f' = h_norm f \/ h_norm f' = v3zero).
Proof. intros T W E. destruct (truncs_ok tol T pls b W) as (b2 & E2 & _ & _ & _ & O & _). rewrite E in E2. now injection E2 as <-. Qed.

(** C70: whatever truncations and resets were done, a reset gives back what the conversion made. *)
Inductive action := Cut (pl : plane F) | Back.
Fixpoint run (tol : F) (b : brep F) (l : list action) : option (brep F) :=
  match l with
  | [] => Some b
  | Cut pl :: tl => match trunc tol b pl with Some b' => run tol b' tl | None => None end
  | Back :: tl => run tol (reset b) tl
  end.

Lemma run_ok veq (ts : list triangle) tol : nlt 0%num tol -> forall l b, well_formed b -> origin (ph2brep veq ts) b ->
  exists b', run tol b l = Some b' /\ well_formed b' /\ origin (ph2brep veq ts) b'.
Proof.
  intros T. assert (P : pristine (ph2brep veq ts)) by (apply fold_pri; repeat split; constructor).
  induction l as [|[pl|] tl IH]; intros b W O; cbn [run].
  - eauto.
  - destruct (trunc_ok tol pl T b W) as (b1 & E & W1 & _). rewrite E. apply IH; [easy|]. eapply trunc_origin; eassumption.
  - rewrite (reset_origin _ _ P O). apply IH.
    + apply wf_wfl. destruct (fold_ok veq ts _ empty_ok) as (? & ? & ? & _ & _ & _ & [_ X] & _). exact X.
    + now apply origin_refl.
Qed.

Theorem C70_reset veq (ts : list triangle) tol (l : list action) : nlt 0%num tol ->
  exists b', run tol (ph2brep veq ts) l = Some b' /\ reset b' = ph2brep veq ts.
Proof.
  intros T. assert (P : pristine (ph2brep veq ts)) by (apply fold_pri; repeat split; constructor).
  destruct (run_ok veq ts tol T l (ph2brep veq ts)) as (b' & E & _ & O).
  - apply wf_wfl. destruct (fold_ok veq ts _ empty_ok) as (? & ? & ? & _ & _ & _ & [_ X] & _). exact X.
  - now apply origin_refl.
  - exists b'. split; [easy|]. now apply reset_origin.
Qed.

(** C71: the conversion makes a face of every triangle, on vertices equal to its corners as far as the comparison
    tells, and keeps the correspondence; also when added to what is there already. *)
Definition made_of (veq : vec3 F -> vec3 F -> bool) (b : brep F) (f : face F) (t : triangle) : Prop :=
  h_dis f = false /\ h_norm f = snd t /\ exists p q r, corners b f p q r /\
    let '(x, y, z) := fst t in (p = x \/ veq p x = true) /\ (q = y \/ veq q y = true) /\ (r = z \/ veq r z = true).

Lemma shows_made veq b f t : h_dis f = false -> shows veq b f t -> made_of veq b f t.
Proof.
  intros D (C & K & E & A & B & G). split; [easy|]. split; [easy|]. do 3 eexists. split; [apply corners_corn; eauto|].
  destruct t as [[[x y] z] n]. cbn [fst t3get] in *. auto.
Qed.

(** Nothing of it is discarded. *)
Definition all_live (b : brep F) : Prop :=
  (forall v, In v (b_vs b) -> b_dis v = false) /\ (forall e, In e (b_es b) -> g_dis e = false) /\ (forall f, In f (b_fs b) -> h_dis f = false).

Theorem C71_convert veq sel (ts : list triangle) b : all_live b -> well_formed b ->
  exists fs, b_fs (ph2brep_box veq sel ts b) = b_fs b ++ fs /\ well_formed (ph2brep_box veq sel ts b) /\ all_live (ph2brep_box veq sel ts b) /\
    Forall2 (made_of veq (ph2brep_box veq sel ts b)) fs (filter (fun t => sel (fst t)) ts).
Proof.
  intros (V & E & G) W. assert (X : wfx b) by (split; [repeat split; now apply Forall_forall|now apply wf_wfl]).
  destruct (fold_ok veq (filter (fun t => sel (fst t)) ts) b X) as (ns & ms & fs & A & B & C & [W1 W2] & S).
  exists fs. fold (ph2brep_box veq sel ts b) in *. split; [easy|]. split; [now apply wf_wfl|]. destruct W1 as (X1 & X2 & X3).
  rewrite Forall_forall in X1, X2, X3. split; [easy|]. rewrite C in X3.
  assert (D : forall f, In f fs -> h_dis f = false) by (intros f I; apply X3, in_or_app; now right). clear - S D L.
  induction S as [|f t fs ts' Sf _ IH]; constructor.
  - apply shows_made; [apply D; now left|easy].
  - apply IH. intros g I. apply D. now right.
Qed.

(** With an exact comparison the surface is the union of the triangles. *)
Theorem C71_surface veq (ts : list triangle) : (forall x y, veq x y = true -> x = y) ->
  well_formed (ph2brep veq ts) /\ (forall x, on_surface (ph2brep veq ts) x <-> exists p q r n, In ((p, q, r), n) ts /\ in_tri p q r x).
Proof.
  intros EX. destruct (fold_ok veq ts _ empty_ok) as (ns & ms & fs & A & B & C & [W1 W2] & S). fold (ph2brep veq ts) in *.
  split; [now apply wf_wfl|]. intros x. rewrite on_surf. cbn [b_fs app] in C. destruct W1 as (_ & _ & W1). rewrite C in *.
  assert (NX : forall y z, near veq y z -> z = y) by (intros y z [H|H]; [easy|now apply EX]).
  rewrite Forall_forall in W1. split.
  - intros (f & I & D & T). apply In_nth_error in I as (k & I). destruct (f2_nth' _ _ _ _ _ S I) as ([[[p q] r] n] & J & (K & KC & _ & N0 & N1 & N2)).
    exists p, q, r, n. split; [eapply nth_error_In, J|]. apply (tri_perm _ _ _ _ _ _ _ KC p012) in T. cbn [fst t3get] in *.
    now rewrite (NX _ _ N0), (NX _ _ N1), (NX _ _ N2) in T.
  - intros (p & q & r & n & I & T). apply In_nth_error in I as (k & I). destruct (f2_nth _ _ _ _ _ S I) as (f & J & (K & KC & _ & N0 & N1 & N2)).
    apply nth_error_In in J. exists f. split; [easy|]. split; [now apply W1|]. apply (tri_perm _ _ _ _ _ _ _ KC p012). cbn [fst t3get] in *.
    now rewrite (NX _ _ N0), (NX _ _ N1), (NX _ _ N2).
Qed.

(** C72: the conversion to a polyhedron.  What holds: one triangle for each face, discarded or not, with the
    numbers of its vertices, and one vertex for each.  Missing: the coordinates, and leaving out the discarded. *)
Theorem C72_counts_partial bits (b : brep F) : let '(vs, fs) := brep2ph bits b in
  length vs = length (b_vs b) /\ fs = map h_v (b_fs b).
Proof.
  cbn. split; [|easy]. generalize (ph_vert bits) as h. generalize 0%nat as i. induction (b_vs b) as [|v l IH]; intros i h; cbn; [easy|]. now rewrite IH.
Qed.
End BrepProps.

(** ** Concrete cases over the rationals *)

Definition q_ (z : Z) : Qc := Q2Qc (inject_Z z).
Definition p_ (x y z : Z) : vec3 Qc := V3 (q_ x) (q_ y) (q_ z).
Definition qv (v : vec3 Qc) := (this (vx v), this (vy v), this (vz v)).
Definition qveq (a b : vec3 Qc) : bool := (Qeq_bool (vx a) (vx b) && Qeq_bool (vy a) (vy b) && Qeq_bool (vz a) (vz b))%bool.
Lemma qveq_exact a b : qveq a b = true -> a = b.
Proof.
  destruct a, b. unfold qveq. cbn. intros H. apply andb_true_iff in H as [H H3]. apply andb_true_iff in H as [H1 H2].
  apply Qeq_bool_eq in H1, H2, H3. f_equal; now apply Qc_is_canon.
Qed.
Definition qtol : Qc := Q2Qc (1 # 100).
Lemma qtol_pos : nlt 0%num qtol. Proof. reflexivity. Qed.

(** A tetrahedron. *)
Definition tetra : list (t3 (vec3 Qc) * vec3 Qc) :=
  let o := p_ 0 0 0 in let a := p_ 4 0 0 in let b := p_ 0 4 0 in let c := p_ 0 0 4 in
  [ ((o, b, a), p_ 0 0 (-1)); ((o, a, c), p_ 0 (-1) 0); ((o, c, b), p_ (-1) 0 0); ((a, b, c), p_ 1 1 1) ].
Definition tb := ph2brep qveq tetra.

(** The faces that are left, by the positions of their vertices. *)
Definition live_faces (b : brep Qc) : list (t3 (option (Q * Q * Q))) :=
  let at_ i := option_map (fun v => qv (b_p v)) (nth_error (b_vs b) i) in
  map (fun f => let '(i, j, k) := h_v f in (at_ i, at_ j, at_ k)) (filter (fun f => negb (h_dis f)) (b_fs b)).
Definition live_count (b : brep Qc) :=
  (length (filter (fun v => negb (b_dis v)) (b_vs b)), length (filter (fun e => negb (g_dis e)) (b_es b)), length (filter (fun f => negb (h_dis f)) (b_fs b))).

(** Four vertices, six edges, four faces. *)
Example C71_ex : live_count tb = (4, 6, 4) /\ well_formed tb /\ on_surface tb (p_ 1 1 0) /\ ~ on_surface tb (p_ 1 1 1).
Proof.
  destruct (C71_surface qveq tetra qveq_exact) as [W S]. split; [vm_compute; reflexivity|]. split; [exact W|]. split.
  - apply S. exists (p_ 0 0 0), (p_ 0 4 0), (p_ 4 0 0), (p_ 0 0 (-1)). split; [now left|].
    exists (Q2Qc (1 # 2)), (Q2Qc (1 # 4)), (Q2Qc (1 # 4)). repeat split; try reflexivity; try (now apply Qc_is_canon).
  - intros H. apply S in H as (p & q & r & n & I & T).
    assert (OUT : forall pl, nlt (side pl (p_ 1 1 1)) (side pl p) -> nlt (side pl (p_ 1 1 1)) (side pl q) -> nlt (side pl (p_ 1 1 1)) (side pl r) -> False).
    { intros pl A B C. apply (nlt_irrefl (side pl (p_ 1 1 1))). exact (tri_none pl _ p q r _ A B C T). }
    destruct I as [I|[I|[I|[I|[]]]]]; injection I as <- <- <- _.
    + apply (OUT (p_ 0 0 0, p_ 0 0 (-1))); reflexivity.
    + apply (OUT (p_ 0 0 0, p_ 0 (-1) 0)); reflexivity.
    + apply (OUT (p_ 0 0 0, p_ (-1) 0 0)); reflexivity.
    + apply (OUT (p_ 0 0 0, p_ 1 1 1)); reflexivity.
Qed.

(** Cut at z = 2 from above, then along x = y, which passes through two vertices. *)
Definition cuts : list (plane Qc) := [(p_ 0 0 2, p_ 0 0 1); (p_ 0 0 0, p_ 1 (-1) 0)].

Lemma view_some {A B} (h : A -> B) o v : option_map h o = Some v -> exists a, o = Some a /\ h a = v.
Proof. destruct o as [a|]; [|easy]. intros [= <-]. now exists a. Qed.

Lemma cut_some : exists b', truncs qtol tb cuts = Some b' /\ live_count b' = (7, 12, 6).
Proof. apply view_some. vm_compute. reflexivity. Qed.

Example C59_ex : well_formed tb /\ exists b', truncs qtol tb cuts = Some b' /\ live_count b' = (7, 12, 6) /\
  forall f i x, face_in b' f -> i < 3 -> vert_at b' (t3get (h_v f) i) x -> forall pl, In pl cuts -> nle (side pl x) qtol.
Proof.
  pose proof (proj1 (C71_surface qveq tetra qveq_exact)) as W. split; [exact W|]. destruct cut_some as (b' & E & C). exists b'.
  split; [exact E|]. split; [exact C|]. destruct (C59_beneath qtol tb cuts qtol_pos W) as (b2 & E2 & _ & H). rewrite E in E2.
  assert (Eb : b' = b2) by (injection E2; auto). rewrite Eb. exact H.
Qed.

(** The point (0,1,1) of the surface stays, (3,0,0) goes. *)
Example C69_ex : exists b', truncs qtol tb cuts = Some b' /\ on_surface tb (p_ 0 1 1) /\ on_surface b' (p_ 0 1 1) /\
  on_surface tb (p_ 3 0 0) /\ ~ on_surface b' (p_ 3 0 0).
Proof.
  destruct (C71_surface qveq tetra qveq_exact) as [W S]. destruct cut_some as (b' & E & _). exists b'.
  destruct (C69_surface qtol tb b' cuts qtol_pos W E) as [H1 H2].
  assert (A : on_surface tb (p_ 0 1 1)).
  { apply S. exists (p_ 0 0 0), (p_ 0 0 4), (p_ 0 4 0), (p_ (-1) 0 0). split; [right; right; now left|].
    exists (Q2Qc (1 # 2)), (Q2Qc (1 # 4)), (Q2Qc (1 # 4)). repeat split; try reflexivity; try (now apply Qc_is_canon); apply v3ext; now apply Qc_is_canon. }
  assert (B : on_surface tb (p_ 3 0 0)).
  { apply S. exists (p_ 0 0 0), (p_ 0 4 0), (p_ 4 0 0), (p_ 0 0 (-1)). split; [now left|].
    exists (Q2Qc (1 # 4)), 0%Qc, (Q2Qc (3 # 4)). repeat split; try reflexivity; try (now apply Qc_is_canon); apply v3ext; now apply Qc_is_canon. }
  split; [exact E|]. split; [exact A|]. split; [|split; [exact B|]].
  - apply H2; [exact A|]. intros pl [<-|[<-|[]]]; reflexivity.
  - intros K. apply H1 in K as [_ K]. specialize (K (p_ 0 0 0, p_ 1 (-1) 0) (or_intror (or_introl eq_refl))). discriminate K.
Qed.

(** A pyramid with its base in the plane it is cut by: the base stays, the rest goes. *)
Definition based : list (t3 (vec3 Qc) * vec3 Qc) :=
  let a := p_ 0 0 0 in let b := p_ 4 0 0 in let c := p_ 0 4 0 in
  [ ((a, c, b), p_ 0 0 (-1)); ((a, b, p_ 0 0 4), p_ 0 (-1) 0); ((c, b, p_ 0 0 (-4)), p_ 1 1 (-1)) ].

Lemma based_some : exists b', truncs qtol (ph2brep qveq based) [(p_ 0 0 0, p_ 0 0 1)] = Some b' /\ live_count b' = (4, 5, 2).
Proof. apply view_some. vm_compute. reflexivity. Qed.

Example C76_kept_ex : exists b' f, truncs qtol (ph2brep qveq based) [(p_ 0 0 0, p_ 0 0 1)] = Some b' /\ live_count b' = (4, 5, 2) /\
  face_in (ph2brep qveq based) f /\ face_in b' f /\ corners b' f (p_ 0 0 0) (p_ 0 4 0) (p_ 4 0 0).
Proof.
  destruct (C71_surface qveq based qveq_exact) as [W _]. destruct based_some as (b' & E & LC).
  set (f := hd (Fc (0, 0, 0) (0, 0, 0) (0, 0, 0) (0, 0, 0) v3zero true false) (b_fs (ph2brep qveq based))). exists b', f.
  split; [exact E|]. split; [exact LC|].
  assert (G : face_in (ph2brep qveq based) f) by (split; [now left|reflexivity]). split; [exact G|].
  assert (K : corners (ph2brep qveq based) f (p_ 0 0 0) (p_ 0 4 0) (p_ 4 0 0)).
  { split; [|split]; eexists; (split; [reflexivity|]); now split. }
  apply (C76_kept qtol _ b' _ qtol_pos W E f _ _ _ G K). intros pl [<-|[]]. split; [|split]; reflexivity.
Qed.

(** A triangle facing the way its normal points.  Cut at z = 2 it is in two parts, and one part has no normal. *)
Definition one_tri : list (t3 (vec3 Qc) * vec3 Qc) := [((p_ 0 0 0, p_ 4 0 0, p_ 0 0 4), p_ 0 (-1) 0)].
Definition ob := ph2brep qveq one_tri.
Definition live_at {F} (b : brep F) (i : nat) : option (vec3 F) :=
  match nth_error (b_vs b) i with Some v => if b_dis v then None else Some (b_p v) | None => None end.
Definition check_face (t : vec3 Qc -> vec3 Qc -> bool) (b : brep Qc) (f : face Qc) : bool :=
  let '(i, j, k) := h_v f in
  match live_at b i, live_at b j, live_at b k with
  | Some p, Some q, Some r => t (facing p q r) (h_norm f)
  | _, _, _ => false
  end.
Lemma live_vert {F} (b : brep F) i x : vert_at b i x <-> live_at b i = Some x.
Proof.
  unfold vert_at, live_at. split.
  - intros (v & -> & -> & ->). reflexivity.
  - destruct (nth_error (b_vs b) i) as [v|]; [|easy]. destruct (b_dis v) eqn:D; [easy|]. intros [= <-]. now exists v.
Qed.
Lemma check_ok t (b : brep Qc) f : check_face t b f = true -> exists p q r, corners b f p q r /\ t (facing p q r) (h_norm f) = true.
Proof.
  unfold check_face, corners. destruct (h_v f) as [[i j] k]. destruct (live_at b i) as [p|] eqn:A; [|easy]. destruct (live_at b j) as [q|] eqn:B; [|easy].
  destruct (live_at b k) as [r|] eqn:C; [|easy]. intros H. exists p, q, r. now rewrite !live_vert.
Qed.
Lemma check_all t (b : brep Qc) : forallb (fun f => h_dis f || check_face t b f)%bool (b_fs b) = true ->
  forall f p q r, face_in b f -> corners b f p q r -> t (facing p q r) (h_norm f) = true.
Proof.
  intros H f p q r [I D] K. rewrite forallb_forall in H. specialize (H f I). rewrite D in H. cbn [orb] in H. revert H K. unfold check_face, corners.
  destruct (h_v f) as [[i j] k]. rewrite !live_vert. intros H (A & B & C). rewrite A, B, C in H. exact H.
Qed.
Definition along (u n : vec3 Qc) : bool := nltb 0%Qc (v3dot u n).
Definition lost (u n : vec3 Qc) : bool := (qveq n v3zero && negb (qveq u v3zero))%bool.

Theorem C76_normal_refuted : well_formed ob /\ (forall f p q r, face_in ob f -> corners ob f p q r -> nlt 0%num (v3dot (facing p q r) (h_norm f))) /\
  exists b' f p q r, trunc qtol ob (p_ 0 0 2, p_ 0 0 1) = Some b' /\ face_in b' f /\ corners b' f p q r /\ facing p q r <> v3zero /\ h_norm f = v3zero.
Proof.
  split; [exact (proj1 (C71_surface qveq one_tri qveq_exact))|]. split.
  - intros f p q r G K. apply nltb_lt. refine (check_all along ob _ f p q r G K). vm_compute. reflexivity.
  - destruct (view_some (fun b => existsb (fun f => negb (h_dis f) && check_face lost b f)%bool (b_fs b)) (trunc qtol ob (p_ 0 0 2, p_ 0 0 1)) true) as (b' & E & V); [vm_compute; reflexivity|].
    apply existsb_exists in V as (f & I & V). apply andb_true_iff in V as [D V]. apply negb_true_iff in D.
    destruct (check_ok _ _ _ V) as (p & q & r & K & T). unfold lost in T. apply andb_true_iff in T as [T1 T2]. apply negb_true_iff in T2.
    exists b', f, p, q, r. split; [exact E|]. split; [now split|]. split; [exact K|]. split; [|now apply qveq_exact].
    intros Z. rewrite Z in T2. discriminate T2.
Qed.

(** The other part has the normal. *)
Example C76_facing_ex : exists b', trunc qtol ob (p_ 0 0 2, p_ 0 0 1) = Some b' /\ live_count b' = (4, 5, 2) /\
  (forall f p q r, face_in b' f -> corners b' f p q r -> exists f0 p0 q0 r0, face_in ob f0 /\ corners ob f0 p0 q0 r0 /\
    toward (facing p q r) (facing p0 q0 r0)) /\
  length (filter (fun f => negb (h_dis f) && check_face along b' f)%bool (b_fs b')) = 1.
Proof.
  destruct (view_some (fun b => (live_count b, length (filter (fun f => negb (h_dis f) && check_face along b f)%bool (b_fs b))))
    (trunc qtol ob (p_ 0 0 2, p_ 0 0 1)) ((4, 5, 2), 1)) as (b' & E & V); [vm_compute; reflexivity|].
  exists b'. split; [exact E|]. split; [exact (f_equal fst V)|]. split; [|exact (f_equal snd V)].
  assert (E' : truncs qtol ob [(p_ 0 0 2, p_ 0 0 1)] = Some b') by (cbn [truncs]; rewrite E; reflexivity).
  intros f p q r G K. destruct (C76_facing_partial qtol ob b' _ qtol_pos (proj1 (C71_surface qveq one_tri qveq_exact)) E' f p q r G K) as (f0 & p0 & q0 & r0 & A & B & C & _).
  exists f0, p0, q0, r0. split; [exact A|]. split; [exact B|exact C].
Qed.

(** Cut, reset, cut twice: not what it was, but a reset makes it so. *)
Example C70_ex : exists b', run qtol tb (Cut (p_ 1 0 0, p_ 1 0 0) :: Back :: map Cut cuts) = Some b' /\ b' <> tb /\ reset b' = tb.
Proof.
  destruct (C70_reset qveq tetra qtol (Cut (p_ 1 0 0, p_ 1 0 0) :: Back :: map Cut cuts) qtol_pos) as (b' & E & R).
  exists b'. split; [exact E|]. split; [|exact R]. intros ->.
  assert (V : exists a, run qtol (ph2brep qveq tetra) (Cut (p_ 1 0 0, p_ 1 0 0) :: Back :: map Cut cuts) = Some a /\ live_count a = (7, 12, 6)).
  { apply view_some. vm_compute. reflexivity. }
  destruct V as (a & Ea & V). assert (Eb : Some a = Some tb) by (rewrite <- Ea; exact E). clear E Ea.
  assert (Ec : a = tb) by (injection Eb; auto). rewrite Ec in V.
  assert (V0 : live_count tb = (4, 6, 4)) by (vm_compute; reflexivity). rewrite V0 in V. discriminate V.
Qed.

(** ** C72: the conversion back to a polyhedron does not give the surface *)

(** The points of the polyhedron. *)
Definition ph_surface {F} {N : Num F} (ph : list (vec3 F) * list (t3 nat)) (x : vec3 F) : Prop :=
  exists i j k p q r, In (i, j, k) (snd ph) /\ nth_error (fst ph) i = Some p /\ nth_error (fst ph) j = Some q /\ nth_error (fst ph) k = Some r /\ in_tri p q r x.

(** However the addresses read as numbers, the corner (0,4,0) of the tetrahedron is not on the polyhedron: the
    second coordinates of all its vertices are zero. *)
Theorem C72_coordinates_refuted : well_formed tb /\ on_surface tb (p_ 0 4 0) /\ forall bits, ~ ph_surface (brep2ph bits tb) (p_ 0 4 0).
Proof.
  destruct (C71_surface qveq tetra qveq_exact) as [W S]. split; [exact W|]. split.
  - apply S. exists (p_ 0 0 0), (p_ 0 4 0), (p_ 4 0 0), (p_ 0 0 (-1)). split; [now left|]. apply tri_c1.
  - intros bits (i & j & k & p & q & r & _ & P & Q & R & T). cbn [brep2ph fst] in P, Q, R.
    assert (Z : forall v, In v (b_vs tb) -> b_org v = true).
    { intros v I. assert (K : forallb b_org (b_vs tb) = true) by (vm_compute; reflexivity). rewrite forallb_forall in K. now apply K. }
    assert (Y : forall l u, nth_error (mapi (ph_vert bits) 0 (b_vs tb)) l = Some u -> vy u = 0%Qc).
    { intros l u H. rewrite nth_mapi in H. destruct (nth_error (b_vs tb) l) as [v|] eqn:E; [|discriminate H]. apply nth_error_In in E.
      cbn [option_map] in H. injection H as <-. unfold ph_vert. now rewrite (Z v E). }
    apply Y in P, Q, R. destruct T as (a & b & c & _ & _ & _ & _ & E). apply (f_equal (@vy Qc)) in E. cbn [v3add v3scale] in E. cbn [vy v3add v3scale] in E. rewrite P, Q, R in E.
    assert (X : vy (p_ 0 4 0) = 0%Qc) by (change (q_ 4 = 0%Qc); change (q_ 4 = (a * 0 + b * 0 + c * 0)%Qc) in E; rewrite E; ring). discriminate X.
Qed.

(** Even with the coordinates read from where the pointers point to, a face that was truncated away is there. *)
Definition brep2ph_fixed {F} {N : Num F} (b : brep F) : list (vec3 F) * list (t3 nat) := (map b_p (b_vs b), map h_v (b_fs b)).

Theorem C72_discarded_refuted : exists b b' pl, well_formed b /\ trunc qtol b pl = Some b' /\
  (forall x, ~ on_surface b' x) /\ ph_surface (brep2ph_fixed b') (p_ 1 0 0) /\
  forall bits, snd (brep2ph bits b') = snd (brep2ph_fixed b') /\ length (snd (brep2ph bits b')) = 1.
Proof.
  set (ts := [((p_ 1 0 0, p_ 2 0 0, p_ 1 1 0), p_ 0 0 1)]). destruct (C71_surface qveq ts qveq_exact) as [W S].
  assert (V : exists b, trunc qtol (ph2brep qveq ts) (p_ 0 0 0, p_ 1 0 0) = Some b /\
    (map h_v (b_fs b), map (fun v => qv (b_p v)) (b_vs b)) = ([(0, 1, 2)], map qv [p_ 1 0 0; p_ 2 0 0; p_ 1 1 0])).
  { apply (view_some (fun b => (map h_v (b_fs b), map (fun v => qv (b_p v)) (b_vs b)))). vm_compute. reflexivity. }
  destruct V as (b' & E & V). exists (ph2brep qveq ts), b', (p_ 0 0 0, p_ 1 0 0). split; [exact W|]. split; [exact E|].
  assert (S' : forall x, on_surface b' x -> on_surface (ph2brep qveq ts) x /\ nle (side (p_ 0 0 0, p_ 1 0 0) x) qtol).
  { destruct (trunc_ok qtol (p_ 0 0 0, p_ 1 0 0) qtol_pos _ W) as (b2 & E2 & _ & S' & _). assert (E3 : Some b2 = Some b') by (rewrite <- E2; exact E).
    clear E E2. assert (E4 : b2 = b') by (injection E3; auto). rewrite <- E4. exact S'. }
  clear E W.
  pose proof (f_equal fst V) as V1. pose proof (f_equal snd V) as V2. clear V. cbn [fst snd] in V1, V2. split; [|split].
  - intros x H. apply S' in H as [H K]. apply S in H as (p & q & r & n & [I|[]] & T). injection I as <- <- <- _.
    assert (LT : nlt qtol (side (p_ 0 0 0, p_ 1 0 0) x)) by (refine (tri_none _ _ _ _ _ _ _ _ _ T); reflexivity).
    apply (nlt_irrefl qtol). exact (nlt_le_trans _ _ _ LT K).
  - clear S S'. rewrite <- (map_map b_p qv) in V2.
    assert (V3 : map b_p (b_vs b') = [p_ 1 0 0; p_ 2 0 0; p_ 1 1 0]).
    { assert (INJ : forall u v, qv u = qv v -> u = v).
      { intros [a b c] [d e f] H. injection H as A B C. f_equal; apply Qc_is_canon; now rewrite ?A, ?B, ?C. }
      revert V2. generalize (map b_p (b_vs b')) as l. generalize [p_ 1 0 0; p_ 2 0 0; p_ 1 1 0] as m.
      intros m l. revert m. induction l as [|u l IH]; intros [|v m] H; try discriminate H; [easy|]. pose proof (f_equal (hd (qv u)) H) as H1.
      pose proof (f_equal (@tl _) H) as H2. cbn [map hd tl] in H1, H2. f_equal; auto. }
    exists 0, 1, 2, (p_ 1 0 0), (p_ 2 0 0), (p_ 1 1 0). unfold brep2ph_fixed. cbn [fst snd]. rewrite V1, V3.
    split; [now left|]. do 3 (split; [reflexivity|]). apply tri_c0.
  - intros bits. cbn [brep2ph brep2ph_fixed snd]. now rewrite V1.
Qed.

Print Assumptions C59_beneath.
Print Assumptions C69_surface.
Print Assumptions C76_kept.
Print Assumptions C76_facing_partial.
Print Assumptions C76_normal_refuted.
Print Assumptions C70_reset.
Print Assumptions C71_convert.
Print Assumptions C71_surface.
Print Assumptions C72_counts_partial.
Print Assumptions C72_coordinates_refuted.
Print Assumptions C72_discarded_refuted.
