(** * Brep_Trunc: a whole truncation, and sequences of them. *)

From Coq Require Import Bool List Arith Lia.
From Verif Require Import Num NumFacts Vec VecFacts Brep_Model Brep_Spec Brep_Geo Brep_Proofs.
Import ListNotations.

Lemma nth_mapi {A B} (h : nat -> A -> B) l : forall i k, nth_error (mapi h i l) k = option_map (h (i + k)%nat) (nth_error l k).
Proof.
  induction l as [|a l IH]; intros i [|k]; cbn; auto.
  - now rewrite Nat.add_0_r.
  - rewrite IH. now replace (S i + k)%nat with (i + S k)%nat by lia.
Qed.

Lemma omap_map {A B} (h : A -> option B) (k : A -> B) l : Forall (fun a => h a = Some (k a)) l -> omap h l = Some (map k l).
Proof. induction 1 as [|a l E _ IH]; cbn; [easy|]. now rewrite E, IH. Qed.

Lemma f2_nth {A B} (R : A -> B -> Prop) l l' k b : Forall2 R l l' -> nth_error l' k = Some b -> exists a, nth_error l k = Some a /\ R a b.
Proof.
  intros H. revert k. induction H as [|a b' l l' E _ IH]; intros [|k]; cbn; try easy.
  - intros [= <-]. now exists a.
  - apply IH.
Qed.
Lemma f2_nth' {A B} (R : A -> B -> Prop) l l' k a : Forall2 R l l' -> nth_error l k = Some a -> exists b, nth_error l' k = Some b /\ R a b.
Proof.
  intros H. revert k. induction H as [|a' b' l l' E _ IH]; intros [|k]; cbn; try easy.
  - intros [= <-]. now exists b'.
  - apply IH.
Qed.

Section BT.
Context {F : Type} {N : Num F} {L : NumLaws F N}.
Local Open Scope num_scope.
Variables (tol : F) (pl : plane F).
Hypothesis tol_pos : 0 < tol.

Implicit Types (vs : list (vtx F)) (es : list edge) (f g : face F) (e : edge) (x : vec3 F) (b : brep F).

Definition surf vs (fs : list (face F)) x : Prop := exists f, In f fs /\ h_dis f = false /\ tri vs f x.

Lemma surf_app vs l m x : surf vs (l ++ m) x <-> surf vs l x \/ surf vs m x.
Proof.
  split.
  - intros (f & I & R). apply in_app_or in I as [I|I]; [left|right]; now exists f.
  - intros [(f & I & R)|(f & I & R)]; exists f; (split; [apply in_or_app; auto|easy]).
Qed.

(** A face with no corner beyond. *)
Definition under vs f : Prop := exists C, corn vs f C /\ forall i, (i < 3)%nat -> side pl (b_p (C i)) < tol.

Lemma step_ok vs es f : Forall (dok tol pl) vs -> Forall (eok vs) es -> fok vs es f ->
  exists more f' n, (if h_dis f then Some (es, f, []) else trunc_face vs es f) = Some (es ++ more, f', n) /\
    Forall (newe vs) more /\ Forall (aok vs (es ++ more)) (f' :: n) /\
    (forall x, surf vs (f' :: n) x -> surf vs [f] x) /\
    (forall x, surf vs [f] x -> side pl x <= - tol -> surf vs (f' :: n) x) /\
    (forall g, In g (f' :: n) -> h_dis g = false -> h_dis f = false /\ alike vs g f) /\
    (h_dis f = false -> under vs f -> In f (f' :: n)).
Proof.
  intros VS ES K. destruct (h_dis f) eqn:D.
  - exists [], f, []. rewrite app_nil_r. split; [easy|]. split; [constructor|]. split; [constructor; [|constructor]; intros D'; congruence|].
    split; [easy|]. split; [easy|]. split; [|congruence]. intros g [<-|[]] D'. congruence.
  - destruct (K D) as [[C KC] E]. destruct (face_ok tol pl tol_pos vs es f C VS ES D KC E) as (more & f' & n & A & B & G & H & I & J & M).
    exists more, f', n. split; [easy|]. split; [easy|]. split; [easy|]. split; [|split; [|split]].
    + intros x (g & Ig & Dg & T). exists f. split; [now left|]. split; [easy|]. now apply (H x g).
    + intros x (g & [<-|[]] & Dg & T) S. destruct (I x T S) as (g' & X). now exists g'.
    + intros g Ig Dg. split; [easy|]. now apply J.
    + intros _ (C' & KC' & U). destruct (M C' KC' U) as [-> ->]. now left.
Qed.

Lemma faces_ok vs fs : Forall (dok tol pl) vs -> forall es, Forall (eok vs) es -> Forall (fok vs es) fs ->
  exists more fs' n, trunc_faces vs es fs = Some (es ++ more, fs', n) /\ Forall (newe vs) more /\ Forall (aok vs (es ++ more)) (n ++ fs') /\
    (forall x, surf vs (n ++ fs') x -> surf vs fs x) /\
    (forall x, surf vs fs x -> side pl x <= - tol -> surf vs (n ++ fs') x) /\
    (forall g, In g (n ++ fs') -> h_dis g = false -> exists f, In f fs /\ h_dis f = false /\ alike vs g f) /\
    (forall f, In f fs -> h_dis f = false -> under vs f -> In f (n ++ fs')).
Proof.
  intros VS. induction fs as [|f tl IH]; intros es ES FS.
  - exists [], [], []. cbn. rewrite app_nil_r. repeat split; auto. easy.
  - inversion FS as [|? ? Hf Ht]; subst. cbn [trunc_faces].
    destruct (step_ok vs es f VS ES Hf) as (more & f' & n & -> & A & B & S & C & O & U).
    destruct (IH (es ++ more)) as (more2 & fs2 & n2 & -> & A2 & B2 & S2 & C2 & O2 & U2).
    { apply Forall_app. split; [easy|]. eapply Forall_impl; [|exact A]. apply newe_eok. }
    { eapply Forall_impl; [|exact Ht]. intros g. now apply fok_app. }
    exists (more ++ more2), (f' :: fs2), (n2 ++ n). rewrite app_assoc.
    inversion B as [|? ? B' Bn]; subst. split; [easy|]. split; [now apply Forall_app|]. split; [|split; [|split; [|split]]].
    + apply Forall_app in B2 as [X Y]. rewrite !Forall_app. repeat split; auto.
      * eapply Forall_impl; [|exact Bn]. intros g. now apply aok_app.
      * constructor; [now apply aok_app|easy].
    + intros x H. change (f :: tl) with ([f] ++ tl). change (f' :: fs2) with ([f'] ++ fs2) in H. rewrite !surf_app in H. rewrite surf_app.
      change (f' :: n) with ([f'] ++ n) in S.
      destruct H as [[H|H]|[H|H]]; [right; apply S2|left; apply S|left; apply S|right; apply S2]; rewrite surf_app; auto.
    + intros x H Sd. change (f :: tl) with ([f] ++ tl) in H. change (f' :: fs2) with ([f'] ++ fs2). rewrite !surf_app. rewrite surf_app in H.
      change (f' :: n) with ([f'] ++ n) in C. destruct H as [H|H].
      * apply C in H; [|easy]. rewrite surf_app in H. tauto.
      * apply C2 in H; [|easy]. rewrite surf_app in H. tauto.
    + intros g I D. assert (J : In g (f' :: n) \/ In g (n2 ++ fs2)).
      { rewrite !in_app_iff in *. cbn [In] in *. tauto. }
      destruct J as [J|J].
      * exists f. split; [now left|]. now apply O.
      * destruct (O2 g J D) as (f0 & I0 & X). exists f0. split; [now right|easy].
    + intros g [<-|I] D G.
      * pose proof (U D G) as J. rewrite !in_app_iff. cbn [In] in *. tauto.
      * pose proof (U2 g I D G) as J. rewrite !in_app_iff in *. cbn [In] in *. tauto.
Qed.

(** ** Boundary representations and the lists *)

Lemma lt3 i : (i < 3)%nat -> i = 0%nat \/ i = 1%nat \/ i = 2%nat.
Proof. lia. Qed.

Lemma corners_corn b f p q r : corners b f p q r <-> exists C, corn (b_vs b) f C /\ b_p (C 0%nat) = p /\ b_p (C 1%nat) = q /\ b_p (C 2%nat) = r.
Proof.
  unfold corners, corn, vert_at. destruct (h_v f) as [[i j] k]. split.
  - intros ((u & A & B & C) & (v & A' & B' & C') & (w & A'' & B'' & C'')). exists (t3get (u, v, w)). split; [|auto].
    intros l Hl. destruct (lt3 l Hl) as [-> |[-> | ->]]; now split.
  - intros (C & K & <- & <- & <-). pose proof (K 0%nat ltac:(lia)) as [A A']. pose proof (K 1%nat ltac:(lia)) as [B B'].
    pose proof (K 2%nat ltac:(lia)) as [D D']. cbn [t3get] in *. repeat split; eexists; eauto.
Qed.

Lemma on_surf b x : on_surface b x <-> surf (b_vs b) (b_fs b) x.
Proof.
  unfold on_surface, surf, face_in, tri. split.
  - intros (f & p & q & r & [I D] & K & T). apply corners_corn in K as (C & K & <- & <- & <-). exists f. eauto.
  - intros (f & I & D & C & K & T). exists f. do 3 eexists. split; [easy|]. split; [apply corners_corn; eauto|exact T].
Qed.

Definition wfl vs es (fs : list (face F)) : Prop := Forall (fok vs es) fs /\
  forall e, In e es -> g_dis e = false -> g_cut e = None /\ (exists u, lv vs (g_0 e) u) /\ (exists u, lv vs (g_1 e) u).

Lemma wf_wfl b : well_formed b <-> wfl (b_vs b) (b_es b) (b_fs b).
Proof.
  unfold well_formed, wfl. rewrite Forall_forall.
  assert (V : forall i, (exists x, vert_at b i x) <-> exists u, lv (b_vs b) i u).
  { intros i. split; [intros (x & v & A & B & _); now exists v|intros (v & A & B); exists (b_p v), v; auto]. }
  assert (H : (forall f, face_in b f -> (exists p q r, corners b f p q r) /\
      let '(i, j, k) := h_v f in let '(e0, e1, e2) := h_e f in edge_at b e0 j k /\ edge_at b e1 k i /\ edge_at b e2 i j) <->
    (forall f, In f (b_fs b) -> fok (b_vs b) (b_es b) f)).
  { split.
    - intros H f I D. destruct (H f (conj I D)) as [(p & q & r & K) E]. apply corners_corn in K as (C & K & _). split; [now exists C|].
      assert (SY : forall k i j, ej (b_es b) k i j -> ej (b_es b) k j i).
      { intros k i j (e & X & Y & Z). exists e. repeat split; auto. now apply ends_sym. }
      destruct (h_v f) as [[i j] k], (h_e f) as [[e0 e1] e2]. destruct E as (E0 & E1 & E2).
      intros l m n []; cbn [t3get]; try assumption; apply SY; assumption.
    - intros H f [I D]. destruct (H f I D) as [[C K] E]. split.
      + do 3 eexists. apply corners_corn. eauto.
      + pose proof (E _ _ _ p012) as E0. pose proof (E _ _ _ p120) as E1. pose proof (E _ _ _ p201) as E2.
        destruct (h_v f) as [[i j] k], (h_e f) as [[e0 e1] e2]. cbn [t3get] in *. auto. }
  rewrite H. split; intros [A B]; (split; [exact A|]); intros e I D; destruct (B e I D) as (X & Y & Z).
  - rewrite !V in *. auto.
  - rewrite !V. auto.
Qed.

(** ** The whole truncation *)

Lemma uses_in (g : face F -> t3 nat) (fs : list (face F)) f i k : In f fs -> h_dis f = false -> (i < 3)%nat -> t3get (g f) i = k -> uses g fs k = true.
Proof.
  intros I D Hi <-. unfold uses. apply existsb_exists. exists f. split; [easy|]. rewrite D. cbn [negb andb].
  destruct (lt3 i Hi) as [-> |[-> | ->]]; rewrite Nat.eqb_refl; rewrite ?orb_true_r; reflexivity.
Qed.
Lemma uses_out (g : face F -> t3 nat) (fs : list (face F)) k : uses g fs k = true -> exists f i, In f fs /\ h_dis f = false /\ (i < 3)%nat /\ t3get (g f) i = k.
Proof.
  unfold uses. intros H. apply existsb_exists in H as (f & I & H). apply andb_true_iff in H as [D H]. apply negb_true_iff in D.
  rewrite !orb_true_iff, !Nat.eqb_eq in H. exists f. destruct H as [[H|H]|H]; [exists 0%nat|exists 1%nat|exists 2%nat]; repeat split; auto; lia.
Qed.

Lemma lv_bb vs i u : lv vs i u -> lv (map (bb1 tol pl) vs) i (bb1 tol pl u).
Proof. intros [A B]. split; [now apply map_nth_error|]. unfold bb1. now rewrite B. Qed.
Lemma bb1_p v : b_p (bb1 tol pl v) = b_p v.
Proof. unfold bb1. now destruct (b_dis v). Qed.
Lemma lv_bb_inv vs i u : lv (map (bb1 tol pl) vs) i u -> exists v, lv vs i v /\ u = bb1 tol pl v.
Proof.
  intros [A B]. rewrite nth_error_map in A. destruct (nth_error vs i) as [v|] eqn:E; [|easy]. cbn in A. injection A as <-.
  exists v. repeat split; auto. unfold bb1 in B. destruct (b_dis v) eqn:D; [congruence|easy].
Qed.

Lemma tri_bb vs f x : tri (map (bb1 tol pl) vs) f x <-> tri vs f x.
Proof.
  split.
  - intros (C & K & T). assert (X : forall i, (i < 3)%nat -> exists v, lv vs (t3get (h_v f) i) v /\ C i = bb1 tol pl v) by (intros i Hi; now apply lv_bb_inv, K).
    destruct (X 0%nat ltac:(lia)) as (u & U & E0). destruct (X 1%nat ltac:(lia)) as (v & V & E1). destruct (X 2%nat ltac:(lia)) as (w & W & E2).
    exists (t3get (u, v, w)). split.
    + intros i Hi. destruct (lt3 i Hi) as [-> |[-> | ->]]; easy.
    + rewrite E0, E1, E2, !bb1_p in T. exact T.
  - intros (C & K & T). exists (fun i => bb1 tol pl (C i)). split; [intros i Hi; now apply lv_bb, K|]. now rewrite !bb1_p.
Qed.

Lemma tri_app vs ns f x : (exists C, corn vs f C) -> (tri (vs ++ ns) f x <-> tri vs f x).
Proof.
  intros [C K]. assert (K' : corn (vs ++ ns) f C) by (intros i Hi; now apply lv_app, K).
  rewrite (tri_perm _ _ _ _ _ _ _ K p012), (tri_perm _ _ _ _ _ _ _ K' p012). easy.
Qed.

Lemma surf_ext vs vs' fs x : (forall f, In f fs -> h_dis f = false -> (tri vs f x <-> tri vs' f x)) -> surf vs fs x <-> surf vs' fs x.
Proof. intros H. split; intros (f & I & D & T); exists f; (split; [easy|]; split; [easy|]); now apply H. Qed.

Lemma fok_vs vs vs' es f : (forall i u, lv vs i u -> exists u', lv vs' i u') -> fok vs es f -> fok vs' es f.
Proof.
  intros H K D. destruct (K D) as [[C KC] E]. split; [|easy].
  destruct (H _ _ (KC 0%nat ltac:(lia))) as (u & U). destruct (H _ _ (KC 1%nat ltac:(lia))) as (v & V). destruct (H _ _ (KC 2%nat ltac:(lia))) as (w & W).
  exists (t3get (u, v, w)). intros i Hi. destruct (lt3 i Hi) as [-> |[-> | ->]]; easy.
Qed.

Lemma count_0 (p : vtx F -> bool) vs : length (filter p vs) = 0%nat -> forall v, In v vs -> p v = false.
Proof.
  intros H v I. destruct (p v) eqn:E; [|easy]. exfalso. assert (J : In v (filter p vs)) by now apply filter_In.
  destruct (filter p vs); [easy|discriminate].
Qed.

Lemma dok_map vs : Forall (dok tol pl) (map (bb1 tol pl) vs).
Proof. apply Forall_forall. intros v I. apply in_map_iff in I as (u & <- & _). now apply bb1_dok. Qed.

Lemma near_tri vs f x : Forall (dok tol pl) vs -> (exists C, corn vs f C /\ forall i, (i < 3)%nat -> b_d (C i) <= 0) -> tri vs f x -> side pl x <= tol.
Proof.
  intros VS (C & K & D) T. apply (tri_perm _ _ _ _ _ _ _ K p012) in T. rewrite Forall_forall in VS.
  apply (tri_side_le pl _ _ _ _ _ T); (eapply dok_near; [easy|apply VS; eapply nth_error_In; refine (proj1 (K _ _)); lia|refine (proj2 (K _ _)); lia|apply D; lia]).
Qed.

Lemma trunc_ok b : well_formed b -> exists b', trunc tol b pl = Some b' /\ well_formed b' /\
  (forall x, on_surface b' x -> on_surface b x /\ side pl x <= tol) /\
  (forall x, on_surface b x -> side pl x <= - tol -> on_surface b' x) /\
  (forall g p q r, face_in b' g -> corners b' g p q r -> exists f p0 q0 r0, face_in b f /\ corners b f p0 q0 r0 /\
    toward (facing p q r) (facing p0 q0 r0) /\ (h_norm g = h_norm f \/ h_norm g = v3zero)) /\
  (forall f p q r, face_in b f -> corners b f p q r -> side pl p < tol -> side pl q < tol -> side pl r < tol ->
    face_in b' f /\ corners b' f p q r).
Proof.
  intros W. apply wf_wfl in W. unfold trunc, bb_check.
  set (vs := map (bb1 tol pl) (b_vs b)). pose proof (dok_map (b_vs b)) as VS. fold vs in VS.
  assert (W1 : wfl vs (b_es b) (b_fs b)).
  { destruct W as [A B]. split.
    - eapply Forall_impl; [|exact A]. intros f. apply fok_vs. intros i u U. exists (bb1 tol pl u). now apply lv_bb.
    - intros e I D. destruct (B e I D) as (X & (u & Y) & (v & Z)). split; [easy|]. split; eexists; eapply lv_bb; eassumption. }
  assert (SB : forall x, surf vs (b_fs b) x <-> on_surface b x).
  { intros x. rewrite on_surf. apply surf_ext. intros f _ _. apply tri_bb. }
  assert (CB : forall f p q r, corners b f p q r <-> exists C, corn vs f C /\ b_p (C 0%nat) = p /\ b_p (C 1%nat) = q /\ b_p (C 2%nat) = r).
  { intros f p q r. rewrite corners_corn. split.
    - intros (C & K & E0 & E1 & E2). exists (fun i => bb1 tol pl (C i)). split; [intros i Hi; now apply lv_bb, K|]. now rewrite !bb1_p.
    - intros (C & K & E0 & E1 & E2). assert (Q : forall i, (i < 3)%nat -> exists v, lv (b_vs b) (t3get (h_v f) i) v /\ b_p v = b_p (C i)).
      { intros i Hi. destruct (lv_bb_inv _ _ _ (K i Hi)) as (v & V & ->). exists v. now rewrite bb1_p. }
      destruct (Q 0%nat ltac:(lia)) as (u & U0 & P0). destruct (Q 1%nat ltac:(lia)) as (v & U1 & P1). destruct (Q 2%nat ltac:(lia)) as (w & U2 & P2).
      exists (t3get (u, v, w)). cbn [t3get]. rewrite P0, P1, P2. split; [|easy]. intros i Hi; destruct (lt3 i Hi) as [-> |[-> | ->]]; easy. }
  destruct (length (filter _ vs)) eqn:CT.
  - eexists. split; [reflexivity|]. split; [now apply wf_wfl|].
    set (b0 := Br vs (b_es b) (b_fs b)).
    assert (CE : forall f p q r, corners b0 f p q r <-> corners b f p q r) by (intros f p q r; rewrite CB; apply corners_corn).
    split; [|split; [|split]].
    + intros x H. rewrite on_surf in H. cbn [b_vs b_fs] in H. split; [now apply SB|]. destruct H as (f & I & D & T).
      apply (near_tri vs f x VS); [|easy]. destruct W1 as [A _]. rewrite Forall_forall in A. destruct (A f I D) as [[C K] _].
      exists C. split; [easy|]. intros i Hi. destruct (K i Hi) as [X Y]. apply nth_error_In in X.
      pose proof (count_0 _ _ CT _ X) as Z. cbn beta in Z. rewrite Y in Z. cbn in Z. now apply nltb_ge in Z.
    + intros x H _. apply on_surf. cbn [b_vs b_fs]. now apply SB.
    + intros g p q r G K. exists g, p, q, r. split; [exact G|]. split; [now apply CE|]. split; [apply toward_refl|now left].
    + intros f p q r G K _ _ _. split; [exact G|]. now apply CE.
  - clear CT n. destruct W1 as [FS EG].
    destruct (intersect_ok tol pl (b_es b) vs VS EG) as (ns & es1 & -> & NV & SE & ES).
    assert (VS1 : Forall (dok tol pl) (vs ++ ns)).
    { apply Forall_app. split; [easy|]. eapply Forall_impl; [|exact NV]. apply dok_new. }
    assert (FS1 : Forall (fok (vs ++ ns) es1) (b_fs b)).
    { eapply Forall_impl; [|exact FS]. intros f K D. destruct (K D) as [[C KC] E]. split.
      - exists C. intros i Hi. now apply lv_app, KC.
      - intros i j k P. destruct (E i j k P) as (e & X & Y & Z). destruct (f2_nth' _ _ _ _ _ SE X) as (e' & X' & (S0 & S1 & S2)).
        exists e'. split; [easy|]. split; [congruence|]. unfold ends in *. now rewrite S0, S1. }
    assert (SB1 : forall x, surf (vs ++ ns) (b_fs b) x <-> on_surface b x).
    { intros x. rewrite <- SB. apply surf_ext. intros f I D. apply tri_app. rewrite Forall_forall in FS. now apply FS. }
    destruct (faces_ok (vs ++ ns) (b_fs b) VS1 es1 ES FS1) as (more & fs2 & news & -> & NE & AO & SO & CO & OO & UO).
    set (vs1 := vs ++ ns) in *. set (fs := news ++ fs2) in *.
    rewrite (omap_map _ (sh vs1)).
    2:{ apply Forall_app. split.
        - eapply Forall_impl; [|exact ES]. apply shrink_some.
        - eapply Forall_impl; [|exact NE]. intros e H. now apply shrink_some, newe_eok. }
    set (es3 := map (sh vs1) (es1 ++ more)). eexists. split; [reflexivity|].
    set (b' := Br _ _ _).
    assert (LV : forall i u, lv vs1 i u -> uses h_v fs i = true -> exists u', lv (b_vs b') i u' /\ b_p u' = b_p u).
    { intros i u [X Y] U. exists (gr_v fs i u). unfold b'. cbn [b_vs]. unfold lv. rewrite nth_mapi, X. cbn [option_map Nat.add].
      unfold gr_v. rewrite Y. cbn [b_dis b_p]. now rewrite U. }
    assert (LI : forall i u', lv (b_vs b') i u' -> exists u, lv vs1 i u /\ b_p u' = b_p u).
    { intros i u' [X Y]. unfold b' in X. cbn [b_vs] in X. rewrite nth_mapi in X. destruct (nth_error vs1 i) as [u|] eqn:E; [|easy].
      cbn [option_map Nat.add] in X. injection X as <-. exists u. unfold gr_v in *. unfold lv. destruct (b_dis u) eqn:D; [congruence|easy]. }
    assert (CN : forall f C, In f fs -> h_dis f = false -> corn vs1 f C -> exists C', corn (b_vs b') f C' /\ forall i, (i < 3)%nat -> b_p (C' i) = b_p (C i)).
    { intros f C I D K. assert (U : forall i, (i < 3)%nat -> exists u', lv (b_vs b') (t3get (h_v f) i) u' /\ b_p u' = b_p (C i)).
      { intros i Hi. apply LV; [now apply K|]. now apply (uses_in h_v fs f i). }
      destruct (U 0%nat ltac:(lia)) as (u & U0 & P0). destruct (U 1%nat ltac:(lia)) as (v & U1 & P1). destruct (U 2%nat ltac:(lia)) as (w & U2 & P2).
      exists (t3get (u, v, w)). split; intros i Hi; destruct (lt3 i Hi) as [-> |[-> | ->]]; easy. }
    rewrite Forall_forall in AO.
    assert (SF : forall x, on_surface b' x <-> surf vs1 fs x).
    { intros x. rewrite on_surf. change (b_fs b') with fs. apply surf_ext. intros f I D.
      destruct (AO f I D) as [(C & K & _) _]. destruct (CN f C I D K) as (C' & K' & E).
      rewrite (tri_perm _ _ _ _ _ _ _ K p012), (tri_perm _ _ _ _ _ _ _ K' p012). now rewrite !E by lia. }
    split; [|split; [|split; [|split]]].
    + apply wf_wfl. change (b_fs b') with fs. split.
      * apply Forall_forall. intros f I D. destruct (AO f I D) as [(C & K & _) E]. split.
        -- destruct (CN f C I D K) as (C' & K' & _). now exists C'.
        -- intros i j k P. destruct (E i j k P) as (e & X & Y & Z). exists (gr_e fs (t3get (h_e f) i) (sh vs1 e)). unfold b'. cbn [b_es].
           assert (D' : g_dis (sh vs1 e) = false).
           { unfold sh, shrink1. rewrite Y. destruct (g_cut e); [|easy]. destruct (nth_error vs1 (g_0 e)) as [u|]; [|easy]. destruct (nltb 0 (b_d u)); easy. }
           rewrite nth_mapi. unfold es3. rewrite nth_error_map, X. cbn [option_map Nat.add]. split; [easy|].
           unfold gr_e. rewrite D'. cbn [g_dis]. split.
           ++ apply negb_false_iff. apply (uses_in h_e fs f i); auto. now apply perm_lt in P.
           ++ exact Z.
      * intros e I D. unfold b' in I. cbn [b_es] in I. apply In_nth_error in I as (k & X). rewrite nth_mapi in X.
        destruct (nth_error es3 k) as [e0|] eqn:E0; [|easy]. cbn [option_map Nat.add] in X. injection X as X.
        assert (D0 : g_dis e0 = false) by (unfold gr_e in X; destruct (g_dis e0) eqn:Z; [congruence|easy]).
        unfold gr_e in X. rewrite D0 in X. rewrite <- X in D |- *. cbn [g_dis g_cut g_0 g_1] in *. split; [easy|].
        apply negb_false_iff in D. apply uses_out in D as (f & i & I & Df & Hi & Ek).
        assert (PP : exists j l, perm3 i j l) by (destruct (lt3 i Hi) as [-> |[-> | ->]]; do 2 eexists; constructor).
        destruct PP as (j & l & P). destruct (AO f I Df) as [(C & K & _) E]. destruct (E i j l P) as (e1 & X1 & Y1 & Z1).
        rewrite Ek in X1. unfold es3 in E0. rewrite nth_error_map, X1 in E0. cbn [option_map] in E0. injection E0 as E0.
        rewrite E0 in Z1. destruct (CN f C I Df K) as (C' & K' & _). destruct (perm_lt _ _ _ P) as (_ & Hj & Hl).
        destruct Z1 as [[-> ->]|[-> ->]]; split; eexists; apply K'; assumption.
    + intros x H. apply SF in H. split; [now apply SB1, SO|]. destruct H as (f & I & D & T).
      apply (near_tri vs1 f x VS1); [|easy]. now apply AO.
    + intros x H S. apply SF. apply CO; [now apply SB1|easy].
    + intros g p q r [I D] K. change (b_fs b') with fs in I. destruct (OO g I D) as (f & If & Df & (Cg & Cf & Kg & Kf & T & NM)).
      apply corners_corn in K as (C' & K' & <- & <- & <-). destruct (CN g Cg I D Kg) as (C2 & K2 & E).
      rewrite (corn_fun _ _ _ _ 0%nat K' K2), (corn_fun _ _ _ _ 1%nat K' K2), (corn_fun _ _ _ _ 2%nat K' K2), !E by lia.
      exists f, (b_p (Cf 0%nat)), (b_p (Cf 1%nat)), (b_p (Cf 2%nat)). split; [easy|]. split; [|easy]. apply CB.
      rewrite Forall_forall in FS. destruct (FS f If Df) as [[C0 K0] _].
      assert (K0' : corn vs1 f C0) by (intros i Hi; now apply lv_app, K0).
      exists C0. rewrite (corn_fun _ _ _ _ 0%nat Kf K0'), (corn_fun _ _ _ _ 1%nat Kf K0'), (corn_fun _ _ _ _ 2%nat Kf K0') by lia. easy.
    + intros f p q r [I D] K Sp Sq Sr. apply CB in K as (C & K & <- & <- & <-).
      assert (K1 : corn vs1 f C) by (intros i Hi; now apply lv_app, K).
      assert (J : In f fs).
      { apply UO; [easy|easy|]. exists C. split; [easy|]. intros i Hi. destruct (lt3 i Hi) as [-> |[-> | ->]]; easy. }
      split; [easy|]. destruct (CN f C J D K1) as (C' & K' & E). apply corners_corn. exists C'. now rewrite !E by lia.
Qed.
End BT.

Lemma truncs_ok {F : Type} {N : Num F} {L : NumLaws F N} (tol : F) : nlt 0%num tol -> forall pls b, well_formed b ->
  exists b', truncs tol b pls = Some b' /\ well_formed b' /\
  (forall x, on_surface b' x -> on_surface b x /\ forall pl, In pl pls -> nle (side pl x) tol) /\
  (forall x, on_surface b x -> (forall pl, In pl pls -> nle (side pl x) (nopp tol)) -> on_surface b' x) /\
  (forall g p q r, face_in b' g -> corners b' g p q r -> exists f p0 q0 r0, face_in b f /\ corners b f p0 q0 r0 /\
    toward (facing p q r) (facing p0 q0 r0) /\ (h_norm g = h_norm f \/ h_norm g = v3zero)) /\
  (forall f p q r, face_in b f -> corners b f p q r ->
    (forall pl, In pl pls -> nlt (side pl p) tol /\ nlt (side pl q) tol /\ nlt (side pl r) tol) -> face_in b' f /\ corners b' f p q r).
Proof.
  intros T pls. induction pls as [|pl tl IH]; intros b W.
  - exists b. split; [easy|]. split; [easy|]. split; [|split; [auto|split; [|auto]]].
    + intros x H. split; [easy|]. now intros pl [].
    + intros g p q r G K. exists g, p, q, r. split; [easy|]. split; [easy|]. split; [apply toward_refl|now left].
  - destruct (trunc_ok tol pl T b W) as (b1 & E & W1 & S1 & C1 & O1 & K1). destruct (IH b1 W1) as (b2 & E2 & W2 & S2 & C2 & O2 & K2).
    exists b2. cbn [truncs]. rewrite E. split; [easy|]. split; [easy|]. split; [|split; [|split]].
    + intros x H. split; [now apply S1, S2|]. intros q [<-|I]; [now apply S1, S2|now apply S2].
    + intros x H K. apply C2; [apply C1; [easy|apply K; now left]|]. intros q I. apply K. now right.
    + intros g p q r G K. destruct (O2 g p q r G K) as (f & p1 & q1 & r1 & Gf & Kf & T1 & N1).
      destruct (O1 f p1 q1 r1 Gf Kf) as (f0 & p0 & q0 & r0 & G0 & K0 & T0 & N0). exists f0, p0, q0, r0. split; [easy|]. split; [easy|].
      split; [eapply toward_trans; eassumption|]. destruct N1 as [-> |N1]; [exact N0|now right].
    + intros f p q r G K U. destruct (U pl (or_introl eq_refl)) as (A & B & C). destruct (K1 f p q r G K A B C) as [G1 K1'].
      apply K2; [easy|easy|]. intros pl' I. apply U. now right.
Qed.
