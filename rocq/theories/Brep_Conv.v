(** * Brep_Conv: the conversion from a polyhedron, and the reset. *)

From Coq Require Import Bool List Arith Lia.
From Verif Require Import Num NumFacts Vec VecFacts Brep_Model Brep_Spec Brep_Geo Brep_Proofs Brep_Trunc.
Import ListNotations.

Lemma index_some {A} (p : A -> bool) l i : index p l = Some i -> exists a, nth_error l i = Some a /\ p a = true.
Proof.
  revert i. induction l as [|a l IH]; intros i; cbn; [easy|]. destruct (p a) eqn:E.
  - intros [= <-]. now exists a.
  - destruct (index p l) as [k|]; [|easy]. intros [= <-]. now apply IH.
Qed.

Section BC.
Context {F : Type} {N : Num F} {L : NumLaws F N}.
Local Open Scope num_scope.
Variable veq : vec3 F -> vec3 F -> bool.

Implicit Types (vs : list (vtx F)) (es : list edge) (f g : face F) (e : edge) (x : vec3 F) (b : brep F).

(** The vertex registered for a point. *)
Definition near x y : Prop := y = x \/ veq y x = true.

(** Nothing is discarded. *)
Definition fresh b : Prop := Forall (fun v => b_dis v = false) (b_vs b) /\ Forall (fun e => g_dis e = false) (b_es b) /\
  Forall (fun f => h_dis f = false) (b_fs b).

Lemma vert_find_ok vs x vs' i : vert_find veq vs x = (vs', i) -> Forall (fun v => b_dis v = false) vs ->
  exists ns v, vs' = vs ++ ns /\ Forall (fun v => b_dis v = false) ns /\ lv vs' i v /\ near x (b_p v).
Proof.
  unfold vert_find. intros H D. destruct (index _ vs) as [k|] eqn:E.
  - injection H as <- <-. apply index_some in E as (v & A & B). exists [], v. rewrite app_nil_r. repeat split; auto.
    + rewrite Forall_forall in D. apply D. eapply nth_error_In, A.
    + now right.
  - injection H as <- <-. exists [Vx x 0 false true], (Vx x 0 false true). repeat split; auto.
    + apply nth_last.
    + now left.
Qed.

Lemma edge_find_ok es a c es' k : edge_find es a c = (es', k) -> Forall (fun e => g_dis e = false) es ->
  exists ns, es' = es ++ ns /\ Forall (fun e => g_dis e = false /\ g_cut e = None /\ ends e a c) ns /\ ej es' k a c.
Proof.
  unfold edge_find. intros H D. destruct (index _ es) as [i|] eqn:E.
  - injection H as <- <-. apply index_some in E as (e & A & B). exists []. rewrite app_nil_r. repeat split; auto.
    exists e. split; [easy|]. split; [rewrite Forall_forall in D; apply D; eapply nth_error_In, A|].
    apply orb_true_iff in B as [B|B]; apply andb_true_iff in B as [B1 B2]; apply Nat.eqb_eq in B1, B2; [left|right]; auto.
  - injection H as <- <-. eexists [_]. split; [reflexivity|]. split.
    + constructor; [|constructor]. repeat split. now left.
    + eexists. split; [apply nth_last|]. split; [easy|]. now left.
Qed.

Definition wfx b : Prop := fresh b /\ wfl (b_vs b) (b_es b) (b_fs b).

(** The face made of a triangle. *)
Definition shows b f (t : t3 (vec3 F) * vec3 F) : Prop := exists C, corn (b_vs b) f C /\ h_norm f = snd t /\
  near (t3get (fst t) 0) (b_p (C 0%nat)) /\ near (t3get (fst t) 1) (b_p (C 1%nat)) /\ near (t3get (fst t) 2) (b_p (C 2%nat)).

Lemma corn_app vs ns f C : corn vs f C -> corn (vs ++ ns) f C.
Proof. intros K i Hi. now apply lv_app, K. Qed.

Lemma insert_ok b t : wfx b -> exists ns ms f, b_vs (face_insert veq b t) = b_vs b ++ ns /\ b_es (face_insert veq b t) = b_es b ++ ms /\
  b_fs (face_insert veq b t) = b_fs b ++ [f] /\ wfx (face_insert veq b t) /\ shows (face_insert veq b t) f t.
Proof.
  intros [(FV & FE & FF) [WF WE]]. destruct t as [[[x0 x1] x2] n]. unfold face_insert.
  destruct (vert_find veq (b_vs b) x0) as [vs0 v0] eqn:V0. destruct (vert_find_ok _ _ _ _ V0 FV) as (n0 & u0 & -> & F0 & L0 & N0).
  assert (FV0 : Forall (fun v => b_dis v = false) (b_vs b ++ n0)) by now apply Forall_app.
  destruct (vert_find veq _ x1) as [vs1 v1] eqn:V1. destruct (vert_find_ok _ _ _ _ V1 FV0) as (n1 & u1 & -> & F1 & L1 & N1).
  assert (FV1 : Forall (fun v => b_dis v = false) ((b_vs b ++ n0) ++ n1)) by now apply Forall_app.
  destruct (vert_find veq _ x2) as [vs2 v2] eqn:V2. destruct (vert_find_ok _ _ _ _ V2 FV1) as (n2 & u2 & -> & F2 & L2 & N2).
  assert (FV2 : Forall (fun v => b_dis v = false) (((b_vs b ++ n0) ++ n1) ++ n2)) by now apply Forall_app.
  assert (L0' : lv (((b_vs b ++ n0) ++ n1) ++ n2) v0 u0) by now apply lv_app, lv_app.
  assert (L1' : lv (((b_vs b ++ n0) ++ n1) ++ n2) v1 u1) by now apply lv_app.
  assert (EV : ((b_vs b ++ n0) ++ n1) ++ n2 = b_vs b ++ (n0 ++ n1 ++ n2)) by now rewrite !app_assoc.
  set (vs := ((b_vs b ++ n0) ++ n1) ++ n2) in *. clearbody vs.
  assert (D : forall l ms a c, Forall (fun e => g_dis e = false) l -> Forall (fun e => g_dis e = false /\ g_cut e = None /\ ends e a c) ms ->
    Forall (fun e => g_dis e = false) (l ++ ms)).
  { intros l ms a c A B. apply Forall_app. split; [easy|]. eapply Forall_impl; [|exact B]. now intros e (Z & _). }
  destruct (edge_find (b_es b) v1 v2) as [es0 e0] eqn:E0. destruct (edge_find_ok _ _ _ _ _ E0 FE) as (m0 & -> & G0 & J0).
  pose proof (D _ _ _ _ FE G0) as FE0.
  destruct (edge_find _ v2 v0) as [es1 e1] eqn:E1. destruct (edge_find_ok _ _ _ _ _ E1 FE0) as (m1 & -> & G1 & J1).
  pose proof (D _ _ _ _ FE0 G1) as FE1.
  destruct (edge_find _ v0 v1) as [es2 e2] eqn:E2. destruct (edge_find_ok _ _ _ _ _ E2 FE1) as (m2 & -> & G2 & J2).
  pose proof (D _ _ _ _ FE1 G2) as FE2.
  apply (ej_app _ m1) in J0. apply (ej_app _ m2) in J0. apply (ej_app _ m2) in J1.
  assert (EE : ((b_es b ++ m0) ++ m1) ++ m2 = b_es b ++ (m0 ++ m1 ++ m2)) by now rewrite !app_assoc.
  assert (NW : forall e, In e (m0 ++ m1 ++ m2) -> g_cut e = None /\ (exists u, lv vs (g_0 e) u) /\ (exists u, lv vs (g_1 e) u)).
  { rewrite Forall_forall in G0, G1, G2. intros e I. rewrite !in_app_iff in I. destruct I as [I|[I|I]].
    - destruct (G0 e I) as (_ & X & [[-> ->]|[-> ->]]); eauto.
    - destruct (G1 e I) as (_ & X & [[-> ->]|[-> ->]]); eauto.
    - destruct (G2 e I) as (_ & X & [[-> ->]|[-> ->]]); eauto. }
  set (es := ((b_es b ++ m0) ++ m1) ++ m2) in *. clearbody es.
  set (f := Fc _ _ _ _ _ _ _).
  assert (K : corn vs f (t3get (u0, u1, u2))).
  { intros i Hi. destruct (lt3 i Hi) as [-> |[-> | ->]]; easy. }
  exists (n0 ++ n1 ++ n2), (m0 ++ m1 ++ m2), f. cbn [b_vs b_es b_fs]. split; [exact EV|]. split; [exact EE|]. split; [easy|]. split.
  - split; [split; [easy|split; [easy|cbn [b_fs]]]|].
    + apply Forall_app. split; [easy|]. now constructor.
    + cbn [b_vs b_es b_fs]. split.
      * apply Forall_app. split.
        -- rewrite EE, EV. eapply Forall_impl; [|exact WF]. intros g Hg. apply fok_app. revert Hg. apply fok_vs. intros i u U. exists u. now apply lv_app.
        -- constructor; [|constructor]. intros _. split; [now exists (t3get (u0, u1, u2))|].
           assert (SY : forall k i j, ej es k i j -> ej es k j i).
           { intros k i j (e & X & Y & Z). exists e. repeat split; auto. now apply ends_sym. }
           intros i j k []; cbn [f h_v h_e t3get]; auto.
      * intros e I _. rewrite EE in I. apply in_app_iff in I as [I|I]; [|now apply NW].
        rewrite Forall_forall in FE. destruct (WE e I (FE e I)) as (X & (u & Y) & (v & Z)). split; [easy|]. rewrite EV. split; eexists; eapply lv_app; eassumption.
  - exists (t3get (u0, u1, u2)). cbn [f h_norm snd fst t3get]. auto 6.
Qed.

Lemma shows_ext b b' f t ns : b_vs b' = b_vs b ++ ns -> shows b f t -> shows b' f t.
Proof. intros E (C & K & R). exists C. rewrite E. split; [now apply corn_app|easy]. Qed.

Lemma fold_ok ts : forall b, wfx b -> exists ns ms fs, let b' := fold_left (face_insert veq) ts b in
  b_vs b' = b_vs b ++ ns /\ b_es b' = b_es b ++ ms /\ b_fs b' = b_fs b ++ fs /\ wfx b' /\ Forall2 (shows b') fs ts.
Proof.
  induction ts as [|t ts IH]; intros b W; cbn [fold_left].
  - exists [], [], []. rewrite !app_nil_r. auto.
  - destruct (insert_ok b t W) as (ns & ms & f & A & B & C & W' & S).
    destruct (IH _ W') as (ns' & ms' & fs & A' & B' & C' & W'' & S'). exists (ns ++ ns'), (ms ++ ms'), (f :: fs). cbn zeta in *.
    rewrite A', B', C', A, B, C, <- !app_assoc. repeat (split; [easy|]). constructor; [|easy]. eapply shows_ext; [exact A'|exact S].
Qed.

Lemma empty_ok : wfx (Br [] [] []).
Proof. repeat split; try constructor; easy. Qed.

(** ** Reset *)

Definition vrel (u v : vtx F) : Prop := b_p v = b_p u /\ b_org u = true /\ b_org v = true.
Definition erel (a c : edge) : Prop := g_o0 c = g_o0 a /\ g_o1 c = g_o1 a /\ g_org a = true /\ g_org c = true.
Definition frel (f g : face F) : Prop := h_ov g = h_ov f /\ h_oe g = h_oe f /\ h_norm g = h_norm f /\ h_org f = true /\ h_org g = true.

(** A boundary representation with the same original items as another, all of which are original. *)
Definition origin (b0 b : brep F) : Prop := exists V ns E ms ks G,
  b_vs b = V ++ ns /\ Forall2 vrel (b_vs b0) V /\ Forall (fun v => b_org v = false) ns /\
  b_es b = E ++ ms /\ Forall2 erel (b_es b0) E /\ Forall (fun e => g_org e = false) ms /\
  b_fs b = ks ++ G /\ Forall2 frel (b_fs b0) G /\ Forall (fun f => h_org f = false) ks.

(** As the conversion makes it. *)
Definition pristine (b : brep F) : Prop :=
  Forall (fun v => b_d v = 0 /\ b_dis v = false /\ b_org v = true) (b_vs b) /\
  Forall (fun e => g_0 e = g_o0 e /\ g_1 e = g_o1 e /\ g_cut e = None /\ g_dis e = false /\ g_org e = true) (b_es b) /\
  Forall (fun f => h_v f = h_ov f /\ h_e f = h_oe f /\ h_dis f = false /\ h_org f = true) (b_fs b).

Lemma filter_none {A} (p : A -> bool) l : Forall (fun a => p a = false) l -> filter p l = [].
Proof. induction 1 as [|a l E _ IH]; cbn; [easy|]. now rewrite E. Qed.

Lemma reset_origin b0 b : pristine b0 -> origin b0 b -> reset b = b0.
Proof.
  unfold reset. intros (PV & PE & PF) (V & ns & E & ms & ks & G & -> & RV & NV & -> & RE & NE & -> & RF & NF).
  rewrite !filter_app, (filter_none _ _ NV), (filter_none _ _ NE), (filter_none _ _ NF), !app_nil_r. cbn [app].
  destruct b0 as [vs0 es0 fs0]. cbn [b_vs b_es b_fs] in *. f_equal.
  - clear - RV PV. induction RV as [|u v l l' (A & B & C) _ IH]; [easy|]. inversion PV as [|? ? (X & Y & Z) P]; subst.
    cbn [filter]. rewrite C. cbn [map]. rewrite IH by easy. f_equal. destruct u as [p d s o]. cbn in *. congruence.
  - clear - RE PE. induction RE as [|u v l l' (A & B & C & D) _ IH]; [easy|]. inversion PE as [|? ? (X & Y & Z & W & O) P]; subst.
    cbn [filter]. rewrite D. cbn [map]. rewrite IH by easy. f_equal. destruct u. cbn in *. congruence.
  - clear - RF PF. induction RF as [|u v l l' (A & B & C & D & D') _ IH]; [easy|]. inversion PF as [|? ? (X & Y & Z & W) P]; subst.
    cbn [filter]. rewrite D'. cbn [map]. rewrite IH by easy. f_equal. destruct u. cbn in *. congruence.
Qed.

Lemma origin_refl b : pristine b -> origin b b.
Proof.
  intros (PV & PE & PF). exists (b_vs b), [], (b_es b), [], [], (b_fs b). rewrite !app_nil_r. repeat split; auto.
  - clear - PV. induction PV as [|? ? (A & B & C)]; constructor; auto. now repeat split.
  - clear - PE. induction PE as [|? ? (A & B & C & D & E)]; constructor; auto. now repeat split.
  - clear - PF. induction PF as [|? ? (A & B & C & D)]; constructor; auto. now repeat split.
Qed.

(** Items that keep what the reset needs. *)
Definition vkeep (u v : vtx F) : Prop := b_p v = b_p u /\ b_org v = b_org u.
Definition ekeep (a c : edge) : Prop := g_o0 c = g_o0 a /\ g_o1 c = g_o1 a /\ g_org c = g_org a.
Definition fkeep (f g : face F) : Prop := h_ov g = h_ov f /\ h_oe g = h_oe f /\ h_norm g = h_norm f /\ h_org g = h_org f.

Lemma f2_app_l {A B} (R : A -> B -> Prop) l m k : Forall2 R (l ++ m) k -> exists l' m', k = l' ++ m' /\ Forall2 R l l' /\ Forall2 R m m'.
Proof. intros H. apply Forall2_app_inv_l in H as (l' & m' & X & Y & ->). eauto. Qed.

Lemma f2_comp {A} (R S T : A -> A -> Prop) l m k : (forall a c d, R a c -> S c d -> T a d) -> Forall2 R l m -> Forall2 S m k -> Forall2 T l k.
Proof. intros H X. revert k. induction X; intros k Y; inversion Y; subst; constructor; eauto. Qed.
Lemma f2_forall {A} (S : A -> A -> Prop) (P : A -> Prop) l m : (forall a c, S a c -> P a -> P c) -> Forall2 S l m -> Forall P l -> Forall P m.
Proof. intros H X. induction X; intros Y; inversion Y; subst; constructor; eauto. Qed.

Lemma origin_step b0 b V ns E ms ks G : origin b0 b -> Forall2 vkeep (b_vs b) V -> Forall (fun v => b_org v = false) ns ->
  Forall2 ekeep (b_es b) E -> Forall (fun e => g_org e = false) ms -> Forall2 fkeep (b_fs b) G -> Forall (fun f => h_org f = false) ks ->
  origin b0 (Br (V ++ ns) (E ++ ms) (ks ++ G)).
Proof.
  intros (V0 & ns0 & E0 & ms0 & ks0 & G0 & X1 & RV & NV & X2 & RE & NE & X3 & RF & NF) KV MV KE ME KF MF. rewrite X1, X2, X3 in *.
  apply f2_app_l in KV as (V1 & n1 & -> & KV & KV'). apply f2_app_l in KE as (E1 & m1 & -> & KE & KE').
  apply f2_app_l in KF as (k1 & G1 & -> & KF' & KF).
  exists V1, (n1 ++ ns), E1, (m1 ++ ms), (ks ++ k1), G1. cbn [b_vs b_es b_fs]. rewrite <- !app_assoc. repeat split; auto.
  - eapply f2_comp; [|exact RV|exact KV]. intros a c d (A & B & C) [D D']. repeat split; congruence.
  - apply Forall_app. split; [|easy]. eapply f2_forall; [|exact KV'|exact NV]. intros a c [_ ->]. auto.
  - eapply f2_comp; [|exact RE|exact KE]. intros a c d (A & B & C & C') (D & D' & D''). repeat split; congruence.
  - apply Forall_app. split; [|easy]. eapply f2_forall; [|exact KE'|exact NE]. intros a c (_ & _ & ->). auto.
  - eapply f2_comp; [|exact RF|exact KF]. intros a c d (A & B & C & C' & C'') (D & D' & D'' & Dq). repeat split; congruence.
  - apply Forall_app. split; [easy|]. eapply f2_forall; [|exact KF'|exact NF]. intros a c (_ & _ & _ & ->). auto.
Qed.

Lemma f2_refl {A} (R : A -> A -> Prop) l : (forall a, R a a) -> Forall2 R l l.
Proof. intros H. induction l; constructor; auto. Qed.
Lemma f2_map {A} (R : A -> A -> Prop) (h : A -> A) l : (forall a, R a (h a)) -> Forall2 R l (map h l).
Proof. intros H. induction l; constructor; auto. Qed.
Lemma f2_mapi {A} (R : A -> A -> Prop) (h : nat -> A -> A) l : forall i, (forall i a, R a (h i a)) -> Forall2 R l (mapi h i l).
Proof. induction l; intros i H; constructor; auto. Qed.

Lemma intersect_keep es : forall vs vs' es', intersect vs es = Some (vs', es') ->
  exists ns, vs' = vs ++ ns /\ Forall (fun v => b_org v = false) ns /\ Forall2 ekeep es es'.
Proof.
  induction es as [|e tl IH]; intros vs vs' es' H; cbn [intersect] in H.
  - injection H as <- <-. exists []. rewrite app_nil_r. auto.
  - assert (R : ekeep e e) by now repeat split. destruct (g_dis e).
    + destruct (intersect vs tl) as [[v1 t1]|] eqn:E; [|easy]. injection H as <- <-. destruct (IH _ _ _ E) as (ns & A & B & C). exists ns. auto.
    + destruct (nth_error vs (g_0 e)) as [u0|]; [|easy]. destruct (nth_error vs (g_1 e)) as [u1|]; [|easy].
      destruct (nltb (b_d u0 * b_d u1) 0).
      * match type of H with match ?o with _ => _ end = _ => destruct o as [[v1 t1]|] eqn:E; [|easy] end. injection H as <- <-.
        destruct (IH _ _ _ E) as (ns & A & B & C). rewrite <- app_assoc in A. cbn [app] in A. eexists. split; [exact A|]. split; [now constructor|].
        constructor; [|easy]. now repeat split.
      * destruct (intersect vs tl) as [[v1 t1]|] eqn:E; [|easy]. injection H as <- <-. destruct (IH _ _ _ E) as (ns & A & B & C). exists ns. auto.
Qed.

Definition freshe (e : edge) : Prop := g_org e = false.
Lemma face_keep vs es f es' f' n : trunc_face vs es f = Some (es', f', n) ->
  exists ms, es' = es ++ ms /\ Forall freshe ms /\ fkeep f f' /\ Forall (fun g => h_org g = false) n.
Proof.
  assert (KA : forall i1 i2 i3, face_a es f i1 i2 i3 = Some (es', f', n) ->
    exists ms, es' = es ++ ms /\ Forall freshe ms /\ fkeep f f' /\ Forall (fun g => h_org g = false) n).
  { intros i1 i2 i3. unfold face_a. destruct (cut_of _ _); [|easy]. destruct (cut_of _ _); [|easy]. intros H. injection H as <- <- <-.
    eexists. split; [reflexivity|]. repeat constructor. }
  assert (KV : forall i1 i2 i3, face_v es f i1 i2 i3 = Some (es', f', n) ->
    exists ms, es' = es ++ ms /\ Forall freshe ms /\ fkeep f f' /\ Forall (fun g => h_org g = false) n).
  { intros i1 i2 i3. unfold face_v. destruct (cut_of _ _); [|easy]. destruct (cut_of _ _); [|easy]. intros H. injection H as <- <- <-.
    eexists. split; [reflexivity|]. repeat constructor. }
  assert (KE : forall i1 i2 i3, face_e es f i1 i2 i3 = Some (es', f', n) ->
    exists ms, es' = es ++ ms /\ Forall freshe ms /\ fkeep f f' /\ Forall (fun g => h_org g = false) n).
  { intros i1 i2 i3. unfold face_e. destruct (cut_of _ _); [|easy]. intros H. injection H as <- <- <-.
    eexists. split; [reflexivity|]. repeat constructor. }
  assert (KS : forall g, fkeep f g -> Some (es, g, []) = Some (es', f', n) ->
    exists ms, es' = es ++ ms /\ Forall freshe ms /\ fkeep f f' /\ Forall (fun g => h_org g = false) n).
  { intros g R H. injection H as <- <- <-. exists []. rewrite app_nil_r. auto. }
  unfold trunc_face. destruct (face_code vs f) as [c|]; [|discriminate].
  do 64 (destruct c as [|c]; [solve [apply KA | apply KV | apply KE | apply KS; now repeat split | discriminate]|]). discriminate.
Qed.

Lemma faces_keep vs fs : forall es es' fs' n, trunc_faces vs es fs = Some (es', fs', n) ->
  exists ms, es' = es ++ ms /\ Forall freshe ms /\ Forall2 fkeep fs fs' /\ Forall (fun g => h_org g = false) n.
Proof.
  induction fs as [|f tl IH]; intros es es' fs' n H; cbn [trunc_faces] in H.
  - injection H as <- <- <-. exists []. rewrite app_nil_r. repeat split; constructor.
  - assert (S : forall es1 f1 n1, (if h_dis f then Some (es, f, []) else trunc_face vs es f) = Some (es1, f1, n1) ->
      exists ms, es1 = es ++ ms /\ Forall freshe ms /\ fkeep f f1 /\ Forall (fun g => h_org g = false) n1).
    { intros es1 f1 n1. destruct (h_dis f); [|apply face_keep]. intros X. injection X as <- <- <-. exists []. rewrite app_nil_r. repeat split; constructor. }
    destruct (if h_dis f then _ else _) as [[[es1 f1] n1]|]; [|discriminate H]. destruct (S _ _ _ eq_refl) as (ms & -> & A & B & C).
    destruct (trunc_faces vs _ tl) as [[[es2 fs2] n2]|] eqn:E; [|discriminate H]. injection H as <- <- <-.
    destruct (IH _ _ _ _ E) as (ms2 & -> & A2 & B2 & C2). exists (ms ++ ms2). rewrite app_assoc. repeat split; auto; apply Forall_app; auto.
Qed.

Lemma omap_f2 {A B} (R : A -> B -> Prop) (h : A -> option B) l : (forall a c, h a = Some c -> R a c) -> forall l', omap h l = Some l' -> Forall2 R l l'.
Proof.
  intros H. induction l as [|a l IH]; cbn; intros l' E.
  - injection E as <-. constructor.
  - destruct (h a) eqn:Ea; [|discriminate]. destruct (omap h l); [|discriminate]. injection E as <-. constructor; auto.
Qed.

Lemma trunc_origin tol b0 b pl b' : trunc tol b pl = Some b' -> origin b0 b -> origin b0 b'.
Proof.
  intros H O. unfold trunc, bb_check in H.
  assert (KB : Forall2 vkeep (b_vs b) (map (bb1 tol pl) (b_vs b))).
  { apply f2_map. intros v. unfold bb1. destruct (b_dis v); now split. }
  destruct (length _) as [|k].
  - injection H as <-. rewrite <- (app_nil_r (map _ _)), <- (app_nil_r (b_es b)). change (b_fs b) with ([] ++ b_fs b).
    apply origin_step with (b := b); auto; apply f2_refl; now repeat split.
  - destruct (intersect _ _) as [[vs1 es1]|] eqn:E; [|discriminate H]. destruct (trunc_faces _ _ _) as [[[es2 fs2] n]|] eqn:E2; [|discriminate H].
    destruct (omap _ _) as [es3|] eqn:E3; [|discriminate H]. injection H as <-.
    apply intersect_keep in E as (ns & -> & NV & KE). apply faces_keep in E2 as (ms & -> & NE & KF & NF).
    assert (S : Forall2 ekeep (es1 ++ ms) es3).
    { eapply omap_f2; [|exact E3]. intros a c. unfold shrink1. destruct (g_dis a); [intros [= <-]; now repeat split|].
      destruct (g_cut a); [|intros [= <-]; now repeat split]. destruct (nth_error _ _) as [u|]; [|easy]. intros [= <-]. destruct (nltb 0 (b_d u)); now repeat split. }
    assert (EC : forall a c d, ekeep a c -> ekeep c d -> ekeep a d) by (intros a c d (A & B & C) (A' & B' & C'); repeat split; congruence).
    set (fs := n ++ fs2).
    assert (GE : Forall2 ekeep (es1 ++ ms) (mapi (gr_e fs) 0 es3)).
    { eapply f2_comp; [exact EC|exact S|]. apply f2_mapi. intros i a. unfold gr_e. destruct (g_dis a); now repeat split. }
    assert (GV : Forall2 vkeep (map (bb1 tol pl) (b_vs b) ++ ns) (mapi (gr_v fs) 0 (map (bb1 tol pl) (b_vs b) ++ ns))).
    { apply f2_mapi. intros i a. unfold gr_v. destruct (b_dis a); now repeat split. }
    apply f2_app_l in GE as (E' & m' & -> & GE & GE'). apply f2_app_l in GV as (V' & n' & -> & GV & GV'). unfold fs.
    apply origin_step with (b := b); auto.
    + eapply f2_comp; [|exact KB|exact GV]. intros a c d [A B] [A' B']. split; congruence.
    + eapply f2_forall; [|exact GV'|exact NV]. intros a c [_ ->]. auto.
    + eapply f2_comp; [exact EC|exact KE|exact GE].
    + eapply f2_forall; [|exact GE'|exact NE]. unfold freshe. intros a c (_ & _ & ->). auto.
Qed.

Lemma truncs_origin tol b0 pls : forall b b', truncs tol b pls = Some b' -> origin b0 b -> origin b0 b'.
Proof.
  induction pls as [|pl tl IH]; intros b b' H O; cbn [truncs] in H.
  - now injection H as <-.
  - destruct (trunc tol b pl) as [b1|] eqn:E; [|discriminate H]. eapply IH; [exact H|]. eapply trunc_origin; eassumption.
Qed.

Lemma vert_find_pri vs x vs' i : vert_find veq vs x = (vs', i) -> Forall (fun v : vtx F => b_d v = 0 /\ b_dis v = false /\ b_org v = true) vs ->
  Forall (fun v => b_d v = 0 /\ b_dis v = false /\ b_org v = true) vs'.
Proof.
  unfold vert_find. intros H D. destruct (index _ _); injection H as <- <-; [easy|]. apply Forall_app. split; [easy|]. now repeat constructor.
Qed.
Lemma edge_find_pri es a c es' k : edge_find es a c = (es', k) ->
  Forall (fun e => g_0 e = g_o0 e /\ g_1 e = g_o1 e /\ g_cut e = None /\ g_dis e = false /\ g_org e = true) es ->
  Forall (fun e => g_0 e = g_o0 e /\ g_1 e = g_o1 e /\ g_cut e = None /\ g_dis e = false /\ g_org e = true) es'.
Proof.
  unfold edge_find. intros H D. destruct (index _ _); injection H as <- <-; [easy|]. apply Forall_app. split; [easy|]. now repeat constructor.
Qed.

Lemma insert_pri b t : pristine b -> pristine (face_insert veq b t).
Proof.
  intros (PV & PE & PF). destruct t as [[[x0 x1] x2] n]. unfold face_insert.
  destruct (vert_find veq _ x0) as [vs0 v0] eqn:V0. apply vert_find_pri in V0; [|easy].
  destruct (vert_find veq _ x1) as [vs1 v1] eqn:V1. apply vert_find_pri in V1; [|easy].
  destruct (vert_find veq _ x2) as [vs2 v2] eqn:V2. apply vert_find_pri in V2; [|easy].
  destruct (edge_find _ v1 v2) as [es0 e0] eqn:E0. apply edge_find_pri in E0; [|easy].
  destruct (edge_find _ v2 v0) as [es1 e1] eqn:E1. apply edge_find_pri in E1; [|easy].
  destruct (edge_find _ v0 v1) as [es2 e2] eqn:E2. apply edge_find_pri in E2; [|easy].
  repeat split; cbn [b_vs b_es b_fs]; auto. apply Forall_app. split; [easy|]. now repeat constructor.
Qed.
Lemma fold_pri ts : forall b, pristine b -> pristine (fold_left (face_insert veq) ts b).
Proof. induction ts as [|t ts IH]; intros b P; cbn; [easy|]. now apply IH, insert_pri. Qed.
End BC.
