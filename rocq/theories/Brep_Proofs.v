(** * Brep_Proofs: one truncation, step by step. *)

From Coq Require Import Bool List Arith Lia Field.
From Verif Require Import Num NumFacts Vec VecFacts Brep_Model Brep_Spec Brep_Geo.
Import ListNotations.

Section BP.
Context {F : Type} {N : Num F} {L : NumLaws F N}.
Add Field FFieldBP : num_field.
Local Open Scope num_scope.
Variables (tol : F) (pl : plane F).
Hypothesis tol_pos : 0 < tol.

Implicit Types (vs : list (vtx F)) (es : list edge) (f g : face F) (e : edge) (x : vec3 F).

(** ** Distances *)

Definition dok (v : vtx F) : Prop := b_dis v = false ->
  (b_d v = side pl (b_p v) /\ (side pl (b_p v) < tol -> b_d v <= 0)) \/ b_d v = 0 /\ - tol < side pl (b_p v) /\ side pl (b_p v) < tol.

Lemma bb1_dok v : dok (bb1 tol pl v).
Proof.
  unfold dok, bb1. destruct (b_dis v) eqn:D; [congruence|]. intros _. cbn [b_d b_p]. fold (side pl (b_p v)).
  destruct (ntiny tol (side pl (b_p v))) eqn:T; [right|left].
  2:{ split; [easy|]. intros S. destruct (nle_or_lt (side pl (b_p v)) 0) as [P|P]; [easy|]. unfold ntiny in T.
      apply nltb_ge in T. rewrite nabs_pos in T by now apply nlt_le. apply nlt_nle in S. contradiction. }
  split; [easy|].
  unfold ntiny in T. apply nltb_lt in T. destruct (nle_or_lt 0 (side pl (b_p v))) as [P|P].
  - rewrite nabs_pos in T by easy. split; [|easy]. apply (nlt_le_trans _ 0); [|easy].
    apply nlt_sub. now replace (0 - - tol) with tol by ring.
  - rewrite nabs_neg in T by easy. split; [|now apply (nlt_trans _ 0)].
    apply nlt_sub. apply nlt_sub in T. now replace (tol - - side pl (b_p v)) with (side pl (b_p v) - - tol) in T by ring.
Qed.

Lemma dok_neg v : dok v -> b_dis v = false -> b_d v < 0 -> side pl (b_p v) = b_d v.
Proof. intros K A D. destruct (K A) as [[E _]|[E _]]; [now symmetry|]. rewrite E in D. now apply nlt_irrefl in D. Qed.
Lemma dok_pos v : dok v -> b_dis v = false -> 0 < b_d v -> side pl (b_p v) = b_d v.
Proof. intros K A D. destruct (K A) as [[E _]|[E _]]; [now symmetry|]. rewrite E in D. now apply nlt_irrefl in D. Qed.
Lemma dok_far v : dok v -> b_dis v = false -> 0 <= b_d v -> - tol < side pl (b_p v).
Proof.
  intros K A D. destruct (K A) as [[E _]|[_ [E _]]]; [|easy]. rewrite <- E. apply (nlt_le_trans _ 0); [|easy].
  apply nlt_sub. now replace (0 - - tol) with tol by ring.
Qed.
Lemma dok_near v : dok v -> b_dis v = false -> b_d v <= 0 -> side pl (b_p v) <= tol.
Proof.
  intros K A D. destruct (K A) as [[E _]|[_ [_ E]]]; [|now apply nlt_le]. rewrite <- E. apply (nle_trans _ 0); [easy|]. now apply nlt_le.
Qed.

Lemma dok_keep v : dok v -> b_dis v = false -> side pl (b_p v) < tol -> b_d v <= 0.
Proof. intros K A D. destruct (K A) as [[_ E]|[E _]]; [now apply E|]. rewrite E. apply nle_refl. Qed.

(** ** Edges *)

Definition ends e (i j : nat) : Prop := g_0 e = i /\ g_1 e = j \/ g_0 e = j /\ g_1 e = i.
Lemma ends_sym e i j : ends e i j -> ends e j i.
Proof. unfold ends. tauto. Qed.

(** A live vertex. *)
Definition lv vs (i : nat) (v : vtx F) : Prop := nth_error vs i = Some v /\ b_dis v = false.
Lemma lv_fun vs i u v : lv vs i u -> lv vs i v -> u = v.
Proof. intros [A _] [B _]. congruence. Qed.
Lemma lv_app vs ns i v : lv vs i v -> lv (vs ++ ns) i v.
Proof. intros [A B]. split; [|easy]. rewrite nth_error_app1; [easy|]. apply nth_error_Some. congruence. Qed.

Definition eok vs e : Prop := g_dis e = false -> exists u0 u1, lv vs (g_0 e) u0 /\ lv vs (g_1 e) u1 /\
  match g_cut e with
  | None => ~ opposite (b_d u0) (b_d u1)
  | Some k => opposite (b_d u0) (b_d u1) /\ exists v, lv vs k v /\ b_d v = 0 /\ b_p v = cp (b_d u0) (b_d u1) (b_p u0) (b_p u1)
  end.

Lemma eok_app vs ns e : eok vs e -> eok (vs ++ ns) e.
Proof.
  intros K D. destruct (K D) as (u0 & u1 & A & B & C). exists u0, u1. split; [now apply lv_app|]. split; [now apply lv_app|].
  destruct (g_cut e) as [k|]; [|easy]. destruct C as [O (v & V & W)]. split; [easy|]. exists v. split; [now apply lv_app|easy].
Qed.

(** What an edge is after the shrinkage. *)
Definition sh vs e : edge := match shrink1 vs e with Some e' => e' | None => e end.

Lemma shrink_some vs e : eok vs e -> shrink1 vs e = Some (sh vs e).
Proof.
  intros K. unfold sh, shrink1. destruct (g_dis e) eqn:D; [easy|]. destruct (g_cut e); [|easy].
  destruct (K D) as (u0 & u1 & [A _] & _). now rewrite A.
Qed.

Lemma cut_get vs e i j ui uj : eok vs e -> g_dis e = false -> ends e i j -> lv vs i ui -> lv vs j uj -> 0 < b_d ui -> b_d uj < 0 ->
  exists k v, g_cut e = Some k /\ lv vs k v /\ b_d v = 0 /\ b_p v = cp (b_d ui) (b_d uj) (b_p ui) (b_p uj) /\ ends (sh vs e) k j.
Proof.
  intros K D E I J P Q. destruct (K D) as (u0 & u1 & A & B & C). unfold sh, shrink1. rewrite D.
  assert (NQ : nltb 0 (b_d uj) = false) by (apply nltb_ge; now apply nlt_le).
  destruct E as [[E0 E1]|[E0 E1]]; rewrite E0 in *; rewrite E1 in *.
  - pose proof (lv_fun _ _ _ _ A I); pose proof (lv_fun _ _ _ _ B J); subst u0 u1. destruct (g_cut e) as [k|].
    + destruct C as [O (v & V & D0 & W)]. exists k, v. repeat split; try apply V; try easy.
      destruct I as [I _]. rewrite I. apply nltb_lt in P. rewrite P. left. cbn. auto.
    + destruct C. right. auto.
  - pose proof (lv_fun _ _ _ _ A J); pose proof (lv_fun _ _ _ _ B I); subst u0 u1. destruct (g_cut e) as [k|].
    + destruct C as [O (v & V & D0 & W)]. exists k, v. repeat split; try apply V; try easy.
      * rewrite W. now apply cp_sym.
      * destruct J as [J _]. rewrite J, NQ. right. cbn. auto.
    + destruct C. left. auto.
Qed.

Lemma nocut_get vs e i j ui uj : eok vs e -> g_dis e = false -> ends e i j -> lv vs i ui -> lv vs j uj -> ~ opposite (b_d ui) (b_d uj) ->
  sh vs e = e.
Proof.
  intros K D E I J O. destruct (K D) as (u0 & u1 & A & B & C). unfold sh, shrink1. rewrite D.
  destruct (g_cut e) as [k|] eqn:Ec; [|easy]. destruct C as [C _]. exfalso. apply O.
  destruct E as [[E0 E1]|[E0 E1]]; rewrite E0 in *; rewrite E1 in *.
  - now rewrite (lv_fun _ _ _ _ I A), (lv_fun _ _ _ _ J B).
  - rewrite (lv_fun _ _ _ _ I B), (lv_fun _ _ _ _ J A). now apply opp_sym.
Qed.

(** ** Intersection *)

Definition same_edge e e' : Prop := g_0 e' = g_0 e /\ g_1 e' = g_1 e /\ g_dis e' = g_dis e.
Definition newv (v : vtx F) : Prop := b_dis v = false /\ b_d v = 0 /\ side pl (b_p v) = 0.

Lemma opp_sides u v : dok u -> dok v -> b_dis u = false -> b_dis v = false -> opposite (b_d u) (b_d v) ->
  b_d u = side pl (b_p u) /\ b_d v = side pl (b_p v).
Proof. intros U V A B [[C D]|[C D]]; split; symmetry; auto using dok_neg, dok_pos. Qed.

Lemma dok_new v : newv v -> dok v.
Proof. intros (A & B & C) _. left. rewrite B, C. split; [easy|]. intros _. apply nle_refl. Qed.

Lemma intersect_ok es : forall vs, Forall dok vs ->
  (forall e, In e es -> g_dis e = false -> g_cut e = None /\ (exists u, lv vs (g_0 e) u) /\ (exists u, lv vs (g_1 e) u)) ->
  exists ns es', intersect vs es = Some (vs ++ ns, es') /\ Forall newv ns /\ Forall2 same_edge es es' /\ Forall (eok (vs ++ ns)) es'.
Proof.
  induction es as [|e tl IH]; intros vs V H.
  - exists [], []. cbn. rewrite app_nil_r. auto.
  - cbn [intersect]. destruct (g_dis e) eqn:D.
    + destruct (IH vs V) as (ns & es' & E & A & B & C); [intros; apply H; [now right|easy]|]. rewrite E.
      exists ns, (e :: es'). repeat split; auto.
      * constructor; [|easy]. now repeat split.
      * constructor; [|easy]. intros D'. congruence.
    + destruct (H e (or_introl eq_refl) D) as (CN & (u0 & U0) & (u1 & U1)).
      rewrite (proj1 U0), (proj1 U1). destruct (nltb (b_d u0 * b_d u1) 0) eqn:O.
      * apply opp_dec in O. rewrite (interdiv_cp _ _ _ _ O).
        set (v := Vx (cp (b_d u0) (b_d u1) (b_p u0) (b_p u1)) 0 false false).
        assert (NV : newv v).
        { repeat split. cbn [b_p v]. unfold v. cbn [b_p].
          rewrite Forall_forall in V. destruct (opp_sides u0 u1) as [E0 E1]; auto;
            try (apply V; eapply nth_error_In; (apply U0 || apply U1)); try apply U0; try apply U1.
          rewrite E0, E1 in O |- *. now apply cp_on. }
        assert (V' : Forall dok (vs ++ [v])) by (apply Forall_app; split; [easy|]; constructor; [now apply dok_new|constructor]).
        destruct (IH (vs ++ [v]) V') as (ns & es' & E & A & B & C).
        { intros e' I D'. destruct (H e' (or_intror I) D') as (X & (a & Y) & (b & Z)).
          split; [easy|]. split; [exists a|exists b]; now apply lv_app. }
        rewrite E. exists (v :: ns), (set_cut (Some (length vs)) e :: es').
        rewrite <- !app_assoc in *. cbn [app] in *. repeat split; auto.
        -- constructor; [|easy]. now repeat split.
        -- constructor; [|easy]. intros _. cbn [set_cut g_0 g_1 g_cut]. exists u0, u1.
           split; [now apply lv_app|]. split; [now apply lv_app|]. split; [easy|].
           exists v. repeat split. rewrite nth_error_app2 by lia. now rewrite Nat.sub_diag.
      * destruct (IH vs V) as (ns & es' & E & A & B & C); [intros; apply H; [now right|easy]|]. rewrite E.
        exists ns, (e :: es'). repeat split; auto.
        -- constructor; [|easy]. now repeat split.
        -- constructor; [|easy]. intros _. exists u0, u1. split; [now apply lv_app|]. split; [now apply lv_app|].
           rewrite CN. intros Z. apply opp_dec in Z. congruence.
Qed.

(** ** Faces *)

Inductive perm3 : nat -> nat -> nat -> Prop :=
| p012 : perm3 0 1 2 | p120 : perm3 1 2 0 | p201 : perm3 2 0 1
| p021 : perm3 0 2 1 | p102 : perm3 1 0 2 | p210 : perm3 2 1 0.

Lemma perm_cover (P : nat -> nat -> nat -> Prop) i1 i2 i3 : perm3 i1 i2 i3 -> (forall i j k, P i j k -> P i k j) ->
  P i1 i2 i3 -> P i2 i3 i1 -> P i3 i1 i2 -> forall i j k, perm3 i j k -> P i j k.
Proof. intros [] S A B C i j k []; auto. Qed.

Lemma t3get_set {A} (t : t3 A) i j (a : A) : (i < 3)%nat -> (j < 3)%nat -> t3get (t3set t i a) j = if Nat.eqb i j then a else t3get t j.
Proof. destruct t as [[a0 a1] a2]. destruct i as [|[|[|i]]]; destruct j as [|[|[|j]]]; cbn; try easy; lia. Qed.

(** An edge and the vertices it joins. *)
Definition ej es (k i j : nat) : Prop := exists e, nth_error es k = Some e /\ g_dis e = false /\ ends e i j.
Definition aj vs es (k i j : nat) : Prop := exists e, nth_error es k = Some e /\ g_dis e = false /\ ends (sh vs e) i j.

Definition corn vs f (C : nat -> vtx F) : Prop := forall i, (i < 3)%nat -> lv vs (t3get (h_v f) i) (C i).

Definition fok vs es f : Prop := h_dis f = false -> (exists C, corn vs f C) /\
  forall i j k, perm3 i j k -> ej es (t3get (h_e f) i) (t3get (h_v f) j) (t3get (h_v f) k).
Definition aok vs es f : Prop := h_dis f = false -> (exists C, corn vs f C /\ forall i, (i < 3)%nat -> b_d (C i) <= 0) /\
  forall i j k, perm3 i j k -> aj vs es (t3get (h_e f) i) (t3get (h_v f) j) (t3get (h_v f) k).

Lemma ej_app es ns k i j : ej es k i j -> ej (es ++ ns) k i j.
Proof. intros (e & A & B). exists e. split; [|easy]. rewrite nth_error_app1; [easy|]. apply nth_error_Some. congruence. Qed.
Lemma aj_app vs es ns k i j : aj vs es k i j -> aj vs (es ++ ns) k i j.
Proof. intros (e & A & B). exists e. split; [|easy]. rewrite nth_error_app1; [easy|]. apply nth_error_Some. congruence. Qed.
Lemma aj_sym vs es k i j : aj vs es k i j -> aj vs es k j i.
Proof. intros (e & A & B & C). exists e. repeat split; auto. now apply ends_sym. Qed.
Lemma fok_app vs es ns f : fok vs es f -> fok vs (es ++ ns) f.
Proof. intros K D. destruct (K D) as [A B]. split; [easy|]. intros. now apply ej_app, B. Qed.
Lemma aok_app vs es ns f : aok vs es f -> aok vs (es ++ ns) f.
Proof. intros K D. destruct (K D) as [A B]. split; [easy|]. intros. now apply aj_app, B. Qed.

(** The points of a face. *)
Definition tri vs f x : Prop := exists C, corn vs f C /\ in_tri (b_p (C 0%nat)) (b_p (C 1%nat)) (b_p (C 2%nat)) x.

Lemma corn_fun vs f C D i : corn vs f C -> corn vs f D -> (i < 3)%nat -> C i = D i.
Proof. intros A B H. exact (lv_fun _ _ _ _ (A i H) (B i H)). Qed.

Lemma tri_perm vs f C i j k x : corn vs f C -> perm3 i j k ->
  (tri vs f x <-> in_tri (b_p (C i)) (b_p (C j)) (b_p (C k)) x).
Proof.
  intros K P. assert (E : tri vs f x <-> in_tri (b_p (C 0%nat)) (b_p (C 1%nat)) (b_p (C 2%nat)) x).
  { split.
    - intros (D & K' & T). now rewrite (corn_fun _ _ _ _ 0%nat K K'), (corn_fun _ _ _ _ 1%nat K K'), (corn_fun _ _ _ _ 2%nat K K') by lia.
    - intros T. now exists C. }
  rewrite E. destruct P; split; intros T; auto.
  all: try (now apply tri_rot). all: try (now apply tri_rot, tri_rot). all: try (now apply tri_swap).
  all: try (now apply tri_rot, tri_swap). all: try (now apply tri_swap, tri_rot).
  all: try (now apply tri_rot, tri_rot, tri_swap).
Qed.

(** The edges inserted for a face. *)
Definition newe vs e : Prop := g_dis e = false /\ g_cut e = None /\
  exists u v, lv vs (g_0 e) u /\ lv vs (g_1 e) v /\ b_d u <= 0 /\ b_d v <= 0.

Lemma nonpos_opp (a b : F) : a <= 0 -> b <= 0 -> ~ opposite a b.
Proof. intros A B [[_ C]|[C _]]; apply nlt_nle in C; auto. Qed.

Lemma newe_eok vs e : newe vs e -> eok vs e.
Proof. intros (A & B & u & v & U & V & P & Q) _. exists u, v. rewrite B. auto using nonpos_opp. Qed.
Lemma newe_sh vs e : newe vs e -> sh vs e = e.
Proof. intros (A & B & _). unfold sh, shrink1. now rewrite A, B. Qed.

(** The face g faces the way f does. *)
Definition alike vs g f : Prop := exists D C, corn vs g D /\ corn vs f C /\
  toward (facing (b_p (D 0%nat)) (b_p (D 1%nat)) (b_p (D 2%nat))) (facing (b_p (C 0%nat)) (b_p (C 1%nat)) (b_p (C 2%nat))) /\
  (h_norm g = h_norm f \/ h_norm g = v3zero).

Lemma toward_perm (a b : nat -> vec3 F) i j k : perm3 i j k -> toward (facing (a i) (a j) (a k)) (facing (b i) (b j) (b k)) ->
  toward (facing (a 0%nat) (a 1%nat) (a 2%nat)) (facing (b 0%nat) (b 1%nat) (b 2%nat)).
Proof.
  assert (R : forall p q r p' q' r' : vec3 F, toward (facing q r p) (facing q' r' p') -> toward (facing p q r) (facing p' q' r')).
  { intros p q r p' q' r'. now rewrite (facing_rot p q r), (facing_rot p' q' r'). }
  assert (S : forall p q r p' q' r' : vec3 F, toward (facing q p r) (facing q' p' r') -> toward (facing p q r) (facing p' q' r')).
  { intros p q r p' q' r' H. rewrite (facing_swap p q r), (facing_swap p' q' r') in H. now apply toward_neg. }
  intros []; auto.
Qed.

(** What the reconfiguration of a face has to achieve. *)
Definition outcome vs es f (o : option reconf) : Prop :=
  exists more f' n, o = Some (es ++ more, f', n) /\ Forall (newe vs) more /\ Forall (aok vs (es ++ more)) (f' :: n) /\
    (forall x g, In g (f' :: n) -> h_dis g = false -> tri vs g x -> tri vs f x) /\
    (forall x, tri vs f x -> side pl x <= - tol -> exists g, In g (f' :: n) /\ h_dis g = false /\ tri vs g x) /\
    (forall g, In g (f' :: n) -> h_dis g = false -> alike vs g f) /\
    (forall C, corn vs f C -> (forall i, (i < 3)%nat -> side pl (b_p (C i)) < tol) -> f' = f /\ n = []).

Section Face.
Variables (vs : list (vtx F)) (es : list edge) (f : face F) (C : nat -> vtx F).
Hypothesis VS : Forall dok vs.
Hypothesis ES : Forall (eok vs) es.
Hypothesis FL : h_dis f = false.
Hypothesis FC : corn vs f C.
Hypothesis FE : forall i j k, perm3 i j k -> ej es (t3get (h_e f) i) (t3get (h_v f) j) (t3get (h_v f) k).

Lemma lv_dok i v : lv vs i v -> dok v.
Proof. intros [A _]. rewrite Forall_forall in VS. apply VS. eapply nth_error_In, A. Qed.

Lemma es_eok k e : nth_error es k = Some e -> eok vs e.
Proof. intros A. rewrite Forall_forall in ES. apply ES. eapply nth_error_In, A. Qed.

Lemma perm_lt i j k : perm3 i j k -> (i < 3 /\ j < 3 /\ k < 3)%nat.
Proof. intros []; lia. Qed.
Lemma perm_neq i j k : perm3 i j k -> (i <> j /\ j <> k /\ k <> i)%nat.
Proof. intros []; lia. Qed.
Lemma perm_rot i j k : perm3 i j k -> perm3 j k i.
Proof. intros []; constructor. Qed.
Lemma perm_sw i j k : perm3 i j k -> perm3 i k j.
Proof. intros []; constructor. Qed.

Lemma side_neg i : (i < 3)%nat -> b_d (C i) < 0 -> side pl (b_p (C i)) = b_d (C i).
Proof. intros I D. apply dok_neg; auto; [exact (lv_dok _ _ (FC i I))|apply (FC i I)]. Qed.
Lemma side_pos i : (i < 3)%nat -> 0 < b_d (C i) -> side pl (b_p (C i)) = b_d (C i).
Proof. intros I D. apply dok_pos; auto; [exact (lv_dok _ _ (FC i I))|apply (FC i I)]. Qed.
Lemma side_far i : (i < 3)%nat -> 0 <= b_d (C i) -> - tol < side pl (b_p (C i)).
Proof. intros I D. apply dok_far; auto; [exact (lv_dok _ _ (FC i I))|apply (FC i I)]. Qed.

(** The cut of the edge from a corner beyond to one beneath. *)
Lemma cut_edge i j k : perm3 i j k -> 0 < b_d (C j) -> b_d (C k) < 0 ->
  exists p v, cut_of es (t3get (h_e f) i) = Some p /\ lv vs p v /\ b_d v = 0 /\
    b_p v = cp (side pl (b_p (C j))) (side pl (b_p (C k))) (b_p (C j)) (b_p (C k)) /\
    aj vs es (t3get (h_e f) i) p (t3get (h_v f) k).
Proof.
  intros P A B. destruct (perm_lt _ _ _ P) as (Hi & Hj & Hk). destruct (FE _ _ _ P) as (e & E & D & En).
  destruct (cut_get vs e _ _ _ _ (es_eok _ _ E) D En (FC j Hj) (FC k Hk) A B) as (p & v & X & V & Z & W & Y).
  exists p, v. unfold cut_of. rewrite E. repeat split; try apply V; auto.
  - now rewrite (side_pos j), (side_neg k).
  - exists e. auto.
Qed.

Lemma keep_edge i j k : perm3 i j k -> b_d (C j) <= 0 -> b_d (C k) <= 0 -> aj vs es (t3get (h_e f) i) (t3get (h_v f) j) (t3get (h_v f) k).
Proof.
  intros P A B. destruct (perm_lt _ _ _ P) as (Hi & Hj & Hk). destruct (FE _ _ _ P) as (e & E & D & En).
  exists e. repeat split; auto. now rewrite (nocut_get vs e _ _ _ _ (es_eok _ _ E) D En (FC j Hj) (FC k Hk) (nonpos_opp _ _ A B)).
Qed.

Lemma keep_ok : (forall i, (i < 3)%nat -> b_d (C i) <= 0) -> outcome vs es f (Some (es, f, [])).
Proof.
  intros A. exists [], f, []. rewrite app_nil_r. repeat split; auto.
  - constructor; [|constructor]. intros _. split; [now exists C|]. intros i j k P. destruct (perm_lt _ _ _ P) as (Hi & Hj & Hk).
    apply keep_edge; auto.
  - now intros x g [<-|[]].
  - intros x T _. exists f. cbn. auto.
  - intros g [<-|[]] _. exists C, C. split; [exact FC|]. split; [exact FC|]. split; [apply toward_refl|now left].
Qed.

(** A face with a corner beyond is not one that has to be kept. *)
Lemma beyond_drop i (Q : Prop) : (i < 3)%nat -> 0 < b_d (C i) ->
  forall D, corn vs f D -> (forall j, (j < 3)%nat -> side pl (b_p (D j)) < tol) -> Q.
Proof.
  intros I A D K S. exfalso. specialize (S i I). rewrite <- (corn_fun _ _ _ _ i FC K I) in S.
  apply (dok_keep (C i)) in S; [apply nlt_nle in A; contradiction|exact (lv_dok _ _ (FC i I))|apply (FC i I)].
Qed.

Lemma disc_ok k : (k < 3)%nat -> 0 < b_d (C k) -> (forall i, (i < 3)%nat -> 0 <= b_d (C i)) -> outcome vs es f (Some (es, face_dis f, [])).
Proof.
  intros Kk Dk A. exists [], (face_dis f), []. rewrite app_nil_r. repeat split; auto.
  - constructor; [|constructor]. discriminate.
  - intros x g [<-|[]]. discriminate.
  - intros x (D & K & T) H. exfalso. apply (nlt_irrefl (side pl x)). apply (nle_lt_trans _ (- tol)); [easy|].
    refine (tri_none pl _ _ _ _ _ _ _ _ T); rewrite <- (corn_fun _ _ _ _ _ FC K) by lia; apply side_far; auto.
  - intros g [<-|[]]. discriminate.
  - eapply (beyond_drop k); eauto.
Qed.

Lemma aj_new k e i j : nth_error es k = Some e -> newe vs e -> ends e i j -> aj vs es k i j.
Proof. intros A B E. exists e. split; [easy|]. split; [apply B|]. now rewrite newe_sh. Qed.
End Face.

Lemma nth_last {A} (l : list A) (x : A) : nth_error (l ++ [x]) (length l) = Some x.
Proof. rewrite nth_error_app2 by lia. now rewrite Nat.sub_diag. Qed.
Lemma nth_last2 {A} (l : list A) (x y : A) : nth_error (l ++ [x; y]) (S (length l)) = Some y.
Proof. rewrite nth_error_app2 by lia. replace (S (length l) - length l)%nat with 1%nat by lia. easy. Qed.
Lemma nth_last1 {A} (l : list A) (x y : A) : nth_error (l ++ [x; y]) (length l) = Some x.
Proof. rewrite nth_error_app2 by lia. now rewrite Nat.sub_diag. Qed.

Ltac t3s := rewrite ?t3get_set by lia; rewrite ?Nat.eqb_refl;
  repeat match goal with |- context [Nat.eqb ?a ?b] => replace (Nat.eqb a b) with false by (symmetry; apply Nat.eqb_neq; lia) end.

Ltac seg := solve [now apply cp_seg | now apply tri_rot, cp_seg | now apply tri_rot, tri_rot, cp_seg
  | now apply tri_swap, cp_seg | now apply tri_swap, tri_rot, cp_seg | now apply tri_swap, tri_rot, tri_rot, cp_seg].

Section Face2.
Variables (vs : list (vtx F)) (es : list edge) (f : face F) (C : nat -> vtx F).
Hypothesis VS : Forall dok vs.
Hypothesis ES : Forall (eok vs) es.
Hypothesis FL : h_dis f = false.
Hypothesis FC : corn vs f C.
Hypothesis FE : forall i j k, perm3 i j k -> ej es (t3get (h_e f) i) (t3get (h_v f) j) (t3get (h_v f) k).
Variables (i1 i2 i3 : nat).
Hypothesis P : perm3 i1 i2 i3.

Local Notation sd i := (side pl (b_p (C i))).

(** A function given on the three indices. *)
Definition fn3 (a b c : vtx F) (i : nat) : vtx F := if Nat.eqb i i1 then a else if Nat.eqb i i2 then b else c.
Lemma fn3_1 a b c : fn3 a b c i1 = a.
Proof. unfold fn3. now rewrite Nat.eqb_refl. Qed.
Lemma fn3_2 a b c : fn3 a b c i2 = b.
Proof. destruct (perm_neq _ _ _ P) as (X & Y & Z). unfold fn3. rewrite Nat.eqb_refl. now rewrite (proj2 (Nat.eqb_neq i2 i1)) by congruence. Qed.
Lemma fn3_3 a b c : fn3 a b c i3 = c.
Proof.
  destruct (perm_neq _ _ _ P) as (X & Y & Z). unfold fn3. rewrite (proj2 (Nat.eqb_neq i3 i1)) by congruence.
  now rewrite (proj2 (Nat.eqb_neq i3 i2)) by congruence.
Qed.
Lemma all3 (Q : nat -> Prop) : Q i1 -> Q i2 -> Q i3 -> forall i, (i < 3)%nat -> Q i.
Proof. intros A B D i H. destruct P; destruct i as [|[|[|i]]]; auto; lia. Qed.

Lemma e_ok : b_d (C i1) = 0 -> b_d (C i2) < 0 -> 0 < b_d (C i3) -> outcome vs es f (face_e es f i1 i2 i3).
Proof.
  intros D1 D2 D3. destruct (perm_lt _ _ _ P) as (L1 & L2 & L3). destruct (perm_neq _ _ _ P) as (N1 & N2 & N3).
  destruct (cut_edge vs es f C VS ES FC FE i1 i3 i2 (perm_sw _ _ _ P) D3 D2) as (p & v & E & V & D & W & J).
  unfold face_e. rewrite E. set (e4 := edge_new _ _). set (f' := face_set _ _ _).
  assert (NE : newe vs e4).
  { repeat split. exists (C i1), v. repeat split; try apply V; try apply (FC i1 L1); cbn; rewrite ?D1, ?D; apply nle_refl. }
  assert (FC' : corn vs f' (fn3 (C i1) (C i2) v)).
  { unfold corn. apply all3; cbn [f' face_set h_v]; t3s; rewrite ?fn3_1, ?fn3_2, ?fn3_3; auto. }
  assert (OP : opposite (sd i3) (sd i2)).
  { rewrite (side_pos vs f C VS FC i3 L3 D3), (side_neg vs f C VS FC i2 L2 D2). right. auto. }
  exists [e4], f', []. repeat split; auto.
  - constructor; [|constructor]. intros _. split.
    + exists (fn3 (C i1) (C i2) v). split; [easy|]. apply all3; rewrite ?fn3_1, ?fn3_2, ?fn3_3, ?D1, ?D; auto using nle_refl, nlt_le.
    + refine (perm_cover (fun i j k => aj _ _ (t3get (h_e f') i) (t3get (h_v f') j) (t3get (h_v f') k)) i1 i2 i3 P _ _ _ _); [intros; now apply aj_sym| | |]; cbn [f' face_set h_v h_e]; t3s.
      * apply aj_sym, aj_app, J.
      * eapply aj_new with (e := e4); [apply nth_last|exact NE|]. right. easy.
      * apply aj_app, (keep_edge vs es f C ES FC FE _ _ _ (perm_rot _ _ _ (perm_rot _ _ _ P))); [rewrite D1; apply nle_refl|now apply nlt_le].
  - intros x g [<-|[]] _ T. rewrite (tri_perm _ _ _ _ _ _ _ FC' P) in T. rewrite fn3_1, fn3_2, fn3_3 in T.
    apply (tri_perm _ _ _ _ _ _ _ FC P). revert T. apply tri_sub; [apply tri_c0|apply tri_c1|].
    rewrite W. seg.
  - intros x T H. exists f'. split; [now left|]. split; [easy|]. apply (tri_perm _ _ _ _ _ _ _ FC' P).
    rewrite fn3_1, fn3_2, fn3_3. rewrite W, cp_sym by easy.
    apply (tri_perm _ _ _ _ _ _ _ FC P) in T. apply (tri_e pl tol); auto.
    + now apply nlt_le.
    + apply nlt_le. apply (side_far vs f C VS FC i1 L1). rewrite D1. apply nle_refl.
    + now rewrite (side_neg vs f C VS FC i2 L2 D2).
    + now rewrite (side_pos vs f C VS FC i3 L3 D3).
  - intros g [<-|[]] _. exists (fn3 (C i1) (C i2) v), C. repeat split; [apply FC'; easy|apply FC'; easy|apply FC; easy|apply FC; easy| |now left].
    apply (toward_perm (fun i => b_p (fn3 (C i1) (C i2) v i)) (fun i => b_p (C i)) _ _ _ P). rewrite fn3_1, fn3_2, fn3_3, W.
    rewrite (side_pos vs f C VS FC i3 L3 D3), (side_neg vs f C VS FC i2 L2 D2). now apply facing_e.
  - eapply (beyond_drop vs f C VS FC i3); eauto.
Qed.

Lemma v_ok : b_d (C i1) < 0 -> 0 < b_d (C i2) -> 0 < b_d (C i3) -> outcome vs es f (face_v es f i1 i2 i3).
Proof.
  intros D1 D2 D3. destruct (perm_lt _ _ _ P) as (L1 & L2 & L3). destruct (perm_neq _ _ _ P) as (N1 & N2 & N3).
  destruct (cut_edge vs es f C VS ES FC FE i3 i2 i1 (perm_sw _ _ _ (perm_rot _ _ _ (perm_rot _ _ _ P))) D2 D1) as (p & v & E & V & D & W & J).
  destruct (cut_edge vs es f C VS ES FC FE i2 i3 i1 (perm_rot _ _ _ P) D3 D1) as (q & w & E' & V' & D' & W' & J').
  unfold face_v. rewrite E, E'. set (e4 := edge_new _ _). set (f' := face_set _ _ _).
  assert (NE : newe vs e4).
  { repeat split. exists v, w. repeat split; try apply V; try apply V'; rewrite ?D', ?D; apply nle_refl. }
  assert (FC' : corn vs f' (fn3 (C i1) v w)).
  { unfold corn. apply all3; cbn [f' face_set h_v]; t3s; rewrite ?fn3_1, ?fn3_2, ?fn3_3; auto. }
  assert (O2 : opposite (sd i2) (sd i1)).
  { rewrite (side_pos vs f C VS FC i2 L2 D2), (side_neg vs f C VS FC i1 L1 D1). right. auto. }
  assert (O3 : opposite (sd i3) (sd i1)).
  { rewrite (side_pos vs f C VS FC i3 L3 D3), (side_neg vs f C VS FC i1 L1 D1). right. auto. }
  exists [e4], f', []. repeat split; auto.
  - constructor; [|constructor]. intros _. split.
    + exists (fn3 (C i1) v w). split; [easy|]. apply all3; rewrite ?fn3_1, ?fn3_2, ?fn3_3, ?D', ?D; auto using nle_refl, nlt_le.
    + refine (perm_cover (fun i j k => aj _ _ (t3get (h_e f') i) (t3get (h_v f') j) (t3get (h_v f') k)) i1 i2 i3 P _ _ _ _); [intros; now apply aj_sym| | |]; cbn [f' face_set h_v h_e]; t3s.
      * eapply aj_new with (e := e4); [apply nth_last|exact NE|]. left. easy.
      * apply aj_app, J'.
      * apply aj_sym, aj_app, J.
  - intros x g [<-|[]] _ T. rewrite (tri_perm _ _ _ _ _ _ _ FC' P) in T. rewrite fn3_1, fn3_2, fn3_3 in T.
    apply (tri_perm _ _ _ _ _ _ _ FC P). revert T. apply tri_sub; [apply tri_c0| |].
    + rewrite W. seg.
    + rewrite W'. seg.
  - intros x T H. exists f'. split; [now left|]. split; [easy|]. apply (tri_perm _ _ _ _ _ _ _ FC' P).
    rewrite fn3_1, fn3_2, fn3_3. rewrite W, W', (cp_sym (sd i2)) by easy.
    apply (tri_perm _ _ _ _ _ _ _ FC P) in T. apply tri_v; auto.
    + now rewrite (side_neg vs f C VS FC i1 L1 D1).
    + now rewrite (side_pos vs f C VS FC i2 L2 D2).
    + now rewrite (side_pos vs f C VS FC i3 L3 D3).
    + apply (nle_trans _ (- tol)); [easy|]. apply nle_opp0. replace (- - tol) with tol by ring. now apply nlt_le.
  - intros g [<-|[]] _. exists (fn3 (C i1) v w), C. repeat split; [apply FC'; easy|apply FC'; easy|apply FC; easy|apply FC; easy| |now left].
    apply (toward_perm (fun i => b_p (fn3 (C i1) v w i)) (fun i => b_p (C i)) _ _ _ P). rewrite fn3_1, fn3_2, fn3_3, W, W'.
    rewrite (side_pos vs f C VS FC i2 L2 D2), (side_pos vs f C VS FC i3 L3 D3), (side_neg vs f C VS FC i1 L1 D1). now apply facing_v.
  - eapply (beyond_drop vs f C VS FC i2); eauto.
Qed.

(** The three rotations. *)
Definition rot3 : Prop := facing (b_p (C i1)) (b_p (C i2)) (b_p (C i3)) = facing (b_p (C 0%nat)) (b_p (C 1%nat)) (b_p (C 2%nat)).

Lemma a_ok : rot3 -> 0 < b_d (C i1) -> b_d (C i2) < 0 -> b_d (C i3) < 0 -> outcome vs es f (face_a es f i1 i2 i3).
Proof.
  intros RT D1 D2 D3. destruct (perm_lt _ _ _ P) as (L1 & L2 & L3). destruct (perm_neq _ _ _ P) as (N1 & N2 & N3).
  destruct (cut_edge vs es f C VS ES FC FE i2 i1 i3 (perm_sw _ _ _ (perm_rot _ _ _ P)) D1 D3) as (p & v & E & V & D & W & J).
  destruct (cut_edge vs es f C VS ES FC FE i3 i1 i2 (perm_rot _ _ _ (perm_rot _ _ _ P)) D1 D2) as (q & w & E' & V' & D' & W' & J').
  unfold face_a. rewrite E, E'. set (e4 := edge_new p q). set (e5 := edge_new p _). set (f' := face_set _ _ _). set (up := Fc _ _ _ _ _ _ _).
  assert (NE4 : newe vs e4).
  { repeat split. exists v, w. repeat split; try apply V; try apply V'; rewrite ?D', ?D; apply nle_refl. }
  assert (NE5 : newe vs e5).
  { repeat split. exists v, (C i2). repeat split; try apply V; try apply (FC i2 L2); rewrite ?D; auto using nle_refl, nlt_le. }
  assert (FC' : corn vs f' (fn3 v (C i2) (C i3))).
  { unfold corn. apply all3; cbn [f' face_set h_v]; t3s; rewrite ?fn3_1, ?fn3_2, ?fn3_3; auto. }
  assert (UC : corn vs up (t3get (C i2, v, w))).
  { intros i Hi. destruct i as [|[|[|i]]]; cbn; auto; lia. }
  assert (O2 : opposite (sd i1) (sd i2)).
  { rewrite (side_pos vs f C VS FC i1 L1 D1), (side_neg vs f C VS FC i2 L2 D2). right. auto. }
  assert (O3 : opposite (sd i1) (sd i3)).
  { rewrite (side_pos vs f C VS FC i1 L1 D1), (side_neg vs f C VS FC i3 L3 D3). right. auto. }
  exists [e4; e5], f', [up]. repeat split; auto.
  - constructor; [|constructor; [|constructor]].
    + intros _. split.
      * exists (fn3 v (C i2) (C i3)). split; [easy|]. apply all3; rewrite ?fn3_1, ?fn3_2, ?fn3_3, ?D', ?D; auto using nle_refl, nlt_le.
      * refine (perm_cover (fun i j k => aj _ _ (t3get (h_e f') i) (t3get (h_v f') j) (t3get (h_v f') k)) i1 i2 i3 P _ _ _ _); [intros; now apply aj_sym| | |]; cbn [f' face_set h_v h_e]; t3s.
        -- apply aj_app, (keep_edge vs es f C ES FC FE _ _ _ P); now apply nlt_le.
        -- apply aj_sym, aj_app, J.
        -- eapply aj_new with (e := e5); [apply nth_last2|exact NE5|]. left. easy.
    + intros _. split.
      * exists (t3get (C i2, v, w)). split; [easy|]. intros i Hi. destruct i as [|[|[|i]]]; cbn; rewrite ?D, ?D'; auto using nle_refl, nlt_le; lia.
      * refine (perm_cover (fun i j k => aj _ _ (t3get (h_e up) i) (t3get (h_v up) j) (t3get (h_v up) k)) 0 1 2 p012 _ _ _ _); [intros; now apply aj_sym| | |]; cbn.
        -- eapply aj_new with (e := e4); [apply nth_last1|exact NE4|]. left. easy.
        -- apply aj_app, J'.
        -- eapply aj_new with (e := e5); [apply nth_last2|exact NE5|]. right. easy.
  - intros x g [<-|[<-|[]]] _ T; apply (tri_perm _ _ _ _ _ _ _ FC P).
    + rewrite (tri_perm _ _ _ _ _ _ _ FC' P) in T. rewrite fn3_1, fn3_2, fn3_3 in T. revert T. apply tri_sub; [|apply tri_c1|apply tri_c2].
      rewrite W. seg.
    + rewrite (tri_perm _ _ _ _ _ _ _ UC p012) in T. cbn in T. revert T. apply tri_sub; [apply tri_c1| |].
      * rewrite W. seg.
      * rewrite W'. seg.
  - intros x T H. apply (tri_perm _ _ _ _ _ _ _ FC P) in T. destruct (tri_a pl (b_p (C i1)) (b_p (C i2)) (b_p (C i3)) x) as [K|K]; [| | |exact T| | |].
    + now rewrite (side_pos vs f C VS FC i1 L1 D1).
    + now rewrite (side_neg vs f C VS FC i2 L2 D2).
    + now rewrite (side_neg vs f C VS FC i3 L3 D3).
    + apply (nle_trans _ (- tol)); [easy|]. apply nle_opp0. replace (- - tol) with tol by ring. now apply nlt_le.
    + exists f'. split; [now left|]. split; [easy|]. apply (tri_perm _ _ _ _ _ _ _ FC' P). rewrite fn3_1, fn3_2, fn3_3.
      now rewrite W, cp_sym.
    + exists up. split; [right; now left|]. split; [easy|]. apply (tri_perm _ _ _ _ _ _ _ UC p012). cbn.
      now rewrite W, cp_sym, W'.
  - intros g [<-|[<-|[]]] _.
    + exists (fn3 v (C i2) (C i3)), C. repeat split; [apply FC'; easy|apply FC'; easy|apply FC; easy|apply FC; easy| |now left].
      apply (toward_perm (fun i => b_p (fn3 v (C i2) (C i3) i)) (fun i => b_p (C i)) _ _ _ P). rewrite fn3_1, fn3_2, fn3_3, W.
      rewrite (side_pos vs f C VS FC i1 L1 D1), (side_neg vs f C VS FC i3 L3 D3). now apply facing_a.
    + exists (t3get (C i2, v, w)), C. repeat split; [apply UC; easy|apply UC; easy|apply FC; easy|apply FC; easy| |now right].
      cbn [t3get]. rewrite <- RT, W, W'.
      rewrite (side_pos vs f C VS FC i1 L1 D1), (side_neg vs f C VS FC i2 L2 D2), (side_neg vs f C VS FC i3 L3 D3). now apply facing_up.
  - eapply (beyond_drop vs f C VS FC i1); eauto.
  - eapply (beyond_drop vs f C VS FC i1); eauto.
Qed.
End Face2.

Lemma face_ok vs es f C : Forall dok vs -> Forall (eok vs) es -> h_dis f = false -> corn vs f C ->
  (forall i j k, perm3 i j k -> ej es (t3get (h_e f) i) (t3get (h_v f) j) (t3get (h_v f) k)) ->
  outcome vs es f (trunc_face vs es f).
Proof.
  intros VS ES FL FC FE. unfold trunc_face, face_code.
  assert (K : forall d : F, (pat d = 3%nat /\ d < 0) \/ (pat d = 1%nat /\ 0 < d) \/ (pat d = 0%nat /\ d = 0)).
  { intros d. unfold pat. destruct (nltb d 0) eqn:A; [left; now apply nltb_lt in A|right].
    destruct (nltb 0 d) eqn:B; [left; now apply nltb_lt in B|right]. split; [easy|]. apply nltb_ge in A, B. now apply nle_antisym. }
  pose proof (FC 0%nat ltac:(lia)) as [A0 _]. pose proof (FC 1%nat ltac:(lia)) as [A1 _]. pose proof (FC 2%nat ltac:(lia)) as [A2 _].
  destruct (h_v f) as [[a b] c] eqn:Hv. cbn [t3get] in A0, A1, A2. rewrite A0, A1, A2. rewrite <- Hv in *. clear a b c Hv A0 A1 A2.
  destruct (K (b_d (C 0%nat))) as [[-> S0]|[[-> S0]|[-> S0]]]; destruct (K (b_d (C 1%nat))) as [[-> S1]|[[-> S1]|[-> S1]]];
  destruct (K (b_d (C 2%nat))) as [[-> S2]|[[-> S2]|[-> S2]]]; cbn [Nat.add Nat.mul]; clear K.
  all: first
    [ eapply a_ok; eauto; [constructor|unfold rot3; first [reflexivity | apply facing_rot | etransitivity; apply facing_rot]] | eapply v_ok; eauto; constructor | eapply e_ok; eauto; constructor
    | eapply (keep_ok vs es f C); eauto; intros [|[|[|i]]] Hi; rewrite ?S0, ?S1, ?S2; auto using nle_refl, nlt_le; exfalso; lia
    | eapply (disc_ok vs es f C VS FC); cycle 1;
      [ first [exact S0 | exact S1 | exact S2] | intros [|[|[|i]]] Hi; rewrite ?S0, ?S1, ?S2; auto using nle_refl, nlt_le; exfalso; lia | lia ] ].
Qed.
End BP.
