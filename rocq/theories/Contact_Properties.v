(** * Contact_Properties: theorems C45 (lookup of contact information) and C64 (contact information in files). *)
From Coq Require Import String ZArith QArith Qcanon List Arith Lia Bool Permutation.
From Verif Require Import Num Contact_Model ExtQ.
Import ListNotations.
Local Open Scope nat_scope.

Section Thms.
Context {F : Type} {N : Num F}.

(** The pair of keys of an entry, in either order. *)
Definition pair_of (c : cinfo F) (a b : string) : Prop :=
  (ci_s0 c = Some a /\ ci_s1 c = Some b) \/ (ci_s0 c = Some b /\ ci_s1 c = Some a).
Definition bound (c : cinfo F) : Prop := ci_s0 c <> None /\ ci_s1 c <> None.
(** i is the first index of h whose element has property P. *)
Definition first_with (P : cinfo F -> Prop) (h : list (cinfo F)) (i : nat) : Prop :=
  (exists c, nth_error h i = Some c /\ P c) /\ forall j c, j < i -> nth_error h j = Some c -> ~ P c.

Lemma assoc_sym (c : cinfo F) a b : cinfo_assoc c a b = cinfo_assoc c b a.
Proof.
  unfold cinfo_assoc, str_is, and_then, or_else. destruct (ci_s0 c) as [x|], (ci_s1 c) as [y|]; cbn [option_map]; try reflexivity;
    destruct (String.eqb x a), (String.eqb x b); try destruct (String.eqb y a); try destruct (String.eqb y b); reflexivity.
Qed.
Lemma assoc_spec (c : cinfo F) a b : bound c -> exists r, cinfo_assoc c a b = Some r /\ (r = true <-> pair_of c a b).
Proof.
  unfold bound, cinfo_assoc, pair_of, str_is, and_then, or_else. destruct (ci_s0 c) as [x|], (ci_s1 c) as [y|]; intros [H1 H2]; try congruence. cbn [option_map].
  destruct (String.eqb_spec x a) as [A1|A1], (String.eqb_spec y b) as [A2|A2], (String.eqb_spec x b) as [A3|A3], (String.eqb_spec y a) as [A4|A4];
    eexists; (split; [reflexivity|]); split; intros H; try discriminate; try reflexivity;
    try (left; split; congruence); try (right; split; congruence); try (exfalso; destruct H as [[H3 H4]|[H3 H4]]; congruence).
Qed.
Lemma find_spec (t : cinfo F -> option bool) (P : cinfo F -> Prop) h : Forall (fun c => exists r, t c = Some r /\ (r = true <-> P c)) h ->
  forall k, (exists i, find_from k t h = Some (Some (k + i)) /\ first_with P h i) \/ (find_from k t h = Some None /\ Forall (fun c => ~ P c) h).
Proof.
  induction 1 as [|c h (r & T & R) H IH]; intros k; cbn [find_from]; [right; auto|]. rewrite T. destruct r.
  - left. exists 0. rewrite Nat.add_0_r. split; [reflexivity|]. split; [exists c; split; [reflexivity|now apply R]|]. intros j d Hj. lia.
  - assert (NP : ~ P c) by (intros Q; apply R in Q; discriminate). destruct (IH (S k)) as [(i & E & (d & D1 & D2) & M)|[E M]].
    + left. exists (S i). rewrite E. split; [do 2 f_equal; lia|]. split; [exists d; auto|]. intros [|j] e Hj He; [injection He as <-; exact NP|]. apply (M j); auto. lia.
    + right. split; [exact E|]. constructor; auto.
Qed.
Lemma first_unique P h i j : first_with P h i -> first_with P h j -> i = j.
Proof.
  intros [(c & A1 & A2) A3] [(d & B1 & B2) B3]. destruct (lt_eq_lt_dec i j) as [[H|H]|H]; auto; exfalso; [eapply B3|eapply A3]; eauto.
Qed.
Lemma find_iff (t : cinfo F -> option bool) P h : Forall (fun c => exists r, t c = Some r /\ (r = true <-> P c)) h ->
  (forall i, find_from 0 t h = Some (Some i) <-> first_with P h i) /\ (find_from 0 t h = Some None <-> Forall (fun c => ~ P c) h) /\ find_from 0 t h <> None.
Proof.
  intros H. destruct (find_spec t P h H 0) as [(i & E & FI)|[E M]]; rewrite E.
  - split; [|split; [|discriminate]].
    + intros j. split; [intros Q; injection Q as <-; exact FI|]. intros Q. now rewrite (first_unique P h _ _ FI Q).
    + split; [discriminate|]. intros M. destruct FI as [(c & C1 & C2) _]. rewrite Forall_forall in M. exfalso. exact (M c (nth_error_In _ _ C1) C2).
  - split; [|split; [tauto|discriminate]]. intros i. split; [discriminate|]. intros [(c & C1 & C2) _]. rewrite Forall_forall in M. exfalso. exact (M c (nth_error_In _ _ C1) C2).
Qed.

(** C45.  The order of the two keys is irrelevant, whatever the array contains. *)
Theorem C45_symmetric (h : list (cinfo F)) (s1 s2 : option string) (t : ctype) :
  carray_assoc h s1 s2 = carray_assoc h s2 s1 /\ carray_assoc_type h s1 s2 t = carray_assoc_type h s2 s1 t.
Proof.
  destruct s1 as [a|], s2 as [b|]; try (split; reflexivity). unfold carray_assoc, carray_assoc_type.
  assert (E : forall (f g : cinfo F -> option bool), (forall c, f c = g c) -> forall k, find_from k f h = find_from k g h).
  { intros f g Q. induction h as [|c r IH]; intros k; cbn [find_from]; [reflexivity|]. rewrite Q. destruct (g c) as [[]|]; auto. }
  split; apply E; intros c; now rewrite assoc_sym.
Qed.
(** The first entry with the two keys is found, and none exactly if there is none. *)
Theorem C45_first (h : list (cinfo F)) (a b : string) : Forall bound h ->
  (forall i, carray_assoc h (Some a) (Some b) = Some (Some i) <-> first_with (fun c => pair_of c a b) h i) /\
  (carray_assoc h (Some a) (Some b) = Some None <-> Forall (fun c => ~ pair_of c a b) h) /\
  carray_assoc h (Some a) (Some b) <> None.
Proof. intros B. apply find_iff. eapply Forall_impl; [|exact B]. intros c. apply assoc_spec. Qed.
(** The same among the entries of a type. *)
Theorem C45_first_of_type (h : list (cinfo F)) (a b : string) (t : ctype) : Forall bound h ->
  (forall i, carray_assoc_type h (Some a) (Some b) t = Some (Some i) <-> first_with (fun c => ci_type c = t /\ pair_of c a b) h i) /\
  (carray_assoc_type h (Some a) (Some b) t = Some None <-> Forall (fun c => ~ (ci_type c = t /\ pair_of c a b)) h) /\
  carray_assoc_type h (Some a) (Some b) t <> None.
Proof.
  intros B. apply find_iff. eapply Forall_impl; [|exact B]. intros c Bc. destruct (assoc_spec c a b Bc) as (r & E & R).
  assert (TE : ctype_eqb (ci_type c) t = true <-> ci_type c = t) by (destruct (ci_type c), t; cbn; split; auto; discriminate).
  destruct (ctype_eqb (ci_type c) t) eqn:Q; cbn [and_then].
  - exists r. split; [exact E|]. rewrite R. tauto.
  - exists false. split; [reflexivity|]. split; [discriminate|]. intros [A _]. apply TE in A. discriminate.
Qed.
(** A missing key finds nothing. *)
Theorem C45_missing (h : list (cinfo F)) (s : option string) (t : ctype) :
  carray_assoc h None s = Some None /\ carray_assoc h s None = Some None /\ carray_assoc_type h None s t = Some None /\ carray_assoc_type h s None t = Some None.
Proof. destruct s; repeat split. Qed.

(** ** Files *)
Lemma set_at_split (p : list (cinfo F)) c d t : set_at (length p) d (p ++ c :: t) = p ++ d :: t.
Proof.
  unfold set_at. rewrite firstn_app, Nat.sub_diag, firstn_all. cbn [firstn]. rewrite app_nil_r. f_equal. f_equal.
  rewrite skipn_app, skipn_all2 by lia. replace (S (length p) - length p) with 1 by lia. reflexivity.
Qed.
Lemma nth_split (p : list (cinfo F)) c t : nth_error (p ++ c :: t) (length p) = Some c.
Proof. rewrite nth_error_app2 by lia. now rewrite Nat.sub_diag. Qed.
(** The entry being read is found at the latest. *)
Lemma assoc_found (p t : list (cinfo F)) c a b : Forall bound p -> ci_s0 c = Some a -> ci_s1 c = Some b -> exists j, carray_assoc (p ++ c :: t) (Some a) (Some b) = Some (Some j) /\ j <= length p.
Proof.
  intros B S0 S1. unfold carray_assoc. enough (G : forall k, exists j, find_from k (fun c => cinfo_assoc c a b) (p ++ c :: t) = Some (Some (k + j)) /\ j <= length p).
  { destruct (G 0) as (j & E & LE). eauto. }
  induction B as [|d p Bd B IH]; intros k; cbn [app find_from length].
  - exists 0. unfold cinfo_assoc, str_is. rewrite S0, S1. cbn [option_map]. rewrite !String.eqb_refl. cbn. rewrite Nat.add_0_r. auto.
  - destruct (assoc_spec d a b Bd) as ([] & -> & _).
    + exists 0. rewrite Nat.add_0_r. split; [reflexivity|lia].
    + destruct (IH (S k)) as (j & -> & LE). exists (S j). split; [do 2 f_equal; lia|lia].
Qed.
Lemma read_section (p t : list (cinfo F)) c ks w : Forall bound p -> cinfo_print c = Some ks ->
  exists w', keys_eval (p ++ cinfo_init :: t) (length p) ks w = Some (p ++ c :: t, w').
Proof.
  intros B PR. unfold cinfo_print in PR. destruct c as [[a|] [b|] ty p0 p1 sf kf]; try discriminate. cbn [ci_s0 ci_s1 ci_type ci_p0 ci_p1 ci_sf ci_kf] in PR.
  assert (K1 : exists wb, key_eval (p ++ cinfo_init :: t) (length p) (KBind a b) = Some (p ++ CI (Some a) (Some b) CRigid 0%num 0%num 0%num 0%num :: t, wb)).
  { unfold key_eval. rewrite nth_split, set_at_split. cbn [ci_type ci_p0 ci_p1 ci_sf ci_kf cinfo_init].
    destruct (assoc_found p t (CI (Some a) (Some b) CRigid 0%num 0%num 0%num 0%num) a b B eq_refl eq_refl) as (j & -> & _). eauto. }
  destruct K1 as (wb & K1). destruct ty; injection PR as <-; cbn [app keys_eval]; rewrite K1;
    (do 4 (unfold key_eval at 1; rewrite nth_split, set_at_split; cbn [ci_s0 ci_s1 ci_type ci_p0 ci_p1 ci_sf ci_kf])); eauto.
Qed.
(** C64.  What is printed is read back, in the same order, duplicates included. *)
Theorem C64_round_trip (h : list (cinfo F)) : h <> [] -> Forall bound h ->
  exists f w, carray_print h = Some f /\ carray_read f = Some (Some (h, w)).
Proof.
  intros NE B. assert (PR : forall h, Forall bound h -> exists f, carray_print h = Some f /\ length f = length h).
  { clear. induction 1 as [|c h [B1 B2] H (f & E & LE)]; [exists []; auto|]. cbn [carray_print]. unfold cinfo_print.
    destruct (ci_s0 c); [|congruence]. destruct (ci_s1 c); [|congruence]. rewrite E. eexists. split; [reflexivity|]. cbn. now rewrite LE. }
  destruct (PR h B) as (f & E & LE). exists f.
  assert (G : forall h f p w, Forall bound h -> Forall bound p -> carray_print h = Some f ->
    exists w', sections_eval (p ++ repeat cinfo_init (length h)) (length p) f w = Some (p ++ h, w')).
  { clear. induction h as [|c h IH]; intros f p w B BP E; [injection E as <-; cbn; rewrite app_nil_r; eauto|].
    cbn [carray_print] in E. destruct (cinfo_print c) as [ks|] eqn:PC; [|discriminate]. destruct (carray_print h) as [t|]; [|discriminate]. injection E as <-.
    inversion B as [|? ? Bc Bh]; subst. cbn [length repeat sections_eval]. destruct (read_section p (repeat cinfo_init (length h)) c ks w BP PC) as (w' & ->).
    destruct (IH t (p ++ [c]) w' Bh) as (w2 & Q); [apply Forall_app; auto|reflexivity|]. rewrite <- !app_assoc in Q. cbn [app] in Q. rewrite app_length in Q. cbn [length] in Q. rewrite Nat.add_1_r in Q. eauto. }
  destruct (G h f [] 0 B (Forall_nil _) E) as (w & Q). cbn [app length] in Q. exists w. split; [exact E|]. unfold carray_read. rewrite LE, Q.
  destruct f; [destruct h; [congruence|discriminate]|reflexivity].
Qed.
(** The keys of a section that decide on the type, and the type that the last of them gives. *)
Definition key_type (k : ckey F) : option ctype := match k with KComp _ | KRelax _ => Some CRigid | KElas _ | KVisc _ => Some CElastic | _ => None end.
Definition last_type (ks : list (ckey F)) (t : ctype) : ctype := fold_left (fun t k => match key_type k with Some t' => t' | None => t end) ks t.
(** "The last found keyword has priority". *)
Theorem C64_last_keyword (h h' : list (cinfo F)) (i w w' : nat) (ks : list (ckey F)) (c c' : cinfo F) :
  keys_eval h i ks w = Some (h', w') -> nth_error h i = Some c -> nth_error h' i = Some c' -> ci_type c' = last_type ks (ci_type c).
Proof.
  revert h w c. induction ks as [|k ks IH]; intros h w c E Hc Hc'; cbn [keys_eval] in E.
  - injection E as <- <-. cbn. congruence.
  - assert (G : forall d, nth_error (set_at i d h) i = Some d).
    { intros d. unfold set_at. assert (LI : i < length h) by (apply nth_error_Some; congruence). rewrite nth_error_app2; rewrite firstn_length_le by lia; [|lia]. now rewrite Nat.sub_diag. }
    destruct (key_eval h i k) as [[h1 b]|] eqn:K; [|discriminate].
    assert (T1 : exists c1, nth_error h1 i = Some c1 /\ ci_type c1 = match key_type k with Some t' => t' | None => ci_type c end).
    { unfold key_eval in K. rewrite Hc in K. destruct k as [a d| | | | | |]; try (injection K as <- <-; eexists; split; [apply G|reflexivity]).
      destruct (carray_assoc _ _ _) as [[j|]|]; [| |discriminate]; injection K as <- <-; eexists; (split; [apply G|reflexivity]). }
    destruct T1 as (c1 & H1 & T1). rewrite (IH h1 _ c1 E H1 Hc'), T1. cbn [last_type fold_left]. reflexivity.
Qed.

(** A file that gives all coefficients is read as the creation functions make them, whatever the order of the keys in each section. *)
Definition given (t : ctype) (x y sf kf : F) (a b : string) : list (ckey F) :=
  match t with
  | CRigid => [KBind a b; KComp x; KRelax y; KStatic sf; KKinetic kf]
  | CElastic => [KBind a b; KElas x; KVisc y; KStatic sf; KKinetic kf]
  end.
Definition created (t : ctype) (x y sf kf : F) (a b : string) : cinfo F :=
  match t with CRigid => rigid_create x y sf kf (Some a) (Some b) | CElastic => elastic_create x y sf kf (Some a) (Some b) end.

(** The effect of a key on an entry. *)
Definition turn (c : cinfo F) (k : ckey F) : cinfo F :=
  match k with
  | KBind a b => CI (Some a) (Some b) (ci_type c) (ci_p0 c) (ci_p1 c) (ci_sf c) (ci_kf c)
  | KStatic x => CI (ci_s0 c) (ci_s1 c) (ci_type c) (ci_p0 c) (ci_p1 c) x (ci_kf c)
  | KKinetic x => CI (ci_s0 c) (ci_s1 c) (ci_type c) (ci_p0 c) (ci_p1 c) (ci_sf c) x
  | KComp x => CI (ci_s0 c) (ci_s1 c) CRigid x (ci_p1 c) (ci_sf c) (ci_kf c)
  | KRelax x => CI (ci_s0 c) (ci_s1 c) CRigid (ci_p0 c) x (ci_sf c) (ci_kf c)
  | KElas x => CI (ci_s0 c) (ci_s1 c) CElastic x (ci_p1 c) (ci_sf c) (ci_kf c)
  | KVisc x => CI (ci_s0 c) (ci_s1 c) CElastic (ci_p0 c) x (ci_sf c) (ci_kf c)
  end.
Lemma nth_at (p : list (cinfo F)) c t : nth_error (p ++ c :: t) (length p) = Some c.
Proof. rewrite nth_error_app2, Nat.sub_diag by lia. reflexivity. Qed.
Lemma find_before (t : cinfo F -> option bool) p c r : Forall (fun c => t c <> None) p -> t c = Some true ->
  forall k, exists j, find_from k t (p ++ c :: r) = Some (Some j).
Proof.
  intros H T. induction H as [|d p D H IH]; intros k; cbn [app find_from]; [rewrite T; eauto|].
  destruct (t d) as [[]|]; [eauto | apply IH | easy].
Qed.
Lemma keys_turn (p : list (cinfo F)) t ks : Forall bound p -> forall c w,
  exists w', keys_eval (p ++ c :: t) (length p) ks w = Some (p ++ fold_left turn ks c :: t, w').
Proof.
  intros B. induction ks as [|k ks IH]; intros c w; cbn [keys_eval fold_left]; [eauto|]. unfold key_eval. rewrite nth_at.
  destruct k as [a b|x|x|x|x|x|x]; cbv zeta; rewrite set_at_split; try (exact (IH (turn c (KStatic x)) w)); try (exact (IH (turn c (KKinetic x)) w));
    try (exact (IH (turn c (KComp x)) w)); try (exact (IH (turn c (KRelax x)) w)); try (exact (IH (turn c (KElas x)) w)); try (exact (IH (turn c (KVisc x)) w)).
  unfold carray_assoc.
  destruct (find_before (fun c => cinfo_assoc c a b) p (turn c (KBind a b)) t) with (k := 0) as (j & E).
  - eapply Forall_impl; [|exact B]. intros d Bd. destruct (assoc_spec d a b Bd) as (r & -> & _). discriminate.
  - unfold cinfo_assoc. cbn [turn ci_s0 ci_s1 str_is option_map]. rewrite !String.eqb_refl. reflexivity.
  - unfold turn in E at 1. rewrite E. apply (IH (turn c (KBind a b))).
Qed.
(** What an entry keeps of one kind of keys, all of them equal. *)
Lemma turn_last {A} (g : cinfo F -> A) (is : ckey F -> Prop) (v : A) ks : (forall k, is k \/ ~ is k) ->
  (forall c k, is k -> In k ks -> g (turn c k) = v) -> (forall c k, ~ is k -> g (turn c k) = g c) ->
  forall c, (g c = v \/ exists k, In k ks /\ is k) -> g (fold_left turn ks c) = v.
Proof.
  intros D. induction ks as [|k ks IH]; intros H1 H2 c H; cbn [fold_left].
  - destruct H as [H|(k & [] & _)]. exact H.
  - apply IH; [intros d e He Hin; apply H1; [assumption | now right] | assumption|].
    destruct (D k) as [K|K].
    + left. apply H1; [assumption | now left].
    + destruct H as [H|(e & [<-|He] & Hi)]; [left; now rewrite H2 | now elim K | right; eauto].
Qed.
Lemma turn_given t x y sf kf a b ks c : Permutation ks (given t x y sf kf a b) -> fold_left turn ks c = created t x y sf kf a b.
Proof.
  intros P. assert (I : forall k, In k ks <-> In k (given t x y sf kf a b)).
  { intros k. split; apply Permutation_in; [assumption | now symmetry]. }
  assert (S0 : ci_s0 (fold_left turn ks c) = Some a).
  { apply (turn_last _ (fun k => match k with KBind _ _ => True | _ => False end)).
    - intros []; cbn; auto.
    - intros d k Hk Hin. apply I in Hin. destruct t; cbn in Hin; intuition (subst; cbn in *; tauto || reflexivity).
    - intros d [] Hk; cbn in *; tauto.
    - right. exists (KBind a b). split; [apply I; destruct t; cbn; auto | exact Logic.I]. }
  assert (S1 : ci_s1 (fold_left turn ks c) = Some b).
  { apply (turn_last _ (fun k => match k with KBind _ _ => True | _ => False end)).
    - intros []; cbn; auto.
    - intros d k Hk Hin. apply I in Hin. destruct t; cbn in Hin; intuition (subst; cbn in *; tauto || reflexivity).
    - intros d [] Hk; cbn in *; tauto.
    - right. exists (KBind a b). split; [apply I; destruct t; cbn; auto | exact Logic.I]. }
  assert (ST : ci_type (fold_left turn ks c) = t).
  { apply (turn_last _ (fun k => match k with KComp _ | KRelax _ | KElas _ | KVisc _ => True | _ => False end)).
    - intros []; cbn; auto.
    - intros d k Hk Hin. apply I in Hin. destruct t; cbn in Hin; intuition (subst; cbn in *; tauto || reflexivity).
    - intros d [] Hk; cbn in *; tauto.
    - right. exists (match t with CRigid => KComp x | CElastic => KElas x end). destruct t; (split; [apply I; cbn; auto | exact Logic.I]). }
  assert (SX : ci_p0 (fold_left turn ks c) = x).
  { apply (turn_last _ (fun k => match k with KComp _ | KElas _ => True | _ => False end)).
    - intros []; cbn; auto.
    - intros d k Hk Hin. apply I in Hin. destruct t; cbn in Hin; intuition (subst; cbn in *; tauto || reflexivity).
    - intros d [] Hk; cbn in *; tauto.
    - right. exists (match t with CRigid => KComp x | CElastic => KElas x end). destruct t; (split; [apply I; cbn; auto | exact Logic.I]). }
  assert (SY : ci_p1 (fold_left turn ks c) = y).
  { apply (turn_last _ (fun k => match k with KRelax _ | KVisc _ => True | _ => False end)).
    - intros []; cbn; auto.
    - intros d k Hk Hin. apply I in Hin. destruct t; cbn in Hin; intuition (subst; cbn in *; tauto || reflexivity).
    - intros d [] Hk; cbn in *; tauto.
    - right. exists (match t with CRigid => KRelax y | CElastic => KVisc y end). destruct t; (split; [apply I; cbn; auto | exact Logic.I]). }
  assert (SS : ci_sf (fold_left turn ks c) = sf).
  { apply (turn_last _ (fun k => match k with KStatic _ => True | _ => False end)).
    - intros []; cbn; auto.
    - intros d k Hk Hin. apply I in Hin. destruct t; cbn in Hin; intuition (subst; cbn in *; tauto || reflexivity).
    - intros d [] Hk; cbn in *; tauto.
    - right. exists (KStatic sf). split; [apply I; destruct t; cbn; auto | exact Logic.I]. }
  assert (SK : ci_kf (fold_left turn ks c) = kf).
  { apply (turn_last _ (fun k => match k with KKinetic _ => True | _ => False end)).
    - intros []; cbn; auto.
    - intros d k Hk Hin. apply I in Hin. destruct t; cbn in Hin; intuition (subst; cbn in *; tauto || reflexivity).
    - intros d [] Hk; cbn in *; tauto.
    - right. exists (KKinetic kf). split; [apply I; destruct t; cbn; auto 6 | exact Logic.I]. }
  destruct (fold_left turn ks c) as [s0 s1 ty p0 p1 f0 f1]. cbn in *. subst. unfold created. now destruct t.
Qed.
(** One entry of a file: type, the two coefficients of the type, the two of friction, the keys. *)
Definition entry := (ctype * F * F * F * F * string * string)%type.
Theorem C64_created (es : list entry) (f : list (list (ckey F))) : es <> [] ->
  Forall2 (fun ks '(t, x, y, sf, kf, a, b) => Permutation ks (given t x y sf kf a b)) f es ->
  exists w, carray_read f = Some (Some (map (fun '(t, x, y, sf, kf, a, b) => created t x y sf kf a b) es, w)).
Proof.
  intros Ne H. assert (G : forall p w, Forall bound p ->
    exists w', sections_eval (p ++ repeat cinfo_init (length f)) (length p) f w = Some (p ++ map (fun '(t, x, y, sf, kf, a, b) => created t x y sf kf a b) es, w')).
  { clear Ne. induction H as [|ks e f es He H IH]; intros p w B; cbn [sections_eval length repeat map].
    - eauto.
    - destruct e as [[[[[[t x] y] sf] kf] a] b]. destruct (keys_turn p (repeat cinfo_init (length f)) ks B cinfo_init w) as (w1 & E).
      rewrite E, (turn_given _ _ _ _ _ _ _ _ _ He).
      destruct (IH (p ++ [created t x y sf kf a b]) w1) as (w2 & E2).
      + apply Forall_app. split; [assumption|]. constructor; [|constructor]. unfold created. destruct t; split; discriminate.
      + exists w2. rewrite <- !app_assoc, app_length in E2. cbn [app length] in E2. rewrite Nat.add_1_r in E2. exact E2. }
  destruct (G [] 0 (Forall_nil _)) as (w & E). exists w. unfold carray_read. destruct f; [inversion H; subst; easy|].
  cbn [app length] in E. cbn [length]. rewrite E. reflexivity.
Qed.
End Thms.

(** ** Refutations *)
Local Open Scope string_scope.

(** A section without "bind" makes the reader dereference a null key at the next section. *)
Theorem C64_unbound_refuted : ~ (forall f : list (list (ckey Qc)), carray_read f <> None).
Proof. intros H. apply (H [[KComp (qz 1)]; [KBind "a" "b"]]). reflexivity. Qed.
(** A coefficient that the file does not give is not always zero: it may be one of the other type. *)
Theorem C64_leak_refuted : ~ (forall (ks : list (ckey Qc)) c w, carray_read [ks] = Some (Some ([c], w)) -> ci_type c = CRigid ->
  (forall x, ~ In (KRelax x) ks) -> ci_p1 c = qz 0).
Proof.
  intros H. assert (E := H [KBind "a" "b"; KElas (qz 5); KVisc (qz 7); KComp (qz 3)] (CI (Some "a") (Some "b") CRigid (qz 3) (qz 7) (qz 0) (qz 0)) 0%nat eq_refl eq_refl).
  revert E. cbn [ci_p1]. intros E. apply (qne (qz 7) (qz 0)); [reflexivity|]. apply E. intros x [Q|[Q|[Q|[Q|[]]]]]; discriminate.
Qed.
(** rkContactInfoArrayWriteZTK does not write to the given file. *)
Theorem C64_write_refuted : ~ (forall (buf : string) (fs fs' : files Qc) h filename, h <> [] -> Forall bound h ->
  carray_write buf fs h filename = Some fs' -> exists w, carray_read_file fs' filename = Some (Some (h, w))).
Proof.
  intros H. set (h := [rigid_create (qz 1) (qz 2) (qz 3) (qz 4) (Some "a") (Some "b")]).
  assert (B : Forall bound h) by (constructor; [split; discriminate|constructor]). assert (NE : h <> []) by discriminate.
  destruct (H ""%string (fun _ => None) _ h "out.ztk" NE B eq_refl) as (w & E). discriminate E.
Qed.

(** ** Examples *)
Definition infos : list (cinfo Qc) :=
  [rigid_create (qz 1) (qz 2) (qz 3) (qz 4) (Some "wood") (Some "iron"); elastic_create (qz 5) (qz 6) (qz 7) (qz 8) (Some "iron") (Some "rubber");
   elastic_create (qz 9) (qz 1) (qz 2) (qz 3) (Some "iron") (Some "wood"); rigid_create (qz 1) (qz 1) (qz 1) (qz 1) (Some "rubber") (Some "rubber")].
Lemma infos_bound : Forall bound infos. Proof. repeat constructor; discriminate. Qed.
Example C45_ex : carray_assoc infos (Some "wood") (Some "iron") = Some (Some 0) /\ carray_assoc infos (Some "rubber") (Some "iron") = Some (Some 1) /\
  carray_assoc_type infos (Some "wood") (Some "iron") CElastic = Some (Some 2) /\ carray_assoc infos (Some "wood") (Some "wood") = Some None.
Proof. repeat split. Qed.
Example C45_ex_first : first_with (fun c => pair_of c "wood" "iron") infos 0 /\ first_with (fun c => ci_type c = CElastic /\ pair_of c "wood" "iron") infos 2.
Proof.
  split; [apply (proj1 (C45_first infos "wood" "iron" infos_bound))|apply (proj1 (C45_first_of_type infos "wood" "iron" CElastic infos_bound))]; reflexivity.
Qed.
(** Two entries for one pair of keys are both read back; the second causes a warning. *)
Example C64_ex : exists f, carray_print infos = Some f /\ carray_read f = Some (Some (infos, 1)).
Proof. eexists. split; reflexivity. Qed.
Example C64_ex_last : last_type [KBind "a" "b"; KElas (qz 5); KVisc (qz 7); KComp (qz 3); KStatic (qz 1)] CElastic = CRigid.
Proof. reflexivity. Qed.

(** Two sections with their keys in different orders. *)
Example C64_ex_created : carray_read [[KKinetic (qz 4); KRelax (qz 2); KBind "a" "b"; KComp (qz 1); KStatic (qz 3)];
    [KVisc (qz 6); KStatic (qz 7); KKinetic (qz 8); KElas (qz 5); KBind "c" "b"]]
  = Some (Some ([rigid_create (qz 1) (qz 2) (qz 3) (qz 4) (Some "a"%string) (Some "b"%string);
                 elastic_create (qz 5) (qz 6) (qz 7) (qz 8) (Some "c"%string) (Some "b"%string)], 0)).
Proof. reflexivity. Qed.

Print Assumptions C45_symmetric.
Print Assumptions C45_first.
Print Assumptions C45_first_of_type.
Print Assumptions C45_missing.
Print Assumptions C64_round_trip.
Print Assumptions C64_last_keyword.
Print Assumptions C64_created.
Print Assumptions C64_unbound_refuted.
Print Assumptions C64_leak_refuted.
Print Assumptions C64_write_refuted.
