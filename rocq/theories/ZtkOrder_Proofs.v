(** * ZtkOrder_Proofs: exchanging keys of a section of a chain file. *)
From Coq Require Import Bool String List Arith Lia Permutation.
From Verif Require Import Num NumFacts Vec Motor_Model Joint_Model Body_Model Tree Tree_Proofs Link_Model Ztk_Model ZtkOrder_Spec.
Import ListNotations.

Section ZO.
Context {F : Type} {N : Num F} {E : Ext F} {Z : ZtkLib}.
Notation key := (key F).

(** ** Exchange in [eval_keys] *)
Section Gen.
Context {A : Type} (h : A -> key -> option (A * bool)) (P : A -> Prop).
(** In the states considered the key does not fail. *)
Definition does (k : key) : Prop := forall s s' ok, P s -> h s k = Some (s', ok) -> ok = true /\ P s'.
Definition comm (a b : key) : Prop := forall s, P s -> obind (h s a) (fun p => option_map fst (h (fst p) b)) = obind (h s b) (fun p => option_map fst (h (fst p) a)).
Lemma eval_swap l a b m : Forall does l -> does a -> does b -> comm a b -> forall s, P s -> eval_keys h s (l ++ a :: b :: m) = eval_keys h s (l ++ b :: a :: m).
Proof.
  intros DL DA DB CM. induction l as [|k l IH]; intros s Ps.
  - cbn [app eval_keys]. specialize (CM s Ps).
    assert (T : forall x y, does x -> does y -> obind (h s x) (fun '(s', ok) => if ok then obind (h s' y) (fun '(s', ok) => if ok then eval_keys h s' m else if z_stop_key then Some (s', false) else option_map (fun '(s'', _) => (s'', false)) (eval_keys h s' m))
        else if z_stop_key then Some (s', false) else option_map (fun '(s'', _) => (s'', false)) (obind (h s' y) (fun '(s', ok) => if ok then eval_keys h s' m else if z_stop_key then Some (s', false) else option_map (fun '(s'', _) => (s'', false)) (eval_keys h s' m)))) =
      obind (obind (h s x) (fun p => option_map fst (h (fst p) y))) (fun s => eval_keys h s m)).
    { intros x y DX DY. destruct (h s x) as [[s1 o1]|] eqn:Q1; [|reflexivity]. destruct (DX _ _ _ Ps Q1) as [-> P1]. cbn [obind fst]. destruct (h s1 y) as [[s2 o2]|] eqn:Q2; [|reflexivity]. destruct (DY _ _ _ P1 Q2) as [-> _]. reflexivity. }
    rewrite (T a b DA DB), (T b a DB DA), CM. reflexivity.
  - inversion DL as [|? ? D1 D2]; subst. cbn [app eval_keys]. destruct (h s k) as [[s1 o1]|] eqn:Q; [|reflexivity]. destruct (D1 _ _ _ Ps Q) as [-> P1]. cbn [obind]. apply IH; assumption.
Qed.
Lemma eval_does l : Forall does l -> forall s s' ok, P s -> eval_keys h s l = Some (s', ok) -> ok = true /\ P s'.
Proof.
  induction 1 as [|k l D _ IH]; intros s s' ok Ps H; cbn [eval_keys] in H; [injection H as <- <-; auto|].
  destruct (h s k) as [[s1 o1]|] eqn:Q; [|discriminate]. destruct (D _ _ _ Ps Q) as [-> P1]. cbn [obind] in H. eauto.
Qed.
End Gen.

(** ** Joints *)
Definition jkey (k : key) : bool :=
  match k with KDis _ | KMin _ | KMax _ | KStiff _ | KVisc _ | KCoul _ | KSf _ | KMotor _ | KForceTh _ | KTorqueTh _ => true | _ => false end.
Lemma joint_key_other arr j k : jkey k = false -> joint_key arr j k = Some (j, true).
Proof. destruct k; intros H; try discriminate H; reflexivity. Qed.
Definition one {A} (_ : A) : Prop := True.

Local Ltac red1 := cbn [option_map obind fst snd s_name s_kind joint_motor joint_set_motor jtype_of has_axes units rv_m pr_m cy_m hk_m sp_m].
Local Ltac reads := repeat (match goal with
  | H : rd1 ?x = _ |- context [rd1 ?x] => rewrite H
  | H : rd2 ?x = _ |- context [rd2 ?x] => rewrite H
  | H : rd3 ?x = _ |- context [rd3 ?x] => rewrite H
  | H : rd6 ?x = _ |- context [rd6 ?x] => rewrite H
  | H : slot_find ?a ?x = _ |- context [slot_find ?a ?x] => rewrite H
  | |- context [rd1 ?x] => destruct (rd1 x) eqn:?
  | |- context [rd2 ?x] => destruct (rd2 x) as [[? ?]|] eqn:?
  | |- context [rd3 ?x] => destruct (rd3 x) eqn:?
  | |- context [rd6 ?x] => destruct (rd6 x) eqn:?
  | |- context [slot_find ?a ?x] => destruct (slot_find a x) as [[? [?|]]|] eqn:?
  end; red1).
Lemma clash_sym a b : clash (F := F) a b = clash b a.
Proof. destruct a, b; try reflexivity; cbn [clash]; [now destruct f, f0|apply String.eqb_sym]. Qed.
Lemma comm_noop {A} (h : A -> key -> option (A * bool)) P a b : (forall s, h s a = Some (s, true)) -> comm h P a b.
Proof. intros H s _. rewrite H. cbn [obind fst]. destruct (h s b) as [[s' ok]|]; [|reflexivity]. cbn [obind fst option_map]. now rewrite H. Qed.
Lemma comm_sym {A} (h : A -> key -> option (A * bool)) P a b : comm h P a b -> comm h P b a.
Proof. intros H s Ps. symmetry. auto. Qed.
Lemma joint_comm arr a b : clash a b = false -> comm (joint_key arr) one a b.
Proof.
  intros C. destruct (jkey a) eqn:Ja; [|apply comm_noop; intros; now apply joint_key_other]. destruct (jkey b) eqn:Jb; [|apply comm_sym, comm_noop; intros; now apply joint_key_other].
  intros j _. destruct a; try discriminate Ja; destruct b; try discriminate Jb; try discriminate C; destruct j; unfold joint_key, okay, joint_set_dis, joint_set_min, joint_set_max, joint_coef, joint_set_gen, joint_motor_key; 
    destruct arr as [arr|]; red1; try reflexivity; reads; try reflexivity.
Qed.
Definition joint_fine (arr : option (list (mslot F))) (k : key) : Prop := match k with KMotor s => forall a, arr = Some a -> slot_find a s <> None | _ => True end.
Lemma joint_does arr k : joint_fine arr k -> does (joint_key arr) one k.
Proof.
  intros J j j' ok _ H. split; [|exact I]. destruct k; cbn [joint_key] in H; unfold okay in H; try (injection H as <- <-; reflexivity);
    try (match type of H with option_map _ ?x = _ => destruct x; [injection H as <- <-; reflexivity|discriminate] end).
  unfold joint_motor_key in H. destruct (joint_motor j); [|injection H as <- <-; reflexivity]. destruct arr as [a|]; [|discriminate]. cbn [obind joint_fine] in *.
  destruct (slot_find a s) as [sl|] eqn:Q; [|destruct (J a eq_refl Q)]. destruct (s_kind sl); [injection H as <- <-; reflexivity|discriminate].
Qed.

(** ** Motors *)
Definition motor_fine (k : key) : Prop := match k with KType t => motor_query_assign (F := F) (Mot None MNone) t <> None | _ => True end.
Lemma query_name n t : option_map m_kind (motor_query_assign (F := F) (Mot n MNone) t) = option_map m_kind (motor_query_assign (Mot None MNone) t).
Proof. unfold motor_query_assign. induction motor_com_array as [|c l IH]; [reflexivity|]. cbn [motor_query]. destruct (String.eqb t (mcom_typestr c)); [destruct c; reflexivity|exact IH]. Qed.
Lemma motor_does k : motor_fine k -> does motor_key one k.
Proof.
  intros M s s' ok _ H. split; [|exact I]. destruct k; unfold motor_key in H; try congruence. pose proof (query_name (s_name s) s0) as Q. cbn [motor_fine] in M.
  destruct (motor_query_assign (Mot (s_name s) MNone) s0) in H, Q; [congruence|]. destruct (motor_query_assign (Mot None MNone) s0); [discriminate Q|now destruct M].
Qed.
Lemma motor_comm a b : clash a b = false -> comm motor_key one a b.
Proof.
  intros C. destruct a; try (apply comm_noop; intros; reflexivity); destruct b; try (apply comm_sym, comm_noop; intros; reflexivity); try discriminate C; intros s1 _.
  - unfold motor_key. cbn [obind fst option_map s_name s_kind]. pose proof (query_name (Some s) s0) as Q. pose proof (query_name (s_name s1) s0) as Q'.
    destruct (motor_query_assign (Mot (Some s) MNone) s0), (motor_query_assign (Mot (s_name s1) MNone) s0), (motor_query_assign (Mot None MNone) s0); try discriminate Q; try discriminate Q'; [|reflexivity]. cbn [option_map] in *. cbn [obind fst snd option_map s_name s_kind]. congruence.
  - unfold motor_key. cbn [obind fst option_map s_name s_kind]. pose proof (query_name (Some s0) s) as Q. pose proof (query_name (s_name s1) s) as Q'.
    destruct (motor_query_assign (Mot (Some s0) MNone) s), (motor_query_assign (Mot (s_name s1) MNone) s), (motor_query_assign (Mot None MNone) s); try discriminate Q; try discriminate Q'; [|reflexivity]. cbn [option_map] in *. cbn [obind fst snd option_map s_name s_kind]. congruence.
Qed.
Lemma mkind_does k : does mkind_key one k.
Proof. intros m m' ok _ H. split; [|exact I]. destruct m, k; cbn [mkind_key] in H; try (injection H as <- <-; reflexivity); match type of H with option_map _ ?x = _ => destruct x; [injection H as <- <-; reflexivity|discriminate] end. Qed.
Lemma dc_comm f g x y (p : dcprp F) : dcfield_eqb f g = false -> dc_set g y (dc_set f x p) = dc_set f x (dc_set g y p).
Proof. destruct f, g; try discriminate; reflexivity. Qed.
Lemma mkind_comm a b : clash a b = false -> comm mkind_key one a b.
Proof.
  intros C m _. destruct m as [|p|p].
  - destruct a, b; reflexivity.
  - destruct a; try (destruct b; reflexivity). destruct b; try reflexivity. cbn [clash] in C. cbn [mkind_key obind fst option_map]. now rewrite dc_comm.
  - destruct a; try (destruct b; cbn [mkind_key obind fst option_map]; reads; reflexivity); destruct b; try discriminate C; cbn [mkind_key obind fst option_map]; repeat (reads; cbn [mkind_key obind fst option_map]); reflexivity.
Qed.

(** ** Links *)
Definition link_fine (names shapes : list string) (k : key) : Prop :=
  match k with
  | KName s => ~ In s names
  | KJointType t => joint_query joint_com_array t <> None
  | KShape s => In s shapes
  | _ => True
  end.
Lemma find_name_in l s : In s l -> find_name l s <> None.
Proof. induction l as [|n l IH]; intros H; [destruct H|]. cbn [find_name]. destruct (String.eqb_spec n s) as [_|NE]; [discriminate|]. destruct H as [H|H]; [congruence|]. specialize (IH H). destruct (find_name l s); [discriminate|congruence]. Qed.
Lemma link_does names shapes k : link_fine names shapes k -> does (link_key names shapes) one k.
Proof.
  intros H r r' ok _ Q. split; [|exact I]. destruct k; cbn [link_key link_fine] in *; try (injection Q as <- <-; reflexivity).
  - destruct (existsb (String.eqb s) names) eqn:X; [|injection Q as <- <-; reflexivity]. apply existsb_exists in X as (n & In_ & Eq). apply String.eqb_eq in Eq. subst n. now destruct H.
  - unfold joint_query_assign in Q. destruct (joint_query joint_com_array s) as [t|]; [|now destruct H]. destruct (joint_assign t); [injection Q as <- <-; reflexivity|discriminate].
  - destruct shapes; [discriminate|]. pose proof (find_name_in _ _ H). destruct (find_name _ s); [injection Q as <- <-; reflexivity|congruence].
Qed.
Lemma link_comm names shapes a b : clash a b = false -> comm (link_key names shapes) one a b.
Proof.
  intros C r _. destruct a; try (apply (comm_noop (link_key names shapes) one); [intros; reflexivity|exact I]); destruct b; try (apply (comm_sym (link_key names shapes) one), comm_noop; [intros; reflexivity|exact I]); try discriminate C;
   cbn [link_key obind fst option_map];
   repeat (match goal with
     | |- context [existsb ?f ?l] => destruct (existsb f l) eqn:?
     | |- context [joint_query_assign ?j ?s] => destruct (joint_query_assign j s) as [[? []]|] eqn:?
     | H : find_name ?l ?s = _ |- context [find_name ?l ?s] => rewrite H
     | |- context [find_name ?l ?s] => destruct (find_name l s) eqn:?
     | |- context [match shapes with _ => _ end] => destruct shapes
     end; cbn [obind fst option_map rl_name rl_joint rl_body rl_org]); try reflexivity.
Qed.

(** ** Exchange with a key that does nothing *)
Lemma eval_skip {A} (h : A -> key -> option (A * bool)) k l : (forall s, h s k = Some (s, true)) -> forall m s, eval_keys h s (l ++ k :: m) = eval_keys h s (l ++ m).
Proof. intros H m. induction l as [|a l IH]; intros s; cbn [app eval_keys]; [now rewrite H|]. destruct (h s a) as [[s' []]|]; cbn [obind]; [apply IH|destruct z_stop_key; [reflexivity|now rewrite IH]|reflexivity]. Qed.
Lemma eval_skip2 {A} (h : A -> key -> option (A * bool)) a b l m : (forall s, h s a = Some (s, true)) -> forall s, eval_keys h s (l ++ a :: b :: m) = eval_keys h s (l ++ b :: a :: m).
Proof.
  intros H s. rewrite (eval_skip h a l H). change (l ++ b :: a :: m) with (l ++ [b] ++ a :: m). rewrite (app_assoc l [b]), (eval_skip h a (l ++ [b]) H m), <- app_assoc. reflexivity.
Qed.

(** ** Sections *)
Lemma reordered_perm l m : reordered (F := F) l m -> Permutation l m.
Proof. induction 1 as [l|l a b m C|l m n _ IH1 _ IH2]; [apply Permutation_refl| |eapply Permutation_trans; eauto]. apply Permutation_app_head. apply perm_swap. Qed.
Lemma reordered_eval {A} (h : A -> key -> option (A * bool)) (P : A -> Prop) (fine : key -> Prop) :
  (forall k, fine k -> does h P k) -> (forall a b, fine a -> fine b -> clash a b = false -> comm h P a b) ->
  forall l m, reordered l m -> Forall fine l -> forall s, P s -> eval_keys h s l = eval_keys h s m.
Proof.
  intros D C. induction 1 as [l|l a b m K|l m n R1 IH1 R2 IH2]; intros FL s Ps; [reflexivity| |].
  - apply Forall_app in FL as [F1 F2]. inversion F2 as [|? ? Fa F3]; subst. inversion F3 as [|? ? Fb F4]; subst. apply (eval_swap h P); auto. eapply Forall_impl; [|exact F1]. auto.
  - rewrite IH1 by assumption. apply IH2; [|assumption]. apply Forall_forall. intros k Ik. rewrite Forall_forall in FL. apply FL. eapply Permutation_in; [apply Permutation_sym, reordered_perm; exact R1|exact Ik].
Qed.
Lemma reordered_plain {A} (h : A -> key -> option (A * bool)) : (forall a b, clash a b = false -> (forall s, h s a = Some (s, true)) \/ (forall s, h s b = Some (s, true))) ->
  forall l m, reordered l m -> forall s, eval_keys h s l = eval_keys h s m.
Proof.
  intros D. induction 1 as [l|l a b m K|l m n R1 IH1 R2 IH2]; intros s; [reflexivity| |congruence]. destruct (D a b K) as [H|H]; [now apply eval_skip2|symmetry; now apply eval_skip2].
Qed.
Lemma motor_reordered l m : reordered l m -> (forall t, In (KType t) l -> motor_query_assign (F := F) (Mot None MNone) t <> None) -> motor_read l = motor_read m.
Proof.
  intros R H. unfold motor_read. rewrite (reordered_eval motor_key one motor_fine motor_does (fun a b _ _ => motor_comm a b) l m R).
  - destruct (eval_keys motor_key _ m) as [[s ok]|]; [|reflexivity]. cbn [obind]. destruct ok; [|reflexivity]. destruct (s_kind s) as [k|]; [|reflexivity]. cbn [obind]. f_equal.
    apply (reordered_eval mkind_key one one (fun k _ => mkind_does k) (fun a b _ _ => mkind_comm a b) l m R); [apply Forall_forall; intros; exact I|exact I].
  - apply Forall_forall. intros k Ik. destruct k; try exact I. exact (H _ Ik).
  - exact I.
Qed.
Lemma link_reordered names shapes arr l m : reordered l m -> Forall (link_fine names shapes) l -> Forall (joint_fine arr) l -> link_read names shapes arr l = link_read names shapes arr m.
Proof.
  intros R A B. unfold link_read. rewrite (reordered_eval (link_key names shapes) one _ (link_does names shapes) (fun a b _ _ => link_comm names shapes a b) l m R A) by exact I.
  destruct (eval_keys _ _ m) as [[r ok]|]; [|reflexivity]. cbn [obind]. destruct ok; [|reflexivity]. destruct (match rl_joint r with Some _ => _ | None => _ end) as [j|]; [|reflexivity]. cbn [obind]. f_equal.
  apply (reordered_eval (joint_key arr) one _ (joint_does arr) (fun a b _ _ => joint_comm arr a b) l m R B). exact I.
Qed.
Lemma connect_reordered i (l m : list key) : reordered l m -> forall h, eval_keys (connect_key i) h l = eval_keys (connect_key i) h m.
Proof. apply reordered_plain. intros a b C. destruct a; try (left; reflexivity). destruct b; try (right; reflexivity). discriminate C. Qed.
Lemma chain_reordered (l m : list key) : reordered l m -> forall h, eval_keys chain_key h l = eval_keys chain_key h m.
Proof. apply reordered_plain. intros a b C. destruct a; try (left; reflexivity). destruct b; try (right; reflexivity). discriminate C. Qed.

(** ** The initial state *)
Lemma find_name_at l s i : find_name l s = Some i -> nth_error l i = Some s.
Proof.
  revert i. induction l as [|n l IH]; intros i H; cbn [find_name] in H; [discriminate|]. destruct (String.eqb_spec n s) as [->|_]; [injection H as <-; reflexivity|].
  destruct (find_name l s) as [k|]; [|discriminate]. injection H as <-. cbn. auto.
Qed.
Definition init_fine (names : list string) (k : key) : Prop := match k with KJoint s _ => In s names | _ => True end.
(** Both sorts of keys change one link. *)
Definition at_link (i : nat) (g : link F -> option (link F)) (h : list (link F)) : option (list (link F) * bool) :=
  obind (nth_error h i) (fun l => option_map (fun l' => (set_nth i l' h, true)) (g l)).
Definition orgf (f : frame F -> frame F) (l : link F) : option (link F) :=
  Some (Link (l_name l) (l_joint l) (l_body l) (l_offset l) (f (l_org l)) (l_adj l) (l_wrench l) (l_parent l) (l_child l) (l_sibl l)).
Definition setj (d : list F) (l : link F) : option (link F) :=
  match l_joint l with JFixed => None | j => option_map (fun '(j', _) => l_set_joint j' l) (joint_key None j (KDis d)) end.
Lemma init_org h k f : (match k with KPos v => f = (fun o => Fr v (fatt o)) | KAtt m => f = (fun o => Fr (fpos o) m) | KFrame g => f = (fun _ => g) | _ => False end) -> init_key h k = at_link 0 (orgf f) h.
Proof. destruct k; intros H; try contradiction; subst f; cbn [init_key]; unfold at_link, orgf, lset; destruct (nth_error h 0); reflexivity. Qed.
Lemma init_joint h s d i : find_name (map l_name h) s = Some i -> init_key h (KJoint s d) = at_link i (setj d) h.
Proof.
  intros Q. cbn [init_key]. rewrite Q. unfold at_link, setj, lset. destruct (nth_error h i) as [l|]; [|reflexivity]. cbn [obind].
  destruct (l_joint l); try reflexivity; destruct (joint_key None _ (KDis d)) as [[j' ok]|]; reflexivity.
Qed.
Definition keeps (g : link F -> option (link F)) : Prop := forall l l', g l = Some l' -> l_name l' = l_name l.
Lemma orgf_keeps f : keeps (orgf f). Proof. intros l l' H. injection H as <-. reflexivity. Qed.
Lemma setj_keeps d : keeps (setj d).
Proof. intros l l' H. unfold setj in H. destruct (l_joint l); try discriminate; destruct (joint_key None _ (KDis d)) as [[j ok]|]; try discriminate; injection H as <-; reflexivity. Qed.
Lemma at_names i g h h' ok : keeps g -> at_link i g h = Some (h', ok) -> ok = true /\ map l_name h' = map l_name h.
Proof.
  intros K H. unfold at_link in H. destruct (nth_error h i) as [l|] eqn:Q; [|discriminate]. cbn [obind] in H. destruct (g l) as [l'|] eqn:G; [|discriminate]. injection H as <- <-. split; [reflexivity|].
  apply K in G. clear -Q G. revert i Q. induction h as [|a h IH]; intros [|i] Q; try discriminate; cbn in *; [injection Q as ->; now rewrite G|now rewrite IH].
Qed.
Lemma set_nth_swap {A} (l : list A) : forall i j x y, i <> j -> set_nth i x (set_nth j y l) = set_nth j y (set_nth i x l).
Proof. induction l as [|a l IH]; intros [|i] [|j] x y H; cbn; try reflexivity; [lia|]. f_equal. apply IH. lia. Qed.
Lemma set_nth_again {A} (l : list A) : forall i x y, set_nth i y (set_nth i x l) = set_nth i y l.
Proof. induction l as [|a l IH]; intros [|i] x y; cbn; try reflexivity. f_equal. apply IH. Qed.
Lemma at_comm i j g g' h : (i = j -> forall l, obind (g l) g' = obind (g' l) g) ->
  obind (at_link i g h) (fun p => option_map fst (at_link j g' (fst p))) = obind (at_link j g' h) (fun p => option_map fst (at_link i g (fst p))).
Proof.
  intros C. unfold at_link. destruct (Nat.eq_dec i j) as [->|NE].
  - specialize (C eq_refl). destruct (nth_error h j) as [l|] eqn:Q; [|reflexivity]. cbn [obind]. specialize (C l). assert (LT : j < length h) by (apply nth_error_Some; congruence).
    assert (T : forall (f f' : link F -> option (link F)), obind (option_map (fun l' => (set_nth j l' h, true)) (f l)) (fun p => option_map fst (obind (nth_error (fst p) j) (fun l => option_map (fun l' => (set_nth j l' (fst p), true)) (f' l)))) =
      option_map (fun l' => set_nth j l' h) (obind (f l) f')).
    { intros f f'. destruct (f l) as [l1|]; [|reflexivity]. cbn [option_map obind fst]. rewrite set_nth_same by exact LT. cbn [obind]. destruct (f' l1); [|reflexivity]. cbn [option_map fst]. now rewrite set_nth_again. }
    rewrite !T. now rewrite C.
  - assert (NE' : j <> i) by congruence. destruct (nth_error h i) as [l|] eqn:Qi, (nth_error h j) as [m|] eqn:Qj; cbn [obind].
    + destruct (g l) as [l'|] eqn:G, (g' m) as [m'|] eqn:G'; cbn [option_map obind fst]; rewrite ?(set_nth_other i j _ _ NE), ?(set_nth_other j i _ _ NE'), ?Qi, ?Qj; cbn [obind]; rewrite ?G, ?G'; cbn [option_map fst]; [|reflexivity..].
      now rewrite set_nth_swap by congruence.
    + destruct (g l) as [l'|]; cbn [option_map obind fst]; [|reflexivity]. rewrite (set_nth_other i j _ _ NE), Qj. reflexivity.
    + destruct (g' m) as [m'|]; cbn [option_map obind fst]; [|reflexivity]. rewrite (set_nth_other j i _ _ NE'), Qi. reflexivity.
    + reflexivity.
Qed.
(** The link a key is about, what it does to it. *)
Definition init_at (names : list string) (k : key) : option (nat * (link F -> option (link F))) :=
  match k with
  | KPos v => Some (0, orgf (fun o => Fr v (fatt o)))
  | KAtt m => Some (0, orgf (fun o => Fr (fpos o) m))
  | KFrame f => Some (0, orgf (fun _ => f))
  | KJoint s d => option_map (fun i => (i, setj d)) (find_name names s)
  | _ => None
  end.
Lemma init_at_eq names h k : map l_name h = names -> init_fine names k -> init_key h k = match init_at names k with Some (i, g) => at_link i g h | None => Some (h, true) end.
Proof.
  intros M H. subst names. destruct k; try reflexivity; try (now apply init_org). cbn [init_at init_fine] in *. apply find_name_in in H. destruct (find_name (map l_name h) s) as [i|] eqn:Q; [|congruence]. cbn [option_map]. now apply init_joint.
Qed.
Lemma init_keeps names k i g : init_at names k = Some (i, g) -> keeps g.
Proof. destruct k; cbn [init_at]; intros H; try discriminate; try (injection H as <- <-; apply orgf_keeps). destruct (find_name names s); [|discriminate]. injection H as <- <-. apply setj_keeps. Qed.
Lemma init_does names k : init_fine names k -> does init_key (fun h => map l_name h = names) k.
Proof.
  intros FI h h' ok Ph H. rewrite (init_at_eq names h k Ph FI) in H. destruct (init_at names k) as [[i g]|] eqn:Q; [|injection H as <- <-; auto].
  destruct (at_names i g h h' ok (init_keeps _ _ _ _ Q) H) as [-> M]. split; [reflexivity|congruence].
Qed.
Lemma setj_orgf d f l : obind (setj d l) (orgf f) = obind (orgf f l) (setj d).
Proof.
  unfold setj, orgf. cbn [obind l_joint]. destruct (l_joint l); try reflexivity; destruct (joint_key None _ (KDis d)) as [[j ok]|]; reflexivity.
Qed.
Lemma init_comm names a b : init_fine names a -> init_fine names b -> clash a b = false -> comm init_key (fun h => map l_name h = names) a b.
Proof.
  intros FA FB C h Ph. rewrite (init_at_eq names h a Ph FA), (init_at_eq names h b Ph FB).
  assert (T : forall k k' i g, init_fine names k' -> init_at names k = Some (i, g) -> obind (at_link i g h) (fun p => option_map fst (init_key (fst p) k')) =
     obind (at_link i g h) (fun p => option_map fst (match init_at names k' with Some (i, g) => at_link i g (fst p) | None => Some (fst p, true) end))).
  { intros k k' i g FK Q. destruct (at_link i g h) as [[h' ok]|] eqn:AT; [|reflexivity]. cbn [obind fst]. destruct (at_names i g h h' ok (init_keeps _ _ _ _ Q) AT) as [_ M]. rewrite (init_at_eq names h' k') by congruence. reflexivity. }
  destruct (init_at names a) as [[i g]|] eqn:Qa, (init_at names b) as [[j g']|] eqn:Qb.
  - rewrite (T a b i g FB Qa), (T b a j g' FA Qb), Qa, Qb. apply at_comm. intros <- l.
    destruct a; cbn [init_at] in Qa; try discriminate Qa; destruct b; cbn [init_at] in Qb; try discriminate Qb; try discriminate C; cbn [clash] in C;
      repeat match goal with H : option_map _ (find_name names ?s) = Some _ |- _ => destruct (find_name names s) as [?k|] eqn:?; [cbn [option_map] in H|discriminate H] end;
      injection Qa as Ei Eg; injection Qb as Ej Eg'; subst; try reflexivity; try apply setj_orgf; try (symmetry; apply setj_orgf).
    exfalso. repeat match goal with H : find_name _ _ = Some _ |- _ => apply find_name_at in H end. apply String.eqb_neq in C. congruence.
  - rewrite (T a b i g FB Qa), Qb. cbn [obind fst]. rewrite (init_at_eq names h a Ph FA), Qa. destruct (at_link i g h) as [[h' ok]|]; reflexivity.
  - rewrite (T b a j g' FA Qb), Qa. cbn [obind fst]. rewrite (init_at_eq names h b Ph FB), Qb. destruct (at_link j g' h) as [[h' ok]|]; reflexivity.
  - cbn [obind fst]. now rewrite (init_at_eq names h a Ph FA), (init_at_eq names h b Ph FB), Qa, Qb.
Qed.
Lemma init_reordered names l m h : reordered l m -> Forall (init_fine names) l -> map l_name h = names -> eval_keys init_key h l = eval_keys init_key h m.
Proof. intros R H M. apply (reordered_eval init_key (fun h => map l_name h = names) (init_fine names) (init_does names) (init_comm names) l m R H h M). Qed.
End ZO.
